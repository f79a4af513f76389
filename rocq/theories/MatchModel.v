(* Model of the search for the occurrences of a pattern in a data graph,
   skmine/graph/graphmdl/utils.py 283-379: _node_match, _edge_match,
   _edge_match_for_multigraph, get_embeddings.

   The search itself is networkx: subgraph_monomorphisms_iter gives every
   injective map of the pattern nodes to data nodes that satisfies node_match on
   the nodes and, on every pattern edge, edge_match and "at least as many
   parallel edges".  Here all injective maps are listed and tested; [order] is
   the order in which networkx finds them.  The entries of an embedding are in
   the order of the pattern nodes.

   As in GraphCoverModel every edge of the data graph has a name. *)
From Verif Require Import Prelude CheckModel LCMModel GraphUtilModel GraphCoverModel.

Section Match.
  Context {L : Type} `{EqDec L}.
  Variable multi : bool.
  Variable order : list (list (nat * nat)) -> list (list (nat * nat)).

  (* utils.py 283-309, [_node_match]; a label is a string, a tuple or a list,
     None is a node without the attribute *)
  Definition node_match (n1 n2 : option (label L)) : bool :=
    match n1, n2 with
    | Some (Name x), Some (Name y) => eqd x y
    | Some (Names xs), Some (Name y) | Some (NameList xs), Some (Name y) => mem y xs
    | Some (Names xs), Some (Names ys) | Some (Names xs), Some (NameList ys)
    | Some (NameList xs), Some (Names ys) | Some (NameList xs), Some (NameList ys) => forallb (fun i => mem i xs) ys
    | Some (Name _), Some _ => false
    | None, Some _ => false
    | _, None => true
    end.
  (* 312-325, [_edge_match] on the label attributes of two edges; the ValueError
     that is returned, not raised, counts as true *)
  Definition edge_match (e1 e2 : option L) : bool :=
    match e1, e2 with Some x, Some y => eqd x y | _, _ => true end.
  (* 328-345, [_edge_match_for_multigraph] on the names of the parallel edges:
     only the first of each is looked at *)
  Definition edge_match_multi (ls1 ls2 : list L) : bool :=
    match ls1, ls2 with x :: _, y :: _ => mem y [x] | _, _ => false end.

  (* the names of the edges of the data graph from u to v *)
  Definition between (g : data L) (u v : nat) : list L :=
    map snd (filter (fun e => eqd (fst e) (u, v)) (d_edges g)).
  (* the data node of a pattern node *)
  Definition image (e : list (nat * nat)) (a : nat) : option nat :=
    match filter (fun kv => snd kv =? a) e with [] => None | kv :: _ => Some (fst kv) end.
  (* the edge test on the edges between two data nodes *)
  Definition edges_match (ls1 ls2 : list L) : bool :=
    if multi then edge_match_multi ls1 ls2 else edge_match (hd_error ls1) (hd_error ls2).

  Definition label_at (ns : list (nat * option (label L))) (n : nat) : option (label L) :=
    match dget ns n with Some o => o | None => None end.
  Definition matches (g : data L) (p : pattern L) (e : list (nat * nat)) : bool :=
    forallb (fun kv => node_match (label_at (d_nodes g) (fst kv)) (label_at (p_nodes p) (snd kv))) e &&
    forallb (fun pe => match image e (fst (fst pe)), image e (snd (fst pe)) with
                       | Some u, Some v =>
                           let ls := between g u v in
                           negb (length ls =? 0) && (length (snd pe) <=? length ls) && edges_match ls (snd pe)
                       | _, _ => false
                       end) (p_edges p).

  (* the injective maps from [ps] to [ds] *)
  Fixpoint maps (ps : list nat) (ds : list nat) : list (list (nat * nat)) :=
    match ps with
    | [] => [[]]
    | a :: r => flat_map (fun n => map (cons (n, a)) (maps r (remove eq_dec n ds))) ds
    end.
  (* 348-379, [get_embeddings] *)
  Definition get_embeddings (p : pattern L) (g : data L) : list (list (nat * nat)) :=
    order (filter (matches g p) (maps (dkeys (p_nodes p)) (dkeys (d_nodes g)))).
End Match.
