(* Model of the comparison of graphs up to the numbers of their nodes: is_isomorphic and
   get_automorphisms (skmine/graph/graphmdl/utils.py 684-737), for graphs with at most one edge
   from a node to another (networkx.DiGraph; an undirected Graph is one with every edge both ways, for
   which GraphMatcher makes the same tests).

   The search is networkx: DiGraphMatcher(g1, g2).isomorphisms_iter() gives every one-to-one map of the
   nodes of g1 onto those of g2 that keeps edges and non-edges and satisfies node_match (283-309) on the
   nodes and edge_match (312-325) on the edges, both modelled in MatchModel.  Here all one-to-one maps are
   listed and tested; [order] is the order in which networkx finds them, and the entries of a map are in
   the order of the nodes. *)
From Verif Require Import Prelude CheckModel LCMModel GraphUtilModel GraphCoverModel MatchModel.

Section Iso.
  Context {L : Type} `{EqDec L}.
  (* nodes with their label attribute, edges with theirs, in networkx's order *)
  Record lgraph := { l_nodes : dict nat (option (label L)); l_edges : dict (nat * nat) (option L) }.
  Variable order : list (list (nat * nat)) -> list (list (nat * nat)).

  (* the one-to-one maps of [ns] onto [ms] *)
  Fixpoint bijections (ns ms : list nat) : list (list (nat * nat)) :=
    match ns with
    | [] => match ms with [] => [[]] | _ => [] end
    | n :: r => flat_map (fun k => map (cons (n, k)) (bijections r (remove eq_dec k ms))) ms
    end.
  (* the tests of networkx on a complete map *)
  Definition keeps_edge (g p : lgraph) (x y : nat * nat) : bool :=
    match dget (l_edges g) (fst x, fst y), dget (l_edges p) (snd x, snd y) with
    | Some l1, Some l2 => edge_match l1 l2
    | None, None => true
    | _, _ => false
    end.
  Definition keeps (g p : lgraph) (e : list (nat * nat)) : bool :=
    forallb (fun x => node_match (label_at (l_nodes g) (fst x)) (label_at (l_nodes p) (snd x))) e &&
    forallb (fun x => forallb (keeps_edge g p x) e) e.
  Definition isomorphisms (g p : lgraph) : list (list (nat * nat)) :=
    order (filter (keeps g p) (bijections (dkeys (l_nodes g)) (dkeys (l_nodes p)))).
  (* 684-707; networkx compares the numbers of nodes and the degrees before it searches, which changes
     nothing *)
  Definition is_isomorphic (graph pattern : lgraph) : bool :=
    match isomorphisms graph pattern with [] => false | _ => true end.
  (* 710-737 *)
  Definition get_automorphisms (graph : lgraph) : list (list (nat * nat)) := isomorphisms graph graph.
End Iso.
Arguments lgraph : clear implicits.
