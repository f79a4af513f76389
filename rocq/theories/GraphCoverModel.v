(* Model of the cover of skmine/graph/graphmdl/code_table.py.

   Simplifications, common to the whole file:
   - every edge of the data graph carries one name; every edge of a pattern
     carries one name (DiGraph) or the list of the names of its parallel
     edges (MultiDiGraph);
   - the keys of parallel edges are 0, 1, 2, ... as networkx numbers them;
   - ports and the rewritten graph are not modelled: they are written by the
     cover but never read by it. *)
From Verif Require Import Prelude CheckModel LCMModel GraphUtilModel.

Fixpoint fold_out {S A} (f : S -> A -> outcome S) (l : list A) (s : S) : outcome S :=
  match l with [] => Ret s | a :: r => bind (f s a) (fold_out f r) end.

Section Cover.
  Context {L : Type} `{EqDec L}.
  (* Python [x in s] for two strings: substring *)
  Variable substr : L -> L -> bool.
  (* iteration order of a Python set of edges *)
  Variable set_order : list (nat * nat) -> list (nat * nat).
  (* is the data graph a MultiDiGraph? *)
  Variable multi : bool.

  (* the data graph, seen through nodes(data=True) and edges(data=True) *)
  Record data := { d_nodes : list (nat * option (label L)); d_edges : list (nat * nat * L) }.
  (* a pattern: its nodes with their label attribute, its edges with their
     names (utils.py 490-523, [get_edge_label]) *)
  Record pattern := { p_nodes : list (nat * option (label L));
                      p_edges : list ((nat * nat) * list L) }.
  (* an embedding: dict from data nodes to pattern nodes *)
  Notation embedding := (list (nat * nat)).
  Record row := { r_pattern : pattern; r_embeddings : list embedding }.

  (* the attributes written by the cover: graph['cover_marker'] and the
     'cover_mark' dicts of edges and nodes *)
  Record marks := { marker : nat; edge_mark : list ((nat * nat * L) * nat);
                    node_mark : list ((nat * L) * nat) }.

  (* what the cover reports: the uses of rows (used_embeddings) and of
     singletons, in order *)
  Inductive use :=
  | RowUse (p : pattern) (e : embedding)
  | EdgeUse (u v : nat) (l : L)
  | VertexUse (n : nat) (l : L).

  Variable g : data.

  Definition has_edge (u v : nat) : bool :=
    existsb (fun e => eqd (fst e) (u, v)) (d_edges g).

  Definition edge_is_marked (m : marks) (u v : nat) (l : L) : bool :=
    match dget (edge_mark m) (u, v, l) with Some c => c =? marker m | None => false end.
  Definition node_is_marked (m : marks) (n : nat) (l : L) : bool :=
    match dget (node_mark m) (n, l) with Some c => c =? marker m | None => false end.
  Definition set_edge (m : marks) (u v : nat) (l : L) : marks :=
    {| marker := marker m; edge_mark := dset (edge_mark m) (u, v, l) (marker m);
       node_mark := node_mark m |}.
  Definition set_node (m : marks) (n : nat) (l : L) : marks :=
    {| marker := marker m; edge_mark := edge_mark m;
       node_mark := dset (node_mark m) (n, l) (marker m) |}.

  (* code_table.py 427-464, [is_edge_marked].  For a multigraph the mark is
     stored on the first parallel edge with that name (410-425), so it is
     determined by the end points and the name; when no parallel edge has the
     name, the function returns a ValueError object, which is true. *)
  Definition is_edge_marked (m : marks) (u v : nat) (l : L) : outcome bool :=
    if negb (has_edge u v) then Exn KeyError
    else if multi && negb (mem (u, v, l) (d_edges g)) then Ret true
    else Ret (edge_is_marked m u v l).

  (* code_table.py 466-495, [mark_edge]: for a DiGraph the test is
     [label in graph[start][end]['label']] on strings *)
  Definition mark_edge (m : marks) (u v : nat) (l : L) : outcome marks :=
    if negb (has_edge u v) then Exn KeyError
    else if multi
    then if mem (u, v, l) (d_edges g) then Ret (set_edge m u v l) else Exn KeyError
    else if existsb (fun e => eqd (fst e) (u, v) && substr l (snd e)) (d_edges g)
    then Ret (set_edge m u v l) else Exn ValueError.

  (* [x in graph.nodes[n]['label']]: KeyError without label; substring test on
     a name, membership in a tuple or list *)
  Definition in_label (n : nat) (l : L) : outcome bool :=
    match dget (d_nodes g) n with
    | Some (Some (Name s)) => Ret (substr l s)
    | Some (Some (Names ls)) | Some (Some (NameList ls)) => Ret (mem l ls)
    | _ => Exn KeyError
    end.

  (* code_table.py 346-363, [is_node_marked] *)
  Definition is_node_marked (m : marks) (n : nat) (l : L) : outcome bool :=
    bind (in_label n l) (fun b =>
      if b then Ret (node_is_marked m n l) else Exn ValueError).

  (* code_table.py 365-379, [is_node_labels_marked]; a list cannot be a dict
     key *)
  Definition is_node_labels_marked (m : marks) (n : nat) (lab : label L) : outcome bool :=
    match lab with
    | Name l => is_node_marked m n l
    | Names ls => fold_out (fun b l => bind (is_node_marked m n l) (fun c => Ret (b && c))) ls true
    | NameList _ => Exn TypeError
    end.

  (* code_table.py 381-408, [mark_node] *)
  Definition mark_node (m : marks) (n : nat) (lab : label L) : outcome marks :=
    match lab with
    | Name l => Ret (set_node m n l)
    | Names ls => fold_out (fun m l => bind (in_label n l) (fun b =>
                              Ret (if b then set_node m n l else m))) ls m
    | NameList _ => Exn TypeError
    end.

  (* utils.py 593-618, [get_edge_in_embedding]: positions i <= j of the
     values of the embedding, both directions *)
  Fixpoint value_pairs (vs : list nat) : list (nat * nat) :=
    match vs with
    | [] => []
    | v :: r => flat_map (fun w => [(v, w); (w, v)]) (v :: r) ++ value_pairs r
    end.
  Definition edges_in (e : embedding) (p : pattern) : list (nat * nat) :=
    set_order (nodup eq_dec
      (filter (fun pq => mem pq (dkeys (p_edges p))) (value_pairs (map snd e)))).

  (* utils.py 621-631, [get_key_from_value] *)
  Definition key_of (e : embedding) (v : nat) : outcome nat :=
    match filter (fun kv => snd kv =? v) e with [] => Exn IndexError | kv :: _ => Ret (fst kv) end.

  (* utils.py 490-523, [get_edge_label], for an edge of the pattern *)
  Definition labels_of (p : pattern) (pq : nat * nat) : outcome (list L) :=
    match dget (p_edges p) pq with Some ls => Ret ls | None => Exn ValueError end.

  (* code_table.py 497-543, [is_embedding_marked].  The reversed branch
     (529-538) asks about an edge that does not exist: KeyError. *)
  Definition is_embedding_marked (m : marks) (e : embedding) (p : pattern) : outcome bool :=
    match edges_in e p with
    | [] => Ret true
    | es =>
      fold_out (fun b pq =>
        bind (labels_of p pq) (fun ls =>
        bind (key_of e (fst pq)) (fun u =>
        bind (key_of e (snd pq)) (fun v =>
          if has_edge u v
          then fold_out (fun b l => bind (is_edge_marked m u v l) (fun c => Ret (b || c))) ls b
          else if has_edge v u then Exn KeyError
          else Ret b)))) es false
    end.

  (* [if 'label' in pattern.nodes[a]: mark_node(...)], code_table.py 576-580 *)
  Definition mark_pattern_node (m : marks) (p : pattern) (a n : nat) : outcome marks :=
    match dget (p_nodes p) a with
    | None => Exn KeyError
    | Some None => Ret m
    | Some (Some lab) => mark_node m n lab
    end.

  (* code_table.py 545-583, [mark_embedding] *)
  Definition mark_embedding (m : marks) (e : embedding) (p : pattern) : outcome marks :=
    fold_out (fun m pq =>
      bind (labels_of p pq) (fun ls =>
      bind (key_of e (fst pq)) (fun u =>
      bind (key_of e (snd pq)) (fun v =>
      bind (if has_edge u v then fold_out (fun m l => mark_edge m u v l) ls m
            else if has_edge v u then Exn KeyError
            else Ret m) (fun m =>
      bind (mark_pattern_node m p (fst pq) u) (fun m =>
      mark_pattern_node m p (snd pq) v)))))) (edges_in e p) m.

  (* code_table.py 765-773: the turn of an embedding of a pattern with edges *)
  Definition edge_pattern_turn (p : pattern) (s : marks * list use) (e : embedding)
    : outcome (marks * list use) :=
    bind (is_embedding_marked (fst s) e p) (fun b =>
      if b then Ret s
      else bind (mark_embedding (fst s) e p) (fun m => Ret (m, snd s ++ [RowUse p e]))).

  (* code_table.py 774-792: the turn of an embedding of a pattern without
     edges, node by node *)
  Definition node_pattern_turn (p : pattern) (s : marks * list use) (e : embedding)
    : outcome (marks * list use) :=
    fold_out (fun s kv =>
      match dget (p_nodes p) (snd kv) with
      | Some (Some lab) =>
          bind (is_node_labels_marked (fst s) (fst kv) lab) (fun b =>
            if b then Ret s
            else bind (mark_node (fst s) (fst kv) lab) (fun m =>
                 Ret (m, snd s ++ [RowUse p e])))
      | _ => Exn KeyError
      end) e s.

  (* code_table.py 753-795, [row_cover] *)
  Definition row_cover (s : marks * list use) (r : row) : outcome (marks * list use) :=
    match p_edges (r_pattern r) with
    | [] => fold_out (node_pattern_turn (r_pattern r)) (r_embeddings r) s
    | _ => fold_out (edge_pattern_turn (r_pattern r)) (r_embeddings r) s
    end.

  (* code_table.py 812-823 *)
  Definition edge_singleton_turn (s : marks * list use) (e : nat * nat * L)
    : outcome (marks * list use) :=
    let '(u, v, l) := e in
    bind (is_edge_marked (fst s) u v l) (fun b =>
      if b then Ret s
      else bind (mark_edge (fst s) u v l) (fun m => Ret (m, snd s ++ [EdgeUse u v l]))).

  (* code_table.py 829-844, one name of one node *)
  Definition vertex_singleton_turn (n : nat) (s : marks * list use) (l : L)
    : outcome (marks * list use) :=
    bind (is_node_marked (fst s) n l) (fun b =>
      if b then Ret s
      else bind (mark_node (fst s) n (Name l)) (fun m => Ret (m, snd s ++ [VertexUse n l]))).
  Definition node_singleton_turn (s : marks * list use) (v : nat * option (label L))
    : outcome (marks * list use) :=
    match snd v with
    | None => Ret s
    | Some (Name l) => vertex_singleton_turn (fst v) s l
    | Some (Names ls) | Some (NameList ls) => fold_out (vertex_singleton_turn (fst v)) ls s
    end.

  (* code_table.py 797-846, [singleton_cover] *)
  Definition singleton_cover (s : marks * list use) : outcome (marks * list use) :=
    bind (fold_out edge_singleton_turn (d_edges g) s) (fun s =>
    fold_out node_singleton_turn (d_nodes g) s).

  (* code_table.py 82-103, [cover]: the cover marker is incremented, the rows
     are used in order, then the singletons *)
  Definition cover (rows : list row) (m : marks) : outcome (marks * list use) :=
    let m := {| marker := S (marker m); edge_mark := edge_mark m; node_mark := node_mark m |} in
    bind (fold_out row_cover rows (m, [])) singleton_cover.
End Cover.
Arguments data L : clear implicits.
Arguments pattern L : clear implicits.
Arguments row L : clear implicits.
Arguments marks L : clear implicits.
Arguments use L : clear implicits.
