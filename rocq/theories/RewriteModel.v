(* Model of the ports and of the rewritten graph made by the cover,
   skmine/graph/graphmdl/code_table.py.  It extends GraphCoverModel: the cover
   below runs the same steps and records the ports of every use; that the
   uses are the same is a lemma of PropRewrite.

   Simplifications: those of GraphCoverModel; the nodes of the rewritten graph
   are created after the uses are known instead of one by one during the
   cover (neither reads what the other writes); the 'port' attribute of data
   nodes is never read by the search and left to DataPortModel. *)
From Verif Require Import Prelude CheckModel LCMModel GraphUtilModel GraphCoverModel.

Section Ports.
  Context {L : Type} `{EqDec L}.
  Variable substr : L -> L -> bool.
  Variable set_order : list (nat * nat) -> list (nat * nat).
  Variable multi : bool.
  Variable g : data L.

  (* len(graph.in_edges(n)) + len(graph.out_edges(n)) *)
  Definition degree (es : list (nat * nat * L)) (n : nat) : nat :=
    length (filter (fun e => snd (fst e) =? n) es) + length (filter (fun e => fst (fst e) =? n) es).
  (* the edges of a pattern one by one; parallel edges have one name each *)
  Definition pattern_edges (p : pattern L) : list (nat * nat * L) :=
    flat_map (fun pe => map (fun l => (fst pe, l)) (snd pe)) (p_edges p).

  (* code_table.py 636-659, [is_node_edges_marked], for directed graphs *)
  Definition is_node_edges_marked (n : nat) (p : pattern L) (a : nat) : outcome bool :=
    if mem n (dkeys (d_nodes g)) && mem a (dkeys (p_nodes p))
    then Ret (degree (d_edges g) n =? degree (pattern_edges p) a)
    else Exn ValueError.

  (* code_table.py 661-687, [is_node_all_labels_marked] *)
  Definition is_node_all_labels_marked (m : marks L) (n : nat) : outcome bool :=
    match dget (d_nodes g) n with
    | None => Exn ValueError
    | Some None => Ret true
    | Some (Some (Name l)) => is_node_marked substr g m n l
    | Some (Some (Names ls)) | Some (Some (NameList ls)) =>
        fold_out (fun b l => bind (is_node_marked substr g m n l) (fun c => Ret (b && c))) ls true
    end.

  (* code_table.py 603-634, [search_port]; the test is
     [not edges_marked or not all_labels_marked] *)
  Definition is_port (m : marks L) (p : pattern L) (n a : nat) : outcome bool :=
    bind (is_node_edges_marked n p a) (fun b =>
      if negb b then Ret true
      else bind (is_node_all_labels_marked m n) (fun c => Ret (negb c))).
  Definition search_port (m : marks L) (p : pattern L) (e : list (nat * nat)) : outcome (list (nat * nat)) :=
    fold_out (fun res kv => bind (is_port m p (fst kv) (snd kv)) (fun b =>
                Ret (if b then res ++ [kv] else res))) e [].

  (* a use with its ports (pairs of a data node and a pattern node); a use of
     a row carries the position of the row in the table *)
  Record entry := { e_use : use L; e_row : option nat; e_ports : list (nat * nat) }.

  (* code_table.py 765-773 *)
  Definition edge_pattern_turn' (i : nat) (p : pattern L) (s : marks L * list entry) (e : list (nat * nat))
    : outcome (marks L * list entry) :=
    bind (is_embedding_marked set_order multi g (fst s) e p) (fun b =>
      if b then Ret s
      else bind (mark_embedding substr set_order multi g (fst s) e p) (fun m =>
           bind (search_port m p e) (fun ports =>
           Ret (m, snd s ++ [{| e_use := RowUse p e; e_row := Some i; e_ports := ports |}])))).
  (* code_table.py 774-792: here the ports are searched before the marking *)
  Definition node_pattern_turn' (i : nat) (p : pattern L) (s : marks L * list entry) (e : list (nat * nat))
    : outcome (marks L * list entry) :=
    fold_out (fun s kv =>
      match dget (p_nodes p) (snd kv) with
      | Some (Some lab) =>
          bind (is_node_labels_marked substr g (fst s) (fst kv) lab) (fun b =>
            if b then Ret s
            else bind (search_port (fst s) p e) (fun ports =>
                 bind (mark_node substr g (fst s) (fst kv) lab) (fun m =>
                 Ret (m, snd s ++ [{| e_use := RowUse p e; e_row := Some i; e_ports := ports |}]))))
      | _ => Exn KeyError
      end) e s.
  (* code_table.py 753-795, [row_cover] *)
  Definition row_cover' (s : marks L * list entry) (ir : nat * row L) : outcome (marks L * list entry) :=
    let '(i, r) := ir in
    match p_edges (r_pattern r) with
    | [] => fold_out (node_pattern_turn' i (r_pattern r)) (r_embeddings r) s
    | _ => fold_out (edge_pattern_turn' i (r_pattern r)) (r_embeddings r) s
    end.
  (* code_table.py 812-825: an edge singleton has its two ends as ports *)
  Definition edge_singleton_turn' (s : marks L * list entry) (e : nat * nat * L)
    : outcome (marks L * list entry) :=
    let '(u, v, l) := e in
    bind (is_edge_marked multi g (fst s) u v l) (fun b =>
      if b then Ret s
      else bind (mark_edge substr multi g (fst s) u v l) (fun m =>
           Ret (m, snd s ++ [{| e_use := EdgeUse u v l; e_row := None; e_ports := [(u, 1); (v, 2)] |}]))).
  (* code_table.py 826-845: a vertex singleton has its node as port *)
  Definition vertex_singleton_turn' (n : nat) (s : marks L * list entry) (l : L)
    : outcome (marks L * list entry) :=
    bind (is_node_marked substr g (fst s) n l) (fun b =>
      if b then Ret s
      else bind (mark_node substr g (fst s) n (Name l)) (fun m =>
           Ret (m, snd s ++ [{| e_use := VertexUse n l; e_row := None; e_ports := [(n, 1)] |}]))).
  Definition node_singleton_turn' (s : marks L * list entry) (v : nat * option (label L))
    : outcome (marks L * list entry) :=
    match snd v with
    | None => Ret s
    | Some (Name l) => vertex_singleton_turn' (fst v) s l
    | Some (Names ls) | Some (NameList ls) => fold_out (vertex_singleton_turn' (fst v)) ls s
    end.
  (* code_table.py 797-846, [singleton_cover] *)
  Definition singleton_cover' (s : marks L * list entry) : outcome (marks L * list entry) :=
    bind (fold_out edge_singleton_turn' (d_edges g) s) (fun s =>
    fold_out node_singleton_turn' (d_nodes g) s).
  (* code_table.py 82-103, [cover]; line 99 passes the position of the row *)
  Definition cover' (rows : list (row L)) (m : marks L) : outcome (marks L * list entry) :=
    let m := {| marker := S (marker m); edge_mark := edge_mark m; node_mark := node_mark m |} in
    bind (fold_out row_cover' (combine (seq 0 (length rows)) rows) (m, [])) singleton_cover'.
End Ports.
Arguments entry L : clear implicits.

(* ------------------------------------------------------ rewritten graph *)
Section Rewritten.
  Context {L : Type} `{EqDec L}.
  (* f"P{i}" and str(n), as labels *)
  Variables row_name node_name : nat -> L.

  (* the attributes of a node of the rewritten graph; nodes are numbered from
     1 in the order in which they are added *)
  Record rnode := { r_label : L; is_pattern : bool; is_singleton : bool }.
  Record rgraph := { r_nodes : list rnode; r_edges : list ((nat * nat) * nat) }.

  Definition add_rnode (r : rgraph) (x : rnode) : rgraph :=
    {| r_nodes := r_nodes r ++ [x]; r_edges := r_edges r |}.
  Definition add_redge (r : rgraph) (x y v : nat) : rgraph :=
    {| r_nodes := r_nodes r; r_edges := dset (r_edges r) (x, y) v |}.

  (* the first node with this label, 1-based: [get_key_from_value] on
     dict(rewritten_graph.nodes(data='label')) *)
  Fixpoint labelled (ns : list rnode) (i : nat) (l : L) : option nat :=
    match ns with
    | [] => None
    | x :: t => if eqd (r_label x) l then Some i else labelled t (S i) l
    end.
  (* code_table.py 737-751, [create_rewrite_edge]: any node with the label is
     taken for the port *)
  Definition create_rewrite_edge (r : rgraph) (x : nat) (port : nat * nat) : rgraph :=
    match labelled (r_nodes r) 1 (node_name (fst port)) with
    | Some y => add_redge r x y (snd port)
    | None =>
        let last := length (r_nodes r) in
        add_redge (add_rnode r {| r_label := node_name (fst port); is_pattern := false; is_singleton := false |})
                  x (last + 1) (snd port)
    end.
  (* code_table.py 689-709 [create_pattern_node], 711-721
     [create_vertex_singleton_node], 723-735 [create_edge_singleton_node] *)
  Definition use_node (x : entry L) : rnode :=
    match e_use x with
    | RowUse _ _ => {| r_label := row_name (match e_row x with Some i => i | None => 0 end);
                       is_pattern := true; is_singleton := false |}
    | EdgeUse _ _ l => {| r_label := l; is_pattern := true; is_singleton := true |}
    | VertexUse _ l => {| r_label := l; is_pattern := true; is_singleton := true |}
    end.
  Definition rewrite_use (r : rgraph) (x : entry L) : rgraph :=
    let node := length (r_nodes r) + 1 in
    fold_left (fun r port => create_rewrite_edge r node port) (e_ports x) (add_rnode r (use_node x)).
  Definition rewrite (log : list (entry L)) : rgraph :=
    fold_left rewrite_use log {| r_nodes := []; r_edges := [] |}.
End Rewritten.
Arguments rnode L : clear implicits.
Arguments rgraph L : clear implicits.
