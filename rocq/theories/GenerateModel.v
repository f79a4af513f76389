(* Model of the candidate generation of GraphMDL,
   skmine/graph/graphmdl/utils.py 634-681, 740-757, 891-1004.

   Simplifications: the estimated usage and the number of exclusive ports of
   a candidate are computed in EstimateModel (they only order the candidates;
   the search is proved for every order, see GraphSearchModel); what the
   computation of the usage does to the candidate, [inverse], is here.  Port labels "v3" are the
   numbers 3.  The pattern of a singleton is created once, after the loop;
   line 953 of the code creates it a second time, earlier. *)
From Verif Require Import Prelude CheckModel LCMModel GraphUtilModel GraphCoverModel MergeModel RewriteModel.

Section Generate.
  Context {L : Type} `{EqDec L}.
  Variable ltb : L -> L -> bool.                   (* < on strings *)
  Variable row_index : L -> outcome nat.           (* int(label.split('P')[1]) *)
  Variable pair_order : list (nat * nat) -> list (nat * nat).   (* list(set) *)
  Variable port_order : list nat -> list nat.                   (* list(set) *)
  Variable multi : bool.
  Variable rows : list (net L).                    (* the patterns of the rows *)
  Variables edge_names vertex_names : list L.      (* the keys of the singleton usages *)
  Variable r : rgraph L.

  (* utils.py 901: the nodes without 'is_Pattern' *)
  Definition port_nodes : list nat :=
    map fst (filter (fun v => negb (is_pattern (snd v))) (combine (seq 1 (length (r_nodes r))) (r_nodes r))).
  (* the sources of rewritten_graph.in_edges(q) *)
  Definition in_nodes (q : nat) : list nat :=
    map (fun e => fst (fst e)) (filter (fun e => snd (fst e) =? q) (r_edges r)).

  (* utils.py 740-757, [get_port_candidates] *)
  Fixpoint pairs (l : list nat) : list (nat * nat) :=
    match l with [] => [] | x :: t => map (pair x) t ++ pairs t end.
  Definition get_port_candidates (l : list nat) : list (nat * nat) := pair_order (nodup eq_dec (pairs l)).

  (* utils.py 634-657, [get_two_nodes_all_port] *)
  Definition get_two_nodes_all_port (x y : nat) : list nat :=
    port_order (filter (fun q =>
      length (filter (fun e => eqd (fst e) (x, q) || eqd (fst e) (y, q)) (r_edges r)) =? 2) port_nodes).

  (* utils.py 490-523, [get_edge_label], on the rewritten graph (a DiGraph) *)
  Definition redge_label (x q : nat) : outcome nat :=
    match dget (r_edges r) (x, q) with
    | Some v => Ret v
    | None => match dget (r_edges r) (q, x) with Some v => Ret v | None => Exn ValueError end
    end.
  (* utils.py 660-681, [get_all_candidate_ports_labels_tuple] *)
  Definition port_tuples (ports : list nat) (x y : nat) (inv : bool) : outcome (list (nat * nat)) :=
    fold_out (fun acc q =>
      bind (redge_label x q) (fun a => bind (redge_label y q) (fun b =>
      Ret (acc ++ [if inv then (b, a) else (a, b)])))) ports [].

  (* where the pattern of one side of a candidate comes from *)
  Inductive side := RowSide (i : nat) | SingleSide (l : L).
  (* [j_early]: the pattern of a singleton was created when the candidate
     was, line 953 *)
  Record joined := { j_cand : candidate L nat; j_first : side; j_second : side; j_data : list nat; j_early : bool }.

  Definition node (q : nat) : outcome (rnode L) :=
    match q with
    | 0 => Exn KeyError
    | S i => match nth_error (r_nodes r) i with Some z => Ret z | None => Exn KeyError end
    end.

  (* utils.py 907-960: the candidate of two pattern nodes with a common port *)
  Definition join (c : nat * nat) : outcome joined :=
    bind (node (fst c)) (fun n1 => bind (node (snd c)) (fun n2 =>
      let all := get_two_nodes_all_port (fst c) (snd c) in
      let build l1 l2 s1 s2 inv :=
        bind (port_tuples all (fst c) (snd c) inv) (fun ports =>
        Ret {| j_cand := {| first_label := l1; second_label := l2; port := ports |};
               j_first := s1; j_second := s2; j_data := all;
               j_early := negb (is_singleton n1) && is_singleton n2 |}) in
      let l1 := r_label n1 in let l2 := r_label n2 in
      match is_singleton n1, is_singleton n2 with
      | false, false =>
          bind (row_index l1) (fun i => bind (row_index l2) (fun j =>
          if i <? j then build l1 l2 (RowSide i) (RowSide j) false
          else build l2 l1 (RowSide j) (RowSide i) true))
      | true, false => bind (row_index l2) (fun j => build l2 l1 (RowSide j) (SingleSide l1) true)
      | false, true => bind (row_index l1) (fun i => build l1 l2 (RowSide i) (SingleSide l2) false)
      | true, true =>
          if ltb l1 l2 then build l1 l2 (SingleSide l1) (SingleSide l2) false
          else build l2 l1 (SingleSide l2) (SingleSide l1) true
      end)).

  (* utils.py 961-970: a new candidate is appended, the ports of an equal one
     are added to the first that is equal *)
  Fixpoint add_joined (cs : list joined) (c : joined) : list joined :=
    match cs with
    | [] => [c]
    | x :: t =>
        if candidate_eq (j_cand x) (j_cand c)
        then {| j_cand := j_cand x; j_first := j_first x; j_second := j_second x;
                j_data := union (j_data x) (j_data c); j_early := j_early x |} :: t
        else x :: add_joined t c
    end.

  (* utils.py 900-970 *)
  Definition collect : outcome (list joined) :=
    fold_out (fun cs q =>
      fold_out (fun cs c => bind (join c) (fun j => Ret (add_joined cs j)))
        (get_port_candidates (in_nodes q)) cs) port_nodes [].

  (* utils.py 982-1004, [create_singleton_pattern] *)
  Definition create_singleton_pattern (l : L) : outcome (net L) :=
    if mem l edge_names then Ret (edge_singleton multi l)
    else if mem l vertex_names then Ret (vertex_singleton l)
    else Exn ValueError.
  Definition side_pattern (s : side) : outcome (net L) :=
    match s with
    | RowSide i => match nth_error rows i with Some p => Ret p | None => Exn IndexError end
    | SingleSide l => create_singleton_pattern l
    end.

  Record generated := { g_cand : candidate L nat; g_first : net L; g_second : net L; g_data : list nat }.
  (* utils.py 972-989: the loop over the candidates; [candidate ==
     candidate.inverse()] of line 805-806 is evaluated when both labels are
     equal, and inverts the candidate *)
  Definition finish (j : joined) : outcome generated :=
    bind (side_pattern (j_first j)) (fun p => bind (side_pattern (j_second j)) (fun q =>
      let c := j_cand j in
      Ret {| g_cand := if eqd (first_label c) (second_label c) then snd (equals_own_inverse c) else c;
             g_first := p; g_second := q; g_data := j_data j |})).
  (* utils.py 891-980, [generate_candidates] *)
  Definition generate_candidates : outcome (list generated) :=
    bind collect (fun cs => fold_out (fun acc j => bind (finish j) (fun x => Ret (acc ++ [x]))) cs []).
End Generate.

(* code_table.py 808-846: the keys of the two dicts returned by
   [singleton_cover] *)
Definition edge_names_of {L} (log : list (entry L)) : list L :=
  flat_map (fun x => match e_use x with EdgeUse _ _ l => [l] | _ => [] end) log.
Definition vertex_names_of {L} (log : list (entry L)) : list L :=
  flat_map (fun x => match e_use x with VertexUse _ l => [l] | _ => [] end) log.
(* a pattern of the cover as a pattern of the merge *)
Definition net_of {L} (p : pattern L) : net L := {| n_nodes := p_nodes p; n_edges := pattern_edges p |}.
Arguments joined L : clear implicits.
Arguments generated L : clear implicits.
Arguments side L : clear implicits.
