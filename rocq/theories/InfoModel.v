(* Model of the reports on a rewritten graph: count_port_node, get_pattern_node_infos,
   get_port_node_infos, get_port_node (skmine/graph/graphmdl/utils.py 1007-1089), on the graphs of
   RewriteModel.

   Port labels "v3" are the numbers 3, as in RewriteModel; the text of a label followed by a port label is
   the pair of both.  rewritten_graph.edges(q), in_edges(q) and out_edges(q) give the edges in the order in
   which they were added. *)
From Verif Require Import Prelude CheckModel LCMModel GraphUtilModel GraphCoverModel RewriteModel.

Section Report.
  Context {L : Type} `{EqDec L}.
  Variable r : rgraph L.
  (* rewritten_graph.nodes(data=True) *)
  Definition numbered : list (nat * rnode L) := combine (seq 1 (length (r_nodes r))) (r_nodes r).
  Definition out_edges (q : nat) : list ((nat * nat) * nat) := filter (fun e => fst (fst e) =? q) (r_edges r).
  Definition in_edges (q : nat) : list ((nat * nat) * nat) := filter (fun e => snd (fst e) =? q) (r_edges r).

  (* utils.py 1007-1020 *)
  Definition count_port_node : nat :=
    fold_left (fun n qz => if is_pattern (snd qz) then n else n + 1) numbered 0.

  (* an element of the lists of get_pattern_node_infos: a list of port labels, or the word 'singleton' *)
  Inductive info := Ports (vs : list nat) | Singleton.
  Definition is_mark (i : info) : bool := match i with Singleton => true | _ => false end.
  Definition pushed (d : dict L (list info)) (l : L) (i : info) : dict L (list info) :=
    match dget d l with Some is => dset d l (is ++ [i]) | None => dset d l [i] end.
  (* 1034-1050: [res] keeps its value from one turn to the next and has none before the first pattern node;
     the UnboundLocalError is written NotImplementedError, which nothing here raises *)
  Definition info_turn (s : dict L (list info) * option (list nat)) (qz : nat * rnode L)
    : outcome (dict L (list info) * option (list nat)) :=
    let '(q, z) := qz in
    let res := if is_pattern z then Some (map snd (out_edges q)) else snd s in
    match res with
    | None => Exn NotImplementedError
    | Some vs =>
        let d := pushed (fst s) (r_label z) (Ports vs) in
        if is_singleton z then
          match dget d (r_label z) with
          | Some is => if existsb is_mark is then Ret (d, res) else Ret (pushed d (r_label z) Singleton, res)
          | None => Exn KeyError
          end
        else Ret (d, res)
    end.
  (* 1023-1052 *)
  Definition get_pattern_node_infos : outcome (dict L (list info)) :=
    bind (fold_out info_turn numbered ([], None)) (fun s => Ret (fst s)).

  (* rewritten_graph.nodes(data=True)[q]['label'] *)
  Definition label_of (q : nat) : outcome L :=
    match q with
    | 0 => Exn KeyError
    | S i => match nth_error (r_nodes r) i with Some z => Ret (r_label z) | None => Exn KeyError end
    end.
  (* 1055-1074 *)
  Definition port_turn (q : nat) (d : dict nat (list (L * nat))) (e : (nat * nat) * nat) : outcome (dict nat (list (L * nat))) :=
    bind (label_of (fst (fst e))) (fun l =>
      Ret (match dget d q with Some is => dset d q (is ++ [(l, snd e)]) | None => dset d q [(l, snd e)] end)).
  Definition get_port_node_infos : outcome (dict nat (list (L * nat))) :=
    fold_out (fun d qz => if is_pattern (snd qz) then Ret d else fold_out (port_turn (fst qz)) (in_edges (fst qz)) d) numbered [].

  (* 1077-1089, as the list of the elements of the set *)
  Definition get_port_node (q : nat) : list nat := nodup eq_dec (map snd (out_edges q)).
End Report.
