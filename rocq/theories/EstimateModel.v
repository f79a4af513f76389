(* Model of how GraphMDL rates and orders its candidates:
   skmine/graph/graphmdl/utils.py 760-888, 972-989, 1055-1074 and
   graph_mdl.py 108, 199-211.

   Simplifications: a usage is a rational (the code divides two ints into a
   float); the string made of a label and a port label, 'P0' + 'v3', is the
   pair of the label and the port number (a port label is 'v' and digits, so
   the last 'v' tells the two apart); the dict of utils.py 772 is not built, only
   the entries that are asked for are. *)
From Verif Require Import Prelude CheckModel LCMModel GraphUtilModel GraphCoverModel MergeModel RewriteModel GenerateModel SplitModel.
From Coq Require Import QArith Qround.

Section Estimate.
  Context {L : Type} `{EqDec L}.
  Variable multi : bool.
  Variable rows : list (net L).                    (* the patterns of the rows *)
  Variables edge_names vertex_names : list L.      (* the keys of the singleton usages *)
  Variable r : rgraph L.

  (* utils.py 1055-1074, [get_port_node_infos], at one port: the labels of
     the uses at this port, each with its port label; a node that is no port,
     or to which no edge leads, is no key *)
  Definition port_infos (q : nat) : outcome (list (L * nat)) :=
    if mem q (port_nodes r) then
      match filter (fun e => Nat.eqb (snd (fst e)) q) (r_edges r) with
      | [] => Exn KeyError
      | es => map_out (fun e => bind (node r (fst (fst e))) (fun z => Ret (r_label z, snd e))) es
      end
    else Exn KeyError.

  (* utils.py 760-784, [compute_pattern_usage]; the ZeroDivisionError for a
     candidate without ports is written NotImplementedError, which nothing
     here raises otherwise *)
  Definition pattern_usage (fmt : list (L * nat)) (ports : list nat) : outcome Q :=
    bind (fold_out (fun n q => bind (port_infos q) (fun is => Ret (n + length (filter (fun i => mem i fmt) is))%nat)) ports 0%nat)
      (fun n => match length fmt with
                | O => Exn NotImplementedError
                | S k => Ret (Z.of_nat n # Pos.of_succ_nat k)
                end).

  (* utils.py 846-859, [compute_pattern_embeddings] *)
  Definition nodes_named (l : L) : nat := length (filter (fun z => eqd (r_label z) l) (r_nodes r)).
  (* code_table.is_ct_edge_singleton(label) *)
  Definition ct_edge (l : L) : bool := mem l edge_names.
  Definition without_edge (p : net L) : bool := match n_edges p with [] => true | _ => false end.
  Definition qmin (x y : Q) : Q := if Qle_bool x y then x else y.

  (* candidate.first_pattern and candidate.second_pattern when the usage is
     estimated: None for a singleton not created yet *)
  Definition made (early : bool) (s : side L) : outcome (option (net L)) :=
    match s with
    | RowSide _ => bind (side_pattern multi rows edge_names vertex_names s) (fun p => Ret (Some p))
    | SingleSide _ => if early then bind (side_pattern multi rows edge_names vertex_names s) (fun p => Ret (Some p)) else Ret None
    end.

  (* utils.py 787-843, [compute_candidate_usage].  The second disjunct of line
     806 is only evaluated when [candidate == candidate.inverse()] is false;
     it asks whether the candidate itself, inverted, is in the list, and it
     always is. *)
  Definition candidate_usage (j : joined L) : outcome Q :=
    let c := j_cand j in
    bind (pattern_usage (map (fun p => (first_label c, fst p)) (port c)) (j_data j)) (fun u1 =>
    bind (pattern_usage (map (fun p => (second_label c, snd p)) (port c)) (j_data j)) (fun u2 =>
    if eqd (first_label c) (second_label c) && fst (equals_own_inverse c) then Ret (inject_Z (Qfloor (u1 / 2)))
    else
      bind (made false (j_first j)) (fun p1 => bind (made (j_early j) (j_second j)) (fun p2 =>
      match p1, p2 with
      | Some p, Some q =>
          Ret (if without_edge p && negb (without_edge q) then u2
               else if without_edge q && negb (without_edge p) then u1
               else if without_edge p && without_edge q then inject_Z (Z.of_nat (nodes_named (first_label c)))
               else qmin u1 u2)
      | None, Some _ => Exn ValueError
      | Some p, None =>
          Ret (if ct_edge (second_label c) then if without_edge p then u2 else qmin u1 u2 else u1)
      | None, None =>
          Ret (if ct_edge (first_label c) && negb (ct_edge (second_label c)) then u1
               else if negb (ct_edge (first_label c)) && ct_edge (second_label c) then u2
               else qmin u1 u2)
      end)))).

  (* utils.py 862-888 and 975-978: the ports of [j] at which every candidate
     of the list is equal to [j] *)
  Definition exclusive_ports (cs : list (joined L)) (j : joined L) : nat :=
    length (filter (fun q => forallb (fun d => negb (mem q (j_data d)) || candidate_eq (j_cand d) (j_cand j)) cs) (j_data j)).

  Record rated := { k_gen : generated L; k_usage : Q; k_exclusive : nat }.
  (* utils.py 972-989: the loop over the candidates.  Estimating the usage of
     the join of a pattern with itself inverts the candidate, in the list *)
  Definition inverted (j : joined L) : joined L :=
    {| j_cand := if eqd (first_label (j_cand j)) (second_label (j_cand j)) then snd (equals_own_inverse (j_cand j)) else j_cand j;
       j_first := j_first j; j_second := j_second j; j_data := j_data j; j_early := j_early j |}.
  Fixpoint rate_from (done todo : list (joined L)) : outcome (list rated) :=
    match todo with
    | [] => Ret []
    | j :: t =>
        bind (candidate_usage j) (fun u =>
        let j' := inverted j in
        let e := exclusive_ports (done ++ j' :: t) j' in
        bind (side_pattern multi rows edge_names vertex_names (j_first j)) (fun p =>
        bind (side_pattern multi rows edge_names vertex_names (j_second j)) (fun q =>
        bind (rate_from (done ++ [j']) t) (fun rest =>
        Ret ({| k_gen := {| g_cand := j_cand j'; g_first := p; g_second := q; g_data := j_data j' |};
                k_usage := u; k_exclusive := e |} :: rest)))))
    end.
End Estimate.
Arguments rated L : clear implicits.

Section Order.
  Context {L : Type} `{EqDec L}.
  Variable ltb : L -> L -> bool.
  Variable row_index : L -> outcome nat.
  Variable pair_order : list (nat * nat) -> list (nat * nat).
  Variable port_order : list nat -> list nat.
  Variable multi : bool.
  Variable rows : list (net L).
  Variables edge_names vertex_names : list L.
  Variable r : rgraph L.

  (* utils.py 891-989, [generate_candidates], with the ratings *)
  Definition rated_candidates : outcome (list (rated L)) :=
    bind (collect ltb row_index pair_order port_order r) (rate_from multi rows edge_names vertex_names r []).

  (* a type of code lengths with its order, and the length of a pattern
     ([label_codes.encode]) *)
  Variable T : Type.
  Variable leT : T -> T -> bool.
  Variable code : net L -> T.

  (* graph_mdl.py 199-211, [_order_candidates]; the pattern is built first *)
  Definition sort_key (c : rated L) : option (Q * nat * T) :=
    match merge multi (g_first (k_gen c)) (g_second (k_gen c)) (port (g_cand (k_gen c))) with
    | Ok p => Some (k_usage c, k_exclusive c, code p)
    | Fails _ => None
    end.
  (* the comparison of two keys [usage, exclusive, -length] in a sort with
     reverse=True: may the first stay before the second? *)
  Definition key_first (x y : Q * nat * T) : bool :=
    let '(u, e, l) := x in let '(u', e', l') := y in
    if Qeq_bool u u' then if Nat.eqb e e' then leT l l' else Nat.ltb e' e
    else Qle_bool u' u.
  Fixpoint with_keys (cs : list (rated L)) : option (list ((Q * nat * T) * rated L)) :=
    match cs with
    | [] => Some []
    | c :: t => match sort_key c, with_keys t with Some k, Some ks => Some ((k, c) :: ks) | _, _ => None end
    end.
  (* graph_mdl.py 108: the order in which the candidates are tried; None if
     building a pattern raises *)
  Definition ordered (cs : list (rated L)) : option (list (rated L)) :=
    match with_keys cs with
    | Some ks => Some (map snd (sort (fun x y => key_first (fst x) (fst y)) ks))
    | None => None
    end.
End Order.
