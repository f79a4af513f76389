(* Model of skmine/periodic/run_mine.py 463-700 and 792-810: getPidsSlice, run_combine_horizontal,
   makeCandOnOrder and substitute_factorized.  Candidates with close periods whose repetitions
   alternate become one candidate.

   Costs are exact rationals, None is nan (every comparison with it is false). *)
From Verif Require Import Prelude CheckModel LCMModel TextModel SplitModel ArrayModel PeriodModel TreeModel NestModel FactorModel CoverModel CliqueModel PoolModel FoldModel NestMineModel.
From Coq Require Import QArith.
Local Open Scope nat_scope.

Definition qlt_o (a b : option Q) : bool := match a, b with Some x, Some y => qlt x y | _, _ => false end.
Definition qeq_o (a b : option Q) : bool := match a, b with Some x, Some y => Qeq_bool x y | _, _ => false end.
Definition qadd_o (a b : option Q) : option Q := match a, b with Some x, Some y => Some (x + y)%Q | _, _ => None end.
(* a quotient of a cost by a number of occurrences, which is positive here *)
Definition per (a : option Q) (n : nat) : option Q := match a with Some x => Some (x / inject_Z (Z.of_nat n))%Q | None => None end.

Section Horizontal.
  Variable rows : list row.                                        (* getPropMat() *)
  Variable cands : dict nat (ccand nat).                           (* getCandidate(cid) *)
  Variable known : nat -> option Q.                                (* getCost() of a candidate of the pool *)
  Variable cost : ccand nat -> option Q.                           (* computeCost(data_details) *)
  Variable dcosts : dict nat Q.
  Variable new_num : nat.                                          (* getNewKNum(nkey) *)
  (* the ids that the nodes of the ci-th of the candidates get (NestModel) *)
  Variable nms : list (ccand nat) -> nat -> nat -> nat.
  (* "<" of tuples of event texts *)
  Variable text_lt : list nat -> list nat -> bool.
  (* the order in which a set is iterated over *)
  Variable iter : list nat -> list nat.

  Definition row_at (i : nat) : row := nth i rows no_row.          (* patterns_props[i] *)
  Definition t0_at (i : nat) : Z := r_t0 (row_at i).
  Definition p_at (i : nat) : Z := r_p (row_at i).
  Definition cid_at (i : nat) : nat := r_cid (row_at i).
  Definition is_new (i : nat) : bool := r_new (row_at i) =? new_num.
  Definition left_at (i : nat) : Z := (r_r (row_at i) - Z.of_nat (r_off (row_at i)))%Z.
  Definition cand_at (i : nat) : outcome (ccand nat) := match dget cands (cid_at i) with Some c => Ret c | None => Exn KeyError end.

  (* getPidsSlice 463-486 for the column t0i.  numpy.where(..)[0][0] is the first position; in line
     483 there is one after the first, since the last value is too large and the first is not *)
  Fixpoint first_over (max_v : Z) (l : list nat) : outcome nat :=
    match l with
    | [] => Exn IndexError
    | x :: t => if (max_v <? t0_at x)%Z then Ret 0 else bind (first_over max_v t) (fun k => Ret (S k))
    end.
  Definition every (size : nat) (l : list nat) : list nat :=                       (* l[::size] *)
    map (fun k => nth (k * size) l 0) (List.seq 0 ((length l + size - 1) / size)).
  Definition pids_slice (pids : list nat) (size : nat) (max_v : Z) : outcome (list nat) :=
    match pids with
    | [] => Exn IndexError
    | x :: _ =>
        if (t0_at (last pids O) <=? max_v)%Z then Ret pids
        else if (max_v <? t0_at x)%Z then Ret []
        else bind (first_over max_v (every size pids ++ [last pids O])) (fun ii =>
             bind (first_over max_v (firstn (ii * size + 1 - (ii - 1) * size) (skipn ((ii - 1) * size) pids))) (fun k =>
             Ret (firstn ((ii - 1) * size + k) pids)))
    end.

  (* getEvent of candidate.py 128-146 as compared in 578: a number for a simple candidate, a text or
     a list of texts for a pattern; a number never equals a text *)
  Definition same_event (a b : ccand nat) : bool :=
    match cc_P a, cc_P b with
    | Simple e _, Simple e' _ => e =? e'
    | Patt t, Patt t' => eqd (leaf_events t) (leaf_events t')
    | _, _ => false
    end.
  (* getEventTuple; the numbers of the events *)
  Definition event_tuple (c : ccand nat) : list nat := match cc_P c with Simple e _ => [e] | Patt t => leaf_events t end.
  (* getNbOccs, getCostRatio *)
  Definition nb_of (c : ccand nat) : nat := match cc_P c with Simple _ _ => length (cc_O c) | Patt t => nb_occs t end.
  Definition ratio_of (c : ccand nat) : option Q := per (cost c) (length (nodup eq_dec (ev_occs c))).
  (* condition (3) of 564-571, and 589-593: r(r-1) is never negative.  With r(r-1) = 0 the quotient
     is inf or nan *)
  Definition close (i j : nat) (r : Z) : bool :=
    let d := (r * (r - 1))%Z in let cum := r_cum (row_at j) in
    if (d =? 0)%Z then (0 <? cum)%Z else (Z.abs (p_at j - p_at i) * d <=? 2 * cum)%Z.
  (* 605-606, 666-667: sum of the costs over sum of the occurrences *)
  Definition parts_ratio (is_ : list nat) (cs : list (ccand nat)) : option Q :=
    per (fold_right qadd_o (Some 0%Q) (map (fun i => known (cid_at i)) is_)) (list_sum (map nb_of cs)).
  (* 611: a missing event is a KeyError *)
  Fixpoint residual_cost (os : list occ) : outcome Q :=
    match os with
    | [] => Ret 0%Q
    | o :: os' => match dget dcosts (snd o) with
                  | Some c => bind (residual_cost os') (fun s => Ret (c + s)%Q)
                  | None => Exn KeyError
                  end
    end.
  (* 584-587, 692-700: the candidates one after the other in every repetition *)
  Definition on_order (pids : list nat) : outcome (ccand nat) :=
    bind (map_out cand_at pids) (fun cs =>
    match pids with
    | [] => Exn ValueError
    | i :: is_ => prepare_concats (nms cs) cs (p_at i) (Z.to_nat (fold_right Z.min (left_at i) (map left_at is_))) (map (fun k => r_off (row_at k)) pids)
    end).
  (* 573-615, one pair: None if it is not kept *)
  Definition join (i j : nat) : outcome (option (list nat * ccand nat)) :=
    bind (cand_at i) (fun ci => bind (cand_at j) (fun cj =>
    if same_event ci cj && (t0_at i =? t0_at j)%Z then Ret None
    else if existsb (fun o => mem o (ev_occs cj)) (ev_occs ci) then Ret None
    else
      bind (on_order [i; j]) (fun c =>
      bind (if (t0_at i =? t0_at j)%Z && close i j (Z.min (left_at i) (left_at j)) then
              bind (on_order [j; i]) (fun cx =>
              Ret (if qlt_o (cost cx) (cost c) || (qeq_o (cost c) (cost cx) && text_lt (event_tuple cx) (event_tuple c))
                   then ([j; i], cx) else ([i; j], c)))
            else Ret ([i; j], c)) (fun kc =>
      let old := parts_ratio [i; j] [ci; cj] in
      if qlt_o (ratio_of (snd kc)) old then
        let residuals := diff (nodup eq_dec (ev_occs ci ++ ev_occs cj)) (ev_occs (snd kc)) in
        bind (residual_cost residuals) (fun cr =>
        if qlt_o (per (qadd_o (cost (snd kc)) (Some cr)) (nb_of (snd kc) + length residuals)) old then Ret (Some kc) else Ret None)
      else Ret None)))).

  (* ------------------------------------------------------------ the pairs *)
  (* 523-526 *)
  Fixpoint advance (pids : list nat) (n0 : nat) : outcome (list nat) :=
    match pids with
    | [] => Exn IndexError
    | x :: t => if x =? n0 then Ret pids else if (t0_at x + p_at x <? t0_at n0)%Z then advance t n0 else Ret pids
    end.
  (* 521-532 *)
  Definition skip_old (pids : list nat) (news : option (list nat)) : outcome (list nat * option (list nat)) :=
    match news with
    | Some (n0 :: ns) =>
        bind (advance pids n0) (fun pids' =>
        match pids' with
        | x :: _ => if x =? n0 then Ret (match ns with [] => [x] | _ => pids' end, Some ns) else Ret (pids', news)
        | [] => Exn IndexError
        end)
    | _ => Ret (pids, news)
    end.
  (* 544-556.  The empty list makes an array of floats, which is no index *)
  Definition to_compare (i : nat) (pids : list nat) (news : option (list nat)) : outcome (list nat) :=
    let next_it := (t0_at i + p_at i)%Z in
    if is_new i then pids_slice pids 500 next_it
    else match news with
         | Some [] => Exn IndexError
         | Some l => Ret (filter (fun j => t0_at j <=? next_it)%Z l)
         | None => bind (pids_slice pids 500 next_it) (fun l => Ret (filter is_new l))
         end.
  (* 559-571 *)
  Definition partners (i : nat) (l : list nat) : list nat :=
    filter (fun j => close i j (Z.min (left_at i) (left_at j))) (filter (fun j => negb (cid_at j =? cid_at i)) l).
  Definition others (i : nat) (l : list nat) : list nat := filter (fun j => negb (cid_at i =? cid_at j)) l.
  Definition kept_pairs (res : list (option (list nat * ccand nat))) : list (list nat * ccand nat) :=
    flat_map (fun o => match o with Some kc => [kc] | None => [] end) res.
  Definition keeping := dict (list nat) (ccand nat).
  (* 520-624.  [seen] is the last pair that was looked at: its candidates are still in [cands] in
     line 666 *)
  Fixpoint pairs (fuel : nat) (pids : list nat) (news : option (list nat)) (keep : keeping) (seen : list nat) : outcome (keeping * list nat) :=
    match fuel with
    | O => NoFuel
    | S f =>
        if length pids <=? 1 then Ret (keep, seen)
        else
          bind (skip_old pids news) (fun pn =>
          match fst pn with
          | [] => Exn IndexError
          | [_] => Ret (keep, seen)
          | i :: pids1 =>
              bind (to_compare i pids1 (snd pn)) (fun cmp =>
              bind (map_out (fun j => join i j) (partners i cmp)) (fun res =>
              let found := kept_pairs res in
              let keep' := fold_left (fun d kc => dset d (fst kc) (snd kc)) found keep in
              let seen' := match rev (partners i cmp) with [] => seen | j :: _ => [i; j] end in
              match found with
              | [] => pairs f pids1 (snd pn) keep' seen'
              | _ => match snd pn with
                     | None => pairs f (others i pids1) None keep' seen'
                     | Some ns => match others i ns with
                                  | [] => pairs f [] (Some []) keep' seen'
                                  | ns' => pairs f (others i pids1) (Some ns') keep' seen'
                                  end
                     end
              end))
          end)
    end.

  (* ------------------------------------------------------------ the groups *)
  (* 626: the keys are pairs of row numbers, compared as such *)
  Definition pair_no (k : list nat) : nat := nth 0 k 0 * length rows + nth 1 k 0.
  Definition select_pairs (keep : keeping) : list (list nat) :=
    map (fun n => [n / length rows; n mod length rows])
      (topk_each (map (fun kc => (pair_no (fst kc), (match cost (snd kc) with Some q => q | None => 0%Q end, ev_occs (snd kc)))) keep) TOP_KEACH).
  (* 628-634 *)
  Definition add_edge (g : dict nat (list nat)) (a b : nat) : dict nat (list nat) :=
    dset g a (match dget g a with Some l => union l [b] | None => [b] end).
  Definition graph_of (sel : list (list nat)) : dict nat (list nat) :=
    fold_left (fun g k => add_edge (add_edge g (nth 0 k 0) (nth 1 k 0)) (nth 1 k 0) (nth 0 k 0)) sel [].
  Definition nb_in (g : dict nat (list nat)) (v : nat) : list nat := match dget g v with Some l => l | None => [] end.
  (* 639-642 *)
  Definition clique_leb (tuples : nat -> list nat) (a b : nat) : bool :=
    ((t0_at a <? t0_at b)%Z || ((t0_at a =? t0_at b)%Z && idx_leb (tuples a) (tuples b)))%bool.
  (* 646-650: how often a row comes first in a selected pair of the group *)
  Definition times_first (sel : list (list nat)) (group : list nat) (v : nat) : nat :=
    length (filter (fun k => mem (nth 0 k 0) group && mem (nth 1 k 0) group && (nth 0 k 0 =? v)) sel).
  Definition better (best : list nat * ccand nat) (pids : list nat) : outcome (list nat * ccand nat) :=
    if eqd pids (fst best) then Ret best
    else bind (on_order pids) (fun c => Ret (if qlt_o (cost c) (cost (snd best)) then (pids, c) else best)).
  (* 638-670, one group.  [seen] as above *)
  Definition group_cand (sel : list (list nat)) (seen : list nat) (group : list nat) : outcome (option (list nat * ccand nat)) :=
    bind (map_out cand_at group) (fun cs =>
    let tuples := fun v => match cand_at v with Ret c => event_tuple c | _ => [] end in
    let pids := sort (clique_leb tuples) (iter group) in
    bind (on_order pids) (fun c =>
    bind (if length (nodup eq_dec (map t0_at pids)) <? length pids
          then better (pids, c) (sort (fun a b => times_first sel group b <=? times_first sel group a) pids)
          else Ret (pids, c)) (fun best =>
    bind (better best (sort_pids (key_at rows) (iter group))) (fun best =>
    bind (map_out cand_at seen) (fun scs =>
    Ret (if qlt_o (ratio_of (snd best)) (parts_ratio seen scs) then Some best else None)))))).

  (* substitute_factorized 792-810.  numpy.argmin is the first nan if there is one, and the first
     least value otherwise *)
  Fixpoint argmin_from (k best : nat) (v : Q) (l : list (option Q)) : nat :=
    match l with
    | [] => best
    | None :: _ => k
    | Some x :: t => if qlt x v then argmin_from (S k) k x t else argmin_from (S k) best v t
    end.
  Definition argmin (l : list (option Q)) : nat :=
    match l with Some v :: t => argmin_from 1 0 v t | _ => 0 end.
  Definition factors (c : ccand nat) : outcome (list (ccand nat)) :=
    match cc_P c with
    | Simple _ _ => Ret []
    | Patt t => match factorize_pattern (S (length (node_ids t))) t (cc_O c) with
                | Some fs => Ret (map (fun q : @FactorModel.cand nat => {| cc_P := Patt (fst (fst q)); cc_O := snd (fst q); cc_E := snd q |}) fs)
                | None => Exn ValueError
                end
    end.
  Definition substitute (c : ccand nat) : outcome (ccand nat) :=
    bind (factors c) (fun ext =>
    match ext with
    | [] => Ret c
    | _ => match argmin (cost c :: map cost ext) with
           | O => Ret c
           | S k => nth_out ext k
           end
    end).

  (* run_combine_horizontal 489-674; [sorted] is getSortedPids(), [fresh] whether
     nbNewCandidates(nkey) is not 0 *)
  Definition run_horizontal (fuel : nat) (fresh : bool) (sorted : list nat) : outcome (list (ccand nat)) :=
    let news := filter is_new sorted in
    if negb fresh then Ret []
    else match news with
    | [] => Ret []
    | _ =>
        bind (pairs fuel sorted (if length news <? 500 then Some news else None) [] []) (fun ks =>
        let sel := select_pairs (fst ks) in
        bind (map_out (fun k => match dget (fst ks) k with Some c => Ret (k, c) | None => Exn KeyError end) sel) (fun keep =>
        let g := graph_of sel in
        bind (bk3 (nb_in g) iter (S (length g)) (map fst g) [] []) (fun groups =>
        bind (map_out (group_cand sel (snd ks)) groups) (fun res =>
        map_out substitute (map snd (fold_left (fun d kc => dset d (fst kc) (snd kc)) (kept_pairs res) keep))))))
    end.
End Horizontal.
