(* C10, C11: the maximal / minimal filters.  C08: argument checks. *)
From Verif Require Import Prelude FilterModel FilterProofs CheckModel.
From Coq Require Import QArith.
Local Open Scope nat_scope.

(* specification: [e] is a strict superset of [s] *)
Definition strictly_inside {A} (s e : list A) : Prop := incl s e /\ ~ incl e s.
(* [s] (a member or not) has no strict superset / subset among [l] *)
Definition undominated_above {A} (l : list (list A)) (s : list A) : Prop :=
  ~ exists e, In e l /\ strictly_inside s e.
Definition undominated_below {A} (l : list (list A)) (s : list A) : Prop :=
  ~ exists e, In e l /\ strictly_inside e s.

Lemma undominated_above_iff {A} `{EqDec A} (l : list (list A)) s :
  undominated_above l s <-> maximalb l s = true.
Proof.
  rewrite maximalb_spec; unfold undominated_above, strictly_inside, is_maximal_in; split.
  - intros Hn e He Hi; destruct (incl_dec e s) as [|Hd]; [assumption|].
    exfalso; apply Hn; exists e; auto.
  - intros Hm [e [He [H1 H2]]]; apply H2, Hm; assumption.
Qed.
Lemma undominated_below_iff {A} `{EqDec A} (l : list (list A)) s :
  undominated_below l s <-> minimalb l s = true.
Proof.
  rewrite minimalb_spec; unfold undominated_below, strictly_inside, is_minimal_in; split.
  - intros Hn e He Hi; destruct (incl_dec s e) as [|Hd]; [assumption|].
    exfalso; apply Hn; exists e; auto.
  - intros Hm [e [He [H1 H2]]]; apply H2, Hm; assumption.
Qed.
Lemma sorted_by_size {A} `{EqDec A} (l : list (list A)) :
  StronglySorted (le_rel size_leb) l -> StronglySorted (fun a b => card a <= card b) l.
Proof.
  induction 1 as [|a l Hl IH Ha]; constructor; [exact IH|].
  eapply Forall_impl; [|exact Ha]; intros b; unfold le_rel, size_leb; apply Nat.leb_le.
Qed.

(* C10: every input set keeps its multiplicity if it has no strict superset in the
   input, and disappears otherwise; the result is ordered by size. *)
Theorem C10_filter_maximal_exact : forall (A : Type) (HA : EqDec A) (l : list (list A)),
  (forall s, undominated_above l s ->
             count_occ eq_dec (filter_maximal l) s = count_occ eq_dec l s) /\
  (forall s, In s (filter_maximal l) -> In s l /\ undominated_above l s) /\
  StronglySorted (fun a b => card a <= card b) (filter_maximal l).
Proof.
  intros A HA l; split; [|split].
  - intros s Hs; apply undominated_above_iff in Hs.
    rewrite (perm_count _ _ s (filter_maximal_perm l)), count_filter, Hs; reflexivity.
  - intros s Hs; apply filter_maximal_In in Hs; destruct Hs as [H1 H2]; split; [exact H1|].
    apply undominated_above_iff, maximalb_spec, H2.
  - apply sorted_by_size, fold_max_sorted; constructor.
Qed.
Print Assumptions C10_filter_maximal_exact.
Example C10_case : filter_maximal [[1;2]; [2;3;4]; [2]; [5]; [3;2]; [1;2]] = [[5]; [1;2]; [1;2]; [2;3;4]]
  /\ undominated_above [[1;2]; [2;3;4]; [2]; [5]; [3;2]; [1;2]] [1;2].
Proof.
  split; [vm_compute; reflexivity|]; apply undominated_above_iff; vm_compute; reflexivity.
Qed.

(* C11 *)
Theorem C11_filter_minimal_exact : forall (A : Type) (HA : EqDec A) (l : list (list A)),
  (forall s, undominated_below l s ->
             count_occ eq_dec (filter_minimal l) s = count_occ eq_dec l s) /\
  (forall s, In s (filter_minimal l) -> In s l /\ undominated_below l s) /\
  StronglySorted (fun a b => card a <= card b) (filter_minimal l).
Proof.
  intros A HA l; split; [|split].
  - intros s Hs; apply undominated_below_iff in Hs.
    rewrite (perm_count _ _ s (filter_minimal_perm l)), count_filter, Hs; reflexivity.
  - intros s Hs; apply filter_minimal_In in Hs; destruct Hs as [H1 H2]; split; [exact H1|].
    apply undominated_below_iff, minimalb_spec, H2.
  - apply sorted_by_size, fold_min_sorted; constructor.
Qed.
Print Assumptions C11_filter_minimal_exact.
Example C11_case : filter_minimal [[1;2]; [2;3;4]; [3;4]; [5]; [1]; [4;3]] = [[5]; [1]; [3;4]; [4;3]]
  /\ undominated_below [[1;2]; [2;3;4]; [3;4]; [5]; [1]; [4;3]] [3;4].
Proof.
  split; [vm_compute; reflexivity|]; apply undominated_below_iff; vm_compute; reflexivity.
Qed.

(* ------------------------------------------------------------------ C08 *)
(* the integer denoted by an int or bool argument *)
Definition int_value (v : pyval) : option Z :=
  match v with PyInt z => Some z | PyBool b => Some (if b then 1 else 0)%Z | _ => None end.

(* the documented domain of a minimum support *)
Definition valid_min_supp (v : pyval) (accept_absolute : bool) : Prop :=
  (exists z, int_value v = Some z /\ accept_absolute = true /\ (1 <= z)%Z) \/
  (exists q, v = PyFloat (Fin q) /\ (0 <= q <= 1)%Q).

(* every argument other than NaN: accepted exactly when valid, TypeError exactly
   for other types, ValueError otherwise *)
Theorem C08_min_supp_checked_partial : forall v acc, v <> PyFloat NaN ->
  (check_min_supp v acc = None <-> valid_min_supp v acc) /\
  (check_min_supp v acc = Some TypeError <-> v = PyOther) /\
  (check_min_supp v acc = None \/ check_min_supp v acc = Some TypeError
   \/ check_min_supp v acc = Some ValueError).
Proof.
  intros v acc Hnan; unfold valid_min_supp.
  destruct v as [z|b|f|]; simpl.
  - unfold check_int; destruct acc; simpl; destruct (Z.ltb_spec z 1); repeat split; intros;
      try discriminate; try tauto; auto.
    + destruct H0 as [[z' [E [_ L]]]|[q [E _]]]; [injection E as <-; lia | discriminate].
    + left; exists z; auto.
    + destruct H0 as [[z' [E [L _]]]|[q [E _]]]; discriminate.
    + destruct H0 as [[z' [E [L _]]]|[q [E _]]]; discriminate.
  - unfold check_int; destruct acc, b; simpl; repeat split; intros; try discriminate; try tauto; auto.
    + left; exists 1%Z; repeat split; lia.
    + destruct H as [[z' [E [_ L]]]|[q [E _]]]; [injection E as <-; lia | discriminate].
    + destruct H as [[z' [E [L _]]]|[q [E _]]]; discriminate.
    + destruct H as [[z' [E [L _]]]|[q [E _]]]; discriminate.
  - destruct f as [q| | |]; simpl; try congruence.
    + destruct (Qle_bool (inject_Z 0) q) eqn:E0; destruct (Qle_bool q (inject_Z 1)) eqn:E1; simpl;
        repeat split; intros; try discriminate; auto.
      * right; exists q; split; [reflexivity|]; apply Qle_bool_iff in E0; apply Qle_bool_iff in E1.
        split; assumption.
      * destruct H as [[z' [E _]]|[q' [E [L1 L2]]]]; [discriminate|]; injection E as <-.
        apply Qle_bool_iff in L2; simpl in *; unfold inject_Z in E1; congruence.
      * destruct H as [[z' [E _]]|[q' [E [L1 L2]]]]; [discriminate|]; injection E as <-.
        apply Qle_bool_iff in L1; simpl in *; unfold inject_Z in E0; congruence.
      * destruct H as [[z' [E _]]|[q' [E [L1 L2]]]]; [discriminate|]; injection E as <-.
        apply Qle_bool_iff in L1; simpl in *; unfold inject_Z in E0; congruence.
    + repeat split; intros; try discriminate; auto.
      destruct H as [[z' [E _]]|[q' [E _]]]; discriminate.
    + repeat split; intros; try discriminate; auto.
      destruct H as [[z' [E _]]|[q' [E _]]]; discriminate.
  - repeat split; intros; try discriminate; auto.
    destruct H as [[z' [E _]]|[q' [E _]]]; discriminate.
Qed.
Print Assumptions C08_min_supp_checked_partial.

(* finding: float('nan') is accepted as a minimum support *)
Theorem C08_nan_min_supp_refuted : exists v acc,
  check_min_supp v acc = None /\ ~ valid_min_supp v acc.
Proof.
  exists (PyFloat NaN), true; split; [reflexivity|].
  intros [[z [E _]]|[q [E _]]]; discriminate.
Qed.
Print Assumptions C08_nan_min_supp_refuted.
Example C08_case : check_min_supp (PyFloat (Fin (1#2))) false = None
  /\ check_min_supp (PyInt 3) false = Some ValueError /\ check_min_supp (PyBool false) true = Some ValueError
  /\ check_min_supp (PyFloat (Fin (3#2))) true = Some ValueError
  /\ check_min_supp PyOther true = Some TypeError.
Proof. repeat split; reflexivity. Qed.

(* growth rates: accepted (and returned unchanged) iff numeric and > 1 *)
Definition exceeds_one (v : pyval) : Prop :=
  match v with
  | PyInt z => (1 < z)%Z
  | PyBool _ => False
  | PyFloat (Fin q) => (1 < q)%Q
  | PyFloat PInf => True
  | _ => False
  end.
Theorem C08_growth_rate_checked : forall v,
  (check_growth_rate v = inl v <-> exceeds_one v) /\
  (~ exceeds_one v -> check_growth_rate v = inr (match v with PyOther => TypeError | _ => ValueError end)).
Proof.
  intros v; destruct v as [z|b|f|]; simpl.
  - destruct (Z.gtb_spec z 1); simpl; repeat split; intros; try discriminate; try lia; auto.
  - repeat split; intros; try discriminate; tauto.
  - destruct f as [q| | |]; simpl; try (repeat split; intros; try discriminate; tauto).
    destruct (Qle_bool q (inject_Z 1)) eqn:E; simpl; repeat split; intros; try discriminate; auto.
    + apply Qle_bool_iff in E; exfalso; apply (Qle_not_lt _ _ E); exact H.
    + apply Qnot_le_lt; intros L; apply Qle_bool_iff in L; simpl in *; unfold inject_Z in E; congruence.
    + exfalso; apply H; apply Qnot_le_lt; intros L; apply Qle_bool_iff in L; simpl in *; unfold inject_Z in E; congruence.
  - repeat split; intros; try discriminate; tauto.
Qed.
Print Assumptions C08_growth_rate_checked.
