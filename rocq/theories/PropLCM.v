(* C01-C07, C09: LCM and LCMMax.
   [lcm leA ms D lexico max_length sched] is LCM(min_supp=ms).fit(D).transform(D,
   return_tids=True, lexicographic_order=lexico, max_length) with the root jobs
   executed in the order [sched]; it is [None] when fit raises.
   Vocabulary: ItemsetSpec (support, tidset, closed_in, maximal_such, occurs,
   same_items), LCMFinal (meets, all_jobs, same_db, short). *)
From Verif Require Import Prelude FilterModel CheckModel LCMModel ItemsetSpec TextModel TextProofs
  LCMFileModel LCMFinal.
From Coq Require Import QArith.
Local Open Scope nat_scope.

Definition db1 : list (list nat) := [[1;2;3;4;5;6]; [2;3;5]; [2;5]; []; [5;5;2]].

(* C01 *)
Theorem C01_lcm_sound :
  forall (A : Type) (HA : EqDec A) (leA : A -> A -> bool) ms (D : list (list A)) lexico ml sched rows,
  all_jobs ms D sched -> lcm leA ms D lexico ml sched = Some rows ->
  forall r, In r rows ->
    NoDup (r_items r) /\ r_items r <> [] /\ r_supp r = support D (r_items r)
    /\ r_tids r = tidset D (r_items r) /\ meets ms (length D) (support D (r_items r))
    /\ closed_in D (r_items r).
Proof. exact (@lcm_final_sound). Qed.
Print Assumptions C01_lcm_sound.
Example C01_case : all_jobs (Abs 2) db1 [2;0;1] /\
  option_map (map (fun r => (r_items r, r_supp r, r_tids r))) (lcm Nat.leb (Abs 2) db1 true (-1) [2;0;1])
  = Some [([2;5], 4, [0;1;2;4]); ([2;3;5], 2, [0;1])].
Proof.
  split; [|vm_compute; reflexivity].
  unfold all_jobs; change (length (fit_table (Abs 2) db1)) with 3.
  change (Permutation [2;0;1] [0;1;2]).
  apply perm_trans with [0;2;1]; [apply perm_swap | apply perm_skip, perm_swap].
Qed.

(* C02 *)
Theorem C02_lcm_complete :
  forall (A : Type) (HA : EqDec A) (leA : A -> A -> bool) ms (D : list (list A)) lexico sched rows,
  all_jobs ms D sched -> lcm leA ms D lexico (-1) sched = Some rows ->
  forall X, X <> [] -> closed_in D X -> meets ms (length D) (support D X) ->
    exists r, In r rows /\ same_items (r_items r) X.
Proof. exact (@lcm_final_complete). Qed.
Print Assumptions C02_lcm_complete.
(* fit accepts exactly the documented thresholds, so [lcm] is defined for them *)
Theorem C02_lcm_defined :
  forall (A : Type) (HA : EqDec A) (leA : A -> A -> bool) ms (D : list (list A)) lexico ml sched,
  match ms with Abs m => (1 <= m)%Z | Rel q => (0 <= q <= 1)%Q end <->
  exists rows, lcm leA ms D lexico ml sched = Some rows.
Proof.
  intros A HA leA ms D lexico ml sched; split.
  - intros Ha; eexists; apply lcm_run; exact Ha.
  - intros [rows E]; apply lcm_inv in E; apply E.
Qed.
Print Assumptions C02_lcm_defined.
Example C02_case : closed_in db1 [3;2;5] /\ meets (Abs 2) (length db1) (support db1 [3;2;5]).
Proof.
  split; [|simpl; lia]; split.
  - intros x Hx; exists [2;3;5]; split; [right; left; reflexivity|].
    destruct Hx as [<-|[<-|[<-|[]]]]; simpl; tauto.
  - intros x _ Hall; specialize (Hall [2;3;5]).
    destruct Hall as [<-|[<-|[<-|[]]]]; simpl; try tauto.
    intros y [<-|[<-|[<-|[]]]]; simpl; tauto.
Qed.

(* C03 *)
Theorem C03_lcm_no_duplicates :
  forall (A : Type) (HA : EqDec A) (leA : A -> A -> bool) ms (D : list (list A)) lexico ml sched rows,
  all_jobs ms D sched -> lcm leA ms D lexico ml sched = Some rows ->
  forall i j r r', i <> j -> nth_error rows i = Some r -> nth_error rows j = Some r' ->
    ~ same_items (r_items r) (r_items r').
Proof. exact (@lcm_final_unique). Qed.
Print Assumptions C03_lcm_no_duplicates.

(* C04 *)
Theorem C04_max_length_only_filters :
  forall (A : Type) (HA : EqDec A) (leA : A -> A -> bool) ms (D : list (list A)) lexico ml sched rows rows0,
  all_jobs ms D sched ->
  lcm leA ms D lexico ml sched = Some rows -> lcm leA ms D lexico (-1) sched = Some rows0 ->
  rows = filter (fun r => if (ml =? -1)%Z then true
                          else (Z.of_nat (length (r_items r)) <=? ml)%Z) rows0.
Proof. exact (@lcm_final_max_length). Qed.
Print Assumptions C04_max_length_only_filters.
Example C04_case :
  option_map (map (fun r => (r_items r, r_supp r))) (lcm Nat.leb (Abs 1) db1 true 2 [0;1;2;3;4;5])
  = Some [([2;5], 4)] /\
  option_map (map (fun r => (r_items r, r_supp r))) (lcm Nat.leb (Abs 1) db1 true (-1) [0;1;2;3;4;5])
  = Some [([2;5], 4); ([2;3;5], 2); ([1;2;3;4;5;6], 1)].
Proof. split; vm_compute; reflexivity. Qed.

(* C05 *)
Theorem C05_schedule_independent :
  forall (A : Type) (HA : EqDec A) (leA : A -> A -> bool) ms (D : list (list A)) lexico ml sched1 sched2,
  all_jobs ms D sched1 -> all_jobs ms D sched2 ->
  lcm leA ms D lexico ml sched1 = lcm leA ms D lexico ml sched2.
Proof. exact (@lcm_final_schedule). Qed.
Print Assumptions C05_schedule_independent.
(* [same_db] is symmetric in effect: the theorem applies in both directions *)
Theorem C05_transaction_order_independent :
  forall (A : Type) (HA : EqDec A) (leA : A -> A -> bool) ms (D1 D2 : list (list A)) lexico
         sched1 sched2 rows1 rows2,
  same_db D1 D2 -> all_jobs ms D1 sched1 -> all_jobs ms D2 sched2 ->
  lcm leA ms D1 lexico (-1) sched1 = Some rows1 -> lcm leA ms D2 lexico (-1) sched2 = Some rows2 ->
  (forall r, In r rows1 -> exists r', In r' rows2 /\ same_items (r_items r) (r_items r')
                                      /\ r_supp r = r_supp r') /\
  (forall r, In r rows2 -> exists r', In r' rows1 /\ same_items (r_items r) (r_items r')
                                      /\ r_supp r = r_supp r').
Proof.
  intros A HA leA ms D1 D2 lexico s1 s2 rows1 rows2 Hs J1 J2 E1 E2; split.
  - eapply lcm_final_db_order; eassumption.
  - eapply lcm_final_db_order; [apply same_db_sym| | | |]; eassumption.
Qed.
Print Assumptions C05_transaction_order_independent.
Example C05_case : same_db [[1;2]; [3]] [[3;3]; [2;1]].
Proof.
  exists [[3]; [1;2]]; split; [apply perm_swap|].
  constructor; [|constructor; [|constructor]]; split; intros x; simpl; tauto.
Qed.

(* C06: the file holds, line by line, the rendering of the rows, when no item's
   str() contains a line break and (for tids) the threshold is positive *)
Theorem C06_file_equals_memory_partial :
  forall (A : Type) (HA : EqDec A) (leA : A -> A -> bool) (show : A -> text)
         ms (D : list (list A)) lexico ml return_tids sched rows out,
  (forall x, no_newline (show x)) ->
  (return_tids = true -> match ms with Abs m => (1 <= m)%Z | Rel q => (0 < q)%Q end) ->
  all_jobs ms D sched -> lcm leA ms D lexico ml sched = Some rows ->
  lcm_file leA show ms D lexico ml return_tids sched = Some out ->
  out = concat (flat_map (fun r =>
          ([lpar] ++ dec (r_supp r) ++ [rpar; sp] ++ join [sp] (map show (r_items r)) ++ [nl]) ::
          (if return_tids then [join [sp] (map dec (r_tids r)) ++ [nl]] else [])) rows).
Proof.
  intros A HA leA show ms D lexico ml rt sched rows out Hs Hp J E F.
  rewrite (lcm_final_file leA show ms D lexico ml rt sched rows out Hs J E F).
  - f_equal; clear; induction rows as [|r l IH]; [reflexivity|].
    cbn [flat_map]; rewrite map_app, IH; unfold row_lines, item_line, tids_line, line_of.
    destruct rt; cbn [map app]; rewrite <- ?app_assoc; reflexivity.
  - intros Hrt r Hr; eapply tids_nonempty; [apply Hp, Hrt | exact J | exact E | exact Hr].
Qed.
Print Assumptions C06_file_equals_memory_partial.
Example C06_case :
  lcm_file Nat.leb dec (Abs 2) db1 true (-1) true [2;0;1]
  = Some ([lpar;52;rpar;sp;50;sp;53;nl; 48;sp;49;sp;50;sp;52;nl;
           lpar;50;rpar;sp;50;sp;51;sp;53;nl; 48;sp;49;nl]%N).
Proof. vm_compute. reflexivity. Qed.
(* finding: with min_supp=0.0 and return_tids the empty tids line of a support-0
   itemset is dropped from the file, so lines no longer pair up *)
Theorem C06_file_equals_memory_refuted :
  exists (D : list (list nat)) sched rows out,
  all_jobs (Rel 0) D sched /\ lcm Nat.leb (Rel 0) D true (-1) sched = Some rows /\
  lcm_file Nat.leb dec (Rel 0) D true (-1) true sched = Some out /\
  out <> concat (flat_map (fun r =>
          ([lpar] ++ dec (r_supp r) ++ [rpar; sp] ++ join [sp] (map dec (r_items r)) ++ [nl]) ::
          [join [sp] (map dec (r_tids r)) ++ [nl]]) rows).
Proof.
  exists [[1];[2]], [0;1]; eexists; eexists; split; [|split; [|split]].
  - apply Permutation_refl.
  - vm_compute; reflexivity.
  - vm_compute; reflexivity.
  - vm_compute; discriminate.
Qed.
Print Assumptions C06_file_equals_memory_refuted.

(* C07 *)
Theorem C07_lcmmax_exact :
  forall (A : Type) (HA : EqDec A) (leA : A -> A -> bool) ms (D : list (list A)) lexico ml sched rows,
  all_jobs ms D sched -> lcm_max leA ms D lexico ml sched = Some rows ->
  (forall r, In r rows ->
      NoDup (r_items r) /\ r_items r <> [] /\ r_supp r = support D (r_items r)
      /\ r_tids r = tidset D (r_items r)
      /\ maximal_such (fun X => meets ms (length D) (support D X)) D (r_items r)
      /\ (ml = (-1)%Z \/ (Z.of_nat (length (r_items r)) <= ml)%Z)) /\
  (forall X, X <> [] -> NoDup X ->
      maximal_such (fun X => meets ms (length D) (support D X)) D X ->
      (ml = (-1)%Z \/ (Z.of_nat (length X) <= ml)%Z) ->
      exists r, In r rows /\ same_items (r_items r) X) /\
  (forall i j r r', i <> j -> nth_error rows i = Some r -> nth_error rows j = Some r' ->
      ~ same_items (r_items r) (r_items r')).
Proof.
  intros A HA leA ms D lexico ml sched rows J E; split; [|split].
  - eapply lcmmax_final_sound; eassumption.
  - eapply lcmmax_final_complete; eassumption.
  - eapply lcmmax_final_unique; eassumption.
Qed.
Print Assumptions C07_lcmmax_exact.
Example C07_case :
  option_map (map (fun r => (r_items r, r_supp r)))
    (lcm_max Nat.leb (Abs 2) [[1;2;3];[1;2];[3;4];[4;3;1];[5]] true (-1) [3;2;1;0])
  = Some [([1;3], 2); ([1;2], 2); ([3;4], 2)] /\
  option_map (map (fun r => (r_items r, r_supp r)))
    (lcm_max Nat.leb (Abs 1) [[1;2;3];[1;2];[3;4];[4;3;1];[5]] true 1 [3;2;1;0;4])
  = Some [([5], 1)].
Proof. split; vm_compute; reflexivity. Qed.

(* C09: thresholds other than 0.0 only report itemsets that occur *)
Theorem C09_positive_support_partial :
  forall (A : Type) (HA : EqDec A) (leA : A -> A -> bool) ms (D : list (list A)) lexico ml sched rows,
  match ms with Abs m => True | Rel q => ~ (q == 0)%Q end ->
  all_jobs ms D sched -> lcm leA ms D lexico ml sched = Some rows ->
  forall r, In r rows -> exists t, In t D /\ incl (r_items r) t.
Proof.
  intros A HA leA ms D lexico ml sched rows Hms J E r Hr.
  assert (Ha := E); apply lcm_inv in Ha; destruct Ha as [Ha _].
  assert (Hp : match ms with Abs m => (1 <= m)%Z | Rel q => (0 < q)%Q end).
  { destruct ms as [m|q]; [exact Ha|]; destruct Ha as [Ha _]; apply Qle_lteq in Ha.
    destruct Ha as [|Heq]; [assumption | destruct Hms; symmetry; exact Heq]. }
  destruct (tids_nonempty leA ms D lexico ml sched rows Hp J E r Hr) as [Hpos _].
  destruct (lcm_final_sound leA ms D lexico ml sched rows J E r Hr) as [_ [_ [Hsu _]]].
  rewrite Hsu in Hpos; unfold support in Hpos.
  destruct (filter (fun t => subset (r_items r) t) D) as [|t l] eqn:F; [simpl in Hpos; lia|].
  assert (Hin : In t (filter (fun t => subset (r_items r) t) D)) by (rewrite F; left; reflexivity).
  apply filter_In in Hin; exists t; split; [apply Hin | apply subset_incl, Hin].
Qed.
Print Assumptions C09_positive_support_partial.
(* finding: min_supp=0.0 reports itemsets that occur in no transaction *)
Theorem C09_zero_support_refuted :
  exists (D : list (list nat)) sched rows r,
  all_jobs (Rel 0) D sched /\ lcm Nat.leb (Rel 0) D true (-1) sched = Some rows /\
  In r rows /\ ~ exists t, In t D /\ incl (r_items r) t.
Proof.
  exists [[1];[2]], [0;1]; eexists; exists {| r_items := [1;2]; r_supp := 0; r_tids := [] |}.
  split; [apply Permutation_refl|]; split; [vm_compute; reflexivity|]; split; [simpl; tauto|].
  intros [t [Ht Hi]]; simpl in Hi.
  destruct Ht as [<-|[<-|[]]]; [destruct (Hi 2) | destruct (Hi 1)]; simpl; try tauto; discriminate || (intros []; try discriminate; auto).
Qed.
Print Assumptions C09_zero_support_refuted.
