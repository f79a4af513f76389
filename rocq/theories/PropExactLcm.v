(* C06, C08, C09, C73: what happens where the full claim fails. *)
From Coq Require Import QArith.
Local Open Scope nat_scope.
From Verif Require Import Prelude FilterModel FilterProofs CheckModel LCMModel LCMProofs
  ItemsetSpec VerticalProofs LCMLift TextModel TextProofs LCMFileModel.
From Verif Require Import FilterModel CheckModel LCMFinal.
From Verif Require PropFilter.

(* ---------------------------------------------------------------------- C06 *)
(* For every threshold: the file holds the rows line by line, but no line for a row without transactions. *)
Theorem C06_exact : forall (A : Type) (HA : EqDec A) (leA : A -> A -> bool) (show : A -> text)
         ms (D : list (list A)) lexico ml return_tids sched rows out,
  (forall x, no_newline (show x)) -> all_jobs ms D sched -> lcm leA ms D lexico ml sched = Some rows ->
  lcm_file leA show ms D lexico ml return_tids sched = Some out ->
  out = concat (flat_map (fun r =>
          ([lpar] ++ dec (r_supp r) ++ [rpar; sp] ++ join [sp] (map show (r_items r)) ++ [nl]) ::
          (if return_tids then match r_tids r with [] => [] | ts => [join [sp] (map dec ts) ++ [nl]] end else [])) rows).
Proof.
  intros A HA leA show ms D lexico ml rt sched rows out Hshow Hs E F. apply lcm_inv in E. destruct E as [Ha ->].
  unfold lcm_file in F. rewrite (proj1 (fit_accepted ms D) Ha) in F. injection F as <-. unfold transform_file.
  rewrite parallel_spec by (apply schedule_covers, Hs). rewrite map_map. unfold transform. rewrite gather_parallel by (apply schedule_covers, Hs).
  assert (Hcopy : forall ls, Forall no_newline ls -> copy_nonblank (concat (map line_of ls)) = concat (map line_of (filter (fun l => negb (blank l)) ls))).
  { intros ls Hn. unfold copy_nonblank, line_of. rewrite read_lines_concat by exact Hn. f_equal. clear Hn.
    induction ls as [|l ls IH]; [reflexivity|]. cbn [map filter].
    replace (blank (l ++ [nl])) with (blank l) by (unfold blank; rewrite forallb_app; cbn [forallb]; change (is_space nl) with true; cbn [andb]; symmetry; apply andb_true_r).
    destruct (blank l); cbn [negb map]; rewrite IH; reflexivity. }
  assert (Hempty : forall r : row A, r_tids r = [] -> no_newline (tids_line r) /\ blank (tids_line r) = true).
  { intros r Hr. unfold tids_line. rewrite Hr. split; [split; intros [] | reflexivity]. }
  induction (seq 0 (length (fit_table ms D))) as [|k ks IH]; [reflexivity|].
  cbn [map concat flat_map]. rewrite IH, flat_map_app, concat_app. f_equal.
  rewrite write_df_lines, Hcopy.
  - generalize (root_rows leA ms (length D) (fit_table ms D) lexico ml k). intros rs. clear -Hshow Hempty.
    induction rs as [|r rs IH]; [reflexivity|]. cbn [flat_map]. rewrite filter_app, map_app, !concat_app, IH. f_equal.
    unfold row_lines. cbn [filter]. rewrite (proj2 (item_line_ok show r Hshow)). cbn [negb map concat].
    unfold item_line at 1, line_of at 1. rewrite <- !app_assoc. do 4 f_equal.
    destruct rt; [|reflexivity]. cbn [filter]. destruct (r_tids r) as [|t ts] eqn:Et.
    + rewrite (proj2 (Hempty r Et)). reflexivity.
    + rewrite (proj2 (tids_line_ok r ltac:(rewrite Et; discriminate))). unfold tids_line. rewrite Et. reflexivity.
  - apply Forall_forall. intros l Hl. apply in_flat_map in Hl. destruct Hl as (r & _ & Hl).
    destruct Hl as [<-|Hl]; [apply item_line_ok, Hshow|]. destruct rt; [|destruct Hl]. destruct Hl as [<-|[]].
    destruct (r_tids r) as [|t ts] eqn:Et; [apply Hempty, Et | apply tids_line_ok; rewrite Et; discriminate].
Qed.
Print Assumptions C06_exact.
(* with min_supp=0.0 the itemset 1 2 occurs nowhere *)
Example C06_exact_case : lcm_file Nat.leb dec (Rel 0) [[1]; [2]] true (-1) true [0; 1]
  = Some [40; 49; 41; 32; 49; 10; 48; 10; 40; 49; 41; 32; 50; 10; 49; 10; 40; 48; 41; 32; 49; 32; 50; 10]%N.
Proof. vm_compute. reflexivity. Qed.

(* ---------------------------------------------------------------------- C08 *)
(* NaN is the only value that is accepted without being valid *)
Theorem C08_exact : forall v acc,
  (check_min_supp v acc = None <-> PropFilter.valid_min_supp v acc \/ v = PyFloat NaN) /\
  (check_min_supp v acc = Some TypeError <-> v = PyOther) /\
  (check_min_supp v acc = Some ValueError <-> ~ PropFilter.valid_min_supp v acc /\ v <> PyOther /\ v <> PyFloat NaN).
Proof.
  intros v acc.
  assert (Hd : v = PyFloat NaN \/ v <> PyFloat NaN) by (destruct v as [z|b|[q| | |]|]; (left; reflexivity) || (right; discriminate)).
  destruct Hd as [->|Hn].
  - change (check_min_supp (PyFloat NaN) acc) with (@None exn). split; [|split].
    + split; auto.
    + split; discriminate.
    + split; [discriminate|]. intros (_ & _ & F). congruence.
  - destruct (PropFilter.C08_min_supp_checked_partial v acc Hn) as (H1 & H2 & H3). split; [|split].
    + rewrite H1. tauto.
    + exact H2.
    + split.
      * intros E. split; [intros Hv; apply H1 in Hv; congruence|]. split; [intros Hv; apply H2 in Hv; congruence | exact Hn].
      * intros (F1 & F2 & _). destruct H3 as [E|[E|E]]; [destruct (F1 (proj1 H1 E)) | destruct (F2 (proj1 H2 E)) | exact E].
Qed.
Print Assumptions C08_exact.
Example C08_exact_case : check_min_supp (PyFloat NaN) false = None /\ check_min_supp (PyFloat (Fin (5 # 4))) false = Some ValueError.
Proof. split; vm_compute; reflexivity. Qed.

(* ---------------------------------------------------------------------- C09 *)
(* For every threshold, an itemset that occurs in no transaction is the set of all items; with the threshold 0.0 it is
   reported whenever no transaction holds all items. *)
Theorem C09_exact : forall (A : Type) (HA : EqDec A) (leA : A -> A -> bool) ms (D : list (list A)) lexico ml sched rows,
  all_jobs ms D sched -> lcm leA ms D lexico ml sched = Some rows ->
  (forall r, In r rows -> (exists t, In t D /\ incl (r_items r) t) \/ (forall x, In x (r_items r) <-> occurs D x)) /\
  (match ms with Rel q => (q == 0)%Q | Abs _ => False end -> ml = (-1)%Z -> (exists x, occurs D x) ->
   exists r, In r rows /\ forall x, In x (r_items r) <-> occurs D x).
Proof.
  intros A HA leA ms D lexico ml sched rows J E. split.
  - intros r Hr. destruct (lcm_final_sound leA ms D lexico ml sched rows J E r Hr) as (_ & _ & _ & _ & _ & Hc1 & Hc2).
    destruct (existsb (fun t => subset (r_items r) t) D) eqn:Ex.
    + left. apply existsb_exists in Ex. destruct Ex as (t & Ht & Hs). exists t. split; [exact Ht | apply subset_incl, Hs].
    + right. intros x. split; [apply Hc1|]. intros Ho. apply Hc2; [exact Ho|]. intros t Ht Hi. exfalso.
      apply not_true_iff_false in Ex. apply Ex. apply existsb_exists. exists t. split; [exact Ht | apply subset_incl, Hi].
  - intros Hq -> [x0 Hx0].
    assert (Ha : forall x, In x (concat D) <-> occurs D x).
    { intros x. rewrite in_concat. unfold occurs. reflexivity. }
    destruct (lcm_final_complete leA ms D lexico sched rows J E (concat D)) as (r & Hr & S1 & S2).
    + intros F. apply Ha in Hx0. rewrite F in Hx0. destruct Hx0.
    + split; [intros x Hx; apply Ha, Hx | intros x Hx _; apply Ha, Hx].
    + destruct ms as [m|q]; [destruct Hq|]. cbn [meets]. rewrite Hq. rewrite Qmult_0_l. unfold Qle. cbn. lia.
    + exists r. split; [exact Hr|]. intros x. rewrite <- Ha. split; [apply S1 | apply S2].
Qed.
Print Assumptions C09_exact.
Example C09_exact_case : option_map (map (fun r => (r_items r, r_supp r))) (lcm Nat.leb (Rel 0) [[1]; [2]] true (-1) [0; 1]) =
  Some [([1], 1); ([2], 1); ([1; 2], 0)].
Proof. vm_compute. reflexivity. Qed.
