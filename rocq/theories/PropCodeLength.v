(* C83: code lengths of cycles and of single occurrences.  Real numbers of the standard library. *)
From Coq Require Import Reals QArith Qreals Lra.
From Verif Require Import Prelude CheckModel LCMModel VerticalProofs SplitModel PropArray PeriodModel PropPeriod TreeModel TreeProofs PropTree CyclesModel CodeLengthModel.
From Verif Require MineModel.
From Verif Require Import GraphUtilModel PropGraphUtil KraftProofs PropGraphLength.
Local Open Scope Z_scope.

(* ------------------------------------------------------------ specification *)
Definition lg (x : R) : R := (ln x / ln 2)%R.
(* what DataSequence hands over for a log that is not empty *)
Record good_details (d : details) : Prop := {
  gd_keys : NoDup (map fst (d_counts d));
  gd_some : d_counts d <> [];
  gd_pos : forall a n, In (a, n) (d_counts d) -> 0 < n;
  gd_window : d_start d <= d_end d }.
Definition total (d : details) : Z := total_occs (d_counts d).
(* a cycle of event [a] that fits the log: no more repetitions than the event has occurrences, a
   positive period, the first and the last occurrence inside the log *)
Definition fits (d : details) (a : nat) (p : Z) (occs : list Z) : Prop :=
  (2 <= length occs)%nat /\ (exists n, In (a, n) (d_counts d) /\ Z.of_nat (length occs) <= n) /\ 1 <= p /\
  d_start d <= hd 0 occs /\ last occs 0 <= d_end d.
Definition zsum (l : list Z) : Z := fold_right Z.add 0 l.
(* the moments of the log *)
Definition window (d : details) : list Z := map (fun i => d_start d + Z.of_nat i) (List.seq 0 (Z.to_nat (delta_t d + 1))).

(* ------------------------------------------------------------ proofs *)
Lemma np_log2_ok x : (0 < x)%R -> np_log2 x = Ret (lg x).
Proof. intros Hx. unfold np_log2. destruct (Rlt_dec 0 x); [reflexivity | contradiction]. Qed.
Lemma np_log2z_ok z : 0 < z -> np_log2z z = Ret (lg (IZR z)).
Proof. intros Hz. apply np_log2_ok. apply IZR_lt in Hz. exact Hz. Qed.
Lemma lg_1 : lg 1 = 0%R.
Proof. unfold lg. rewrite ln_1. unfold Rdiv. ring. Qed.
Lemma lg_inv x : (0 < x)%R -> lg (/ x) = (- lg x)%R.
Proof. intros Hx. unfold lg. rewrite ln_Rinv by exact Hx. unfold Rdiv. ring. Qed.
Lemma lg_mult x y : (0 < x)%R -> (0 < y)%R -> lg (x * y) = (lg x + lg y)%R.
Proof. intros Hx Hy. unfold lg. rewrite ln_mult by assumption. unfold Rdiv. ring. Qed.
Lemma lg_div x y : (0 < x)%R -> (0 < y)%R -> lg (x / y) = (lg x - lg y)%R.
Proof. intros Hx Hy. unfold Rdiv. rewrite lg_mult, lg_inv by (try apply Rinv_0_lt_compat; assumption). ring. Qed.
Lemma lg_lt x y : (0 < x)%R -> (x < y)%R -> (lg x < lg y)%R.
Proof. intros Hx Hy. unfold lg, Rdiv. apply Rmult_lt_compat_r; [apply Rinv_0_lt_compat, ln2_pos | apply ln_increasing; assumption]. Qed.
Lemma share_lg' x : (0 < x)%R -> share (lg x) = (/ x)%R.
Proof. apply share_lg. Qed.
Lemma blck_ok : blck_delim = Ret (lg 9).
Proof.
  unfold blck_delim. rewrite np_log2_ok by lra. cbn [bind]. f_equal. replace (1 / 3)%R with (/ 3)%R by lra. rewrite lg_inv by lra.
  replace 9%R with (3 * 3)%R by lra. rewrite lg_mult by lra. ring.
Qed.
Section Details.
  Variable d : details.
  Hypothesis Hd : good_details d.
  Lemma total_pos : 0 < total d.
  Proof.
    destruct Hd as [_ Hs Hp _]. unfold total, total_occs. destruct (d_counts d) as [|[a n] l]; [congruence|]. cbn [map fold_right snd].
    assert (0 <= fold_right Z.add 0 (map snd l)); [|specialize (Hp a n (or_introl eq_refl)); lia].
    assert (Hp' : forall a n, In (a, n) l -> 0 < n) by (intros a' n' I; apply (Hp a' n'); right; exact I). clear -Hp'.
    induction l as [|[b m] l IH]; cbn [map fold_right snd]; [lia|]. pose proof (Hp' b m (or_introl eq_refl)). specialize (IH (fun a' n' I => Hp' a' n' (or_intror I))). lia.
  Qed.
  Lemma count_get a n : In (a, n) (d_counts d) -> dget (d_counts d) a = Some n.
  Proof. intros I. apply VerticalProofs.In_dget; [apply (gd_keys _ Hd) | exact I]. Qed.
  Lemma freq_get (f : Z -> Q) a n : In (a, n) (d_counts d) -> dget (map (fun p => (fst p, f (snd p))) (d_counts d)) a = Some (f n).
  Proof.
    intros I. apply VerticalProofs.In_dget.
    - unfold dkeys. rewrite map_map. apply (gd_keys _ Hd).
    - apply in_map_iff. exists (a, n). auto.
  Qed.
  Lemma inject_R z : Q2R (inject_Z z) = IZR z.
  Proof. unfold Q2R, inject_Z. cbn. lra. Qed.
  Lemma inject_pos z : 0 < z -> ~ (inject_Z z == 0)%Q.
  Proof. intros Hz E. unfold Qeq, inject_Z in E. cbn in E. lia. Qed.
  Lemma org_get a n : In (a, n) (d_counts d) -> exists f, org_freq d a = Some f /\ Q2R f = (IZR n / IZR (total d))%R.
  Proof.
    intros I. pose proof total_pos as Ht. exists (inject_Z n / inject_Z (total d))%Q. split.
    - apply (freq_get (fun n => (inject_Z n / inject_Z (total_occs (d_counts d)))%Q)), I.
    - rewrite Q2R_div by (apply inject_pos, Ht). rewrite !inject_R. reflexivity.
  Qed.
  Lemma adj_get a n : In (a, n) (d_counts d) -> exists f, adj_freq d a = Some f /\ Q2R f = (IZR n / (3 * IZR (total d)))%R.
  Proof.
    intros I. pose proof total_pos as Ht. exists (inject_Z n / (3 * inject_Z (total d)))%Q. split.
    - apply (freq_get (fun n => (inject_Z n / (3 * inject_Z (total_occs (d_counts d))))%Q)), I.
    - rewrite Q2R_div.
      + rewrite Q2R_mult, !inject_R. f_equal. f_equal. f_equal. unfold Q2R. cbn. lra.
      + intros E. apply Qmult_integral in E. destruct E as [E|E]; [discriminate | revert E; apply inject_pos, Ht].
  Qed.
  Lemma cost_one_value a n : In (a, n) (d_counts d) -> cost_one d a = Ret (lg (IZR (total d) / IZR n) + lg (IZR (delta_t d + 1)))%R.
  Proof.
    intros I. destruct (org_get a n I) as (f & Ef & Hf). pose proof total_pos as Ht. pose proof (gd_pos _ Hd a n I) as Hn. pose proof (gd_window _ Hd) as Hwi.
    unfold cost_one. rewrite Ef, Hf. apply IZR_lt in Ht, Hn. rewrite np_log2_ok by (apply Rdiv_lt_0_compat; assumption). cbn [bind].
    rewrite np_log2z_ok by (unfold delta_t; lia). cbn [bind]. do 2 f_equal. rewrite <- lg_inv by (apply Rdiv_lt_0_compat; assumption). f_equal. field. lra.
  Qed.
  Lemma cl_alpha_value a n : In (a, n) (d_counts d) -> cl_alpha d a = Ret (lg (3 * IZR (total d) / IZR n) + lg 9)%R.
  Proof.
    intros I. destruct (adj_get a n I) as (f & Ef & Hf). pose proof total_pos as Ht. pose proof (gd_pos _ Hd a n I) as Hn.
    unfold cl_alpha. rewrite Ef, (count_get a n I), Hf. apply IZR_lt in Ht, Hn. rewrite np_log2_ok by (apply Rdiv_lt_0_compat; lra). cbn [bind]. rewrite blck_ok. cbn [bind].
    do 2 f_equal. rewrite <- lg_inv by (apply Rdiv_lt_0_compat; lra). f_equal. field. lra.
  Qed.
  Lemma cl_r_value a n : In (a, n) (d_counts d) -> cl_r d a = Ret (lg (IZR n)).
  Proof. intros I. unfold cl_r. rewrite (count_get a n I). apply np_log2z_ok, (gd_pos _ Hd a n I). Qed.

  (* ---- isolated occurrences *)
  Lemma rsum_map_scale {X} (f : X -> R) c (l : list X) : rsum (map (fun x => f x * c) l)%R = (rsum (map f l) * c)%R.
  Proof. induction l as [|x l IH]; cbn [map rsum]; [lra | rewrite IH; lra]. Qed.
  Lemma counts_sum c : (rsum (map (fun an => IZR (snd an) * c) (d_counts d)) = IZR (total d) * c)%R.
  Proof.
    rewrite rsum_map_scale. f_equal. unfold total, total_occs. clear. induction (d_counts d) as [|[a n] l IH]; cbn [map rsum fold_right snd]; [reflexivity|].
    rewrite IH, plus_IZR. reflexivity.
  Qed.
  Lemma window_spec t : In t (window d) <-> d_start d <= t <= d_end d.
  Proof.
    unfold window, delta_t. rewrite in_map_iff. split.
    - intros (i & <- & I). apply in_seq in I. lia.
    - intros Ht. exists (Z.to_nat (t - d_start d)). split; [lia|]. apply in_seq. lia.
  Qed.
  Lemma window_NoDup : NoDup (window d).
  Proof. apply FinFun.Injective_map_NoDup; [intros x y; lia | apply seq_NoDup]. Qed.
  Lemma window_length : length (window d) = Z.to_nat (delta_t d + 1).
  Proof. unfold window. rewrite map_length, seq_length. reflexivity. Qed.
  Lemma share_one a n : In (a, n) (d_counts d) -> share (lg (IZR (total d) / IZR n) + lg (IZR (delta_t d + 1))) = (IZR n * / IZR (total d) * / IZR (delta_t d + 1))%R.
  Proof.
    intros I. pose proof total_pos as Ht. pose proof (gd_pos _ Hd a n I) as Hn. pose proof (gd_window _ Hd) as Hwi. assert (Hw' : 0 < delta_t d + 1) by (unfold delta_t; lia).
    apply IZR_lt in Ht, Hn, Hw'. rewrite share_plus, !share_lg' by (try apply Rdiv_lt_0_compat; assumption). field. lra.
  Qed.
  Lemma INR_Ztonat z : 0 <= z -> INR (Z.to_nat z) = IZR z.
  Proof. intros Hz. rewrite INR_IZR_INZ, Z2Nat.id by exact Hz. reflexivity. Qed.
End Details.

(* sub-probabilities used below *)
Lemma kraft_interval (lo hi : Z) : lo <= hi -> kraft (fun z => lo <= z <= hi) (fun _ => (/ IZR (hi - lo + 1))%R).
Proof.
  intros Hl. pose proof (kraft_uniform (fun z => lo <= z <= hi) (Z.to_nat (hi - lo + 1)) ltac:(lia)) as K. rewrite INR_Ztonat in K by lia. apply K.
  intros xs Hn Hf. rewrite <- (seq_length (Z.to_nat (hi - lo + 1)) 0), <- (map_length (fun i => lo + Z.of_nat i)). apply NoDup_incl_length; [exact Hn|].
  intros z I. rewrite Forall_forall in Hf. specialize (Hf z I). cbv beta in Hf. apply in_map_iff. exists (Z.to_nat (z - lo)). split; [lia | apply in_seq; lia].
Qed.
Lemma geometric_sum q n : (rsum (map (fun k => (1 - q) * q ^ k) (List.seq 0 n)) = 1 - q ^ n)%R.
Proof.
  induction n as [|n IH]; [cbn; lra|]. rewrite seq_S, map_app, rsum_app, IH. cbn [map rsum Nat.add pow]. lra.
Qed.
Lemma kraft_geometric q : (0 <= q <= 1)%R -> kraft (fun _ : nat => True) (fun k => ((1 - q) * q ^ k)%R).
Proof.
  intros Hq. assert (Hw : forall k, (0 <= (1 - q) * q ^ k)%R) by (intros k; apply Rmult_le_pos; [lra | apply pow_le; lra]). split; [auto|].
  intros xs Hn _. set (m := S (list_max xs)).
  destruct (kraft_finite (List.seq 0 m) (fun k => ((1 - q) * q ^ k)%R)) as [_ K].
  - intros x _. apply Hw.
  - rewrite geometric_sum. assert (0 <= q ^ m)%R by (apply pow_le; lra). lra.
  - apply K; [exact Hn|]. rewrite Forall_forall. intros x I. apply in_seq. assert (x <= list_max xs)%nat; [|unfold m; lia].
    pose proof (proj1 (list_max_le xs (list_max xs)) (le_n _)) as F. rewrite Forall_forall in F. apply F, I.
Qed.
Lemma share_IZR z : 0 <= z -> share (IZR z) = ((/ 2) ^ Z.to_nat z)%R.
Proof.
  intros Hz. unfold share. rewrite Rpower_Ropp, <- (INR_Ztonat z) by exact Hz. rewrite Rpower_pow by lra. apply Rinv_pow. lra.
Qed.
Lemma kraft_correction : kraft (fun _ : Z => True) (fun e => share (IZR (2 + Z.abs e))).
Proof.
  pose proof (kraft_pair (fun _ : bool => True) (fun _ (_ : nat) => True) (fun _ => (/ INR 2)%R) (fun _ k => ((1 - / 2) * (/ 2) ^ k)%R)
    (kraft_uniform (fun _ : bool => True) 2 ltac:(lia) ltac:(intros xs Hn _; change 2%nat with (length [true; false]); apply NoDup_incl_length; [exact Hn | intros [] _; cbn; auto]))
    (fun _ _ => kraft_geometric (/ 2) ltac:(lra))) as K.
  apply (kraft_via (fun e : Z => (e <? 0, Z.to_nat (Z.abs e))) _ _ _ _ K).
  - intros e _. split; exact I.
  - intros e _. cbn [fst snd]. rewrite share_IZR by lia. replace (Z.to_nat (2 + Z.abs e)) with (2 + Z.to_nat (Z.abs e))%nat by lia. cbn [Nat.add pow INR]. lra.
  - intros x y _ _ E. injection E as E1 E2. destruct (Z.ltb_spec x 0), (Z.ltb_spec y 0); try discriminate; lia.
Qed.
Lemma share_E E : rprod (map (fun e => share (IZR (2 + Z.abs e))) E) = share (IZR (length_E E)).
Proof.
  unfold length_E. induction E as [|e E IH]; cbn [map rprod fold_right]; [rewrite share_0; reflexivity|]. rewrite IH, (plus_IZR (2 + Z.abs e)), share_plus. reflexivity.
Qed.
Lemma diffs_inj : forall l l' : list Z, l <> [] -> l' <> [] -> hd 0 l = hd 0 l' -> diffs l = diffs l' -> l = l'.
Proof.
  induction l as [|x l IH]; intros [|x' l'] Hn Hn' Eh Ed; try congruence. cbn [hd] in Eh. subst x'. f_equal.
  destruct l as [|y l], l' as [|y' l']; try reflexivity; try discriminate.
  change (diffs (x :: y :: l)) with ((y - x) :: diffs (y :: l)) in Ed. change (diffs (x :: y' :: l')) with ((y' - x) :: diffs (y' :: l')) in Ed. injection Ed as E1 E2.
  apply IH; try discriminate; [cbn; lia | exact E2].
Qed.
Lemma diffs_sum : forall l : list Z, zsum (diffs l) = last l 0 - hd 0 l.
Proof.
  induction l as [|x [|y l] IH]; [reflexivity | cbn; lia|]. change (diffs (x :: y :: l)) with ((y - x) :: diffs (y :: l)). cbn [zsum fold_right]. unfold zsum in IH. rewrite IH.
  change (last (x :: y :: l) 0) with (last (y :: l) 0). cbn [hd]. lia.
Qed.
Lemma diffs_len : forall l : list Z, length (diffs l) = (length l - 1)%nat.
Proof. induction l as [|x [|y l] IH]; [reflexivity | reflexivity|]. change (diffs (x :: y :: l)) with ((y - x) :: diffs (y :: l)). cbn [length] in *. rewrite IH. lia. Qed.
Lemma E_sum occs p : (1 <= length occs)%nat -> zsum (compute_E occs p) = last occs 0 - hd 0 occs - p * (Z.of_nat (length occs) - 1).
Proof.
  intros Hl. rewrite <- diffs_sum. unfold compute_E. assert (Hg : forall l, zsum (map (fun x => x - p) l) = zsum l - p * Z.of_nat (length l)).
  { induction l as [|x l IH]; cbn [map zsum fold_right length]; [lia|]. unfold zsum in IH. rewrite IH. lia. }
  rewrite Hg, diffs_len, Nat2Z.inj_sub by lia. cbn [Z.of_nat Pos.of_succ_nat]. lia.
Qed.

Section Cycles.
  Variable d : details.
  Hypothesis Hd : good_details d.
  (* the numbers of periods and of starting times *)
  Definition nb_periods (r : nat) (E : list Z) : Z := (delta_t d - zsum E) / (Z.of_nat r - 1).
  Definition nb_starts (r : nat) (E : list Z) (p : Z) : Z := delta_t d - zsum E - p * (Z.of_nat r - 1) + 1.
  Lemma fits_bounds a p occs : fits d a p occs -> let r := length occs in let E := compute_E occs p in
    1 <= p <= nb_periods r E /\ d_start d <= hd 0 occs <= d_start d + nb_starts r E p - 1.
  Proof.
    intros (Hl & _ & Hp & Hs & He). cbv zeta. unfold nb_periods, nb_starts. rewrite E_sum by lia. unfold delta_t. split.
    - split; [exact Hp|]. apply Z.div_le_lower_bound; [lia|]. lia.
    - lia.
  Qed.
  Lemma cycle_value a p occs n : In (a, n) (d_counts d) -> fits d a p occs ->
    length_cycle d a p occs false = Ret (lg (3 * IZR (total d) / IZR n) + lg 9 + lg (IZR n) + lg (IZR (nb_periods (length occs) (compute_E occs p))) +
      lg (IZR (nb_starts (length occs) (compute_E occs p) p)) + IZR (length_E (compute_E occs p)))%R.
  Proof.
    intros I Hf. destruct (fits_bounds a p occs Hf) as [B1 B2]. cbv zeta in B1, B2. destruct Hf as (Hl & _). unfold length_cycle.
    rewrite (cl_alpha_value d Hd a n I), (cl_r_value d Hd a n I). cbn [bind]. destruct (Z.eqb_spec (Z.of_nat (length occs) - 1) 0) as [E|_]; [lia|].
    fold (zsum (compute_E occs p)). fold (nb_periods (length occs) (compute_E occs p)). fold (nb_starts (length occs) (compute_E occs p) p).
    rewrite np_log2z_ok by lia. cbn [bind]. destruct (Z.leb_spec (nb_starts (length occs) (compute_E occs p) p) 0) as [L|L]; [lia|]. rewrite np_log2z_ok by exact L. reflexivity.
  Qed.
End Cycles.

(* C83: single occurrences.  Every event of the log at every moment has a code length, and these
   lengths are those of a code that wastes nothing: over all moments and events the shares of the
   code space add up to exactly one. *)
Theorem C83_occurrences : forall d, good_details d ->
  (forall a, In a (map fst (d_counts d)) -> exists L, cost_one d a = Ret L /\ (0 <= L)%R) /\
  (forall l : list (Z * nat * R), NoDup (map fst l) ->
     Forall (fun x => d_start d <= fst (fst x) <= d_end d /\ In (snd (fst x)) (map fst (d_counts d)) /\ cost_one d (snd (fst x)) = Ret (snd x)) l ->
     (rsum (map (fun x => share (snd x)) l) <= 1)%R) /\
  (forall L, Forall2 (fun oa x => cost_one d (snd oa) = Ret x) (list_prod (window d) (map fst (d_counts d))) L -> rsum (map share L) = 1%R).
Proof.
  intros d Hd. pose proof (total_pos d Hd) as Ht. pose proof (gd_window _ Hd) as Hwi. assert (Hw1 : 0 < delta_t d + 1) by (unfold delta_t; lia).
  assert (Hval : forall a, In a (map fst (d_counts d)) -> exists n, In (a, n) (d_counts d) /\ cost_one d a = Ret (lg (IZR (total d) / IZR n) + lg (IZR (delta_t d + 1)))%R).
  { intros a I. apply in_map_iff in I. destruct I as ([a' n] & <- & I). exists n. split; [exact I | apply cost_one_value; assumption]. }
  pose (wa := fun a : nat => match dget (d_counts d) a with Some n => (IZR n * / IZR (total d))%R | None => 0%R end).
  assert (Hwa : rsum (map wa (map fst (d_counts d))) = 1%R).
  { rewrite map_map. rewrite (map_ext_in _ (fun an => IZR (snd an) * / IZR (total d))%R).
    - rewrite counts_sum. apply Rinv_r. apply IZR_lt in Ht. lra.
    - intros [a n] I. unfold wa. cbn [fst snd]. rewrite (count_get d Hd a n I). reflexivity. }
  assert (Hsh : forall a L, In a (map fst (d_counts d)) -> cost_one d a = Ret L -> share L = (wa a * / IZR (delta_t d + 1))%R).
  { intros a L I E. destruct (Hval a I) as (n & In' & Ev). rewrite E in Ev. injection Ev as ->. rewrite (share_one d Hd a n In'). unfold wa. rewrite (count_get d Hd a n In'). reflexivity. }
  assert (Hwa0 : forall a, In a (map fst (d_counts d)) -> (0 <= wa a)%R).
  { intros a I. destruct (Hval a I) as (n & I' & _). unfold wa. rewrite (count_get d Hd a n I'). pose proof (gd_pos _ Hd a n I') as Hn. apply IZR_lt in Hn, Ht.
    apply Rmult_le_pos; [lra | left; apply Rinv_0_lt_compat; lra]. }
  split; [|split].
  - intros a I. destruct (Hval a I) as (n & I' & E). eexists. split; [exact E|]. pose proof (gd_pos _ Hd a n I') as Hn.
    assert (Hle : n <= total d).
    { unfold total, total_occs. pose proof (gd_pos _ Hd) as Hp. clear -I' Hp. induction (d_counts d) as [|[b m] l IH]; [destruct I'|]. cbn [map fold_right snd].
      assert (0 <= fold_right Z.add 0 (map snd l)).
      { assert (Hp' : forall a n, In (a, n) l -> 0 < n) by (intros a' n' J; apply (Hp a' n'); right; exact J). clear -Hp'. induction l as [|[b m] l IH]; cbn [map fold_right snd]; [lia|].
        pose proof (Hp' b m (or_introl eq_refl)). specialize (IH (fun a' n' J => Hp' a' n' (or_intror J))). lia. }
      destruct I' as [E|I']; [injection E as <- <-; lia|]. specialize (IH I' (fun a' n' J => Hp a' n' (or_intror J))). specialize (Hp b m (or_introl eq_refl)). lia. }
    apply IZR_le in Hle. apply IZR_lt in Hn. pose proof (IZR_le 1 (delta_t d + 1) ltac:(lia)) as H1.
    assert (Hnn : forall x, (1 <= x)%R -> (0 <= lg x)%R).
    { intros x [Hx|<-]; [|rewrite lg_1; lra]. rewrite <- lg_1. left. apply lg_lt; lra. }
    assert (1 <= IZR (total d) / IZR n)%R.
    { apply Rmult_le_reg_r with (IZR n); [exact Hn|]. unfold Rdiv. rewrite Rmult_assoc, Rinv_l by lra. lra. }
    pose proof (Hnn _ H). pose proof (Hnn _ H1). lra.
  - intros l Hn Hf.
    assert (Hwa1 : (rsum (map wa (map fst (d_counts d))) <= 1)%R) by lra.
    pose proof (kraft_finite (map fst (d_counts d)) wa Hwa0 Hwa1) as Ka.
    pose proof (kraft_pair _ (fun _ t => d_start d <= t <= d_end d) _ (fun _ _ => (/ IZR (delta_t d + 1))%R) Ka (fun _ _ => kraft_interval _ _ Hwi)) as [_ K].
    rewrite Forall_forall in Hf. rewrite (map_ext_in _ (fun x => (wa (fst (snd (fst x), fst (fst x))) * / IZR (delta_t d + 1)))%R).
    2: { intros x I. destruct (Hf x I) as (_ & H2 & H3). cbn [fst]. apply Hsh; assumption. }
    rewrite <- (map_map (fun x : Z * nat * R => (snd (fst x), fst (fst x))) (fun ta => (wa (fst ta) * / IZR (delta_t d + 1))%R)). apply K.
    + rewrite <- (map_map fst (fun ta : Z * nat => (snd ta, fst ta))). apply FinFun.Injective_map_NoDup; [intros [x y] [x' y'] E; cbn in E; congruence | exact Hn].
    + rewrite Forall_map, Forall_forall. intros x I. cbn [fst snd]. destruct (Hf x I) as (H1 & H2 & _). auto.
  - intros L HL. assert (Hin : forall oa, In oa (list_prod (window d) (map fst (d_counts d))) -> In (snd oa) (map fst (d_counts d))) by (intros [o a] I; apply in_prod_iff in I; apply I).
    assert (EL : map share L = map (fun oa => wa (snd oa) * / IZR (delta_t d + 1))%R (list_prod (window d) (map fst (d_counts d)))).
    { clear Hwa. induction HL as [|oa x l L' Hx HL IH]; [reflexivity|]. cbn [map]. f_equal; [apply Hsh; [apply Hin; left; reflexivity | exact Hx] | apply IH; intros oa' I; apply Hin; right; exact I]. }
    rewrite EL, rsum_map_scale.
    assert (Ep : forall ts : list Z, rsum (map (fun oa => wa (snd oa)) (list_prod ts (map fst (d_counts d)))) = INR (length ts)).
    { induction ts as [|t ts IH]; [reflexivity|]. cbn [list_prod]. rewrite map_app, rsum_app, IH, map_map. cbn [snd length]. fold wa. rewrite (S_INR (length ts)). replace (rsum (map (fun x => wa x) (map fst (d_counts d)))) with 1%R by (symmetry; exact Hwa). ring. }
    rewrite Ep, window_length, INR_Ztonat by lia. apply Rinv_r. apply IZR_lt in Hw1. lra.
Qed.
Print Assumptions C83_occurrences.

(* C83: what the length of a cycle that fits the log is made of: the event among the symbols of the
   log and two brackets, the number of repetitions among the occurrences of the event, the period
   among those that leave room for it, the first occurrence among the moments that leave room for
   the last one, and the corrections in unary with a sign and a stop bit each. *)
Theorem C83_cycle_parts : forall d a n p occs periods starts, good_details d -> In (a, n) (d_counts d) -> fits d a p occs ->
  let E := compute_E occs p in
  let last_of t q := t + q * (Z.of_nat (length occs) - 1) + zsum E in
  NoDup periods -> (forall q, In q periods <-> 1 <= q /\ exists t, d_start d <= t /\ last_of t q <= d_end d) ->
  NoDup starts -> (forall t, In t starts <-> d_start d <= t /\ last_of t p <= d_end d) ->
  length_cycle d a p occs false = Ret (lg (3 * IZR (total d) / IZR n) + 2 * lg 3 + lg (IZR n) + lg (INR (length periods)) + lg (INR (length starts)) +
    IZR (zsum (map (fun e => (2 + Z.abs e)%Z) E)))%R.
Proof.
  intros d a n p occs periods starts Hd I Hf E last_of Np Sp Ns Ss. rewrite (cycle_value d Hd a p occs n I Hf).
  destruct (fits_bounds d a p occs Hf) as [B1 B2]. cbv zeta in B1, B2. fold E in B1, B2 |- *. destruct Hf as (Hl & _).
  assert (Hcount : forall (l : list Z) lo hi, lo <= hi + 1 -> NoDup l -> (forall z, In z l <-> lo <= z <= hi) -> INR (length l) = IZR (hi - lo + 1)).
  { intros l lo hi Hlo Hn Hs. rewrite <- INR_Ztonat by lia. f_equal. apply Nat.le_antisymm.
    - rewrite <- (seq_length (Z.to_nat (hi - lo + 1)) 0), <- (map_length (fun i => lo + Z.of_nat i)). apply NoDup_incl_length; [exact Hn|].
      intros z J. apply Hs in J. apply in_map_iff. exists (Z.to_nat (z - lo)). split; [lia | apply in_seq; lia].
    - rewrite <- (seq_length (Z.to_nat (hi - lo + 1)) 0) at 1. rewrite <- (map_length (fun i => lo + Z.of_nat i)). apply NoDup_incl_length.
      + apply FinFun.Injective_map_NoDup; [intros x y; lia | apply seq_NoDup].
      + intros z J. apply in_map_iff in J. destruct J as (i & <- & J). apply in_seq in J. apply Hs. lia. }
  rewrite (Hcount periods 1 (nb_periods d (length occs) E)); [|lia | exact Np|].
  - rewrite (Hcount starts (d_start d) (d_start d + nb_starts d (length occs) E p - 1)); [|lia | exact Ns|].
    + replace (nb_periods d (length occs) E - 1 + 1) with (nb_periods d (length occs) E) by lia.
      replace (d_start d + nb_starts d (length occs) E p - 1 - d_start d + 1) with (nb_starts d (length occs) E p) by lia.
      replace (lg 9) with (2 * lg 3)%R by (replace 9%R with (3 * 3)%R by lra; rewrite lg_mult by lra; ring). reflexivity.
    + intros t. rewrite Ss. unfold last_of, nb_starts, delta_t. lia.
  - intros q. rewrite Sp. unfold last_of, nb_periods, delta_t. split.
    + intros (H1 & t & H2 & H3). split; [exact H1|]. apply Z.div_le_lower_bound; lia.
    + intros (H1 & H2). split; [exact H1|]. exists (d_start d). split; [lia|].
      pose proof (Z.mul_div_le (d_end d - d_start d - zsum E) (Z.of_nat (length occs) - 1) ltac:(lia)). nia.
Qed.
Print Assumptions C83_cycle_parts.

(* C83: the lengths of the cycles that fit the log are those of a code *)
Definition cyc_id := (nat * Z * list Z)%type.     (* event, period, occurrences *)
Theorem C83_cycle_code : forall d, good_details d ->
  (forall a p occs, fits d a p occs -> exists L, length_cycle d a p occs false = Ret L) /\
  forall l : list (cyc_id * R), NoDup (map fst l) ->
    Forall (fun x => let '(a, p, occs) := fst x in fits d a p occs /\ length_cycle d a p occs false = Ret (snd x)) l ->
    (rsum (map (fun x => share (snd x)) l) <= 1)%R.
Proof.
  intros d Hd. split.
  - intros a p occs Hf. pose proof Hf as (_ & (n & I & _) & _). rewrite (cycle_value d Hd a p occs n I Hf). eauto.
  - intros l Hn Hf.
    pose proof (total_pos d Hd) as Ht. apply IZR_lt in Ht.
    pose (cnt := fun a : nat => match dget (d_counts d) a with Some n => n | None => 1 end).
    pose (wa := fun a : nat => (IZR (cnt a) * / (27 * IZR (total d)))%R).
    assert (Hcnt : forall a n, In (a, n) (d_counts d) -> cnt a = n) by (intros a n I; unfold cnt; rewrite (count_get d Hd a n I); reflexivity).
    assert (Hcp : forall a, In a (map fst (d_counts d)) -> 0 < cnt a).
    { intros a I. apply in_map_iff in I. destruct I as ([a' n] & <- & I). cbn [fst]. rewrite (Hcnt a' n I). apply (gd_pos _ Hd a' n I). }
    assert (Ka : kraft (fun a => In a (map fst (d_counts d))) wa).
    { apply kraft_finite.
      - intros a I. specialize (Hcp a I). apply IZR_lt in Hcp. unfold wa. apply Rmult_le_pos; [lra | left; apply Rinv_0_lt_compat; lra].
      - rewrite map_map. rewrite (map_ext_in _ (fun an => IZR (snd an) * / (27 * IZR (total d)))%R).
        + rewrite counts_sum. rewrite Rinv_mult_distr by lra. replace (IZR (total d) * (/ 27 * / IZR (total d)))%R with (/ 27)%R by (field; lra). lra.
        + intros [a n] I. unfold wa. cbn [fst snd]. rewrite (Hcnt a n I). reflexivity. }
    (* repetitions *)
    pose proof (fun a (I : In a (map fst (d_counts d))) => kraft_interval 1 (cnt a) ltac:(specialize (Hcp a I); lia)) as Kr0.
    assert (Kr : forall a, In a (map fst (d_counts d)) -> kraft (fun r : nat => 1 <= Z.of_nat r <= cnt a) (fun _ => (/ IZR (cnt a))%R)).
    { intros a I. apply (kraft_via Z.of_nat _ _ _ _ (Kr0 a I)); [auto | intros; f_equal; f_equal; lia | intros x y _ _; lia]. }
    pose proof (kraft_pair _ _ _ _ Ka Kr) as K1. cbv beta in K1.
    (* corrections *)
    pose proof (kraft_pair _ (fun ar E => length E = (snd ar - 1)%nat /\ Forall (fun _ : Z => True) E) _ (fun _ E => rprod (map (fun e => share (IZR (2 + Z.abs e))) E)) K1
      (fun ar _ => kraft_lists _ _ kraft_correction (snd ar - 1)%nat)) as K2. cbv beta in K2.
    (* period *)
    assert (Kp : forall N, kraft (fun p => 1 <= p <= N) (fun _ => (/ IZR (if 1 <=? N then N else 1))%R)).
    { intros N. destruct (Z.leb_spec 1 N) as [L|L].
      - pose proof (kraft_interval 1 N L) as K. replace (N - 1 + 1) with N in K by lia. exact K.
      - split; [intros x Hx; lia|]. intros [|x xs] _ F; [cbn; lra|]. inversion F; subst. lia. }
    pose proof (kraft_pair _ (fun arE p => 1 <= p <= nb_periods d (snd (fst arE)) (snd arE)) _ _ K2 (fun arE _ => Kp (nb_periods d (snd (fst arE)) (snd arE)))) as K3. cbv beta in K3.
    (* start *)
    assert (Ks : forall N, kraft (fun t => d_start d <= t <= d_start d + N - 1) (fun _ => (/ IZR (if 1 <=? N then N else 1))%R)).
    { intros N. destruct (Z.leb_spec 1 N) as [L|L].
      - pose proof (kraft_interval (d_start d) (d_start d + N - 1) ltac:(lia)) as K. replace (d_start d + N - 1 - d_start d + 1) with N in K by lia. exact K.
      - split; [intros x Hx; lia|]. intros [|x xs] _ F; [cbn; lra|]. inversion F; subst. lia. }
    pose proof (kraft_pair _ (fun x t => d_start d <= t <= d_start d + nb_starts d (snd (fst (fst x))) (snd (fst x)) (snd x) - 1) _ _ K3
      (fun x _ => Ks (nb_starts d (snd (fst (fst x))) (snd (fst x)) (snd x)))) as K4. cbv beta in K4. clear K1 K2 K3 Kr Kr0.
    pose (enc := fun c : cyc_id => let '(a, p, occs) := c in ((((a, length occs), compute_E occs p), p), hd 0 occs)).
    pose (wc := (fun c : cyc_id => let '(a, p, occs) := c in match length_cycle d a p occs false with Ret L => share L | _ => 0%R end)).
    assert (K5 : kraft (fun c : cyc_id => let '(a, p, occs) := c in fits d a p occs) wc).
    { apply (kraft_via enc _ _ _ _ K4).
      - intros [[a p] occs] Hfit. cbn [enc fst snd]. destruct (fits_bounds d a p occs Hfit) as [B1 B2]. cbv zeta in B1, B2. destruct Hfit as (Hl & (n & I & Hr) & Hp & _).
        repeat split; try lia.
        + apply in_map_iff. exists (a, n). auto.
        + rewrite (Hcnt a n I). lia.
        + unfold compute_E. rewrite map_length, diffs_len. reflexivity.
        + rewrite Forall_forall. auto.
      - intros [[a p] occs] Hfit. unfold wc. cbn [enc fst snd]. destruct (fits_bounds d a p occs Hfit) as [B1 B2]. cbv zeta in B1, B2. pose proof Hfit as (Hl & (n & I & Hr) & Hp & _).
        rewrite (cycle_value d Hd a p occs n I Hfit). pose proof (gd_pos _ Hd a n I) as Hn0.
        set (N1 := nb_periods d (length occs) (compute_E occs p)) in *. set (N2 := nb_starts d (length occs) (compute_E occs p) p) in *.
        destruct (Z.leb_spec 1 N1) as [L1|L1]; [|lia]. destruct (Z.leb_spec 1 N2) as [L2|L2]; [|lia].
        assert (P1 : (0 < IZR N1)%R) by (apply IZR_lt; lia). assert (P2 : (0 < IZR N2)%R) by (apply IZR_lt; lia). apply IZR_lt in Hn0.
        rewrite !share_plus, !share_lg' by (try apply Rdiv_lt_0_compat; lra). rewrite share_E. unfold wa. rewrite (Hcnt a n I). field. repeat split; lra.
      - intros [[a p] occs] [[a' p'] occs'] Hfit Hfit' Eq. cbn [enc] in Eq. injection Eq as <- El EE <- Eh. f_equal.
        destruct Hfit as (Hl & _). destruct Hfit' as (Hl' & _).
        apply diffs_inj; [intros ->; cbn in Hl; lia | intros ->; cbn in Hl'; lia | exact Eh|].
        unfold compute_E in EE. clear -EE. revert EE. generalize (diffs occs) (diffs occs'). induction l as [|x l IH]; intros [|y l'] EE; try discriminate; [reflexivity|].
        cbn [map] in EE. injection EE as E1 E2. f_equal; [lia | apply IH, E2]. }
    destruct K5 as [_ K5]. rewrite Forall_forall in Hf.
    rewrite (map_ext_in _ (fun x => wc (fst x))).
    2: { intros [[[a p] occs] L] I. specialize (Hf _ I). unfold wc. cbn [fst snd] in *. destruct Hf as [_ ->]. reflexivity. }
    rewrite <- (map_map fst wc l). apply K5; [exact Hn|]. rewrite Forall_map, Forall_forall. intros [[[a p] occs] L] I. specialize (Hf _ I). cbn [fst snd] in *. apply Hf.
Qed.
Print Assumptions C83_cycle_code.

(* C83: three occurrences are costed with the shorter of the two gaps as the period *)
Theorem C83_triple : forall d a x y z, good_details d -> let p := Z.min (z - y) (y - x) in fits d a p [x; y; z] ->
  cost_triple d a p (Z.abs ((z - y) - (y - x))) = length_cycle d a p [x; y; z] false.
Proof.
  intros d a x y z Hd p Hf. pose proof Hf as (_ & (n & I & _) & Hp & Hs & He). cbn [hd last] in Hs, He.
  rewrite (cycle_value d Hd a p [x; y; z] n I Hf). unfold cost_triple. rewrite (cl_alpha_value d Hd a n I), (cl_r_value d Hd a n I). cbn [bind].
  assert (EE : zsum (compute_E [x; y; z] p) = Z.abs (z - y - (y - x))) by (unfold compute_E; cbn; unfold p; lia).
  assert (LE : length_E (compute_E [x; y; z] p) = 4 + Z.abs (Z.abs (z - y - (y - x)))) by (unfold length_E, compute_E; cbn [diffs map fold_right]; unfold p; lia).
  destruct (fits_bounds d a p [x; y; z] Hf) as [B1 B2]. cbv zeta in B1, B2. unfold nb_periods, nb_starts in *. rewrite EE in *. cbn [length] in *.
  change (Z.of_nat 3 - 1) with 2 in *. rewrite (Z.mul_comm p 2) in *. cbn [hd] in B2. rewrite !np_log2z_ok by lia. cbn [bind]. rewrite LE, (plus_IZR 4). f_equal. ring.
Qed.
Print Assumptions C83_triple.
(* and recorded with another one, the integer mean of the two gaps: the cost kept with a triple is
   not the length of the cycle that is kept *)
Theorem C83_triple_refuted : ~ forall d a x y z p c, good_details d -> fits d a p [x; y; z] -> compute_period [x; y; z] = Some p ->
  cost_triple d a (Z.min (z - y) (y - x)) (Z.abs ((z - y) - (y - x))) = Ret c -> length_cycle d a p [x; y; z] false = Ret c.
Proof.
  intros H. pose (d := {| d_counts := [(0%nat, 3)]; d_start := 0; d_end := 100 |}).
  assert (Hd : good_details d) by (constructor; cbn; [repeat constructor; cbn; tauto | discriminate | intros a n [E|[]]; injection E as <- <-; lia | lia]).
  assert (I : In (0%nat, 3) (d_counts d)) by (left; reflexivity).
  assert (F12 : fits d 0%nat 12 [0; 10; 24]) by (repeat split; cbn; try lia; exists 3; split; [left; reflexivity | lia]).
  assert (F10 : fits d 0%nat 10 [0; 10; 24]) by (repeat split; cbn; try lia; exists 3; split; [left; reflexivity | lia]).
  pose proof (C83_triple d 0%nat 0 10 24 Hd F10) as Et. cbv zeta in Et. change (Z.min (24 - 10) (10 - 0)) with 10 in Et. rewrite (cycle_value d Hd 0%nat 10 _ 3 I F10) in Et.
  specialize (H d 0%nat 0 10 24 12 _ Hd F12 eq_refl Et). rewrite (cycle_value d Hd 0%nat 12 _ 3 I F12) in H.
  change (nb_periods d (length [0; 10; 24]) (compute_E [0; 10; 24] 12)) with 50 in H. change (nb_periods d (length [0; 10; 24]) (compute_E [0; 10; 24] 10)) with 48 in H.
  change (nb_starts d (length [0; 10; 24]) (compute_E [0; 10; 24] 12) 12) with 77 in H. change (nb_starts d (length [0; 10; 24]) (compute_E [0; 10; 24] 10) 10) with 77 in H.
  change (length_E (compute_E [0; 10; 24] 12)) with 8 in H. change (length_E (compute_E [0; 10; 24] 10)) with 8 in H.
  assert (E : forall a b : R, Ret a = Ret b -> a = b) by (intros a b Hab; injection Hab; auto). apply E in H. pose proof (lg_lt 48 50 ltac:(lra) ltac:(lra)). lra.
Qed.
Print Assumptions C83_triple_refuted.

(* C83: the length without the corrections.  computeLengthCycle has a number for every cycle that
   fits; the same cycle as a pattern has not: the guard against a negative number of starting times
   is never reached. *)
Theorem C83_bare : forall d a p occs, good_details d -> fits d a p occs -> Z.of_nat (length occs) - 1 <= delta_t d ->
  exists L, length_cycle d a p occs true = Ret L.
Proof.
  intros d a p occs Hd (Hl & (n & I & _) & Hp & _) Hr. unfold length_cycle. rewrite (cl_alpha_value d Hd a n I), (cl_r_value d Hd a n I). cbn [bind].
  destruct (Z.eqb_spec (Z.of_nat (length occs) - 1) 0) as [E|_]; [lia|]. rewrite np_log2z_ok by (apply Z.div_str_pos; lia). cbn [bind].
  match goal with |- context [?x <=? 0] => destruct (Z.leb_spec x 0) as [L|L] end; [cbn [bind]; eauto|]. rewrite np_log2z_ok by exact L. cbn [bind]. eauto.
Qed.
Print Assumptions C83_bare.
Theorem C83_bare_refuted : ~ forall d a p occs, good_details d -> fits d a p occs -> Z.of_nat (length occs) - 1 <= delta_t d ->
  exists L, code_length d (simple_tree a (length occs) p) (hd 0 occs) None = Ret L.
Proof.
  intros H. pose (d := {| d_counts := [(0%nat, 4)]; d_start := 0; d_end := 21 |}).
  assert (Hd : good_details d) by (constructor; cbn; [repeat constructor; cbn; tauto | discriminate | intros a n [E|[]]; injection E as <- <-; lia | lia]).
  destruct (H d 0%nat 10 [0; 10; 20; 21] Hd) as [L HL]; [repeat split; cbn; try lia; exists 4; split; [left; reflexivity | lia] | cbn; lia|].
  unfold code_length, simple_tree in HL. cbn [length hd] in HL.
  destruct (out_opt KeyError _) as [x|e|] in HL; try discriminate. cbn [bind] in HL.
  destruct (code_events d _) as [x1|e|] in HL; try discriminate. cbn [bind] in HL.
  destruct (code_R d _) as [x2|e|] in HL; try discriminate. cbn [bind] in HL.
  destruct (code_PTop d 4 0) as [x3|e|] in HL; try discriminate. cbn [bind] in HL.
  unfold code_T0, np_log2z, np_log2 in HL. destruct (Rlt_dec 0 _) as [C|C]; [|discriminate]. cbn in C. lra.
Qed.
Print Assumptions C83_bare_refuted.

(* a log over [0, 100] with six occurrences of one event and three of another *)
Definition C83_d : details := {| d_counts := [(0%nat, 6); (1%nat, 3)]; d_start := 0; d_end := 100 |}.
Example C83_good : good_details C83_d.
Proof.
  constructor; cbn; [repeat constructor; cbn; intuition discriminate | discriminate | intros a n [E|[E|[]]]; injection E as <- <-; lia | lia].
Qed.
(* two cycles on the same five occurrences, with different periods, both fit *)
Example C83_case : fits C83_d 0 20 [3; 23; 44; 62; 84] /\ fits C83_d 0 21 [3; 23; 44; 62; 84] /\
  length_cycle C83_d 0 20 [3; 23; 44; 62; 84] false = Ret (lg (27 / 6) + 2 * lg 3 + lg 6 + lg 24 + lg 20 + 13)%R.
Proof.
  assert (F : forall p, 1 <= p -> fits C83_d 0 p [3; 23; 44; 62; 84]) by (intros p Hp; repeat split; cbn; try lia; exists 6; split; [left; reflexivity | lia]).
  split; [apply F; lia|]. split; [apply F; lia|]. rewrite (cycle_value C83_d C83_good 0%nat 20 _ 6); [|left; reflexivity | apply F; lia].
  change (nb_periods C83_d (length [3; 23; 44; 62; 84]) (compute_E [3; 23; 44; 62; 84] 20)) with 24.
  change (nb_starts C83_d (length [3; 23; 44; 62; 84]) (compute_E [3; 23; 44; 62; 84] 20) 20) with 20.
  change (length_E (compute_E [3; 23; 44; 62; 84] 20)) with 13. change (IZR (total C83_d)) with 9%R.
  replace (lg 9) with (2 * lg 3)%R by (replace 9%R with (3 * 3)%R by lra; rewrite lg_mult by lra; ring). replace (3 * 9 / 6)%R with (27 / 6)%R by lra. reflexivity.
Qed.
(* every log that is not empty gives such details *)
Theorem C83_of_log : forall {A} `{EqDec A} (leA : A -> A -> bool) seq s,
  (forall x y, leA x y = true \/ leA y x = true) -> (forall x y z, leA x y = true -> leA y z = true -> leA x z = true) ->
  seq <> [] -> dataseq_of_list leA seq = Ret s -> good_details (details_of s).
Proof.
  intros A EA leA seq s Htot Htr Hne E. destruct (C49_of_log leA seq s Htot Htr Hne E) as [Ht Hp].
  destruct (C38_sequence leA Htot Htr seq) as [s' [E' R]]. rewrite E in E'. injection E' as <-.
  constructor; unfold details_of; cbn [d_counts d_start d_end].
  - unfold dataseq_of_list, dataseq_of_dict in E. set (dd := group_occs seq) in *. set (evs := sort leA (dkeys dd)) in *.
    destruct (existsb _ _) in E; [discriminate|]. injection E as <-. cbn [ds_counts]. rewrite !map_map. cbn [fst].
    assert (G1 : NoDup (dkeys dd)) by apply group_spec.
    assert (Hdk : forall e ts, In (e, ts) dd -> In e evs) by (intros e ts Hin; unfold evs; apply In_sort; apply (in_map fst) in Hin; exact Hin).
    clear -G1 Hdk. clearbody evs. unfold dkeys in G1. clearbody dd. induction dd as [|[e ts] d' IH]; cbn [map fst]; [constructor|].
    inversion G1 as [|? ? He G1']; subst. constructor.
    + rewrite in_map_iff. intros [[e' ts'] [E Hin]]. cbn [fst] in E. apply He.
      assert (E1 := proj1 (PropArray.first_index_spec e evs ltac:(eapply Hdk; left; reflexivity))). assert (E2 := proj1 (PropArray.first_index_spec e' evs ltac:(eapply Hdk; right; exact Hin))).
      rewrite E, E1 in E2. injection E2 as ->. apply (in_map fst) in Hin. exact Hin.
    + apply IH; [exact G1'|]. intros e' ts' Hin. eapply Hdk. right. exact Hin.
  - intros C. rewrite C in Ht. cbn in Ht. lia.
  - exact Hp.
  - destruct seq as [|[t0 e0] q]; [congruence|]. destruct (rp_extent _ _ _ R t0 e0 (or_introl eq_refl)) as (_ & _ & B). lia.
Qed.
Print Assumptions C83_of_log.

(* C82: the bound on the corrections of a triple in the second search is log2(deltaT + 1) - 2 *)
Theorem C82_bound : forall deltaT dE, 0 <= deltaT -> 0 <= dE ->
  (MineModel.small_of deltaT dE = true <-> (IZR dE < ln (IZR (deltaT + 1)) / ln 2 - 2)%R).
Proof.
  intros T e HT He. unfold MineModel.small_of. rewrite Z.ltb_lt.
  assert (Hl2 : (0 < ln 2)%R) by (rewrite <- ln_1; apply ln_increasing; lra).
  assert (Hpow : (ln (IZR (2 ^ (e + 2))) = IZR (e + 2) * ln 2)%R).
  { rewrite <- (Z2Nat.id (e + 2)) at 1 by lia. rewrite <- pow_IZR, ln_pow by lra. rewrite INR_IZR_INZ, Z2Nat.id by lia. reflexivity. }
  assert (Hp : (0 < IZR (2 ^ (e + 2)))%R) by (apply IZR_lt; apply Z.pow_pos_nonneg; lia).
  assert (Hx : (0 < IZR (T + 1))%R) by (apply IZR_lt; lia).
  assert (Hq : (ln (IZR (T + 1)) = ln (IZR (T + 1)) / ln 2 * ln 2)%R) by (field; lra).
  rewrite plus_IZR in Hpow. split.
  - intros L. apply IZR_lt in L. apply (ln_increasing _ _ Hp) in L. rewrite Hpow, Hq in L. apply Rmult_lt_reg_r in L; lra.
  - intros L. apply lt_IZR. apply ln_lt_inv; [exact Hp | exact Hx|]. rewrite Hpow, Hq. apply Rmult_lt_compat_r; lra.
Qed.
Print Assumptions C82_bound.
Example C82_bound_case : MineModel.small_of 100 4 = true /\ MineModel.small_of 100 5 = false.
Proof. split; reflexivity. Qed.
