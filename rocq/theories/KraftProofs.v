(* Sub-probability weights: composition lemmas for Kraft sums, over the real
   numbers of the standard library. *)
From Coq Require Import Reals QArith Qreals Qpower Lra.
From Verif Require Import Prelude CheckModel GraphUtilModel PropGraphUtil.
Open Scope nat_scope.

Fixpoint rsum (l : list R) : R := match l with [] => 0%R | x :: r => (x + rsum r)%R end.
Fixpoint rprod (l : list R) : R := match l with [] => 1%R | x :: r => (x * rprod r)%R end.

Lemma rsum_app a b : rsum (a ++ b) = (rsum a + rsum b)%R.
Proof. induction a as [|x a IH]; simpl; [ring | rewrite IH; ring]. Qed.
Lemma rsum_perm a b : Permutation a b -> rsum a = rsum b.
Proof. induction 1; simpl; lra. Qed.
Lemma rsum_nonneg l : Forall (fun x => 0 <= x)%R l -> (0 <= rsum l)%R.
Proof. induction 1; simpl; lra. Qed.
Lemma rprod_nonneg l : Forall (fun x => 0 <= x)%R l -> (0 <= rprod l)%R.
Proof. induction 1; simpl; [lra | apply Rmult_le_pos; assumption]. Qed.
Lemma rprod_app a b : rprod (a ++ b) = (rprod a * rprod b)%R.
Proof. induction a as [|x a IH]; simpl; [ring | rewrite IH; ring]. Qed.
Lemma rsum_le {X} (f g : X -> R) l : (forall x, In x l -> (f x <= g x)%R) -> (rsum (map f l) <= rsum (map g l))%R.
Proof.
  induction l as [|x l IH]; intros Hf; simpl; [lra|].
  pose proof (Hf x (or_introl eq_refl)). specialize (IH (fun y Hy => Hf y (or_intror Hy))). lra.
Qed.
Lemma rsum_const {X} (l : list X) c : rsum (map (fun _ => c) l) = (INR (length l) * c)%R.
Proof.
  induction l as [|x l IH]; [simpl; ring|]. cbn [map rsum]. rewrite IH.
  change (length (x :: l)) with (S (length l)). rewrite S_INR. ring.
Qed.
Lemma INR_sum l : INR (list_sum l) = rsum (map INR l).
Proof. induction l as [|x l IH]; [reflexivity|]. cbn [map rsum]. rewrite <- IH. change (list_sum (x :: l)) with (x + list_sum l). apply plus_INR. Qed.

(* [w] gives nonnegative weights to the things in [P], and any of them, taken
   once each, weigh at most 1 together *)
Definition kraft {X} (P : X -> Prop) (w : X -> R) : Prop :=
  (forall x, P x -> (0 <= w x)%R) /\ forall xs, NoDup xs -> Forall P xs -> (rsum (map w xs) <= 1)%R.

Lemma rsum_pick {K} `{EqDec K} (k : K) c g ks : NoDup ks -> In k ks ->
  (rsum (map (fun x => (if eqd k x then c else 0) + g x) ks) = c + rsum (map g ks))%R.
Proof.
  induction 1 as [|x ks Hn Hd IH]; intros Hi; [destruct Hi|]. cbn [map rsum].
  destruct Hi as [->|Hi].
  - rewrite eqd_refl.
    replace (map (fun x => (if eqd k x then c else 0) + g x)%R ks) with (map g ks); [ring|].
    apply map_ext_in. intros y Hy. destruct (eqd k y) eqn:E; [|ring].
    apply (proj1 (eqd_true _ _)) in E. subst y. contradiction.
  - rewrite IH by exact Hi. destruct (eqd k x) eqn:E; [|ring].
    apply (proj1 (eqd_true _ _)) in E. subst x. contradiction.
Qed.

Lemma rsum_group {A K} `{EqDec K} (key : A -> K) (f : A -> R) ks : NoDup ks -> forall l,
  (forall a, In a l -> In (key a) ks) ->
  rsum (map f l) = rsum (map (fun k => rsum (map f (filter (fun a => eqd (key a) k) l))) ks).
Proof.
  intros Hn l. induction l as [|a l IH]; intros Hk.
  - simpl. clear. induction ks; simpl; [reflexivity | rewrite <- IHks; ring].
  - cbn [map rsum]. rewrite IH by (intros b Hb; apply Hk; right; exact Hb).
    rewrite <- (rsum_pick (key a) (f a) _ ks Hn (Hk a (or_introl eq_refl))).
    f_equal. apply map_ext_in. intros k _. cbn [filter]. destruct (eqd (key a) k); simpl; ring.
Qed.

Lemma NoDup_filter_map_snd {X Y} `{EqDec X} (l : list (X * Y)) x : NoDup l ->
  NoDup (map snd (filter (fun a => eqd (fst a) x) l)).
Proof.
  induction 1 as [|[a b] l Hn Hd IH]; simpl; [constructor|].
  destruct (eqd a x) eqn:E; [|exact IH]. apply (proj1 (eqd_true _ _)) in E. subst a. simpl. constructor; [|exact IH].
  intros Hi. apply in_map_iff in Hi. destruct Hi as [[a b'] [Eb Hf]]. apply filter_In in Hf. destruct Hf as [Hf Ea].
  apply (proj1 (eqd_true _ _)) in Ea. simpl in Ea, Eb. subst a b'. contradiction.
Qed.

(* first a thing, then another one with a code that may depend on the first *)
Lemma kraft_pair {X Y} `{EqDec X} (P : X -> Prop) (Q : X -> Y -> Prop) w h :
  kraft P w -> (forall x, P x -> kraft (Q x) (h x)) ->
  kraft (fun xy => P (fst xy) /\ Q (fst xy) (snd xy)) (fun xy => (w (fst xy) * h (fst xy) (snd xy))%R).
Proof.
  intros [Hw Kw] Hh. split.
  - intros [x y] [Hp Hq]. simpl in *. apply Rmult_le_pos; [apply Hw; exact Hp | apply (proj1 (Hh x Hp)); exact Hq].
  - intros l Hl Hf. rewrite Forall_forall in Hf.
    rewrite (rsum_group fst _ (nodup eq_dec (map fst l)) (NoDup_nodup _ _) l)
      by (intros a Ha; apply nodup_In, in_map; exact Ha).
    apply Rle_trans with (rsum (map w (nodup eq_dec (map fst l)))).
    + apply rsum_le. intros x Hx. apply nodup_In, in_map_iff in Hx. destruct Hx as [[x' y] [E Hxy]]. simpl in E. subst x'.
      pose proof (proj1 (Hf _ Hxy)) as Hp. simpl in Hp.
      assert (rsum (map (fun xy => w (fst xy) * h (fst xy) (snd xy)) (filter (fun a => eqd (fst a) x) l))
              = w x * rsum (map (h x) (map snd (filter (fun a => eqd (fst a) x) l))))%R as E.
      { clear. induction l as [|[a b] l IH]; simpl; [ring|]. destruct (eqd a x) eqn:E; [|exact IH].
        apply (proj1 (eqd_true _ _)) in E. subst a. simpl. rewrite IH. ring. }
      rewrite E. rewrite <- (Rmult_1_r (w x)) at 2. apply Rmult_le_compat_l; [apply Hw; exact Hp|].
      apply (proj2 (Hh x Hp)); [apply NoDup_filter_map_snd; exact Hl|].
      apply Forall_forall. intros y' Hy. apply in_map_iff in Hy. destruct Hy as [[a b] [Eb Hf']].
      apply filter_In in Hf'. destruct Hf' as [Hf' Ea]. apply (proj1 (eqd_true _ _)) in Ea. simpl in Ea, Eb. subst a b.
      exact (proj2 (Hf _ Hf')).
    + apply Kw; [apply NoDup_nodup|]. apply Forall_forall. intros x Hx. apply nodup_In, in_map_iff in Hx.
      destruct Hx as [a [E Ha]]. subst x. exact (proj1 (Hf _ Ha)).
Qed.

(* things told apart by [d] inherit a weight *)
Lemma kraft_via {X Y} (d : X -> Y) (P : X -> Prop) (Q : Y -> Prop) v w :
  kraft Q w -> (forall x, P x -> Q (d x)) -> (forall x, P x -> v x = w (d x)) ->
  (forall x y, P x -> P y -> d x = d y -> x = y) -> kraft P v.
Proof.
  intros [Hw Kw] Hq Hv Hi. split.
  - intros x Hp. rewrite Hv by exact Hp. apply Hw, Hq, Hp.
  - intros xs Hn Hf. replace (map v xs) with (map w (map d xs)).
    + apply Kw; [|rewrite Forall_map; apply Forall_impl with P; auto].
      clear Kw Hw. induction Hn as [|x xs Hx Hn IH]; simpl; constructor.
      * intros Hd. apply in_map_iff in Hd. destruct Hd as [y [E Hy]]. apply Hx.
        inversion Hf as [|? ? Hfx Hfr]; subst. rewrite (Hi x y); auto. rewrite Forall_forall in Hfr. apply Hfr; exact Hy.
      * apply IH. inversion Hf; assumption.
    + rewrite map_map. symmetry. apply map_ext_in. intros x Hx. rewrite Forall_forall in Hf. apply Hv, Hf, Hx.
Qed.

Lemma kraft_sub {X} (P Q : X -> Prop) w : kraft Q w -> (forall x, P x -> Q x) -> kraft P w.
Proof. intros Hk Hs. apply (kraft_via (fun x => x) P Q w w Hk Hs); auto. Qed.

(* at most [n] things of weight 1/n *)
Lemma kraft_uniform {X} (P : X -> Prop) n : 0 < n ->
  (forall xs, NoDup xs -> Forall P xs -> length xs <= n) -> kraft P (fun _ => (/ INR n)%R).
Proof.
  intros Hn Hl. assert (0 < INR n)%R as Hr by (apply lt_0_INR; exact Hn). split.
  - intros _ _. left. apply Rinv_0_lt_compat. exact Hr.
  - intros xs Hd Hf. rewrite rsum_const. pose proof (le_INR _ _ (Hl xs Hd Hf)).
    apply Rmult_le_reg_r with (INR n); [exact Hr|]. rewrite Rmult_assoc, Rinv_l by lra. lra.
Qed.

(* sequences of a fixed length *)
Lemma kraft_lists {X} `{EqDec X} (P : X -> Prop) w : kraft P w -> forall k,
  kraft (fun xs => length xs = k /\ Forall P xs) (fun xs => rprod (map w xs)).
Proof.
  intros Hk. induction k as [|k IH].
  - split.
    + intros [|x xs] [E _]; [simpl; lra | discriminate].
    + intros [|x [|y l]] Hn Hf; simpl; [lra | |].
      * inversion Hf as [|? ? [E _] _]; subst. destruct x; [|discriminate]. simpl. lra.
      * exfalso. inversion Hf as [|? ? [E _] Hf']; subst. inversion Hf' as [|? ? [E' _] _]; subst.
        destruct x; [|discriminate]. destruct y; [|discriminate]. inversion Hn as [|? ? Hx _]; subst. apply Hx. left. reflexivity.
  - destruct (Nat.eq_dec 0 1) as [F|_]; [discriminate|].
    pose proof (kraft_pair P (fun _ xs => length xs = k /\ Forall P xs) w (fun _ xs => rprod (map w xs)) Hk (fun _ _ => IH)) as Kp.
    split.
    + intros xs [_ Hf]. apply rprod_nonneg. rewrite Forall_map. apply Forall_impl with P; [apply (proj1 Hk) | exact Hf].
    + intros xss Hn Hf.
      destruct xss as [|[|x0 xs0] xss0] eqn:Ex; [simpl; lra | inversion Hf as [|? ? [E _] _]; discriminate |].
      rewrite <- Ex in *. clear Ex xs0 xss0.
      assert (kraft (fun xs => length xs = S k /\ Forall P xs) (fun xs => rprod (map w xs))) as [_ K].
      { apply (kraft_via (fun xs => (hd x0 xs, tl xs)) _ _ _ _ Kp).
        - intros [|x xs] [E F]; [discriminate|]. simpl. inversion F; subst. auto.
        - intros [|x xs] [E F]; [discriminate|]. reflexivity.
        - intros [|x xs] [|y ys] [E _] [E' _] Eq; try discriminate. simpl in Eq. congruence. }
      apply K; assumption.
Qed.

(* non-empty sequences of at most [n] things, all lengths equally likely *)
Lemma kraft_sized {X} `{EqDec X} (P : X -> Prop) w n : kraft P w -> 0 < n ->
  kraft (fun xs => 1 <= length xs <= n /\ Forall P xs) (fun xs => (/ INR n * rprod (map w xs))%R).
Proof.
  intros Hk Hn.
  assert (kraft (fun m => 1 <= m <= n) (fun _ => (/ INR n)%R)) as Ku.
  { apply kraft_uniform; [exact Hn|]. intros xs Hd Hf. rewrite <- (seq_length n 1).
    apply NoDup_incl_length; [exact Hd|]. intros x Hx. rewrite Forall_forall in Hf. apply in_seq. pose proof (Hf x Hx). lia. }
  apply (kraft_via (fun xs => (length xs, xs)) _ _ _ _
           (kraft_pair _ (fun m xs => length xs = m /\ Forall P xs) _ (fun _ xs => rprod (map w xs)) Ku
              (fun m _ => kraft_lists P w Hk m))).
  - intros xs [Hl Hf]. simpl. auto.
  - reflexivity.
  - intros x y _ _ E. congruence.
Qed.

(* the part of a finite alphabet *)
Lemma kraft_finite {X} `{EqDec X} (ks : list X) w : (forall x, In x ks -> (0 <= w x)%R) ->
  (rsum (map w ks) <= 1)%R -> kraft (fun x => In x ks) w.
Proof.
  intros Hw Hs. split; [exact Hw|]. intros xs Hn Hf. rewrite Forall_forall in Hf.
  apply Rle_trans with (rsum (map w ks)); [|exact Hs]. clear Hs.
  revert ks Hw Hf. induction Hn as [|x xs Hx Hn IH]; intros ks Hw Hf.
  - simpl. apply rsum_nonneg. rewrite Forall_map, Forall_forall. exact Hw.
  - destruct (in_split x ks (Hf x (or_introl eq_refl))) as [a [b ->]].
    rewrite map_app. cbn [map]. rewrite rsum_app. cbn [rsum].
    assert (rsum (map w xs) <= rsum (map w (a ++ b)))%R as Hle.
    { apply IH.
      - intros y Hy. apply Hw. apply in_app_iff in Hy. apply in_app_iff. simpl. tauto.
      - intros y Hy. pose proof (Hf y (or_intror Hy)) as Hi. apply in_app_iff in Hi. apply in_app_iff. simpl in Hi.
        destruct Hi as [Hi|[->|Hi]]; auto. contradiction. }
    rewrite map_app, rsum_app in Hle. lra.
Qed.

(* ---- bit vectors with a given number of ones *)
Notation ones := (count_occ bool_dec).

Lemma ones_bound m k : forall xs, NoDup xs -> Forall (fun b => length b = m /\ ones b true = k) xs ->
  length xs <= choose m k.
Proof.
  revert k. induction m as [|m IH]; intros k xs Hn Hf.
  - destruct xs as [|x [|y l]]; [simpl; lia | |].
    + inversion Hf as [|? ? [E Ek] _]; subst. destruct x; [|discriminate]. simpl. lia.
    + exfalso. inversion Hf as [|? ? [E _] Hf']; subst. inversion Hf' as [|? ? [E' _] _]; subst.
      destruct x; [|discriminate]. destruct y; [|discriminate]. inversion Hn as [|? ? Hx _]; subst. apply Hx. left. reflexivity.
  - assert (length xs = length (tails true xs) + length (tails false xs)) as El.
    { clear Hn. induction Hf as [|[|b u] xs [E _] Hf IHx]; [reflexivity | discriminate |].
      simpl. destruct b; simpl; rewrite IHx; lia. }
    assert (length (tails false xs) <= choose m k) as Hb.
    { apply IH; [apply NoDup_tails; exact Hn|]. apply Forall_forall. intros u Hu. apply In_tails in Hu.
      rewrite Forall_forall in Hf. destruct (Hf _ Hu) as [E1 E2]. simpl in E1, E2. split; [lia | exact E2]. }
    destruct k as [|k].
    + assert (tails true xs = []) as Et.
      { destruct (tails true xs) as [|u r] eqn:E; [reflexivity|]. exfalso.
        assert (In u (tails true xs)) as Hu by (rewrite E; left; reflexivity). apply In_tails in Hu.
        rewrite Forall_forall in Hf. destruct (Hf _ Hu) as [_ E2]. simpl in E2. discriminate. }
      rewrite Et in El. simpl in El. rewrite choose_0 in Hb |- *. lia.
    + assert (length (tails true xs) <= choose m k) as Ha.
      { apply IH; [apply NoDup_tails; exact Hn|]. apply Forall_forall. intros u Hu. apply In_tails in Hu.
        rewrite Forall_forall in Hf. destruct (Hf _ Hu) as [E1 E2]. simpl in E1, E2. split; lia. }
      simpl. lia.
Qed.

Lemma choose_pos n : forall k, k <= n -> 0 < choose n k.
Proof.
  induction n as [|n IH]; intros [|k] Hk; try (rewrite choose_0; lia); [lia|]. simpl.
  pose proof (IH k ltac:(lia)). lia.
Qed.
Lemma ones_le b : ones b true <= length b.
Proof. apply count_occ_bound. Qed.

(* ---- the universal code of the natural numbers *)
Definition int_bits (n : nat) : Z :=
  match universal_integer_encoding_with0 (Z.of_nat n) with Ret z => z | _ => 0%Z end.
Lemma int_bits_ok n : universal_integer_encoding_with0 (Z.of_nat n) = Ret (int_bits n) /\ (0 < int_bits n)%Z.
Proof.
  unfold int_bits, universal_integer_encoding_with0, universal_integer_encoding.
  rewrite (proj2 (Z.ltb_ge (Z.of_nat n) 0)) by lia. rewrite (proj2 (Z.ltb_ge (Z.of_nat n + 1) 1)) by lia.
  split; [reflexivity|].
  pose proof (Z.log2_nonneg (Z.of_nat n + 1)). pose proof (Z.log2_nonneg (Z.log2 (Z.of_nat n + 1) + 1)). lia.
Qed.

Lemma half_power_R z : (0 <= z)%Z -> Q2R ((1 # 2) ^ z) = Rpower 2 (- IZR z).
Proof.
  intros Hz. rewrite <- (Z2Nat.id z Hz). generalize (Z.to_nat z). clear z Hz. intros n. induction n as [|n IH].
  - simpl. rewrite Ropp_0, Rpower_O by lra. unfold Q2R. simpl. field.
  - rewrite Nat2Z.inj_succ. unfold Z.succ.
    assert ((1 # 2) ^ (Z.of_nat n + 1) == (1 # 2) ^ Z.of_nat n * (1 # 2))%Q as E.
    { rewrite Qpower_plus by (intros F; discriminate F). change ((1 # 2) ^ 1)%Q with (1 # 2)%Q. reflexivity. }
    rewrite (Qeq_eqR _ _ E), Q2R_mult, IH, plus_IZR, Ropp_plus_distr, Rpower_plus. f_equal.
    rewrite Rpower_Ropp, Rpower_1 by lra. unfold Q2R. simpl. lra.
Qed.

Lemma kraft_int : kraft (fun _ : nat => True) (fun n => Rpower 2 (- IZR (int_bits n))).
Proof.
  split; [intros; left; unfold Rpower; apply exp_pos|]. intros xs Hn _.
  assert (Qsum (map (fun x => match universal_integer_encoding x with Ret l => (1 # 2) ^ l | _ => 0 end)
                    (map (fun n => Z.of_nat n + 1)%Z xs)) <= 1)%Q as K.
  { apply C55_kraft.
    - apply FinFun.Injective_map_NoDup; [intros x y E; lia | exact Hn].
    - rewrite Forall_map. apply Forall_forall. intros x _. lia. }
  apply Qle_Rle in K. replace (Q2R 1) with 1%R in K by (unfold Q2R; simpl; lra).
  eapply Rle_trans; [|exact K]. right. clear K Hn. rewrite map_map.
  induction xs as [|n xs IH]; [unfold Q2R; simpl; lra|].
  cbn [map rsum Qsum]. rewrite Q2R_plus, <- IH. f_equal.
  destruct (int_bits_ok n) as [E Hp]. unfold universal_integer_encoding_with0 in E.
  rewrite (proj2 (Z.ltb_ge (Z.of_nat n) 0)) in E by lia. rewrite E. symmetry. apply half_power_R. lia.
Qed.

(* a subset of [m] places: its size, then which of the sets of that size *)
Lemma kraft_bits m : kraft (fun b => length b = m)
  (fun b => (Rpower 2 (- IZR (int_bits (ones b true))) * / INR (choose m (ones b true)))%R).
Proof.
  apply (kraft_via (fun b => (ones b true, b)) _ _ _ _
    (kraft_pair (fun k => k <= m) (fun k b => length b = m /\ ones b true = k)
       (fun k => Rpower 2 (- IZR (int_bits k))) (fun k _ => (/ INR (choose m k))%R)
       (kraft_sub _ _ _ kraft_int (fun _ _ => I))
       (fun k Hk => kraft_uniform _ _ (choose_pos m k Hk) (ones_bound m k)))).
  - intros b Hb. simpl. pose proof (ones_le b). rewrite <- Hb at 1. auto.
  - reflexivity.
  - intros x y _ _ E. congruence.
Qed.
