(* C54, C55, C56, C58, C59: the helpers of the graph miner. *)
From Coq Require Import QArith Qpower.
Open Scope nat_scope.
From Verif Require Import Prelude CheckModel LCMModel VerticalProofs GraphUtilModel.

(* ======================================================================= *)
(* C55: universal integer codes                                            *)

Definition prefix_of (u v : list bool) := exists w, v = u ++ w.
Definition prefix_free (S : list (list bool)) :=
  forall u v, In u S -> In v S -> prefix_of u v -> u = v.

(* ---- a code: Elias' delta words *)
(* [n] low bits, least significant first *)
Fixpoint low (n : nat) (x : Z) : list bool :=
  match n with O => [] | S m => Z.odd x :: low m (Z.div2 x) end.
Fixpoint val (l : list bool) : Z :=
  match l with [] => 0%Z | b :: r => (Z.b2z b + 2 * val r)%Z end.
Definition gamma (x : Z) : list bool :=
  let k := Z.to_nat (Z.log2 x) in repeat false k ++ true :: low k x.
Definition delta (x : Z) : list bool :=
  let n := Z.to_nat (Z.log2 x) in gamma (Z.of_nat n + 1) ++ low n x.

Fixpoint take (n : nat) (l : list bool) : option (list bool * list bool) :=
  match n with
  | O => Some ([], l)
  | S m => match l with
           | [] => None
           | b :: r => match take m r with
                       | Some (u, v) => Some (b :: u, v) | None => None end
           end
  end.
Fixpoint read_gamma (k : nat) (l : list bool) : option (Z * list bool) :=
  match l with
  | [] => None
  | false :: r => read_gamma (S k) r
  | true :: r => match take k r with
                 | Some (u, v) => Some (2 ^ Z.of_nat k + val u, v)%Z
                 | None => None end
  end.
Definition read_delta (l : list bool) : option (Z * list bool) :=
  match read_gamma 0 l with
  | Some (m, r) =>
      let n := Z.to_nat (m - 1) in
      match take n r with
      | Some (u, v) => Some (2 ^ Z.of_nat n + val u, v)%Z
      | None => None end
  | None => None
  end.

Lemma low_length n : forall x, length (low n x) = n.
Proof. induction n; intros; simpl; auto. Qed.

Lemma take_app u : forall v, take (length u) (u ++ v) = Some (u, v).
Proof. induction u as [|b u IH]; intros; simpl; [reflexivity|]. rewrite IH; reflexivity. Qed.

Lemma take_low n x v : take n (low n x ++ v) = Some (low n x, v).
Proof. rewrite <- (low_length n x) at 1; apply take_app. Qed.

Lemma val_low n : forall x, (0 <= x)%Z -> val (low n x) = (x mod 2 ^ Z.of_nat n)%Z.
Proof.
  induction n as [|n IH]; intros x Hx.
  - simpl. rewrite Z.mod_1_r; reflexivity.
  - cbn [low val]. rewrite IH by (apply Z.div2_nonneg; exact Hx).
    rewrite Nat2Z.inj_succ, Z.pow_succ_r by lia.
    rewrite (Z.rem_mul_r x 2 (2 ^ Z.of_nat n)) by (try apply Z.pow_nonzero; lia).
    rewrite Z.div2_div, (Zmod_odd x). destruct (Z.odd x); reflexivity.
Qed.

Lemma log2_split x : (1 <= x)%Z ->
  (2 ^ Z.log2 x + x mod 2 ^ Z.log2 x = x)%Z.
Proof.
  intros Hx. destruct (Z.log2_spec x ltac:(lia)) as [H1 H2].
  rewrite Z.pow_succ_r in H2 by apply Z.log2_nonneg.
  rewrite (Z.mod_eq x (2 ^ Z.log2 x)) by lia.
  replace (x / 2 ^ Z.log2 x)%Z with 1%Z; [lia|].
  apply Z.div_unique with (x - 2 ^ Z.log2 x)%Z; lia.
Qed.

Lemma read_gamma_zeros n : forall k l,
  read_gamma k (repeat false n ++ l) = read_gamma (n + k) l.
Proof.
  induction n as [|n IH]; intros; simpl; [reflexivity|].
  rewrite IH. f_equal. lia.
Qed.

Lemma read_gamma_ok x rest : (1 <= x)%Z -> read_gamma 0 (gamma x ++ rest) = Some (x, rest).
Proof.
  intros Hx. unfold gamma. rewrite <- app_assoc, read_gamma_zeros, Nat.add_0_r.
  cbn [app read_gamma]. rewrite take_low, val_low by lia.
  rewrite Z2Nat.id by apply Z.log2_nonneg. rewrite log2_split by exact Hx. reflexivity.
Qed.

Lemma read_delta_ok x rest : (1 <= x)%Z -> read_delta (delta x ++ rest) = Some (x, rest).
Proof.
  intros Hx. unfold delta, read_delta. rewrite <- app_assoc.
  pose proof (Z.log2_nonneg x) as Hn.
  rewrite read_gamma_ok by lia.
  replace (Z.of_nat (Z.to_nat (Z.log2 x)) + 1 - 1)%Z with (Z.log2 x) by lia.
  rewrite take_low, val_low by lia.
  rewrite Z2Nat.id by exact Hn. rewrite log2_split by exact Hx. reflexivity.
Qed.

Lemma gamma_length x : (1 <= x)%Z -> Z.of_nat (length (gamma x)) = (2 * Z.log2 x + 1)%Z.
Proof.
  intros Hx. unfold gamma. rewrite app_length, repeat_length. cbn [length].
  rewrite low_length. pose proof (Z.log2_nonneg x). lia.
Qed.

Lemma delta_length x : (1 <= x)%Z ->
  universal_integer_encoding x = Ret (Z.of_nat (length (delta x))).
Proof.
  intros Hx. unfold universal_integer_encoding.
  rewrite (proj2 (Z.ltb_ge x 1)) by lia.
  unfold delta. rewrite app_length, Nat2Z.inj_add, gamma_length, low_length by lia.
  pose proof (Z.log2_nonneg x). rewrite Z2Nat.id by lia. f_equal. lia.
Qed.

Lemma delta_nonempty x : (1 <= x)%Z -> delta x <> [].
Proof.
  intros Hx E. pose proof (read_delta_ok x [] Hx) as R. rewrite E in R.
  discriminate R.
Qed.

Lemma delta_inj_prefix x y : (1 <= x)%Z -> (1 <= y)%Z -> prefix_of (delta x) (delta y) -> x = y.
Proof.
  intros Hx Hy [w E]. pose proof (read_delta_ok y [] Hy) as R.
  rewrite app_nil_r, E in R. rewrite read_delta_ok in R by exact Hx. congruence.
Qed.

Lemma flat_map_delta xs : forall ys,
  Forall (fun x => 1 <= x)%Z xs -> Forall (fun x => 1 <= x)%Z ys ->
  flat_map delta xs = flat_map delta ys -> xs = ys.
Proof.
  induction xs as [|x xs IH]; intros [|y ys] Hx Hy E; simpl in E.
  - reflexivity.
  - exfalso. inversion Hy; subst. destruct (delta y) eqn:D; [|discriminate].
    exact (delta_nonempty y H1 D).
  - exfalso. inversion Hx; subst. destruct (delta x) eqn:D; [|discriminate].
    exact (delta_nonempty x H1 D).
  - inversion Hx; inversion Hy; subst.
    pose proof (read_delta_ok x (flat_map delta xs) H1) as R1.
    pose proof (read_delta_ok y (flat_map delta ys) H5) as R2.
    rewrite E in R1. rewrite R1 in R2. injection R2 as -> R. f_equal. apply IH; auto.
Qed.

(* The length is that of a code word: there is a code (one word per positive
   integer) with these lengths, a reader that recovers the integer from its
   word followed by anything, and no two sequences of integers share the same
   concatenation of words. *)
Theorem C55_prefix_code :
  exists (word : Z -> list bool) (read : list bool -> option (Z * list bool)),
    (forall x, (1 <= x)%Z ->
       universal_integer_encoding x = Ret (Z.of_nat (length (word x)))
       /\ (forall rest, read (word x ++ rest) = Some (x, rest)))
    /\ (forall x y, (1 <= x)%Z -> (1 <= y)%Z -> prefix_of (word x) (word y) -> x = y)
    /\ (forall xs ys, Forall (fun x => 1 <= x)%Z xs -> Forall (fun x => 1 <= x)%Z ys ->
          flat_map word xs = flat_map word ys -> xs = ys).
Proof.
  exists delta, read_delta. split; [|split].
  - intros x Hx. split; [apply delta_length; exact Hx | intros; apply read_delta_ok; exact Hx].
  - apply delta_inj_prefix.
  - apply flat_map_delta.
Qed.

Theorem C55_error x : (x < 1)%Z -> universal_integer_encoding x = Exn ValueError.
Proof. intros Hx. unfold universal_integer_encoding. rewrite (proj2 (Z.ltb_lt x 1) Hx). reflexivity. Qed.

(* the shifted variant is a prefix code for the natural numbers *)
Theorem C55_with0 :
  (exists (word : Z -> list bool) (read : list bool -> option (Z * list bool)),
    forall x, (0 <= x)%Z ->
       universal_integer_encoding_with0 x = Ret (Z.of_nat (length (word x)))
       /\ (forall rest, read (word x ++ rest) = Some (x, rest)))
  /\ (forall x, (x < 0)%Z -> universal_integer_encoding_with0 x = Exn ValueError).
Proof.
  split.
  - exists (fun x => delta (x + 1)),
      (fun l => match read_delta l with Some (m, r) => Some (m - 1, r)%Z | None => None end).
    intros x Hx. unfold universal_integer_encoding_with0.
    rewrite (proj2 (Z.ltb_ge x 0)) by lia. split; [apply delta_length; lia|].
    intros rest. rewrite read_delta_ok by lia. rewrite Z.add_simpl_r. reflexivity.
  - intros x Hx. unfold universal_integer_encoding_with0.
    rewrite (proj2 (Z.ltb_lt x 0) Hx). reflexivity.
Qed.

(* ---- Kraft's inequality for prefix-free sets of words *)
Fixpoint weight (N : nat) (S : list (list bool)) : nat :=
  match S with [] => 0 | w :: r => 2 ^ (N - length w) + weight N r end.
Fixpoint tails (b : bool) (S : list (list bool)) : list (list bool) :=
  match S with
  | [] => []
  | (c :: w) :: r => if Bool.eqb b c then w :: tails b r else tails b r
  | [] :: r => tails b r
  end.

Lemma In_tails b w S : In w (tails b S) <-> In (b :: w) S.
Proof.
  induction S as [|[|c u] S IH]; simpl; [tauto| |].
  - rewrite IH. split; [auto | intros [E|E]; [discriminate | exact E]].
  - destruct (Bool.eqb b c) eqn:E.
    + apply Bool.eqb_prop in E; subst c. simpl. rewrite IH.
      split; intros [F|F]; auto; left; congruence.
    + rewrite IH. split; [auto|]. intros [F|F]; [|exact F].
      injection F as -> ->. rewrite Bool.eqb_reflx in E; discriminate.
Qed.

Lemma NoDup_tails b S : NoDup S -> NoDup (tails b S).
Proof.
  induction 1 as [|[|c u] S Hn Hd IH]; simpl; [constructor | exact IH |].
  destruct (Bool.eqb b c) eqn:E; [|exact IH].
  apply Bool.eqb_prop in E; subst c. constructor; [rewrite In_tails; exact Hn | exact IH].
Qed.

Lemma weight_split N S : ~ In [] S ->
  weight (Datatypes.S N) S = weight N (tails true S) + weight N (tails false S).
Proof.
  induction S as [|[|c u] S IH]; intros Hn; [reflexivity | exfalso; apply Hn; left; reflexivity |].
  cbn [weight tails length]. rewrite IH by (intros F; apply Hn; right; exact F).
  change (Datatypes.S N - Datatypes.S (length u)) with (N - length u).
  destruct c; simpl Bool.eqb; cbn [weight]; lia.
Qed.

Lemma kraft N : forall S, NoDup S -> prefix_free S ->
  (forall w, In w S -> length w <= N) -> weight N S <= 2 ^ N.
Proof.
  induction N as [|N IH]; intros S Hd Hp Hl.
  - destruct S as [|u [|v S]]; simpl.
    + lia.
    + lia.
    + exfalso. inversion Hd as [|a b Hn _]; subst. apply Hn. left.
      assert (length u = 0) as Eu by (pose proof (Hl u (or_introl eq_refl)); lia).
      assert (length v = 0) as Ev by (pose proof (Hl v (or_intror (or_introl eq_refl))); lia).
      destruct u; [|discriminate]. destruct v; [reflexivity | discriminate].
  - destruct (in_dec (list_eq_dec Bool.bool_dec) [] S) as [Hi|Hi].
    + assert (forall v, In v S -> v = []) as Hall.
      { intros v Hv. symmetry. apply (Hp [] v Hi Hv). exists v. reflexivity. }
      destruct S as [|u [|v S]]; [destruct Hi| |].
      * rewrite (Hall u (or_introl eq_refl)). cbn [weight length].
        rewrite Nat.sub_0_r. lia.
      * exfalso. inversion Hd as [|a b Hn _]; subst. apply Hn. left.
        rewrite (Hall u (or_introl eq_refl)), (Hall v (or_intror (or_introl eq_refl))). reflexivity.
    + rewrite weight_split by exact Hi.
      assert (forall b, weight N (tails b S) <= 2 ^ N) as Hb.
      { intros b. apply IH.
        - apply NoDup_tails; exact Hd.
        - intros u v Hu Hv [w E]. rewrite In_tails in Hu, Hv.
          enough (b :: u = b :: v) by congruence.
          apply Hp; auto. exists w. simpl. rewrite E. reflexivity.
        - intros w Hw. rewrite In_tails in Hw. apply Hl in Hw. simpl in Hw. lia. }
      pose proof (Hb true). pose proof (Hb false). simpl. lia.
Qed.

Open Scope Q_scope.
Fixpoint Qsum (l : list Q) : Q := match l with [] => 0 | q :: r => q + Qsum r end.
Close Scope Q_scope.

Lemma half_power N l : l <= N ->
  ((1 # 2) ^ Z.of_nat l == inject_Z (Z.of_nat (2 ^ (N - l))) / inject_Z (Z.of_nat (2 ^ N)))%Q.
Proof.
  intros Hl.
  assert (forall n, inject_Z (Z.of_nat (2 ^ n)) == (2 # 1) ^ Z.of_nat n)%Q as Hp.
  { intros n. induction n as [|n IH]; [reflexivity|].
    rewrite Nat2Z.inj_succ.
    unfold Z.succ. rewrite Qpower_plus by (intros E; discriminate E).
    rewrite <- IH. rewrite Nat.pow_succ_r', Nat2Z.inj_mul, inject_Z_mult.
    change ((2 # 1) ^ 1)%Q with (2 # 1)%Q. change (inject_Z (Z.of_nat 2)) with (2 # 1)%Q. ring. }
  rewrite !Hp.
  assert (E : Z.of_nat N = (Z.of_nat (N - l) + Z.of_nat l)%Z) by lia.
  rewrite E at 1. rewrite Qpower_plus by (intros F; discriminate F).
  assert (((1 # 2) ^ Z.of_nat l) * ((2 # 1) ^ Z.of_nat l) == 1)%Q as H1.
  { rewrite <- Qmult_power. change ((1 # 2) * (2 # 1))%Q with (2 # 2)%Q.
    assert ((2 # 2) == 1)%Q as E2 by reflexivity. rewrite E2. apply Qpower_1. }
  assert (forall n : nat, ~ ((2 # 1) ^ Z.of_nat n == 0)%Q) as Hnz.
  { intros n F. rewrite <- Hp in F. unfold Qeq, inject_Z in F. simpl in F.
    pose proof (Nat.pow_nonzero 2 n ltac:(lia)). lia. }
  pose proof (Hnz l). pose proof (Hnz (N - l)).
  assert (((1 # 2) ^ Z.of_nat l) == / ((2 # 1) ^ Z.of_nat l))%Q as ->.
  { apply Qmult_inj_r with ((2 # 1) ^ Z.of_nat l)%Q; auto.
    rewrite H1, Qmult_comm, Qmult_inv_r by auto. reflexivity. }
  field. auto.
Qed.

Theorem C55_kraft xs : NoDup xs -> Forall (fun x => 1 <= x)%Z xs ->
  (Qsum (map (fun x => match universal_integer_encoding x with
                       | Ret l => (1 # 2) ^ l | _ => 0 end) xs) <= 1)%Q.
Proof.
  intros Hd Hf.
  set (N := list_max (map (fun x => length (delta x)) xs)).
  assert (forall x, In x xs -> length (delta x) <= N) as HN.
  { intros x Hx. assert (Forall (fun k => k <= N) (map (fun x => length (delta x)) xs)) as F.
    { apply list_max_le. apply Nat.le_refl. }
    rewrite Forall_map, Forall_forall in F. apply F; exact Hx. }
  rewrite Forall_forall in Hf.
  assert (weight N (map delta xs) <= 2 ^ N) as K.
  { apply kraft.
    - clear HN N. induction Hd as [|x xs Hn Hd IH]; simpl; constructor.
      + intros F. apply in_map_iff in F. destruct F as [y [E Hy]]. apply Hn.
        rewrite (delta_inj_prefix x y); [exact Hy | apply Hf; left; auto | apply Hf; right; auto |].
        exists []. rewrite app_nil_r. exact E.
      + apply IH. intros y Hy. apply Hf. right; exact Hy.
    - intros u v Hu Hv E. apply in_map_iff in Hu, Hv.
      destruct Hu as [x [Ex Hx]], Hv as [y [Ey Hy]]. subst u v.
      rewrite (delta_inj_prefix x y); auto.
    - intros w Hw. apply in_map_iff in Hw. destruct Hw as [x [E Hx]]. subst w. apply HN; exact Hx. }
  assert (Qsum (map (fun x => match universal_integer_encoding x with
                              | Ret l => (1 # 2) ^ l | _ => 0 end) xs)
          == inject_Z (Z.of_nat (weight N (map delta xs))) / inject_Z (Z.of_nat (2 ^ N)))%Q as E.
  { clear K Hd. clearbody N. induction xs as [|x xs IH].
    - simpl. unfold Qdiv. rewrite Qmult_0_l. reflexivity.
    - cbn [map Qsum weight].
      rewrite IH by (intros; (apply HN || apply Hf); right; auto).
      rewrite delta_length by (apply Hf; left; auto).
      rewrite (half_power N) by (apply HN; left; auto).
      rewrite Nat2Z.inj_add, inject_Z_plus. unfold Qdiv. ring. }
  rewrite E. apply Qle_shift_div_r.
  - unfold Qlt, inject_Z. simpl. pose proof (Nat.pow_nonzero 2 N ltac:(lia)). lia.
  - rewrite Qmult_1_l. unfold Qle, inject_Z. simpl. lia.
Qed.

Example C55_case :
  map universal_integer_encoding [1; 2; 3; 9]%Z = [Ret 1; Ret 4; Ret 4; Ret 8]%Z
  /\ universal_integer_encoding 0 = Exn ValueError.
Proof. repeat split. Qed.

(* ======================================================================= *)
(* C56: binomial coefficients                                              *)

(* Pascal's triangle *)
Fixpoint choose (n k : nat) : nat :=
  match n, k with
  | _, O => 1
  | O, S _ => 0
  | S m, S j => choose m j + choose m (S j)
  end.

Lemma choose_0 n : choose n 0 = 1.
Proof. destruct n; reflexivity. Qed.
Lemma choose_out n : forall k, n < k -> choose n k = 0.
Proof.
  induction n as [|n IH]; intros [|k] Hk; try lia; [reflexivity|].
  simpl. rewrite !IH by lia. reflexivity.
Qed.
Lemma choose_n n : choose n n = 1.
Proof. induction n as [|n IH]; [reflexivity|]. simpl. rewrite IH, choose_out by lia. reflexivity. Qed.
Lemma choose_sym n : forall k, k <= n -> choose n (n - k) = choose n k.
Proof.
  induction n as [|n IH]; intros k Hk.
  - replace k with 0 by lia. reflexivity.
  - destruct k as [|k]; [rewrite Nat.sub_0_r, choose_n; reflexivity|].
    destruct (Nat.eq_dec k n) as [->|Hn].
    + rewrite Nat.sub_diag, choose_n. reflexivity.
    + replace (S n - S k) with (S (n - S k)) by lia. cbn [choose].
      rewrite IH by lia. replace (S (n - S k)) with (n - k) by lia.
      rewrite IH by lia. lia.
Qed.
Lemma choose_absorb n : forall k, S k * choose (S n) (S k) = S n * choose n k.
Proof.
  induction n as [|n IH]; intros k.
  - destruct k as [|k]; simpl; [reflexivity|]. destruct k; simpl; lia.
  - destruct k as [|k].
    + change (choose (S (S n)) 1) with (choose (S n) 0 + choose (S n) 1).
      rewrite !choose_0. pose proof (IH 0) as E. rewrite choose_0 in E. lia.
    + change (choose (S (S n)) (S (S k))) with (choose (S n) (S k) + choose (S n) (S (S k))).
      pose proof (IH k) as E1. pose proof (IH (S k)) as E2.
      change (choose (S n) (S k)) with (choose n k + choose n (S k)) in *.
      nia.
Qed.

Lemma binomial_small k : forall n f, 2 * k <= n -> k < f ->
  exists q, binomial f n k = Ret q /\ (q == inject_Z (Z.of_nat (choose n k)))%Q.
Proof.
  induction k as [|k IH]; intros n f Hk Hf; destruct f as [|f]; try lia; cbn [binomial].
  - rewrite (proj2 (Nat.ltb_ge n 0)) by lia. exists 1%Q. split; [reflexivity|].
    rewrite choose_0. reflexivity.
  - rewrite (proj2 (Nat.ltb_ge n (S k))) by lia.
    cbn [Nat.eqb]. rewrite (proj2 (Nat.ltb_ge n (2 * S k))) by lia.
    replace (S k - 1) with k by lia.
    destruct (IH (n - 1) f ltac:(lia) ltac:(lia)) as [q [E Eq]].
    rewrite E. cbn [bind].
    eexists; split; [reflexivity|]. rewrite Eq.
    destruct n as [|n]; [lia|]. replace (S n - 1) with n by lia.
    assert (~ inject_Z (Z.of_nat (S k)) == 0)%Q as Hnz.
    { unfold Qeq, inject_Z. simpl. lia. }
    apply (Qmult_inj_r _ _ _ Hnz).
    unfold Qdiv. rewrite <- Qmult_assoc, (Qmult_comm (/ _)), Qmult_inv_r by exact Hnz.
    rewrite Qmult_1_r, <- !inject_Z_mult, <- !Nat2Z.inj_mul.
    rewrite <- choose_absorb. rewrite Nat.mul_comm. reflexivity.
Qed.

Theorem C56_binomial n k fuel : k <= n -> n + 2 <= fuel ->
  exists q, binomial fuel n k = Ret q /\ (q == inject_Z (Z.of_nat (choose n k)))%Q.
Proof.
  intros Hk Hf. destruct (Nat.le_gt_cases (2 * k) n) as [Hs|Hs].
  - apply binomial_small; lia.
  - destruct fuel as [|f]; [lia|]. cbn [binomial].
    rewrite (proj2 (Nat.ltb_ge n k)) by lia.
    destruct k as [|k]; [lia|]. cbn [Nat.eqb].
    rewrite (proj2 (Nat.ltb_lt n (2 * S k))) by lia.
    destruct (binomial_small (n - S k) n f) as [q [E Eq]]; [lia | lia |].
    exists q. split; [exact E|]. rewrite Eq, choose_sym by exact Hk. reflexivity.
Qed.

(* a call that returns at all returns the binomial coefficient, whatever the
   number of recursive calls allowed *)
Lemma binomial_more f : forall n k q, binomial f n k = Ret q ->
  forall g, f <= g -> binomial g n k = Ret q.
Proof.
  induction f as [|f IH]; intros n k q E g Hg; [discriminate|].
  destruct g as [|g]; [lia|]. cbn [binomial] in *.
  destruct (n <? k); [exact E|]. destruct (k =? 0); [exact E|].
  destruct (n <? 2 * k); [apply IH; [exact E | lia]|].
  destruct (binomial f (n - 1) (k - 1)) as [b| |] eqn:Eb; try discriminate.
  rewrite (IH _ _ _ Eb g) by lia. exact E.
Qed.
Theorem C56_returned n k fuel q : binomial fuel n k = Ret q ->
  k <= n /\ (q == inject_Z (Z.of_nat (choose n k)))%Q.
Proof.
  intros E. destruct (Nat.le_gt_cases k n) as [Hk|Hk].
  - split; [exact Hk|].
    destruct (C56_binomial n k (fuel + n + 2) Hk ltac:(lia)) as [r [Er Eq]].
    rewrite (binomial_more _ _ _ _ E (fuel + n + 2) ltac:(lia)) in Er.
    injection Er as ->. exact Eq.
  - destruct fuel as [|f]; [discriminate|]. cbn [binomial] in E.
    rewrite (proj2 (Nat.ltb_lt n k) Hk) in E. discriminate.
Qed.

Theorem C56_error n k fuel : n < k -> binomial (S fuel) n k = Exn ValueError.
Proof. intros Hk. cbn [binomial]. rewrite (proj2 (Nat.ltb_lt n k) Hk). reflexivity. Qed.

Example C56_case :
  match binomial 9 7 3 with Ret q => (q == 35 # 1)%Q | _ => False end
  /\ choose 7 3 = 35 /\ binomial 5 3 4 = Exn ValueError.
Proof. split; [reflexivity | split; reflexivity]. Qed.

(* ======================================================================= *)
(* C58: label totals                                                       *)
Section C58.
  Context {L : Type} `{EqDec L}.

  (* the names carried by an optional label attribute *)
  Definition names_of (o : option (label L)) : list L :=
    match o with
    | None => []
    | Some (Name l) => [l]
    | Some (Names ls) => ls
    | Some (NameList ls) => ls
    end.
  Definition vertex_names (g : graph L) : list L := flat_map (fun v => names_of (snd v)) (nodes g).
  Definition edge_names (g : graph L) : list L := flat_map (fun e => names_of (snd e)) (edges g).
  (* no attribute is a Python list *)
  Definition hashable (o : option (label L)) : Prop :=
    match o with Some (NameList _) => False | _ => True end.
  Definition plain (g : graph L) : Prop :=
    Forall (fun v => hashable (snd v)) (nodes g) /\ Forall (fun e => hashable (snd e)) (edges g).

  (* number of occurrences of a name, None when it does not occur *)
  Definition occurs (l : L) (ls : list L) : option nat :=
    match count_occ eq_dec ls l with 0 => None | S n => Some (S n) end.

  Lemma label_names_ok ls : Forall hashable ls ->
    label_names ls = Ret (flat_map names_of ls).
  Proof.
    induction 1 as [|o ls Ho Hl IH]; [reflexivity|].
    cbn [flat_map]. destruct o as [[l|l|l]|]; simpl; rewrite ?IH; try reflexivity.
    destruct Ho.
  Qed.

  Lemma label_names_list ls : Exists (fun o => ~ hashable o) ls -> label_names ls = Exn TypeError.
  Proof.
    induction ls as [|o ls IH]; intros E; [inversion E|].
    destruct (Exists_dec (fun o => ~ hashable o) ls) as [D|D].
    - intros x. destruct x as [[| |]|]; simpl; auto.
    - rewrite <- (IH D). destruct o as [[l|l|l]|]; cbn [label_names]; rewrite (IH D); reflexivity.
    - inversion E as [a b Ho|a b Hr]; subst; [|contradiction].
      destruct o as [[l|l|l]|]; simpl in Ho; try tauto.
      cbn [label_names]. rewrite label_names_ok; [reflexivity|].
      apply Forall_forall. intros x Hx.
      assert (~ ~ hashable x) as Nn.
      { intros Hc. apply D. apply Exists_exists. exists x. split; assumption. }
      destruct x as [[| |]|]; simpl in *; tauto.
  Qed.

  Lemma counter_from ls : forall d l,
    dget (fold_left (fun d l => dset d l (S (match dget d l with Some n => n | None => 0 end))) ls d) l
    = match dget d l with
      | Some n => Some (n + count_occ eq_dec ls l)
      | None => occurs l ls
      end.
  Proof.
    induction ls as [|x ls IH]; intros d l; cbn [fold_left].
    - unfold occurs. simpl. destruct (dget d l); [f_equal; lia | reflexivity].
    - rewrite IH, dget_dset. unfold occurs. cbn [count_occ].
      destruct (eq_dec l x) as [E|E].
      + subst x. destruct (eq_dec l l) as [_|Ne]; [|congruence].
        destruct (dget d l); f_equal; lia.
      + destruct (eq_dec x l) as [F|_]; [congruence|]. reflexivity.
  Qed.

  Lemma counter_spec ls l : dget (counter ls) l = occurs l ls.
  Proof. unfold counter. rewrite counter_from. reflexivity. Qed.

  (* Each table counts every name as often as it occurs on its side. *)
  Theorem C58_counts (g : graph L) : plain g ->
    exists ve ed, count_vertex_label g = Ret ve /\ count_edge_label g = Ret ed
      /\ (forall l, dget ve l = occurs l (vertex_names g))
      /\ (forall l, dget ed l = occurs l (edge_names g)).
  Proof.
    intros [Hv He]. unfold count_vertex_label, count_edge_label.
    rewrite !label_names_ok by (rewrite Forall_map; assumption). cbn [bind].
    eexists; eexists; split; [reflexivity|]; split; [reflexivity|].
    split; intros l; rewrite counter_spec; unfold vertex_names, edge_names;
      rewrite flat_map_concat_map, map_map, <- flat_map_concat_map; reflexivity.
  Qed.

  (* a list-valued attribute makes counting fail *)
  Theorem C58_list_error (g : graph L) :
    Exists (fun v => ~ hashable (snd v)) (nodes g) \/ Exists (fun e => ~ hashable (snd e)) (edges g) ->
    get_total_label g = Exn TypeError.
  Proof.
    intros Hx. unfold get_total_label, count_edge_label, count_vertex_label.
    assert (forall (A : Type) (f : A -> option (label L)) l,
              Exists (fun e => ~ hashable (f e)) l -> Exists (fun o => ~ hashable o) (map f l)) as Hm.
    { intros A f l E. apply Exists_exists in E. destruct E as [x [Hi Hn]].
      apply Exists_exists. exists (f x). split; [apply in_map; exact Hi | exact Hn]. }
    assert (forall ls, label_names ls = Ret (flat_map names_of ls) \/ label_names (L := L) ls = Exn TypeError) as Hd.
    { intros ls. destruct (Exists_dec (fun o => ~ hashable o) ls) as [D|D].
      - intros x. destruct x as [[| |]|]; simpl; auto.
      - right. apply label_names_list; exact D.
      - left. apply label_names_ok. apply Forall_forall. intros x Hi.
        assert (~ ~ hashable x) as Nn.
        { intros Hc. apply D. apply Exists_exists. exists x. split; assumption. }
        destruct x as [[| |]|]; simpl in *; tauto. }
    destruct Hx as [Hx|Hx].
    - rewrite (label_names_list (map snd (nodes g))) by (apply Hm; exact Hx).
      destruct (Hd (map snd (edges g))) as [-> | ->]; reflexivity.
    - rewrite (label_names_list (map snd (edges g))) by (apply Hm; exact Hx). reflexivity.
  Qed.

  (* ---- the total *)
  Notation total d := (list_sum (map snd d)).

  Lemma sum_perm l l' : Permutation l l' -> list_sum l = list_sum l'.
  Proof. induction 1; simpl in *; lia. Qed.

  Lemma fold_add l : forall a, fold_left Nat.add l a = a + list_sum l.
  Proof. induction l as [|x l IH]; intros a; simpl; [lia | rewrite IH; lia]. Qed.

  Lemma total_dset (d : list (L * nat)) k n : NoDup (dkeys d) ->
    total (dset d k n) + (match dget d k with Some m => m | None => 0 end) = total d + n.
  Proof.
    induction d as [|[a b] d IH]; intros Hn.
    - simpl; lia.
    - inversion Hn; subst. cbn [dset dget]. destruct (eq_dec k a) as [->|Ne]; cbn [map list_sum snd].
      + simpl. lia.
      + specialize (IH H3). simpl in *. lia.
  Qed.

  Lemma counter_total ls : NoDup (dkeys (counter ls)) /\ total (counter ls) = length ls.
  Proof.
    unfold counter.
    enough (forall d, NoDup (dkeys d) ->
      let d' := fold_left (fun d l => dset d l (S (match dget d l with Some n => n | None => 0 end))) ls d in
      NoDup (dkeys d') /\ total d' = total d + length ls) as E.
    { destruct (E []) as [E1 E2]; [constructor|]. split; [exact E1|]. rewrite E2. reflexivity. }
    induction ls as [|x ls IH]; intros d Hd; cbn [fold_left length].
    - split; [exact Hd | lia].
    - destruct (IH (dset d x (S (match dget d x with Some n => n | None => 0 end))))
        as [E1 E2]; [apply NoDup_dset; exact Hd|]. split; [exact E1|]. rewrite E2.
      pose proof (total_dset d x (S (match dget d x with Some n => n | None => 0 end)) Hd). lia.
  Qed.

  Lemma update_total e : forall d : list (L * nat), NoDup (dkeys d) -> NoDup (dkeys e) ->
    total (update d e)
    + list_sum (map (fun kv => match dget d (fst kv) with Some m => m | None => 0 end) e)
    = total d + total e.
  Proof.
    unfold update. induction e as [|[k n] e IH]; intros d Hd He; cbn [fold_left map list_sum fst snd].
    - simpl; lia.
    - inversion He; subst.
      assert (map (fun kv => match dget (dset d k n) (fst kv) with Some m => m | None => 0 end) e
              = map (fun kv => match dget d (fst kv) with Some m => m | None => 0 end) e) as Em.
      { apply map_ext_in. intros [k' n'] Hi. rewrite dget_dset. cbn [fst].
        destruct (eq_dec k' k) as [->|]; [|reflexivity].
        exfalso. apply H2. apply (in_map fst) in Hi. exact Hi. }
      specialize (IH (dset d k n) ltac:(apply NoDup_dset; exact Hd) H3).
      rewrite Em in IH. pose proof (total_dset d k n Hd).
      change (list_sum (?a :: ?l)) with (a + list_sum l) in *. simpl in *. lia.
  Qed.

  (* What the total is: all occurrences, minus the edge occurrences of the
     names that also label a vertex. *)
  Theorem C58_total_partial (g : graph L) : plain g ->
    (forall l, In l (edge_names g) -> ~ In l (vertex_names g)) ->
    get_total_label g = Ret (length (edge_names g) + length (vertex_names g)).
  Proof.
    intros [Hv He] Hdis. unfold get_total_label, count_edge_label, count_vertex_label.
    rewrite !label_names_ok by (rewrite Forall_map; assumption). cbn [bind].
    rewrite fold_add. f_equal. simpl.
    assert (flat_map names_of (map snd (edges g)) = edge_names g) as ->.
    { unfold edge_names. rewrite flat_map_concat_map, map_map, <- flat_map_concat_map. reflexivity. }
    assert (flat_map names_of (map snd (nodes g)) = vertex_names g) as ->.
    { unfold vertex_names. rewrite flat_map_concat_map, map_map, <- flat_map_concat_map. reflexivity. }
    destruct (counter_total (edge_names g)) as [N1 T1], (counter_total (vertex_names g)) as [N2 T2].
    pose proof (update_total (counter (vertex_names g)) (counter (edge_names g)) N1 N2) as U.
    replace (list_sum (map _ (counter (vertex_names g)))) with 0 in U; [lia|].
    symmetry. rewrite (map_ext_in _ (fun _ => 0)).
    - clear. induction (counter (vertex_names g)); simpl; auto.
    - intros [k n] Hi. cbn [fst]. rewrite counter_spec. unfold occurs.
      destruct (count_occ eq_dec (edge_names g) k) eqn:C; [reflexivity|].
      exfalso. apply (Hdis k).
      + apply (count_occ_In eq_dec). lia.
      + apply In_dget in Hi; [|exact N2]. rewrite counter_spec in Hi. unfold occurs in Hi.
        apply (count_occ_In eq_dec). destruct (count_occ eq_dec (vertex_names g) k); [discriminate | lia].
  Qed.

  (* In general the edge occurrences of a name that also labels a vertex are
     lost, and the total is smaller by exactly that number. *)
  Theorem C58_total (g : graph L) : plain g ->
    exists t, get_total_label g = Ret t
      /\ t + list_sum (map (fun l => count_occ eq_dec (edge_names g) l)
                           (nodup eq_dec (vertex_names g)))
         = length (edge_names g) + length (vertex_names g).
  Proof.
    intros [Hv He]. unfold get_total_label, count_edge_label, count_vertex_label.
    rewrite !label_names_ok by (rewrite Forall_map; assumption). cbn [bind].
    rewrite fold_add. eexists; split; [reflexivity|]. simpl.
    assert (flat_map names_of (map snd (edges g)) = edge_names g) as ->.
    { unfold edge_names. rewrite flat_map_concat_map, map_map, <- flat_map_concat_map. reflexivity. }
    assert (flat_map names_of (map snd (nodes g)) = vertex_names g) as ->.
    { unfold vertex_names. rewrite flat_map_concat_map, map_map, <- flat_map_concat_map. reflexivity. }
    destruct (counter_total (edge_names g)) as [N1 T1], (counter_total (vertex_names g)) as [N2 T2].
    pose proof (update_total (counter (vertex_names g)) (counter (edge_names g)) N1 N2) as U.
    rewrite T1, T2 in U. rewrite <- U. f_equal.
    rewrite (map_ext_in (fun kv => match dget (counter (edge_names g)) (fst kv) with
                                   | Some m => m | None => 0 end)
                        (fun kv => count_occ eq_dec (edge_names g) (fst kv))).
    - rewrite <- (map_map fst (count_occ eq_dec (edge_names g))).
      assert (Permutation (dkeys (counter (vertex_names g))) (nodup eq_dec (vertex_names g))) as P.
      { apply NoDup_Permutation; [exact N2 | apply NoDup_nodup |].
        intros x. rewrite nodup_In, (count_occ_In eq_dec (vertex_names g)).
        pose proof (counter_spec (vertex_names g) x) as C. unfold occurs in C.
        destruct (count_occ eq_dec (vertex_names g) x) eqn:Ec.
        - apply dget_None in C. split; [intros F; elim (C F) | lia].
        - apply dget_In in C. apply (in_map fst) in C. split; [lia | intros _; exact C]. }
      unfold dkeys in P. apply (Permutation_map (count_occ eq_dec (edge_names g))) in P.
      apply sum_perm in P. symmetry. exact P.
    - intros [k n] _. cbn [fst]. rewrite counter_spec. unfold occurs.
      destruct (count_occ eq_dec (edge_names g) k); reflexivity.
  Qed.
End C58.

(* One vertex labelled 0 and one edge labelled 0: two labels, total 1. *)
Theorem C58_total_refuted :
  exists g : graph nat, plain g
    /\ length (edge_names g) + length (vertex_names g) = 3 /\ get_total_label g = Ret 2.
Proof.
  exists {| nodes := [(1, Some (Name 0)); (2, Some (Name 5))]; edges := [(1, 2, Some (Name 0))] |}.
  repeat split; repeat constructor.
Qed.

Example C58_case :
  let g := {| nodes := [(1, Some (Names [7; 8])); (2, None); (3, Some (Name 7))];
              edges := [(1, 2, Some (Name 4)); (2, 3, Some (Name 4))] |} in
  plain g /\ count_vertex_label g = Ret [(7, 2); (8, 1)] /\ count_edge_label g = Ret [(4, 2)]
  /\ get_total_label g = Ret 5.
Proof. repeat split; repeat constructor. Qed.

(* ======================================================================= *)
(* C54: minimum-image support                                              *)

(* the data nodes a pattern node is mapped to, embedding by embedding *)
Definition images (p : nat) (es : list (list (nat * nat))) : list nat :=
  map fst (filter (fun i => snd i =? p) (concat es)).
Definition pattern_nodes (es : list (list (nat * nat))) : list nat := map snd (concat es).
(* [s] is the least number of distinct data nodes over the pattern nodes *)
Definition minimum_image (es : list (list (nat * nat))) (s : nat) : Prop :=
  (exists p, In p (pattern_nodes es) /\ card (images p es) = s)
  /\ forall p, In p (pattern_nodes es) -> s <= card (images p es).

Lemma fold_concat {A B} (f : A -> B -> A) (ls : list (list B)) : forall a,
  fold_left (fun a l => fold_left f l a) ls a = fold_left f (concat ls) a.
Proof.
  induction ls as [|l ls IH]; intros a; simpl; [reflexivity|].
  rewrite IH, fold_left_app. reflexivity.
Qed.

Lemma see_spec is : forall d p,
  dget (fold_left see is d) p =
  let im := map fst (filter (fun i => snd i =? p) is) in
  match dget d p with
  | Some s => Some (s ++ im)
  | None => match im with [] => None | _ :: t => Some t end
  end.
Proof.
  induction is as [|[x q] is IH]; intros d p; cbn [fold_left].
  - simpl. destruct (dget d p); [rewrite app_nil_r|]; reflexivity.
  - rewrite IH. unfold see. cbn [snd fst filter].
    destruct (Nat.eqb_spec q p) as [->|Ne]; cbn zeta.
    + cbn [map fst]. destruct (dget d p) as [s|] eqn:E; rewrite dget_dset;
        destruct (eq_dec p p) as [_|F]; try congruence.
      * rewrite <- app_assoc. reflexivity.
      * reflexivity.
    + destruct (dget d q); rewrite dget_dset; destruct (eq_dec p q) as [F|_]; try congruence; reflexivity.
Qed.

Lemma node_embeddings_spec es p : dget (node_embeddings es) p =
  match images p es with [] => None | _ :: t => Some t end.
Proof. unfold node_embeddings. rewrite fold_concat, see_spec. reflexivity. Qed.

Lemma node_embeddings_keys es : NoDup (dkeys (node_embeddings es))
  /\ forall p, In p (dkeys (node_embeddings es)) <-> In p (pattern_nodes es).
Proof.
  split.
  - unfold node_embeddings. rewrite fold_concat.
    enough (forall is d, NoDup (dkeys d) -> NoDup (dkeys (fold_left see is d))) as E
      by (apply E; constructor).
    induction is as [|i is IH]; intros d Hd; [exact Hd|]. cbn [fold_left]. apply IH.
    unfold see. destruct (dget d (snd i)); apply NoDup_dset; exact Hd.
  - intros p. pose proof (node_embeddings_spec es p) as E.
    assert (In p (pattern_nodes es) <-> images p es <> []) as Hp.
    { unfold pattern_nodes, images. induction (concat es) as [|[x q] l IH]; simpl; [tauto|].
      destruct (Nat.eqb_spec q p) as [->|Ne]; simpl.
      - split; [discriminate | left; reflexivity].
      - rewrite IH. split; [intros [F|F]; [congruence | exact F] | auto]. }
    rewrite Hp. destruct (images p es).
    + apply dget_None in E. split; [tauto | congruence].
    + apply dget_In in E. apply (in_map fst) in E. split; [discriminate | intros _; exact E].
Qed.

Lemma fold_min l : forall x, In (fold_left Nat.min l x) (x :: l)
  /\ forall y, In y (x :: l) -> fold_left Nat.min l x <= y.
Proof.
  induction l as [|a l IH]; intros x; cbn [fold_left].
  - split; [left; reflexivity | intros y [->|[]]; lia].
  - destruct (IH (Nat.min x a)) as [H1 H2]. split.
    + destruct H1 as [H1|H1]; [|right; right; exact H1].
      destruct (Nat.min_spec x a) as [[_ E]|[_ E]]; rewrite E in H1 at 1; rewrite <- H1; simpl; auto.
    + intros y [Hy|[Hy|Hy]].
      * specialize (H2 (Nat.min x a) (or_introl eq_refl)). lia.
      * specialize (H2 (Nat.min x a) (or_introl eq_refl)). lia.
      * apply H2. right; exact Hy.
Qed.

Lemma card_cons_bounds (x : nat) l : card l <= card (x :: l) <= S (card l).
Proof.
  split; [apply card_incl; intros y Hy; right; exact Hy|].
  unfold card. simpl. destruct (in_dec eq_dec x l); simpl; lia.
Qed.

(* What is computed: the first data node met for each pattern node is not
   counted unless it is met again, so the result is the minimum-image support
   or one less. *)
Theorem C54_support_partial es s : minimum_image es s ->
  exists m, get_support es = Ret m /\ m <= s <= S m
    /\ ((forall p x t, In p (pattern_nodes es) -> images p es = x :: t -> In x t) -> m = s).
Proof.
  intros [[p [Hp Es]] Hmin].
  destruct (node_embeddings_keys es) as [Hnd Hk].
  assert (es <> []) as Hne by (intros ->; destruct Hp).
  assert (node_embeddings es <> []) as Hnn.
  { intros E. apply Hk in Hp. rewrite E in Hp. destruct Hp. }
  set (counts := map (fun kv => card (snd kv)) (node_embeddings es)).
  assert (forall n, In n counts <->
            exists q x t, In q (pattern_nodes es) /\ images q es = x :: t /\ n = card t) as Hc.
  { intros n. unfold counts. rewrite in_map_iff. split.
    - intros [[q t] [E Hi]]. cbn [snd] in E.
      pose proof (In_dget _ _ _ Hnd Hi) as Hg. rewrite node_embeddings_spec in Hg.
      destruct (images q es) as [|x u] eqn:Ei; [discriminate|]. injection Hg as ->.
      exists q, x, t. split; [apply Hk; apply (in_map fst) in Hi; exact Hi | auto].
    - intros (q & x & t & Hq & Ei & En).
      pose proof (node_embeddings_spec es q) as Hg. rewrite Ei in Hg.
      exists (q, t). split; [auto | apply dget_In; exact Hg]. }
  assert (get_support es = min_out counts) as Hg.
  { unfold get_support. destruct es; [congruence | reflexivity]. }
  destruct counts as [|c cs] eqn:Ec.
  { exfalso. unfold counts in Ec. destruct (node_embeddings es); [congruence | discriminate]. }
  destruct (fold_min cs c) as [H1 H2]. simpl in Hg.
  exists (fold_left Nat.min cs c). split; [exact Hg|].
  apply Hc in H1. destruct H1 as (q & x & t & Hq & Eq & Em).
  assert (exists x t, images p es = x :: t) as (x0 & t0 & Ep).
  { apply Hk in Hp. destruct (images p es) eqn:Ei; [|eauto].
    exfalso. pose proof (node_embeddings_spec es p) as F. rewrite Ei in F.
    apply dget_None in F. tauto. }
  assert (fold_left Nat.min cs c <= card t0) as Hle.
  { apply H2. apply Hc. exists p, x0, t0. auto. }
  pose proof (card_cons_bounds x0 t0) as B0. pose proof (card_cons_bounds x t) as B.
  rewrite <- Ep in B0. rewrite <- Eq in B. pose proof (Hmin q Hq).
  split; [lia|]. intros Hrep.
  assert (card (images p es) = card t0) as E0.
  { rewrite Ep. unfold card. simpl. destruct (in_dec eq_dec x0 t0); [reflexivity|].
    exfalso. apply n. exact (Hrep p x0 t0 Hp Ep). }
  assert (card (images q es) = card t) as E1.
  { rewrite Eq. unfold card. simpl. destruct (in_dec eq_dec x t); [reflexivity|].
    exfalso. apply n. exact (Hrep q x t Hq Eq). }
  lia.
Qed.

Theorem C54_support_refuted :
  exists es s, es <> [] /\ minimum_image es s /\ get_support es <> Ret s.
Proof.
  exists [[(10, 1); (11, 2)]; [(12, 1); (13, 2)]; [(12, 1); (14, 2)]], 2.
  split; [discriminate|]. split.
  - split.
    + exists 1. split; [simpl; auto | reflexivity].
    + intros p Hp. simpl in Hp.
      repeat (destruct Hp as [<-|Hp]; [vm_compute; lia|]). destruct Hp.
  - vm_compute. discriminate.
Qed.

Theorem C54_empty : get_support [] = Ret 0.
Proof. reflexivity. Qed.

Example C54_case :
  let es := [[(10, 1); (11, 2)]; [(12, 1); (11, 2)]; [(10, 1); (13, 2)]] in
  minimum_image es 2 /\ get_support es = Ret 2.
Proof.
  split; [|reflexivity]. split.
  - exists 1. split; [simpl; auto | reflexivity].
  - intros p Hp. simpl in Hp.
    repeat (destruct Hp as [<-|Hp]; [vm_compute; lia|]). destruct Hp.
Qed.

(* ======================================================================= *)
(* C59: candidate equality                                                 *)
Section C59.
  Context {L P : Type} `{EqDec L} `{EqDec P}.
  Implicit Types c d : candidate L P.

  (* joining the same patterns on the same ports, read in the same direction *)
  Definition same_way c d : Prop :=
    first_label c = first_label d /\ second_label c = second_label d
    /\ forall p, In p (port c) <-> In p (port d).
  (* ... read in opposite directions *)
  Definition opposite_way c d : Prop :=
    first_label c = second_label d /\ second_label c = first_label d
    /\ forall a b, In (a, b) (port c) <-> In (b, a) (port d).

  Lemma candidate_eq_spec c d : candidate_eq c d = true <->
    first_label c = first_label d /\ second_label c = second_label d
    /\ length (port c) = length (port d) /\ incl (port c) (port d).
  Proof.
    unfold candidate_eq, is_ports_equals.
    rewrite !andb_true_iff, !eqd_true.
    destruct (Nat.eqb_spec (length (port d)) (length (port c))) as [E|E]; simpl negb; cbn iota.
    - rewrite negb_true_iff, mem_false.
      assert ((~ In false (map (fun p => mem p (port d)) (port c))) <-> incl (port c) (port d)) as Hi.
      { split.
        - intros Hn p Hp. apply mem_In. destruct (mem p (port d)) eqn:M; [reflexivity|].
          exfalso. apply Hn. apply in_map_iff. exists p. auto.
        - intros Hs Hn. apply in_map_iff in Hn. destruct Hn as [p [M Hp]].
          apply mem_false in M. apply M, Hs, Hp. }
      rewrite Hi. intuition congruence.
    - split; [intros [_ F]; discriminate | intros (_ & _ & F & _); congruence].
  Qed.

  (* With ports listed once, equality is: same patterns, in the same order,
     joined on the same ports. *)
  Theorem C59_equal_partial c d : NoDup (port c) -> NoDup (port d) ->
    (candidate_eq c d = true <-> same_way c d).
  Proof.
    intros Hc Hd. rewrite candidate_eq_spec. unfold same_way. split.
    - intros (E1 & E2 & El & Hi). split; [exact E1|]. split; [exact E2|].
      intros p. split; [apply Hi|]. apply (NoDup_length_incl Hc); [lia | exact Hi].
    - intros (E1 & E2 & Hp). split; [exact E1|]. split; [exact E2|]. split.
      + apply Nat.le_antisymm; apply NoDup_incl_length; auto; intros p; apply Hp.
      + intros p; apply Hp.
  Qed.

  Theorem C59_reflexive c : candidate_eq c c = true.
  Proof. rewrite candidate_eq_spec. split; [|split; [|split]]; auto. apply incl_refl. Qed.

  Theorem C59_symmetric c d : NoDup (port c) -> NoDup (port d) ->
    candidate_eq c d = candidate_eq d c.
  Proof.
    intros Hc Hd. apply Bool.eq_iff_eq_true.
    rewrite !C59_equal_partial by assumption. unfold same_way.
    split; intros (E1 & E2 & E3); split; auto; split; auto; intros p; symmetry; apply E3.
  Qed.

  Theorem C59_transitive c d e :
    candidate_eq c d = true -> candidate_eq d e = true -> candidate_eq c e = true.
  Proof.
    rewrite !candidate_eq_spec. intros (A1 & A2 & A3 & A4) (B1 & B2 & B3 & B4).
    split; [congruence|]. split; [congruence|]. split; [congruence|].
    intros p Hp. apply B4, A4, Hp.
  Qed.

  (* [inverse] reads the candidate in the other direction; twice is the
     identity. *)
  Theorem C59_inverse c : opposite_way (inverse c) c /\ inverse (inverse c) = c.
  Proof.
    split.
    - split; [reflexivity|]. split; [reflexivity|]. intros a b. simpl. rewrite in_map_iff. split.
      + intros [[x y] [E Hi]]. injection E as <- <-. exact Hi.
      + intros Hi. exists (b, a). auto.
    - destruct c as [f s ps]. unfold inverse. simpl. f_equal.
      rewrite map_map. rewrite (map_ext _ (fun p => p)); [apply map_id | intros []; reflexivity].
  Qed.

  (* Comparing a candidate with its own inverse always succeeds, and leaves
     the candidate inverted. *)
  Theorem C59_own_inverse c : equals_own_inverse c = (true, inverse c).
  Proof. unfold equals_own_inverse. rewrite C59_reflexive. reflexivity. Qed.
End C59.

(* Two readings of the same join in opposite directions are not equal. *)
Theorem C59_direction_refuted :
  exists c d : candidate nat nat, NoDup (port c) /\ NoDup (port d)
    /\ opposite_way c d /\ candidate_eq c d = false.
Proof.
  exists {| first_label := 0; second_label := 1; port := [(1, 2)] |},
         {| first_label := 1; second_label := 0; port := [(2, 1)] |}.
  split; [repeat constructor; simpl; tauto|]. split; [repeat constructor; simpl; tauto|].
  split; [|reflexivity]. split; [reflexivity|]. split; [reflexivity|].
  intros a b. simpl. split; intros [E|[]]; left; congruence.
Qed.

(* Comparing with one's own inverse answers True for a candidate that differs
   from its inverse, and changes it. *)
Theorem C59_pure_refuted :
  exists c : candidate nat nat, candidate_eq c (inverse c) = false
    /\ fst (equals_own_inverse c) = true /\ snd (equals_own_inverse c) <> c.
Proof.
  exists {| first_label := 0; second_label := 0; port := [(1, 2); (3, 3)] |}.
  split; [reflexivity|]. split; [reflexivity|]. vm_compute. congruence.
Qed.

(* With a port listed twice, [==] is not symmetric. *)
Theorem C59_symmetric_refuted :
  exists c d : candidate nat nat, candidate_eq c d = true /\ candidate_eq d c = false.
Proof.
  exists {| first_label := 0; second_label := 1; port := [(1, 1); (1, 1)] |},
         {| first_label := 0; second_label := 1; port := [(1, 1); (2, 2)] |}.
  split; reflexivity.
Qed.

Example C59_case :
  let c := {| first_label := 0; second_label := 1; port := [(1, 2); (2, 3)] |} in
  let d := {| first_label := 0; second_label := 1; port := [(2, 3); (1, 2)] |} in
  NoDup (port c) /\ NoDup (port d) /\ candidate_eq c d = true.
Proof.
  split; [|split; [|reflexivity]]; repeat constructor; simpl; intuition congruence.
Qed.

Print Assumptions C54_support_partial.
Print Assumptions C54_support_refuted.
Print Assumptions C55_prefix_code.
Print Assumptions C55_kraft.
Print Assumptions C55_error.
Print Assumptions C55_with0.
Print Assumptions C56_binomial.
Print Assumptions C56_returned.
Print Assumptions C56_error.
Print Assumptions C58_counts.
Print Assumptions C58_list_error.
Print Assumptions C58_total_partial.
Print Assumptions C58_total.
Print Assumptions C58_total_refuted.
Print Assumptions C59_equal_partial.
Print Assumptions C59_reflexive.
Print Assumptions C59_symmetric.
Print Assumptions C59_transitive.
Print Assumptions C59_inverse.
Print Assumptions C59_own_inverse.
Print Assumptions C59_direction_refuted.
Print Assumptions C59_pure_refuted.
Print Assumptions C59_symmetric_refuted.
