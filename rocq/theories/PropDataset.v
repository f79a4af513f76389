(* C32, C33, C34, C61, C63, C64: synthetic data, statistics and the .dat reader. *)
From Verif Require Import Prelude CheckModel TextModel TextProofs SplitModel SplitProofs DatasetModel.
From Coq Require Import QArith Qround Qabs Lqa.
Local Open Scope nat_scope.

(* ------------------------------------------------------------------- C32 *)
(* RandomState.choice(l, s, replace=False): s distinct positions of l *)
Definition good_choice (choice : nat -> list Z -> nat -> list Z) : Prop :=
  forall k l s, s <= length l -> NoDup l ->
    NoDup (choice k l s) /\ length (choice k l s) = s /\ incl (choice k l s) l.
(* RandomState.binomial(n, p, size) returns size draws *)
Definition good_binom (binom : nat -> nat -> list nat) : Prop := forall n size, length (binom n size) = size.

Lemma arange_In start n x : In x (arange start n) <-> (start <= x < start + Z.of_nat n)%Z.
Proof.
  unfold arange; rewrite in_map_iff; split.
  - intros [i [<- Hi]]; apply in_seq in Hi; lia.
  - intros Hx; exists (Z.to_nat (x - start)); split; [lia|]; apply in_seq; lia.
Qed.
Lemma arange_NoDup start n : NoDup (arange start n).
Proof. unfold arange; apply FinFun.Injective_map_NoDup; [intros a b E; lia | apply seq_NoDup]. Qed.
Lemma arange_length start n : length (arange start n) = n.
Proof. unfold arange; rewrite map_length, seq_length; reflexivity. Qed.
Lemma list_max_ge l s : In s l -> s <= list_max' l.
Proof. induction l as [|x l IH]; intros []; simpl; [subst; lia | specialize (IH H); lia]. Qed.

Lemma draw_ok choice choices : good_choice choice -> NoDup choices -> forall sizes k,
  (forall s, In s sizes -> s <= length choices) ->
  exists D, draw choice choices k sizes = Ret D /\ map (@length Z) D = sizes /\
    forall t, In t D -> NoDup t /\ incl t choices.
Proof.
  intros Hg Hn sizes; induction sizes as [|s sizes IH]; intros k Hs; simpl; [exists []; split; [reflexivity|]; split; [reflexivity | intros t []]|].
  destruct (Nat.ltb_spec (length choices) s) as [Hlt|Hle]; [specialize (Hs s (or_introl eq_refl)); lia|].
  destruct (IH (S k)) as [D [E [Hl Ht]]]; [intros x Hx; apply Hs; right; exact Hx|].
  rewrite E; simpl; destruct (Hg k choices s Hle Hn) as [G1 [G2 G3]].
  eexists; split; [reflexivity|]; split; [simpl; rewrite G2, Hl; reflexivity|].
  intros t [<-|Hin]; [auto | apply Ht, Hin].
Qed.
Lemma Qle_bool_false a b : Qle_bool a b = false -> (b < a)%Q.
Proof. intros E; apply Qnot_le_lt; intros Hl; apply Qle_bool_iff in Hl; congruence. Qed.
Definition density_ok (density : pyfloat) : Prop := exists d, density = Fin d /\ (0 < d < 1)%Q.
Lemma density_test density : flt_gt density 0 && flt_lt density 1 = true <-> density_ok density.
Proof.
  unfold density_ok; split.
  - intros E; apply andb_true_iff in E; destruct E as [E1 E2]; destruct density as [d| | |]; simpl in *; try discriminate.
    exists d; split; [reflexivity|]; apply negb_true_iff in E1, E2; apply Qle_bool_false in E1, E2.
    unfold inject_Z in *; split; lra.
  - intros [d [-> [H1 H2]]]; simpl; apply andb_true_iff; split; apply negb_true_iff;
      match goal with |- Qle_bool ?a ?b = false => destruct (Qle_bool a b) eqn:E; [|reflexivity] end;
      apply Qle_bool_iff in E; unfold inject_Z in *; lra.
Qed.

Theorem C32_transactions : forall rnd binom choice n_transactions n_items d item_start,
  good_binom binom -> good_choice choice -> (0 < d < 1)%Q -> 1 <= n_transactions ->
  exists D, make_transactions rnd binom choice n_transactions n_items (Fin d) item_start = Ret D /\
    length D = n_transactions /\
    (forall t, In t D -> NoDup t /\ forall x, In x t -> (item_start <= x < item_start + Z.of_nat n_items)%Z) /\
    (let draws := binom (Z.to_nat (Qfloor (rnd (d * inject_Z (Z.of_nat n_items)) * 2)%Q)) n_transactions in
     (forall s, In s draws -> s <= n_items) -> map (@length Z) D = draws).
Proof.
  intros rnd binom choice nt ni d start Hb Hc Hd Hn.
  assert (Et : flt_gt (Fin d) 0 && flt_lt (Fin d) 1 = true) by (apply density_test; exists d; auto).
  unfold make_transactions; rewrite Et; cbn [negb].
  change (inject_Z 2) with 2%Q; set (draws := binom _ nt); assert (Hl : length draws = nt) by apply Hb.
  destruct draws as [|s0 l0] eqn:Ed; [simpl in Hl; lia|]; rewrite <- Ed in *; clear Ed s0 l0.
  set (sizes := if ni <? list_max' draws then _ else draws).
  destruct (draw_ok choice (arange start ni) Hc (arange_NoDup start ni) sizes 0) as [D [E [HL Ht]]].
  { intros s Hs; rewrite arange_length; unfold sizes in Hs; destruct (Nat.ltb_spec ni (list_max' draws)) as [H|H].
    - apply in_map_iff in Hs; destruct Hs as [x [<- _]]; lia.
    - apply list_max_ge in Hs; lia. }
  exists D; split; [exact E|]; split; [|split].
  - rewrite <- (map_length (@length Z)), HL, <- Hl; unfold sizes; destruct (ni <? list_max' draws); [apply map_length | reflexivity].
  - intros t Hin; destruct (Ht t Hin) as [H1 H2]; split; [exact H1|]; intros x Hx; apply arange_In, H2, Hx.
  - simpl; intros Hall; rewrite HL; unfold sizes; destruct (Nat.ltb_spec ni (list_max' draws)) as [H|H]; [|reflexivity].
    exfalso; assert (Hm : list_max' draws <= ni); [|lia].
    clear -Hall; induction draws as [|x l IH]; simpl; [lia|].
    pose proof (Hall x (or_introl eq_refl)); specialize (IH (fun s Hs => Hall s (or_intror Hs))); lia.
Qed.
Print Assumptions C32_transactions.
(* when the largest draw exceeds n_items, the smallest sizes are raised by the excess and the largest cut to n_items *)
Lemma list_min_spec l lo : In lo l -> (forall s, In s l -> lo <= s) -> list_min' l = lo.
Proof.
  intros Hin Hall. enough (In (list_min' l) l /\ forall s, In s l -> list_min' l <= s) as [H1 H2] by (specialize (Hall _ H1); specialize (H2 _ Hin); lia).
  assert (Hne : l <> []) by (intros ->; destruct Hin). clear -Hne. induction l as [|x l IH]; [congruence|].
  destruct l as [|y l]; [simpl; split; [auto | intros s [->|[]]; lia]|].
  destruct IH as [I1 I2]; [discriminate|]. change (list_min' (x :: y :: l)) with (Nat.min x (list_min' (y :: l))). split.
  - destruct (Nat.min_spec x (list_min' (y :: l))) as [[_ ->]|[_ ->]]; [left; reflexivity | right; exact I1].
  - intros s [->|Hs]; [lia | specialize (I2 s Hs); lia].
Qed.
Lemma list_max_spec l hi : In hi l -> (forall s, In s l -> s <= hi) -> list_max' l = hi.
Proof.
  intros Hin Hall. pose proof (list_max_ge l hi Hin). assert (list_max' l <= hi); [|lia]. clear Hin H.
  induction l as [|x l IH]; simpl; [lia|]. pose proof (Hall x (or_introl eq_refl)). specialize (IH (fun s Hs => Hall s (or_intror Hs))). lia.
Qed.
Theorem C32_clipped : forall rnd binom choice n_transactions n_items d item_start lo hi D,
  good_binom binom -> good_choice choice ->
  let draws := binom (Z.to_nat (Qfloor (rnd (d * inject_Z (Z.of_nat n_items)) * 2)%Q)) n_transactions in
  In lo draws -> (forall s, In s draws -> lo <= s) -> In hi draws -> (forall s, In s draws -> s <= hi) -> n_items < hi ->
  make_transactions rnd binom choice n_transactions n_items (Fin d) item_start = Ret D ->
  map (@length Z) D = map (fun s => Nat.min n_items (Nat.max s (lo + (hi - n_items)))) draws.
Proof.
  intros rnd binom choice nt ni d start lo hi D Hb Hc draws Hlo Lmin Hhi Lmax Hgt. unfold make_transactions.
  destruct (negb _); [discriminate|]. change (inject_Z 2) with 2%Q. fold draws.
  destruct draws as [|s0 l0] eqn:Ed; [destruct Hlo|]. rewrite <- Ed in *. clear Ed s0 l0. cbn zeta.
  rewrite (list_max_spec draws hi Hhi Lmax), (list_min_spec draws lo Hlo Lmin).
  destruct (Nat.ltb_spec ni hi) as [_|K]; [|lia]. set (sizes := map _ draws).
  destruct (draw_ok choice (arange start ni) Hc (arange_NoDup start ni) sizes 0) as [D' [E [HL _]]].
  { intros s Hs. rewrite arange_length. apply in_map_iff in Hs. destruct Hs as [x [<- _]]. lia. }
  rewrite E. intros [= <-]. rewrite HL. apply map_ext. intros s. apply Nat.min_comm.
Qed.
Print Assumptions C32_clipped.
Example C32_clipped_case : make_transactions (fun q => q) (fun _ _ => [0; 3; 5]) (fun _ l s => firstn s l) 3 4 (Fin (9 # 10)) 10 = Ret [[10]; [10; 11; 12]; [10; 11; 12; 13]]%Z.
Proof. reflexivity. Qed.
Theorem C32_rejected : forall rnd binom choice n_transactions n_items density item_start, good_binom binom ->
  ~ density_ok density \/ n_transactions = 0 ->
  make_transactions rnd binom choice n_transactions n_items density item_start = Exn ValueError.
Proof.
  intros rnd binom choice nt ni density start Hb Hr; unfold make_transactions.
  destruct (flt_gt density 0 && flt_lt density 1) eqn:Et; cbn [negb]; [|reflexivity].
  apply (proj1 (density_test _)) in Et; destruct Hr as [Hr|Hr]; [contradiction|]; subst nt.
  destruct density as [d| | |]; try reflexivity.
  match goal with |- context [binom ?a 0] => pose proof (Hb a 0) as Hl; destruct (binom a 0); [reflexivity | discriminate] end.
Qed.
Print Assumptions C32_rejected.
(* the first k choices; sizes larger than n_items are clipped *)
Definition demo_choice (_ : nat) (l : list Z) (s : nat) : list Z := firstn s l.
Lemma demo_choice_good : good_choice demo_choice.
Proof.
  intros k l s Hs Hn; unfold demo_choice; split; [revert s Hs; induction Hn as [|x l Hx Hn IH]; intros [|s] Hs; simpl in *; constructor; [|apply IH; lia]; intros Hin; apply Hx; rewrite <- (firstn_skipn s l); apply in_or_app; left; exact Hin|]; split; [apply firstn_length_le, Hs|]; intros x Hx; rewrite <- (firstn_skipn s l); apply in_or_app; left; exact Hx.
Qed.
Example C32_case : make_transactions (fun q => q) (fun n size => firstn size [2; 6; n]) demo_choice 3 4 (Fin (9 # 10)) 10
    = Ret [[10; 11; 12; 13]; [10; 11; 12; 13]; [10; 11; 12; 13]]%Z
  /\ make_transactions (fun q => q) (fun n size => firstn size [2; 1; n]) demo_choice 3 4 (Fin (1 # 2)) 10
    = Ret [[10; 11]; [10]; [10; 11; 12; 13]]%Z.
Proof. split; vm_compute; reflexivity. Qed.

(* ------------------------------------------------------------------- C33 *)
Section Classification.
  Context (rnd : Q -> Q) (binom : nat -> nat -> nat -> list nat) (choice : nat -> nat -> list Z -> nat -> list Z)
          (sample : list (list Z * nat) -> list (list Z * nat)).
  Context (Hbinom : forall c, good_binom (binom c)) (Hchoice : forall c, good_choice (choice c))
          (Hsample : forall rows, Permutation rows (sample rows)).
  Context (n_samples n_items : nat) (sep : Q).
  (* int(w * n_samples) *)
  Definition share (w : Q) : nat := Z.to_nat (Qfloor (rnd (w * inject_Z (Z.of_nat n_samples)))).
  (* the first item of class c: c times int(n_items - n_items * (1 - class_sep)) *)
  Definition first_item (c : nat) : Z :=
    (Z.of_nat c * Qfloor (rnd (inject_Z (Z.of_nat n_items) - rnd (inject_Z (Z.of_nat n_items) * rnd (1 - sep)))%Q))%Z.
  Definition rows_of (c : nat) (rows : list (list Z * nat)) : list (list Z * nat) :=
    filter (fun r => snd r =? c) rows.

  Lemma rows_of_app c a b : rows_of c (a ++ b) = rows_of c a ++ rows_of c b.
  Proof. apply filter_app. Qed.
  Lemma rows_of_const c k (T : list (list Z)) : rows_of c (map (fun t => (t, k)) T) = if k =? c then map (fun t => (t, k)) T else [].
  Proof.
    unfold rows_of; destruct (Nat.eqb_spec k c) as [->|Hne]; induction T as [|t T IH]; simpl; try reflexivity.
    - rewrite Nat.eqb_refl, IH; reflexivity.
    - destruct (Nat.eqb_spec k c); [contradiction | exact IH].
  Qed.
  Lemma classes_ok : forall ws ds c, length ws = length ds ->
    (forall d, In d ds -> density_ok d) -> (forall w, In w ws -> 1 <= share w) ->
    exists rows, classes rnd binom choice n_samples n_items sep c (first_item c) ws ds = Ret rows /\
      (forall k, length (rows_of k rows) = match nth_error ws (k - c) with Some w => if c <=? k then share w else 0 | None => 0 end) /\
      (forall t k, In (t, k) rows -> c <= k < c + length ws /\ NoDup t /\
         forall x, In x t -> (first_item k <= x < first_item k + Z.of_nat n_items)%Z).
  Proof.
    induction ws as [|w ws IH]; intros [|d ds] c Hl Hd Hw; simpl in Hl; try discriminate.
    - exists []; split; [reflexivity|]; split; [intros k; destruct (k - c); reflexivity | intros t k []].
    - destruct (Hd d (or_introl eq_refl)) as [q [-> Hq]].
      destruct (C32_transactions rnd (binom c) (choice c) (share w) n_items q (first_item c) (Hbinom c) (Hchoice c) Hq (Hw w (or_introl eq_refl)))
        as [T [ET [HT1 [HT2 _]]]].
      destruct (IH ds (S c)) as [rows [ER [HR1 HR2]]]; [lia | intros; apply Hd; right; assumption | intros; apply Hw; right; assumption|].
      cbn [classes]; fold (share w); rewrite ET; cbn [bind].
      replace (first_item c + pad_step rnd n_items sep)%Z with (first_item (S c)) by (unfold first_item, pad_step; lia).
      rewrite ER; cbn [bind]; eexists; split; [reflexivity|]; split.
      + intros k; rewrite rows_of_app, app_length, rows_of_const, HR1.
        destruct (Nat.eqb_spec c k) as [->|Hne].
        * rewrite Nat.sub_diag; simpl nth_error; cbn iota; rewrite Nat.leb_refl, map_length, HT1.
          destruct (nth_error ws (k - S k)); [|lia]; destruct (Nat.leb_spec (S k) k); lia.
        * destruct (Nat.leb_spec c k) as [Hle|Hlt].
          -- replace (k - c) with (S (k - S c)) by lia; simpl; destruct (nth_error ws (k - S c)); [|reflexivity].
             destruct k as [|k]; [lia|]; destruct (Nat.leb_spec c k); lia.
          -- replace (k - c) with 0 by lia; simpl; destruct (nth_error ws (k - S c)); [|reflexivity].
             destruct k as [|k]; [reflexivity|]; destruct (Nat.leb_spec c k); lia.
      + intros t k Hin; apply in_app_iff in Hin; destruct Hin as [Hin|Hin].
        * apply in_map_iff in Hin; destruct Hin as [u [E Hu]]; injection E as <- <-; split; [simpl; lia|]; apply HT2, Hu.
        * destruct (HR2 t k Hin) as [H1 H2]; split; [simpl; lia | exact H2].
  Qed.
  Lemma rows_of_perm k a b : Permutation a b -> length (rows_of k a) = length (rows_of k b).
  Proof.
    intros Hp; apply Permutation_length; unfold rows_of; induction Hp as [|x l l' Hp IH|x y l|l1 l2 l3 _ IH1 _ IH2]; simpl; auto.
    - destruct (snd x =? k); auto.
    - destruct (snd x =? k), (snd y =? k); auto; apply perm_swap.
    - eapply perm_trans; eassumption.
  Qed.
  (* the weights and densities in force *)
  Definition weights_of (n_classes : nat) (weights : option (list Q)) : list Q :=
    match weights with Some w => w | None => repeat (rnd (1 / inject_Z (Z.of_nat n_classes))%Q) n_classes end.
  Definition densities_of (n_classes : nat) (densities : option (list pyfloat)) : list pyfloat :=
    match densities with Some d => d | None => repeat (Fin (1 # 2)) n_classes end.

  Lemma combine_fst_snd (rows : list (list Z * nat)) : combine (map fst rows) (map snd rows) = rows.
  Proof. induction rows as [|[t k] rows IH]; simpl; [reflexivity | rewrite IH; reflexivity]. Qed.

  Theorem C33_classification : forall n_classes weights shuffle densities,
    let ws := weights_of n_classes weights in let ds := densities_of n_classes densities in
    1 <= n_classes -> length ws = n_classes -> length ds = n_classes -> (0 <= sep <= 1)%Q ->
    (Qabs (qsum ws - 1) < 15 # 1000)%Q ->
    (forall d, In d ds -> density_ok d) -> (forall w, In w ws -> 1 <= share w) ->
    exists X y, make_classification rnd binom choice sample n_samples n_items n_classes weights sep shuffle densities = Ret (X, y) /\
      length X = length y /\
      (forall k w, nth_error ws k = Some w -> length (filter (fun l => l =? k) y) = share w) /\
      (forall i t k, nth_error X i = Some t -> nth_error y i = Some k -> k < n_classes /\ NoDup t /\
         forall x, In x t -> (first_item k <= x < first_item k + Z.of_nat n_items)%Z) /\
      (sep = 1%Q -> rnd (1 - 1)%Q = 0%Q -> rnd (inject_Z (Z.of_nat n_items) * 0)%Q = 0%Q ->
       rnd (inject_Z (Z.of_nat n_items) - 0)%Q = inject_Z (Z.of_nat n_items) ->
       forall i j ti tj ki kj x, nth_error X i = Some ti -> nth_error y i = Some ki ->
         nth_error X j = Some tj -> nth_error y j = Some kj -> In x ti -> In x tj -> ki = kj).
  Proof.
    intros n_classes weights shuffle densities ws ds Hn Hlw Hld Hsep Hsum Hdens Hshare.
    destruct (classes_ok ws ds 0) as [rows [ER [HR1 HR2]]]; [lia | exact Hdens | exact Hshare|].
    change (first_item 0) with 0%Z in ER.
    unfold make_classification; destruct (Nat.eqb_spec n_classes 0); [lia|].
    fold (weights_of n_classes weights) (densities_of n_classes densities); fold ws ds.
    rewrite Hlw, Hld, Nat.eqb_refl; cbn [andb negb].
    rewrite (proj2 (Qle_bool_iff 0 sep)) by tauto; rewrite (proj2 (Qle_bool_iff sep 1)) by tauto; cbn [andb negb].
    assert (Hok : weights_ok ws = true).
    { unfold weights_ok; apply Qabs_Qlt_condition in Hsum; destruct Hsum as [S1 S2].
      apply andb_true_iff; split; apply negb_true_iff;
        match goal with |- Qle_bool ?a ?b = false => destruct (Qle_bool a b) eqn:E; [|reflexivity] end;
        apply Qle_bool_iff in E; lra. }
    rewrite Hok; cbn [negb]; rewrite ER; cbn [bind].
    set (rows' := if shuffle then sample rows else rows).
    assert (Hp : Permutation rows rows') by (unfold rows'; destruct shuffle; [apply Hsample | apply Permutation_refl]).
    exists (map fst rows'), (map snd rows'); split; [reflexivity|]; split; [rewrite !map_length; reflexivity|].
    assert (Hin : forall i t k, nth_error (map fst rows') i = Some t -> nth_error (map snd rows') i = Some k -> In (t, k) rows).
    { intros i t k H1 H2; rewrite nth_error_map in H1, H2; destruct (nth_error rows' i) as [[t' k']|] eqn:E; simpl in *; try discriminate.
      injection H1 as <-; injection H2 as <-; apply nth_error_In in E; apply (Permutation_in _ (Permutation_sym Hp) E). }
    assert (Hrow : forall i t k, nth_error (map fst rows') i = Some t -> nth_error (map snd rows') i = Some k -> k < n_classes /\ NoDup t /\
         forall x, In x t -> (first_item k <= x < first_item k + Z.of_nat n_items)%Z).
    { intros i t k H1 H2; destruct (HR2 t k (Hin i t k H1 H2)) as [H3 H4]; split; [lia | exact H4]. }
    split; [|split; [exact Hrow|]].
    - intros k w Hw; rewrite <- (HR1 k) || idtac.
      transitivity (length (rows_of k rows')).
      + unfold rows_of; clear; induction rows' as [|[t l] r IH]; simpl; [reflexivity|]; destruct (l =? k); simpl; rewrite IH; reflexivity.
      + rewrite <- (rows_of_perm k _ _ Hp), HR1, Nat.sub_0_r, Hw; reflexivity.
    - intros Hs R1 R2 R3 i j ti tj ki kj x A1 A2 B1 B2 Hx Hy.
      destruct (Hrow i ti ki A1 A2) as [_ [_ Hi]]; destruct (Hrow j tj kj B1 B2) as [_ [_ Hj]].
      specialize (Hi x Hx); specialize (Hj x Hy); unfold first_item in Hi, Hj; rewrite Hs, R1, R2, R3 in Hi, Hj.
      rewrite Qfloor_Z in Hi, Hj; nia.
  Qed.
  (* a class whose share truncates to nothing makes the call fail *)
  Theorem C33_empty_class : forall ws1 w ws2 ds1 d ds2, length ws1 = length ds1 ->
    (forall d, In d ds1 -> density_ok d) -> (forall w, In w ws1 -> 1 <= share w) -> share w = 0 ->
    classes rnd binom choice n_samples n_items sep 0 0 (ws1 ++ w :: ws2) (ds1 ++ d :: ds2) = Exn ValueError.
  Proof.
    intros ws1 w ws2 ds1 d ds2 Hl0 Hd0 Hw0 Hz0; change 0%Z with (first_item 0).
    enough (Hgen : forall c, classes rnd binom choice n_samples n_items sep c (first_item c) (ws1 ++ w :: ws2) (ds1 ++ d :: ds2) = Exn ValueError) by apply Hgen.
    intros c; revert ds1 c Hl0 Hd0 Hw0 Hz0; induction ws1 as [|v ws1 IH]; intros [|e ds1] c Hl Hd Hw Hz; simpl in Hl; try discriminate.
    - cbn [app classes]; fold (share w); rewrite Hz, C32_rejected; [reflexivity | apply Hbinom | right; reflexivity].
    - cbn [app classes]; fold (share v); destruct (Hd e (or_introl eq_refl)) as [q [-> Hq]].
      destruct (C32_transactions rnd (binom c) (choice c) (share v) n_items q (first_item c) (Hbinom c) (Hchoice c) Hq (Hw v (or_introl eq_refl)))
        as [T [ET _]]; rewrite ET; cbn [bind].
      replace (first_item c + pad_step rnd n_items sep)%Z with (first_item (S c)) by (unfold first_item, pad_step; lia).
      rewrite IH; [reflexivity | lia | intros; apply Hd; right; assumption | intros; apply Hw; right; assumption | exact Hz].
  Qed.
End Classification.
Print Assumptions C33_classification.
Print Assumptions C33_empty_class.
Definition demo_binom (c n size : nat) : list nat := repeat 2 size.
Example C33_case :
  make_classification (fun q => q) demo_binom (fun _ => demo_choice) (@rev _) 5 3 2 (Some [2 # 5; 3 # 5]%Q) 1 true None
  = Ret ([[3; 4]; [3; 4]; [3; 4]; [0; 1]; [0; 1]]%Z, [1; 1; 1; 0; 0]).
Proof. vm_compute. reflexivity. Qed.
(* -------------------------------------------------------------------------- C63 *)
(* five samples in two balanced classes: only four are returned *)
Theorem C63_fewer_samples_refuted :
  make_classification (fun q => q) demo_binom (fun _ => demo_choice) (@rev _) 5 3 2 None 1 false None
  = Ret ([[0; 1]; [0; 1]; [3; 4]; [3; 4]]%Z, [0; 0; 1; 1]).
Proof. vm_compute. reflexivity. Qed.
Print Assumptions C63_fewer_samples_refuted.
Lemma rows_total (n : nat) : forall (y : list nat), (forall k, In k y -> k < n) ->
  length y = fold_right Nat.add 0 (map (fun k => length (filter (fun l => l =? k) y)) (seq 0 n)).
Proof.
  intros y; induction y as [|l y IH]; intros Hy.
  - simpl; clear; assert (Hz : forall s, 0 = fold_right Nat.add 0 (map (fun _ => 0) (seq s n))); [|apply Hz].
    induction n as [|n IH]; intros s; simpl; [reflexivity | apply IH].
  - simpl length; rewrite IH by (intros k Hk; apply Hy; right; exact Hk).
    pose proof (Hy l (or_introl eq_refl)) as Hl.
    assert (Hs : forall s m, (s <= l < s + m -> fold_right Nat.add 0 (map (fun k => length (filter (fun x => x =? k) (l :: y))) (seq s m))
               = S (fold_right Nat.add 0 (map (fun k => length (filter (fun x => x =? k) y)) (seq s m)))) /\
               (~ s <= l < s + m -> fold_right Nat.add 0 (map (fun k => length (filter (fun x => x =? k) (l :: y))) (seq s m))
               = fold_right Nat.add 0 (map (fun k => length (filter (fun x => x =? k) y)) (seq s m)))).
    { intros s m; revert s; induction m as [|m IHm]; intros s; [split; intros; [lia | reflexivity]|].
      cbn [seq map fold_right filter]; destruct (IHm (S s)) as [I1 I2]; cbn [filter] in I1, I2.
      destruct (Nat.eqb_spec l s) as [->|Hne]; cbn [length]; split; intros Hr; lia. }
    symmetry; apply (proj1 (Hs 0 n)); lia.
Qed.
(* the number of samples is n_samples exactly when the shares add up to it *)
Theorem C63_samples_partial : forall rnd binom choice sample n_samples n_items sep n_classes weights shuffle densities X y,
  (forall c, good_binom (binom c)) -> (forall c, good_choice (choice c)) -> (forall rows, Permutation rows (sample rows)) ->
  let ws := weights_of rnd n_classes weights in let ds := densities_of n_classes densities in
  1 <= n_classes -> length ws = n_classes -> length ds = n_classes -> (0 <= sep <= 1)%Q ->
  (Qabs (qsum ws - 1) < 15 # 1000)%Q ->
  (forall d, In d ds -> density_ok d) -> (forall w, In w ws -> 1 <= share rnd n_samples w) ->
  make_classification rnd binom choice sample n_samples n_items n_classes weights sep shuffle densities = Ret (X, y) ->
  length X = length y /\ length y = fold_right Nat.add 0 (map (share rnd n_samples) ws).
Proof.
  intros rnd binom choice sample n_samples n_items sep n_classes weights shuffle densities X y Hb Hc Hp ws ds Hn Hlw Hld Hs Hsum Hd Hsh E.
  destruct (C33_classification rnd binom choice sample Hb Hc Hp n_samples n_items sep n_classes weights shuffle densities Hn Hlw Hld Hs Hsum Hd Hsh)
    as [X' [y' [E' [Hl [Hcount [Hrow _]]]]]].
  rewrite E in E'; injection E' as <- <-; split; [exact Hl|].
  rewrite (rows_total n_classes).
  - f_equal; apply (nth_ext _ _ 0 0); [rewrite !map_length, seq_length; symmetry; exact Hlw|].
    intros k Hk; rewrite map_length, seq_length in Hk.
    destruct (nth_error ws k) as [w|] eqn:Ew; [|apply nth_error_None in Ew; lia].
    rewrite (nth_error_nth (map (fun k => length (filter (fun l => l =? k) y)) (seq 0 n_classes)) k 0 (x := length (filter (fun l => l =? k) y))).
    + rewrite (nth_error_nth (map (share rnd n_samples) ws) k 0 (x := share rnd n_samples w)); [apply Hcount, Ew | apply map_nth_error, Ew].
    + apply map_nth_error with (f := fun k => length (filter (fun l => l =? k) y)).
      rewrite (nth_error_nth' _ 0) by (rewrite seq_length; exact Hk); rewrite seq_nth by exact Hk; reflexivity.
  - intros k Hk; destruct (In_nth_error _ _ Hk) as [i Hi].
    destruct (nth_error X i) as [t|] eqn:Et; [apply (Hrow i t k Et Hi)|].
    apply nth_error_None in Et; assert (i < length y) by (apply nth_error_Some; congruence); lia.
Qed.
Print Assumptions C63_samples_partial.

(* ------------------------------------------------------------------- C34 *)
Section Describe.
  Context {A : Type} `{EqDec A}.
  Definition total (D : list (list A)) : nat := fold_right Nat.add 0 (map (@length A) D).

  Lemma sum_Z {B} (f : B -> nat) (l : list B) : fold_right Z.add 0%Z (map (fun x => Z.of_nat (f x)) l) = Z.of_nat (fold_right Nat.add 0 (map f l)).
  Proof. induction l as [|x l IH]; simpl; [reflexivity | rewrite IH; lia]. Qed.
  Lemma inject_pos n : 0 < n -> (0 < inject_Z (Z.of_nat n))%Q.
  Proof. intros Hn; unfold inject_Z, Qlt; simpl; lia. Qed.
  Theorem C34_describe : forall D : list (list A), (exists t x, In t D /\ In x t) ->
    exists avg dens items, d_avg (describe D) = Some avg /\ d_density (describe D) = Some dens /\
      NoDup items /\ (forall x, In x items <-> exists t, In t D /\ In x t) /\ d_items (describe D) = length items /\
      d_transactions (describe D) = length D /\
      (avg * inject_Z (Z.of_nat (length D)) == inject_Z (Z.of_nat (total D)))%Q /\
      (dens * inject_Z (Z.of_nat (length items)) == avg)%Q /\
      ((forall t, In t D -> NoDup t) -> (0 < dens <= 1)%Q).
  Proof.
    intros D [t0 [x0 [Ht0 Hx0]]]; unfold describe, d_avg, d_density, d_items, d_transactions.
    set (items := nodup eq_dec (concat D)).
    assert (Hitems : forall x, In x items <-> exists t, In t D /\ In x t).
    { intros x; unfold items; rewrite nodup_In, in_concat; split; intros [t [H1 H2]]; exists t; auto. }
    assert (Hpos : 0 < length items).
    { destruct items as [|y l] eqn:E; [|simpl; lia]; exfalso; apply (proj2 (Hitems x0)); exists t0; auto. }
    assert (HD : 0 < length D) by (destruct D; [destruct Ht0 | simpl; lia]).
    unfold mean; destruct (map (fun t => Z.of_nat (length t)) D) as [|z0 zs] eqn:EL; [destruct D; [destruct Ht0 | discriminate]|]; rewrite <- EL; clear EL z0 zs.
    rewrite sum_Z, map_length; change (fold_right Nat.add 0 (map (@length A) D)) with (total D).
    unfold card; fold items; destruct (Nat.eqb_spec (length items) 0) as [|_]; [lia|].
    set (n := inject_Z (Z.of_nat (length D))); set (m := inject_Z (Z.of_nat (length items))); set (s := inject_Z (Z.of_nat (total D))).
    assert (Hn : (0 < n)%Q) by (apply inject_pos, HD); assert (Hm : (0 < m)%Q) by (apply inject_pos, Hpos).
    eexists; eexists; exists items; split; [reflexivity|]; split; [reflexivity|]; split; [apply NoDup_nodup|]; split; [exact Hitems|].
    split; [reflexivity|]; split; [reflexivity|]; split; [field; lra|]; split; [fold m; field; split; lra|].
    - intros Hnd; assert (Hs : 0 < total D <= length D * length items).
      { assert (Hle : forall t, In t D -> length t <= length items).
        { intros t Ht; apply NoDup_incl_length; [apply Hnd, Ht|]; intros x Hx; apply Hitems; exists t; auto. }
        clear -Hle Ht0 Hx0; unfold total; split.
        - clear Hle; clear items; induction D as [|t D IH]; [destruct Ht0|]; cbn [map fold_right]; destruct Ht0 as [->|Ht0]; [destruct t0; [destruct Hx0 | simpl; lia] | specialize (IH Ht0); lia].
        - clear Ht0 Hx0; clearbody items; induction D as [|t D IH]; simpl; [lia|].
          specialize (Hle t (or_introl eq_refl)) as H1; specialize (IH (fun u Hu => Hle u (or_intror Hu))); lia. }
      assert (Hs1 : (0 < s)%Q) by (apply inject_pos; lia).
      assert (Hs2 : (s <= n * m)%Q).
      { unfold s, n, m; rewrite <- inject_Z_mult, <- Zle_Qle; lia. }
      split.
      + apply Qlt_shift_div_l; [exact Hm|]; rewrite Qmult_0_l; apply Qlt_shift_div_l; [exact Hn|]; rewrite Qmult_0_l; exact Hs1.
      + apply Qle_shift_div_r; [exact Hm|]; rewrite Qmult_1_l; apply Qle_shift_div_r; [exact Hn|]; rewrite Qmult_comm; exact Hs2.
  Qed.
  (* ------------------------------------------------------------------- C64 *)
  (* [s] is the time between the first and the last occurrence of e *)
  Definition span (D : list (Z * A)) (e : A) (s : Z) : Prop :=
    exists first last, In (first, e) D /\ In (last, e) D /\ (forall t, In (t, e) D -> (first <= t <= last)%Z) /\ s = (last - first)%Z.
  Definition count (D : list (Z * A)) (e : A) : nat := length (filter (fun p => eqd (snd p) e) D).

  Lemma group_In D e t : In t (group D e) <-> In (t, e) D.
  Proof.
    unfold group; rewrite in_map_iff; split.
    - intros [[u f] [Eu Hin]]; apply filter_In in Hin; destruct Hin as [Hin Ef]; apply (proj1 (eqd_true _ _)) in Ef; simpl in *; subst; exact Hin.
    - intros Hin; exists (t, e); split; [reflexivity|]; apply filter_In; split; [exact Hin | apply eqd_refl].
  Qed.
  Lemma fold_max_spec l : forall x, In (fold_left Z.max l x) (x :: l) /\ forall t, In t (x :: l) -> (t <= fold_left Z.max l x)%Z.
  Proof.
    induction l as [|y l IH]; intros x; simpl; [split; [auto | intros t [->|[]]; lia]|].
    destruct (IH (Z.max x y)) as [I1 I2]; split.
    - destruct I1 as [E|Hin]; [rewrite <- E; destruct (Z.max_spec x y) as [[_ ->]|[_ ->]]; auto | auto].
    - pose proof (I2 _ (or_introl eq_refl)); intros t [->|[->|Hin]]; [lia | lia | apply I2; right; exact Hin].
  Qed.
  Lemma fold_min_spec l : forall x, In (fold_left Z.min l x) (x :: l) /\ forall t, In t (x :: l) -> (fold_left Z.min l x <= t)%Z.
  Proof.
    induction l as [|y l IH]; intros x; simpl; [split; [auto | intros t [->|[]]; lia]|].
    destruct (IH (Z.min x y)) as [I1 I2]; split.
    - destruct I1 as [E|Hin]; [rewrite <- E; destruct (Z.min_spec x y) as [[_ ->]|[_ ->]]; auto | auto].
    - pose proof (I2 _ (or_introl eq_refl)); intros t [->|[->|Hin]]; [lia | lia | apply I2; right; exact Hin].
  Qed.
  Lemma count_total (evs : list A) (D : list (Z * A)) : NoDup evs -> (forall p, In p D -> In (snd p) evs) ->
    fold_right Nat.add 0 (map (count D) evs) = length D.
  Proof.
    intros Hn; induction D as [|p D IH]; intros Hin.
    - clear; induction evs; simpl; auto.
    - cbn [length]; rewrite <- IH by (intros q Hq; apply Hin; right; exact Hq).
      specialize (Hin p (or_introl eq_refl)); clear IH; unfold count; cbn [filter].
      induction Hn as [|e evs He Hn IH]; [destruct Hin|]; cbn [map fold_right].
      destruct Hin as [->|Hin].
      + rewrite eqd_refl; cbn [length Nat.add]; f_equal; f_equal; f_equal; apply map_ext_in; intros f Hf.
        rewrite (proj2 (eqd_false (snd p) f)); [reflexivity | intros E; apply He; rewrite E; exact Hf].
      + assert (Hf : eqd (snd p) e = false) by (apply eqd_false; intros E; apply He; rewrite <- E; exact Hin).
        rewrite Hf, (IH Hin); lia.
  Qed.
  Lemma Forall2_map_self {B C} (R : B -> C -> Prop) (f : B -> C) l : (forall e, In e l -> R e (f e)) -> Forall2 R l (map f l).
  Proof. induction l as [|e l IH]; intros Hr; simpl; constructor; [apply Hr; left; reflexivity | apply IH; intros x Hx; apply Hr; right; exact Hx]. Qed.
  Theorem C64_describe_logs : forall D : list (Z * A), D <> [] ->
    exists evs spans avg pts, NoDup evs /\ (forall e, In e evs <-> exists t, In (t, e) D) /\ Forall2 (span D) evs spans /\
      l_events (describe_logs D) = length evs /\
      l_delta (describe_logs D) = Some avg /\ l_points (describe_logs D) = Some pts /\
      (avg * inject_Z (Z.of_nat (length evs)) == inject_Z (fold_right Z.add 0%Z spans))%Q /\
      (pts * inject_Z (Z.of_nat (length evs)) == inject_Z (Z.of_nat (length D)))%Q.
  Proof.
    intros D HD; unfold describe_logs, l_events, l_delta, l_points.
    assert (Hev : forall e, In e (events D) <-> exists t, In (t, e) D).
    { intros e; unfold events; rewrite nodup_In, in_map_iff; split; [intros [[t f] [E Hin]]; simpl in E; subst; exists t; exact Hin | intros [t Hin]; exists (t, e); auto]. }
    set (spans := map (fun g => (zmax g - zmin g)%Z) (map (group D) (events D))).
    assert (Hne : 0 < length (events D)).
    { destruct D as [|[t e] D]; [congruence|]; destruct (events ((t, e) :: D)) as [|f l] eqn:E; [|simpl; lia].
      exfalso; apply (proj2 (Hev e)); exists t; left; reflexivity. }
    assert (Hs : Forall2 (span D) (events D) spans).
    { unfold spans; rewrite map_map; apply Forall2_map_self; intros e He; apply Hev in He; destruct He as [t0 Ht0].
      assert (Hg : group D e <> []) by (intros E; apply group_In in Ht0; rewrite E in Ht0; destruct Ht0).
      destruct (group D e) as [|x l] eqn:E; [congruence|].
      destruct (fold_max_spec l x) as [M1 M2]; destruct (fold_min_spec l x) as [N1 N2].
      exists (zmin (x :: l)), (zmax (x :: l)); rewrite <- E in M1, M2, N1, N2; repeat split.
      - apply group_In; exact N1.
      - apply group_In; exact M1.
      - apply N2, group_In; assumption.
      - apply M2, group_In; assumption. }
    assert (Hlen : length (map (group D) (events D)) = length (events D)) by apply map_length.
    unfold mean; fold spans.
    assert (Hsl : length spans = length (events D)) by (unfold spans; rewrite !map_length; reflexivity).
    destruct spans as [|z zs] eqn:Esp; [simpl in Hsl; lia|]; rewrite <- Esp in *; clear Esp z zs.
    destruct (map (fun g => Z.of_nat (length g)) (map (group D) (events D))) as [|z zs] eqn:EL.
    { apply (f_equal (@length Z)) in EL; rewrite !map_length in EL; simpl in EL; lia. }
    rewrite <- EL; clear EL z zs; rewrite sum_Z, map_map, !map_length, Hsl.
    assert (Hc : fold_right Nat.add 0 (map (fun x => length (group D x)) (events D)) = length D).
    { rewrite <- (count_total (events D) D); [|apply NoDup_nodup|].
      - f_equal; apply map_ext; intros e; unfold group, count; apply map_length.
      - intros [t e] Hin; apply Hev; exists t; exact Hin. }
    rewrite Hc; pose proof (inject_pos _ Hne) as Hq.
    exists (events D), spans; eexists; eexists; split; [apply NoDup_nodup|]; split; [exact Hev|]; split; [exact Hs|].
    split; [reflexivity|]; split; [reflexivity|]; split; [reflexivity|]; split; field; lra.
  Qed.
End Describe.
Print Assumptions C34_describe.
Print Assumptions C64_describe_logs.
Example C34_case : describe [[1; 2; 3]; [2]; []; [3; 5]] = {| d_items := 4; d_transactions := 4; d_avg := Some (6 # 4)%Q; d_density := Some (6 # 16)%Q |}.
Proof. vm_compute. reflexivity. Qed.
Example C64_case : describe_logs [(1%Z, 7); (4%Z, 8); (9%Z, 7); (2%Z, 7)] = {| l_events := 2; l_delta := Some (8 # 2)%Q; l_points := Some (4 # 2)%Q |}.
Proof. vm_compute. reflexivity. Qed.

(* ------------------------------------------------------------------- C61 *)
(* the file: one line per transaction *)
Definition write_dat (sep : text) (D : list (list text)) : text := concat (map (fun t => join sep t ++ [nl]) D).
Definition plain (sep : text) (item : text) : Prop :=
  item <> [] /\ Forall (fun c => is_space c = false) item /\ exists c0 s, sep = c0 :: s /\ ~ In c0 item.

Lemma join_chars (P : char -> Prop) sep l : Forall P sep -> Forall (Forall P) l -> Forall P (join sep l).
Proof.
  intros Hs Hl; induction Hl as [|x l Hx Hl IH]; simpl; [constructor|].
  destruct l; [exact Hx|]; repeat (apply Forall_app; split); assumption.
Qed.
Lemma read_line sep t : t <> [] -> Forall (plain sep) t -> split_str sep (rstrip (join sep t)) = Ret t.
Proof.
  intros Hne Hp; rewrite join_last_nonspace; [|exact Hne | eapply Forall_impl; [|exact Hp]; intros x [H1 [H2 _]]; auto].
  apply split_join; [|exact Hne]; destruct t as [|x t]; [congruence|].
  inversion Hp as [|? ? [_ [_ [c0 [s [Es Hx]]]]] Hp']; subst; exists c0, s; split; [reflexivity|].
  constructor; [exact Hx|]; eapply Forall_impl; [|exact Hp'].
  intros y [_ [_ [c1 [s1 [E Hy]]]]]; injection E as <- <-; exact Hy.
Qed.
Lemma write_lines sep D : Forall (fun c => is_break c = false) sep -> (forall t, In t D -> Forall (plain sep) t) ->
  splitlines (universal (write_dat sep D)) = map (join sep) D.
Proof.
  intros Hs HD; unfold write_dat; rewrite <- (map_map (join sep) (fun l => l ++ [nl])); apply splitlines_concat.
  apply Forall_forall; intros l Hl; apply in_map_iff in Hl; destruct Hl as [t [<- Ht]]; apply join_chars; [exact Hs|].
  eapply Forall_impl; [|apply (HD t Ht)]; intros x [_ [Hx _]]; eapply Forall_impl; [|exact Hx]; apply break_is_space.
Qed.
Theorem C61_text : forall sep D, Forall (fun c => is_break c = false) sep ->
  (forall t, In t D -> t <> [] /\ Forall (plain sep) t) -> read_dat sep (write_dat sep D) = Ret D.
Proof.
  intros sep D Hs HD; unfold read_dat; rewrite write_lines; [|exact Hs | intros t Ht; apply HD, Ht].
  apply map_out_map; intros t Ht; destruct (HD t Ht); apply read_line; assumption.
Qed.
Theorem C61_int : forall c0 sep (D : list (list Z)), Forall (fun c => is_break c = false) (c0 :: sep) ->
  ~ is_digit c0 -> c0 <> minus_c -> (forall t, In t D -> t <> []) ->
  read_dat_int (c0 :: sep) (write_dat (c0 :: sep) (map (map str_z) D)) = Ret D.
Proof.
  intros c0 sep D Hs Hd Hm HD.
  assert (Hp : forall t : list Z, Forall (plain (c0 :: sep)) (map str_z t)).
  { intros t; apply Forall_forall; intros x Hx; apply in_map_iff in Hx; destruct Hx as [z [<- _]].
    split; [apply str_z_nonempty|]; split; [apply str_z_no_space|]; exists c0, sep; split; [reflexivity|].
    intros Hc; apply str_z_chars in Hc; tauto. }
  unfold read_dat_int; rewrite write_lines; [|exact Hs | intros t Ht; apply in_map_iff in Ht; destruct Ht as [u [<- _]]; apply Hp].
  rewrite map_map; apply (map_out_map _ (fun t => join (c0 :: sep) (map str_z t))); intros t Ht.
  rewrite read_line; [|specialize (HD t Ht); destruct t; [congruence | discriminate] | apply Hp].
  cbn [bind]; apply map_opt_map, parse_str_z.
Qed.
(* the last line need not end with a line break *)
Lemma write_lines_open sep D t : Forall (fun c => is_break c = false) sep -> t <> [] ->
  (forall u, In u (D ++ [t]) -> Forall (plain sep) u) ->
  splitlines (universal (write_dat sep D ++ join sep t)) = map (join sep) (D ++ [t]).
Proof.
  intros Hs Ht HD; unfold write_dat; rewrite <- (map_map (join sep) (fun l => l ++ [nl])), map_app; apply splitlines_open.
  - change [join sep t] with (map (join sep) [t]); rewrite <- map_app.
    apply Forall_forall; intros l Hl; apply in_map_iff in Hl; destruct Hl as [u [<- Hu]]; apply join_chars; [exact Hs|].
    eapply Forall_impl; [|apply (HD u Hu)]; intros x [_ [Hx _]]; eapply Forall_impl; [|exact Hx]; apply break_is_space.
  - destruct t as [|x t]; [congruence|].
    specialize (HD (x :: t) ltac:(apply in_or_app; right; left; reflexivity)); inversion HD as [|? ? [Hx _] _]; subst.
    simpl; destruct t; destruct x; simpl; congruence.
Qed.
Theorem C61_text_open : forall sep D t, Forall (fun c => is_break c = false) sep ->
  (forall u, In u (D ++ [t]) -> u <> [] /\ Forall (plain sep) u) -> read_dat sep (write_dat sep D ++ join sep t) = Ret (D ++ [t]).
Proof.
  intros sep D t Hs HD; unfold read_dat; rewrite write_lines_open; [|exact Hs | apply HD; apply in_or_app; right; left; reflexivity | intros u Hu; apply HD, Hu].
  apply map_out_map; intros u Hu; destruct (HD u Hu); apply read_line; assumption.
Qed.
Theorem C61_int_open : forall c0 sep (D : list (list Z)) t, Forall (fun c => is_break c = false) (c0 :: sep) ->
  ~ is_digit c0 -> c0 <> minus_c -> (forall u, In u (D ++ [t]) -> u <> []) ->
  read_dat_int (c0 :: sep) (write_dat (c0 :: sep) (map (map str_z) D) ++ join (c0 :: sep) (map str_z t)) = Ret (D ++ [t]).
Proof.
  intros c0 sep D t Hs Hd Hm HD.
  assert (Hp : forall t : list Z, Forall (plain (c0 :: sep)) (map str_z t)).
  { intros u; apply Forall_forall; intros x Hx; apply in_map_iff in Hx; destruct Hx as [z [<- _]].
    split; [apply str_z_nonempty|]; split; [apply str_z_no_space|]; exists c0, sep; split; [reflexivity|].
    intros Hc; apply str_z_chars in Hc; tauto. }
  unfold read_dat_int; rewrite write_lines_open; [| exact Hs
    | specialize (HD t ltac:(apply in_or_app; right; left; reflexivity)); destruct t; [congruence | discriminate]
    | change [map str_z t] with (map (map str_z) [t]); rewrite <- map_app; intros u Hu; apply in_map_iff in Hu; destruct Hu as [v [<- _]]; apply Hp].
  change [map str_z t] with (map (map str_z) [t]); rewrite <- map_app.
  rewrite map_map; apply (map_out_map _ (fun t => join (c0 :: sep) (map str_z t))); intros u Hu.
  rewrite read_line; [|specialize (HD u Hu); destruct u; [congruence | discriminate] | apply Hp].
  cbn [bind]; apply map_opt_map, parse_str_z.
Qed.
Print Assumptions C61_text_open.
Print Assumptions C61_int_open.
Print Assumptions C61_text.
Print Assumptions C61_int.
(* "12 -7\n3\n" *)
Example C61_case : write_dat [sp] (map (map str_z) [[12; -7]; [3]]%Z) = [49; 50; 32; 45; 55; 10; 51; 10]%N
  /\ read_dat_int [sp] [49; 50; 32; 45; 55; 10; 51; 10]%N = Ret [[12; -7]; [3]]%Z
  /\ read_dat [44]%N [97; 44; 98; 32; 10; 10; 99]%N = Ret [[[97]; [98]]; [[]]; [[99]]]%N.
Proof. repeat split; vm_compute; reflexivity. Qed.
