(* C50, C51, C52, C65: MDLP discretisation. *)
From Verif Require Import Prelude CheckModel LCMModel MDLPModel.
From Coq Require Import QArith Qround.
Local Open Scope nat_scope.

Lemma Qle_bool_false a b : Qle_bool a b = false <-> (b < a)%Q.
Proof.
  split; intros H.
  - apply Qnot_le_lt; intros Hle; apply Qle_bool_iff in Hle; congruence.
  - destruct (Qle_bool a b) eqn:E; [|reflexivity]; apply Qle_bool_iff in E; exfalso; apply (Qlt_not_le _ _ H E).
Qed.

(* ------------------------------------------------------------------ C52 *)
(* frequency of each label in a list of labels *)
Lemma freqs_spec y v : y <> [] -> v <= list_max y -> nth v (freqs y) 0%Q = ((Z.of_nat (count_occ Nat.eq_dec y v) # 1) / (Z.of_nat (length y) # 1))%Q.
Proof.
  intros Hy Hv; unfold freqs, bincount; destruct y as [|a y]; [congruence|].
  set (f := fun c => ((Z.of_nat c # 1) / (Z.of_nat (length (a :: y)) # 1))%Q); rewrite map_map.
  rewrite (nth_indep _ _ (f (count_occ Nat.eq_dec (a :: y) 0))) by (rewrite map_length, seq_length; lia).
  rewrite (map_nth (fun x => f (count_occ Nat.eq_dec (a :: y) x)) (List.seq 0 (S (list_max (a :: y)))) 0 v), seq_nth by lia; reflexivity.
Qed.
Section Cut.
  Variable entropy : list Q -> Q.
  Variable rnd : Q -> Q.
  Notation ce := (cut_entropy entropy rnd).
  Definition boundary (y : list nat) (i : nat) : Prop := nth (i - 1) y 0 <> nth i y 0.
  Definition best_among (y : list nat) (s e : nat) (seen : list nat) (st : option (Q * nat)) : Prop :=
    match st with
    | None => forall i, In i seen -> ~ boundary y i
    | Some (q, k) => q = ce y s e k /\ In k seen /\ boundary y k /\
        (forall i, In i seen -> boundary y i -> (q <= ce y s e i)%Q) /\ (forall i, In i seen -> i < k -> boundary y i -> (q < ce y s e i)%Q)
    end.
  Lemma cut_step_inv y s e seen idx st : (forall i, In i seen -> i < idx) -> best_among y s e seen st ->
    best_among y s e (seen ++ [idx]) (cut_step entropy rnd y s e st idx).
  Proof.
    intros Hlt Hst; unfold cut_step; destruct (Nat.eqb_spec (nth (idx - 1) y 0) (nth idx y 0)) as [Heq|Hne].
    - assert (Hnb : ~ boundary y idx) by (unfold boundary; intros Hb; congruence).
      destruct st as [[q k]|]; simpl in *.
      + destruct Hst as [H1 [H2 [H3 [H4 H5]]]]; split; [exact H1|]; split; [apply in_or_app; left; exact H2|]; split; [exact H3|]; split.
        * intros i Hi Hb; apply in_app_iff in Hi; destruct Hi as [Hi|[<-|[]]]; [apply H4; assumption | contradiction].
        * intros i Hi Hk Hb; apply in_app_iff in Hi; destruct Hi as [Hi|[<-|[]]]; [apply H5; assumption | contradiction].
      + intros i Hi; apply in_app_iff in Hi; destruct Hi as [Hi|[<-|[]]]; [apply Hst, Hi | exact Hnb].
    - assert (Hb : boundary y idx) by exact Hne; destruct st as [[q k]|]; simpl in Hst.
      + destruct Hst as [H1 [H2 [H3 [H4 H5]]]]; destruct (Qle_bool q (ce y s e idx)) eqn:E; simpl.
        * apply Qle_bool_iff in E; split; [exact H1|]; split; [apply in_or_app; left; exact H2|]; split; [exact H3|]; split.
          -- intros i Hi Hbi; apply in_app_iff in Hi; destruct Hi as [Hi|[<-|[]]]; [apply H4; assumption | exact E].
          -- intros i Hi Hk Hbi; apply in_app_iff in Hi; destruct Hi as [Hi|[<-|[]]]; [apply H5; assumption | apply Hlt in H2; lia].
        * apply Qle_bool_false in E; split; [reflexivity|]; split; [apply in_or_app; right; left; reflexivity|]; split; [exact Hb|]; split.
          -- intros i Hi Hbi; apply in_app_iff in Hi; destruct Hi as [Hi|[<-|[]]]; [|apply Qle_refl].
             apply Qlt_le_weak, Qlt_le_trans with q; [exact E | apply H4; assumption].
          -- intros i Hi Hk Hbi; apply in_app_iff in Hi; destruct Hi as [Hi|[<-|[]]]; [|lia].
             apply Qlt_le_trans with q; [exact E | apply H4; assumption].
      + simpl; split; [reflexivity|]; split; [apply in_or_app; right; left; reflexivity|]; split; [exact Hb|]; split.
        * intros i Hi Hbi; apply in_app_iff in Hi; destruct Hi as [Hi|[<-|[]]]; [destruct (Hst i Hi Hbi) | apply Qle_refl].
        * intros i Hi Hk Hbi; apply in_app_iff in Hi; destruct Hi as [Hi|[<-|[]]]; [destruct (Hst i Hi Hbi) | lia].
  Qed.
  Lemma cut_fold y s e n : forall a seen st, (forall i, In i seen -> i < a) -> best_among y s e seen st ->
    best_among y s e (seen ++ List.seq a n) (fold_left (cut_step entropy rnd y s e) (List.seq a n) st).
  Proof.
    induction n as [|n IH]; intros a seen st Hlt Hst; cbn [List.seq fold_left]; [rewrite app_nil_r; exact Hst|].
    replace (seen ++ a :: List.seq (S a) n) with ((seen ++ [a]) ++ List.seq (S a) n) by (rewrite <- app_assoc; reflexivity).
    apply IH; [|apply cut_step_inv; assumption].
    intros i Hi; apply in_app_iff in Hi; destruct Hi as [Hi|[<-|[]]]; [apply Hlt in Hi; lia | lia].
  Qed.
  (* whatever the rounding: the result is the first of the label changes with the smallest computed entropy *)
  Theorem C52_rounded : forall y start end_,
    (generate_cut_point entropy rnd y start end_ = None <-> forall i, start < i < end_ -> nth (i - 1) y 0 = nth i y 0) /\
    (forall k, generate_cut_point entropy rnd y start end_ = Some k ->
       start < k < end_ /\ nth (k - 1) y 0 <> nth k y 0 /\
       (forall i, start < i < end_ -> nth (i - 1) y 0 <> nth i y 0 -> (ce y start end_ k <= ce y start end_ i)%Q) /\
       (forall i, start < i < k -> nth (i - 1) y 0 <> nth i y 0 -> (ce y start end_ k < ce y start end_ i)%Q)).
  Proof.
    intros y s e; unfold generate_cut_point.
    pose proof (cut_fold y s e (e - (s + 1)) (s + 1) [] None ltac:(intros i []) ltac:(intros i [])) as H; cbn [app] in H.
    assert (Hin : forall i, In i (List.seq (s + 1) (e - (s + 1))) <-> s < i < e) by (intros i; rewrite in_seq; lia).
    destruct (fold_left _ _ _) as [[q k]|]; cbn [option_map snd]; simpl in H.
    - destruct H as [H1 [H2 [H3 [H4 H5]]]]; apply Hin in H2; split.
      + split; [discriminate|]; intros Hall; destruct H3; apply Hall, H2.
      + intros k' E; injection E as <-; split; [exact H2|]; split; [exact H3|]; rewrite <- H1; split.
        * intros i Hi Hb; apply H4; [apply Hin, Hi | exact Hb].
        * intros i Hi Hb; apply H5; [apply Hin; lia | lia | exact Hb].
    - split; [|discriminate]; split; [intros _|reflexivity].
      intros i Hi; destruct (Nat.eq_dec (nth (i - 1) y 0) (nth i y 0)) as [E|E]; [exact E|]; destruct (H i); [apply Hin, Hi | exact E].
  Qed.
End Cut.
Print Assumptions C52_rounded.
(* independent specification of the quantity being minimised *)
Definition weighted (H : list nat -> Q) (left right : list nat) : Q :=
  let n := length left + length right in
  (inject_Z (Z.of_nat (length left)) / inject_Z (Z.of_nat n) * H left + inject_Z (Z.of_nat (length right)) / inject_Z (Z.of_nat n) * H right)%Q.
Lemma slice_length {A} (l : list A) s e : s <= e <= length l -> length (slice l s e) = e - s.
Proof. intros Hse; unfold slice; rewrite firstn_length, skipn_length; lia. Qed.
(* the entropy is taken of the label frequencies: every label has its entry,
   every other entry is 0, and they sum to 1 *)
Theorem C52_frequencies : forall y, y <> [] ->
  (forall v, (nth v (freqs y) 0 == inject_Z (Z.of_nat (count_occ Nat.eq_dec y v)) / inject_Z (Z.of_nat (length y)))%Q) /\
  (fold_right Qplus 0 (freqs y) == 1)%Q.
Proof.
  intros y Hy; split.
  - intros v; destruct (le_lt_dec v (list_max y)) as [Hv|Hv].
    + rewrite freqs_spec by assumption; unfold inject_Z; reflexivity.
    + assert (E : count_occ Nat.eq_dec y v = 0).
      { apply count_occ_not_In; intros Hi; assert (Hle : list_max y <= list_max y) by lia.
        apply list_max_le in Hle; rewrite Forall_forall in Hle; apply Hle in Hi; lia. }
      rewrite E, nth_overflow; [unfold Qdiv; ring|].
      unfold freqs, bincount; rewrite !map_length, seq_length; destruct y; simpl in *; lia.
  - assert (Hs : forall l n, (forall x, In x l -> x < n) ->
        list_sum (map (count_occ Nat.eq_dec l) (List.seq 0 n)) = length l).
    { clear; induction l as [|a l IH]; intros n Hn.
      - simpl; assert (H0 : forall k, list_sum (map (fun _ : nat => 0) (List.seq k n)) = 0) by (induction n as [|n IHn]; intros k; simpl; auto; apply IHn; intros x []).
        apply H0.
      - assert (Hc : forall k m, list_sum (map (count_occ Nat.eq_dec (a :: l)) (List.seq k m))
                  = list_sum (map (count_occ Nat.eq_dec l) (List.seq k m)) + (if (k <=? a) && (a <? k + m) then 1 else 0)).
        { intros k m; revert k; induction m as [|m IHm]; intros k; cbn [List.seq map].
          - destruct (Nat.leb_spec k a), (Nat.ltb_spec a (k + 0)); simpl; lia.
          - cbn [list_sum fold_right]; change (fold_right Nat.add 0) with list_sum; rewrite IHm; cbn [count_occ].
            destruct (Nat.eq_dec a k) as [->|Hne].
            + destruct (Nat.leb_spec (S k) k), (Nat.leb_spec k k), (Nat.ltb_spec k (k + S m)); cbn [andb]; lia.
            + destruct (Nat.leb_spec (S k) a), (Nat.leb_spec k a), (Nat.ltb_spec a (S k + m)), (Nat.ltb_spec a (k + S m)); cbn [andb]; lia. }
        rewrite Hc, IH by (intros x Hx; apply Hn; right; exact Hx).
        specialize (Hn a (or_introl eq_refl)); destruct (Nat.leb_spec 0 a), (Nat.ltb_spec a (0 + n)); simpl; lia. }
    assert (Hq : forall d l, (fold_right Qplus 0 (map (fun c => (Z.of_nat c # 1) / d) l) == (Z.of_nat (list_sum l) # 1) / d)%Q).
    { intros d; induction l as [|c l IH]; [simpl; unfold Qdiv; ring|].
      cbn [map fold_right]; rewrite IH; change (list_sum (c :: l)) with (c + list_sum l); rewrite Nat2Z.inj_add.
      change (Z.of_nat c + Z.of_nat (list_sum l) # 1)%Q with (inject_Z (Z.of_nat c + Z.of_nat (list_sum l))).
      rewrite inject_Z_plus; unfold inject_Z, Qdiv; ring. }
    unfold freqs, bincount; rewrite Hq; destruct y as [|a y]; [congruence|].
    rewrite Hs.
    + field; unfold Qeq; simpl; lia.
    + intros x Hx; assert (Hle : list_max (a :: y) <= list_max (a :: y)) by lia.
      apply list_max_le in Hle; rewrite Forall_forall in Hle; apply Hle in Hx; lia.
Qed.
Print Assumptions C52_frequencies.
Theorem C52_cut_point : forall entropy y start end_, end_ <= length y ->
  let H := fun l => entropy (freqs l) in
  let g := generate_cut_point entropy (fun q => q) y start end_ in
  let w := fun i => weighted H (slice y start i) (slice y i end_) in
  let change := fun i => start < i < end_ /\ nth (i - 1) y 0 <> nth i y 0 in
  (g = None <-> forall i, ~ change i) /\
  (forall k, g = Some k -> change k /\ (forall i, change i -> (w k <= w i)%Q) /\ (forall i, change i -> i < k -> (w k < w i)%Q)).
Proof.
  intros entropy y s e He H g w change.
  assert (Hw : forall i, s < i < e -> (w i == cut_entropy entropy (fun q => q) y s e i)%Q).
  { intros i Hi; unfold w, weighted, cut_entropy, entropy_nb_ones, qnat, H; cbn [fst].
    rewrite !slice_length by lia; replace (i - s + (e - i)) with (e - s) by lia; unfold inject_Z; ring. }
  destruct (C52_rounded entropy (fun q => q) y s e) as [H1 H2]; fold g in H1, H2; split.
  - rewrite H1; split.
    + intros Hall i [Hi Hc]; apply Hc, Hall, Hi.
    + intros Hall i Hi; destruct (Nat.eq_dec (nth (i - 1) y 0) (nth i y 0)) as [E|E]; [exact E | destruct (Hall i); split; assumption].
  - intros k Hk; destruct (H2 k Hk) as [K1 [K2 [K3 K4]]]; split; [split; assumption|]; split.
    + intros i [Hi Hc]; rewrite !Hw by assumption; apply K3; assumption.
    + intros i [Hi Hc] Hlt; rewrite !Hw by assumption; apply K4; [lia | exact Hc].
Qed.
Print Assumptions C52_cut_point.
(* with 1 - sum of squares standing for the entropy; 2 and 4 tie here, the first wins *)
Definition gini (l : list Q) : Q := (1 - fold_right (fun p a => p * p + a) 0 l)%Q.
Example C52_case : generate_cut_point gini (fun q => q) [0; 0; 1; 0; 1; 1; 1; 2] 0 8 = Some 2 /\ generate_cut_point gini (fun q => q) [3; 3; 3] 0 3 = None.
Proof. split; vm_compute; reflexivity. Qed.

(* ---------------------------------------------------- the test a cut must pass *)
(* the criterion of Fayyad and Irani, with exact arithmetic: the gain of the cut against its price; the numbers
   of classes are those that occur *)
Definition classes (y : list nat) : nat := length (nodup Nat.eq_dec y).
Definition q (n : nat) : Q := inject_Z (Z.of_nat n).
Definition pays (H : list nat -> Q) (log2 : Z -> Q) (left right : list nat) : Prop :=
  let y := left ++ right in
  let gain := (H y - weighted H left right)%Q in
  let delta := (log2 (3 ^ Z.of_nat (classes y) - 2)%Z - (q (classes y) * H y - q (classes left) * H left - q (classes right) * H right))%Q in
  ((log2 (Z.of_nat (length y) - 1)%Z + delta) / q (length y) < gain)%Q.
Lemma positive_freqs y : length (filter (fun f => negb (Qeq_bool f 0)) (freqs y)) = classes y.
Proof.
  destruct y as [|a y']; [reflexivity|]. set (y := a :: y'). unfold classes, freqs, bincount.
  assert (Hy : y <> []) by discriminate. assert (Hlen : (0 < length y)%nat) by (simpl; lia).
  set (n := match y with [] => O | _ => S (list_max y) end). assert (Hn : n = S (list_max y)) by reflexivity. clearbody n.
  rewrite map_map.
  assert (Hf : forall l, length (filter (fun f => negb (Qeq_bool f 0)) (map (fun v => (Z.of_nat (count_occ Nat.eq_dec y v) # 1) / (Z.of_nat (length y) # 1))%Q l))
             = length (filter (fun v => if in_dec Nat.eq_dec v y then true else false) l)).
  { induction l as [|v l IH]; [reflexivity|]. cbn [map filter].
    assert (E : negb (Qeq_bool ((Z.of_nat (count_occ Nat.eq_dec y v) # 1) / (Z.of_nat (length y) # 1)) 0) = if in_dec Nat.eq_dec v y then true else false).
    { destruct (in_dec Nat.eq_dec v y) as [Hv|Hv].
      - apply negb_true_iff, not_true_iff_false. intros K. apply Qeq_bool_iff in K. apply (count_occ_In Nat.eq_dec) in Hv.
        assert (Hd : ~ (Z.of_nat (length y) # 1 == 0)%Q) by (unfold Qeq; cbn [Qnum Qden]; lia).
        assert (Hz : (Z.of_nat (count_occ Nat.eq_dec y v) # 1 == 0)%Q).
        { rewrite <- (Qmult_div_r (Z.of_nat (count_occ Nat.eq_dec y v) # 1) _ Hd), K. ring. }
        unfold Qeq in Hz. cbn [Qnum Qden] in Hz. rewrite Z.mul_1_r in Hz. lia.
      - apply negb_false_iff, Qeq_bool_iff. apply (count_occ_not_In Nat.eq_dec) in Hv. rewrite Hv. unfold Qdiv. ring. }
    rewrite E. destruct (in_dec Nat.eq_dec v y); cbn [length]; congruence. }
  rewrite Hf. clear Hf. apply Permutation_length, NoDup_Permutation.
  - apply NoDup_filter, seq_NoDup.
  - apply NoDup_nodup.
  - intros v. rewrite filter_In, nodup_In, in_seq. split.
    + intros [_ E]. destruct (in_dec Nat.eq_dec v y); [assumption | discriminate].
    + intros Hv. split; [|destruct (in_dec Nat.eq_dec v y); tauto]. rewrite Hn. split; [lia|].
      assert (Hle : list_max y <= list_max y) by lia. apply list_max_le in Hle. rewrite Forall_forall in Hle. apply Hle in Hv. lia.
Qed.
Theorem C52_criterion : forall entropy log2 left right, left <> [] -> right <> [] ->
  evaluate entropy (fun x => x) log2 left right (left ++ right) = true <-> pays (fun l => entropy (freqs l)) log2 left right.
Proof.
  intros entropy log2 left right Hl Hr. unfold evaluate, pays, entropy_nb_ones. rewrite !positive_freqs, negb_true_iff.
  assert (Hn : ~ (qnat (length (left ++ right)) == 0)%Q).
  { unfold qnat, Qeq. rewrite app_length. destruct left; [congruence|]. simpl. lia. }
  unfold weighted. rewrite <- app_length. unfold q. change (fun n : nat => inject_Z (Z.of_nat n)) with qnat.
  change (inject_Z (Z.of_nat (length (left ++ right)))) with (qnat (length (left ++ right))).
  change (inject_Z (Z.of_nat (length left))) with (qnat (length left)).
  change (inject_Z (Z.of_nat (length right))) with (qnat (length right)).
  change (inject_Z (Z.of_nat (classes (left ++ right)))) with (qnat (classes (left ++ right))).
  change (inject_Z (Z.of_nat (classes left))) with (qnat (classes left)).
  change (inject_Z (Z.of_nat (classes right))) with (qnat (classes right)).
  set (n := qnat (length (left ++ right))) in *. clearbody n.
  match goal with |- Qle_bool ?a ?b = false <-> (?c < ?d)%Q => assert (E1 : (a == d)%Q) by (field; exact Hn); assert (E2 : (b == c)%Q) by (field; exact Hn) end.
  rewrite <- E1, <- E2. rewrite <- not_true_iff_false, Qle_bool_iff. split; [apply Qnot_le_lt | apply Qlt_not_le].
Qed.
Print Assumptions C52_criterion.
Example C52_criterion_case :
  let log2 := fun z => inject_Z (Z.log2 z) in
  evaluate gini (fun x => x) log2 [0; 0; 3; 0] [3; 0; 3; 3] ([0; 0; 3; 0] ++ [3; 0; 3; 3]) = false /\
  evaluate gini (fun x => x) log2 (repeat 0 40) (repeat 5 40) (repeat 0 40 ++ repeat 5 40) = true.
Proof. split; vm_compute; reflexivity. Qed.

(* ------------------------------------------------------------------ C50 *)
Definition inQ (c : Q) (l : list Q) : Prop := exists d, In d l /\ (c == d)%Q.
Lemma inQ_add c d l : inQ c (qset_add d l) <-> (c == d)%Q \/ inQ c l.
Proof.
  unfold qset_add, inQ; destruct (existsb (Qeq_bool d) l) eqn:E.
  - split; [right; assumption|]; intros [H|H]; [|exact H]; apply existsb_exists in E; destruct E as [x [Hx E]]; apply Qeq_bool_iff in E.
    exists x; split; [exact Hx | rewrite H; exact E].
  - split.
    + intros [x [[<-|Hx] Hc]]; [left; exact Hc | right; exists x; split; assumption].
    + intros [H|[x [Hx Hc]]]; [exists d; split; [left; reflexivity | exact H] | exists x; split; [right; exact Hx | exact Hc]].
Qed.
Definition NoDupQ (l : list Q) : Prop := ForallOrdPairs (fun a b => ~ (a == b)%Q) l.
Lemma NoDupQ_add d l : NoDupQ l -> NoDupQ (qset_add d l).
Proof.
  intros H; unfold qset_add; destruct (existsb (Qeq_bool d) l) eqn:E; [exact H|]; constructor; [|exact H].
  apply Forall_forall; intros x Hx Heq; apply Qeq_bool_iff in Heq; assert (existsb (Qeq_bool d) l = true) by (apply existsb_exists; exists x; split; assumption); congruence.
Qed.
Lemma NoDupQ_perm l l' : Permutation l l' -> NoDupQ l -> NoDupQ l'.
Proof.
  induction 1 as [|x l l' Hp IH|x y l|l l' l'' H1 IH1 H2 IH2]; intros Hn.
  - exact Hn.
  - inversion Hn as [|? ? Hx Hl]; subst; constructor; [|apply IH, Hl]; rewrite Forall_forall in *; intros z Hz; apply Hx; eapply Permutation_in; [symmetry; exact Hp | exact Hz].
  - inversion Hn as [|? ? Hy Hl]; subst; inversion Hl as [|? ? Hx Hl']; subst; inversion Hy as [|? ? Hyx Hy']; subst; constructor; [|constructor; assumption].
    constructor; [intros E; apply Hyx; symmetry; exact E | exact Hx].
  - apply IH2, IH1, Hn.
Qed.
Lemma sorted_strict l : StronglySorted (le_rel Qle_bool) l -> NoDupQ l -> StronglySorted Qlt l.
Proof.
  induction 1 as [|x l Hs IH Hx]; intros Hn; [constructor|]; inversion Hn as [|? ? Hd Hn']; subst; constructor; [apply IH, Hn'|].
  rewrite Forall_forall in *; intros y Hy; specialize (Hx y Hy); apply Qle_bool_iff in Hx; apply Qle_lteq in Hx; destruct Hx as [Hx|Hx]; [exact Hx|].
  destruct (Hd y Hy Hx).
Qed.

Section Fit.
  Variable entropy : list Q -> Q.
  Variable rnd : Q -> Q.
  Variable better : list nat -> list nat -> list nat -> bool.
  Notation gen := (generate_cut_point entropy rnd).
  (* an interval is kept when it has no label change, or the best cut fails the entropy test *)
  Definition kept (y : list nat) (s e : nat) : Prop :=
    match gen y s e with None => True | Some k => better (slice y s k) (slice y k e) (slice y s e) = false end.
  Inductive boundaries (y : list nat) : nat -> nat -> list nat -> Prop :=
  | b_leaf s e : kept y s e -> boundaries y s e []
  | b_split s e k b1 b2 : gen y s e = Some k -> better (slice y s k) (slice y k e) (slice y s e) = true ->
      boundaries y s k b1 -> boundaries y k e b2 -> boundaries y s e (b1 ++ k :: b2).
  Lemma boundaries_exist y : forall n s e, e - s <= n -> exists b, boundaries y s e b.
  Proof.
    induction n as [|n IH]; intros s e Hn.
    - exists []; constructor; unfold kept; destruct (gen y s e) as [k|] eqn:E; [|exact I].
      destruct (C52_rounded entropy rnd y s e) as [_ H2]; destruct (H2 k E) as [Hk _]; lia.
    - destruct (gen y s e) as [k|] eqn:E.
      + destruct (better (slice y s k) (slice y k e) (slice y s e)) eqn:Eb.
        * destruct (C52_rounded entropy rnd y s e) as [_ H2]; destruct (H2 k E) as [Hk _].
          destruct (IH s k) as [b1 H1']; [lia|]; destruct (IH k e) as [b2 H2']; [lia|]; exists (b1 ++ k :: b2); econstructor; eassumption.
        * exists []; constructor; unfold kept; rewrite E; exact Eb.
      + exists []; constructor; unfold kept; rewrite E; exact I.
  Qed.
  Lemma SS_app (b1 b2 : list nat) k : StronglySorted lt b1 -> StronglySorted lt b2 -> (forall i, In i b1 -> i < k) -> (forall i, In i b2 -> k < i) -> StronglySorted lt (b1 ++ k :: b2).
  Proof.
    induction 1 as [|x b1 Hs IH Hx]; intros H2 Hl Hr; cbn [app].
    - constructor; [exact H2 | apply Forall_forall, Hr].
    - constructor; [apply IH; [exact H2 | intros i Hi; apply Hl; right; exact Hi | exact Hr]|].
      apply Forall_app; split; [exact Hx|]; constructor; [apply Hl; left; reflexivity|]; apply Forall_forall; intros i Hi; apply Hr in Hi; specialize (Hl x (or_introl eq_refl)); lia.
  Qed.
  Lemma boundaries_spec y s e b : boundaries y s e b -> s < e ->
    StronglySorted lt b /\ (forall i, In i b -> s < i < e /\ nth (i - 1) y 0 <> nth i y 0) /\
    (forall l1 p q l2, s :: b ++ [e] = l1 ++ p :: q :: l2 -> kept y p q) /\ length b < e - s.
  Proof.
    induction 1 as [s e Hk|s e k b1 b2 Hg Hb H1 IH1 H2 IH2]; intros Hse.
    - split; [constructor|]; split; [intros i []|]; split; [|simpl; lia].
      intros l1 p q l2 E; destruct l1 as [|a [|b l1]]; cbn [app] in E; [injection E; intros; subst; exact Hk | discriminate | destruct l1; discriminate].
    - destruct (C52_rounded entropy rnd y s e) as [_ G]; destruct (G k Hg) as [[K1 K2] [K3 _]].
      destruct (IH1 K1) as [A1 [A2 [A3 A4]]]; destruct (IH2 K2) as [B1 [B2 [B3 B4]]].
      split; [|split; [|split]].
      + apply SS_app; [exact A1 | exact B1 | intros i Hi; apply A2, Hi | intros i Hi; apply B2, Hi].
      + intros i Hi; apply in_app_iff in Hi; destruct Hi as [Hi|[<-|Hi]].
        * destruct (A2 i Hi) as [? ?]; split; [lia | assumption].
        * split; [lia | exact K3].
        * destruct (B2 i Hi) as [? ?]; split; [lia | assumption].
      + intros l1 p q l2 E.
        (* the list is (s :: b1) ++ [k] ++ (b2 ++ [e]) *)
        assert (E' : (s :: b1) ++ k :: (b2 ++ [e]) = l1 ++ p :: q :: l2) by (rewrite <- E; cbn [app]; rewrite <- app_assoc; reflexivity).
        clear E; destruct (le_lt_dec (length (s :: b1)) (length l1)) as [Hle|Hlt].
        * assert (Hsp : exists l1', l1 = (s :: b1) ++ l1' /\ k :: b2 ++ [e] = l1' ++ p :: q :: l2).
          { exists (skipn (length (s :: b1)) l1).
            assert (F1 : firstn (length (s :: b1)) (l1 ++ p :: q :: l2) = s :: b1) by (rewrite <- E', firstn_app, Nat.sub_diag, firstn_all; cbn [firstn]; rewrite app_nil_r; reflexivity).
            assert (F2 : skipn (length (s :: b1)) (l1 ++ p :: q :: l2) = k :: b2 ++ [e]) by (rewrite <- E', skipn_app, Nat.sub_diag, skipn_all; reflexivity).
            rewrite firstn_app in F1; replace (length (s :: b1) - length l1) with 0 in F1 by lia; cbn [firstn] in F1; rewrite app_nil_r in F1.
            rewrite skipn_app in F2; replace (length (s :: b1) - length l1) with 0 in F2 by lia; cbn [skipn] in F2.
            split; [rewrite <- F1 at 1; symmetry; apply firstn_skipn | symmetry; exact F2]. }
          destruct Hsp as [l1' [_ E2]]; apply (B3 l1' p q l2 E2).
        * apply (A3 l1 p q (firstn (length b1 - length l1) l2)).
          assert (F1 : firstn (length (s :: b1) + 1) (l1 ++ p :: q :: l2) = (s :: b1) ++ [k]).
          { rewrite <- E', firstn_app; replace (length (s :: b1) + 1 - length (s :: b1)) with 1 by lia; rewrite firstn_all2 by lia; reflexivity. }
          cbn [length] in *; rewrite firstn_app in F1; rewrite firstn_all2 in F1 by lia.
          replace (S (length b1) + 1 - length l1) with (S (S (length b1 - length l1))) in F1 by lia; cbn [firstn app] in F1.
          symmetry; exact F1.
      + rewrite app_length; cbn [length]; lia.
  Qed.

  (* ---------------------------------------------------------- the loop *)
  Definition adds (X : list Q) (it : nat * nat * list nat) (c : Q) : Prop :=
    let '(s, e, b) := it in exists i, In i (s :: b ++ [e]) /\ i <> 0 /\ i <> length X /\ (c == mid X i)%Q.
  Definition work (items : list (nat * nat * list nat)) : nat := fold_right (fun it a => 2 * length (snd it) + 1 + a) 0 items.
  Lemma loop_spec X y : forall fuel items cuts, work items <= fuel ->
    Forall (fun it => boundaries y (fst (fst it)) (snd (fst it)) (snd it) /\ fst (fst it) < snd (fst it) <= length X) items -> NoDupQ cuts ->
    exists cuts', mdlp_loop entropy rnd better fuel X y (map fst items) cuts = Some cuts' /\ NoDupQ cuts' /\
      (forall c, inQ c cuts' <-> inQ c cuts \/ exists it, In it items /\ adds X it c).
  Proof.
    induction fuel as [|f IH]; intros items cuts Hf Hall Hn.
    - destruct items as [|it items]; [|simpl in Hf; lia]; exists cuts; split; [reflexivity|]; split; [exact Hn|].
      intros c; split; [left; assumption | intros [H|[it [[] _]]]; exact H].
    - destruct items as [|[[s e] b] items].
      { exists cuts; split; [reflexivity|]; split; [exact Hn|].
        intros c; split; [left; assumption | intros [H|[it [[] _]]]; exact H]. }
      inversion Hall as [|? ? [Hb Hse] Hall']; subst; cbn [fst snd] in Hb, Hse; cbn [map fst mdlp_loop].
      cbn [work fold_right snd] in Hf; fold (work items) in Hf.
      inversion Hb as [s' e' Hk|s' e' k b1 b2 Hg Hbet H1 H2]; subst.
      + (* closed *)
        assert (Hcl : NoDupQ (close_interval X s e cuts) /\ forall c, inQ c (close_interval X s e cuts) <-> inQ c cuts \/ adds X (s, e, []) c).
        { unfold close_interval, adds; split.
          - destruct (s =? 0), (e =? length X); repeat apply NoDupQ_add; exact Hn.
          - intros c; destruct (Nat.eqb_spec s 0) as [Es|Es], (Nat.eqb_spec e (length X)) as [Ee|Ee]; rewrite ?inQ_add; split.
            + auto.
            + intros [H|[i [[<-|[<-|[]]] [? [? _]]]]]; [exact H | congruence | congruence].
            + intros [H|H]; [right; exists e; split; [right; left; reflexivity|]; split; [lia | split; [exact Ee | exact H]] | left; exact H].
            + intros [H|[i [[<-|[<-|[]]] [? [? H]]]]]; [right; exact H | congruence | left; exact H].
            + intros [H|H]; [right; exists s; split; [left; reflexivity|]; split; [exact Es | split; [lia | exact H]] | left; exact H].
            + intros [H|[i [[<-|[<-|[]]] [? [? H]]]]]; [right; exact H | left; exact H | congruence].
            + intros [H|[H|H]]; [right; exists e; split; [right; left; reflexivity|]; split; [lia | split; [exact Ee | exact H]] | right; exists s; split; [left; reflexivity|]; split; [exact Es | split; [lia | exact H]] | left; exact H].
            + intros [H|[i [[<-|[<-|[]]] [? [? H]]]]]; [right; right; exact H | right; left; exact H | left; exact H]. }
        destruct Hcl as [Hc1 Hc2].
        destruct (IH items (close_interval X s e cuts)) as [cuts' [E1 [E2 E3]]]; [lia | exact Hall' | exact Hc1|].
        exists cuts'; split; [|split; [exact E2|]].
        * unfold kept in Hk; destruct (generate_cut_point entropy rnd y s e); [rewrite Hk|]; exact E1.
        * intros c; rewrite E3, Hc2; split.
          -- intros [[H|H]|[it [Hi H]]]; [left; exact H | right; exists (s, e, []); split; [left; reflexivity | exact H] | right; exists it; split; [right; exact Hi | exact H]].
          -- intros [H|[it [[<-|Hi] H]]]; [left; left; exact H | left; right; exact H | right; exists it; split; assumption].
      + (* split *)
        destruct (C52_rounded entropy rnd y s e) as [_ G]; destruct (G k Hg) as [[K1 K2] _]; rewrite Hg, Hbet.
        rewrite app_length in Hf; cbn [length] in Hf.
        destruct (IH ((k, e, b2) :: (s, k, b1) :: items) cuts) as [cuts' [E1 [E2 E3]]]; [cbn [work fold_right snd]; fold (work items); lia | | exact Hn|].
        { constructor; [cbn [fst snd]; split; [exact H2 | lia]|]; constructor; [cbn [fst snd]; split; [exact H1 | lia] | exact Hall']. }
        exists cuts'; split; [exact E1|]; split; [exact E2|].
        intros c; rewrite E3; apply or_iff_compat_l; split.
        * intros [it [[<-|[<-|Hi]] H]].
          -- exists (s, e, b1 ++ k :: b2); split; [left; reflexivity|]; destruct H as [i [Hi H]]; exists i; split; [|exact H].
             right; apply in_app_iff; cbn [app] in Hi; destruct Hi as [<-|Hi]; [left; apply in_or_app; right; left; reflexivity|].
             apply in_app_iff in Hi; destruct Hi as [Hi|Hi]; [left; apply in_or_app; right; right; exact Hi | right; exact Hi].
          -- exists (s, e, b1 ++ k :: b2); split; [left; reflexivity|]; destruct H as [i [Hi H]]; exists i; split; [|exact H].
             destruct Hi as [<-|Hi]; [left; reflexivity|]; right; apply in_app_iff; left; apply in_app_iff in Hi; apply in_or_app; destruct Hi as [Hi|[<-|[]]]; [left; exact Hi | right; left; reflexivity].
          -- exists it; split; [right; exact Hi | exact H].
        * intros [it [[<-|Hi] H]].
          -- destruct H as [i [Hi H]]; destruct Hi as [<-|Hi]; [exists (s, k, b1); split; [right; left; reflexivity|]; exists s; split; [left; reflexivity | exact H]|].
             apply in_app_iff in Hi; destruct Hi as [Hi|Hi].
             ++ apply in_app_iff in Hi; destruct Hi as [Hi|[<-|Hi]].
                ** exists (s, k, b1); split; [right; left; reflexivity|]; exists i; split; [right; apply in_or_app; left; exact Hi | exact H].
                ** exists (k, e, b2); split; [left; reflexivity|]; exists k; split; [left; reflexivity | exact H].
                ** exists (k, e, b2); split; [left; reflexivity|]; exists i; split; [right; apply in_or_app; left; exact Hi | exact H].
             ++ exists (k, e, b2); split; [left; reflexivity|]; exists i; split; [right; apply in_or_app; right; exact Hi | exact H].
          -- exists it; split; [right; right; exact Hi | exact H].
  Qed.
  (* fit always ends, within two steps per value; the intervals it keeps partition the sorted values, each
     boundary between two of them lies where the label changes, and the cut points are exactly the midpoints
     at these boundaries, in strictly increasing order. *)
  Theorem C50_fit : forall fuel X0 y0 order, X0 <> [] -> length y0 = length X0 -> Permutation order (List.seq 0 (length X0)) ->
    let X := map (fun i => nth i X0 0%Q) order in
    let y := map (fun i => nth i y0 0) order in
    StronglySorted Qle X -> 2 * length X0 <= fuel ->
    exists cuts b, mdlp_fit entropy rnd better fuel X0 y0 order = Some cuts /\
      StronglySorted Qlt cuts /\ StronglySorted lt b /\
      (forall i, In i b -> 0 < i < length X /\ nth (i - 1) y 0 <> nth i y 0) /\
      (forall l1 p q l2, 0 :: b ++ [length X] = l1 ++ p :: q :: l2 -> kept y p q) /\
      (forall c, inQ c cuts <-> exists i, In i b /\ (c == (nth (i - 1) X 0%Q + nth i X 0%Q) / (2 # 1))%Q) /\
      (forall c, In c cuts -> exists i, In i b /\ (nth (i - 1) X 0%Q <= c <= nth i X 0%Q)%Q).
  Proof.
    intros fuel X0 y0 order Hne Hy Hp X y Hs Hf.
    assert (HlX : length X = length X0) by (unfold X; rewrite map_length, (Permutation_length Hp), seq_length; reflexivity).
    assert (Hpos : 0 < length X) by (destruct X0; [congruence | simpl in HlX; lia]).
    destruct (boundaries_exist y (length X) 0 (length X)) as [b Hb]; [lia|].
    destruct (boundaries_spec y 0 (length X) b Hb Hpos) as [B1 [B2 [B3 B4]]].
    destruct (loop_spec X y fuel [(0, length X, b)] []) as [cs [E1 [E2 E3]]].
    - simpl; lia.
    - constructor; [cbn [fst snd]; split; [exact Hb | lia] | constructor].
    - constructor.
    - assert (Hcs : forall c, inQ c (sort Qle_bool cs) <-> exists i, In i b /\ (c == mid X i)%Q).
      { intros c; assert (Hiff : inQ c (sort Qle_bool cs) <-> inQ c cs).
        { unfold inQ; split; intros [d [Hd Hc]]; exists d; (split; [|exact Hc]); eapply Permutation_in; try exact Hd; [apply sort_perm | symmetry; apply sort_perm]. }
        rewrite Hiff, E3; split.
        - intros [[d [[] _]]|[it [[<-|[]] [i [Hi [H1 [H2 H3]]]]]]]; exists i; split; [|exact H3].
          destruct Hi as [<-|Hi]; [congruence|]; apply in_app_iff in Hi; destruct Hi as [Hi|[<-|[]]]; [exact Hi | congruence].
        - intros [i [Hi Hc]]; right; exists (0, length X, b); split; [left; reflexivity|]; exists i; destruct (B2 i Hi) as [? _]; split; [right; apply in_or_app; left; exact Hi|].
          split; [lia | split; [lia | exact Hc]]. }
      exists (sort Qle_bool cs), b; split; [|split; [|split; [exact B1 | split; [exact B2 | split; [exact B3 | split]]]]].
      + unfold mdlp_fit; fold X y; destruct X as [|x0 X'] eqn:EX; [simpl in Hpos; lia|].
        change [(0, length (x0 :: X'))] with (map fst [(0, length (x0 :: X'), b)]); rewrite E1; reflexivity.
      + apply sorted_strict.
        * apply sort_sorted; [intros a c; rewrite !Qle_bool_iff; destruct (Qlt_le_dec a c); [left; apply Qlt_le_weak; assumption | right; assumption]
                             | intros a c d; rewrite !Qle_bool_iff; apply Qle_trans].
        * eapply NoDupQ_perm; [symmetry; apply sort_perm | exact E2].
      + exact Hcs.
      + intros c Hc; destruct (proj1 (Hcs c)) as [i [Hi Ec]]; [exists c; split; [exact Hc | reflexivity]|].
        exists i; split; [exact Hi|]; destruct (B2 i Hi) as [Hi' _].
        assert (Hle : (nth (i - 1) X 0%Q <= nth i X 0%Q)%Q).
        { assert (G : forall l, StronglySorted Qle l -> forall j, S j < length l -> (nth j l 0%Q <= nth (S j) l 0%Q)%Q).
          { clear; induction 1 as [|x l Hs IH Hx]; intros j Hj; simpl in Hj; [lia|]; destruct j as [|j].
            - cbn [nth]; rewrite Forall_forall in Hx; apply Hx, nth_In; lia.
            - change (nth j l 0%Q <= nth (S j) l 0%Q)%Q; apply IH; lia. }
          specialize (G X Hs (i - 1) ltac:(lia)); replace (S (i - 1)) with i in G by lia; exact G. }
        unfold mid in Ec; set (u := nth (i - 1) X 0%Q) in *; set (v := nth i X 0%Q) in *; clearbody u v.
        assert (Hd : (c * (2 # 1) == u + v)%Q) by (rewrite Ec; field).
        split.
        * apply (Qmult_le_r _ _ (2 # 1)); [reflexivity|]; rewrite Hd; setoid_replace (u * (2 # 1))%Q with (u + u)%Q by ring; apply Qplus_le_r, Hle.
        * apply (Qmult_le_r _ _ (2 # 1)); [reflexivity|]; rewrite Hd; setoid_replace (v * (2 # 1))%Q with (v + v)%Q by ring; apply Qplus_le_l, Hle.
  Qed.
End Fit.
Print Assumptions C50_fit.
Definition demo_X : list Q := [(9 # 1)%Q; (1 # 1)%Q; (2 # 1)%Q; (7 # 1)%Q; (3 # 1)%Q; (8 # 1)%Q; (20 # 1)%Q; (30 # 1)%Q].
Definition demo_y : list nat := [1; 0; 0; 1; 0; 1; 2; 2].
Definition demo_order : list nat := [1; 2; 4; 3; 5; 0; 6; 7].
Example C50_case : Permutation demo_order (List.seq 0 8) /\ StronglySorted Qle (map (fun i => nth i demo_X 0%Q) demo_order) /\
  option_map (map Qred) (mdlp_fit gini (fun q => q) (fun l r w => 3 <=? length w) 16 demo_X demo_y demo_order) = Some [(5 # 1)%Q; (29 # 2)%Q].
Proof.
  split; [|split; [|vm_compute; reflexivity]].
  - apply NoDup_Permutation; [repeat constructor; simpl; intuition discriminate | apply seq_NoDup|].
    intros x; rewrite in_seq; simpl; lia.
  - repeat constructor; vm_compute; discriminate.
Qed.

(* ------------------------------------------------------------------ C51 *)
Definition below (a : list Q) (x : Q) : nat := length (filter (fun c => negb (Qle_bool x c)) a).
Lemma bsearch_spec a x : StronglySorted Qle a -> forall fuel lo hi, hi - lo <= fuel -> lo <= hi <= length a ->
  (forall i, i < lo -> (nth i a 0 < x)%Q) -> (forall i, hi <= i < length a -> (x <= nth i a 0)%Q) ->
  let r := bsearch fuel a x lo hi in lo <= r <= hi /\ (forall i, i < r -> (nth i a 0 < x)%Q) /\ (forall i, r <= i < length a -> (x <= nth i a 0)%Q).
Proof.
  intros Hs; assert (Hmono : forall i j, i <= j < length a -> (nth i a 0 <= nth j a 0)%Q).
  { clear -Hs; induction Hs as [|c a Hs IH Hc]; intros i j Hij; simpl in Hij; [lia|].
    destruct i as [|i], j as [|j]; cbn [nth]; [apply Qle_refl | rewrite Forall_forall in Hc; apply Hc, nth_In; lia | lia | apply IH; lia]. }
  induction fuel as [|f IH]; intros lo hi Hf Hb Hlo Hhi r; unfold r; cbn [bsearch].
  - assert (lo = hi) by lia; subst; split; [lia | split; assumption].
  - destruct (Nat.ltb_spec lo hi) as [Hlt|Hge]; [|assert (lo = hi) by lia; subst; split; [lia | split; assumption]].
    set (m := lo + Nat.div2 (hi - lo)).
    assert (Hm : lo <= m < hi).
    { unfold m; split; [lia|]; assert (Nat.div2 (hi - lo) < hi - lo) by (apply Nat.lt_div2; lia); lia. }
    clearbody m; destruct (Qle_bool x (nth m a 0%Q)) eqn:E; cbn [negb].
    + apply Qle_bool_iff in E; destruct (IH lo m) as [R1 [R2 R3]]; [lia | lia | exact Hlo | |split; [lia | split; assumption]].
      intros i Hi; apply Qle_trans with (nth m a 0%Q); [exact E | apply Hmono; lia].
    + apply Qle_bool_false in E; destruct (IH (m + 1) hi) as [R1 [R2 R3]]; [lia | lia | | exact Hhi | split; [lia | split; assumption]].
      intros i Hi; apply Qle_lt_trans with (nth m a 0%Q); [apply Hmono; lia | exact E].
Qed.
Lemma searchsorted_below a x : StronglySorted Qle a -> searchsorted a x = below a x.
Proof.
  intros Hs; unfold searchsorted; destruct (bsearch_spec a x Hs (length a) 0 (length a)) as [R1 [R2 R3]]; [lia | lia | lia | lia|].
  set (r := bsearch (length a) a x 0 (length a)) in *; clearbody r; unfold below; clear Hs.
  rewrite <- (firstn_skipn r a), filter_app, app_length.
  assert (E1 : filter (fun c => negb (Qle_bool x c)) (firstn r a) = firstn r a).
  { assert (G : forall l : list Q, (forall c, In c l -> negb (Qle_bool x c) = true) -> filter (fun c => negb (Qle_bool x c)) l = l).
    { induction l as [|c l IH]; intros Hl; simpl; [reflexivity|]; rewrite Hl by (left; reflexivity); rewrite IH; [reflexivity | intros d Hd; apply Hl; right; exact Hd]. }
    apply G; intros c Hc; apply (In_nth _ _ 0%Q) in Hc; destruct Hc as [i [Hi Ec]]; rewrite firstn_length in Hi.
    apply negb_true_iff, Qle_bool_false; rewrite <- Ec; rewrite <- (firstn_skipn r a) in R2; specialize (R2 i ltac:(lia)); rewrite app_nth1 in R2 by (rewrite firstn_length; lia); exact R2. }
  assert (E2 : filter (fun c => negb (Qle_bool x c)) (skipn r a) = []).
  { assert (G : forall l : list Q, (forall c, In c l -> negb (Qle_bool x c) = false) -> filter (fun c => negb (Qle_bool x c)) l = []).
    { induction l as [|c l IH]; intros Hl; simpl; [reflexivity|]; rewrite Hl by (left; reflexivity); apply IH; intros d Hd; apply Hl; right; exact Hd. }
    apply G; intros c Hc; apply (In_nth _ _ 0%Q) in Hc; destruct Hc as [i [Hi Ec]]; rewrite skipn_length in Hi.
    apply negb_false_iff, Qle_bool_iff; rewrite <- Ec; specialize (R3 (r + i) ltac:(lia)).
    rewrite <- (firstn_skipn r a) in R3; rewrite app_nth2, firstn_length in R3 by (rewrite firstn_length; lia); replace (r + i - Nat.min r (length a)) with i in R3 by lia; exact R3. }
  rewrite E1, E2, firstn_length; simpl; lia.
Qed.
Lemma below_mono a x x' : (x <= x')%Q -> below a x <= below a x'.
Proof.
  intros Hx; unfold below; induction a as [|c a IH]; simpl; [lia|].
  destruct (Qle_bool x c) eqn:E1, (Qle_bool x' c) eqn:E2; cbn [negb length]; try lia.
  apply Qle_bool_iff in E2; apply Qle_bool_false in E1; exfalso; apply (Qlt_not_le _ _ E1); apply Qle_trans with x'; assumption.
Qed.
Theorem C51_bins : forall cuts x, StronglySorted Qlt cuts ->
  searchsorted cuts x = length (filter (fun c => negb (Qle_bool x c)) cuts) /\
  searchsorted cuts x <= length cuts /\
  (forall x', (x <= x')%Q -> searchsorted cuts x <= searchsorted cuts x') /\
  (forall x', (x == x')%Q -> searchsorted cuts x = searchsorted cuts x') /\
  (forall x', searchsorted cuts x = searchsorted cuts x' -> forall c, In c cuts -> (c < x)%Q <-> (c < x')%Q).
Proof.
  intros cuts x Hs0; assert (Hs : StronglySorted Qle cuts).
  { clear -Hs0; induction Hs0 as [|c l Hs IH Hc]; constructor; [exact IH|]; eapply Forall_impl; [|exact Hc]; intros a; apply Qlt_le_weak. }
  rewrite (searchsorted_below cuts x Hs); split; [reflexivity|]; split; [|split; [|split]].
  - unfold below; induction cuts as [|c l IH]; simpl; [lia|]; inversion Hs0; inversion Hs; subst; destruct (Qle_bool x c); simpl; specialize (IH ltac:(assumption) ltac:(assumption)); lia.
  - intros x' Hx; rewrite (searchsorted_below cuts x' Hs); apply below_mono, Hx.
  - intros x' Hx; rewrite (searchsorted_below cuts x' Hs); apply Nat.le_antisymm; apply below_mono; rewrite Hx; apply Qle_refl.
  - intros x'; rewrite (searchsorted_below cuts x' Hs).
    assert (G : forall u v, (u <= v)%Q -> below cuts u = below cuts v -> forall c, In c cuts -> (c < u)%Q <-> (c < v)%Q).
    { intros u v Huv; unfold below; clear Hs Hs0; induction cuts as [|c l IH]; intros Eq d Hd; [destruct Hd|].
      assert (Hle := below_mono l u v Huv); unfold below in Hle; simpl in Eq.
      destruct (Qle_bool u c) eqn:E1, (Qle_bool v c) eqn:E2; cbn [negb length] in Eq.
      - destruct Hd as [<-|Hd]; [|apply IH; assumption]; apply Qle_bool_iff in E1, E2; split; intros H; exfalso; [apply (Qlt_not_le _ _ H E1) | apply (Qlt_not_le _ _ H E2)].
      - lia.
      - apply Qle_bool_iff in E2; apply Qle_bool_false in E1; exfalso; apply (Qlt_not_le _ _ E1); apply Qle_trans with v; assumption.
      - destruct Hd as [<-|Hd]; [|apply IH; [lia | exact Hd]]; apply Qle_bool_false in E1, E2; split; intros; assumption. }
    intros Eq c Hc; destruct (Qlt_le_dec x x') as [Hl|Hl]; [apply G; [apply Qlt_le_weak, Hl | exact Eq | exact Hc]|].
    symmetry; apply G; [exact Hl | symmetry; exact Eq | exact Hc].
Qed.
Print Assumptions C51_bins.
Example C51_case : StronglySorted Qlt [(5 # 1)%Q; (29 # 2)%Q; (20 # 1)%Q] /\
  map (searchsorted [(5 # 1)%Q; (29 # 2)%Q; (20 # 1)%Q]) [(1 # 1)%Q; (5 # 1)%Q; (51 # 10)%Q; (29 # 2)%Q; (19 # 1)%Q; (21 # 1)%Q] = [0; 0; 1; 1; 2; 3].
Proof. split; [repeat constructor; vm_compute; reflexivity | vm_compute; reflexivity]. Qed.

(* ------------------------------------------------------------------ C65 *)
(* transform bins each column by its own cut points as long as the columns come in the order seen in fit *)
Theorem C65_same_order_partial : forall (cp : list (nat * list Q)) cols, length cols = length cp ->
  transform_frame cp (map fst cp) cols = Ret (map (fun cc => map (searchsorted (fst cc)) (snd cc)) (combine (map snd cp) cols)).
Proof.
  intros cp cols Hl; unfold transform_frame, apply_cuts.
  assert (Hs : same_set (map fst cp) (map fst cp) = true).
  { unfold same_set; rewrite andb_diag; apply forallb_forall; intros x Hx; destruct (mem_spec x (map fst cp)); [reflexivity | contradiction]. }
  rewrite Hs, map_length; cbn [negb]; rewrite Hl, Nat.leb_refl; reflexivity.
Qed.
(* a frame with the same columns in another order is accepted, and its columns are binned with each
   other's cut points *)
Theorem C65_by_name_refuted : exists (cp : list (nat * list Q)) names cols r,
  Permutation names (map fst cp) /\ transform_frame cp names cols = Ret r /\
  exists j name col bins cuts, nth_error names j = Some name /\ nth_error cols j = Some col /\ nth_error r j = Some bins /\
    dget cp name = Some cuts /\ bins <> map (searchsorted cuts) col.
Proof.
  exists [(0, [(5 # 1)%Q]); (1, [(100 # 1)%Q])], [1; 0], [[(50 # 1)%Q]; [(7 # 1)%Q]], [[1]; [0]].
  split; [constructor|]; split; [vm_compute; reflexivity|].
  exists 0, 1, [(50 # 1)%Q], [1], [(100 # 1)%Q]; repeat split; vm_compute; congruence.
Qed.
(* For every frame: the names must be those of fit, as a set; then the columns are binned by their place, whatever they
   are called, so a column gets the right bins exactly when the cut points at its place bin it like its own. *)
Theorem C65_exact : forall (cp : list (nat * list Q)) names cols, length cols = length names ->
  match transform_frame cp names cols with
  | Ret r => (forall n, In n names <-> In n (map fst cp)) /\ length r = length cp /\ length cp <= length cols /\
      forall j name cuts col, nth_error cp j = Some (name, cuts) -> nth_error cols j = Some col -> nth_error r j = Some (map (searchsorted cuts) col)
  | Exn e => (e = ValueError /\ ~ (forall n, In n names <-> In n (map fst cp))) \/
             (e = IndexError /\ (forall n, In n names <-> In n (map fst cp)) /\ length cols < length cp)
  | NoFuel => False
  end.
Proof.
  intros cp names cols Hl; unfold transform_frame, apply_cuts.
  assert (Hs : same_set (map fst cp) names = true <-> forall n, In n names <-> In n (map fst cp)).
  { unfold same_set; rewrite andb_true_iff, !forallb_forall; split.
    - intros [H1 H2] n; split; intros Hn; [specialize (H2 n Hn) | specialize (H1 n Hn)]; apply mem_In; assumption.
    - intros Hn; split; intros x Hx; apply mem_In, Hn, Hx. }
  destruct (same_set (map fst cp) names) eqn:Es; cbn [negb].
  - assert (Hn := proj1 Hs eq_refl). rewrite map_length. destruct (Nat.leb_spec (length cp) (length cols)) as [Hc|Hc]; [|right; auto].
    split; [exact Hn|]; split; [rewrite map_length, combine_length, map_length; lia|]; split; [exact Hc|].
    clear -Hc; revert cols Hc; induction cp as [|[n0 c0] cp IH]; intros cols Hc [|j] name cuts col Ej Ec; try discriminate.
    + destruct cols as [|k cols]; [discriminate|]; injection Ej as -> ->; injection Ec as ->; reflexivity.
    + destruct cols as [|k cols]; [discriminate|]; cbn [map combine nth_error fst snd] in *; apply (IH cols) with (name := name); [cbn [length] in Hc; lia | exact Ej | exact Ec].
  - left; split; [reflexivity|]; intros F; apply Hs in F; discriminate.
Qed.
Print Assumptions C65_exact.
Print Assumptions C65_same_order_partial.
Print Assumptions C65_by_name_refuted.
Example C65_case : transform_frame [(0, [(5 # 1)%Q]); (1, [(100 # 1)%Q])] [0; 1] [[(7 # 1)%Q]; [(50 # 1)%Q]] = Ret [[1]; [0]].
Proof. vm_compute; reflexivity. Qed.
