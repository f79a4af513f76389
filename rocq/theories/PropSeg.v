(* C41, C66: splitting occurrences into cycles and residuals. *)
From Verif Require Import Prelude CheckModel LCMModel PeriodModel SegModel.
From Coq Require Import QArith Qminmax Lqa.
Local Open Scope nat_scope.

Lemma dget_dset {K V} `{EqDec K} (d : dict K V) k v k' : dget (dset d k v) k' = if eq_dec k' k then Some v else dget d k'.
Proof.
  induction d as [|[k0 v0] d IH]; simpl.
  - destruct (eq_dec k' k); reflexivity.
  - destruct (eq_dec k k0) as [->|Hne]; simpl; destruct (eq_dec k' k0) as [->|Hne']; try reflexivity.
    + destruct (eq_dec k0 k) as [->|_]; [congruence | reflexivity].
    + exact IH.
Qed.

Section SegProofs.
  Variable cyc : list Z -> Q.
  Variable res : Q.
  Variable occs : list Z.
  Let n := length occs.
  Notation C a b := (cyc (occs_range occs a b)).
  (* a segmentation of the positions a..b into consecutive parts *)
  Inductive segmentation : nat -> nat -> list (nat * nat) -> Prop :=
  | seg_one a b : a <= b -> segmentation a b [(a, b)]
  | seg_cons a m b l : a <= m -> m < b -> segmentation (m + 1) b l -> segmentation a b ((a, m) :: l).
  (* the cost of a part: residuals, or one cycle when it has at least three occurrences *)
  Definition part_cost (s : nat * nat) : Q :=
    let len := snd s - fst s + 1 in
    if len <=? 2 then (qn len * res)%Q else Qmin (C (fst s) (snd s)) (qn len * res)%Q.
  Definition total (l : list (nat * nat)) : Q := fold_right (fun s a => (part_cost s + a)%Q) 0%Q l.

  Definition entry (scores : dict (nat * nat) Q) (sp : dict (nat * nat) (option Z)) (a b : nat) : Prop :=
    exists v p, dget scores (a, b) = Some v /\ dget sp (a, b) = Some p /\
      (v <= C a b)%Q /\ (v <= qn (b - a + 1) * res)%Q /\
      (forall m, a <= m < b -> exists l r, side res scores a m = Some l /\ side res scores (m + 1) b = Some r /\ (v <= l + r)%Q) /\
      match p with
      | None => v = C a b
      | Some z => (z = (-1)%Z /\ (v == qn (b - a + 1) * res)%Q) \/
                  exists m l r, z = Z.of_nat m /\ a <= m < b /\ side res scores a m = Some l /\ side res scores (m + 1) b = Some r /\ (v == l + r)%Q
      end.
  Definition done (k i a b : nat) : Prop := a + 2 <= b /\ b < n /\ (b - a < k \/ (b - a = k /\ a < i)).
  Definition Inv (k i : nat) (tb : table) : Prop :=
    (forall a b, done k i a b -> entry (fst tb) (snd tb) a b) /\ (forall a b, dget (snd tb) (a, b) <> None -> a + 2 <= b < n).
  Lemma side_set scores a b v c d : side res scores c d <> None -> (c, d) <> (a, b) -> side res (dset scores (a, b) v) c d = side res scores c d.
  Proof.
    intros _ Hne; unfold side; destruct (d - c + 1 <=? 2); [reflexivity|]; rewrite dget_dset; destruct (eq_dec (c, d) (a, b)); [contradiction | reflexivity].
  Qed.
  Lemma entry_set scores sp a b v p a' b' : entry scores sp a' b' -> (b' - a' < b - a \/ (b' - a' = b - a /\ a' <> a)) ->
    a < b -> entry (dset scores (a, b) v) (dset sp (a, b) p) a' b'.
  Proof.
    intros [v' [p' [E1 [E2 [H1 [H2 [H3 H4]]]]]]] Hlt Hab.
    assert (Hside : forall m, a' <= m < b' -> side res (dset scores (a, b) v) a' m = side res scores a' m /\ side res (dset scores (a, b) v) (m + 1) b' = side res scores (m + 1) b').
    { intros m Hm; destruct (H3 m Hm) as [l [r [Hl [Hr _]]]]; split; apply side_set; try congruence; intros E; injection E; intros; subst; lia. }
    exists v', p'; rewrite !dget_dset; destruct (eq_dec (a', b') (a, b)) as [E|_]; [injection E; intros; subst; exfalso; lia|].
    split; [exact E1|]; split; [exact E2|]; split; [exact H1|]; split; [exact H2|]; split.
    - intros m Hm; destruct (Hside m Hm) as [-> ->]; apply H3, Hm.
    - destruct p' as [z|]; [|exact H4]; destruct H4 as [H4|[m [l [r [Hz [Hm [Hl [Hr Hv]]]]]]]]; [left; exact H4 | right].
      exists m, l, r; destruct (Hside m Hm) as [-> ->]; repeat split; try assumption; lia.
  Qed.
  Lemma qn_add a b : (qn (a + b) == qn a + qn b)%Q.
  Proof. unfold qn; rewrite Nat2Z.inj_add, inject_Z_plus; reflexivity. Qed.
  Lemma side_short scores a b : b - a + 1 <= 2 -> side res scores a b = Some (res * qn (b - a + 1))%Q.
  Proof. intros H; unfold side; apply Nat.leb_le in H; rewrite H; reflexivity. Qed.
  Lemma side_done scores sp k i a b : (forall a b, done k i a b -> entry scores sp a b) -> a <= b < n -> (a + 2 <= b -> done k i a b) ->
    exists v, side res scores a b = Some v /\ (v <= qn (b - a + 1) * res)%Q.
  Proof.
    intros HI Hab Hd; destruct (le_lt_dec (b - a + 1) 2) as [Hs|Hs].
    - exists (res * qn (b - a + 1))%Q; split; [apply side_short, Hs|]; rewrite Qmult_comm; apply Qle_refl.
    - destruct (HI a b (Hd ltac:(lia))) as [v [p [E1 [_ [_ [H _]]]]]]; exists v; split; [|exact H].
      unfold side; destruct (Nat.leb_spec (b - a + 1) 2); [lia | exact E1].
  Qed.
  (* the first loop *)
  Lemma table3_inv i : i + 2 <= n -> Inv 2 i (fold_left (table3_step cyc res occs) (List.seq 0 i) ([], [])).
  Proof.
    induction i as [|i IH]; intros Hi.
    - simpl; split; [intros a b [H1 [H2 H3]]; lia | intros a b H; exfalso; apply H; reflexivity].
    - rewrite seq_S, fold_left_app; cbn [fold_left Nat.add]; specialize (IH ltac:(lia)); destruct IH as [HI HK].
      set (tb := fold_left (table3_step cyc res occs) (List.seq 0 i) ([], [])) in *; clearbody tb; destruct tb as [scores sp]; cbn [fst snd] in *.
      assert (Hall : forall v p, (v <= C i (i + 2))%Q -> (v <= qn 3 * res)%Q -> (p = None /\ v = C i (i + 2) \/ p = Some (-1)%Z /\ v = (qn 3 * res)%Q) ->
        Inv 2 (S i) (dset scores (i, i + 2) v, dset sp (i, i + 2) p)).
      { intros v p Hv1 Hv2 Hp; split; cbn [fst snd].
        - intros a b [D1 [D2 D3]]; destruct (Nat.eq_dec a i) as [->|Hne].
          + assert (b = i + 2) by lia; subst b; exists v, p; rewrite !dget_dset; destruct (eq_dec (i, i + 2) (i, i + 2)) as [_|Hno]; [|congruence].
            replace (i + 2 - i + 1) with 3 by lia; split; [reflexivity|]; split; [reflexivity|]; split; [exact Hv1|]; split; [exact Hv2|]; split.
            * intros m Hm; exists (res * qn (m - i + 1))%Q, (res * qn (i + 2 - (m + 1) + 1))%Q; rewrite !side_short by lia; split; [reflexivity|]; split; [reflexivity|].
              rewrite <- Qmult_plus_distr_r, <- qn_add; replace (m - i + 1 + (i + 2 - (m + 1) + 1)) with 3 by lia; rewrite Qmult_comm; exact Hv2.
            * destruct Hp as [[-> ->]|[-> ->]]; [reflexivity | left; split; reflexivity].
          + apply entry_set; [apply HI; split; [exact D1 | split; [exact D2 | right; lia]] | right; lia | lia].
        - intros a b; rewrite dget_dset; destruct (eq_dec (a, b) (i, i + 2)) as [E|_]; [intros _; injection E; intros; subst; lia | apply HK]. }
      unfold table3_step at 1; cbn [fst snd]; destruct (Qle_bool (qn 3 * res) (C i (i + 2))) eqn:E; cbn [negb].
      + apply Qle_bool_iff in E; apply Hall; [exact E | apply Qle_refl | right; split; reflexivity].
      + assert (Hlt : (C i (i + 2) < qn 3 * res)%Q) by (apply Qnot_le_lt; intros H; apply Qle_bool_iff in H; congruence).
        apply Hall; [apply Qle_refl | apply Qlt_le_weak, Hlt | left; split; reflexivity].
  Qed.
  (* the inner search for the best split point *)
  Lemma try_spec scores ia iz ims : forall best, (forall m, In m ims -> exists l r, side res scores ia m = Some l /\ side res scores (m + 1) iz = Some r) ->
    exists v p, try_splits res scores ia iz ims best = Some (v, p) /\ (v <= fst best)%Q /\
      (forall m l r, In m ims -> side res scores ia m = Some l -> side res scores (m + 1) iz = Some r -> (v <= l + r)%Q) /\
      ((v, p) = best \/ exists m l r, In m ims /\ p = Some (Z.of_nat m) /\ side res scores ia m = Some l /\ side res scores (m + 1) iz = Some r /\ (v == l + r)%Q).
  Proof.
    induction ims as [|m ims IH]; intros best Hall.
    - exists (fst best), (snd best); split; [destruct best; reflexivity|]; split; [apply Qle_refl|]; split; [intros m l r []|left; destruct best; reflexivity].
    - destruct (Hall m (or_introl eq_refl)) as [l [r [Hl Hr]]]; cbn [try_splits]; rewrite Hl, Hr.
      set (best' := if negb (Qle_bool (fst best) (l + r)) then ((l + r)%Q, Some (Z.of_nat m)) else best).
      destruct (IH best') as [v [p [E [H1 [H2 H3]]]]]; [intros m' Hm'; apply Hall; right; exact Hm'|].
      assert (Hb : (fst best' <= fst best)%Q /\ (fst best' <= l + r)%Q).
      { unfold best'; destruct (Qle_bool (fst best) (l + r)) eqn:Eb; cbn [negb fst].
        - apply Qle_bool_iff in Eb; split; [apply Qle_refl | exact Eb].
        - split; [|apply Qle_refl]; apply Qlt_le_weak, Qnot_le_lt; intros H; apply Qle_bool_iff in H; congruence. }
      exists v, p; split; [exact E|]; split; [apply Qle_trans with (fst best'); [exact H1 | apply Hb]|]; split.
      + intros m' l' r' [<-|Hm'] Hl' Hr'; [|eapply H2; eassumption].
        rewrite Hl in Hl'; rewrite Hr in Hr'; injection Hl' as <-; injection Hr' as <-; apply Qle_trans with (fst best'); [exact H1 | apply Hb].
      + destruct H3 as [H3|[m' [l' [r' [H3 H3']]]]].
        * unfold best' in H3; destruct (negb (Qle_bool (fst best) (l + r))); [|left; exact H3].
          right; exists m, l, r; injection H3 as -> ->; split; [left; reflexivity|]; split; [reflexivity|]; split; [exact Hl|]; split; [exact Hr | reflexivity].
        * right; exists m', l', r'; split; [right; exact H3 | exact H3'].
  Qed.
  Lemma table_row k i tb : 3 <= k -> i + k <= n -> Inv k 0 tb -> exists tb', fold_left (table_step cyc res occs k) (List.seq 0 i) (Some tb) = Some tb' /\ Inv k i tb'.
  Proof.
    intros Hk; induction i as [|i IH]; intros Hi H0; [exists tb; split; [reflexivity | exact H0]|].
    rewrite seq_S, fold_left_app; cbn [fold_left Nat.add]; destruct (IH ltac:(lia) H0) as [[scores sp] [-> [HI HK]]]; cbn [table_step fst snd] in *.
    replace (i + k - i) with k by lia.
    assert (Hsd : forall m, i <= m < i + k -> (exists l, side res scores i m = Some l /\ (l <= qn (m - i + 1) * res)%Q) /\
      (exists r, side res scores (m + 1) (i + k) = Some r /\ (r <= qn (i + k - (m + 1) + 1) * res)%Q)).
    { intros m Hm; split; apply (side_done scores sp k i); try exact HI; try lia; intros Hd; unfold done; lia. }
    destruct (try_spec scores i (i + k) (List.seq i k) (C i (i + k), None)) as [v [p [-> [H1 [H2 H3]]]]].
    { intros m Hm; apply in_seq in Hm; destruct (Hsd m ltac:(lia)) as [[l [Hl _]] [r [Hr _]]]; exists l, r; split; assumption. }
    exists (dset scores (i, i + k) v, dset sp (i, i + k) p); split; [reflexivity|]; split; cbn [fst snd] in *.
    - assert (Hset : forall m, i <= m < i + k -> side res (dset scores (i, i + k) v) i m = side res scores i m /\ side res (dset scores (i, i + k) v) (m + 1) (i + k) = side res scores (m + 1) (i + k)).
      { intros m Hm; destruct (Hsd m Hm) as [[l [Hl _]] [r [Hr _]]]; split; apply side_set; try congruence; intros E; injection E; lia. }
      intros a b [D1 [D2 D3]]; destruct (Nat.eq_dec (b - a) k) as [Ek|Ek]; [destruct (Nat.eq_dec a i) as [->|Hne]|].
      + assert (b = i + k) by lia; subst b; exists v, p; rewrite !dget_dset; destruct (eq_dec (i, i + k) (i, i + k)) as [_|Hno]; [|congruence].
        split; [reflexivity|]; split; [reflexivity|]; split; [exact H1|]; split; [|split].
        * destruct (Hsd i ltac:(lia)) as [[l [Hl Hl']] [r [Hr Hr']]]; specialize (H2 i l r ltac:(apply in_seq; lia) Hl Hr).
          apply Qle_trans with (l + r)%Q; [exact H2|].
          apply Qle_trans with (qn (i - i + 1) * res + qn (i + k - (i + 1) + 1) * res)%Q; [apply Qplus_le_compat; assumption|].
          rewrite <- Qmult_plus_distr_l, <- qn_add; replace (i - i + 1 + (i + k - (i + 1) + 1)) with (i + k - i + 1) by lia; apply Qle_refl.
        * intros m Hm; destruct (Hsd m Hm) as [[l [Hl _]] [r [Hr _]]]; destruct (Hset m Hm) as [-> ->]; exists l, r.
          split; [exact Hl|]; split; [exact Hr|]; apply (H2 m); [apply in_seq; lia | exact Hl | exact Hr].
        * destruct H3 as [H3|[m [l [r [Hm [-> [Hl [Hr Hv]]]]]]]]; [injection H3 as -> ->; reflexivity|].
          apply in_seq in Hm; right; exists m, l, r; destruct (Hset m ltac:(lia)) as [-> ->]; repeat split; try assumption; lia.
      + apply entry_set; [apply HI; split; [exact D1 | split; [exact D2 | right; lia]] | right; lia | lia].
      + apply entry_set; [apply HI; split; [exact D1 | split; [exact D2 | left; lia]] | left; lia | lia].
    - intros a b; rewrite dget_dset; destruct (eq_dec (a, b) (i, i + k)) as [E|_]; [intros _; injection E; intros; subst; lia | apply HK].
  Qed.
  Lemma Inv_next k tb : 2 <= k -> Inv k (n - k) tb -> Inv (S k) 0 tb.
  Proof. intros Hk [HI HK]; split; [|exact HK]; intros a b [D1 [D2 D3]]; apply HI; unfold done; lia. Qed.
  Lemma table_spec : exists tb, compute_table cyc res occs = Some tb /\
    (forall a b, a + 2 <= b < n -> entry (fst tb) (snd tb) a b) /\ (forall a b, dget (snd tb) (a, b) <> None -> a + 2 <= b < n).
  Proof.
    unfold compute_table; fold n; destruct (le_lt_dec n 2) as [Hs|Hs].
    - replace (n - 2) with 0 by lia; replace (n - 3) with 0 by lia; simpl; exists ([], []); split; [reflexivity|]; split; [intros; lia | intros a b H; exfalso; apply H; reflexivity].
    - assert (H : forall m, m <= n - 3 -> exists tb, fold_left (fun tb k => fold_left (table_step cyc res occs k) (List.seq 0 (n - k)) tb) (List.seq 3 m)
          (Some (fold_left (table3_step cyc res occs) (List.seq 0 (n - 2)) ([], []))) = Some tb /\ Inv (3 + m) 0 tb).
      { induction m as [|m IH]; intros Hm.
        - simpl fold_left at 1; eexists; split; [reflexivity|]; apply (Inv_next 2); [lia | apply table3_inv; lia].
        - rewrite seq_S, fold_left_app; cbn [fold_left]; destruct (IH ltac:(lia)) as [tb [-> HI]].
          destruct (table_row (3 + m) (n - (3 + m)) tb) as [tb' [-> HI']]; [lia | lia | exact HI|].
          exists tb'; split; [reflexivity|]; replace (3 + S m) with (S (3 + m)) by lia; apply Inv_next; [lia | exact HI']. }
      destruct (H (n - 3) ltac:(lia)) as [tb [E [HI HK]]]; exists tb; split; [exact E|]; split; [|exact HK].
      intros a b Hab; apply HI; unfold done; lia.
  Qed.

  (* ---------------------------------------------------------- optimality *)
  Lemma seg_bounds a b l : segmentation a b l -> a <= b.
  Proof. induction 1; lia. Qed.
  Variable tb : table.
  Hypothesis Htb : forall a b, a + 2 <= b < n -> entry (fst tb) (snd tb) a b.
  Hypothesis Hkeys : forall a b, dget (snd tb) (a, b) <> None -> a + 2 <= b < n.
  Lemma side_val a b : a <= b < n -> exists v, side res (fst tb) a b = Some v /\ (v <= part_cost (a, b))%Q.
  Proof.
    intros Hab; unfold part_cost; cbn [fst snd]; destruct (Nat.leb_spec (b - a + 1) 2) as [Hs|Hs].
    - eexists; split; [apply side_short, Hs|]; rewrite Qmult_comm; apply Qle_refl.
    - destruct (Htb a b ltac:(lia)) as [v [p [E [_ [H1 [H2 _]]]]]]; exists v; split.
      + unfold side; destruct (Nat.leb_spec (b - a + 1) 2); [lia | exact E].
      + apply Q.min_glb; assumption.
  Qed.
  Lemma side_le_split a m b v l r : a <= m -> m < b -> b < n -> side res (fst tb) a b = Some v -> side res (fst tb) a m = Some l -> side res (fst tb) (m + 1) b = Some r -> (v <= l + r)%Q.
  Proof.
    intros Ham Hmb Hb Hv Hl Hr; destruct (le_lt_dec (b - a + 1) 2) as [Hs|Hs].
    - rewrite side_short in Hv, Hl, Hr by lia; injection Hv as <-; injection Hl as <-; injection Hr as <-.
      rewrite <- Qmult_plus_distr_r, <- qn_add; replace (m - a + 1 + (b - (m + 1) + 1)) with (b - a + 1) by lia; apply Qle_refl.
    - destruct (Htb a b ltac:(lia)) as [v' [p [E [_ [_ [_ [H3 _]]]]]]]; unfold side in Hv at 1; destruct (Nat.leb_spec (b - a + 1) 2); [lia|].
      rewrite E in Hv; injection Hv as ->; destruct (H3 m ltac:(lia)) as [l' [r' [Hl' [Hr' Hle]]]]; congruence.
  Qed.
  Lemma side_optimal a b l : segmentation a b l -> b < n -> forall v, side res (fst tb) a b = Some v -> (v <= total l)%Q.
  Proof.
    induction 1 as [a b Hab|a m b l Ham Hmb Hseg IH]; intros Hb v Hv.
    - destruct (side_val a b ltac:(lia)) as [v' [E H]]; rewrite E in Hv; injection Hv as ->; simpl; rewrite Qplus_0_r; exact H.
    - destruct (side_val a m ltac:(lia)) as [l' [El Hl]]; destruct (side_val (m + 1) b ltac:(lia)) as [r' [Er _]].
      cbn [total fold_right]; fold (total l); apply Qle_trans with (l' + r')%Q; [exact (side_le_split a m b v l' r' Ham Hmb Hb Hv El Er)|].
      apply Qplus_le_compat; [exact Hl | apply IH; [exact Hb | exact Er]].
  Qed.
  Lemma seg_app a m b l1 l2 : segmentation a m l1 -> m < b -> segmentation (m + 1) b l2 -> segmentation a b (l1 ++ l2).
  Proof.
    induction 1 as [a m Ham|a m' m l1 Ham Hmm H1 IH]; intros Hmb H2; cbn [app]; [apply seg_cons; assumption|].
    apply seg_cons; [exact Ham | lia | apply IH; assumption].
  Qed.
  Lemma total_app l1 l2 : (total (l1 ++ l2) == total l1 + total l2)%Q.
  Proof. induction l1 as [|s l1 IH]; cbn [app total fold_right]; [rewrite Qplus_0_l; reflexivity|]; fold (total (l1 ++ l2)) (total l1); rewrite IH, Qplus_assoc; reflexivity. Qed.
  Lemma singles_seg a k : segmentation a (a + k) (map (fun i => (i, i)) (List.seq a (S k))).
  Proof.
    revert a; induction k as [|k IH]; intros a; cbn [List.seq map].
    - rewrite Nat.add_0_r; constructor; lia.
    - apply seg_cons; [lia | lia|]; specialize (IH (a + 1)); replace (S a) with (a + 1) by lia; replace (a + S k) with (a + 1 + k) by lia; exact IH.
  Qed.
  Lemma singles_total a k : (total (map (fun i => (i, i)) (List.seq a k)) == qn k * res)%Q.
  Proof.
    revert a; induction k as [|k IH]; intros a; cbn [List.seq map total fold_right]; [unfold qn; simpl; ring|].
    fold (total (map (fun i => (i, i)) (List.seq (S a) k))); rewrite IH; unfold part_cost; cbn [fst snd]; rewrite Nat.sub_diag; cbn [Nat.add Nat.leb].
    replace (S k) with (1 + k) by lia; rewrite qn_add; ring.
  Qed.
  Lemma recover_opt fuel : forall a b, b - a < fuel -> a <= b < n -> forall v, side res (fst tb) a b = Some v ->
    segmentation a b (recover fuel (snd tb) a b true) /\ (total (recover fuel (snd tb) a b true) == v)%Q /\
    recover fuel (snd tb) a b false = filter (fun s => 1 <? snd s - fst s) (recover fuel (snd tb) a b true).
  Proof.
    induction fuel as [|f IH]; intros a b Hf Hab v Hv; [lia|]; cbn [recover].
    assert (Hsing : (v == qn (b - a + 1) * res)%Q ->
      segmentation a b (map (fun i => (i, i)) (List.seq a (S b - a))) /\ (total (map (fun i => (i, i)) (List.seq a (S b - a))) == v)%Q /\
      [] = filter (fun s => 1 <? snd s - fst s) (map (fun i => (i, i)) (List.seq a (S b - a)))).
    { intros E; split; [|split].
      - replace (S b - a) with (S (b - a)) by lia; replace b with (a + (b - a)) at 1 by lia; apply singles_seg.
      - rewrite singles_total, E; replace (S b - a) with (b - a + 1) by lia; reflexivity.
      - induction (List.seq a (S b - a)) as [|x l IHl]; [reflexivity|]; cbn [map filter fst snd]; rewrite Nat.sub_diag; exact IHl. }
    destruct (le_lt_dec (b - a + 1) 2) as [Hs|Hs].
    - rewrite side_short in Hv by exact Hs; injection Hv as <-.
      destruct (dget (snd tb) (a, b)) as [p|] eqn:E; [assert (H : a + 2 <= b < n) by (apply Hkeys; rewrite E; discriminate); lia|].
      apply Hsing; apply Qmult_comm.
    - destruct (Htb a b ltac:(lia)) as [v' [p [E1 [E2 [H1 [H2 [H3 H4]]]]]]]; unfold side in Hv; destruct (Nat.leb_spec (b - a + 1) 2); [lia|].
      rewrite E1 in Hv; injection Hv as ->; rewrite E2; destruct p as [z|].
      + destruct H4 as [[-> H4]|[m [l [r [-> [Hm [Hl [Hr Hv]]]]]]]]; [apply Hsing, H4|].
        destruct (Z.leb_spec 0 (Z.of_nat m)); [|lia]; rewrite Nat2Z.id.
        destruct (IH a m ltac:(lia) ltac:(lia) l Hl) as [A1 [A2 A3]]; destruct (IH (m + 1) b ltac:(lia) ltac:(lia) r Hr) as [B1 [B2 B3]].
        split; [apply (seg_app a m b); [exact A1 | lia | exact B1]|]; split; [rewrite total_app, A2, B2, Hv; reflexivity|].
        rewrite A3, B3, filter_app; reflexivity.
      + split; [constructor; lia|]; split.
        * simpl; rewrite Qplus_0_r; unfold part_cost; cbn [fst snd]; destruct (Nat.leb_spec (b - a + 1) 2); [lia|].
          subst v; rewrite Q.min_l; [reflexivity | exact H2].
        * cbn [filter fst snd]; destruct (Nat.ltb_spec 1 (b - a)); [reflexivity | lia].
  Qed.
End SegProofs.

(* The dynamic program never fails; the split points it records give a segmentation of all the positions into
   consecutive parts whose total cost is the tabulated score, and no segmentation is cheaper. Recovering
   without singletons returns the parts of this segmentation that have at least three occurrences. *)
Theorem C41_optimal : forall cyc res occs, 1 <= length occs ->
  exists scores sp, compute_table cyc res occs = Some (scores, sp) /\
    let last := length occs - 1 in
    let parts := recover (length occs) sp 0 last true in
    segmentation 0 last parts /\
    (forall l, segmentation 0 last l -> (total cyc res occs parts <= total cyc res occs l)%Q) /\
    (3 <= length occs -> exists v, dget scores (0, last) = Some v /\ (v == total cyc res occs parts)%Q) /\
    recover (length occs) sp 0 last false = filter (fun s => 1 <? snd s - fst s) parts.
Proof.
  intros cyc res occs Hn; destruct (table_spec cyc res occs) as [[scores sp] [E [H1 H2]]]; exists scores, sp; split; [exact E|].
  destruct (side_val cyc res occs (scores, sp) H1 0 (length occs - 1) ltac:(lia)) as [v [Hv _]].
  destruct (recover_opt cyc res occs (scores, sp) H1 H2 (length occs) 0 (length occs - 1) ltac:(lia) ltac:(lia) v Hv) as [R1 [R2 R3]]; cbn [fst snd] in *.
  split; [exact R1|]; split; [|split; [|exact R3]].
  - intros l Hl; rewrite R2; eapply (side_optimal cyc res occs (scores, sp) H1); [exact Hl | lia | exact Hv].
  - intros H3; exists v; split; [|symmetry; exact R2]; unfold side in Hv; destruct (Nat.leb_spec (length occs - 1 - 0 + 1) 2); [lia | exact Hv].
Qed.
Print Assumptions C41_optimal.
(* cost 2 + total deviation from the first difference for a cycle, 2 per residual occurrence *)
Definition demo_cyc (l : list Z) : Q := inject_Z (4 + fold_right (fun d a => (Z.abs (d - hd 0%Z (diffs l)) + a)%Z) 0%Z (diffs l)).
Example C41_case : exists scores sp, compute_table demo_cyc 2 [1; 3; 5; 7; 20; 21; 30; 40; 50; 61]%Z = Some (scores, sp) /\
  recover 10 sp 0 9 true = [(0, 3); (4, 4); (5, 5); (6, 9)] /\ recover 10 sp 0 9 false = [(0, 3); (6, 9)] /\ option_map Qred (dget scores (0, 9)) = Some (13 # 1)%Q.
Proof. eexists; eexists; split; [vm_compute; reflexivity|]; split; [vm_compute; reflexivity|]; split; vm_compute; reflexivity. Qed.

(* ------------------------------------------------------------------ C66 *)
Definition before (s t : nat * nat) : Prop := snd s < fst t.
Definition apart (l : list (nat * nat)) : Prop := ForallOrdPairs before l /\ Forall (fun s => fst s + 2 <= snd s) l.
Lemma seg_apart a b l : segmentation a b l -> ForallOrdPairs before l /\ Forall (fun s => a <= fst s /\ fst s <= snd s /\ snd s <= b) l.
Proof.
  induction 1 as [a b Hab|a m b l Ham Hmb H [IH1 IH2]].
  - split; [repeat constructor|]; constructor; [simpl; lia | constructor].
  - split.
    + constructor; [|exact IH1]; eapply Forall_impl; [|exact IH2]; intros s Hs; simpl in Hs; unfold before; simpl; lia.
    + constructor; [simpl; lia|]; eapply Forall_impl; [|exact IH2]; intros s Hs; simpl in Hs; lia.
Qed.
Lemma FOP_filter {A} (R : A -> A -> Prop) f l : ForallOrdPairs R l -> ForallOrdPairs R (filter f l).
Proof.
  induction 1 as [|x l Hx H IH]; simpl; [constructor|]; destruct (f x); [|exact IH]; constructor; [|exact IH].
  rewrite Forall_forall in *; intros y Hy; apply filter_In in Hy; apply Hx, Hy.
Qed.
Lemma FOP_app {A} (R : A -> A -> Prop) l1 l2 : ForallOrdPairs R (l1 ++ l2) <-> ForallOrdPairs R l1 /\ ForallOrdPairs R l2 /\ (forall x y, In x l1 -> In y l2 -> R x y).
Proof.
  induction l1 as [|x l1 IH]; cbn [app].
  - split; [intros H; split; [constructor | split; [exact H | intros x y []]] | intros [_ [H _]]; exact H].
  - split.
    + intros H; inversion H as [|? ? Hx H']; subst; apply IH in H'; destruct H' as [H1 [H2 H3]]; apply Forall_app in Hx; destruct Hx as [Hx1 Hx2].
      split; [constructor; assumption|]; split; [exact H2|]; intros a b [<-|Ha] Hb; [rewrite Forall_forall in Hx2; apply Hx2, Hb | apply H3; assumption].
    + intros [H1 [H2 H3]]; inversion H1 as [|? ? Hx H']; subst; constructor.
      * apply Forall_app; split; [exact Hx|]; apply Forall_forall; intros b Hb; apply H3; [left; reflexivity | exact Hb].
      * apply IH; split; [exact H'|]; split; [exact H2|]; intros a b Ha Hb; apply H3; [right; exact Ha | exact Hb].
Qed.
Lemma table_splits cyc res occs : 1 <= length occs -> exists scores sp, compute_table cyc res occs = Some (scores, sp) /\
  apart (recover (length occs) sp 0 (length occs - 1) false) /\ Forall (fun s => snd s < length occs) (recover (length occs) sp 0 (length occs - 1) false).
Proof.
  intros Hn; destruct (C41_optimal cyc res occs Hn) as [scores [sp [E [H1 [_ [_ H2]]]]]]; exists scores, sp; split; [exact E|].
  cbv zeta in H1, H2; rewrite H2; apply seg_apart in H1; destruct H1 as [H1 H3]; split; [split; [apply FOP_filter, H1|]|].
  - apply Forall_forall; intros s Hs; apply filter_In in Hs; destruct Hs as [_ Hs]; apply Nat.ltb_lt in Hs; lia.
  - rewrite Forall_forall in *; intros s Hs; apply filter_In in Hs; destruct Hs as [Hs _]; apply H3 in Hs; lia.
Qed.
Lemma skip_from_spec l a : forall i, exists k, skip_from l a i = i + k /\ k <= length l /\ (forall j s, j < k -> nth_error l j = Some s -> snd s < a) /\
  (forall s, nth_error l k = Some s -> a <= snd s).
Proof.
  induction l as [|s l IH]; intros i; cbn [skip_from].
  - exists 0; split; [lia|]; split; [simpl; lia|]; split; [intros; lia | intros s; discriminate].
  - destruct (Nat.ltb_spec (snd s) a) as [Hlt|Hge].
    + destruct (IH (S i)) as [k [E [H1 [H2 H3]]]]; exists (S k); split; [rewrite E; lia|]; split; [simpl; lia|]; split.
      * intros j t Hj Ht; destruct j as [|j]; simpl in Ht; [injection Ht as <-; exact Hlt | eapply H2; [|exact Ht]; lia].
      * exact H3.
    + exists 0; split; [lia|]; split; [simpl; lia|]; split; [intros; lia | intros t Ht; injection Ht as <-; exact Hge].
Qed.
Lemma nth_error_skipn {A} (l : list A) i j : nth_error (skipn i l) j = nth_error l (i + j).
Proof. revert l; induction i as [|i IH]; intros [|x l]; simpl; try reflexivity; [destruct j; reflexivity | apply IH]. Qed.
Lemma In_firstn {A} (l : list A) i x : In x (firstn i l) -> exists j, j < i /\ nth_error l j = Some x.
Proof.
  revert l; induction i as [|i IH]; intros [|y l]; simpl; try tauto.
  intros [<-|Hx]; [exists 0; split; [lia | reflexivity]|]; destruct (IH l Hx) as [j [Hj E]]; exists (S j); split; [lia | exact E].
Qed.
Lemma apart_nth l i j s t : apart l -> i < j -> nth_error l i = Some s -> nth_error l j = Some t -> snd s < fst t.
Proof.
  intros [H _]; revert i j; induction H as [|x l Hx H IH]; intros i j Hij Hi Hj; [destruct i; discriminate|].
  destruct j as [|j]; [lia|]; simpl in Hj; destruct i as [|i]; simpl in Hi.
  - injection Hi as <-; rewrite Forall_forall in Hx; apply Hx; eapply nth_error_In, Hj.
  - eapply IH; [|exact Hi | exact Hj]; lia.
Qed.
Lemma apart_firstn l i : apart l -> apart (firstn i l).
Proof.
  intros [H1 H2]; rewrite <- (firstn_skipn i l) in H1, H2; apply FOP_app in H1; apply Forall_app in H2; split; [apply H1 | apply H2].
Qed.
Definition bounded (B : nat) (l : list (nat * nat)) : Prop := Forall (fun s => snd s < B) l.
Lemma bounded_firstn B l i : bounded B l -> bounded B (firstn i l).
Proof. unfold bounded; rewrite !Forall_forall; intros H s Hs; apply H; rewrite <- (firstn_skipn i l); apply in_or_app; left; exact Hs. Qed.
Lemma apart_glue l i adj : apart l -> apart adj -> (forall j s a z, j < i -> nth_error l j = Some s -> hd_error adj = Some (a, z) -> snd s < a) -> apart (firstn i l ++ adj).
Proof.
  intros Hl Ha Hh; split.
  - apply FOP_app; split; [apply (apart_firstn l i Hl)|]; split; [apply Ha|]; intros s t Hs Ht; apply In_firstn in Hs; destruct Hs as [j [Hj E]].
    destruct adj as [|[a z] adj]; [destruct Ht|]; specialize (Hh j s a z Hj E eq_refl); destruct Ht as [<-|Ht]; [exact Hh|].
    destruct Ha as [Ha1 Ha2]; inversion Ha1 as [|? ? Hx _]; subst; inversion Ha2 as [|? ? Hy _]; subst; rewrite Forall_forall in Hx; specialize (Hx t Ht); unfold before in *; simpl in *; lia.
  - apply Forall_app; split; [apply (apart_firstn l i Hl) | apply Ha].
Qed.
Lemma combine_loop_spec B fuel : forall splits adj prev, apart splits -> apart adj -> bounded B splits -> bounded B adj ->
  (forall j s a z, j < prev -> nth_error splits j = Some s -> hd_error adj = Some (a, z) -> snd s < a) ->
  let '(i, adj') := combine_loop fuel splits adj prev in apart (firstn i splits ++ adj') /\ bounded B (firstn i splits ++ adj').
Proof.
  induction fuel as [|f IH]; intros splits adj prev Hs Ha Bs Ba Hp; cbn [combine_loop].
  - split; [apply apart_glue; assumption | apply Forall_app; split; [apply bounded_firstn, Bs | exact Ba]].
  - destruct adj as [|[a0 z0] adj]; [split; [apply apart_glue; [exact Hs | exact Ha | discriminate || (intros; discriminate)] | rewrite app_nil_r; apply bounded_firstn, Bs]|].
    unfold skip_before; destruct (skip_from_spec (skipn prev splits) a0 prev) as [k [-> [Hk [H1 H2]]]].
    assert (Hbef : forall j s, j < prev + k -> nth_error splits j = Some s -> snd s < a0).
    { intros j s Hj E; destruct (le_lt_dec prev j) as [Hle|Hlt]; [|apply (Hp j s a0 z0 Hlt E eq_refl)].
      apply (H1 (j - prev)); [lia|]; rewrite nth_error_skipn; replace (prev + (j - prev)) with j by lia; exact E. }
    assert (Hglue : forall adj', apart adj' -> (forall a z, hd_error adj' = Some (a, z) -> a0 <= a \/ nth_error splits (prev + k) <> None /\ exists sz, nth_error splits (prev + k) = Some (a, sz)) ->
      bounded B adj' -> apart (firstn (prev + k) splits ++ adj') /\ bounded B (firstn (prev + k) splits ++ adj')).
    { intros adj' Ha' Hhd Bad; split; [|apply Forall_app; split; [apply bounded_firstn, Bs | exact Bad]].
      apply apart_glue; [exact Hs | exact Ha'|]; intros j s a z Hj E Eh; destruct (Hhd a z Eh) as [Hle|[_ [sz Esz]]].
      - specialize (Hbef j s Hj E); lia.
      - apply (apart_nth splits j (prev + k) s (a, sz) Hs Hj E Esz). }
    destruct (nth_error splits (prev + k)) as [[sa sz]|] eqn:En.
    + destruct (Nat.leb_spec a0 sa) as [Hle|Hgt].
      * apply Hglue; [exact Ha | intros a z E; injection E as <- <-; left; lia | exact Ba].
      * assert (Ha' : apart adj) by (destruct Ha as [A1 A2]; inversion A1; inversion A2; split; assumption).
        assert (Ba' : bounded B adj) by (inversion Ba; assumption).
        destruct (Nat.leb_spec z0 sz) as [Hle|Hgt'].
        -- destruct adj as [|[a1 z1] adj]; [apply Hglue; [split; constructor | discriminate | constructor]|].
           apply IH; [exact Hs | exact Ha' | exact Bs | exact Ba'|]; intros j s a z Hj E Eh; injection Eh as <- <-.
           specialize (Hbef j s Hj E); destruct Ha as [A1 A2]; inversion A1 as [|? ? X1 _]; inversion A2 as [|? ? X2 _]; subst.
           inversion X1 as [|? ? X3 _]; subst; unfold before in X3; simpl in *; lia.
        -- apply Hglue.
           ++ destruct Ha as [A1 A2]; inversion A1 as [|? ? X1 X1']; inversion A2 as [|? ? X2 X2']; subst; split.
              ** constructor; [eapply Forall_impl; [|exact X1]; intros t; unfold before; simpl; auto | exact X1'].
              ** constructor; [|exact X2']; simpl in *; lia.
           ++ intros a z E; injection E as <- <-; right; split; [discriminate | exists sz; reflexivity].
           ++ inversion Ba; subst; constructor; assumption.
    + apply Hglue; [exact Ha | intros a z E; injection E as <- <-; left; lia | exact Ba].
Qed.
Lemma combine_splits_spec B splits adj : apart splits -> apart adj -> bounded B splits -> bounded B adj -> apart (combine_splits splits adj) /\ bounded B (combine_splits splits adj).
Proof.
  intros Hs Ha Bs Ba; unfold combine_splits; destruct adj as [|a adj]; [split; assumption|]; destruct splits as [|s splits]; [split; assumption|].
  pose proof (combine_loop_spec B (length (a :: adj)) (s :: splits) (a :: adj) 0 Hs Ha Bs Ba ltac:(intros; lia)) as H.
  destruct (combine_loop _ _ _ _) as [i adj']; exact H.
Qed.
Lemma bounded_le B B' l : B <= B' -> bounded B l -> bounded B' l.
Proof. intros H; apply Forall_impl; intros s Hs; cbv beta in Hs |- *; lia. Qed.
(* the last block starts at the largest multiple of 80 below length - 50 *)
Lemma blocks_spec cyc res occs fuel : forall p splits, length occs + 30 <= p + fuel * step_size -> 0 < fuel -> apart splits -> bounded (Nat.min (length occs) (p + 20)) splits ->
  exists r, blocks cyc res fuel occs p splits = Some r /\ apart r /\ bounded (length occs) r /\
    forall s, In s r -> snd s < p + 20 \/ exists m, p + m * step_size + 50 < length occs /\ snd s < p + m * step_size + block_size.
Proof.
  induction fuel as [|f IH]; intros p splits Hf H0 Hs Hb; [lia|]; cbn [blocks].
  destruct (Nat.ltb_spec (p + 50) (length occs)) as [Hlt|Hge].
  - set (nb := firstn block_size (skipn p occs)).
    assert (Hnb : length nb = Nat.min 100 (length occs - p)) by (unfold nb, block_size; rewrite firstn_length, skipn_length; reflexivity).
    destruct (table_splits cyc res nb) as [scores [sp [E [T1 T2]]]]; [lia|]; rewrite E.
    set (bs := recover (length nb) sp 0 (length nb - 1) false) in *; clearbody bs.
    set (adj := map (fun s => (fst s + p, snd s + p)) bs).
    assert (Ha : apart adj /\ bounded (Nat.min (length occs) (p + 100)) adj).
    { unfold adj; split; [split|].
      - destruct T1 as [T1 _]; clear -T1; induction T1 as [|x l Hx H IHl]; cbn [map]; constructor; [|exact IHl].
        rewrite Forall_forall in *; intros y Hy; apply in_map_iff in Hy; destruct Hy as [z [<- Hz]]; specialize (Hx z Hz); unfold before in *; simpl in *; lia.
      - destruct T1 as [_ T1]; rewrite Forall_forall in *; intros y Hy; apply in_map_iff in Hy; destruct Hy as [z [<- Hz]]; specialize (T1 z Hz); simpl in *; lia.
      - unfold bounded; rewrite Forall_forall in *; intros y Hy; apply in_map_iff in Hy; destruct Hy as [z [<- Hz]]; specialize (T2 z Hz); cbv beta in T2; cbn [snd]; lia. }
    destruct Ha as [Ha1 Ha2].
    destruct (combine_splits_spec (Nat.min (length occs) (p + 100)) splits adj Hs Ha1) as [C1 C2]; [eapply bounded_le; [|exact Hb]; lia | exact Ha2|].
    destruct f as [|f'].
    + unfold step_size in Hf; simpl in Hf.
      (* one unit of fuel left: the next test fails *)
      exfalso; clear -Hf Hlt; lia.
    + destruct (IH (p + step_size) (combine_splits splits adj)) as [r [R1 [R2 [R3 R4]]]]; [lia | lia | exact C1 | eapply bounded_le; [|exact C2]; unfold step_size; lia|].
      exists r; split; [exact R1|]; split; [exact R2|]; split; [exact R3|]; intros s Hin; right; destruct (R4 s Hin) as [H|[m [H1 H2]]].
      * exists 0; unfold step_size, block_size in *; lia.
      * exists (S m); unfold step_size, block_size in *; lia.
  - exists splits; split; [reflexivity|]; split; [exact Hs|]; split; [eapply bounded_le; [|exact Hb]; lia|].
    intros s Hin; left; unfold bounded in Hb; rewrite Forall_forall in Hb; specialize (Hb s Hin); lia.
Qed.

Lemma splits_spec cyc res occs : exists splits, all_splits cyc res occs = Some splits /\ apart splits /\ bounded (length occs) splits /\
  (2 * block_size < length occs -> forall s, In s splits -> exists m, m * step_size + 50 < length occs /\ snd s < m * step_size + block_size).
Proof.
  unfold all_splits; destruct (Nat.ltb_spec (2 * block_size) (length occs)) as [Hb|Hb].
  - destruct (blocks_spec cyc res occs (length occs) 0 []) as [r [E [H1 [H2 H3]]]]; [unfold block_size, step_size in *; lia | lia | split; constructor | constructor|].
    exists r; split; [exact E|]; split; [exact H1|]; split; [exact H2|]; intros _ s Hs; destruct (H3 s Hs) as [H|[m [H H']]]; [exists 0 | exists m]; unfold step_size, block_size in *; lia.
  - destruct (Nat.eq_dec (length occs) 0) as [E0|E0].
    + destruct occs as [|o occs]; [|discriminate E0]; simpl; exists []; split; [reflexivity|]; split; [split; constructor|]; split; [constructor | unfold block_size; lia].
    + destruct (table_splits cyc res occs) as [scores [sp [E [T1 T2]]]]; [lia|]; rewrite E.
      eexists; split; [reflexivity|]; split; [exact T1|]; split; [exact T2 | lia].
Qed.
Definition indices (s : nat * nat) : list nat := List.seq (fst s) (S (snd s) - fst s).
Lemma apart_indices l : apart l -> NoDup (concat (map indices l)).
Proof.
  intros [H _]; induction H as [|s l Hs H IH]; cbn [map concat]; [constructor|]; apply NoDup_app_intro; [apply seq_NoDup | exact IH|].
  intros i Hi Hin; apply in_seq in Hi; apply in_concat in Hin; destruct Hin as [is [His Hin]]; apply in_map_iff in His; destruct His as [t [<- Ht]].
  apply in_seq in Hin; rewrite Forall_forall in Hs; specialize (Hs t Ht); unfold before in Hs; lia.
Qed.
Lemma sorted_NoDup (l : list Z) : StronglySorted Z.lt l -> NoDup l.
Proof.
  induction 1 as [|x l Hs IH Hx]; constructor; [|exact IH]; intros Hin; rewrite Forall_forall in Hx; specialize (Hx x Hin); lia.
Qed.
Lemma concat_perm_perm {A} (l1 l2 : list (list A)) : Permutation l1 l2 -> Permutation (concat l1) (concat l2).
Proof.
  induction 1 as [|x l l' Hp IH|x y l|l l' l'' H1 IH1 H2 IH2]; cbn [concat]; [constructor | apply Permutation_app_head, IH | | etransitivity; eassumption].
  rewrite !app_assoc; apply Permutation_app_tail, Permutation_app_comm.
Qed.
(* Each occurrence belongs to exactly one cycle or to the residual; every cycle is a run of at least three
   consecutive occurrences; cycles come sorted by their first occurrence and the residual is sorted. *)
Theorem C66_partition : forall cyc res occs, StronglySorted Z.lt occs ->
  exists cycles residual, compute_cycles cyc res occs = Some (cycles, residual) /\
    Permutation (concat cycles ++ residual) occs /\
    (forall c, In c cycles -> 3 <= length c /\ exists a b, a <= b < length occs /\ c = map (fun i => nth i occs 0%Z) (List.seq a (b - a + 1))) /\
    StronglySorted (fun c d => (hd 0 c <= hd 0 d)%Z) cycles /\ StronglySorted Z.lt residual.
Proof.
  intros cyc res occs Hocc; assert (Hnd := sorted_NoDup occs Hocc); unfold compute_cycles.
  destruct (splits_spec cyc res occs) as [splits [-> [H1 [H2 _]]]].
  assert (Hf : filter (fun s => 1 <? snd s - fst s) splits = splits).
  { destruct H1 as [_ H1]; clear -H1; induction H1 as [|s l Hs H IH]; simpl; [reflexivity|]; destruct (Nat.ltb_spec 1 (snd s - fst s)); [rewrite IH; reflexivity | lia]. }
  rewrite Hf; set (cycles := map (fun s => occs_range occs (fst s) (snd s)) splits).
  set (residual := sort Z.leb (nodup Z.eq_dec (filter (fun o => negb (mem o (concat cycles))) occs))).
  exists (sort cyc_leb cycles), residual; split; [reflexivity|].
  assert (Hcc : concat cycles = map (fun i => nth i occs 0%Z) (concat (map indices splits))).
  { unfold cycles; rewrite concat_map, map_map; reflexivity. }
  assert (Hbd : forall i, In i (concat (map indices splits)) -> i < length occs).
  { intros i Hi; apply in_concat in Hi; destruct Hi as [is [His Hi]]; apply in_map_iff in His; destruct His as [s [<- Hs]]; apply in_seq in Hi.
    unfold bounded in H2; rewrite Forall_forall in H2; specialize (H2 s Hs); lia. }
  assert (Hres : forall o, In o residual <-> In o occs /\ ~ In o (concat cycles)).
  { intros o; unfold residual; split.
    - intros Hin; eapply Permutation_in in Hin; [|apply sort_perm]; apply nodup_In, filter_In in Hin; destruct Hin as [Hin Hm]; split; [exact Hin|].
      intros Hc; destruct (mem_spec o (concat cycles)); [discriminate | contradiction].
    - intros [Hin Hc]; eapply Permutation_in; [symmetry; apply sort_perm|]; apply nodup_In, filter_In; split; [exact Hin|].
      destruct (mem_spec o (concat cycles)); [contradiction | reflexivity]. }
  assert (Hrn : NoDup residual) by (eapply Permutation_NoDup; [symmetry; apply sort_perm | apply NoDup_nodup]).
  assert (Hcn : NoDup (concat cycles)).
  { rewrite Hcc; assert (Hin := apart_indices splits H1); clear -Hin Hbd Hnd; induction Hin as [|i l Hi Hn IH]; cbn [map]; [constructor|]; constructor.
    - intros Hx; apply in_map_iff in Hx; destruct Hx as [j [E Hj]]; apply Hi; assert (Hbj := Hbd j (or_intror Hj)); assert (Hbi := Hbd i (or_introl eq_refl)).
      rewrite NoDup_nth in Hnd; rewrite (Hnd j i Hbj Hbi E) in Hj; exact Hj.
    - apply IH; intros j Hj; apply Hbd; right; exact Hj. }
  assert (Hinc : incl (concat cycles) occs) by (rewrite Hcc; intros o Ho; apply in_map_iff in Ho; destruct Ho as [i [<- Hi]]; apply nth_In, Hbd, Hi).
  split; [|split; [|split]].
  - transitivity (concat cycles ++ residual); [apply Permutation_app_tail, concat_perm_perm, sort_perm|].
    apply NoDup_Permutation; [apply NoDup_app_intro; [exact Hcn | exact Hrn | intros o Ho Ho'; apply Hres in Ho'; apply Ho', Ho] | exact Hnd|].
    intros o; rewrite in_app_iff, Hres; split; [intros [H|[H _]]; [apply Hinc, H | exact H]|].
    intros Ho; destruct (in_dec Z.eq_dec o (concat cycles)); [left; assumption | right; split; assumption].
  - intros c Hc; eapply Permutation_in in Hc; [|apply sort_perm]; unfold cycles in Hc; apply in_map_iff in Hc; destruct Hc as [s [<- Hs]].
    destruct H1 as [_ H1]; unfold bounded in H2; rewrite Forall_forall in H1, H2; specialize (H1 s Hs); specialize (H2 s Hs).
    unfold occs_range; rewrite map_length, seq_length; split; [lia|]; exists (fst s), (snd s); split; [lia|]; do 2 f_equal; lia.
  - assert (Hss : StronglySorted (le_rel cyc_leb) (sort cyc_leb cycles)).
    { apply sort_sorted; unfold cyc_leb; [intros x y; rewrite !Z.leb_le; lia | intros x y z; rewrite !Z.leb_le; lia]. }
    clear -Hss; induction Hss as [|c l Hs IH Hc]; constructor; [exact IH|]; eapply Forall_impl; [|exact Hc]; intros d; unfold le_rel, cyc_leb; apply Z.leb_le.
  - assert (Hss : StronglySorted (le_rel Z.leb) residual).
    { apply sort_sorted; [intros x y; rewrite !Z.leb_le; lia | intros x y z; rewrite !Z.leb_le; lia]. }
    clear -Hss Hrn; induction Hss as [|c l Hs IH Hc]; constructor; inversion Hrn as [|? ? Hni Hn']; subst; [apply IH; exact Hn'|].
    rewrite Forall_forall in *; intros d Hd; specialize (Hc d Hd); unfold le_rel in Hc; apply Z.leb_le in Hc; assert (c <> d) by (intros ->; contradiction); lia.
Qed.
Print Assumptions C66_partition.
Example C66_case : StronglySorted Z.lt [1; 3; 5; 7; 20; 21; 30; 40; 50; 61]%Z /\
  compute_cycles demo_cyc 2 [1; 3; 5; 7; 20; 21; 30; 40; 50; 61]%Z = Some ([[1; 3; 5; 7]; [30; 40; 50; 61]], [20; 21])%Z.
Proof. split; [repeat constructor; lia | vm_compute; reflexivity]. Qed.
(* With more than 200 occurrences the blocks may stop before the end: of 210 occurrences the last 30 are
   never examined, so they are residual whatever the costs, even when a cycle costs nothing. *)
Theorem C66_all_examined_refuted : forall cyc res occs, StronglySorted Z.lt occs -> length occs = 210 ->
  exists cycles residual, compute_cycles cyc res occs = Some (cycles, residual) /\
    forall i, 180 <= i < 210 -> In (nth i occs 0%Z) residual.
Proof.
  intros cyc res occs Hs Hl; destruct (C66_partition cyc res occs Hs) as [cycles [residual [E [H1 _]]]]; exists cycles, residual; split; [exact E|].
  intros i Hi; assert (Hin : In (nth i occs 0%Z) (concat cycles ++ residual)) by (eapply Permutation_in; [symmetry; exact H1 | apply nth_In; lia]).
  apply in_app_iff in Hin; destruct Hin as [Hin|Hin]; [|exact Hin]; exfalso.
  unfold compute_cycles in E; destruct (splits_spec cyc res occs) as [splits [E' [_ [H2 H3]]]]; rewrite E' in E; injection E as Ec _.
  apply in_concat in Hin; destruct Hin as [c [Hc Hin]]; rewrite <- Ec in Hc; eapply Permutation_in in Hc; [|apply sort_perm].
  apply in_map_iff in Hc; destruct Hc as [s [<- Hs']]; apply filter_In in Hs'; destruct Hs' as [Hs' _].
  apply in_map_iff in Hin; destruct Hin as [j [Ej Hj]]; apply in_seq in Hj.
  unfold bounded in H2; rewrite Forall_forall in H2; specialize (H2 s Hs').
  destruct (H3 ltac:(unfold block_size; lia) s Hs') as [m [M1 M2]]; unfold step_size, block_size in *.
  assert (Hn := sorted_NoDup occs Hs); rewrite NoDup_nth in Hn; assert (j = i) by (apply (Hn j i); [lia | lia | exact Ej]); lia.
Qed.
Print Assumptions C66_all_examined_refuted.
Example C66_refuted_case : StronglySorted Z.lt (map Z.of_nat (List.seq 0 210)) /\ length (map Z.of_nat (List.seq 0 210)) = 210.
Proof.
  split; [|reflexivity].
  assert (G : forall k a, StronglySorted Z.lt (map Z.of_nat (List.seq a k))).
  { induction k as [|k IH]; intros a; cbn [List.seq map]; constructor; [apply IH|]; apply Forall_forall; intros z Hz; apply in_map_iff in Hz; destruct Hz as [j [<- Hj]]; apply in_seq in Hj; lia. }
  apply G.
Qed.
