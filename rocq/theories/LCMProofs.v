From Verif Require Import Prelude FilterModel FilterProofs CheckModel LCMModel.
From Coq Require Import QArith.
Local Open Scope nat_scope.

(* ForallOrdPairs over appended / flattened lists *)
Lemma FOP_app {A} (R : A -> A -> Prop) l1 l2 :
  ForallOrdPairs R l1 -> ForallOrdPairs R l2 ->
  (forall x y, In x l1 -> In y l2 -> R x y) -> ForallOrdPairs R (l1 ++ l2).
Proof.
  induction 1 as [|x l Hx Hl IH]; intros H2 Hc; simpl; [exact H2|].
  constructor.
  - apply Forall_app; split; [exact Hx|]. apply Forall_forall; intros y Hy; apply Hc; [left; reflexivity | exact Hy].
  - apply IH; [exact H2|]; intros a b Ha Hb; apply Hc; [right; exact Ha | exact Hb].
Qed.
Lemma FOP_flat_map {A B} (R : B -> B -> Prop) (f : A -> list B) l :
  (forall x, In x l -> ForallOrdPairs R (f x)) ->
  ForallOrdPairs (fun a a' => forall x y, In x (f a) -> In y (f a') -> R x y) l ->
  ForallOrdPairs R (flat_map f l).
Proof.
  intros Hf Hp; induction Hp as [|a l Ha Hl IH]; simpl; [constructor|].
  apply FOP_app.
  - apply Hf; left; reflexivity.
  - apply IH; intros x Hx; apply Hf; right; exact Hx.
  - intros x y Hx Hy; apply in_flat_map in Hy; destruct Hy as [a' [Ha' Hy]].
    rewrite Forall_forall in Ha; apply (Ha a' Ha' x y Hx Hy).
Qed.
Lemma FOP_NoDup {A} (R : A -> A -> Prop) l :
  NoDup l -> (forall x y, In x l -> In y l -> x <> y -> R x y) -> ForallOrdPairs R l.
Proof.
  induction 1 as [|x l Hx Hl IH]; intros Hr; constructor.
  - apply Forall_forall; intros y Hy; apply Hr; [left; reflexivity | right; exact Hy | congruence].
  - apply IH; intros a b Ha Hb; apply Hr; right; assumption.
Qed.
Lemma FOP_map {A B} (R : B -> B -> Prop) (f : A -> B) l :
  ForallOrdPairs (fun x y => R (f x) (f y)) l -> ForallOrdPairs R (map f l).
Proof.
  induction 1 as [|x l Hx Hl IH]; simpl; constructor; [|exact IH].
  apply Forall_map; exact Hx.
Qed.
Lemma FOP_impl {A} (R R' : A -> A -> Prop) l :
  (forall x y, In x l -> In y l -> R x y -> R' x y) -> ForallOrdPairs R l -> ForallOrdPairs R' l.
Proof.
  intros Hi Hp; induction Hp as [|x l Hx Hl IH]; constructor.
  - rewrite Forall_forall in *; intros y Hy; apply Hi; [left; reflexivity | right; exact Hy | apply Hx, Hy].
  - apply IH; intros a b Ha Hb; apply Hi; right; assumption.
Qed.
Lemma FOP_filter {A} (R : A -> A -> Prop) (f : A -> bool) l :
  ForallOrdPairs R l -> ForallOrdPairs R (filter f l).
Proof.
  induction 1 as [|x l Hx Hl IH]; simpl; [constructor|].
  destruct (f x); [constructor; [|exact IH] | exact IH].
  rewrite Forall_forall in *; intros y Hy; apply filter_In in Hy; apply Hx, Hy.
Qed.
Lemma FOP_nth {A} (R : A -> A -> Prop) l : ForallOrdPairs R l ->
  forall i j x y, i < j -> nth_error l i = Some x -> nth_error l j = Some y -> R x y.
Proof.
  induction 1 as [|a l Ha Hl IH]; intros i j x y Hij Hi Hj.
  - destruct i; discriminate.
  - destruct j as [|j]; [lia|]; simpl in Hj.
    destruct i as [|i]; simpl in Hi.
    + injection Hi as <-; rewrite Forall_forall in Ha; apply Ha; eapply nth_error_In; exact Hj.
    + apply (IH i j); [lia | exact Hi | exact Hj].
Qed.

Definition same_set {A} (a b : list A) : Prop := incl a b /\ incl b a.
Lemma same_set_refl {A} (a : list A) : same_set a a.
Proof. split; apply incl_refl. Qed.
Lemma same_set_sym {A} (a b : list A) : same_set a b -> same_set b a.
Proof. intros [? ?]; split; assumption. Qed.
Lemma same_set_trans {A} (a b c : list A) : same_set a b -> same_set b c -> same_set a c.
Proof. intros [? ?] [? ?]; split; eapply incl_tran; eassumption. Qed.

Lemma seq_sorted_lt n k : StronglySorted lt (seq k n).
Proof.
  revert k; induction n as [|n IH]; intros k; simpl; constructor; [apply IH|].
  apply Forall_forall; intros x Hx; apply in_seq in Hx; lia.
Qed.
Lemma filter_sorted {A} (R : A -> A -> Prop) (f : A -> bool) l :
  StronglySorted R l -> StronglySorted R (filter f l).
Proof.
  induction 1 as [|x l Hl IH Hx]; simpl; [constructor|].
  destruct (f x); [constructor; [exact IH|] | exact IH].
  rewrite Forall_forall in *; intros y Hy; apply filter_In in Hy; apply Hx, Hy.
Qed.
Lemma bisect_prefix l x : StronglySorted lt l ->
  firstn (bisect_left l x) l = filter (fun y => y <? x) l.
Proof.
  unfold bisect_left; induction 1 as [|y l Hl IH Hy]; simpl; [reflexivity|].
  destruct (y <? x) eqn:E; simpl; [rewrite IH; reflexivity|].
  apply Nat.ltb_ge in E.
  replace (filter (fun z => z <? x) l) with (@nil nat); [reflexivity|].
  symmetry; rewrite <- (IH). clear IH.
  assert (F : filter (fun z => z <? x) l = []).
  { rewrite Forall_forall in Hy. clear Hl. induction l as [|z l IHl]; simpl; [reflexivity|].
    destruct (z <? x) eqn:Ez.
    - apply Nat.ltb_lt in Ez; specialize (Hy z (or_introl eq_refl)); lia.
    - apply IHl; intros w Hw; apply Hy; right; exact Hw. }
  rewrite F; reflexivity.
Qed.

(* the largest element of a non-empty list of naturals *)
Lemma list_max_ex (l : list nat) : l <> [] -> exists m, In m l /\ forall x, In x l -> x <= m.
Proof.
  induction l as [|x l IH]; [congruence|]; intros _.
  destruct l as [|y l].
  - exists x; split; [left; reflexivity|]; intros z [<-|[]]; lia.
  - destruct IH as [m [Hm Hx]]; [congruence|].
    destruct (Nat.le_ge_cases x m) as [E|E].
    + exists m; split; [right; exact Hm|]; intros z [<-|Hz]; [lia | auto].
    + exists x; split; [left; reflexivity|]; intros z [<-|Hz]; [lia|]; specialize (Hx z Hz); lia.
Qed.

Section SearchProofs.
  Context (reach : nat -> bool) (tab : list (list nat)) (U : list nat).
  Context (reach_mono : forall a b, a <= b -> reach a = true -> reach b = true).
  Context (U_nodup : NoDup U).
  (* the tids of each item, listed in the order of the universe *)
  Context (tab_ok : forall i, i < length tab -> ids tab i = filter (fun t => mem t (ids tab i)) U).

  Notation ids := (ids tab).
  Notation keys := (keys tab).

  Definition tset (C : list nat) : list nat :=
    filter (fun t => forallb (fun i => mem t (ids i)) C) U.
  Definition closed (C : list nat) : Prop :=
    incl C keys /\ forall i, In i keys -> incl (tset C) (ids i) -> In i C.

  Lemma In_keys i : In i keys <-> i < length tab.
  Proof. unfold LCMModel.keys; rewrite in_seq; lia. Qed.
  Lemma In_tset t C : In t (tset C) <-> In t U /\ forall i, In i C -> In t (ids i).
  Proof.
    unfold tset; rewrite filter_In, forallb_forall.
    split; intros [Hu Hf]; (split; [exact Hu|]); intros i Hi; apply mem_In; auto.
  Qed.
  Lemma tset_ext C C' : same_set C C' -> tset C = tset C'.
  Proof.
    intros [H1 H2]; unfold tset; apply filter_ext_In; intros t _.
    apply eq_true_iff_eq; rewrite !forallb_forall; split; intros Hf i Hi; apply Hf; auto.
  Qed.
  Lemma tset_anti C C' : incl C C' -> incl (tset C') (tset C).
  Proof. intros Hi t Ht; apply In_tset in Ht; apply In_tset; split; [tauto|]; intros i Hc; apply Ht, Hi, Hc. Qed.
  Lemma NoDup_tset C : NoDup (tset C).
  Proof. apply NoDup_filter, U_nodup. Qed.
  Lemma tset_single i : i < length tab -> tset [i] = ids i.
  Proof.
    intros Hi; transitivity (filter (fun t => mem t (ids i)) U); [|symmetry; apply tab_ok, Hi].
    unfold tset; apply filter_ext_In; intros t _; simpl; apply andb_true_r.
  Qed.
  Lemma tset_cons i C : tset (i :: C) = inter (tset C) (ids i).
  Proof.
    unfold tset, inter; clear; induction U as [|t u IH]; simpl; [reflexivity|].
    destruct (mem t (ids i)) eqn:E1; simpl.
    - destruct (forallb (fun i0 => mem t (ids i0)) C) eqn:E2; simpl; [rewrite E1|]; rewrite <- IH; reflexivity.
    - destruct (forallb (fun i0 => mem t (ids i0)) C) eqn:E2; simpl; [rewrite E1|]; rewrite <- IH; reflexivity.
  Qed.
  Lemma tset_incl_ids C i : In i C -> incl (tset C) (ids i).
  Proof. intros Hi t Ht; apply In_tset in Ht; apply Ht, Hi. Qed.
  Lemma tset_len_anti C C' : incl C C' -> length (tset C') <= length (tset C).
  Proof. intros Hi; apply NoDup_incl_length; [apply NoDup_tset | apply tset_anti, Hi]. Qed.

  Lemma In_cp i p tids : In i (cp tab p tids) <-> i < length tab /\ incl tids (ids i) /\ ~ In i p.
  Proof.
    unfold cp; rewrite !filter_In, <- in_rev, In_keys, subset_incl, negb_true_iff, mem_false; tauto.
  Qed.
  Lemma cp_desc p tids : StronglySorted (fun a b => b < a) (cp tab p tids).
  Proof.
    unfold cp; apply filter_sorted, filter_sorted.
    unfold LCMModel.keys; generalize (length tab); intros n; clear.
    assert (G : forall l, StronglySorted lt l -> StronglySorted (fun a b => b < a) (rev l)).
    { induction 1 as [|x l Hl IH Hx]; simpl; [constructor|].
      revert IH Hx; clear; generalize (in_rev l); generalize (rev l).
      intros r Hr Hs Hx; rewrite Forall_forall in Hx.
      assert (Hx' : forall y, In y r -> x < y) by (intros y Hy; apply Hx, Hr, Hy).
      clear Hx Hr; induction Hs as [|y r Hs IH Hy]; simpl; [repeat constructor|].
      constructor.
      - apply IH; intros z Hz; apply Hx'; right; exact Hz.
      - apply Forall_app; split; [exact Hy|]; repeat constructor; apply Hx'; left; reflexivity. }
    apply G, seq_sorted_lt.
  Qed.

  (* what [extend] computes *)
  Lemma extend_spec p tids limit : limit < length tab -> ~ In limit p -> incl tids (ids limit) ->
    match extend tab p tids limit with
    | Some p' => (forall i, In i p' <-> In i p \/ (i < length tab /\ incl tids (ids i)))
                 /\ (forall i, In i p' -> ~ In i p -> i <= limit)
                 /\ (NoDup p -> NoDup p')
    | None => exists i, limit < i /\ i < length tab /\ incl tids (ids i) /\ ~ In i p
    end.
  Proof.
    intros Hl Hp Hi; unfold extend.
    assert (Hin : In limit (cp tab p tids)) by (apply In_cp; auto).
    pose proof (cp_desc p tids) as Hs.
    pose proof (fun i => In_cp i p tids) as Hc.
    destruct (cp tab p tids) as [|k rest]; [destruct Hin|].
    inversion Hs as [|? ? Hs' Hk]; subst; rewrite Forall_forall in Hk.
    assert (Hle : limit <= k) by (destruct Hin as [->|Hin]; [lia|]; specialize (Hk _ Hin); lia).
    destruct (Nat.leb_spec limit k) as [_|?]; [|lia].
    destruct (Nat.eqb_spec k limit) as [->|Hne].
    - split; [|split].
      + intros i; rewrite !In_union; specialize (Hc i); simpl in Hc; simpl.
        destruct (mem_spec i p); tauto.
      + intros i Hi' Hn; rewrite !In_union in Hi'; simpl in Hi'.
        destruct Hi' as [[Hi'|Hi']|[<-|[]]]; [tauto | | lia].
        specialize (Hk i Hi'); lia.
      + intros Np. unfold union.
        assert (Nr : NoDup rest).
        { clear - Hs'. induction Hs' as [|x l Hl IH Hx]; constructor; [|exact IH].
          intros Hin; rewrite Forall_forall in Hx; specialize (Hx x Hin); lia. }
        assert (N1 : NoDup (p ++ diff rest p)).
        { apply NoDup_app_intro; [exact Np | apply NoDup_diff, Nr |].
          intros x H1 H2; apply In_diff in H2; tauto. }
        apply NoDup_app_intro; [exact N1 | apply NoDup_diff; repeat constructor; simpl; tauto |].
        intros x H1 H2; apply In_diff in H2; tauto.
    - exists k; specialize (Hc k); simpl in Hc; split; [lia|]; tauto.
  Qed.

  Lemma candidates_spec p' limit m :
    In m (candidates tab p' limit) <-> m < length tab /\ ~ In m p' /\ m < limit.
  Proof.
    unfold candidates; rewrite bisect_prefix.
    - rewrite filter_In, In_diff, In_keys, Nat.ltb_lt; tauto.
    - apply filter_sorted; unfold LCMModel.keys; apply seq_sorted_lt.
  Qed.
  Lemma candidates_NoDup p' limit : NoDup (candidates tab p' limit).
  Proof.
    unfold candidates; rewrite bisect_prefix.
    - apply NoDup_filter, NoDup_diff, seq_NoDup.
    - apply filter_sorted; unfold LCMModel.keys; apply seq_sorted_lt.
  Qed.

  (* the node invariant *)
  Record node (p tids : list nat) (limit : nat) : Prop := {
    n_tids : tids = tset (limit :: p);
    n_nodup : NoDup p;
    n_keys : incl p keys;
    n_fresh : ~ In limit p;
    n_lt : limit < length tab;
    n_reach : reach (length tids) = true }.

  (* the sets that the subtree below a node is responsible for *)
  Definition below (p : list nat) (limit : nat) (C : list nat) : Prop :=
    incl p C /\ In limit C /\ forall x, In x C -> ~ In x p -> x <= limit.

  Lemma extend_node p tids limit p' : node p tids limit -> extend tab p tids limit = Some p' ->
    tset p' = tids /\ closed p' /\ below p limit p' /\ NoDup p'.
  Proof.
    intros [Ht Np Hk Hf Hl Hr] He.
    assert (Hids : incl tids (ids limit)).
    { rewrite Ht; apply tset_incl_ids; left; reflexivity. }
    pose proof (extend_spec p tids limit Hl Hf Hids) as Hs; rewrite He in Hs.
    destruct Hs as [Hin [Hmax Hnd]].
    assert (Hlim : In limit p') by (apply Hin; right; auto).
    assert (Hpp : incl p p') by (intros i Hi; apply Hin; left; exact Hi).
    assert (Hall : forall i, In i p' -> incl tids (ids i)).
    { intros i Hi; apply Hin in Hi; destruct Hi as [Hi|Hi]; [|tauto].
      rewrite Ht; apply tset_incl_ids; right; exact Hi. }
    assert (E : tset p' = tids).
    { rewrite Ht; unfold tset; apply filter_ext_In; intros t Hu.
      apply eq_true_iff_eq; rewrite !forallb_forall; split; intros Hf' i Hi.
      - apply Hf'; destruct Hi as [<-|Hi]; auto.
      - apply mem_In, (Hall i Hi); rewrite Ht; apply In_tset; split; [exact Hu|].
        intros j Hj; apply mem_In, Hf', Hj. }
    repeat split; auto.
    - intros i Hi; apply Hin in Hi; destruct Hi as [Hi|Hi]; [apply Hk, Hi | apply In_keys; tauto].
    - intros i Hi Hc; apply Hin; right; split; [apply In_keys, Hi | rewrite <- E; exact Hc].
  Qed.

  Lemma child_node p tids limit p' m : node p tids limit -> extend tab p tids limit = Some p' ->
    In m (candidates tab p' limit) -> reach (length (inter tids (ids m))) = true ->
    node p' (inter tids (ids m)) m.
  Proof.
    intros Hn He Hm Hr; destruct (extend_node p tids limit p' Hn He) as [E [[Hk _] [_ Nd]]].
    apply candidates_spec in Hm; constructor; try tauto.
    rewrite tset_cons, E; reflexivity.
  Qed.

  Lemma inner_sound : forall fuel p tids limit C ts, node p tids limit ->
    In (C, ts) (inner reach tab fuel p tids limit) ->
    ts = tset C /\ closed C /\ below p limit C /\ NoDup C /\ reach (length ts) = true.
  Proof.
    induction fuel as [|fuel IH]; intros p tids limit C ts Hn Hin; simpl in Hin; [destruct Hin|].
    destruct (extend tab p tids limit) as [p'|] eqn:He; [|destruct Hin].
    destruct (extend_node p tids limit p' Hn He) as [E [Hc [Hb Nd]]].
    destruct Hin as [Hin|Hin].
    - injection Hin as <- <-; repeat split; try apply Hb; try apply Hc; auto; apply Hn.
    - apply in_flat_map in Hin; destruct Hin as [m [Hm Hin]].
      destruct (reach (length (inter tids (ids m)))) eqn:Hr; [|destruct Hin].
      destruct (IH _ _ _ _ _ (child_node _ _ _ _ _ Hn He Hm Hr) Hin) as [Et [Hcl [[B1 [B2 B3]] [Nc Hre]]]].
      apply candidates_spec in Hm.
      destruct Hb as [P1 [P2 P3]].
      split; [exact Et|]; split; [exact Hcl|]; split; [|split; assumption].
      split; [|split].
      + eapply incl_tran; eassumption.
      + apply B1, P2.
      + intros x Hx Hnx; destruct (mem_spec x p') as [Hxp|Hxp]; [apply P3; assumption|].
        specialize (B3 x Hx Hxp); lia.
  Qed.

  Lemma inner_complete : forall fuel p tids limit C, limit < fuel -> node p tids limit ->
    closed C -> below p limit C -> reach (length (tset C)) = true ->
    exists C', In (C', tset C') (inner reach tab fuel p tids limit) /\ same_set C' C.
  Proof.
    induction fuel as [|fuel IH]; intros p tids limit C Hf Hn Hc Hb Hr; [lia|].
    simpl; pose proof Hn as [Ht Np Hk Hfr Hl Hre]; destruct Hb as [B1 [B2 B3]].
    assert (Hids : incl tids (ids limit)).
    { rewrite Ht; apply tset_incl_ids; left; reflexivity. }
    assert (Hsub : incl (limit :: p) C) by (intros x [<-|Hx]; auto).
    assert (Hup : forall i, i < length tab -> incl tids (ids i) -> In i C).
    { intros i Hi Hti; apply Hc; [apply In_keys, Hi|].
      eapply incl_tran; [|exact Hti]; rewrite Ht; apply tset_anti, Hsub. }
    pose proof (extend_spec p tids limit Hl Hfr Hids) as Hs.
    destruct (extend tab p tids limit) as [p'|] eqn:He.
    2:{ destruct Hs as [i [Hi [Hlt [Hti Hni]]]]; specialize (B3 i (Hup i Hlt Hti) Hni); lia. }
    destruct Hs as [Hin _].
    destruct (extend_node p tids limit p' Hn He) as [E [Hcp [Hbp Nd]]].
    assert (Hpc : incl p' C).
    { intros i Hi; apply Hin in Hi; destruct Hi as [Hi|[Hi Hti]]; auto. }
    destruct (subset C p') eqn:Es.
    - exists p'; split; [left; rewrite E; reflexivity|]; split; [exact Hpc | apply subset_incl, Es].
    - apply subset_false in Es.
      destruct (list_max_ex (diff C p')) as [m [Hm Hmax]].
      { intros Hnil; apply Es; intros x Hx; destruct (mem_spec x p') as [|Hx']; [assumption|].
        assert (Hd : In x (diff C p')) by (apply In_diff; auto); rewrite Hnil in Hd; destruct Hd. }
      apply In_diff in Hm; destruct Hm as [Hm Hmp].
      assert (Hml : m < limit).
      { destruct Hbp as [P1 [P2 P3]].
        assert (~ In m p) by (intros Hmp'; apply Hmp, P1, Hmp').
        specialize (B3 m Hm H); assert (m <> limit) by congruence; lia. }
      assert (Hmk : m < length tab) by (apply In_keys, Hc, Hm).
      assert (Hcand : In m (candidates tab p' limit)) by (apply candidates_spec; auto).
      assert (Hrm : reach (length (inter tids (ids m))) = true).
      { rewrite <- E, <- tset_cons; eapply reach_mono; [|exact Hr]; apply tset_len_anti.
        intros x [<-|Hx]; auto. }
      destruct (IH p' (inter tids (ids m)) m C) as [C' [HC' Hsame]].
      + lia.
      + eapply child_node; eassumption.
      + exact Hc.
      + repeat split; auto. intros x Hx Hxp; apply Hmax, In_diff; auto.
      + exact Hr.
      + exists C'; split; [|exact Hsame].
        right; apply in_flat_map; exists m; split; [exact Hcand|]; rewrite Hrm; exact HC'.
  Qed.

  Lemma inner_unique : forall fuel p tids limit, node p tids limit ->
    ForallOrdPairs (fun e f => ~ same_set (fst e) (fst f)) (inner reach tab fuel p tids limit).
  Proof.
    induction fuel as [|fuel IH]; intros p tids limit Hn; simpl; [constructor|].
    destruct (extend tab p tids limit) as [p'|] eqn:He; [|constructor].
    constructor.
    - apply Forall_forall; intros [C ts] Hin; simpl; intros [S1 S2].
      apply in_flat_map in Hin; destruct Hin as [m [Hm Hin]].
      destruct (reach (length (inter tids (ids m)))) eqn:Hr; [|destruct Hin].
      destruct (inner_sound _ _ _ _ _ _ (child_node _ _ _ _ _ Hn He Hm Hr) Hin) as [_ [_ [[_ [B2 _]] _]]].
      apply candidates_spec in Hm; apply Hm, S2, B2.
    - apply FOP_flat_map.
      + intros m Hm; destruct (reach (length (inter tids (ids m)))) eqn:Hr; [|constructor].
        apply IH; eapply child_node; eassumption.
      + apply FOP_NoDup; [apply candidates_NoDup|].
        intros m m' Hm Hm' Hne [C ts] [C' ts'] Hin Hin'; simpl; intros [S1 S2].
        destruct (reach (length (inter tids (ids m)))) eqn:Hr; [|destruct Hin].
        destruct (reach (length (inter tids (ids m')))) eqn:Hr'; [|destruct Hin'].
        destruct (inner_sound _ _ _ _ _ _ (child_node _ _ _ _ _ Hn He Hm Hr) Hin) as [_ [_ [[_ [B2 B3]] _]]].
        destruct (inner_sound _ _ _ _ _ _ (child_node _ _ _ _ _ Hn He Hm' Hr') Hin') as [_ [_ [[_ [B2' B3']] _]]].
        apply candidates_spec in Hm; apply candidates_spec in Hm'.
        pose proof (B3' m (S1 _ B2) (proj1 (proj2 Hm))) as Q1;
        pose proof (B3 m' (S2 _ B2') (proj1 (proj2 Hm'))) as Q2; lia.
  Qed.

  Lemma root_node i : i < length tab -> reach (length (ids i)) = true -> node [] (ids i) i.
  Proof.
    intros Hi Hr; constructor; auto.
    - symmetry; apply tset_single, Hi.
    - constructor.
    - intros x [].
  Qed.

  (* all items of the table are frequent (lcm.py 126-128) *)
  Context (tab_freq : forall i, i < length tab -> reach (length (ids i)) = true).

  Definition all_nodes : list (list nat * list nat) := flat_map (explore reach tab) keys.

  Lemma all_sound C ts : In (C, ts) all_nodes ->
    ts = tset C /\ closed C /\ C <> [] /\ NoDup C /\ reach (length ts) = true.
  Proof.
    intros Hin; apply in_flat_map in Hin; destruct Hin as [i [Hi Hin]]; apply In_keys in Hi.
    destruct (inner_sound _ _ _ _ _ _ (root_node i Hi (tab_freq i Hi)) Hin) as [E [Hc [[_ [B _]] [Nd Hr]]]].
    repeat split; try apply Hc; auto; intros ->; destruct B.
  Qed.
  Lemma all_complete C : closed C -> C <> [] -> reach (length (tset C)) = true ->
    exists C', In (C', tset C') all_nodes /\ same_set C' C.
  Proof.
    intros Hc Hne Hr; destruct (list_max_ex C Hne) as [m [Hm Hmax]].
    assert (Hmk : In m keys) by (apply Hc, Hm).
    pose proof Hmk as Hml; apply In_keys in Hml.
    destruct (inner_complete (S m) [] (ids m) m C) as [C' [HC' Hs]].
    - lia.
    - apply root_node; auto.
    - exact Hc.
    - repeat split; [intros x [] | exact Hm | intros x Hx _; apply Hmax, Hx].
    - exact Hr.
    - exists C'; split; [|exact Hs]; apply in_flat_map; exists m; split; [exact Hmk | exact HC'].
  Qed.
  Lemma all_unique : ForallOrdPairs (fun e f => ~ same_set (fst e) (fst f)) all_nodes.
  Proof.
    apply FOP_flat_map.
    - intros i Hi; apply In_keys in Hi; apply inner_unique, root_node; auto.
    - apply FOP_NoDup; [apply seq_NoDup|].
      intros i j Hi Hj Hne [C ts] [C' ts'] Hin Hin'; simpl; intros [S1 S2].
      apply In_keys in Hi; apply In_keys in Hj.
      destruct (inner_sound _ _ _ _ _ _ (root_node i Hi (tab_freq i Hi)) Hin) as [_ [_ [[_ [B2 B3]] _]]].
      destruct (inner_sound _ _ _ _ _ _ (root_node j Hj (tab_freq j Hj)) Hin') as [_ [_ [[_ [B2' B3']] _]]].
      pose proof (B3' i (S1 _ B2) (fun h => h)) as Q1;
      pose proof (B3 j (S2 _ B2') (fun h => h)) as Q2; lia.
  Qed.

  (* ----------------------------------------------------------- LCMMax *)
  Lemma extend_max_eq p tids limit : node p tids limit -> extend_max tab p tids limit = extend tab p tids limit.
  Proof.
    intros [Ht Np Hk Hf Hl Hr]; unfold extend_max, extend.
    assert (Hids : incl tids (ids limit)).
    { rewrite Ht; apply tset_incl_ids; left; reflexivity. }
    assert (Hin : In limit (cp tab p tids)) by (apply In_cp; auto).
    pose proof (cp_desc p tids) as Hs.
    destruct (cp tab p tids) as [|k rest]; [reflexivity|].
    inversion Hs as [|? ? _ Hkk]; subst; rewrite Forall_forall in Hkk.
    assert (Hle : limit <= k) by (destruct Hin as [->|Hin]; [lia|]; specialize (Hkk _ Hin); lia).
    destruct (Nat.leb_spec limit k); [reflexivity | lia].
  Qed.

  Lemma inner_max_incl : forall fuel p tids limit, node p tids limit ->
    incl (inner_max reach tab fuel p tids limit) (inner reach tab fuel p tids limit).
  Proof.
    induction fuel as [|fuel IH]; intros p tids limit Hn e Hin; simpl in *; [destruct Hin|].
    rewrite (extend_max_eq p tids limit Hn) in Hin.
    destruct (extend tab p tids limit) as [p'|] eqn:He; [|destruct Hin].
    apply in_app_iff in Hin; destruct Hin as [Hin|Hin].
    - right; apply in_flat_map in Hin; destruct Hin as [m [Hm Hin]].
      apply in_flat_map; exists m; split; [exact Hm|].
      destruct (reach (length (inter tids (ids m)))) eqn:Hr; [|destruct Hin].
      apply (IH p' _ m); [eapply child_node; eassumption | exact Hin].
    - destruct (existsb _ _); [destruct Hin|]; left; destruct Hin as [Hin|[]]; exact Hin.
  Qed.

  Definition max_freq (C : list nat) : Prop :=
    forall i, In i keys -> reach (length (tset (i :: C))) = true -> In i C.

  Lemma inner_max_keeps : forall fuel p tids limit C, limit < fuel -> node p tids limit ->
    closed C -> below p limit C -> reach (length (tset C)) = true -> max_freq C ->
    exists C', In (C', tset C') (inner_max reach tab fuel p tids limit) /\ same_set C' C.
  Proof.
    induction fuel as [|fuel IH]; intros p tids limit C Hf Hn Hc Hb Hr Hmx; [lia|].
    simpl; rewrite (extend_max_eq p tids limit Hn).
    pose proof Hn as [Ht Np Hk Hfr Hl Hre]; destruct Hb as [B1 [B2 B3]].
    assert (Hids : incl tids (ids limit)).
    { rewrite Ht; apply tset_incl_ids; left; reflexivity. }
    assert (Hsub : incl (limit :: p) C) by (intros x [<-|Hx]; auto).
    assert (Hup : forall i, i < length tab -> incl tids (ids i) -> In i C).
    { intros i Hi Hti; apply Hc; [apply In_keys, Hi|].
      eapply incl_tran; [|exact Hti]; rewrite Ht; apply tset_anti, Hsub. }
    pose proof (extend_spec p tids limit Hl Hfr Hids) as Hs.
    destruct (extend tab p tids limit) as [p'|] eqn:He.
    2:{ destruct Hs as [i [Hi [Hlt [Hti Hni]]]]; specialize (B3 i (Hup i Hlt Hti) Hni); lia. }
    destruct Hs as [Hin _].
    destruct (extend_node p tids limit p' Hn He) as [E [Hcp [Hbp Nd]]].
    assert (Hpc : incl p' C).
    { intros i Hi; apply Hin in Hi; destruct Hi as [Hi|[Hi Hti]]; auto. }
    destruct (subset C p') eqn:Es.
    - apply subset_incl in Es.
      exists p'; split; [|split; assumption].
      apply in_app_iff; right; rewrite E.
      destruct (existsb _ _) eqn:Ex; [|left; reflexivity].
      apply existsb_exists in Ex; destruct Ex as [m [Hm Hrm]].
      apply candidates_spec in Hm; destruct Hm as [Hm1 [Hm2 _]].
      exfalso; apply Hm2, (proj1 (conj Es Es)), Hmx; [apply In_keys, Hm1|].
      rewrite <- E, <- tset_cons in Hrm.
      rewrite (tset_ext (m :: C) (m :: p')); [exact Hrm|].
      split; intros x [<-|Hx]; simpl; auto.
    - apply subset_false in Es.
      destruct (list_max_ex (diff C p')) as [m [Hm Hmax]].
      { intros Hnil; apply Es; intros x Hx; destruct (mem_spec x p') as [|Hx']; [assumption|].
        assert (Hd : In x (diff C p')) by (apply In_diff; auto); rewrite Hnil in Hd; destruct Hd. }
      apply In_diff in Hm; destruct Hm as [Hm Hmp].
      assert (Hml : m < limit).
      { destruct Hbp as [P1 [P2 P3]].
        assert (~ In m p) by (intros Hmp'; apply Hmp, P1, Hmp').
        specialize (B3 m Hm H); assert (m <> limit) by congruence; lia. }
      assert (Hmk : m < length tab) by (apply In_keys, Hc, Hm).
      assert (Hcand : In m (candidates tab p' limit)) by (apply candidates_spec; auto).
      assert (Hrm : reach (length (inter tids (ids m))) = true).
      { rewrite <- E, <- tset_cons; eapply reach_mono; [|exact Hr]; apply tset_len_anti.
        intros x [<-|Hx]; auto. }
      destruct (IH p' (inter tids (ids m)) m C) as [C' [HC' Hsame]]; auto.
      + lia.
      + eapply child_node; eassumption.
      + repeat split; auto. intros x Hx Hxp; apply Hmax, In_diff; auto.
      + exists C'; split; [|exact Hsame].
        apply in_app_iff; left; apply in_flat_map; exists m; split; [exact Hcand|]; rewrite Hrm; exact HC'.
  Qed.

  Lemma inner_max_unique : forall fuel p tids limit, node p tids limit ->
    ForallOrdPairs (fun e f => ~ same_set (fst e) (fst f)) (inner_max reach tab fuel p tids limit).
  Proof.
    induction fuel as [|fuel IH]; intros p tids limit Hn; simpl; [constructor|].
    rewrite (extend_max_eq p tids limit Hn).
    destruct (extend tab p tids limit) as [p'|] eqn:He; [|constructor].
    assert (Snd : forall m C ts, In m (candidates tab p' limit) ->
      In (C, ts) (if reach (length (inter tids (ids m))) then inner_max reach tab fuel p' (inter tids (ids m)) m else []) ->
      below p' m C).
    { intros m C ts Hm Hin; destruct (reach (length (inter tids (ids m)))) eqn:Hr; [|destruct Hin].
      pose proof (child_node _ _ _ _ _ Hn He Hm Hr) as Hcn.
      apply inner_max_incl in Hin; [|exact Hcn].
      apply (inner_sound _ _ _ _ _ _ Hcn Hin). }
    apply FOP_app.
    - apply FOP_flat_map.
      + intros m Hm; destruct (reach (length (inter tids (ids m)))) eqn:Hr; [|constructor].
        apply IH; eapply child_node; eassumption.
      + apply FOP_NoDup; [apply candidates_NoDup|].
        intros m m' Hm Hm' Hne [C ts] [C' ts'] Hin Hin'; simpl; intros [S1 S2].
        destruct (Snd m C ts Hm Hin) as [_ [B2 B3]].
        destruct (Snd m' C' ts' Hm' Hin') as [_ [B2' B3']].
        apply candidates_spec in Hm; apply candidates_spec in Hm'.
        pose proof (B3' m (S1 _ B2) (proj1 (proj2 Hm))) as Q1;
        pose proof (B3 m' (S2 _ B2') (proj1 (proj2 Hm'))) as Q2; lia.
    - destruct (existsb _ _); repeat constructor.
    - intros [C ts] [C' ts'] Hin Hin'; simpl; intros [S1 S2].
      apply in_flat_map in Hin; destruct Hin as [m [Hm Hin]].
      destruct (Snd m C ts Hm Hin) as [_ [B2 B3]].
      destruct (existsb _ _); [destruct Hin'|]; destruct Hin' as [Hin'|[]]; injection Hin' as <- <-.
      apply candidates_spec in Hm; apply Hm, S1, B2.
  Qed.

  Definition all_max : list (list nat * list nat) := flat_map (explore_max reach tab) keys.

  Lemma all_max_incl : incl all_max all_nodes.
  Proof.
    intros e Hin; apply in_flat_map in Hin; destruct Hin as [i [Hi Hin]].
    apply in_flat_map; exists i; split; [exact Hi|]; apply In_keys in Hi.
    eapply inner_max_incl; [apply root_node; auto | exact Hin].
  Qed.
  Lemma all_max_keeps C : closed C -> C <> [] -> reach (length (tset C)) = true -> max_freq C ->
    exists C', In (C', tset C') all_max /\ same_set C' C.
  Proof.
    intros Hc Hne Hr Hmx; destruct (list_max_ex C Hne) as [m [Hm Hmax]].
    assert (Hmk : In m keys) by (apply Hc, Hm).
    pose proof Hmk as Hml; apply In_keys in Hml.
    destruct (inner_max_keeps (S m) [] (ids m) m C) as [C' [HC' Hs]]; auto.
    - apply root_node; auto.
    - repeat split; [intros x [] | exact Hm | intros x Hx _; apply Hmax, Hx].
    - exists C'; split; [|exact Hs]; apply in_flat_map; exists m; split; [exact Hmk | exact HC'].
  Qed.
  Lemma all_max_unique : ForallOrdPairs (fun e f => ~ same_set (fst e) (fst f)) all_max.
  Proof.
    apply FOP_flat_map.
    - intros i Hi; apply In_keys in Hi; apply inner_max_unique, root_node; auto.
    - apply FOP_NoDup; [apply seq_NoDup|].
      intros i j Hi Hj Hne [C ts] [C' ts'] Hin Hin'; simpl; intros [S1 S2].
      apply In_keys in Hi; apply In_keys in Hj.
      apply inner_max_incl in Hin; [|apply root_node; auto].
      apply inner_max_incl in Hin'; [|apply root_node; auto].
      destruct (inner_sound _ _ _ _ _ _ (root_node i Hi (tab_freq i Hi)) Hin) as [_ [_ [[_ [B2 B3]] _]]].
      destruct (inner_sound _ _ _ _ _ _ (root_node j Hj (tab_freq j Hj)) Hin') as [_ [_ [[_ [B2' B3']] _]]].
      pose proof (B3' i (S1 _ B2) (fun h => h)) as Q1;
      pose proof (B3 j (S2 _ B2') (fun h => h)) as Q2; lia.
  Qed.
End SearchProofs.
