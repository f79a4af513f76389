(* The vertical representation computed by LCM.fit / _to_vertical. *)
From Verif Require Import Prelude LCMModel ItemsetSpec.

Section DictLemmas.
  Context {K V : Type} `{EqDec K}.
  Implicit Types (d : dict K V) (k : K) (v : V).

  Lemma dget_In d k v : dget d k = Some v -> In (k, v) d.
  Proof.
    induction d as [|[k' v'] t IH]; simpl; [discriminate|].
    destruct (eq_dec k k') as [->|n]; [intros [= ->]; left; reflexivity | right; auto].
  Qed.
  Lemma In_dget d k v : NoDup (dkeys d) -> In (k, v) d -> dget d k = Some v.
  Proof.
    induction d as [|[k' v'] t IH]; simpl; [intros _ []|].
    intros Hn [E|Hi]; inversion Hn as [|? ? Hk Ht]; subst.
    - injection E as -> ->; destruct (eq_dec k k); [reflexivity | congruence].
    - destruct (eq_dec k k') as [->|n]; [|auto].
      exfalso; apply Hk; apply in_map_iff; exists (k', v); auto.
  Qed.
  Lemma dget_None d k : dget d k = None <-> ~ In k (dkeys d).
  Proof.
    induction d as [|[k' v'] t IH]; simpl; [tauto|].
    destruct (eq_dec k k') as [->|n].
    - split; [discriminate | intros Hn; exfalso; apply Hn; left; reflexivity].
    - rewrite IH; split; [intros Hn [E|Hi]; [congruence | auto] | tauto].
  Qed.
  Lemma dget_Some_key d k : In k (dkeys d) <-> exists v, dget d k = Some v.
  Proof.
    destruct (dget d k) as [v|] eqn:E.
    - split; [exists v; reflexivity|]; intros _; apply dget_In in E.
      apply in_map_iff; exists (k, v); auto.
    - apply dget_None in E; split; [tauto | intros [v Hv]; discriminate].
  Qed.
  Lemma dget_dset d k v k' : dget (dset d k v) k' = if eq_dec k' k then Some v else dget d k'.
  Proof.
    induction d as [|[a b] t IH]; simpl.
    - reflexivity.
    - destruct (eq_dec k a) as [->|n]; simpl.
      + destruct (eq_dec k' a); reflexivity.
      + destruct (eq_dec k' a) as [->|n'].
        * destruct (eq_dec a k); [congruence | reflexivity].
        * exact IH.
  Qed.
  Lemma dkeys_dset d k v : dkeys (dset d k v) = if mem k (dkeys d) then dkeys d else dkeys d ++ [k].
  Proof.
    unfold mem; induction d as [|[a b] t IH]; simpl; [reflexivity|].
    destruct (eq_dec k a) as [->|n]; simpl.
    - rewrite eqd_refl; reflexivity.
    - replace (eqd k a) with false by (symmetry; apply eqd_false; exact n); simpl.
      rewrite IH; destruct (existsb (eqd k) (dkeys t)); reflexivity.
  Qed.
  Lemma NoDup_dset d k v : NoDup (dkeys d) -> NoDup (dkeys (dset d k v)).
  Proof.
    intros Hn; rewrite dkeys_dset; destruct (mem_spec k (dkeys d)) as [|Hi]; [exact Hn|].
    apply NoDup_app_intro; [exact Hn | repeat constructor; simpl; tauto |].
    intros x Hx [<-|[]]; auto.
  Qed.
End DictLemmas.

Section VerticalProofs.
  Context {A : Type} `{EqDec A}.
  Implicit Types (D P : list (list A)) (x : A).

  Definition tids_of D x : list nat := tidset D [x].

  Lemma In_tidset i D X : In i (tidset D X) <-> i < length D /\ incl X (nth i D []).
  Proof. unfold tidset; rewrite filter_In, in_seq, subset_incl; intuition lia. Qed.
  Lemma NoDup_tidset D X : NoDup (tidset D X).
  Proof. apply NoDup_filter, seq_NoDup. Qed.
  Lemma In_tids_of i D x : In i (tids_of D x) <-> i < length D /\ In x (nth i D []).
  Proof.
    unfold tids_of; rewrite In_tidset; unfold incl; simpl.
    split; intros [Hl Hx]; (split; [exact Hl|]); [apply Hx; left; reflexivity|].
    intros y [<-|[]]; exact Hx.
  Qed.

  Lemma length_tidset D X : length (tidset D X) = support D X.
  Proof.
    unfold tidset, support.
    assert (G : forall D k, length (filter (fun i => subset X (nth (i - k) D [])) (seq k (length D)))
                       = length (filter (fun t => subset X t) D)).
    { clear D; induction D as [|t D IH]; intros k; [reflexivity|].
      cbn [length seq filter].
      replace (nth (k - k) (t :: D) []) with t by (rewrite Nat.sub_diag; reflexivity).
      assert (E : filter (fun i => subset X (nth (i - k) (t :: D) [])) (seq (S k) (length D))
                  = filter (fun i => subset X (nth (i - S k) D [])) (seq (S k) (length D))).
      { apply filter_ext_In; intros i Hi; apply in_seq in Hi.
        replace (i - k) with (S (i - S k)) by lia; reflexivity. }
      rewrite E; destruct (subset X t); cbn [length]; rewrite IH; reflexivity. }
    rewrite <- (G D 0); f_equal; apply filter_ext_In; intros i _; rewrite Nat.sub_0_r; reflexivity.
  Qed.

  Lemma tidset_app P t X :
    tidset (P ++ [t]) X = tidset P X ++ (if subset X t then [length P] else []).
  Proof.
    unfold tidset; rewrite app_length; simpl; rewrite seq_app, filter_app; simpl.
    rewrite app_nth2, Nat.sub_diag; [|lia]; simpl; f_equal.
    apply filter_ext_In; intros i Hi; apply in_seq in Hi; rewrite app_nth1; [reflexivity | lia].
  Qed.
  Lemma subset_single x t : subset [x] t = mem x t.
  Proof. simpl; apply andb_true_r. Qed.

  (* the dictionary [d] is the vertical representation of [P] *)
  Definition vrep (d : dict A (list nat)) P : Prop :=
    NoDup (dkeys d) /\
    forall x, dget d x = match tids_of P x with [] => None | l => Some l end.

  Lemma vrep_nil : vrep [] [].
  Proof. split; [constructor | intros x; reflexivity]. Qed.

  Lemma vadd_rep d P q x : vrep d (P ++ [q]) -> vrep (vadd (length P) d x) (P ++ [q ++ [x]]).
  Proof.
    intros [Hn Hg]; unfold vadd.
    assert (Hother : forall y, y <> x -> tids_of (P ++ [q ++ [x]]) y = tids_of (P ++ [q]) y).
    { intros y Hy; unfold tids_of; rewrite !tidset_app, !subset_single, mem_app; simpl.
      replace (eqd y x) with false by (symmetry; apply eqd_false, Hy).
      rewrite !orb_false_r; reflexivity. }
    assert (Hx : tids_of (P ++ [q ++ [x]]) x = tids_of P x ++ [length P]).
    { unfold tids_of; rewrite tidset_app, subset_single, mem_app; simpl.
      rewrite eqd_refl, orb_true_r; reflexivity. }
    assert (Hq : tids_of (P ++ [q]) x = tids_of P x ++ (if mem x q then [length P] else [])).
    { unfold tids_of; rewrite tidset_app, subset_single; reflexivity. }
    pose proof (Hg x) as Hgx.
    destruct (dget d x) as [tids|] eqn:E.
    - assert (Et : tids = tids_of (P ++ [q]) x).
      { destruct (tids_of (P ++ [q]) x); [discriminate|]; injection Hgx as ->; reflexivity. }
      split; [apply NoDup_dset, Hn|].
      intros y; rewrite dget_dset; destruct (eq_dec y x) as [->|n].
      + rewrite Hx; unfold add_tid; rewrite Et, Hq.
        assert (Hnot : mem (length P) (tids_of P x) = false).
        { apply mem_false; rewrite In_tids_of; lia. }
        rewrite mem_app, Hnot; destruct (mem x q); simpl.
        * rewrite eqd_refl; simpl; destruct (tids_of P x ++ [length P]) eqn:F; [|reflexivity].
          destruct (tids_of P x); discriminate.
        * rewrite app_nil_r.
          destruct (tids_of P x ++ [length P]) eqn:F; [|reflexivity].
          destruct (tids_of P x); discriminate.
      + rewrite (Hother y n); apply Hg.
    - assert (Et : tids_of (P ++ [q]) x = []).
      { destruct (tids_of (P ++ [q]) x); [reflexivity | discriminate]. }
      rewrite Hq in Et; apply app_eq_nil in Et; destruct Et as [Et _].
      split; [apply NoDup_dset, Hn|].
      intros y; rewrite dget_dset; destruct (eq_dec y x) as [->|n].
      + rewrite Hx, Et; reflexivity.
      + rewrite (Hother y n); apply Hg.
  Qed.
  Lemma vadd_fold_rep t : forall d P q, vrep d (P ++ [q]) ->
    vrep (fold_left (vadd (length P)) t d) (P ++ [q ++ t]).
  Proof.
    induction t as [|x t IH]; intros d P q Hr; simpl; [rewrite app_nil_r; exact Hr|].
    replace (q ++ x :: t) with ((q ++ [x]) ++ t) by (rewrite <- app_assoc; reflexivity).
    apply IH, vadd_rep, Hr.
  Qed.
  Lemma vrep_empty_last d P : vrep d P -> vrep d (P ++ [[]]).
  Proof.
    intros [Hn Hg]; split; [exact Hn|]; intros x; rewrite (Hg x); unfold tids_of.
    rewrite tidset_app, subset_single; simpl; rewrite app_nil_r; reflexivity.
  Qed.
  Lemma vertical_from_rep D : forall d P, vrep d P -> vrep (vertical_from (length P) D d) (P ++ D).
  Proof.
    induction D as [|t D IH]; intros d P Hr; simpl; [rewrite app_nil_r; exact Hr|].
    replace (P ++ t :: D) with ((P ++ [t]) ++ D) by (rewrite <- app_assoc; reflexivity).
    replace (S (length P)) with (length (P ++ [t])) by (rewrite app_length; simpl; lia).
    apply IH. change t with ([] ++ t) at 2. apply vadd_fold_rep, vrep_empty_last, Hr.
  Qed.
  Lemma vertical_rep D : vrep (vertical D) D.
  Proof. apply (vertical_from_rep D [] []), vrep_nil. Qed.

  Lemma occurs_tids D x : occurs D x <-> tids_of D x <> [].
  Proof.
    split.
    - intros [t [Ht Hx]] E; apply (In_nth _ _ []) in Ht; destruct Ht as [i [Hi Ht]].
      assert (Hin : In i (tids_of D x)) by (apply In_tids_of; rewrite Ht; auto).
      rewrite E in Hin; destruct Hin.
    - intros Hne; destruct (tids_of D x) as [|i l] eqn:E; [congruence|].
      assert (Hin : In i (tids_of D x)) by (rewrite E; left; reflexivity).
      apply In_tids_of in Hin; destruct Hin as [Hi Hx].
      exists (nth i D []); split; [apply nth_In, Hi | exact Hx].
  Qed.

  Lemma vertical_NoDup D : NoDup (dkeys (vertical D)).
  Proof. apply vertical_rep. Qed.
  Lemma vertical_In D x tids : In (x, tids) (vertical D) <-> occurs D x /\ tids = tids_of D x.
  Proof.
    destruct (vertical_rep D) as [Hn Hg]; split.
    - intros Hi; apply In_dget in Hi; [|exact Hn]; rewrite Hg in Hi.
      rewrite occurs_tids; destruct (tids_of D x); [discriminate|].
      injection Hi as <-; split; [discriminate | reflexivity].
    - intros [Ho ->]; apply dget_In; rewrite Hg; rewrite occurs_tids in Ho.
      destruct (tids_of D x); [congruence | reflexivity].
  Qed.
  Lemma vertical_keys D x : In x (dkeys (vertical D)) <-> occurs D x.
  Proof.
    unfold dkeys; rewrite in_map_iff; split.
    - intros [[k v] [E Hi]]; simpl in E; subst k; apply vertical_In in Hi; tauto.
    - intros Ho; exists (x, tids_of D x); split; [reflexivity|]; apply vertical_In; auto.
  Qed.
End VerticalProofs.
