From Verif Require Import Prelude FilterModel.

Section FilterProofs.
  Context {A : Type} `{EqDec A}.

  (* the specification: [s] has no strict superset / subset among [l] *)
  Definition is_maximal_in (l : list (list A)) (s : list A) : Prop :=
    forall e, In e l -> incl s e -> incl e s.
  Definition is_minimal_in (l : list (list A)) (s : list A) : Prop :=
    forall e, In e l -> incl e s -> incl s e.
  Definition maximalb (l : list (list A)) (s : list A) : bool :=
    negb (existsb (fun e => psubset s e) l).
  Definition minimalb (l : list (list A)) (s : list A) : bool :=
    negb (existsb (fun e => psubset e s) l).

  Lemma incl_dec (a b : list A) : {incl a b} + {~ incl a b}.
  Proof.
    destruct (subset a b) eqn:E; [left | right]; [apply subset_incl | apply subset_false]; exact E.
  Qed.

  Lemma maximalb_spec l s : maximalb l s = true <-> is_maximal_in l s.
  Proof.
    unfold maximalb, is_maximal_in; rewrite negb_true_iff, existsb_false_iff.
    split; intros Hf e He.
    - intros Hi; destruct (incl_dec e s) as [Hd|Hd]; [exact Hd|].
      specialize (Hf e He); assert (psubset s e = true) by (apply psubset_spec; auto); congruence.
    - destruct (psubset s e) eqn:E; [|reflexivity].
      apply psubset_spec in E; destruct E as [E1 E2]; destruct E2; apply Hf; assumption.
  Qed.
  Lemma minimalb_spec l s : minimalb l s = true <-> is_minimal_in l s.
  Proof.
    unfold minimalb, is_minimal_in; rewrite negb_true_iff, existsb_false_iff.
    split; intros Hf e He.
    - intros Hi; destruct (incl_dec s e) as [Hd|Hd]; [exact Hd|].
      specialize (Hf e He); assert (psubset e s = true) by (apply psubset_spec; auto); congruence.
    - destruct (psubset e s) eqn:E; [|reflexivity].
      apply psubset_spec in E; destruct E as [E1 E2]; destruct E2; apply Hf; assumption.
  Qed.

  Lemma size_leb_total (x y : list A) : size_leb x y = true \/ size_leb y x = true.
  Proof. unfold size_leb; rewrite !Nat.leb_le; lia. Qed.
  Lemma size_leb_trans (x y z : list A) :
    size_leb x y = true -> size_leb y z = true -> size_leb x z = true.
  Proof. unfold size_leb; rewrite !Nat.leb_le; lia. Qed.
  Lemma size_geb_total (x y : list A) : size_geb x y = true \/ size_geb y x = true.
  Proof. unfold size_geb; rewrite !Nat.leb_le; lia. Qed.
  Lemma size_geb_trans (x y z : list A) :
    size_geb x y = true -> size_geb y z = true -> size_geb x z = true.
  Proof. unfold size_geb; rewrite !Nat.leb_le; lia. Qed.

  (* every strict superset in a list has a maximal one above it *)
  Lemma maximal_above l : forall n s, In s l ->
    (forall e, In e l -> card e <= card s + n) ->
    exists e, In e l /\ incl s e /\ is_maximal_in l e.
  Proof.
    induction n as [|n IH]; intros s Hs Hb.
    - exists s; repeat split; [exact Hs | apply incl_refl |].
      intros e He Hi; apply card_eq_incl; [exact Hi|]; specialize (Hb e He); lia.
    - destruct (maximalb l s) eqn:E.
      + exists s; repeat split; [exact Hs | apply incl_refl | apply maximalb_spec; exact E].
      + unfold maximalb in E; apply negb_false_iff, existsb_exists in E.
        destruct E as [e [He E]]; apply psubset_spec in E; destruct E as [E1 E2].
        pose proof (card_psub s e E1 E2) as Hc.
        destruct (IH e He) as [m [Hm [Hi Hx]]].
        { intros f Hf; specialize (Hb f Hf); lia. }
        exists m; repeat split; [exact Hm | eapply incl_tran; eassumption | exact Hx].
  Qed.
  Lemma minimal_below l : forall n s, In s l -> card s <= n ->
    exists e, In e l /\ incl e s /\ is_minimal_in l e.
  Proof.
    induction n as [|n IH]; intros s Hs Hb.
    - exists s; repeat split; [exact Hs | apply incl_refl |].
      intros e He Hi; apply card_eq_incl; [exact Hi|]; lia.
    - destruct (minimalb l s) eqn:E.
      + exists s; repeat split; [exact Hs | apply incl_refl | apply minimalb_spec; exact E].
      + unfold minimalb in E; apply negb_false_iff, existsb_exists in E.
        destruct E as [e [He E]]; apply psubset_spec in E; destruct E as [E1 E2].
        pose proof (card_psub e s E1 E2) as Hc.
        destruct (IH e He) as [m [Hm [Hi Hx]]]; [lia|].
        exists m; repeat split; [exact Hm | eapply incl_tran; eassumption | exact Hx].
  Qed.

  Lemma list_card_bound (l : list (list A)) : exists n, forall e, In e l -> card e <= n.
  Proof.
    induction l as [|x l [n IH]]; [exists 0; intros e []|].
    exists (Nat.max (card x) n); intros e [<-|He]; [|specialize (IH e He)]; lia.
  Qed.

  (* invariant of the loop: after processing a prefix [done] of the sorted
     list the kept sets are the maximal ones of the whole list *)
  Lemma max_fold (l : list (list A)) : forall todo done kept,
    done ++ todo = l ->
    StronglySorted (le_rel size_geb) l ->
    Permutation kept (filter (maximalb l) done) ->
    Permutation (fold_left max_step todo kept) (filter (maximalb l) l).
  Proof.
    induction todo as [|s todo IH]; intros dn kept El Hs Hk; simpl.
    - rewrite app_nil_r in El; subst; exact Hk.
    - apply (IH (dn ++ [s])); [rewrite <- app_assoc; exact El | exact Hs |].
      rewrite filter_app; simpl.
      assert (Hlater : forall e, In e (s :: todo) -> card e <= card s).
      { intros e [<-|He]; [lia|].
        subst l; clear - Hs He. induction dn as [|d dn IHd]; simpl in *.
        - inversion Hs as [|? ? _ Hf]; subst. rewrite Forall_forall in Hf.
          specialize (Hf e He); unfold le_rel, size_geb in Hf; apply Nat.leb_le in Hf; exact Hf.
        - inversion Hs; subst; auto. }
      assert (Hin : In s l) by (subst l; apply in_or_app; right; left; reflexivity).
      assert (E : existsb (fun e => psubset s e) (irange_from s kept) = negb (maximalb l s)).
      { unfold maximalb; rewrite negb_involutive.
        destruct (existsb (fun e => psubset s e) l) eqn:E.
        - apply existsb_exists in E; destruct E as [e [He E]].
          destruct (list_card_bound l) as [n Hn].
          destruct (maximal_above l n e He) as [m [Hm [Hi Hx]]].
          { intros f Hf; specialize (Hn f Hf); lia. }
          apply psubset_spec in E; destruct E as [E1 E2].
          assert (P : psubset s m = true).
          { apply psubset_spec; split; [eapply incl_tran; eassumption|].
            intros Hc; apply E2; eapply incl_tran; eassumption. }
          pose proof P as P'; apply psubset_spec in P'; destruct P' as [P1 P2].
          pose proof (card_psub s m P1 P2) as Hc.
          apply existsb_exists; exists m; split; [|exact P].
          unfold irange_from; apply filter_In; split; [|apply Nat.leb_le; lia].
          apply (Permutation_in _ (Permutation_sym Hk)); apply filter_In; split;
            [|apply maximalb_spec; exact Hx].
          rewrite <- El in Hm; apply in_app_iff in Hm; destruct Hm as [Hm|Hm]; [exact Hm|].
          specialize (Hlater m Hm); lia.
        - apply existsb_false_iff; intros e He.
          unfold irange_from in He; apply filter_In in He; destruct He as [He _].
          apply (Permutation_in _ Hk) in He; apply filter_In in He; destruct He as [He _].
          rewrite existsb_false_iff in E; apply E; rewrite <- El; apply in_or_app; left; exact He. }
      unfold max_step; rewrite E.
      destruct (maximalb l s) eqn:Em; simpl.
      + rewrite insert_right_perm, Hk; apply Permutation_cons_append.
      + rewrite app_nil_r; exact Hk.
  Qed.

  Lemma min_fold (l : list (list A)) : forall todo done kept,
    done ++ todo = l ->
    StronglySorted (le_rel size_leb) l ->
    Permutation kept (filter (minimalb l) done) ->
    Permutation (fold_left min_step todo kept) (filter (minimalb l) l).
  Proof.
    induction todo as [|s todo IH]; intros dn kept El Hs Hk; simpl.
    - rewrite app_nil_r in El; subst; exact Hk.
    - apply (IH (dn ++ [s])); [rewrite <- app_assoc; exact El | exact Hs |].
      rewrite filter_app; simpl.
      assert (Hlater : forall e, In e (s :: todo) -> card s <= card e).
      { intros e [<-|He]; [lia|].
        subst l; clear - Hs He. induction dn as [|d dn IHd]; simpl in *.
        - inversion Hs as [|? ? _ Hf]; subst. rewrite Forall_forall in Hf.
          specialize (Hf e He); unfold le_rel, size_leb in Hf; apply Nat.leb_le in Hf; exact Hf.
        - inversion Hs; subst; auto. }
      assert (E : existsb (fun e => psubset e s) (irange_to s kept) = negb (minimalb l s)).
      { unfold minimalb; rewrite negb_involutive.
        destruct (existsb (fun e => psubset e s) l) eqn:E.
        - apply existsb_exists in E; destruct E as [e [He E]].
          destruct (minimal_below l (card e) e He (le_n _)) as [m [Hm [Hi Hx]]].
          apply psubset_spec in E; destruct E as [E1 E2].
          assert (P : psubset m s = true).
          { apply psubset_spec; split; [eapply incl_tran; eassumption|].
            intros Hc; apply E2; eapply incl_tran; eassumption. }
          pose proof P as P'; apply psubset_spec in P'; destruct P' as [P1 P2].
          pose proof (card_psub m s P1 P2) as Hc.
          apply existsb_exists; exists m; split; [|exact P].
          unfold irange_to; apply filter_In; split; [|apply Nat.leb_le; lia].
          apply (Permutation_in _ (Permutation_sym Hk)); apply filter_In; split;
            [|apply minimalb_spec; exact Hx].
          rewrite <- El in Hm; apply in_app_iff in Hm; destruct Hm as [Hm|Hm]; [exact Hm|].
          specialize (Hlater m Hm); lia.
        - apply existsb_false_iff; intros e He.
          unfold irange_to in He; apply filter_In in He; destruct He as [He _].
          apply (Permutation_in _ Hk) in He; apply filter_In in He; destruct He as [He _].
          rewrite existsb_false_iff in E; apply E; rewrite <- El; apply in_or_app; left; exact He. }
      unfold min_step; rewrite E.
      destruct (minimalb l s) eqn:Em; simpl.
      + rewrite insert_right_perm, Hk; apply Permutation_cons_append.
      + rewrite app_nil_r; exact Hk.
  Qed.

  Lemma maximalb_perm l1 l2 s : Permutation l1 l2 -> maximalb l1 s = maximalb l2 s.
  Proof.
    intros Hp; apply eq_true_iff_eq; rewrite !maximalb_spec; unfold is_maximal_in.
    split; intros Hf e He; apply Hf; eapply Permutation_in; try eassumption; symmetry; assumption.
  Qed.
  Lemma minimalb_perm l1 l2 s : Permutation l1 l2 -> minimalb l1 s = minimalb l2 s.
  Proof.
    intros Hp; apply eq_true_iff_eq; rewrite !minimalb_spec; unfold is_minimal_in.
    split; intros Hf e He; apply Hf; eapply Permutation_in; try eassumption; symmetry; assumption.
  Qed.

  Lemma filter_maximal_perm l : Permutation (filter_maximal l) (filter (maximalb l) l).
  Proof.
    unfold filter_maximal.
    rewrite (max_fold (sort size_geb l) (sort size_geb l) [] []);
      [ | reflexivity | apply sort_sorted; [apply size_geb_total | apply size_geb_trans] | reflexivity].
    rewrite (filter_ext_In _ (maximalb l)).
    - apply Permutation_filter, sort_perm.
    - intros x _; apply maximalb_perm, sort_perm.
  Qed.
  Lemma filter_minimal_perm l : Permutation (filter_minimal l) (filter (minimalb l) l).
  Proof.
    unfold filter_minimal.
    rewrite (min_fold (sort size_leb l) (sort size_leb l) [] []);
      [ | reflexivity | apply sort_sorted; [apply size_leb_total | apply size_leb_trans] | reflexivity].
    rewrite (filter_ext_In _ (minimalb l)).
    - apply Permutation_filter, sort_perm.
    - intros x _; apply minimalb_perm, sort_perm.
  Qed.

  Lemma fold_max_sorted todo : forall kept,
    StronglySorted (le_rel size_leb) kept ->
    StronglySorted (le_rel size_leb) (fold_left max_step todo kept).
  Proof.
    induction todo as [|s t IH]; intros kept Hk; simpl; [exact Hk|].
    apply IH; unfold max_step; destruct (existsb _ _); [exact Hk|].
    apply insert_right_sorted; [apply size_leb_total | apply size_leb_trans | exact Hk].
  Qed.
  Lemma fold_min_sorted todo : forall kept,
    StronglySorted (le_rel size_leb) kept ->
    StronglySorted (le_rel size_leb) (fold_left min_step todo kept).
  Proof.
    induction todo as [|s t IH]; intros kept Hk; simpl; [exact Hk|].
    apply IH; unfold min_step; destruct (existsb _ _); [exact Hk|].
    apply insert_right_sorted; [apply size_leb_total | apply size_leb_trans | exact Hk].
  Qed.

  Lemma filter_maximal_In l s : In s (filter_maximal l) <-> In s l /\ is_maximal_in l s.
  Proof.
    rewrite <- maximalb_spec, <- filter_In.
    split; apply Permutation_in; [|symmetry]; apply filter_maximal_perm.
  Qed.
  Lemma filter_minimal_In l s : In s (filter_minimal l) <-> In s l /\ is_minimal_in l s.
  Proof.
    rewrite <- minimalb_spec, <- filter_In.
    split; apply Permutation_in; [|symmetry]; apply filter_minimal_perm.
  Qed.
  (* multiplicities *)
  Lemma count_filter (f : list A -> bool) l s :
    count_occ eq_dec (filter f l) s = if f s then count_occ eq_dec l s else 0.
  Proof.
    induction l as [|x l IH]; simpl; [destruct (f s); reflexivity|].
    destruct (eq_dec x s) as [->|n].
    - destruct (f s) eqn:E; simpl.
      + destruct (eq_dec s s); [rewrite IH; reflexivity | congruence].
      + exact IH.
    - destruct (f x); simpl; [destruct (eq_dec x s); [congruence|]|]; exact IH.
  Qed.
  Lemma perm_count (l1 l2 : list (list A)) s :
    Permutation l1 l2 -> count_occ eq_dec l1 s = count_occ eq_dec l2 s.
  Proof. intros Hp; apply Permutation_count_occ; exact Hp. Qed.
End FilterProofs.
