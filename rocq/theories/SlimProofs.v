From Verif Require Import Prelude CheckModel LCMModel LCMProofs ItemsetSpec VerticalProofs LCMLift SlimModel.

Section KeyedProofs.
  Context {A V : Type} `{EqDec A}.
  Implicit Types (d : ktable A V) (k : list A).

  Lemma seteq_refl k : seteq k k = true.
  Proof. apply seteq_spec; split; apply incl_refl. Qed.
  Lemma seteq_sym k k' : seteq k k' = seteq k' k.
  Proof. apply eq_true_iff_eq; rewrite !seteq_spec; tauto. Qed.
  Lemma seteq_trans a b c : seteq a b = true -> seteq b c = true -> seteq a c = true.
  Proof. rewrite !seteq_spec; intros [? ?] [? ?]; split; eapply incl_tran; eassumption. Qed.
  Lemma seteq_false_l a b c : seteq a b = true -> seteq a c = seteq b c.
  Proof.
    intros E; apply eq_true_iff_eq; split; intros F.
    - rewrite seteq_sym in E; eapply seteq_trans; eassumption.
    - eapply seteq_trans; eassumption.
  Qed.

  (* keys pairwise different as sets *)
  Definition distinct (l : list (list A)) : Prop := ForallOrdPairs (fun a b => seteq a b = false) l.
  Definition kdistinct d : Prop := distinct (map fst d).

  Lemma kmem_true l k : kmem l k = true <-> exists k', In k' l /\ seteq k k' = true.
  Proof. unfold kmem; apply existsb_exists. Qed.
  Lemma kmem_false l k : kmem l k = false <-> forall k', In k' l -> seteq k k' = false.
  Proof. unfold kmem; apply existsb_false_iff. Qed.
  Lemma kmem_ext l k k' : seteq k k' = true -> kmem l k = kmem l k'.
  Proof.
    intros E; unfold kmem; induction l as [|x l IH]; simpl; [reflexivity|].
    rewrite IH, (seteq_false_l k k' x E); reflexivity.
  Qed.
  Lemma kmem_app l l' k : kmem (l ++ l') k = kmem l k || kmem l' k.
  Proof. unfold kmem; apply existsb_app. Qed.
  Lemma kmem_perm l l' k : Permutation l l' -> kmem l k = kmem l' k.
  Proof.
    intros Hp; apply eq_true_iff_eq; rewrite !kmem_true; split; intros [k' [Hk E]]; exists k';
      (split; [|exact E]); [apply (Permutation_in _ Hp) | apply (Permutation_in _ (Permutation_sym Hp))]; exact Hk.
  Qed.

  Lemma distinct_cons k l : distinct (k :: l) <-> kmem l k = false /\ distinct l.
  Proof.
    unfold distinct; rewrite kmem_false; split.
    - intros Hd; inversion Hd as [|? ? Hf Hl]; subst; rewrite Forall_forall in Hf; auto.
    - intros [Hf Hl]; constructor; [apply Forall_forall; exact Hf | exact Hl].
  Qed.
  Lemma distinct_perm l l' : Permutation l l' -> distinct l -> distinct l'.
  Proof.
    induction 1 as [|x l l' Hp IH|x y l|]; intros Hd; auto.
    - apply distinct_cons in Hd; destruct Hd as [Hk Hd]; apply distinct_cons; split; [|auto].
      rewrite <- (kmem_perm _ _ _ Hp); exact Hk.
    - apply distinct_cons in Hd; destruct Hd as [Hk Hd]; apply distinct_cons in Hd; destruct Hd as [Hk' Hd].
      simpl in Hk; apply orb_false_iff in Hk; destruct Hk as [E Hk].
      apply distinct_cons; split; [|apply distinct_cons; auto].
      simpl; rewrite seteq_sym, E; exact Hk'.
  Qed.
  Lemma distinct_NoDup l : distinct l -> NoDup l.
  Proof.
    induction l as [|k l IH]; intros Hd; constructor; apply distinct_cons in Hd; destruct Hd as [Hk Hd]; auto.
    intros Hin; rewrite kmem_false in Hk; specialize (Hk k Hin); rewrite seteq_refl in Hk; discriminate.
  Qed.
  Lemma distinct_filter (f : list A -> bool) l : distinct l -> distinct (filter f l).
  Proof. apply FOP_filter. Qed.
  Lemma kdistinct_filter (f : list A * V -> bool) d : kdistinct d -> kdistinct (filter f d).
  Proof.
    unfold kdistinct; induction d as [|p d IH]; intros Hd; simpl; [exact Hd|].
    simpl in Hd; apply distinct_cons in Hd; destruct Hd as [Hk Hd].
    destruct (f p); [|auto]; simpl; apply distinct_cons; split; [|auto].
    rewrite kmem_false in *; intros k Hk'; apply Hk.
    apply in_map_iff in Hk'; destruct Hk' as [q [<- Hq]]; apply filter_In in Hq; apply in_map, Hq.
  Qed.

  Lemma kget_Some d k v : kget d k = Some v -> exists k', In (k', v) d /\ seteq k k' = true.
  Proof.
    induction d as [|[k' v'] d IH]; simpl; [discriminate|].
    destruct (seteq k k') eqn:E; intros Hg.
    - injection Hg as <-; exists k'; auto.
    - destruct (IH Hg) as [k'' [Hi Hs]]; exists k''; auto.
  Qed.
  Lemma kget_None d k : kget d k = None <-> kmem (map fst d) k = false.
  Proof.
    induction d as [|[k' v'] d IH]; simpl; [tauto|].
    destruct (seteq k k'); simpl; [split; discriminate | exact IH].
  Qed.
  Lemma kget_In d k v : kdistinct d -> In (k, v) d -> kget d k = Some v.
  Proof.
    induction d as [|[k' v'] d IH]; intros Hd Hin; [destruct Hin|].
    apply distinct_cons in Hd; destruct Hd as [Hk Hd]; simpl.
    destruct Hin as [E|Hin].
    - injection E as <- <-; rewrite seteq_refl; reflexivity.
    - destruct (seteq k k') eqn:E; [|apply IH; assumption].
      rewrite kmem_false in Hk; specialize (Hk k); simpl in Hk.
      rewrite seteq_sym, E in Hk; discriminate Hk; apply (in_map fst) in Hin; exact Hin.
  Qed.
  Lemma kget_ext d k k' : seteq k k' = true -> kget d k = kget d k'.
  Proof.
    intros E; induction d as [|[q v] d IH]; simpl; [reflexivity|].
    rewrite (seteq_false_l k k' q E), IH; reflexivity.
  Qed.

  Lemma kset_keys d k v : map fst (kset d k v) = if kmem (map fst d) k then map fst d else map fst d ++ [k].
  Proof.
    induction d as [|[k' v'] d IH]; simpl; [reflexivity|].
    destruct (seteq k k') eqn:E; simpl; [reflexivity|].
    rewrite IH; destruct (kmem (map fst d) k); reflexivity.
  Qed.
  Lemma kset_get d k v k' : kget (kset d k v) k' = if seteq k' k then Some v else kget d k'.
  Proof.
    induction d as [|[q w] d IH]; simpl; [reflexivity|].
    destruct (seteq k q) eqn:E; simpl.
    - destruct (seteq k' q) eqn:F.
      + replace (seteq k' k) with true; [reflexivity|]; symmetry.
        rewrite seteq_sym in E; eapply seteq_trans; eassumption.
      + replace (seteq k' k) with false; [reflexivity|]; symmetry.
        destruct (seteq k' k) eqn:K; [|reflexivity].
        rewrite (seteq_trans k' k q K E) in F; discriminate.
    - rewrite IH; destruct (seteq k' q) eqn:F; [|reflexivity].
      destruct (seteq k' k) eqn:K; [|reflexivity].
      rewrite seteq_sym in K; rewrite (seteq_trans k k' q K F) in E; discriminate.
  Qed.
  Lemma kinsert_perm (ord : list A -> list A -> bool) d k v :
    Permutation (kinsert ord d k v) ((k, v) :: d).
  Proof.
    induction d as [|[q w] d IH]; simpl; [reflexivity|].
    destruct (ord q k); [|reflexivity]; rewrite IH; apply perm_swap.
  Qed.
  Lemma kdistinct_kset d k v : kdistinct d -> kdistinct (kset d k v).
  Proof.
    unfold kdistinct; rewrite kset_keys; intros Hd; destruct (kmem (map fst d) k) eqn:E; [exact Hd|].
    eapply distinct_perm; [apply Permutation_cons_append|]; apply distinct_cons; auto.
  Qed.
  Lemma kdistinct_perm d d' : Permutation d d' -> kdistinct d -> kdistinct d'.
  Proof. intros Hp; apply distinct_perm, Permutation_map, Hp. Qed.
  Lemma kget_perm d d' k : Permutation d d' -> kdistinct d -> kget d k = kget d' k.
  Proof.
    intros Hp Hd; destruct (kget d k) as [v|] eqn:E.
    - destruct (kget_Some d k v E) as [k' [Hi Hs]]; rewrite (kget_ext d' k k' Hs); symmetry.
      apply kget_In; [eapply kdistinct_perm; eassumption | apply (Permutation_in _ Hp), Hi].
    - symmetry; apply kget_None; rewrite <- (kmem_perm (map fst d)).
      + apply kget_None, E.
      + apply Permutation_map, Hp.
  Qed.
  Lemma kput_get (ord : list A -> list A -> bool) d k v k' : kdistinct d ->
    kget (kput ord d k v) k' = if seteq k' k then Some v else kget d k'.
  Proof.
    intros Hd; unfold kput; destruct (kmem (map fst d) k) eqn:E; [apply kset_get|].
    assert (Hd' : kdistinct ((k, v) :: d)) by (apply distinct_cons; auto).
    rewrite <- (kget_perm _ _ k' (Permutation_sym (kinsert_perm ord d k v)) Hd'); reflexivity.
  Qed.
  Lemma kput_distinct (ord : list A -> list A -> bool) d k v : kdistinct d -> kdistinct (kput ord d k v).
  Proof.
    intros Hd; unfold kput; destruct (kmem (map fst d) k) eqn:E; [apply kdistinct_kset, Hd|].
    eapply kdistinct_perm; [symmetry; apply kinsert_perm|]; apply distinct_cons; auto.
  Qed.
  Lemma kput_In (ord : list A -> list A -> bool) d k v q :
    In q (map fst (kput ord d k v)) -> q = k \/ In q (map fst d).
  Proof.
    unfold kput; destruct (kmem (map fst d) k) eqn:E.
    - rewrite kset_keys, E; auto.
    - intros Hq; apply (Permutation_in _ (Permutation_map fst (kinsert_perm ord d k v))) in Hq.
      destruct Hq as [<-|Hq]; auto.
  Qed.
  Lemma kdel_get d k k' : kget (kdel d k) k' = if seteq k k' then None else kget d k'.
  Proof.
    induction d as [|[q w] d IH]; simpl; [destruct (seteq k k'); reflexivity|].
    destruct (seteq k q) eqn:E; simpl.
    - rewrite IH; destruct (seteq k k') eqn:F; [reflexivity|].
      destruct (seteq k' q) eqn:K; [|reflexivity].
      rewrite seteq_sym in K; rewrite (seteq_trans k q k' E K) in F; discriminate.
    - rewrite IH; destruct (seteq k' q) eqn:K; [|reflexivity].
      destruct (seteq k k') eqn:F; [|reflexivity].
      rewrite (seteq_trans k k' q F K) in E; discriminate.
  Qed.
  Lemma kdel_distinct d k : kdistinct d -> kdistinct (kdel d k).
  Proof. apply kdistinct_filter. Qed.
  Lemma kupdate_get e : forall d k, kdistinct e ->
    kget (kupdate d e) k = match kget e k with Some v => Some v | None => kget d k end.
  Proof.
    unfold kupdate; induction e as [|[q w] e IH]; intros d k Hd; simpl; [reflexivity|].
    apply distinct_cons in Hd; destruct Hd as [Hk Hd].
    rewrite IH by exact Hd; rewrite kset_get; simpl.
    destruct (seteq k q) eqn:F; [|reflexivity].
    destruct (kget e k) as [v|] eqn:E; [|reflexivity].
    apply kget_None in Hk; simpl in Hk; rewrite seteq_sym in F.
    rewrite (kget_ext e q k F), E in Hk; discriminate.
  Qed.
  Lemma kupdate_distinct e : forall d, kdistinct d -> kdistinct (kupdate d e).
  Proof.
    unfold kupdate; induction e as [|p e IH]; intros d Hd; simpl; [exact Hd|].
    apply IH, kdistinct_kset, Hd.
  Qed.
  Lemma kset_app_fresh d k v : kmem (map fst d) k = false -> kset d k v = d ++ [(k, v)].
  Proof.
    induction d as [|[q w] d IH]; simpl; [reflexivity|].
    destruct (seteq k q); simpl; [discriminate|]; intros E; rewrite IH by exact E; reflexivity.
  Qed.
  Lemma kupdate_fresh e : forall d, kdistinct e -> (forall p, In p e -> kmem (map fst d) (fst p) = false) ->
    kupdate d e = d ++ e.
  Proof.
    unfold kupdate; induction e as [|[q w] e IH]; intros d Hd Hf; simpl; [symmetry; apply app_nil_r|].
    apply distinct_cons in Hd; destruct Hd as [Hk Hd].
    rewrite kset_app_fresh by (apply (Hf (q, w)); left; reflexivity).
    rewrite IH; [rewrite <- app_assoc; reflexivity | exact Hd|].
    intros p Hp; rewrite map_app, kmem_app; simpl.
    rewrite (Hf p) by (right; exact Hp); simpl; rewrite orb_false_r.
    rewrite kmem_false in Hk; rewrite seteq_sym; apply Hk, in_map, Hp.
  Qed.
  Lemma kget_In_iff d k v : kdistinct d ->
    kget d k = Some v <-> exists k', In (k', v) d /\ seteq k k' = true.
  Proof.
    intros Hd; split; [apply kget_Some|]; intros [k' [Hi Hs]].
    rewrite (kget_ext d k k' Hs); apply kget_In; assumption.
  Qed.
End KeyedProofs.

(* ------------------------------------------------------------------ cover *)
Section CoverProofs.
  Context {A : Type} `{EqDec A}.
  Implicit Types (std : dict A (list nat)) (s : list A).

  Definition tids std (x : A) : list nat := match dget std x with Some v => v | None => [] end.
  Definition known std s : Prop := forall x, In x s -> In x (dkeys std).

  Lemma lookups_known std s : known std s -> lookups std s = Some (map (tids std) s).
  Proof.
    induction s as [|x s IH]; intros Hk; simpl; [reflexivity|].
    destruct (proj1 (dget_Some_key std x)) as [v E]; [apply Hk; left; reflexivity|].
    rewrite IH by (intros y Hy; apply Hk; right; exact Hy).
    unfold tids at 2; rewrite E; reflexivity.
  Qed.
  Lemma lookups_unknown std s x : In x s -> ~ In x (dkeys std) -> lookups std s = None.
  Proof.
    induction s as [|y s IH]; intros Hx Hn; [destruct Hx|]; simpl.
    destruct Hx as [->|Hx].
    - apply dget_None in Hn; rewrite Hn; reflexivity.
    - rewrite IH by assumption; destruct (dget std y); reflexivity.
  Qed.
  Lemma fold_inter (l : list (list nat)) : forall v t, In t (fold_left inter l v) <-> In t v /\ forall w, In w l -> In t w.
  Proof.
    induction l as [|w l IH]; intros v t; simpl; [firstorder|].
    rewrite IH, In_inter; split.
    - intros [[Hv Hw] Hl]; split; [exact Hv|]; intros u [<-|Hu]; auto.
    - intros [Hv Hl]; split; [split; auto|]; auto.
  Qed.
  Lemma NoDup_fold_inter (l : list (list nat)) : forall v, NoDup v -> NoDup (fold_left inter l v).
  Proof. induction l as [|w l IH]; intros v Hv; simpl; [exact Hv | apply IH, NoDup_inter, Hv]. Qed.
  Lemma meet_spec std s t : s <> [] ->
    In t (meet (map (tids std) s)) <-> forall x, In x s -> In t (tids std x).
  Proof.
    destruct s as [|x s]; [congruence|]; intros _; simpl; rewrite fold_inter; split.
    - intros [Hx Hs] y [<-|Hy]; [exact Hx | apply Hs, in_map, Hy].
    - intros Hall; split; [apply Hall; left; reflexivity|].
      intros w Hw; apply in_map_iff in Hw; destruct Hw as [y [<- Hy]]; apply Hall; right; exact Hy.
  Qed.
  Lemma meet_NoDup std s : (forall x, NoDup (tids std x)) -> NoDup (meet (map (tids std) s)).
  Proof. intros Hn; destruct s; simpl; [constructor | apply NoDup_fold_inter, Hn]. Qed.

  Lemma subtract_keys u std k : dkeys (subtract u std k) = dkeys std.
  Proof.
    unfold subtract; destruct (dget std k) as [v|] eqn:E; [|reflexivity].
    rewrite dkeys_dset; destruct (mem_spec k (dkeys std)) as [|Hn]; [reflexivity|].
    apply dget_None in Hn; congruence.
  Qed.
  Lemma subtract_tids u std k x t :
    In t (tids (subtract u std k) x) <-> In t (tids std x) /\ (x = k -> ~ In t u).
  Proof.
    unfold subtract, tids; destruct (dget std k) as [v|] eqn:E.
    - rewrite dget_dset; destruct (eq_dec x k) as [->|n].
      + rewrite E, In_diff; firstorder.
      + firstorder.
    - split; [|tauto]; intros Ht; split; [exact Ht|]; intros ->; rewrite E in Ht; destruct Ht.
  Qed.
  Lemma subtract_all_keys u s : forall std, dkeys (fold_left (subtract u) s std) = dkeys std.
  Proof. induction s as [|k s IH]; intros std; simpl; [reflexivity|]; rewrite IH; apply subtract_keys. Qed.
  Lemma subtract_all_tids u s : forall std x t,
    In t (tids (fold_left (subtract u) s std) x) <-> In t (tids std x) /\ (In x s -> ~ In t u).
  Proof.
    induction s as [|k s IH]; intros std x t; simpl; [tauto|].
    rewrite IH, subtract_tids; split.
    - intros [[Ht H1] H2]; split; [exact Ht|]; intros [->|Hx]; auto.
    - intros [Ht Hn]; split; [split; [exact Ht|]; intros ->; apply Hn; left; reflexivity|].
      intros Hx; apply Hn; right; exact Hx.
  Qed.
  Lemma subtract_all_NoDup u s : forall std, (forall x, NoDup (tids std x)) ->
    forall x, NoDup (tids (fold_left (subtract u) s std) x).
  Proof.
    induction s as [|k s IH]; intros std Hn; simpl; [exact Hn|].
    apply IH; intros x; unfold subtract; destruct (dget std k) as [v|] eqn:E; [|apply Hn].
    unfold tids; rewrite dget_dset; destruct (eq_dec x k) as [->|]; [|apply Hn].
    apply NoDup_diff; specialize (Hn k); unfold tids in Hn; rewrite E in Hn; exact Hn.
  Qed.

  (* entry e is used at t on item x *)
  Definition covers_at (l : list (list A * list nat)) (t : nat) (x : A) : Prop :=
    exists e, In e l /\ In x (fst e) /\ In t (snd e).
  Definition clash (e f : list A * list nat) : Prop :=
    exists t x, In t (snd e) /\ In t (snd f) /\ In x (fst e) /\ In x (fst f).

  Lemma cover_list_spec isets : forall std, (forall s, In s isets -> known std s) ->
    exists l std', cover_list std isets = Some (l, std') /\ map fst l = isets
      /\ (forall e, In e l -> forall t x, In t (snd e) -> In x (fst e) -> In t (tids std x))
      /\ ForallOrdPairs (fun e f => ~ clash e f) l
      /\ (forall x t, In t (tids std' x) <-> In t (tids std x) /\ ~ covers_at l t x)
      /\ (forall x t, In [x] isets -> In t (tids std x) -> covers_at l t x)
      /\ ((forall x, NoDup (tids std x)) -> forall e, In e l -> NoDup (snd e)).
  Proof.
    induction isets as [|s rest IH]; intros std Hk; simpl.
    - exists [], std; split; [reflexivity|]; split; [reflexivity|]; split; [intros e []|].
      split; [constructor|]; split; [|split; [intros x t [] | intros _ e []]].
      intros x t; split; [|tauto]; intros Ht; split; [exact Ht|]; intros [e [[] _]].
    - rewrite lookups_known by (apply Hk; left; reflexivity).
      set (u := meet (map (tids std) s)).
      set (std1 := fold_left (subtract u) s std).
      destruct (IH std1) as [l [std' [E [Hm [Hs [Hd [Hl [Hc Hn]]]]]]]].
      { intros q Hq x Hx; unfold std1; rewrite subtract_all_keys; apply (Hk q); [right; exact Hq | exact Hx]. }
      rewrite E; exists ((s, u) :: l), std'.
      assert (Ht1 : forall x t, In t (tids std1 x) <-> In t (tids std x) /\ (In x s -> ~ In t u)).
      { intros x t; apply subtract_all_tids. }
      repeat match goal with |- _ /\ _ => split end.
      + reflexivity.
      + simpl; rewrite Hm; reflexivity.
      + intros e [<-|He] t x Ht Hx; simpl in *.
        * destruct s as [|y s]; [destruct Hx|].
          apply (meet_spec std (y :: s) t); [discriminate | exact Ht | exact Hx].
        * apply (Hs e He t x Ht) in Hx; apply Ht1 in Hx; tauto.
      + constructor; [|exact Hd]; apply Forall_forall; intros f Hf [t [x [H1 [H2 [H3 H4]]]]]; simpl in *.
        apply (Hs f Hf t x H2) in H4; apply Ht1 in H4; destruct H4 as [_ H4]; exact (H4 H3 H1).
      + intros x t; rewrite Hl, Ht1; unfold covers_at; split.
        * intros [[Ht Hu] Hno]; split; [exact Ht|]; intros [e [[<-|He] [H1 H2]]]; simpl in *.
          -- exact (Hu H1 H2).
          -- apply Hno; exists e; auto.
        * intros [Ht Hno]; split; [split; [exact Ht|]|].
          -- intros Hx Hu; apply Hno; exists (s, u); simpl; auto.
          -- intros [e [He H12]]; apply Hno; exists e; simpl; auto.
      + intros x t Hx Ht; destruct (mem_spec x s) as [Hxs|Hxs].
        * destruct (mem_spec t u) as [Htu|Htu]; [exists (s, u); simpl; auto|].
          destruct Hx as [->|Hx].
          -- exfalso; apply Htu, meet_spec; [discriminate|]; intros y [<-|[]]; exact Ht.
          -- destruct (Hc x t Hx) as [e [He H12]]; [apply Ht1; auto|].
             exists e; simpl; auto.
        * destruct Hx as [->|Hx]; [destruct Hxs; left; reflexivity|].
          destruct (Hc x t Hx) as [e [He H12]]; [apply Ht1; split; [exact Ht | contradiction]|].
          exists e; simpl; auto.
      + intros Hnd e [<-|He]; simpl; [apply meet_NoDup, Hnd|].
        apply Hn; [|exact He]; apply subtract_all_NoDup, Hnd.
  Qed.

  (* the code table [c] is an exact, non overlapping cover of [std] *)
  Record exact std (c : ktable A (list nat)) : Prop := {
    ex_sound : forall e, In e c -> forall t x, In t (snd e) -> In x (fst e) -> In t (tids std x);
    ex_disj : ForallOrdPairs (fun e f => ~ clash e f) c;
    ex_total : forall x t, In t (tids std x) -> covers_at c t x }.

  Definition singles std (l : list (list A)) : Prop := forall x, In x (dkeys std) -> kmem l [x] = true.
  (* an itemset equal as a set to [x], in duplicate-free form, is [x] itself *)
  Lemma seteq_single x s : NoDup s -> seteq [x] s = true -> s = [x].
  Proof.
    rewrite seteq_spec; intros Hn [H1 H2].
    destruct s as [|y [|z s]].
    - destruct (H1 x); left; reflexivity.
    - destruct (H1 x) as [<-|[]]; [left; reflexivity | reflexivity].
    - exfalso; inversion Hn as [|? ? Hy _]; subst.
      destruct (H2 y) as [<-|[]]; [left; reflexivity|].
      destruct (H2 z) as [<-|[]]; [right; left; reflexivity|]; apply Hy; left; reflexivity.
  Qed.

  Lemma cover_spec std isets :
    distinct isets -> (forall s, In s isets -> NoDup s /\ known std s) ->
    exists c std', cover std isets = Some (c, std') /\ map fst c = isets
      /\ (forall e, In e c -> forall t x, In t (snd e) -> In x (fst e) -> In t (tids std x))
      /\ ForallOrdPairs (fun e f => ~ clash e f) c
      /\ (forall x t, In t (tids std' x) <-> In t (tids std x) /\ ~ covers_at c t x)
      /\ (singles std isets -> exact std c)
      /\ ((forall x, NoDup (tids std x)) -> forall e, In e c -> NoDup (snd e)).
  Proof.
    intros Hd Hk; destruct (cover_list_spec isets std) as [l [std' [E [Hm [Hs [Hdj [Hl [Hc Hn]]]]]]]].
    { intros s Hin; apply Hk, Hin. }
    unfold cover; rewrite E.
    assert (El : kupdate [] l = l).
    { rewrite kupdate_fresh; [reflexivity | unfold kdistinct; rewrite Hm; exact Hd | intros; reflexivity]. }
    rewrite El; exists l, std'; repeat match goal with |- _ /\ _ => split end; auto.
    intros Hsi; constructor; auto; intros x t Ht; apply Hc; [|exact Ht].
    assert (Hx : In x (dkeys std)).
    { unfold tids in Ht; destruct (dget std x) as [v|] eqn:F; [|destruct Ht].
      apply dget_Some_key; exists v; exact F. }
    apply Hsi, kmem_true in Hx; destruct Hx as [s [Hin Hse]].
    rewrite <- (seteq_single x s); [exact Hin | apply Hk, Hin | exact Hse].
  Qed.

  Lemma FOP_incl_filter {B} (R : B -> B -> Prop) f l : ForallOrdPairs R l -> ForallOrdPairs R (filter f l).
  Proof. apply FOP_filter. Qed.
  (* dropping unused entries keeps a cover exact *)
  Lemma exact_filter std c f : exact std c -> (forall e, In e c -> f e = false -> snd e = []) ->
    exact std (filter f c).
  Proof.
    intros [E1 E2 E3] Hf; constructor.
    - intros e He; apply filter_In in He; apply E1, He.
    - apply FOP_filter, E2.
    - intros x t Ht; destruct (E3 x t Ht) as [e [He [H1 H2]]]; exists e; split; [|auto].
      apply filter_In; split; [exact He|]; destruct (f e) eqn:F; [reflexivity|].
      rewrite (Hf e He F) in H2; destruct H2.
  Qed.

  Lemma disj_iff (c : ktable A (list nat)) : kdistinct c ->
    ForallOrdPairs (fun e f => ~ clash e f) c <->
    (forall e f, In e c -> In f c -> seteq (fst e) (fst f) = false -> ~ clash e f).
  Proof.
    unfold kdistinct; induction c as [|p c IH]; intros Hd; simpl in Hd.
    - split; [intros _ e f [] | intros; constructor].
    - apply distinct_cons in Hd; destruct Hd as [Hk Hd]; rewrite kmem_false in Hk; split.
      + intros Hf; inversion Hf as [|? ? H1 H2]; subst; rewrite Forall_forall in H1.
        intros e f [<-|He] [<-|Hff] Hs.
        * rewrite seteq_refl in Hs; discriminate.
        * apply H1, Hff.
        * intros [t [x [C1 [C2 [C3 C4]]]]]; apply (H1 e He); exists t, x; auto.
        * apply IH; assumption.
      + intros Hall; constructor.
        * apply Forall_forall; intros f Hff; apply Hall; [left; reflexivity | right; exact Hff|].
          apply Hk, in_map, Hff.
        * apply IH; [exact Hd|]; intros e f He Hff; apply Hall; right; assumption.
  Qed.
  (* the same map, in another order or with other representatives of the keys *)
  Lemma exact_ext std (c c' : ktable A (list nat)) : kdistinct c -> kdistinct c' ->
    (forall k, kget c k = kget c' k) -> exact std c -> exact std c'.
  Proof.
    intros Hd Hd' Hg [E1 E2 E3].
    assert (Hto : forall k v, In (k, v) c' -> exists k', In (k', v) c /\ seteq k k' = true).
    { intros k v Hin; apply kget_Some; rewrite Hg; apply kget_In; assumption. }
    assert (Hof : forall k v, In (k, v) c -> exists k', In (k', v) c' /\ seteq k k' = true).
    { intros k v Hin; apply kget_Some; rewrite <- Hg; apply kget_In; assumption. }
    constructor.
    - intros [k v] He t x Ht Hx; destruct (Hto k v He) as [k' [Hin Hs]]; apply seteq_spec in Hs.
      apply (E1 _ Hin t x); [exact Ht | apply Hs, Hx].
    - rewrite disj_iff in * by assumption; intros [k v] [q w] He Hf Hs [t [x [C1 [C2 [C3 C4]]]]]; simpl in *.
      destruct (Hto k v He) as [k' [Hin Hs']]; destruct (Hto q w Hf) as [q' [Hin' Hs'']].
      apply (E2 (k', v) (q', w) Hin Hin').
      + simpl; destruct (seteq k' q') eqn:E; [|reflexivity].
        rewrite seteq_sym in Hs''.
        rewrite (seteq_trans k k' q Hs' (seteq_trans k' q' q E Hs'')) in Hs; discriminate.
      + apply seteq_spec in Hs'; apply seteq_spec in Hs''.
        exists t, x; simpl; repeat split; auto; [apply Hs', C3 | apply Hs'', C4].
    - intros x t Ht; destruct (E3 x t Ht) as [[k v] [He [H1 H2]]]; destruct (Hof k v He) as [k' [Hin Hs]].
      apply seteq_spec in Hs; exists (k', v); simpl in *; repeat split; auto; apply Hs, H1.
  Qed.
End CoverProofs.
