(* Invariant of the reachable SLIM states. *)
From Verif Require Import Prelude CheckModel LCMModel LCMProofs ItemsetSpec VerticalProofs LCMLift
  SlimModel SlimProofs.

Section Good.
  Context {A : Type} `{EqDec A}.
  Implicit Types (std : dict A (list nat)) (c : ktable A (list nat)).

  Definition key_ok std (s : list A) : Prop := NoDup s /\ s <> [] /\ known std s.
  Record good std c : Prop := {
    g_distinct : kdistinct c;
    g_keys : forall s, In s (map fst c) -> key_ok std s;
    g_singles : singles std (map fst c);
    g_exact : exact std c;
    g_nodup : forall e, In e c -> NoDup (snd e) }.
  Definition std_ok std : Prop := forall x, NoDup (tids std x).
  Definition occupied std : Prop := exists x t, In t (tids std x).

  Lemma kget_mem c k : kmem (map fst c) k = true -> exists v, kget c k = Some v.
  Proof.
    intros Hk; destruct (kget c k) as [v|] eqn:E; [exists v; reflexivity|].
    apply kget_None in E; congruence.
  Qed.
  Lemma kget_mem_iff c c' k : kget c k = kget c' k -> kmem (map fst c) k = kmem (map fst c') k.
  Proof.
    intros E; destruct (kmem (map fst c) k) eqn:E1, (kmem (map fst c') k) eqn:E2; auto.
    - apply kget_None in E2; apply kget_mem in E1; destruct E1 as [v E1]; congruence.
    - apply kget_None in E1; apply kget_mem in E2; destruct E2 as [v E2]; congruence.
  Qed.

  Lemma good_ext std c c' : kdistinct c' -> (forall s, In s (map fst c') -> key_ok std s) ->
    (forall k, kget c k = kget c' k) -> good std c -> good std c'.
  Proof.
    intros Hd Hk Hg [G1 G2 G3 G4 G5]; constructor; auto.
    - intros x Hx; rewrite <- (kget_mem_iff c c' [x] (Hg [x])); apply G3, Hx.
    - eapply exact_ext; [exact G1 | exact Hd | exact Hg | exact G4].
    - intros [k v] He; apply kget_In in He; [|exact Hd]; rewrite <- Hg in He.
      apply kget_Some in He; destruct He as [k' [Hin _]]; apply (G5 _ Hin).
  Qed.

  Lemma cover_good std isets : std_ok std -> distinct isets -> (forall s, In s isets -> key_ok std s) ->
    singles std isets ->
    exists c std', cover std isets = Some (c, std') /\ map fst c = isets /\ good std c.
  Proof.
    intros Hn Hd Hk Hs; destruct (cover_spec std isets Hd) as [c [std' [E [Hm [_ [_ [_ [Hx Hnd]]]]]]]].
    { intros s Hin; destruct (Hk s Hin) as [? [? ?]]; auto. }
    exists c, std'; split; [exact E|]; split; [exact Hm|]; constructor.
    - unfold kdistinct; rewrite Hm; exact Hd.
    - rewrite Hm; exact Hk.
    - rewrite Hm; exact Hs.
    - apply Hx, Hs.
    - apply Hnd, Hn.
  Qed.

  Lemma good_used std c : good std c -> (used c <> [] <-> occupied std).
  Proof.
    intros G; split.
    - intros Hu; destruct (used c) as [|e u] eqn:E; [congruence|].
      assert (He : In e (used c)) by (rewrite E; left; reflexivity).
      apply filter_In in He; destruct He as [He Hl].
      destruct (g_keys std c G (fst e) (in_map fst _ _ He)) as [_ [Hne _]].
      destruct e as [[|x s] [|t v]]; simpl in *; try congruence; try discriminate.
      exists x, t; apply (ex_sound std c (g_exact _ _ G) _ He t x); left; reflexivity.
    - intros [x [t Ht]]; destruct (ex_total std c (g_exact _ _ G) x t Ht) as [e [He [_ Hin]]].
      intros E; assert (Hu : In e (used c)).
      { apply filter_In; split; [exact He|]; destruct (snd e); [destruct Hin | reflexivity]. }
      rewrite E in Hu; destruct Hu.
  Qed.

  (* counting *)
  Lemma distinct_length l : forall l', distinct l -> (forall k : list A, In k l -> kmem l' k = true) ->
    length l <= length l'.
  Proof.
    induction l as [|k l IH]; intros l' Hd Hm; simpl; [lia|].
    apply distinct_cons in Hd; destruct Hd as [Hk Hd].
    destruct (proj1 (kmem_true l' k)) as [k' [Hin Hs]]; [apply Hm; left; reflexivity|].
    destruct (in_split _ _ Hin) as [l1 [l2 ->]].
    assert (L : length l <= length (l1 ++ l2)).
    { apply IH; [exact Hd|]; intros q Hq.
      specialize (Hm q (or_intror Hq)); rewrite kmem_app in *; simpl in Hm.
      replace (seteq q k') with false in Hm; [exact Hm|]; symmetry.
      destruct (seteq q k') eqn:E; [|reflexivity].
      rewrite kmem_false in Hk; specialize (Hk q Hq).
      rewrite seteq_sym in E; rewrite (seteq_trans k k' q Hs E) in Hk; discriminate. }
    rewrite app_length in *; simpl; lia.
  Qed.

  (* ------------------------------------------------------------- prefit *)
  Lemma sort_dkeys_perm (leb : A * list nat -> A * list nat -> bool) (d : dict A (list nat)) :
    Permutation (dkeys (sort leb d)) (dkeys d).
  Proof. apply Permutation_map, sort_perm. Qed.
  Lemma dget_perm (d d' : dict A (list nat)) x : Permutation d d' -> NoDup (dkeys d) -> dget d x = dget d' x.
  Proof.
    intros Hp Hn; destruct (dget d x) as [v|] eqn:E.
    - symmetry; apply In_dget; [eapply Permutation_NoDup; [apply Permutation_map, Hp | exact Hn]|].
      apply (Permutation_in _ Hp), dget_In, E.
    - symmetry; apply dget_None; apply dget_None in E; intros Hx; apply E.
      apply (Permutation_in _ (Permutation_sym (Permutation_map fst Hp))), Hx.
  Qed.
  Lemma dget_app (d d' : dict A (list nat)) x :
    dget (d ++ d') x = match dget d x with Some v => Some v | None => dget d' x end.
  Proof.
    induction d as [|[k v] d IH]; simpl; [reflexivity|]; destruct (eq_dec x k); [reflexivity | exact IH].
  Qed.
  Lemma dget_blank l x : dget (map (fun y : A => (y, @nil nat)) l) x = if mem x l then Some [] else None.
  Proof.
    induction l as [|y l IH]; simpl; [reflexivity|]; unfold eqd.
    destruct (eq_dec x y); [reflexivity | exact IH].
  Qed.

  Lemma prefit_ct_keys (ord : list A -> list A -> bool) std : forall c,
    NoDup (dkeys std) -> kdistinct c ->
    (forall s, In s (map fst c) -> exists x, s = [x] /\ ~ In x (dkeys std)) ->
    let c' := fold_left (fun c e => kput ord c [fst e] (snd e)) std c in
    kdistinct c' /\ (forall s, In s (map fst c') -> In s (map fst c) \/ exists x, s = [x] /\ In x (dkeys std))
    /\ (forall k, kget c' k = match k with
                              | [x] => match dget std x with Some v => Some v | None => kget c k end
                              | _ => kget c' k end)
    /\ (forall k, kmem (map fst c) k = true -> kget c' k = kget c k).
  Proof.
    induction std as [|[x v] std IH]; intros c Hn Hd Hc; simpl.
    - split; [exact Hd|]; split; [auto|]; split; [|reflexivity].
      intros [|y [|z k]]; reflexivity.
    - inversion Hn as [|? ? Hx Hn']; subst.
      destruct (IH (kput ord c [x] v)) as [I1 [I2 [I3 I4]]].
      + exact Hn'.
      + apply kput_distinct, Hd.
      + intros s Hs; apply kput_In in Hs; destruct Hs as [->|Hs].
        * exists x; auto.
        * destruct (Hc s Hs) as [y [-> Hy]]; exists y; split; [reflexivity|].
          intros Hy'; apply Hy; right; exact Hy'.
      + simpl in *; split; [exact I1|]; split; [|split].
        * intros s Hs; destruct (I2 s Hs) as [Hs'|[y [-> Hy]]].
          -- apply kput_In in Hs'; destruct Hs' as [->|Hs']; [right; exists x; auto | left; exact Hs'].
          -- right; exists y; auto.
        * intros [|y [|z k]]; [reflexivity | | reflexivity].
          rewrite (I3 [y]); destruct (eq_dec y x) as [->|ne].
          -- destruct (dget std x) as [w|] eqn:E; [exfalso; apply Hx, dget_Some_key; eexists; exact E|].
             rewrite kput_get, seteq_refl by exact Hd; reflexivity.
          -- destruct (dget std y); [reflexivity|]; rewrite kput_get by exact Hd.
             replace (seteq [y] [x]) with false; [reflexivity|]; symmetry.
             destruct (seteq [y] [x]) eqn:E; [|reflexivity]; apply seteq_spec in E; destruct E as [E _].
             destruct (E y) as [->|[]]; [left; reflexivity | congruence].
        * intros k Hk; rewrite I4.
          -- rewrite kput_get by exact Hd; destruct (seteq k [x]) eqn:E; [|reflexivity].
             apply kmem_true in Hk; destruct Hk as [s [Hs Hks]]; destruct (Hc s Hs) as [y [-> Hy]].
             exfalso; apply Hy; left; apply seteq_spec in E; apply seteq_spec in Hks.
             destruct E as [_ E]; destruct Hks as [Hks _].
             destruct (Hks x (E x (or_introl eq_refl))) as [|[]]; auto.
          -- destruct (kget_mem c k Hk) as [w Hw].
             assert (Hq : kget (kput ord c [x] v) k <> None).
             { rewrite kput_get by exact Hd; destruct (seteq k [x]); congruence. }
             destruct (kmem (map fst (kput ord c [x] v)) k) eqn:E; [reflexivity|].
             apply kget_None in E; congruence.
  Qed.

  Lemma exact_singles std (c : ktable A (list nat)) : NoDup (dkeys std) -> kdistinct c ->
    (forall s, In s (map fst c) -> exists x, s = [x] /\ In x (dkeys std)) ->
    (forall x, In x (dkeys std) -> kget c [x] = dget std x) -> exact std c.
  Proof.
    intros Hn Hd Hk Hg; constructor.
    - intros [k v] He t x Ht Hx; simpl in *.
      destruct (Hk k (in_map fst _ _ He)) as [y [-> Hy]]; destruct Hx as [<-|[]].
      apply kget_In in He; [|exact Hd]; rewrite Hg in He by exact Hy.
      unfold tids; rewrite He; exact Ht.
    - apply disj_iff; [exact Hd|]; intros [k v] [q w] He Hf Hs [t [x [_ [_ [C3 C4]]]]]; simpl in *.
      destruct (Hk k (in_map fst _ _ He)) as [y [-> _]]; destruct (Hk q (in_map fst _ _ Hf)) as [z [-> _]].
      destruct C3 as [<-|[]]; destruct C4 as [<-|[]]; rewrite seteq_refl in Hs; discriminate.
    - intros x t Ht; unfold tids in Ht; destruct (dget std x) as [v|] eqn:E; [|destruct Ht].
      assert (Hx : In x (dkeys std)) by (apply dget_Some_key; eexists; exact E).
      rewrite <- (Hg x Hx) in E; apply kget_Some in E; destruct E as [k' [Hin Hs]].
      exists (k', v); simpl; split; [exact Hin|]; split; [|exact Ht].
      apply seteq_spec in Hs; apply Hs; left; reflexivity.
  Qed.

  Context {T : Type}.
  Definition inv (st : slim A T) : Prop := std_ok (sct st) /\ good (sct st) (ct st).

  Lemma prefit_good (ord : list A -> list A -> bool) (d : dict A (list nat)) items (s0 : T) :
    NoDup (dkeys d) -> (forall x v, In (x, v) d -> NoDup v) -> NoDup items ->
    inv (prefit ord d items s0)
    /\ (forall x, tids (sct (prefit ord d items s0)) x = tids d x)
    /\ (forall x, In x (dkeys (sct (prefit ord d items s0))) <-> In x (dkeys d) \/ In x items).
  Proof.
    intros Hn Hv Hi; unfold prefit; simpl.
    set (base := sort more_frequent d).
    set (ex := filter (fun x => negb (mem x (dkeys base))) items).
    set (std := base ++ map (fun x => (x, [])) ex).
    assert (Hkb : Permutation (dkeys base) (dkeys d)) by apply sort_dkeys_perm.
    assert (Hex : dkeys (map (fun x : A => (x, @nil nat)) ex) = ex).
    { unfold dkeys; rewrite map_map; apply map_id. }
    assert (Hks : dkeys std = dkeys base ++ ex) by (unfold std, dkeys; rewrite map_app; fold (dkeys (map (fun x : A => (x, @nil nat)) ex)); rewrite Hex; reflexivity).
    assert (Hxin : forall x, In x ex <-> In x items /\ ~ In x (dkeys d)).
    { intros x; unfold ex; rewrite filter_In, negb_true_iff, mem_false.
      split; intros [H1 H2]; split; auto; intros Hc; apply H2;
        [apply (Permutation_in _ (Permutation_sym Hkb)) | apply (Permutation_in _ Hkb)]; exact Hc. }
    assert (Hns : NoDup (dkeys std)).
    { rewrite Hks; apply NoDup_app_intro.
      - eapply Permutation_NoDup; [symmetry; exact Hkb | exact Hn].
      - apply NoDup_filter, Hi.
      - intros x H1 H2; apply Hxin in H2; apply H2, (Permutation_in _ Hkb), H1. }
    assert (Ht : forall x, tids std x = tids d x).
    { intros x; unfold tids, std; rewrite dget_app.
      rewrite <- (dget_perm d base x) by (try exact Hn; symmetry; apply sort_perm).
      destruct (dget d x); [reflexivity|]; rewrite dget_blank; destruct (mem x ex); reflexivity. }
    destruct (prefit_ct_keys ord std [] Hns) as [I1 [I2 [I3 _]]].
    { constructor. }
    { intros s []. }
    simpl in *.
    set (c := fold_left (fun c e => kput ord c [fst e] (snd e)) std []) in *.
    assert (Hck : forall s, In s (map fst c) -> exists x, s = [x] /\ In x (dkeys std)).
    { intros s Hs; destruct (I2 s Hs) as [[]|Hx]; exact Hx. }
    assert (Hcg : forall x, In x (dkeys std) -> kget c [x] = dget std x).
    { intros x Hx; rewrite (I3 [x]); destruct (dget std x) eqn:E; [reflexivity|].
      apply dget_None in E; contradiction. }
    split; [split|split].
    - intros x; rewrite Ht; unfold tids; destruct (dget d x) as [v|] eqn:E; [|constructor].
      apply (Hv x), dget_In, E.
    - simpl; constructor.
      + exact I1.
      + intros s Hs; destruct (Hck s Hs) as [x [-> Hx]]; split; [|split].
        * constructor; [intros [] | constructor].
        * discriminate.
        * intros y [<-|[]]; exact Hx.
      + intros x Hx; destruct (kmem (map fst c) [x]) eqn:E; [reflexivity|].
        apply kget_None in E; rewrite Hcg in E by exact Hx; apply dget_None in E; contradiction.
      + apply exact_singles; assumption.
      + intros [k v] He; destruct (Hck k (in_map fst _ _ He)) as [x [-> Hx]]; simpl.
        apply kget_In in He; [|exact I1]; rewrite Hcg in He by exact Hx.
        apply dget_In in He; unfold std in He; apply in_app_iff in He; destruct He as [He|He].
        * apply (Hv x), (Permutation_in _ (sort_perm more_frequent d)), He.
        * apply in_map_iff in He; destruct He as [y [E _]]; injection E as <- <-; constructor.
    - exact Ht.
    - intros x; rewrite Hks, in_app_iff, Hxin; split.
      + intros [Hx|Hx]; [left; apply (Permutation_in _ Hkb), Hx | tauto].
      + intros [Hx|Hx]; [left; apply (Permutation_in _ (Permutation_sym Hkb)), Hx|].
        destruct (mem_spec x (dkeys d)) as [Hd|Hd]; [|tauto].
        left; apply (Permutation_in _ (Permutation_sym Hkb)), Hd.
  Qed.
End Good.
