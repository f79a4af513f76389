(* C14: updating a code table with an itemset that it already has. *)
From Verif Require Import Prelude CheckModel LCMModel LCMProofs ItemsetSpec VerticalProofs LCMLift
  SlimModel SlimProofs SlimInv SlimRun SlimFit SlimUse PropSlim.

Section Repeat.
  Context {A : Type} `{EqDec A}.

  Lemma cover_list_app l1 : forall (std : dict A (list nat)) l2 r std', cover_list std (l1 ++ l2) = Some (r, std') ->
    exists r1 std1 r2, cover_list std l1 = Some (r1, std1) /\ cover_list std1 l2 = Some (r2, std') /\ r = r1 ++ r2.
  Proof.
    induction l1 as [|s l1 IH]; intros std l2 r std' E; cbn [app cover_list] in E |- *.
    - exists [], std, r. auto.
    - destruct (lookups std s) as [it|]; [|discriminate]. destruct (cover_list _ (l1 ++ l2)) as [[l d]|] eqn:E1; [|discriminate].
      injection E as <- <-. destruct (IH _ _ _ _ E1) as (r1 & std1 & r2 & F1 & F2 & ->). rewrite F1. exists ((s, meet it) :: r1), std1, r2. auto.
  Qed.
  Lemma cover_list_known l : forall (std : dict A (list nat)) r std', cover_list std l = Some (r, std') -> dkeys std' = dkeys std.
  Proof.
    induction l as [|s l IH]; intros std r std' E; cbn [cover_list] in E; [injection E as _ <-; reflexivity|].
    destruct (lookups std s) as [it|]; [|discriminate]. destruct (cover_list _ l) as [[q d]|] eqn:E1; [|discriminate]. injection E as _ <-.
    rewrite (IH _ _ _ E1). apply subtract_all_keys.
  Qed.
  Lemma cover_twice (std : dict A (list nat)) l1 s1 l2 s2 l3 r std' : (forall s, In s (l1 ++ s1 :: l2 ++ s2 :: l3) -> known std s) ->
    s1 <> [] -> seteq s1 s2 = true -> cover_list std (l1 ++ s1 :: l2 ++ s2 :: l3) = Some (r, std') ->
    exists r1 r3, r = r1 ++ (s2, []) :: r3 /\ map fst r3 = l3.
  Proof.
    intros Hk Hne Hs E. apply seteq_spec in Hs. destruct Hs as [S12 S21].
    apply cover_list_app in E. destruct E as (ra & stda & rb & Ea & E & ->). pose proof (cover_list_known _ _ _ _ Ea) as Ka.
    assert (Hka : forall s, In s (s1 :: l2 ++ s2 :: l3) -> known stda s).
    { intros s Hin x Hx. rewrite Ka. exact (Hk s (in_or_app _ _ _ (or_intror Hin)) x Hx). }
    cbn [cover_list] in E. rewrite lookups_known in E by (apply Hka; left; reflexivity). set (u := meet (map (tids stda) s1)) in *.
    set (stdb := fold_left (subtract u) s1 stda) in *.
    destruct (cover_list stdb (l2 ++ s2 :: l3)) as [[l d]|] eqn:Eb; [|discriminate]. injection E as <- <-.
    assert (Hkb : forall s, In s (l2 ++ s2 :: l3) -> known stdb s).
    { intros s Hin x Hx. unfold stdb. rewrite subtract_all_keys. exact (Hka s (or_intror Hin) x Hx). }
    apply cover_list_app in Eb. destruct Eb as (rc & stdc & rd & Ec & Ed & ->). pose proof (cover_list_known _ _ _ _ Ec) as Kc.
    assert (Hkc : forall s, In s (s2 :: l3) -> known stdc s).
    { intros s Hin x Hx. rewrite Kc. exact (Hkb s (in_or_app _ _ _ (or_intror Hin)) x Hx). }
    assert (Hmono : forall x t, In t (tids stdc x) -> In t (tids stdb x)).
    { destruct (cover_list_spec l2 stdb) as (q & dq & Eq & _ & _ & _ & Hq & _).
      - intros s Hin. apply Hkb, in_or_app. left. exact Hin.
      - rewrite Ec in Eq. injection Eq as <- <-. intros x t Ht. apply Hq, Ht. }
    cbn [cover_list] in Ed. rewrite lookups_known in Ed by (apply Hkc; left; reflexivity).
    assert (Hm : meet (map (tids stdc) s2) = []).
    { destruct (meet (map (tids stdc) s2)) as [|t m] eqn:Em; [reflexivity|]. exfalso.
      assert (Hs2 : s2 <> []) by (intros ->; destruct s1 as [|x s1]; [congruence | exact (S12 x (or_introl eq_refl))]).
      assert (Ht : In t (meet (map (tids stdc) s2))) by (rewrite Em; left; reflexivity).
      rewrite meet_spec in Ht by exact Hs2.
      assert (Hall : forall x, In x s1 -> In t (tids stda x) /\ ~ In t u).
      { intros x Hx. specialize (Ht x (S12 x Hx)). apply Hmono in Ht. unfold stdb in Ht. apply subtract_all_tids in Ht. split; [apply Ht | apply Ht, Hx]. }
      destruct s1 as [|x s1]; [congruence|]. apply (proj2 (Hall x (or_introl eq_refl))). unfold u. apply meet_spec; [discriminate|].
      intros y Hy. apply (Hall y Hy). }
    rewrite Hm in Ed. destruct (cover_list _ l3) as [[q dq]|] eqn:Eq; [|discriminate]. injection Ed as <- <-.
    exists (ra ++ (s1, u) :: rc), q. split; [rewrite <- app_assoc; reflexivity|].
    destruct (cover_list_spec l3 (fold_left (subtract []) s2 stdc)) as (q' & dq' & Eq' & Hq' & _).
    - intros s Hin x Hx. rewrite subtract_all_keys. exact (Hkc s (or_intror Hin) x Hx).
    - rewrite Eq in Eq'. injection Eq' as <- <-. exact Hq'.
  Qed.
  Lemma kupdate_last (r1 r3 : ktable A (list nat)) s u k d : seteq k s = true -> kmem (map fst r3) k = false ->
    kget (kupdate d (r1 ++ (s, u) :: r3)) k = Some u.
  Proof.
    intros Hs Hr. unfold kupdate. rewrite fold_left_app. cbn [fold_left fst snd]. generalize (fold_left (fun d p => kset d (fst p) (snd p)) r1 d) as e. intros e.
    assert (He : kget (kset e s u) k = Some u) by (rewrite kset_get, Hs; reflexivity). revert He. generalize (kset e s u) as f. clear e.
    induction r3 as [|[q v] r3 IH]; intros f Hf; [exact Hf|]. cbn [fold_left fst snd]. unfold kmem in Hr. cbn [map fst existsb] in Hr.
    apply orb_false_iff in Hr. destruct Hr as [Hq Hr]. apply (IH Hr). rewrite kset_get, Hq. exact Hf.
  Qed.
  Lemma kput_all (ord : list A -> list A -> bool) (us : ktable A (list nat)) : forall c k, kdistinct c -> kdistinct us ->
    kdistinct (fold_left (fun c p => kput ord c (fst p) (snd p)) us c) /\
    kget (fold_left (fun c p => kput ord c (fst p) (snd p)) us c) k = match kget us k with Some v => Some v | None => kget c k end.
  Proof.
    induction us as [|[q v] us IH]; intros c k Hc Hu; [split; [exact Hc | reflexivity]|]. cbn [fold_left fst snd].
    apply distinct_cons in Hu. cbn [map fst] in Hu. destruct Hu as [Hq Hu].
    destruct (IH (kput ord c q v) k (kput_distinct ord c q v Hc) Hu) as [D E]. split; [exact D|]. rewrite E, (kput_get ord c q v k Hc). cbn [kget].
    destruct (seteq k q) eqn:Es; [|reflexivity]. rewrite (proj2 (kget_None us k)); [reflexivity|].
    rewrite (kmem_ext _ k q Es). exact Hq.
  Qed.
  Lemma kdel_all (ks : list (list A)) : forall (c : ktable A (list nat)) k, (forall q, In q ks -> seteq q k = false) -> kget (fold_left kdel ks c) k = kget c k.
  Proof.
    induction ks as [|q ks IH]; intros c k Hk; [reflexivity|]. cbn [fold_left]. rewrite IH by (intros; apply Hk; right; assumption).
    rewrite kdel_get, (Hk q (or_introl eq_refl)). reflexivity.
  Qed.
  Lemma insert_split (leb : list A -> list A -> bool) x l : exists l1 l2, l = l1 ++ l2 /\ insert_right leb x l = l1 ++ x :: l2.
  Proof.
    induction l as [|y l IH]; cbn [insert_right]; [exists [], []; auto|]. destruct (leb y x).
    - destruct IH as (l1 & l2 & -> & ->). exists (y :: l1), l2. auto.
    - exists [], (y :: l). auto.
  Qed.
  Lemma distinct_app_split (l1 : list (list A)) s l2 : distinct (l1 ++ s :: l2) -> kmem l2 s = false.
  Proof. induction l1 as [|x l1 IH]; intros Hd; cbn [app] in Hd; apply distinct_cons in Hd; [apply Hd | apply IH, Hd]. Qed.

  Context {T : Type} (total : ktable A (list nat) -> T) (tlt : T -> T -> bool).
  Context (tlt_trans : forall t1 t2 t3, tlt t1 t2 = true -> tlt t2 t3 = true -> tlt t1 t3 = true).
  Context (ord : list A -> list A -> bool).
  Context (iter : list (list A) -> list (list A)) (iter_perm : forall l, Permutation (iter l) l).
  Context {G : Type} (gain : ktable A (list nat) -> list A -> list A -> G)
          (gpos : G -> bool) (gge : G -> G -> bool).
  Context (reorder : ktable A (list nat) -> ktable A (list nat)) (reorder_perm : forall c, Permutation (reorder c) c).

  (* Without pruning, an update with an itemset that the code table already has leaves this itemset without any usage,
     whatever the database, the history and the order of the table. *)
  Theorem C14_repeated : forall X items st cand st' s, well_named X items ->
    reachable total tlt ord iter gain gpos gge reorder X items st -> In s (map fst (ct st)) -> same_items s cand ->
    update total tlt ord iter false st cand = Ret st' ->
    exists s', In (s', []) (ct st') /\ same_items s' cand.
  Proof.
    intros X items st cand st' s Hw R Hs Hsame E.
    assert (Hi : inv st) by (refine (proj1 (reachable_inv total tlt _ ord iter _ gain gpos gge reorder _ X items st Hw R)); assumption).
    destruct Hi as [_ Gd]. pose proof (g_distinct _ _ Gd) as Hd. unfold kdistinct in Hd.
    assert (Hkeys : forall q, In q (map fst (ct st)) -> known (sct st) q) by (intros q Hq; apply (g_keys _ _ Gd q Hq)).
    assert (Hkc : known (sct st) cand) by (intros x Hx; apply (Hkeys s Hs x), Hsame, Hx).
    assert (Hsne : s <> []) by apply (g_keys _ _ Gd s Hs).
    assert (Hcne : cand <> []) by (intros ->; destruct s as [|x s]; [congruence | exact (proj1 Hsame x (or_introl eq_refl))]).
    assert (Esc : seteq s cand = true) by (apply seteq_spec, Hsame). assert (Ecs : seteq cand s = true) by (rewrite seteq_sym; exact Esc).
    destruct cand as [|c0 cand]; [congruence|]. set (cd := c0 :: cand) in *. unfold update in E. cbn iota in E. fold cd in E. unfold evaluate, cover in E.
    destruct (insert_split ord cd (map fst (ct st))) as (k1 & k2 & Ek & Ei). rewrite Ei in E.
    destruct (cover_list (sct st) (k1 ++ cd :: k2)) as [[r std']|] eqn:Er; [|discriminate]. cbn [bind] in E.
    destruct (compute_sizes total (kupdate [] r)) as [t|x|]; try discriminate. cbn [bind] in E. injection E as <-.
    assert (Hall : forall q, In q (k1 ++ cd :: k2) -> known (sct st) q).
    { intros q Hq. apply in_app_or in Hq. destruct Hq as [Hq|[<-|Hq]]; [|exact Hkc|]; apply Hkeys; rewrite Ek; apply in_or_app; auto. }
    assert (Hu : kget (kupdate [] r) cd = Some []).
    { rewrite Ek in Hs. apply in_app_or in Hs. destruct Hs as [Hs|Hs]; apply in_split in Hs; destruct Hs as (a & b & ->).
      - rewrite <- app_assoc in Er, Hall. cbn [app] in Er, Hall. destruct (cover_twice _ _ _ _ _ _ _ _ Hall Hsne Esc Er) as (r1 & r3 & -> & E3).
        apply kupdate_last; [apply seteq_refl|]. rewrite E3, (kmem_ext _ cd s Ecs). rewrite Ek, <- app_assoc in Hd. cbn [app] in Hd.
        apply distinct_app_split in Hd. rewrite kmem_app in Hd. apply orb_false_iff in Hd. apply Hd.
      - destruct (cover_twice _ _ _ _ _ _ _ _ Hall Hcne Ecs Er) as (r1 & r3 & -> & E3).
        apply kupdate_last; [exact Ecs|]. rewrite E3, (kmem_ext _ cd s Ecs). rewrite Ek, app_assoc in Hd. apply distinct_app_split in Hd. exact Hd. }
    assert (Hdu : kdistinct (kupdate [] r)) by (apply kupdate_distinct; constructor).
    destruct (kput_all ord (kupdate [] r) (ct st) cd (g_distinct _ _ Gd) Hdu) as [Dp Ep]. rewrite Hu in Ep.
    assert (Eg : kget (ct (update_with ord st t (kupdate [] r))) cd = Some []).
    { unfold update_with. cbn [ct]. rewrite kdel_all; [exact Ep|]. intros q Hq. apply filter_In in Hq. destruct Hq as [_ Hq].
      apply andb_true_iff in Hq. destruct Hq as [_ Hq]. apply negb_true_iff in Hq. destruct (seteq q cd) eqn:Eq; [|reflexivity].
      rewrite (kmem_ext _ q cd Eq) in Hq. apply kget_None in Hq. congruence. }
    apply kget_Some in Eg. destruct Eg as (s' & Hin & Es'). exists s'. split; [exact Hin|]. rewrite seteq_sym in Es'. apply seteq_spec, Es'.
  Qed.
End Repeat.
Print Assumptions C14_repeated.

Example C14_repeated_case : exists st st', toy_reachable toy_db st /\ In [2] (map fst (ct st)) /\
  ct st = [([1], [0;1;2;5]); ([2], [0;1;2;5]); ([3], [0;3;5]); ([4], [2;3;5])] /\
  update toy_total Nat.ltb toy_ord (fun l => l) false st [2] = Ret st' /\ In ([2], []) (ct st').
Proof.
  exists (prefit toy_ord (vertical toy_db) [] 99); eexists.
  split; [apply (after_prefit toy_total Nat.ltb toy_ord (fun l => l) toy_gain (fun _ => true) (fun a b => b <=? a) (fun c => c) (Trans toy_db) [] 99)|].
  split; [vm_compute; tauto|]. split; [vm_compute; reflexivity|]. split; [vm_compute; reflexivity|]. vm_compute. tauto.
Qed.
