(* C39: occurrence times and corrections of a pattern determine each other.
   C40: a simple cycle reproduces its occurrences. *)
From Verif Require Import Prelude CheckModel LCMModel TextModel SplitModel PeriodModel TreeModel PropPeriod TreeProofs.
From Coq Require Import NArith.
Local Open Scope Z_scope.

Section TreeTheorems.
  Context {A : Type}.
  Lemma rrefs_first (t : tree A) : wf t -> In (first t, None) (rrefs t).
  Proof.
    induction t as [n e|n r p ch IH] using tree_ind'; intros Hw; [left; reflexivity|].
    inversion Hw as [|? ? ? ? Hr [c0 [l ->]] Hch]; subst; inversion IH as [|? ? Hc _]; inversion Hch as [|? ? Hwc _]; subst.
    apply In_rrefs_node; exists O, O, c0, 0, (first c0), None; repeat split; [lia | apply Hc, Hwc].
  Qed.
  Lemma events_leafs (t : tree A) : events_minor t true = map (fun qx => snd (snd qx)) (leafs t).
  Proof.
    induction t as [n e|n r p ch IH] using tree_ind'; [reflexivity|].
    cbn [events_minor leafs]; rewrite concat_map, map_map.
    assert (Hrow : forall i, map (fun qx => snd (snd qx)) (concat (mapi (fun ni (cd : tree A * Z) =>
        map (fun qx => ((ni, i) :: fst qx, snd qx)) (leafs (fst cd))) 0 ch)) = concat (map (fun cd => events_minor (fst cd) true) ch)).
    { intros i; rewrite concat_map, map_mapi; f_equal; generalize 0%nat; induction IH as [|[c d] l Hc Hl IHl]; intros k; simpl; [reflexivity|].
      rewrite IHl, map_map; f_equal; symmetry; exact Hc. }
    rewrite (map_ext _ (fun _ => concat (map (fun cd => events_minor (fst cd) true) ch)) Hrow).
    f_equal; generalize 0%nat; induction r as [|r IHr]; intros k; simpl; [reflexivity | f_equal; apply IHr].
  Qed.
  Lemma events_length (t : tree A) : length (events_minor t true) = nb_occs t.
  Proof.
    induction t as [n e|n r p ch IH] using tree_ind'; [reflexivity|]; cbn [events_minor nb_occs].
    assert (Hl : length (concat (map (fun cd => events_minor (fst cd) true) ch)) = list_sum (map (fun cd => nb_occs (fst cd)) ch)).
    { induction IH as [|[c d] l Hc Hl IHl]; simpl; [reflexivity|]; rewrite app_length, IHl; f_equal; exact Hc. }
    rewrite <- Hl; clear; induction r as [|r IHr]; simpl; [reflexivity|]; rewrite app_length, IHr; reflexivity.
  Qed.
  Lemma leaves_length (t : tree A) : length (leaves t) = nb_occs t.
  Proof. rewrite <- events_length, events_leafs; unfold leaves; rewrite !map_length; reflexivity. Qed.
  Lemma choose {P V} `{EqDec P} (L : list P) : NoDup L -> forall xs : list V, length xs = length L -> exists F : P -> option V, map F L = map Some xs.
  Proof.
    intros Hn; induction Hn as [|x L Hx Hn IH]; intros [|v xs] Hl; try discriminate; [exists (fun _ => None); reflexivity|].
    destruct (IH xs ltac:(simpl in Hl; lia)) as [F HF]; exists (fun y => if eqd y x then Some v else F y); simpl; rewrite eqd_refl; f_equal.
    rewrite <- HF; apply map_ext_in; intros y Hy; destruct (eqd y x) eqn:E; [apply (proj1 (eqd_true _ _)) in E; subst; contradiction | reflexivity].
  Qed.
  Lemma choose_Z (L : list npos) : NoDup L -> forall xs : list Z, length xs = length L -> exists F : npos -> Z, map F L = xs.
  Proof.
    intros Hn xs Hl; destruct (choose L Hn xs Hl) as [F HF]; exists (fun q => match F q with Some v => v | None => 0 end).
    clear -HF; revert xs HF; induction L as [|q L IH]; intros [|x xs] HF; try discriminate; simpl in *; [reflexivity|].
    injection HF as E1 E2; rewrite E1; f_equal; apply IH, E2.
  Qed.
  Lemma combine_map {P K V} (f : P -> K) (g : P -> V) L : combine (map f L) (map g L) = map (fun q => (f q, g q)) L.
  Proof. induction L as [|x L IH]; simpl; [reflexivity | rewrite IH; reflexivity]. Qed.
  Lemma keys_NoDup (t : tree A) : NoDup (map key (leaves t)).
  Proof. apply NoDup_map_inj'; [apply key_inj | apply leaves_NoDup]. Qed.
  Lemma star_spec (t : tree A) : occs_star t = map (fun qx => (off (fst qx) t, snd (snd qx), key (fst qx))) (leafs t).
  Proof. unfold occs_star; rewrite expand_spec; apply map_ext; intros qx; reflexivity. Qed.
  Lemma star_ids (t : tree A) : map snd (occs_star t) = map key (leaves t).
  Proof. rewrite star_spec; unfold leaves; rewrite !map_map; reflexivity. Qed.
  Lemma pairs_of_map (l : list (Z * Z)) : pairs_of (map (fun p => [fst p; snd p]) l) = Some l.
  Proof. induction l as [|[a b] l IH]; simpl; [reflexivity | rewrite IH; reflexivity]. Qed.
  Lemma sum_opt_Some l : sum_opt (map Some l) = Some (zsum l).
  Proof. induction l as [|x l IH]; simpl; [reflexivity | rewrite IH; reflexivity]. Qed.
  Lemma all_some_map {B C} (f : B -> C) l : all_some (map (fun x => Some (f x)) l) = Some (map f l).
  Proof. induction l as [|x l IH]; simpl; [reflexivity | rewrite IH; reflexivity]. Qed.
  Lemma ccorr_spec (t : tree A) F q : wf t -> In q (leaves t) ->
    get_ccorr t (key q) (map (fun q => (key q, F q)) (leaves t)) = Some (F q + Ssum F q t).
  Proof.
    intros Hw Hq; unfold get_ccorr, key at 1; rewrite C36_round_trip, pairs_of_map.
    apply In_leaves in Hq as Hp; destruct Hp as [n [e Hp]].
    destruct (gather_spec t Hw q [] t (Leaf n e) (path_nil t) Hp) as [ks [K1 [K2 K3]]].
    cbn [app] in K1; rewrite K1; change (gather t (rev (zpos []))) with (@nil (option text)); rewrite app_nil_r, map_map.
    specialize (K3 F); cbn [app] in K3; change (fun s => F s) with F in K3; rewrite <- K3.
    rewrite (dget_combine key (leaves t) F q (keys_NoDup t) Hq).
    assert (Hks : map (fun k => dget (map (fun q => (key q, F q)) (leaves t)) (key k)) ks = map Some (map F ks)).
    { rewrite map_map; apply map_ext_in; intros k Hk; apply (dget_combine key (leaves t) F k (keys_NoDup t)), K2, Hk. }
    rewrite Hks; cbn [sum_opt]; rewrite sum_opt_Some; reflexivity.
  Qed.
  Lemma cov_spec (t : tree A) t0 E F : wf t -> map F (leaves t) = 0 :: E ->
    get_cov_seq t t0 E = Some (map (fun qx => (t0 + W F (fst qx) t, snd (snd qx))) (leafs t)).
  Proof.
    intros Hw HF; unfold get_cov_seq, get_EDict.
    assert (Hlen : length (occs_star t) = S (length E)).
    { rewrite star_spec, map_length; assert (H1 := f_equal (@length Z) HF); unfold leaves in H1; rewrite !map_length in H1; exact H1. }
    rewrite Hlen; simpl (S (length E) - 1)%nat; rewrite Nat.sub_0_r, Nat.leb_refl, firstn_all, <- HF, star_ids, combine_map.
    rewrite dict_of_NoDup by (rewrite map_map; cbn [fst]; apply keys_NoDup).
    rewrite star_spec, map_map; rewrite <- all_some_map; f_equal; apply map_ext_in; intros [q x] Hin; cbn [fst snd].
    rewrite ccorr_spec; [|exact Hw | unfold leaves; apply (in_map fst) in Hin; exact Hin].
    cbn [option_map]; unfold W; do 2 f_equal; ring.
  Qed.
  Lemma edict_spec (t : tree A) (O : npos -> Z) : wf t ->
    exists t0, compute_edict t (map (fun q => (key q, O q)) (leaves t)) =
      Some (map (fun qo => (key (fst qo), match snd qo with Some (s, d) => O (fst qo) - O s - d | None => 0 end)) (rrefs t), t0).
  Proof.
    intros Hw; unfold compute_edict, refs_dict; rewrite (occs_refs_spec t Hw [] RootRef 0); cbn [snd].
    assert (Hent : map (entry [] RootRef 0) (rrefs t) = map (fun qo => (key (fst qo), match snd qo with Some (s, d) => (KeyRef (key s), d) | None => (RootRef, 0) end)) (rrefs t)).
    { apply map_ext; intros qo; reflexivity. }
    assert (Hk : NoDup (map key (map fst (rrefs t)))) by (rewrite rrefs_leaves; apply keys_NoDup).
    rewrite Hent, dict_of_NoDup by (rewrite map_map; cbn [fst]; rewrite <- (map_map fst key); exact Hk).
    set (occs := map (fun q => (key q, O q)) (leaves t)).
    assert (Hget : forall q, In q (leaves t) -> dget occs (key q) = Some (O q)) by (intros q Hq; apply (dget_combine key (leaves t) O q (keys_NoDup t) Hq)).
    assert (Hall : forall q o, In (q, o) (rrefs t) -> In q (leaves t) /\ match o with Some (s, d) => In s (leaves t) | None => True end).
    { intros q o Hin; split; [rewrite <- rrefs_leaves; apply (in_map fst) in Hin; exact Hin|].
      destruct o as [[s d]|]; [|exact I]; apply (rrefs_W t Hw (fun _ => 0)) in Hin; apply Hin. }
    enough (G : forall rr Ed t0, (forall q o, In (q, o) rr -> In (q, o) (rrefs t)) -> NoDup (map fst Ed ++ map key (map fst rr)) ->
      exists t1, edict_loop (map (fun qo => (key (fst qo), match snd qo with Some (s, d) => (KeyRef (key s), d) | None => (RootRef, 0) end)) rr) occs Ed t0 =
        Some (Ed ++ map (fun qo => (key (fst qo), match snd qo with Some (s, d) => O (fst qo) - O s - d | None => 0 end)) rr, t1)).
    { apply (G (rrefs t) [] 0); auto. }
    induction rr as [|[q o] rr IH]; intros Ed t0 Hin Hn; [exists t0; simpl; rewrite app_nil_r; reflexivity|].
    destruct (Hall q o (Hin q o (or_introl eq_refl))) as [Hq Ho]; cbn [map edict_loop fst snd]; rewrite (Hget q Hq).
    cbn [map fst] in Hn; apply NoDup_remove in Hn as Hn'; destruct Hn' as [_ Hnew].
    assert (Hset : forall v, dset Ed (key q) v = Ed ++ [(key q, v)]) by (intros v; apply dset_new; intros H; apply Hnew, in_or_app; left; exact H).
    destruct o as [[s d]|].
    - rewrite (Hget s Ho), Hset; destruct (IH (Ed ++ [(key q, O q - O s - d)]) t0) as [t1 Ht1].
      + intros q' o' H'; apply Hin; right; exact H'.
      + rewrite map_app, <- app_assoc; exact Hn.
      + exists t1; rewrite Ht1, <- app_assoc; reflexivity.
    - rewrite Hset; destruct (IH (Ed ++ [(key q, 0)]) (O q)) as [t1 Ht1].
      + intros q' o' H'; apply Hin; right; exact H'.
      + rewrite map_app, <- app_assoc; exact Hn.
      + exists t1; rewrite Ht1, <- app_assoc; reflexivity.
  Qed.
  Lemma lookup_all_map {P} (f : P -> text) (F : P -> Z) ps qs : NoDup (map f ps) -> incl qs ps ->
    lookup_all (map (fun p => (f p, F p)) ps) (map f qs) = Some (map F qs).
  Proof.
    intros Hn; induction qs as [|q qs IH]; intros Hi; simpl; [reflexivity|].
    rewrite (dget_combine f ps F q Hn) by (apply Hi; left; reflexivity).
    rewrite IH by (intros x Hx; apply Hi; right; exact Hx); reflexivity.
  Qed.
  (* computeEFromO as a function on positions *)
  Lemma EfromO_spec (t : tree A) (O : npos -> Z) : wf t -> exists Ec : npos -> Z,
    (forall q o, In (q, o) (rrefs t) -> Ec q = match o with Some (s, d) => O q - O s - d | None => 0 end) /\
    compute_E_from_O t (map O (leaves t)) = Some (map Ec (tl (leaves t))).
  Proof.
    intros Hw; set (G := fun qo : npos * option (npos * Z) => match snd qo with Some (s, d) => O (fst qo) - O s - d | None => 0 end).
    destruct (choose_Z (leaves t) (leaves_NoDup t) (map G (rrefs t))) as [Ec HEc].
    { rewrite map_length, <- rrefs_leaves, map_length; reflexivity. }
    assert (Hpt : forall qo, In qo (rrefs t) -> Ec (fst qo) = G qo).
    { rewrite <- rrefs_leaves, map_map in HEc; clear -HEc; induction (rrefs t) as [|x l IH]; intros qo Hin; [destruct Hin|].
      simpl in HEc; injection HEc as E1 E2; destruct Hin as [<-|Hin]; [exact E1 | apply IH; assumption]. }
    exists Ec; split; [intros q o Hin; exact (Hpt (q, o) Hin)|].
    unfold compute_E_from_O; rewrite star_ids, combine_map, dict_of_NoDup by (rewrite map_map; cbn [fst]; apply keys_NoDup).
    destruct (edict_spec t O Hw) as [t0 ->].
    rewrite (map_ext_in _ (fun qo => (key (fst qo), Ec (fst qo)))) by (intros qo Hin; rewrite (Hpt qo Hin); reflexivity).
    rewrite <- (map_map fst (fun q => (key q, Ec q))), rrefs_leaves.
    assert (Htl : tl (map key (leaves t)) = map key (tl (leaves t))) by (destruct (leaves t); reflexivity).
    rewrite Htl; apply lookup_all_map; [apply keys_NoDup|]; intros x Hx; destruct (leaves t); [destruct Hx | right; exact Hx].
  Qed.
  Lemma W_first (t : tree A) F : wf t -> W F (first t) t = F (first t).
  Proof. intros Hw; destruct (first_zero t Hw) as [F1 F2]; unfold W; rewrite F1, F2; ring. Qed.
  Lemma cov_times (t : tree A) (f : npos -> Z) : map (fun qx => (f (fst qx), snd (snd qx))) (leafs t) = combine (map f (leaves t)) (events_minor t true).
  Proof. rewrite events_leafs; unfold leaves; rewrite map_map, combine_map; reflexivity. Qed.

  Theorem C39_times : forall (t : tree A) occs, wf t -> length occs = nb_occs t ->
    exists E, compute_E_from_O t occs = Some E /\ length E = (nb_occs t - 1)%nat /\
      get_cov_seq t (hd 0 occs) E = Some (combine occs (events_minor t true)).
  Proof.
    intros t occs Hw Hl; destruct (choose_Z (leaves t) (leaves_NoDup t) occs) as [O HO]; [rewrite leaves_length; exact Hl|].
    destruct (EfromO_spec t O Hw) as [Ec [H1 H2]]; rewrite HO in H2; exists (map Ec (tl (leaves t))); split; [exact H2|].
    split; [rewrite map_length, <- leaves_length; destruct (leaves t); simpl; lia|].
    destruct (leaves_first t Hw) as [L HL].
    assert (Hz : map Ec (leaves t) = 0 :: map Ec (tl (leaves t))).
    { rewrite HL; simpl; f_equal; apply (H1 (first t) None), rrefs_first, Hw. }
    rewrite (cov_spec t _ _ Ec Hw Hz), (cov_times t (fun q => hd 0 occs + W Ec q t)); do 2 f_equal.
    rewrite <- HO; apply map_ext_in; intros q Hq.
    assert (HD : W Ec q t - O q = W Ec (first t) t - O (first t)).
    { apply (rrefs_connected t Hw (fun q => W Ec q t - O q)); [|exact Hq]; intros q' s d Hin.
      destruct (rrefs_W t Hw Ec q' s d Hin) as [_ HW]; rewrite (H1 q' (Some (s, d)) Hin) in HW; lia. }
    rewrite (W_first t Ec Hw), (H1 (first t) None (rrefs_first t Hw)) in HD; rewrite HL; simpl; lia.
  Qed.
  Theorem C39_corrections : forall (t : tree A) t0 E, wf t -> length E = (nb_occs t - 1)%nat ->
    exists occs, get_cov_seq t t0 E = Some (combine occs (events_minor t true)) /\ length occs = nb_occs t /\ hd 0 occs = t0 /\
      compute_E_from_O t occs = Some E.
  Proof.
    intros t t0 E Hw Hl; destruct (leaves_first t Hw) as [L HL].
    assert (Hn : nb_occs t = S (length L)) by (rewrite <- leaves_length, HL; reflexivity).
    destruct (choose_Z (leaves t) (leaves_NoDup t) (0 :: E)) as [F HF]; [rewrite HL; simpl; lia|].
    exists (map (fun q => t0 + W F q t) (leaves t)).
    assert (HF0 : F (first t) = 0) by (rewrite HL in HF; simpl in HF; injection HF; auto).
    split; [rewrite (cov_spec t _ _ F Hw HF), (cov_times t (fun q => t0 + W F q t)); reflexivity|].
    split; [rewrite map_length, leaves_length; reflexivity|]; split.
    { rewrite HL; simpl; rewrite (W_first t F Hw), HF0; ring. }
    destruct (EfromO_spec t (fun q => t0 + W F q t) Hw) as [Ec [H1 H2]]; rewrite H2; f_equal.
    assert (HE : E = map F (tl (leaves t))) by (rewrite HL in *; simpl in HF |- *; injection HF; auto).
    rewrite HE; apply map_ext_in; intros q Hq.
    assert (Hq' : In q (leaves t)) by (destruct (leaves t); [destruct Hq | right; exact Hq]).
    rewrite <- rrefs_leaves in Hq'; apply in_map_iff in Hq'; destruct Hq' as [[q' o] [Eq Hin]]; simpl in Eq; subst q'.
    rewrite (H1 q o Hin); destruct o as [[s d]|].
    - destruct (rrefs_W t Hw F q s d Hin) as [_ HW]; lia.
    - apply (rrefs_None t Hw) in Hin; subst q; symmetry; exact HF0.
  Qed.
  (* the number of occurrences and their events *)
  Theorem C39_counts : forall t : tree A, length (occs_star t) = nb_occs t /\ map (fun o => snd (fst o)) (occs_star t) = events_minor t true.
  Proof.
    intros t; rewrite star_spec, map_map, map_length; cbn [fst snd]; split; [|symmetry; apply events_leafs].
    rewrite <- leaves_length; unfold leaves; rewrite map_length; reflexivity.
  Qed.

  (* ============================================================ C40 simple cycles *)
  Lemma simple_wf (a : A) r p : (1 <= r)%nat -> wf (simple_tree a r p).
  Proof. intros Hr; constructor; [exact Hr | eexists; eexists; reflexivity | repeat constructor]. Qed.
  Lemma simple_nb (a : A) r p : nb_occs (simple_tree a r p) = r.
  Proof. simpl; lia. Qed.
  Lemma simple_events (a : A) r p : events_minor (simple_tree a r p) true = repeat a r.
  Proof. simpl; induction r as [|r IH]; simpl; [reflexivity | rewrite IH; reflexivity]. Qed.
  Definition pt (i : nat) : npos := [(O, i)].
  Lemma simple_rrefs (a : A) r p : rrefs (simple_tree a r p) =
    map (fun i => (pt i, match i with O => None | S i' => Some (pt i', p) end)) (List.seq 0 r).
  Proof.
    cbn [simple_tree rrefs mapi concat map fst snd link]; induction (List.seq 0 r) as [|i l IH]; [reflexivity|].
    cbn [map concat] in *; rewrite IH; destruct i; reflexivity.
  Qed.
  Lemma diffs_seq : forall l : list Z, diffs l = map (fun i => nth (S i) l 0 - nth i l 0) (List.seq 0 (length l - 1)).
  Proof.
    induction l as [|x [|y l] IH]; [reflexivity | reflexivity|]; simpl (length (x :: y :: l) - 1)%nat.
    change (diffs (x :: y :: l)) with ((y - x) :: diffs (y :: l)); rewrite IH; cbn [List.seq map nth]; f_equal.
    simpl (length (y :: l) - 1)%nat; rewrite Nat.sub_0_r, <- seq_shift, map_map; reflexivity.
  Qed.
  Theorem C40_simple_cycle : forall (a : A) occs p, (1 <= length occs)%nat ->
    let t := simple_tree a (length occs) p in
    let E := compute_E occs p in
    (forall i, (i + 1 < length occs)%nat -> nth i E 0 = nth (i + 1) occs 0 - nth i occs 0 - p) /\ length E = (length occs - 1)%nat /\
    compute_E_from_O t occs = Some E /\
    get_cov_seq t (hd 0 occs) E = Some (map (fun o => (o, a)) occs).
  Proof.
    intros a occs p Hl t E.
    assert (HE : E = map (fun i => nth (S i) occs 0 - nth i occs 0 - p) (List.seq 0 (length occs - 1))).
    { unfold E, compute_E; rewrite diffs_seq, map_map; reflexivity. }
    split; [|split; [rewrite HE, map_length, seq_length; reflexivity|]].
    - intros i Hi; rewrite HE.
      rewrite (nth_indep _ 0 (nth 1 occs 0 - nth 0 occs 0 - p)) by (rewrite map_length, seq_length; lia).
      change (nth 1 occs 0 - nth 0 occs 0 - p) with ((fun i => nth (S i) occs 0 - nth i occs 0 - p) O).
      rewrite map_nth, seq_nth, Nat.add_0_l, Nat.add_1_r by lia; reflexivity.
    - assert (Hw : wf t) by (apply simple_wf, Hl).
      assert (Hco : compute_E_from_O t occs = Some E).
      { assert (Hlv : leaves t = map pt (List.seq 0 (length occs))).
        { rewrite <- rrefs_leaves; unfold t; rewrite simple_rrefs, map_map; apply map_ext; reflexivity. }
        set (O := fun q : npos => match q with [(_, i)] => nth i occs 0 | _ => 0 end).
        assert (HO : map O (leaves t) = occs).
        { rewrite Hlv, map_map; unfold O, pt; clear; induction occs as [|x occs IH]; [reflexivity|].
          cbn [length List.seq map nth]; f_equal; rewrite <- seq_shift, map_map; exact IH. }
        destruct (EfromO_spec t O Hw) as [Ec [H1 H2]]; rewrite HO in H2; rewrite H2, HE; f_equal.
        rewrite Hlv; destruct (length occs) as [|n]; [lia|]; cbn [List.seq map tl]; rewrite <- seq_shift, !map_map.
        simpl (S n - 1)%nat; rewrite Nat.sub_0_r; apply map_ext_in; intros i Hi; apply in_seq in Hi.
        rewrite (H1 (pt (S i)) (Some (pt i, p))); [reflexivity|].
        unfold t; rewrite simple_rrefs; apply in_map_iff; exists (S i); split; [reflexivity | apply in_seq; lia]. }
      split; [exact Hco|].
      destruct (C39_times t occs Hw) as [E' [H1 [_ H3]]]; [unfold t; rewrite simple_nb; reflexivity|].
      rewrite Hco in H1; injection H1 as <-; rewrite H3; unfold t; rewrite simple_events; f_equal; clear.
      induction occs as [|o occs IH]; simpl; [reflexivity | rewrite IH; reflexivity].
  Qed.
End TreeTheorems.
(* the period is a median of the differences: at most half of them are below it, at most half above *)
Lemma sorted_nth (s : list Z) : StronglySorted (le_rel Z.leb) s -> forall i j, (i <= j < length s)%nat -> nth i s 0 <= nth j s 0.
Proof.
  induction 1 as [|x s Hs IH Hx]; intros i j Hij; simpl in *; [lia|].
  destruct j as [|j]; [destruct i; [lia | lia]|]; destruct i as [|i].
  - rewrite Forall_forall in Hx; apply Z.leb_le, Hx, nth_In; lia.
  - apply IH; lia.
Qed.
Lemma filter_firstn_skipn {B} (f : B -> bool) k l : length (filter f l) = (length (filter f (firstn k l)) + length (filter f (skipn k l)))%nat.
Proof. rewrite <- (firstn_skipn k l) at 1; rewrite filter_app, app_length; reflexivity. Qed.
Lemma filter_le {B} (f : B -> bool) l : (length (filter f l) <= length l)%nat.
Proof. induction l as [|x l IH]; simpl; [lia|]; destruct (f x); simpl; lia. Qed.
Lemma filter_none {B} (f : B -> bool) l : (forall x, In x l -> f x = false) -> filter f l = [].
Proof. induction l as [|x l IH]; intros Hf; simpl; [reflexivity|]; rewrite Hf by (left; reflexivity); apply IH; intros y Hy; apply Hf; right; exact Hy. Qed.
Lemma period_bounds ds p : period_diffs ds = Some p -> ds <> [] /\
  nth ((length ds - 1) / 2) (sort Z.leb ds) 0 <= p <= nth (length ds / 2) (sort Z.leb ds) 0.
Proof.
  unfold period_diffs; rewrite (length_sort Z.leb ds); intros E.
  assert (Hss : StronglySorted (le_rel Z.leb) (sort Z.leb ds)).
  { apply sort_sorted; [intros x y; rewrite !Z.leb_le; lia | intros x y z; rewrite !Z.leb_le; lia]. }
  assert (Hlen := length_sort Z.leb ds).
  set (n := length ds) in *; set (s := sort Z.leb ds) in *; clearbody s.
  destruct ds as [|d0 ds0]; [discriminate|]; split; [discriminate|].
  assert (Hn : (0 < n)%nat) by (unfold n; simpl; lia); clearbody n.
  assert (Hd := Nat.div_mod n 2 ltac:(lia)); assert (Hm := Nat.mod_upper_bound n 2 ltac:(lia)).
  assert (E0 : forall a b : Z, Some a = Some b -> a = b) by (intros a b Hab; congruence); apply E0 in E; clear E0; destruct (Nat.even n) eqn:Ev.
  - apply Nat.even_spec in Ev; destruct Ev as [k Hk].
    assert (E1 : (n / 2 = k)%nat) by (rewrite Hk, Nat.mul_comm; apply Nat.div_mul; lia).
    assert (E2 : ((n - 1) / 2 = k - 1)%nat).
    { symmetry; apply (Nat.div_unique (n - 1) 2 (k - 1) 1); lia. }
    rewrite E1 in *; rewrite E2.
    assert (Hle : nth (k - 1) s 0 <= nth k s 0) by (apply sorted_nth; [exact Hss | lia]).
    rewrite <- E; split; [apply Z.div_le_lower_bound; lia | apply Z.div_le_upper_bound; lia].
  - assert (Ho : Nat.odd n = true) by (unfold Nat.odd; rewrite Ev; reflexivity).
    apply Nat.odd_spec in Ho; destruct Ho as [k Hk].
    assert (E1 : (n / 2 = k)%nat) by (symmetry; apply (Nat.div_unique n 2 k 1); lia).
    assert (E2 : ((n - 1) / 2 = k)%nat) by (symmetry; apply (Nat.div_unique (n - 1) 2 k 0); lia).
    rewrite E1 in *; rewrite E2; lia.
Qed.
Theorem C40_median : forall occs, ((2 <= length occs)%nat -> compute_period occs <> None) /\
  forall p, compute_period occs = Some p -> let d := diffs occs in
    (2 * length (filter (fun x => Z.ltb x p) d) <= length d)%nat /\ (2 * length (filter (fun x => Z.ltb p x) d) <= length d)%nat.
Proof.
  intros occs; split.
  - destruct occs as [|x [|y l]]; simpl; try lia; discriminate.
  - intros p E; cbv zeta; unfold compute_period in E; apply period_bounds in E; destruct E as [Hne [B1 B2]].
    set (ds := diffs occs) in *; set (s := sort Z.leb ds) in *; set (n := length ds) in *.
    assert (Hss : StronglySorted (le_rel Z.leb) s).
    { apply sort_sorted; [intros x y; rewrite !Z.leb_le; lia | intros x y z; rewrite !Z.leb_le; lia]. }
    assert (Hp : Permutation s ds) by apply sort_perm.
    assert (Hlen : length s = n) by (apply Permutation_length, Hp).
    assert (Hn : (0 < n)%nat) by (unfold n; destruct ds; [congruence | simpl; lia]).
    assert (Hf : forall f, length (filter f ds) = length (filter f s)) by (intros f; apply Permutation_length, Permutation_filter; symmetry; exact Hp).
    assert (Hd := Nat.div_mod n 2 ltac:(lia)); assert (Hm := Nat.mod_upper_bound n 2 ltac:(lia)).
    assert (Hd' := Nat.div_mod (n - 1) 2 ltac:(lia)); assert (Hm' := Nat.mod_upper_bound (n - 1) 2 ltac:(lia)).
    rewrite !Hf; split.
    + rewrite (filter_firstn_skipn _ (n / 2) s), (filter_none _ (skipn (n / 2) s)).
      * pose proof (filter_le (fun x => Z.ltb x p) (firstn (n / 2) s)) as Hle; rewrite firstn_length in Hle; simpl (length []); lia.
      * intros x Hx; apply (In_nth _ _ 0) in Hx; destruct Hx as [k [Hk Ek]]; rewrite skipn_length in Hk.
        assert (Ek' : nth (n / 2 + k) s 0 = x).
        { rewrite <- Ek, <- (firstn_skipn (n / 2) s) at 1; rewrite app_nth2; rewrite firstn_length; [f_equal; lia | lia]. }
        apply Z.ltb_ge; rewrite <- Ek'; etransitivity; [exact B2|]; apply sorted_nth; [exact Hss | lia].
    + rewrite (filter_firstn_skipn _ (S ((n - 1) / 2)) s), (filter_none _ (firstn (S ((n - 1) / 2)) s)).
      * pose proof (filter_le (fun x => Z.ltb p x) (skipn (S ((n - 1) / 2)) s)) as Hle; rewrite skipn_length in Hle; simpl (length []); lia.
      * intros x Hx; apply (In_nth _ _ 0) in Hx; destruct Hx as [k [Hk Ek]]; rewrite firstn_length in Hk.
        assert (Ek' : nth k s 0 = x).
        { rewrite <- Ek, <- (firstn_skipn (S ((n - 1) / 2)) s) at 1; rewrite app_nth1; [reflexivity | rewrite firstn_length; lia]. }
        apply Z.ltb_ge; rewrite <- Ek'; etransitivity; [|exact B1]; apply sorted_nth; [exact Hss | lia].
Qed.
Print Assumptions C40_median.
Example C40_case : compute_period [3; 13; 24; 33; 45] = Some 10 /\ compute_E [3; 13; 24; 33; 45] 10 = [0; 1; -1; 2] /\
  get_cov_seq (simple_tree 6%nat 5 10) 3 [0; 1; -1; 2] = Some (combine [3; 13; 24; 33; 45] (repeat 6%nat 5)).
Proof. split; [|split]; vm_compute; reflexivity. Qed.
Print Assumptions C39_times.
Print Assumptions C39_corrections.
Print Assumptions C39_counts.
Print Assumptions C40_simple_cycle.

(* two repetitions of the block: a, then three d after 2, then b after 5 *)
Definition demo_tree : tree nat := Node 0 2 50 [(Leaf 1 7%nat, 0); (Node 2 3 4 [(Leaf 3 8%nat, 0)], 2); (Leaf 4 9%nat, 5)].
Example demo_wf : wf demo_tree.
Proof.
  constructor; [lia | eexists; eexists; reflexivity|].
  repeat constructor; eexists; eexists; reflexivity.
Qed.
Example C39_case : wf demo_tree /\ nb_occs demo_tree = 10%nat /\
  get_cov_seq demo_tree 100 [1; 0; -1; 2; 3; 0; 0; 1; 0] =
    Some (combine [100; 103; 107; 110; 110; 153; 155; 159; 164; 160] [7; 8; 8; 8; 9; 7; 8; 8; 8; 9]%nat).
Proof. split; [apply demo_wf|]; split; vm_compute; reflexivity. Qed.
