(* C88: mining with complex patterns comes to an end.

   There are finitely many patterns a log leaves room for: the number of leaves is bounded by the
   dated events of one repetition, the depth by the leaves and by the times that come later, and
   repetitions, periods and distances by the times of the log.  The pool holds each of them once, and
   every round but the last adds one. *)
From Verif Require Import Prelude CheckModel LCMModel VerticalProofs TextModel SplitModel ArrayModel PropArray PeriodModel PropPeriod TreeModel TreeProofs PropTree TreeBlock NestModel NestProofs PropNest PropConcat
  FactorModel PropFactor SegModel PropSeg CoverModel PropCover PropTopK CliqueModel PropClique PoolModel PropPool CyclesModel PropCycles FoldModel PropFold MineModel PropMineEvent PropMine
  NestMineModel PropNestMine HorizontalModel PropHorizontal PropHorizontalRun ComplexModel PropComplex.
From Coq Require Import QArith.
Local Open Scope nat_scope.

(* ------------------------------------------------------------ trees *)
Section Trees.
  Context {A : Type}.
  Lemma width_leaves (t : tree A) : tree_width t = length (leaf_events t).
  Proof.
    induction t as [n e|n r p ch IH] using tree_ind'; [reflexivity|]. cbn [tree_width leaf_events]. rewrite Forall_forall in IH.
    induction ch as [|cd ch IHc]; [reflexivity|]. cbn [map list_sum fold_right concat]. rewrite app_length, <- (IH cd (or_introl eq_refl)). unfold list_sum in IHc. rewrite IHc; [reflexivity|]. intros x I. apply IH. right. exact I.
  Qed.
  Lemma renum_like f (t : tree A) : leaf_events (renum f t) = leaf_events t /\ cycles (renum f t) = cycles t /\ dists (renum f t) = dists t /\ tree_depth (renum f t) = tree_depth t.
  Proof.
    induction t as [n e|n r p ch IH] using tree_ind'; [repeat split; reflexivity|]. cbn [renum leaf_events cycles dists tree_depth]. rewrite Forall_forall in IH. rewrite !map_map. cbn [fst snd].
    rewrite !(map_ext_in _ _ _ (fun cd I => proj1 (IH cd I))).
    assert (E : forall X (f g : tree A * Z -> X), (forall cd, In cd ch -> f cd = g cd) -> map f ch = map g ch) by (intros X h g Hg; apply map_ext_in, Hg).
    rewrite (E _ (fun cd => cycles (renum f (fst cd))) (fun cd => cycles (fst cd))) by (intros cd I; apply IH, I). rewrite (E _ (fun cd => snd cd :: dists (renum f (fst cd))) (fun cd => snd cd :: dists (fst cd))) by (intros cd I; f_equal; apply IH, I).
    rewrite (E _ (fun cd => tree_depth (renum f (fst cd))) (fun cd => tree_depth (fst cd))) by (intros cd I; apply IH, I). auto.
  Qed.
  Lemma erase_like (t : tree A) : leaf_events (erase t) = leaf_events t /\ cycles (erase t) = cycles t /\ dists (erase t) = dists t /\ tree_depth (erase t) = tree_depth t /\ nb_occs (erase t) = nb_occs t.
  Proof.
    induction t as [n e|n r p ch IH] using tree_ind'; [repeat split; reflexivity|]. cbn [erase leaf_events cycles dists tree_depth nb_occs]. rewrite Forall_forall in IH. rewrite !map_map. cbn [fst snd].
    rewrite !(map_ext_in _ _ _ (fun cd I => proj1 (IH cd I))).
    assert (E : forall X (f g : tree A * Z -> X), (forall cd, In cd ch -> f cd = g cd) -> map f ch = map g ch) by (intros X h g Hg; apply map_ext_in, Hg).
    rewrite (E _ (fun cd => cycles (erase (fst cd))) (fun cd => cycles (fst cd))) by (intros cd I; apply IH, I). rewrite (E _ (fun cd => snd cd :: dists (erase (fst cd))) (fun cd => snd cd :: dists (fst cd))) by (intros cd I; f_equal; apply IH, I).
    rewrite (E _ (fun cd => tree_depth (erase (fst cd))) (fun cd => tree_depth (fst cd))) by (intros cd I; apply IH, I). rewrite (E _ (fun cd => nb_occs (erase (fst cd))) (fun cd => nb_occs (fst cd))) by (intros cd I; apply IH, I). auto 6.
  Qed.
  Lemma wrap_like outer (t : tree A) : leaf_events (wrap outer t) = leaf_events t /\ cycles (wrap outer t) = map (fun pr => (snd pr, fst pr)) outer ++ cycles t /\
    incl (dists (wrap outer t)) (0%Z :: dists t) /\ tree_depth (wrap outer t) = length outer + tree_depth t.
  Proof.
    induction outer as [|pr outer (H1 & H2 & H3 & H4)]; [repeat split; try reflexivity; intros x; right; assumption|]. cbn [wrap fold_right leaf_events cycles dists tree_depth map fst snd concat length]. fold (wrap outer t).
    rewrite !app_nil_r. split; [exact H1|]. split; [rewrite H2; reflexivity|]. split; [intros x [<-|I]; [left; reflexivity | apply H3, I]|]. cbn [list_max fold_right]. rewrite H4. lia.
  Qed.
  Lemma wf_width (t : tree A) : wf t -> 1 <= tree_width t.
  Proof.
    induction t as [n e|n r p ch IH] using tree_ind'; intros W; [cbn; lia|]. inversion W as [|? ? ? ? _ (c & l & ->) F]; subst. cbn [tree_width map list_sum fold_right fst].
    inversion IH as [|? ? H _]; subst. inversion F as [|? ? W1 _]; subst. specialize (H W1). cbn [fst] in H. lia.
  Qed.
End Trees.

(* ------------------------------------------------------------ lists *)
Lemma nodup_incl {X} (dec : forall x y : X, {x = y} + {x <> y}) l l' : incl l l' -> length (nodup dec l) <= length (nodup dec l').
Proof. intros I. apply NoDup_incl_length; [apply NoDup_nodup|]. intros x H. apply nodup_In, I. apply nodup_In in H. exact H. Qed.
Lemma sorted_NoDup l : StronglySorted Z.lt l -> NoDup l.
Proof. induction 1 as [|x l S IH F]; constructor; [|exact IH]. rewrite Forall_forall in F. intros I. specialize (F x I). lia. Qed.
Lemma evenly_sorted small l : evenly small l -> StronglySorted Z.lt l /\ 3 <= length l.
Proof.
  induction 1 as [a b c L Hs | a b c l L Hs E [IH1 IH2]].
  - split; [repeat constructor; lia | cbn; lia].
  - split; [|cbn [length] in *; lia]. constructor; [exact IH1|]. inversion IH1 as [|? ? S F]; subst. constructor; [lia|]. rewrite Forall_forall in *. intros x I. specialize (F x I). lia.
Qed.
(* times that are close to each other have small differences and periods *)
Section Close.
  Variable W : Z.
  Definition near (l : list Z) : Prop := forall x y, In x l -> In y l -> (Z.abs (x - y) <= W)%Z.
  Lemma near_diffs l : near l -> forall d, In d (diffs l) -> (Z.abs d <= W)%Z.
  Proof.
    induction l as [|a l IH]; intros Hn d I; [destruct I|]. destruct l as [|b l]; [destruct I|]. destruct I as [<-|I]; [apply Hn; cbn; auto|]. apply IH; [|exact I]. intros x y Ix Iy. apply Hn; right; assumption.
  Qed.
  Lemma near_period l p : near l -> compute_period l = Some p -> (Z.abs p <= W)%Z.
  Proof.
    intros Hn E. apply period_bounds in E. destruct E as [Hne [B1 B2]]. set (ds := diffs l) in *.
    assert (H : forall i, i < length ds -> (Z.abs (nth i (sort Z.leb ds) 0) <= W)%Z).
    { intros i L. apply (near_diffs l Hn). fold ds. apply (Permutation_in _ (sort_perm Z.leb ds)). apply nth_In. rewrite (Permutation_length (sort_perm Z.leb ds)). exact L. }
    assert (0 < length ds) by (destruct ds; [congruence | cbn; lia]).
    pose proof (H ((length ds - 1) / 2)%nat) as H1. pose proof (H (length ds / 2)%nat) as H2.
    assert ((length ds - 1) / 2 < length ds) by (apply Nat.div_lt_upper_bound; lia). assert (length ds / 2 < length ds) by (apply Nat.div_lt_upper_bound; lia).
    specialize (H1 ltac:(assumption)). specialize (H2 ltac:(assumption)). lia.
  Qed.
  Lemma near_period_of l p : near l -> period_of l p -> (Z.abs p <= W)%Z.
  Proof.
    intros Hn [(a & b & c & -> & ->)|[_ E]]; [|apply (near_period l p Hn E)]. pose proof (Hn c b ltac:(cbn; auto) ltac:(cbn; auto)). pose proof (Hn b a ltac:(cbn; auto) ltac:(cbn; auto)). lia.
  Qed.
End Close.

(* ------------------------------------------------------------ the room a log leaves *)
Section Room.
  Variable evs : list occ.
  Variable W : Z.
  Hypothesis HW0 : (0 <= W)%Z.
  Hypothesis HW : near W (map fst evs).
  Definition log_times : list Z := nodup Z.eq_dec (map fst evs).
  Notation N := (length log_times).
  Definition later (t : Z) : nat := length (filter (fun x => (t <? x)%Z) log_times).
  Record small_cand (c : ccand nat) : Prop := {
    sm_body : body_ok evs c;
    sm_cycles : forall r p, In (r, p) (cycles (tree_of c)) -> r <= N /\ (Z.abs p <= W)%Z;
    sm_dists : forall d, In d (dists (tree_of c)) -> (Z.abs d <= W)%Z;
    sm_leaves : incl (leaf_events (tree_of c)) (map snd evs);
    sm_width : forall k, k < reps_of c -> tree_width (tree_of c) <= length (nodup eq_dec (repetition c k));
    sm_depth : tree_depth (tree_of c) <= N * tree_width (tree_of c) + 1 + later (hd 0%Z (cc_O c)) }.

  Lemma times_NoDup : NoDup log_times.
  Proof. apply NoDup_nodup. Qed.
  Lemma near_times l : incl l log_times -> near W l.
  Proof. intros I x y Ix Iy. apply HW; apply (nodup_In Z.eq_dec); apply I; assumption. Qed.
  Lemma later_lt t t' : In t' log_times -> (t < t')%Z -> later t' < later t.
  Proof.
    intros I L. unfold later. apply (NoDup_incl_length (l := t' :: filter (fun x => (t' <? x)%Z) log_times)).
    - constructor; [rewrite filter_In, Z.ltb_irrefl; intros [_ X]; discriminate | apply NoDup_filter, times_NoDup].
    - intros x [<-|Ix]; apply filter_In; [split; [exact I | apply Z.ltb_lt, L]|]. apply filter_In in Ix. destruct Ix as [I1 I2]. split; [exact I1|]. apply Z.ltb_lt in I2. apply Z.ltb_lt. lia.
  Qed.
  Lemma later_less t : In t log_times -> later t < N.
  Proof.
    intros I. apply (NoDup_incl_length (l := t :: filter (fun x => (t <? x)%Z) log_times)); [constructor; [rewrite filter_In, Z.ltb_irrefl; intros [_ X]; discriminate | apply NoDup_filter, times_NoDup]|].
    intros x [<-|Ix]; [exact I|]. apply filter_In in Ix. apply Ix.
  Qed.
  Lemma dated_occs (c : ccand nat) : shaped c -> map fst (dated c) = cc_O c.
  Proof.
    intros [_ _ Hl]. unfold dated. assert (E : length (cc_O c) = length (events_minor (tree_of c) true)) by (rewrite events_length; exact Hl). clear Hl. revert E.
    generalize (events_minor (tree_of c) true). induction (cc_O c) as [|o l IH]; intros [|e es] E; try discriminate; [reflexivity|]. cbn [combine map fst]. f_equal. apply IH. injection E as E. exact E.
  Qed.
  Lemma occ_times c : body_ok evs c -> incl (cc_O c) log_times.
  Proof.
    intros B o I. rewrite <- (dated_occs c (bo_shape _ _ B)) in I. apply nodup_In. apply in_map_iff in I. destruct I as (x & <- & I). apply in_map, (bo_events _ _ B), I.
  Qed.
  Lemma start_times c : body_ok evs c -> In (hd 0%Z (cc_O c)) log_times.
  Proof. intros B. apply (occ_times c B). pose proof (shaped_nonempty c (bo_shape _ _ B)). destruct (cc_O c); [congruence | left; reflexivity]. Qed.
  Lemma repetition_incl (c : ccand nat) k : incl (repetition c k) (dated c).
  Proof. intros o I. unfold repetition in I. apply in_firstn in I. eapply in_skipn. exact I. Qed.
  Lemma small_events c : small_cand c -> tree_width (tree_of c) <= length (nodup eq_dec (dated c)).
  Proof.
    intros S. destruct (shaped_block c (bo_shape _ _ (sm_body c S))) as (m & _ & H1 & _). etransitivity; [apply (sm_width c S 0); lia|]. apply nodup_incl, repetition_incl.
  Qed.
  Lemma dated_length (c : ccand nat) : shaped c -> length (dated c) = nb_occs (tree_of c).
  Proof. intros Ss. rewrite (shaped_length c Ss). unfold nb_of. pose proof (sh_nb c Ss) as H. unfold tree_of in *. destruct (cc_P c); [exact H | reflexivity]. Qed.

  (* ---------------------------------------------------------- nested candidates *)
  Section Nested.
    Variable cs : list (ccand nat).
    Variable small : Z -> bool.
    Hypothesis Hcs : forall c, In c cs -> small_cand c.
    Lemma nesting_size outer g : nesting cs small outer g -> length g = product (map snd outer) /\ (forall i, In i g -> exists c, nth_error cs i = Some c) /\ g <> [].
    Proof.
      induction 1 as [i c E|p outer groups Hg IH He Hp].
      - split; [reflexivity|]. split; [intros j [<-|[]]; eauto | discriminate].
      - cbn [map snd product fold_right]. fold (product (map snd outer)). apply evenly_sorted in He. rewrite map_length in He. split; [|split].
        + clear -IH. induction groups as [|g l IHl]; [reflexivity|]. cbn [concat length]. rewrite app_length, (proj1 (IH g (or_introl eq_refl))), IHl; [reflexivity|]. intros x I. apply IH. right. exact I.
        + intros i I. apply in_concat in I. destruct I as (g & I1 & I2). apply (IH g I1), I2.
        + destruct groups as [|g l]; [cbn in He; lia|]. cbn [concat]. destruct (IH g (or_introl eq_refl)) as (_ & _ & X). destruct g; [congruence | discriminate].
    Qed.
    Lemma start_group outer g : nesting cs small outer g -> In (start_of cs g) log_times.
    Proof.
      intros H. destruct (nesting_size _ _ H) as (_ & Hi & Hne). destruct g as [|i g]; [congruence|]. destruct (Hi i (or_introl eq_refl)) as (c & E). cbn [start_of]. rewrite E.
      apply start_times, sm_body, Hcs. eapply nth_error_In. exact E.
    Qed.
    Lemma nesting_levels outer g : nesting cs small outer g -> forall pr, In pr outer -> snd pr <= N /\ (Z.abs (fst pr) <= W)%Z.
    Proof.
      induction 1 as [i c E|p outer groups Hg IH He Hp]; intros pr I; [destruct I|].
      assert (Hst : incl (map (start_of cs) groups) log_times). { intros x Ix. apply in_map_iff in Ix. destruct Ix as (g & <- & Ig). apply (start_group outer), Hg, Ig. }
      pose proof (evenly_sorted _ _ He) as [Hs Hl]. destruct I as [<-|I].
      - cbn [fst snd]. split; [|apply (near_period_of W (map (start_of cs) groups)); [apply near_times, Hst | exact Hp]].
        rewrite <- (map_length (start_of cs)). apply NoDup_incl_length; [apply sorted_NoDup, Hs | exact Hst].
      - destruct groups as [|g l]; [cbn in Hl; lia|]. apply (IH g (or_introl eq_refl) pr I).
    Qed.
    Lemma nesting_depth D K outer g : nesting cs small outer g -> (forall i c, In i g -> nth_error cs i = Some c -> D <= K + later (hd 0%Z (cc_O c))) -> length outer + D <= K + later (start_of cs g).
    Proof.
      induction 1 as [i c E|p outer groups Hg IH He Hp]; intros HD.
      - cbn [length start_of]. rewrite E. apply (HD i c); [left; reflexivity | exact E].
      - pose proof (evenly_sorted _ _ He) as [Hs Hl]. rewrite map_length in Hl. destruct groups as [|g1 [|g2 l]]; try (cbn in Hl; lia). cbn [length].
        pose proof (IH g2 ltac:(cbn; auto)) as H2. rewrite map_cons in Hs. inversion Hs as [|? ? _ F]; subst. rewrite Forall_forall in F. specialize (F (start_of cs g2) ltac:(left; reflexivity)).
        assert (Hst : start_of cs (concat (g1 :: g2 :: l)) = start_of cs g1).
        { destruct (nesting_size _ _ (Hg g1 (or_introl eq_refl))) as (_ & _ & Hne). destruct g1; [congruence | reflexivity]. }
        rewrite Hst. pose proof (later_lt (start_of cs g1) (start_of cs g2) (start_group outer g2 (Hg g2 ltac:(cbn; auto))) F) as L.
        assert (length outer + D <= K + later (start_of cs g2)) by (apply H2; intros i c Ii; apply HD; apply in_concat; exists g2; split; [cbn; auto | exact Ii]). lia.
    Qed.
    (* blocks of the same length *)
    Lemma part_groups {B C} (F : B -> list C) (groups : list B) m k : (forall g, In g groups -> length (F g) = m) -> k < length groups ->
      exists g, In g groups /\ part_of (length groups) (concat (map F groups)) k = F g.
    Proof.
      intros Hm Hk. destruct groups as [|g0 l] eqn:Eg; [cbn in Hk; lia|]. rewrite <- Eg in *. 
      assert (E : concat (map F groups) = concat (map (fun i => F (nth i groups g0)) (List.seq 0 (length groups)))).
      { f_equal. rewrite <- (map_map (fun i => nth i groups g0) F). f_equal. symmetry. clear. apply (nth_ext _ _ g0 g0); rewrite map_length, seq_length; [reflexivity|]. intros i L. rewrite (nth_indep _ _ (nth 0 groups g0)) by (rewrite map_length, seq_length; exact L). rewrite (map_nth (fun i => nth i groups g0)), seq_nth by exact L. reflexivity. }
      exists (nth k groups g0). split; [apply nth_In, Hk|]. rewrite E, (part_concat (length groups) _ m k) by (intros i L; apply Hm, nth_In, L). destruct (Nat.ltb_spec k (length groups)); [reflexivity | lia].
    Qed.
    Lemma nested_small c parts idxs outer c0 : body_ok evs c -> dated c = concat (map dated parts) -> map (nth_error cs) idxs = map Some parts -> hd_error parts = Some c0 ->
      (forall c', In c' parts -> erase (tree_of c') = erase (tree_of c0)) -> erase (tree_of c) = wrap outer (erase (tree_of c0)) -> nesting cs small outer idxs -> small_cand c.
    Proof.
      intros B Hd Hi H0 Hcop Ht Hnest.
      assert (Hparts : forall c', In c' parts -> In c' cs).
      { intros c' I. assert (I' : In (Some c') (map (nth_error cs) idxs)) by (rewrite Hi; apply in_map, I). apply in_map_iff in I'. destruct I' as (i & E & _). eapply nth_error_In. exact E. }
      assert (I0 : In c0 parts) by (destruct parts; [discriminate | injection H0 as ->; left; reflexivity]).
      assert (Hof : forall i, In i idxs -> exists c', nth_error cs i = Some c' /\ In c' parts).
      { intros i I. assert (I' : In (nth_error cs i) (map Some parts)) by (rewrite <- Hi; apply in_map, I). apply in_map_iff in I'. destruct I' as (c' & E & Ic). eauto. }
      pose proof (Hcs c0 (Hparts c0 I0)) as S0.
      destruct (erase_like (tree_of c)) as (L1 & L2 & L3 & L4 & L5). destruct (erase_like (tree_of c0)) as (M1 & M2 & M3 & M4 & M5). destruct (wrap_like outer (erase (tree_of c0))) as (R1 & R2 & R3 & R4). rewrite Ht in *.
      assert (Ew : tree_width (tree_of c) = tree_width (tree_of c0)) by (rewrite !width_leaves, <- L1, R1, M1; reflexivity).
      assert (Hstart : start_of cs idxs = hd 0%Z (cc_O c)).
      { destruct parts as [|c1 parts]; [discriminate|]. injection H0 as ->. destruct idxs as [|i idxs]; [discriminate|]. cbn [map] in Hi. injection Hi as E _. cbn [start_of]. rewrite E.
        rewrite <- (dated_occs c (bo_shape _ _ B)), Hd, <- (dated_occs c0 (bo_shape _ _ (sm_body _ S0))). cbn [map concat]. pose proof (shaped_nonempty c0 (bo_shape _ _ (sm_body _ S0))) as Hne. rewrite <- (dated_occs c0 (bo_shape _ _ (sm_body _ S0))) in Hne.
        destruct (dated c0); [cbn in Hne; congruence | reflexivity]. }
      constructor.
      - exact B.
      - intros r p I. rewrite <- L2, R2 in I. apply in_app_or in I. destruct I as [I|I]; [|rewrite M2 in I; apply (sm_cycles c0 S0 r p I)]. apply in_map_iff in I. destruct I as (pr & E & I). injection E as <- <-. apply (nesting_levels outer idxs Hnest pr I).
      - intros d I. rewrite <- L3 in I. apply R3 in I. destruct I as [<-|I]; [exact HW0|]. rewrite M3 in I. apply (sm_dists c0 S0 d I).
      - rewrite <- L1, R1, M1. apply (sm_leaves c0 S0).
      - intros k Hk. rewrite Ew. inversion Hnest as [i c' Ei|p outer' groups Hg He Hp]; subst.
        + (* one candidate *)
          destruct parts as [|c1 [|c2 parts]]; try discriminate. injection H0 as ->. cbn [map concat] in Hd. rewrite app_nil_r in Hd. cbn [wrap fold_right] in Ht.
          assert (Er : reps_of c = reps_of c0).
          { unfold reps_of. destruct (tree_of c), (tree_of c0); cbn [erase] in Ht; congruence. }
          unfold repetition. rewrite Hd, Er. apply (sm_width c0 S0). rewrite <- Er. exact Hk.
        + assert (Er : reps_of c = length groups).
          { unfold reps_of. cbn [wrap fold_right] in Ht. destruct (tree_of c); cbn [erase] in Ht; [discriminate|]. cbn [snd fst] in Ht. congruence. }
          set (cnd_of := fun i => match nth_error cs i with Some c => c | None => c0 end).
          assert (Ep : parts = map cnd_of (concat groups)).
          { clear -Hi. revert parts Hi. induction (concat groups) as [|i l IH]; intros [|c' parts] Hi; try discriminate; [reflexivity|]. cbn [map] in *. injection Hi as E1 E2. unfold cnd_of at 1. rewrite E1. f_equal. apply IH, E2. }
          set (F := fun g : list nat => concat (map (fun i => dated (cnd_of i)) g)).
          assert (Ed : dated c = concat (map F groups)).
          { rewrite Hd, Ep, map_map. clear. induction groups as [|g l IH]; [reflexivity|]. cbn [concat map]. rewrite map_app, concat_app, IH. reflexivity. }
          assert (HF : forall g, In g groups -> length (F g) = product (map snd outer') * nb_occs (tree_of c0)).
          { intros g Ig. destruct (nesting_size _ _ (Hg g Ig)) as (<- & Hix & _). unfold F. assert (Hl : forall i, In i g -> length (dated (cnd_of i)) = nb_occs (tree_of c0)).
            { intros i Ii. destruct (Hof i) as (c' & E & Ic); [apply in_concat; eauto|]. unfold cnd_of. rewrite E. rewrite dated_length by (apply (bo_shape evs), sm_body, Hcs, Hparts, Ic).
              destruct (erase_like (tree_of c')) as (_ & _ & _ & _ & X). rewrite <- X, (Hcop c' Ic), M5. reflexivity. }
            clear -Hl. induction g as [|i g IH]; [reflexivity|]. cbn [map concat length]. rewrite app_length, (Hl i (or_introl eq_refl)), IH; [reflexivity|]. intros j J. apply Hl. right. exact J. }
          change (repetition c k) with (part_of (reps_of c) (dated c) k). rewrite Er in *. rewrite Ed. destruct (part_groups F groups _ k HF Hk) as (g & Ig & ->).
          destruct (nesting_size _ _ (Hg g Ig)) as (_ & Hix & Hne). destruct g as [|i g]; [congruence|]. destruct (Hof i) as (c' & E & Ic); [apply in_concat; exists (i :: g); split; [exact Ig | left; reflexivity]|].
          assert (Ew' : tree_width (tree_of c') = tree_width (tree_of c0)). { rewrite !width_leaves. destruct (erase_like (tree_of c')) as (X & _). rewrite <- X, (Hcop c' Ic), M1. reflexivity. }
          rewrite <- Ew'. etransitivity; [apply small_events, Hcs, Hparts, Ic|]. apply nodup_incl. unfold F. cbn [map concat]. intros o Io. apply in_or_app. left. unfold cnd_of. rewrite E. exact Io.
      - rewrite <- L4, R4, M4, Ew, <- Hstart. apply (nesting_depth _ _ outer idxs Hnest). intros i c' Ii E. destruct (Hof i Ii) as (c'' & E' & Ic). rewrite E in E'. injection E' as <-.
        pose proof (sm_depth c' (Hcs c' (Hparts c' Ic))) as X. destruct (erase_like (tree_of c')) as (Y1 & _ & _ & Y4 & _). rewrite !width_leaves, <- Y1, <- Y4, (Hcop c' Ic), M1, M4 in X. rewrite width_leaves. exact X.
    Qed.
  End Nested.

  (* ---------------------------------------------------------- factorised candidates *)
  Lemma substitute_from (cost : ccand nat -> option Q) c t c' : cc_P c = Patt t -> shaped c -> NoDup (node_ids t) -> substitute cost c = Ret c' ->
    c' = c \/ exists f, factor_of t (cc_O c) f /\ c' = {| cc_P := Patt (fst (fst f)); cc_O := snd (fst f); cc_E := snd f |}.
  Proof.
    intros EP Ss Hn E. assert (Et : tree_of c = t) by (unfold tree_of; rewrite EP; reflexivity).
    destruct (C46_factorise t (cc_O c) (S (length (node_ids t)))) as (fs & Ef & Hf & _); [rewrite <- Et; apply (sh_wf _ Ss) | exact Hn | rewrite (sh_nb _ Ss), Et; reflexivity | lia|].
    unfold substitute, factors in E. rewrite EP, Ef in E. cbn [bind] in E. set (mk := fun q : @FactorModel.cand nat => _) in E.
    assert (G : forall k x, nth_out (map mk fs) k = Ret x -> exists f, factor_of t (cc_O c) f /\ x = mk f).
    { intros k x Ek. unfold nth_out in Ek. rewrite nth_error_map in Ek. destruct (nth_error fs k) as [f|] eqn:En; [|discriminate]. injection Ek as <-. exists f. split; [|reflexivity]. rewrite Forall_forall in Hf. apply Hf. eapply nth_error_In. exact En. }
    destruct (map mk fs) as [|e1 ext] eqn:Em; [injection E as <-; left; reflexivity|]. destruct (argmin _) as [|k]; [injection E as <-; left; reflexivity|]. right. apply (G k c' E).
  Qed.
  Lemma factored_small c t f : cc_P c = Patt t -> small_cand c -> factor_of t (cc_O c) f -> body_ok evs {| cc_P := Patt (fst (fst f)); cc_O := snd (fst f); cc_E := snd f |} ->
    small_cand {| cc_P := Patt (fst (fst f)); cc_O := snd (fst f); cc_E := snd f |}.
  Proof.
    intros EP S F B. set (c' := {| cc_P := _ |}) in *. assert (Et : tree_of c = t) by (unfold tree_of; rewrite EP; reflexivity). destruct F as [_ _ F3 _ _ F6 _ _ [D1 D2 D3 D4] F10].
    assert (Et' : tree_of c' = fst (fst f)) by reflexivity.
    assert (Ew : tree_width (tree_of c') = tree_width (tree_of c)) by (rewrite !width_leaves, Et, Et', F3; reflexivity).
    destruct (sh_node _ (bo_shape _ _ (sm_body c S))) as (n & r & p & ch & En). rewrite Et in En.
    assert (Er : reps_of c' = reps_of c /\ reps_of c = r). { destruct (D4 n r p ch En) as (ch' & E'). unfold reps_of. rewrite Et, Et', E', En. auto. }
    constructor.
    - exact B.
    - intros r1 p1 I. rewrite Et' in I. apply D2 in I. rewrite <- Et in I. apply (sm_cycles c S _ _ I).
    - intros d I. rewrite Et' in I. apply D3 in I. destruct I as [<-|I]; [exact HW0|]. rewrite <- Et in I. apply (sm_dists c S d I).
    - rewrite Et', F3, <- Et. apply (sm_leaves c S).
    - intros k Hk. rewrite Ew. rewrite (proj1 Er) in Hk. etransitivity; [apply (sm_width c S k Hk)|]. apply nodup_incl. intros o I.
      change (repetition c k) with (part_of (reps_of c) (dated c) k) in I. change (repetition c' k) with (part_of (reps_of c') (dated c') k). rewrite (proj1 Er). rewrite (proj2 Er) in *.
      unfold dated in *. rewrite Et in I. rewrite Et'. apply (Permutation_in o (Permutation_sym (F10 n r p ch k En))). exact I.
    - rewrite Ew. replace (hd 0%Z (cc_O c')) with (hd 0%Z (cc_O c)); [rewrite Et'; etransitivity; [exact D1|]; rewrite <- Et; apply (sm_depth c S)|].
      cbn [c' cc_O]. destruct (snd (fst f)), (cc_O c); cbn in F6; try discriminate; [reflexivity|]. injection F6 as ->. reflexivity.
  Qed.

  (* ---------------------------------------------------------- joined candidates *)
  Lemma kid_facts nm (c : ccand nat) (k : list (tree nat * Z)) : top_kids nm c = Ret k -> (exists n r p ch, tree_of c = Node n r p ch) ->
    concat (map (fun cd => leaf_events (fst cd)) k) = leaf_events (tree_of c) /\ incl (concat (map (fun cd => cycles (fst cd)) k)) (cycles (tree_of c)) /\
    concat (map (fun cd => snd cd :: dists (fst cd)) k) = dists (tree_of c) /\ (forall cd, In cd k -> tree_depth (fst cd) < tree_depth (tree_of c)).
  Proof.
    unfold top_kids, tree_of. intros E (n & r & p & ch & En). destruct (cc_P c) as [e q|t]; [injection E as <-; repeat split; try reflexivity; [intros x [] | intros cd [<-|[]]; cbn; lia]|].
    subst t. injection E as <-. unfold renum_kids. rewrite !map_map. cbn [leaf_events cycles dists tree_depth fst snd].
    assert (X : forall Y (f g : tree nat * Z -> Y), (forall cd, f cd = g cd) -> map f ch = map g ch) by (intros; apply map_ext; assumption).
    split; [f_equal; apply X; intros cd; apply renum_like|]. split; [|split].
    - rewrite (X _ (fun cd => cycles (renum nm (fst cd))) (fun cd => cycles (fst cd))) by (intros cd; apply renum_like). intros x I. right. exact I.
    - f_equal. apply X. intros cd. f_equal. apply renum_like.
    - intros cd I. apply in_map_iff in I. destruct I as (cd' & <- & I). cbn [fst]. destruct (renum_like nm (fst cd')) as (_ & _ & _ & ->). apply Nat.lt_succ_r.
      destruct (list_max_le (map (fun cd : tree nat * Z => tree_depth (fst cd)) ch) (list_max (map (fun cd : tree nat * Z => tree_depth (fst cd)) ch))) as [L _]. specialize (L (Nat.le_refl _)). rewrite Forall_forall in L. apply L. apply in_map_iff. eauto.
  Qed.
  Lemma block_times c f a : body_ok evs c -> head_at (blocks_O c f) 0 = Ret a -> In a log_times.
  Proof.
    intros B E. unfold head_at, nth_out in E. destruct (nth_error (blocks_O c f) 0) as [b|] eqn:Eb; cbn [bind] in E; [|discriminate]. destruct b as [|o b]; [discriminate|]. injection E as <-.
    apply nth_error_In in Eb. unfold blocks_O in Eb. apply in_map_iff in Eb. destruct Eb as (i & Ei & _). apply (occ_times c B). unfold cut in Ei. assert (I : In o (firstn ((i + 1) * (length (cc_O c) / major_r c) - i * (length (cc_O c) / major_r c)) (skipn (i * (length (cc_O c) / major_r c)) (cc_O c)))) by (rewrite Ei; left; reflexivity).
    apply in_firstn in I. eapply in_skipn. exact I.
  Qed.
  Lemma kids_facts nm (l : list (ccand nat * nat)) : (forall cf, In cf l -> small_cand (fst cf)) -> forall ci prev ch,
    (forall pb b, prev = Some pb -> head_at pb 0 = Ret b -> In b log_times) -> concat_kids nm ci prev l = Ret ch ->
    concat (map (fun cd => leaf_events (fst cd)) ch) = concat (map (fun cf => leaf_events (tree_of (fst cf))) l) /\
    (forall x, In x (concat (map (fun cd => cycles (fst cd)) ch)) -> exists cf, In cf l /\ In x (cycles (tree_of (fst cf)))) /\
    (forall d, In d (concat (map (fun cd => snd cd :: dists (fst cd)) ch)) -> (Z.abs d <= W)%Z) /\
    (forall cd, In cd ch -> exists cf, In cf l /\ tree_depth (fst cd) < tree_depth (tree_of (fst cf))).
  Proof.
    induction l as [|[c f] l IH]; intros Hl ci prev ch Hprev E; cbn [concat_kids] in E.
    { injection E as <-. repeat split; try reflexivity; intros x []. }
    pose proof (Hl (c, f) (or_introl eq_refl)) as S. cbn [fst] in S.
    destruct (top_kids (nm ci) c) as [k| |] eqn:Ek; try discriminate. cbn [bind] in E.
    destruct (kid_facts _ _ _ Ek (sh_node _ (bo_shape _ _ (sm_body c S)))) as (K1 & K2 & K3 & K4).
    set (first := match prev with Some pb => _ | None => Ret k end) in E. destruct first as [k1| |] eqn:Ef; try discriminate. cbn [bind] in E.
    destruct (concat_kids nm (Datatypes.S ci) (Some (blocks_O c f)) l) as [rest| |] eqn:Er; try discriminate. cbn [bind] in E. injection E as <-.
    assert (Hbl : forall pb b, Some (blocks_O c f) = Some pb -> head_at pb 0 = Ret b -> In b log_times) by (intros pb b X Hb; injection X as <-; apply (block_times c f b (sm_body c S) Hb)).
    destruct (IH (fun cf I => Hl cf (or_intror I)) _ _ _ Hbl Er) as (R1 & R2 & R3 & R4). clear IH.
    assert (Hk1 : map fst k1 = map fst k /\ forall d, In d (concat (map (fun cd => snd cd :: dists (fst cd)) k1)) -> (Z.abs d <= W)%Z).
    { unfold first in Ef. destruct prev as [pb|]; [|injection Ef as <-; split; [reflexivity|]; intros d I; rewrite K3 in I; apply (sm_dists c S d I)].
      destruct k as [|[k0 d0] k']; [discriminate|]. destruct (head_at (blocks_O c f) 0) as [a| |] eqn:Ea; try discriminate. cbn [bind] in Ef. destruct (head_at pb 0) as [b| |] eqn:Eb; try discriminate. cbn [bind] in Ef. injection Ef as <-.
      split; [reflexivity|]. intros d I. cbn [map concat fst snd] in *. destruct I as [<-|I]; [apply (near_times log_times (incl_refl _)); [apply (block_times c f a (sm_body c S) Ea) | apply (Hprev pb b eq_refl Eb)]|].
      apply (sm_dists c S d). rewrite <- K3. right. exact I. }
    destruct Hk1 as [Hk1 Hd1]. clear Ef first. rewrite !map_app, !concat_app.
    assert (X : forall Y (g : tree nat -> Y), map (fun cd => g (fst cd)) k1 = map (fun cd => g (fst cd)) k) by (intros Y g; rewrite <- !(map_map fst g), Hk1; reflexivity).
    rewrite (X _ leaf_events), (X _ cycles). split; [cbn [map concat fst]; rewrite K1, R1; reflexivity|]. split; [|split].
    - intros x I. apply in_app_or in I. destruct I as [I|I]; [exists (c, f); split; [left; reflexivity | apply K2, I]|]. destruct (R2 x I) as (cf & I1 & I2). exists cf. split; [right; exact I1 | exact I2].
    - intros d I. apply in_app_or in I. destruct I as [I|I]; [apply Hd1, I | apply R3, I].
    - intros cd I. apply in_app_or in I. destruct I as [I|I].
      + assert (I' : In (fst cd) (map fst k)) by (rewrite <- Hk1; apply in_map, I). apply in_map_iff in I'. destruct I' as (cd' & E' & I'). exists (c, f). split; [left; reflexivity|]. rewrite <- E'. apply K4, I'.
      + destruct (R4 cd I) as (cf & I1 & I2). exists cf. split; [right; exact I1 | exact I2].
  Qed.
  Lemma nodup_disjoint {X} (F : X -> list occ) l : NoDup l -> (forall i j, In i l -> In j l -> i <> j -> forall o, In o (F i) -> ~ In o (F j)) ->
    list_sum (map (fun i => length (nodup eq_dec (F i))) l) <= length (nodup eq_dec (concat (map F l))).
  Proof.
    induction 1 as [|i l Ni Nl IH]; intros Hd; [cbn; lia|]. cbn [map list_sum fold_right concat]. specialize (IH (fun a b Ia Ib => Hd a b (or_intror Ia) (or_intror Ib))). unfold list_sum in IH.
    etransitivity; [apply Nat.add_le_mono_l; exact IH|]. rewrite <- app_length. apply NoDup_incl_length.
    - apply NoDup_app_intro; [apply NoDup_nodup | apply NoDup_nodup|]. intros o I1 I2. apply nodup_In in I1. apply nodup_In, in_concat in I2. destruct I2 as (m & Im & I2). apply in_map_iff in Im. destruct Im as (j & <- & Ij).
      apply (Hd i j (or_introl eq_refl) (or_intror Ij)) with o; [intros ->; exact (Ni Ij) | exact I1 | exact I2].
    - intros o I. apply nodup_In. apply in_or_app. apply in_app_or in I. destruct I as [I|I]; apply nodup_In in I; auto.
  Qed.
  Lemma repetition_length (c : ccand nat) k : shaped c -> k < reps_of c -> length (repetition c k) = length (dated c) / reps_of c.
  Proof.
    intros Ss Hk. destruct (shaped_block c Ss) as (m & Hm & H1 & Hl). assert (E : length (dated c) = reps_of c * m) by (rewrite <- Hl, <- (dated_occs c Ss), map_length; reflexivity).
    assert (Em : length (dated c) / reps_of c = m) by (rewrite E, Nat.mul_comm; apply Nat.div_mul; lia). unfold repetition. rewrite Em. rewrite firstn_length, skipn_length, E. nia.
  Qed.
  Lemma joined_small rows cands dcosts nms new_num sorted pids c : joined rows cands new_num sorted pids c -> Forall (row_ok rows cands dcosts) pids -> on_order rows cands nms pids = Ret c ->
    (forall i, In i pids -> small_cand (cnd rows cands i)) -> (forall i, In i pids -> exists r, In (r, p_at rows i) (cycles (tree_of (cnd rows cands i)))) -> body_ok evs c -> small_cand c.
  Proof.
    intros [(Np & _ & L2) Hpart [(r0 & ch & EP & H1 & Hoff & _ & Hd) _ _ _ _]] Hok E Hs Hp B. set (cn := cnd rows cands) in *.
    assert (Et : tree_of c = Node 0 r0 (p_at rows (hd 0 pids)) ch) by (unfold tree_of; rewrite EP; reflexivity).
    assert (Ek : exists fs, length fs = length pids /\ concat_kids (nms (map cn pids)) 0 None (combine (map cn pids) fs) = Ret ch).
    { unfold on_order in E. rewrite (cands_ok rows cands dcosts pids Hok) in E. cbn [bind] in E. fold cn in E. destruct pids as [|i0 is_]; [discriminate|]. exists (map (fun k => r_off (row_at rows k)) (i0 :: is_)). split; [apply map_length|]. unfold prepare_concats in E.
      destruct (concat_kids _ 0 None _) as [ch'| |]; try discriminate. cbn [bind] in E. destruct (map_out _ _) as [os| |]; try discriminate. cbn [bind] in E. destruct (map_out _ _) as [es| |]; try discriminate. cbn [bind] in E. injection E as <-. cbn [cc_P] in EP. congruence. }
    destruct Ek as (fs & Lf & Ek).
    assert (Hcf : forall cf, In cf (combine (map cn pids) fs) -> exists i, In i pids /\ fst cf = cn i). { intros [x f] I. apply in_combine_l in I. apply in_map_iff in I. destruct I as (i & <- & I). eauto. }
    destruct (kids_facts _ _ ltac:(intros cf I; destruct (Hcf cf I) as (i & Ii & ->); apply Hs, Ii) 0 None ch ltac:(discriminate) Ek) as (K1 & K2 & K3 & K4).
    assert (Efst : map (fun cf : ccand nat * nat => leaf_events (tree_of (fst cf))) (combine (map cn pids) fs) = map (fun i => leaf_events (tree_of (cn i))) pids).
    { rewrite <- (map_map fst (fun c => leaf_events (tree_of c))). rewrite <- (map_map cn (fun c => leaf_events (tree_of c))). f_equal. clear -Lf. revert fs Lf. induction pids as [|i l IH]; intros [|f fs] L; try discriminate; [reflexivity|]. cbn. f_equal. apply IH. cbn in L. lia. }
    rewrite Efst in K1. clear Efst.
    assert (Ew : tree_width (tree_of c) = list_sum (map (fun i => tree_width (tree_of (cn i))) pids)).
    { rewrite width_leaves, Et. cbn [leaf_events]. rewrite K1. clear. induction pids as [|i l IH]; [reflexivity|]. cbn [map concat list_sum fold_right]. rewrite app_length, IH, width_leaves. reflexivity. }
    assert (Hr : forall i, In i pids -> reps_of (cn i) <= N).
    { intros i I. destruct (sh_node _ (bo_shape _ _ (sm_body _ (Hs i I)))) as (n & r & p & ch' & En). unfold reps_of. rewrite En. apply (sm_cycles _ (Hs i I) r p). fold cn. rewrite En. left. reflexivity. }
    destruct pids as [|i0 [|i1 is_]]; try (cbn in L2; lia). set (pids := i0 :: i1 :: is_) in *. assert (I0 : In i0 pids) by (left; reflexivity).
    assert (Hw1 : forall i, In i pids -> tree_width (tree_of (cn i)) + 1 <= tree_width (tree_of c)).
    { intros i I. rewrite Ew. assert (Hj : exists j, In j pids /\ j <> i). { destruct (Nat.eq_dec i i0) as [->|Nn]; [exists i1; split; [right; left; reflexivity|] | exists i0; split; [exact I0 | congruence]]. inversion Np as [|? ? X _]; subst. intros ->. apply X. left. reflexivity. }
      destruct Hj as (j & Ij & Nj). pose proof (wf_width _ (sh_wf _ (bo_shape _ _ (sm_body _ (Hs j Ij))))) as Wj. fold cn in Wj. clear -I Ij Nj Wj.
      apply in_split in I. destruct I as (l1 & l2 & ->). rewrite map_app, list_sum_app. cbn [map list_sum fold_right].
      assert (G : forall l, In j l -> 1 <= list_sum (map (fun i => tree_width (tree_of (cn i))) l)). { intros l Il. apply in_split in Il. destruct Il as (m1 & m2 & ->). rewrite map_app, list_sum_app. cbn [map list_sum fold_right]. lia. }
      apply in_app_or in Ij. destruct Ij as [Ij|[Ij|Ij]]; [specialize (G l1 Ij); unfold list_sum in *; lia | congruence | specialize (G l2 Ij); unfold list_sum in *; lia]. }
    assert (Hdep : tree_depth (tree_of c) <= N * tree_width (tree_of c)).
    { rewrite Et at 1. cbn [tree_depth].
      assert (Hm : forall i, In i pids -> tree_depth (tree_of (cn i)) <= N * tree_width (tree_of c)).
      { intros i I. etransitivity; [apply (sm_depth _ (Hs i I))|]. fold cn. pose proof (later_less _ (start_times _ (sm_body _ (Hs i I)))) as Hl. fold cn in Hl. pose proof (Hw1 i I). nia. }
      assert (Hp1 : 1 <= N * tree_width (tree_of c)). { pose proof (later_less _ (start_times _ (sm_body _ (Hs i0 I0)))). pose proof (Hw1 i0 I0). nia. }
      enough (list_max (map (fun cd : tree nat * Z => tree_depth (fst cd)) ch) <= N * tree_width (tree_of c) - 1) by lia. apply list_max_le. apply Forall_forall. intros x I. apply in_map_iff in I. destruct I as (cd & <- & I).
      destruct (K4 cd I) as (cf & If & Lt). destruct (Hcf cf If) as (i & Ii & Ei). rewrite Ei in Lt. specialize (Hm i Ii). lia. }
    constructor.
    - exact B.
    - intros r p I. rewrite Et in I. cbn [cycles] in I. destruct I as [I|I].
      + injection I as <- <-. cbn [hd pids]. split; [specialize (Hoff i0 I0); specialize (Hr i0 I0); unfold cn in *; lia|]. destruct (Hp i0 I0) as (r & Ir). apply (sm_cycles _ (Hs i0 I0) r _ Ir).
      + destruct (K2 _ I) as (cf & If & Ic). destruct (Hcf cf If) as (i & Ii & Ei). rewrite Ei in Ic. apply (sm_cycles _ (Hs i Ii) r p Ic).
    - intros d I. rewrite Et in I. cbn [dists] in I. apply K3, I.
    - rewrite Et. cbn [leaf_events]. rewrite K1. intros e I. apply in_concat in I. destruct I as (m & Im & I). apply in_map_iff in Im. destruct Im as (i & <- & Ii). apply (sm_leaves _ (Hs i Ii)), I.
    - intros k Hk. assert (Er : reps_of c = r0) by (unfold reps_of; rewrite Et; reflexivity). rewrite Er in Hk.
      change (repetition c k) with (part_of (reps_of c) (dated c) k). rewrite Er, Hd.
      rewrite (part_concat r0 _ (list_sum (map (fun i => length (dated (cn i)) / reps_of (cn i)) pids)) k).
      2: { intros x Hx. fold cn. assert (G : forall i, In i pids -> length (repetition (cn i) (r_off (row_at rows i) + x)) = length (dated (cn i)) / reps_of (cn i)).
           { intros i I. apply repetition_length; [apply (bo_shape evs), sm_body, Hs, I | specialize (Hoff i I); fold cn in Hoff; lia]. }
           clear -G. induction pids as [|i l IH]; [reflexivity|]. cbn [map concat list_sum fold_right]. rewrite app_length, (G i (or_introl eq_refl)), IH by (intros j J; apply G; right; exact J). reflexivity. }
      destruct (Nat.ltb_spec k r0) as [_|X]; [|lia]. fold cn.
      etransitivity; [|apply (nodup_disjoint (fun i => repetition (cn i) (r_off (row_at rows i) + k)) pids Np)].
      + rewrite Ew. assert (G : forall i, In i pids -> tree_width (tree_of (cn i)) <= length (nodup eq_dec (repetition (cn i) (r_off (row_at rows i) + k)))).
        { intros i I. apply (sm_width _ (Hs i I)). specialize (Hoff i I). fold cn in Hoff |- *. lia. }
        clear -G. induction pids as [|i l IH]; [cbn; lia|]. cbn [map list_sum fold_right]. apply Nat.add_le_mono; [apply G; left; reflexivity | apply IH; intros j J; apply G; right; exact J].
      + intros i j Ii Ij Nij o O1 O2. destruct (Hpart i j Ii Ij Nij) as (_ & D & _). apply (D o); eapply repetition_incl; eassumption.
    - lia.
  Qed.

  (* ---------------------------------------------------------- all that fits *)
  Definition offsets : list Z := map (fun k => (Z.of_nat k - W)%Z) (seq 0 (S (2 * Z.to_nat W))).
  Lemma in_offsets z : (Z.abs z <= W)%Z -> In z offsets.
  Proof. intros L. apply in_map_iff. exists (Z.to_nat (z + W)). split; [lia|]. apply in_seq. lia. Qed.
  Fixpoint lists_upto {X} (n : nat) (l : list X) : list (list X) :=
    match n with O => [[]] | S n => [] :: flat_map (fun x => map (cons x) (lists_upto n l)) l end.
  Lemma in_lists_upto {X} (l k : list X) : forall n, length k <= n -> incl k l -> In k (lists_upto n l).
  Proof.
    induction k as [|x k IH]; intros [|n] L I; [left; reflexivity | left; reflexivity | cbn in L; lia|]. cbn [lists_upto]. right. apply in_flat_map. exists x. split; [apply I; left; reflexivity|].
    apply in_map, IH; [cbn in L; lia|]. intros y Iy. apply I. right. exact Iy.
  Qed.
  Fixpoint all_trees (M d : nat) : list (tree nat) :=
    map (Leaf 0) (map snd evs) ++
    match d with
    | O => []
    | S d => flat_map (fun rp => map (fun ch => Node 0 (fst rp) (snd rp) ch) (lists_upto M (list_prod (all_trees M d) offsets))) (list_prod (seq 0 (S N)) offsets)
    end.
  Lemma in_all_trees M : forall d t, wf t -> tree_depth t <= d -> (forall r p, In (r, p) (cycles t) -> r <= N /\ (Z.abs p <= W)%Z) -> (forall x, In x (dists t) -> (Z.abs x <= W)%Z) ->
    incl (leaf_events t) (map snd evs) -> tree_width t <= M -> In (erase t) (all_trees M d).
  Proof.
    induction d as [|d IH]; intros t Wt Hd Hc Hx Hl Hw; destruct t as [n e|n r p ch]; cbn [erase all_trees]; try (apply in_or_app; left; apply in_map, Hl; left; reflexivity); [cbn in Hd; lia|].
    apply in_or_app. right. apply in_flat_map. exists (r, p). destruct (Hc r p (or_introl eq_refl)) as [C1 C2]. split; [apply in_prod; [apply in_seq; lia | apply in_offsets, C2]|]. cbn [fst snd].
    apply in_map. assert (Wk : Forall (fun cd => wf (fst cd)) ch) by (inversion Wt; assumption). rewrite Forall_forall in Wk. apply in_lists_upto.
    - rewrite map_length. etransitivity; [|exact Hw]. cbn [tree_width]. clear -Wk. induction ch as [|cd ch IHc]; [cbn; lia|]. cbn [length map list_sum fold_right]. pose proof (wf_width _ (Wk cd (or_introl eq_refl))). specialize (IHc (fun x I => Wk x (or_intror I))). unfold list_sum in IHc. lia.
    - intros x I. apply in_map_iff in I. destruct I as (cd & <- & I). apply in_prod; [|apply in_offsets, Hx; cbn [dists]; apply in_concat; exists (snd cd :: dists (fst cd)); split; [apply (in_map (fun cd => snd cd :: dists (fst cd))), I | left; reflexivity]].
      apply IH.
      + apply Wk, I.
      + cbn [tree_depth] in Hd. apply le_S_n in Hd. apply list_max_le in Hd. rewrite Forall_forall in Hd. apply Hd. apply (in_map (fun cd => tree_depth (fst cd))), I.
      + intros r1 p1 I1. apply Hc. right. apply in_concat. exists (cycles (fst cd)). split; [apply (in_map (fun cd => cycles (fst cd))), I | exact I1].
      + intros y Iy. apply Hx. apply in_concat. exists (snd cd :: dists (fst cd)). split; [apply (in_map (fun cd => snd cd :: dists (fst cd))), I | right; exact Iy].
      + intros e Ie. apply Hl. apply in_concat. exists (leaf_events (fst cd)). split; [apply (in_map (fun cd => leaf_events (fst cd))), I | exact Ie].
      + etransitivity; [|exact Hw]. cbn [tree_width]. apply in_split in I. destruct I as (l1 & l2 & ->). rewrite map_app, list_sum_app. cbn [map list_sum fold_right]. lia.
  Qed.
  Definition all_bodies : list (tree nat * Z) := list_prod (all_trees (length evs) (N * length evs + 1 + N)) log_times.
  Definition key_of (simple : bool) (ts : tree nat * Z) : minor * (Z * (nat * Z)) :=
    match fst ts with
    | Node _ r p ch => (if simple then inl (match ch with (Leaf _ e, _) :: _ => e | _ => 0 end) else inr ch, (snd ts, (r, p)))
    | Leaf _ _ => (inr [], (0%Z, (0, 0%Z)))
    end.
  Definition all_keys : list (minor * (Z * (nat * Z))) := map (key_of true) all_bodies ++ map (key_of false) all_bodies.
  Lemma small_key known sc : cand_ok known evs sc -> small_cand (c_body sc) -> In (keys sc) all_keys.
  Proof.
    intros [B Mi _ _ _ _ Ma] S. set (c := c_body sc) in *. clearbody c.
    assert (I : In (erase (tree_of c), hd 0%Z (cc_O c)) all_bodies).
    { apply in_prod; [|apply start_times, B]. pose proof (small_events c S) as Hw. assert (Hl : length (nodup eq_dec (dated c)) <= length evs) by (apply NoDup_incl_length; [apply NoDup_nodup|]; intros o Io; apply nodup_In in Io; apply (bo_events _ _ B), Io).
      apply in_all_trees; [apply (sh_wf _ (bo_shape _ _ B)) | | apply (sm_cycles c S) | apply (sm_dists c S) | apply (sm_leaves c S) | lia].
      etransitivity; [apply (sm_depth c S)|]. pose proof (later_less _ (start_times c B)). assert (N * tree_width (tree_of c) <= N * length evs) by (apply Nat.mul_le_mono_l; lia). lia. }
    assert (E : exists b, key_of b (erase (tree_of c), hd 0%Z (cc_O c)) = (c_minor sc, c_major sc)).
    { rewrite Mi, Ma. destruct (sh_node _ (bo_shape _ _ B)) as (n & r & p & ch & En). unfold minor_of, major_rp, key_of, tree_of in *. destruct (cc_P c) as [e q|t]; [exists true; reflexivity|]. subst t. exists false. reflexivity. }
    destruct E as (b & E). unfold keys. rewrite <- E. unfold all_keys. apply in_or_app. destruct b; [left | right]; apply in_map, I.
  Qed.
  Definition small_pool (P : spool) : Prop := forall i sc, In (i, sc) (p_cands P) -> small_cand (c_body sc).
  Lemma pool_room known (P : spool) : pool_inv evs known P -> small_pool P -> length (p_cands P) <= length all_keys.
  Proof.
    intros Hp Hs. rewrite <- (map_length (fun ic => keys (snd ic))). apply NoDup_incl_length; [apply (wf_keys _ (kp_wf _ (pi_kept _ _ _ Hp)))|].
    intros k I. apply in_map_iff in I. destruct I as ([i sc] & <- & I). apply (small_key known sc); [apply (pi_cands _ _ _ Hp i sc I) | apply (Hs i sc I)].
  Qed.
End Room.

(* ------------------------------------------------------------ what is noted as new *)
Section Noted.
  Context {mK MK NK Bd : Type} `{EqDec mK} `{EqDec MK} `{EqDec NK}.
  Lemma loop_new_keys : forall ps (P : pool mK MK NK Bd) nk one props P' out, NoDup (dkeys (p_new_cids P)) -> add_loop P ps nk one props = (P', out) -> NoDup (dkeys (p_new_cids P')).
  Proof.
    induction ps as [|c ps IH]; intros P nk one props P' out Hk E; cbn [add_loop] in E; [injection E as <- <-; exact Hk|].
    destruct (record_cand P c nk) as [P1|] eqn:Er.
    - apply IH in E; [exact E|]. unfold record_cand in Er; destruct (match dget (p_map P) (c_minor c) with Some _ => _ | None => _ end) in Er; [discriminate|]; injection Er as <-. cbn [bump_next p_new_cids]. apply NoDup_dset, Hk.
    - destruct one; [injection E as <- <-; exact Hk|]. apply (IH _ _ _ _ _ _ Hk E).
  Qed.
  Lemma add_new_keys (P P' : pool mK MK NK Bd) ps nk one out : NoDup (dkeys (p_new_cids P)) -> add_cands P ps nk one = (P', out) -> NoDup (dkeys (p_new_cids P')).
  Proof.
    intros Hk E. unfold add_cands in E. destruct (add_loop (with_nkey P nk) ps nk one []) as [P1 o1] eqn:El. apply loop_new_keys in El; [|exact Hk].
    destruct o1 as [[|r l]|e|]; try (injection E as <- <-; exact El). destruct (p_rows P1); [destruct (p_sorted P1)|]; injection E as <- <-; exact El.
  Qed.
End Noted.
Lemma new_some (P : spool) : NoDup (dkeys (p_new_cids P)) -> nb_new P None <> 0 -> exists k, new_under P k <> [].
Proof.
  intros Hk Hn. assert (G : exists k l, In (k, l) (p_new_cids P) /\ l <> []).
  { unfold nb_new in Hn. clear Hk. induction (p_new_cids P) as [|[k l] d IH]; [cbn in Hn; congruence|]. destruct l as [|x l]; [|exists k, (x :: l); split; [left; reflexivity | discriminate]].
    destruct IH as (k' & l' & I & X); [exact Hn|]. exists k', l'. split; [right; exact I | exact X]. }
  destruct G as (k & l & I & X). exists k. unfold new_under, dget_or. rewrite (VerticalProofs.In_dget _ _ _ Hk I). exact X.
Qed.

(* ------------------------------------------------------------ the rounds *)
Section Rounds.
  Variable cost : ccand nat -> Q.
  Variable bare : ccand nat -> option Q.
  Variable ntrip : ccand nat -> Z -> Z -> Q.
  Variable ncyc : ccand nat -> Z -> list Z -> Q.
  Variable nm : list (ccand nat) -> nat -> nat -> nat.
  Variable text_leb : prkey -> prkey -> bool.
  Variable nms : list (ccand nat) -> nat -> nat -> nat.
  Variable text_lt : list nat -> list nat -> bool.
  Variable iter : list nat -> list nat.
  Variable key_iter : list minor -> list minor.
  Variable small : Z -> bool.
  Variable dc : dict nat Q.
  Variable evs : list occ.
  Variable known : Q -> ccand nat -> Prop.
  Hypothesis Hknown : forall c, known (cost c) c.
  Hypothesis Hlevels : fresh_levels nm.
  Hypothesis Hids : fresh_ids nms.
  Hypothesis Hiter : forall l, Permutation (iter l) l.
  Hypothesis Hdc : forall o, In o evs -> dget dc (snd o) <> None.
  Variable W : Z.
  Hypothesis HW0 : (0 <= W)%Z.
  Hypothesis HW : near W (map fst evs).
  Hypothesis Hfew : length (log_times evs) < 2000.
  Notation vertical := (vertical cost bare ntrip ncyc nm text_leb key_iter small).
  Notation horizontal := (horizontal cost nms text_lt iter dc).
  Notation combine_round := (combine_round cost bare ntrip ncyc nm text_leb nms text_lt iter key_iter small dc).
  Notation combine_rounds := (combine_rounds cost bare ntrip ncyc nm text_leb nms text_lt iter key_iter small dc).
  Notation pool_inv := (pool_inv evs known).
  Notation small_cand := (small_cand evs W).
  Notation small_pool := (small_pool evs W).

  Lemma vertical_small P nk vs : pool_inv P -> small_pool P -> vertical P nk = Ret vs -> forall c, In c vs -> body_ok evs c -> small_cand c.
  Proof.
    intros Hp Hs E c I B. unfold ComplexModel.vertical in E. destruct (map_out (class_of P) _) as [classes| |] eqn:Ec; cbn [bind] in E; try discriminate.
    assert (Hcls : forall cls, In cls classes -> (forall c, In c (map fst cls) -> exists i sc, In (i, sc) (p_cands P) /\ c = c_body sc) /\ one_kind (map fst cls)).
    { intros cls Ik. apply map_out_each in Ec. apply (F2_in _ _ _ _ Ec) in Ik. destruct Ik as (mk & _ & Ek). destruct (class_ok evs known P mk Hp) as (cls' & E' & X). rewrite Ek in E'. injection E' as <-. exact X. }
    destruct (C86_vertical cost bare ntrip ncyc small nm text_leb classes) as (res & Er & Hr).
    { apply Forall_forall. intros cls Ik. destruct (Hcls cls Ik) as [X1 X2]. split; [|exact X2]. intros c' Ic. destruct (X1 c' Ic) as (i & sc & Is & ->). apply (bo_shape evs), (co_body _ _ _ (pi_cands _ _ _ Hp _ _ Is)). }
    rewrite E in Er. injection Er as <-. destruct (Hr c I) as (_ & cls & parts & I1 & _ & Hinc & Hd & _ & _ & _ & idxs & outer & c0 & Hi & H0 & Hcop & Ht & Hnest). destruct (Hcls cls I1) as [X1 _].
    assert (Hsm : forall c', In c' (map fst cls) -> small_cand c') by (intros c' Ic; destruct (X1 c' Ic) as (i & sc & Is & ->); apply (Hs i sc Is)).
    apply (nested_small evs W HW0 HW (map fst cls) small Hsm c parts idxs outer c0 B Hd Hi H0 Hcop Ht). apply Hnest. eapply Nat.le_lt_trans; [|exact Hfew].
    apply NoDup_incl_length; [apply NoDup_nodup|]. intros t It. apply nodup_In in It. apply in_map_iff in It. destruct It as (c' & <- & Ic). apply start_times, (sm_body evs W), Hsm, Ic.
  Qed.
  Lemma horizontal_small P nk hs : pool_inv P -> small_pool P -> p_rows P <> None -> horizontal P nk = Ret hs -> forall c, In c hs -> body_ok evs c -> small_cand c.
  Proof.
    intros Hp Hs Hn E c I B. unfold ComplexModel.horizontal in E. destruct (nb_new P nk =? 0) eqn:En; [injection E as <-; destruct I|].
    pose proof (wf_sorted _ (kp_wf _ (pi_kept _ _ _ Hp))) as Hso. destruct (p_rows P) as [rows|] eqn:Er; [|congruence]. destruct (p_sorted P) as [| |l] eqn:Es; try contradiction.
    destruct (rows_good dc evs known Hdc P rows l Hp Er Es) as [Hpo Hcn]. set (cands := map (fun ic => (fst ic, c_body (snd ic))) (p_cands P)) in *.
    destruct (C87_horizontal rows cands (known_cost P) (fun c => Some (cost c)) dc (index_of (p_nkeys P) nk) nms text_lt iter l Hids Hiter Hpo true) as (res & E' & _ & Hr). rewrite E in E'. injection E' as <-.
    destruct (Hr c I) as (pids & c0 & Hj & _ & _ & _ & _ & Hperm & _ & _ & _ & _ & Hmake & Hsub).
    assert (Hin : forall i, In i pids -> In i l) by (destruct Hj as [(_ & Hj & _) _ _]; exact Hj).
    assert (Hok : Forall (row_ok rows cands dc) pids) by (apply (rows_ok rows cands dc l Hpo pids Hin)).
    assert (Hsm : forall i, In i pids -> small_cand (cnd rows cands i)) by (intros i Ii; destruct (Hcn i (Hin i Ii)) as (sc & Is & ->); apply (Hs _ sc Is)).
    assert (Hpr : forall i, In i pids -> exists r, In (r, p_at rows i) (cycles (tree_of (cnd rows cands i)))).
    { intros i Ii. destruct (Hcn i (Hin i Ii)) as (sc & Is & Ec). rewrite Ec. destruct (po_rows _ _ _ _ Hpo i (Hin i Ii)) as [Li _].
      destruct (kp_rows _ (pi_kept _ _ _ Hp) rows Er (row_at rows i) (nth_In _ _ Li)) as (sc' & k & mo & Is' & Ip). pose proof (kp_wf _ (pi_kept _ _ _ Hp)) as Hw. pose proof (ids_get P _ _ Hw Is) as G1. pose proof (ids_get P _ _ Hw Is') as G2. rewrite G1 in G2. injection G2 as <-.
      destruct (props_fields _ _ _ _ _ Ip) as (_ & _ & Hpp & _). unfold p_at. rewrite Hpp. destruct (pi_cands _ _ _ Hp _ _ Is) as [Bb _ _ _ _ Cp _]. rewrite Cp. exists (fst (major_rp (c_body sc))).
      destruct (sh_node _ (bo_shape _ _ Bb)) as (n & r & p & ch & Et). unfold major_rp, tree_of in *. destruct (cc_P (c_body sc)) as [e q|t]; [left; reflexivity|]. subst t. left. reflexivity. }
    assert (B0 : body_ok evs c0).
    { destruct Hj as [_ _ [_ A2 A3 _ A5]]. constructor; [exact A2 | exact A3 | | intros o Io; apply (bo_events _ _ B); apply (Permutation_in o (Permutation_sym Hperm)), Io].
      unfold kid_ids. destruct (sh_node _ A2) as (n & r & p & ch & Et). unfold tree_of in *. destruct (cc_P c0) as [e q|t]; [repeat constructor; intros []|]. destruct (node_ids t); [constructor | inversion A5; assumption]. }
    pose proof (joined_small evs W HW rows cands dc nms (index_of (p_nkeys P) nk) l pids c0 Hj Hok Hmake Hsm Hpr B0) as S0.
    destruct Hj as [_ _ [(r0 & ch & EP & _) A2 _ _ A5]]. assert (A5' : NoDup (node_ids (Node 0 r0 (p_at rows (hd 0 pids)) ch))) by (unfold tree_of in A5; rewrite EP in A5; exact A5).
    destruct (substitute_from (fun c => Some (cost c)) c0 _ c EP A2 A5' Hsub) as [->|(f & Hf & ->)]; [exact S0|]. apply (factored_small evs W HW0 c0 _ f EP S0 Hf B).
  Qed.
  Lemma round_small P i nkV nkH P' : pool_inv P -> small_pool P -> p_rows P <> None -> combine_round i nkV nkH P = Ret P' ->
    pool_inv P' /\ small_pool P' /\ p_rows P' <> None /\ (nb_new P' None <> 0 -> length (p_cands P) < length (p_cands P')).
  Proof.
    intros Hp Hs Hn E. destruct (round_ok cost bare ntrip ncyc nm text_leb nms text_lt iter key_iter small dc evs known Hknown Hlevels Hids Hiter Hdc P i nkV nkH Hp Hn) as (P1 & E1 & Hp1 & Hn1 & _). rewrite E in E1. injection E1 as <-.
    destruct (round_exact cost bare ntrip ncyc nm text_leb nms text_lt iter key_iter small dc evs known Hknown Hlevels Hids Hiter Hdc P i nkV nkH P' Hp Hn E) as (vs & hs & Ev & Eh & nv & nh & Ec & Hv & Hh & _ & N1 & N2 & _ & _ & N3 & _).
    split; [exact Hp1|]. split; [|split; [exact Hn1|]].
    - intros k sc I. pose proof (co_body _ _ _ (pi_cands _ _ _ Hp1 k sc I)) as B. rewrite Ec in I. apply in_app_or in I. destruct I as [I|I]; [apply (Hs k sc I)|]. apply in_app_or in I. destruct I as [I|I].
      + apply (vertical_small P nkH vs Hp Hs Ev); [apply (Hv _ I) | exact B].
      + apply (horizontal_small P nkV hs Hp Hs Hn Eh); [apply (Hh _ I) | exact B].
    - intros Hz. assert (Hk : NoDup (dkeys (p_new_cids P'))).
      { unfold ComplexModel.combine_round in E. rewrite Ev in E. cbn [bind] in E. rewrite Eh in E. cbn [bind] in E. destruct (map_out _ vs) as [cvs| |]; cbn [bind] in E; try discriminate. destruct (map_out _ hs) as [chs| |]; cbn [bind] in E; try discriminate.
        destruct (added (add_cands (reset_new P) _ _ _)) as [P1| |] eqn:E1; cbn [bind] in E; try discriminate. apply added_ret in E1, E. eapply add_new_keys; [|exact E]. eapply add_new_keys; [|exact E1]. constructor. }
      destruct (new_some P' Hk Hz) as (k & X). rewrite Ec, !app_length. destruct (eq_dec k (Some (true, i))) as [->|K1]; [rewrite N1 in X; destruct nv; [destruct (X eq_refl) | cbn; lia]|].
      destruct (eq_dec k (Some (false, i))) as [->|K2]; [rewrite N2 in X; destruct nh; [destruct (X eq_refl) | cbn; lia]|]. destruct (N3 k K1 K2) as [X' _]. congruence.
  Qed.
  Lemma rounds_end : forall fuel i nkV nkH P, pool_inv P -> small_pool P -> p_rows P <> None -> length (all_keys evs W) < length (p_cands P) + fuel -> exists P', combine_rounds fuel i nkV nkH P = Ret P'.
  Proof.
    induction fuel as [|f IH]; intros i nkV nkH P Hp Hs Hn L; cbn [ComplexModel.combine_rounds].
    - pose proof (pool_room evs W known P Hp Hs). lia.
    - destruct (nb_new P None =? 0) eqn:En; [eauto|]. destruct (round_ok cost bare ntrip ncyc nm text_leb nms text_lt iter key_iter small dc evs known Hknown Hlevels Hids Hiter Hdc P i nkV nkH Hp Hn) as (P1 & E1 & _). rewrite E1. cbn [bind].
      destruct (round_small P i nkV nkH P1 Hp Hs Hn E1) as (Hp1 & Hs1 & Hn1 & Hz). destruct (Nat.eq_dec (nb_new P1 None) 0) as [Ez|Nz].
      + destruct f; cbn [ComplexModel.combine_rounds]; rewrite Ez; cbn; eauto.
      + apply IH; try assumption. specialize (Hz Nz). lia.
  Qed.
End Rounds.

(* ------------------------------------------------------------ mining *)
Definition widest (evs : list occ) : Z := (2 * fold_right Z.max 0 (map (fun o => Z.abs (fst o)) evs))%Z.
Lemma widest_pos evs : (0 <= widest evs)%Z.
Proof. unfold widest. induction evs as [|o l IH]; cbn [map fold_right]; lia. Qed.
Lemma widest_near evs : near (widest evs) (map fst evs).
Proof.
  assert (G : forall x, In x (map fst evs) -> (2 * Z.abs x <= widest evs)%Z).
  { intros x I. apply in_map_iff in I. destruct I as (o & <- & I). unfold widest. induction evs as [|o' l IH]; [destruct I|]. cbn [map fold_right]. destruct I as [->|I]; [lia | specialize (IH I); lia]. }
  intros x y Ix Iy. specialize (G x Ix) as G1. specialize (G y Iy) as G2. lia.
Qed.
Lemma simple_small (cyc : nat -> Z -> list Z -> Q) trip evs a y occs : body_ok evs (c_body (simple_cand a y)) -> found_cycle (cyc a) (trip a) occs y -> chronological occs ->
  small_cand evs (widest evs) (c_body (simple_cand a y)).
Proof.
  intros B (Hl & Hp & _ & Hso & _) Hc. specialize (Hso Hc). pose proof (occ_times evs _ B) as Hi. set (c := c_body (simple_cand a y)) in *.
  assert (EO : cc_O c = y_occs y) by reflexivity. assert (Et : tree_of c = simple_tree a (length (y_occs y)) (y_p y)) by reflexivity. rewrite EO in Hi. constructor.
  - exact B.
  - rewrite Et. intros r p [E|[]]. injection E as <- <-. split; [apply NoDup_incl_length; [apply sorted_NoDup, Hso | exact Hi]|]. apply (near_period (widest evs) (y_occs y)); [|exact Hp]. apply (near_times evs _ (widest_near evs) _ Hi).
  - rewrite Et. intros d [<-|[]]. apply widest_pos.
  - rewrite Et. intros e [<-|[]]. assert (I : In (hd 0%Z (y_occs y), a) (dated c)).
    { unfold c. cbn [simple_cand c_body]. rewrite simple_dated. destruct (y_occs y) as [|o l]; [cbn in Hl; lia | left; reflexivity]. }
    apply (bo_events _ _ B) in I. apply (in_map snd) in I. exact I.
  - intros k Hk. rewrite Et. change (tree_width (simple_tree a (length (y_occs y)) (y_p y))) with 1.
    pose proof (repetition_some c k (bo_shape _ _ B) Hk) as Hne. destruct (nodup eq_dec (repetition c k)) as [|x l] eqn:El; [|cbn; lia].
    exfalso. apply Hne. destruct (repetition c k) as [|o l']; [reflexivity|]. assert (I : In o (nodup eq_dec (o :: l'))) by (apply nodup_In; left; reflexivity). rewrite El in I. destruct I.
  - rewrite Et. cbn. lia.
Qed.
(* C88: the rounds end.  For a log of fewer than 2000 different times there is a number of rounds,
   whatever the costs, the orders of iteration and the names of nodes, that is enough.  Without the
   bound of 2000 (more starts are handled in blocks) this is not proved. *)
Theorem C88_ends_partial : forall (A : Type) (dec : EqDec A) (leA : A -> A -> bool), (forall x y, leA x y = true \/ leA y x = true) -> (forall x y z, leA x y = true -> leA y z = true -> leA x z = true) ->
  forall seq (ds : @dataseq A), represents leA seq ds -> (forall a, chronological (times ds a)) -> length (nodup Z.eq_dec (map fst (ds_seql ds))) < 2000 ->
  exists B, forall cyc trip one cost bare ntrip ncyc nm text_leb nms text_lt iter key_iter,
    fresh_levels nm -> fresh_ids nms -> (forall l, Permutation (iter l) l) -> dear cyc trip one ->
    forall sfuel rfuel, (forall a, length (times ds a) + 2 <= sfuel) -> B <= rfuel ->
    exists r, mine_complex cyc trip one cost bare ntrip ncyc nm text_leb nms text_lt iter key_iter sfuel rfuel ds = Ret r.
Proof.
  intros A dec leA Htot Htr seq ds Hrep Hc Hfew. exists (S (length (all_keys (ds_seql ds) (widest (ds_seql ds))))). intros cyc trip one cost bare ntrip ncyc nm text_leb nms text_lt iter key_iter Hlev Hids Hit Hd sfuel rfuel Hs Hr.
  destruct (fill_ends cyc trip one ds (length (ds_events ds)) Hc 0 empty_pool empty_wf ltac:(intros i c [])) as (P0 & E0). specialize (E0 sfuel Hs).
  destruct (fill_inv leA cyc trip one cost seq ds sfuel P0 Hrep E0) as (Hp & _ & _ & Hrow).
  assert (Hsm : small_pool (ds_seql ds) (widest (ds_seql ds)) P0).
  { pose proof E0 as E1. apply fill_sound in E1; [|apply empty_wf | intros i c []]. destruct E1 as [_ Hg]. intros i sc I. pose proof (co_body _ _ _ (pi_cands _ _ _ Hp i sc I)) as B. destruct (Hg i sc I) as (a & y & -> & _ & Hf).
    apply (simple_small cyc trip _ a y (times ds a)); [exact B | exact Hf | apply Hc]. }
  assert (Hdc : forall o, In o (ds_seql ds) -> dget (dcosts one ds) (snd o) <> None).
  { intros o I. rewrite (dcosts_get leA one seq ds (snd o) Hrep (seql_event leA seq ds o Hrep I)). discriminate. }
  assert (Hkn : forall c, length_of cyc trip cost ds (cost c) c) by (intros c; left; reflexivity).
  unfold mine_complex. rewrite E0. cbn [bind].
  destruct (mined_rounds leA cyc trip one cost bare ntrip ncyc nm text_leb nms text_lt iter key_iter Hlev Hids Hit seq ds sfuel rfuel P0 Hrep E0) as [(n & P & _ & E & _ & Hp' & _)|X]; cbv zeta in *.
  - rewrite E. cbn [bind]. apply (chosen_ok leA cyc trip one cost seq ds P Hrep Hp').
  - exfalso. assert (G : exists P', combine_rounds cost bare ntrip ncyc nm text_leb nms text_lt iter key_iter (small_of (ds_end ds - ds_start ds)) (dcosts one ds) rfuel 1 None None P0 = Ret P').
    { destruct (p_rows P0) as [rows|] eqn:Er.
      - apply (rounds_end cost bare ntrip ncyc nm text_leb nms text_lt iter key_iter (small_of (ds_end ds - ds_start ds)) (dcosts one ds) (ds_seql ds) (length_of cyc trip cost ds) Hkn Hlev Hids Hit Hdc
          (widest (ds_seql ds)) (widest_pos _) (widest_near _) Hfew rfuel 1 None None P0 Hp Hsm); [congruence | lia].
      - assert (Ez : nb_new P0 None = 0) by (eapply nb_new_none; [exact Hp | apply (Hrow Hd eq_refl)]). exists P0. destruct rfuel; cbn [combine_rounds]; rewrite Ez; reflexivity. }
    destruct G as (P' & G). rewrite G in X. destruct X as [[X _]|[X _]]; discriminate.
Qed.
Print Assumptions C88_ends_partial.
(* a log where a joined pattern is found: 9 different times *)
Example C88_ends_case : exists ds, dataseq_of_list Nat.leb pair_log = Ret ds /\ represents Nat.leb pair_log ds /\ (forall a, chronological (times ds a)) /\
  length (nodup Z.eq_dec (map fst (ds_seql ds))) = 9 /\ (forall a, length (times ds a) + 2 <= 40) /\
  exists B, forall rfuel, B <= rfuel -> exists r, round_mine 40 rfuel ds = Ret r.
Proof.
  assert (Ht : forall x y, Nat.leb x y = true \/ Nat.leb y x = true) by (intros x y; rewrite !Nat.leb_le; lia).
  assert (Htr : forall x y z, Nat.leb x y = true -> Nat.leb y z = true -> Nat.leb x z = true) by (intros x y z; rewrite !Nat.leb_le; lia).
  destruct (C38_sequence Nat.leb Ht Htr pair_log) as (ds & E & Hrep). exists ds. split; [exact E|]. split; [exact Hrep|]. vm_compute in E. injection E as <-.
  match type of Hrep with represents _ _ ?d => set (ds := d) in * end.
  assert (Hc : forall a, chronological (times ds a)) by (intros [|[|[|a]]]; apply chrono_sorted; cbn; repeat constructor; lia).
  assert (Hn : length (nodup Z.eq_dec (map fst (ds_seql ds))) = 9) by (vm_compute; reflexivity).
  assert (Hs : forall a, length (times ds a) + 2 <= 40) by (intros [|[|[|a]]]; cbn; lia).
  split; [exact Hc|]. split; [exact Hn|]. split; [exact Hs|].
  destruct (C88_ends_partial nat _ Nat.leb Ht Htr pair_log ds Hrep Hc ltac:(rewrite Hn; lia)) as (B & HB). exists B. intros rfuel Hr.
  apply HB; [exact demo_levels_fresh | exact demo_ids_fresh | reflexivity | exact demo_dear | exact Hs | exact Hr].
Qed.
