(* C82: mining the simple cycles of a log, from the log to the patterns kept. *)
From Verif Require Import Prelude CheckModel LCMModel VerticalProofs SplitModel PeriodModel PropPeriod TreeModel PropTree SegModel PropSeg CoverModel PropCover PropTopK
  PoolModel PropPool CyclesModel PropCycles FoldModel PropFold MineModel PropMineEvent.
From Coq Require Import QArith Lqa.
Local Open Scope Z_scope.

(* ------------------------------------------------------------ the pool *)
Section Fresh.
  Context {mK MK NK Bd : Type} `{EqDec mK} `{EqDec MK} `{EqDec NK}.
  Notation cand := (cand mK MK Bd).
  Notation pool := (pool mK MK NK Bd).
  Lemma new_ones_all (ps : list cand) : forall seen, NoDup (map keys ps) -> (forall c, In c ps -> ~ In (keys c) seen) -> new_ones seen ps = ps.
  Proof.
    induction ps as [|c ps IH]; intros seen Hn Hf; cbn [new_ones]; [reflexivity|]. cbn [map] in Hn. inversion Hn as [|? ? Hx Hn']; subst.
    destruct (mem_spec (keys c) seen) as [I|_]; [destruct (Hf c (or_introl eq_refl) I)|]. f_equal. apply IH; [exact Hn'|].
    intros d I [E|I']; [apply Hx; rewrite E; apply in_map, I | apply (Hf d (or_intror I) I')].
  Qed.
  Lemma add_loop_fresh (ps : list cand) : forall (P : pool) nk one props, well_formed P -> NoDup (map keys ps) -> (forall c, In c ps -> ~ In (keys c) (pool_keys P)) ->
    exists P' l, add_loop P ps nk one props = (P', Ret l).
  Proof.
    induction ps as [|c ps IH]; intros P nk one props Hw Hn Hf; cbn [add_loop]; [eauto|]. cbn [map] in Hn. inversion Hn as [|? ? Hx Hn']; subst.
    pose proof (record_spec P c nk Hw) as Hr. destruct (record_cand P c nk) as [P'|].
    - destruct Hr as (_ & Hw' & Hc & Hnx & _). apply IH; [exact Hw' | exact Hn'|]. intros d I. unfold pool_keys. cbn [bump_next p_cands]. rewrite Hc, map_app, in_app_iff. cbn [map In snd].
      intros [I'|[E|[]]]; [apply (Hf d (or_intror I)); exact I' | apply Hx; rewrite E; apply in_map, I].
    - exfalso. apply mem_In in Hr. apply (Hf c (or_introl eq_refl) Hr).
  Qed.
  Lemma add_fresh (P : pool) ps nk one : well_formed P -> NoDup (map keys ps) -> (forall c, In c ps -> ~ In (keys c) (pool_keys P)) ->
    exists P', add_cands P ps nk one = (P', Ret tt) /\ well_formed P' /\ p_cands P' = p_cands P ++ combine (List.seq (p_next P) (length ps)) ps.
  Proof.
    intros Hw Hn Hf. pose proof (C47_add P ps nk one Hw) as Ha.
    assert (Ho : exists P', add_cands P ps nk one = (P', Ret tt)).
    { unfold add_cands. destruct (add_loop_fresh ps (with_nkey P nk) nk one [] (nkey_wf P nk Hw) Hn Hf) as (P1 & l & E).
      pose proof (loop_spec ps (with_nkey P nk) nk one [] (nkey_wf P nk Hw) ltac:(intros r [])) as HL. rewrite E in HL. destruct HL as (A & _). rewrite E.
      destruct l as [|r0 l]; [eauto|]. pose proof (wf_sorted _ A) as Hs. destruct (p_rows P1) as [rows|]; [|eauto]. destruct (p_sorted P1); [destruct Hs | destruct Hs | eauto]. }
    destruct Ho as [P' E]. rewrite E in Ha. destruct Ha as (Hw' & k & A1 & A2 & A3 & A4). cbn zeta in *. exists P'. split; [exact E|]. split; [exact Hw'|].
    rewrite (A3 eq_refl), new_ones_all in A1 by assumption. rewrite firstn_all in A1. exact A1.
  Qed.
End Fresh.

Section Mine.
  Context {A : Type} `{EqDec A} (leA : A -> A -> bool).
  Context (leA_total : forall x y, leA x y = true \/ leA y x = true).
  Context (leA_trans : forall x y z, leA x y = true -> leA y z = true -> leA x z = true).
  Variable cyc : nat -> Z -> list Z -> Q.
  Variable trip : nat -> Z -> Z -> Q.
  Variable one : nat -> Q.
  (* ------------------------------------------------------------ specification *)
  (* a cycle with its event, and the pattern, starting time and corrections kept for it *)
  Definition chosen_patt (ac : nat * cycle) : patt :=
    (simple_tree (fst ac) (length (y_occs (snd ac))) (y_p (snd ac)), hd 0 (y_occs (snd ac)), compute_E (y_occs (snd ac)) (y_p (snd ac))).
  Definition chosen_occs (ac : nat * cycle) : list occ := map (fun o => (o, fst ac)) (y_occs (snd ac)).
  Definition sum (l : list Q) : Q := fold_right Qplus 0%Q l.
  Definition cycle_of (ds : @dataseq A) (ac : nat * cycle) : Prop :=
    (fst ac < length (ds_events ds))%nat /\ found_cycle (cyc (fst ac)) (trip (fst ac)) (times ds (fst ac)) (snd ac).

  (* ------------------------------------------------------------ proofs *)
  Definition uncand (c : scand) : nat * cycle := (event_of c, {| y_occs := c_occs c; y_p := c_p c; y_cost := match c_cost c with Some q => q | None => 0%Q end |}).
  Lemma uncand_simple a y : uncand (simple_cand a y) = (a, y).
  Proof. unfold uncand, simple_cand. cbn. destruct y; reflexivity. Qed.
  Definition good_cands (ds : @dataseq A) (lim : nat) (P : spool) : Prop :=
    forall i c, In (i, c) (p_cands P) -> exists a y, c = simple_cand a y /\ (a < lim)%nat /\ found_cycle (cyc a) (trip a) (times ds a) y.
  Definition extract (ds : @dataseq A) (sfuel : nat) (a : nat) : outcome (list cycle) :=
    extract_alpha (cyc a) (trip a) (small_of (ds_end ds - ds_start ds)) (one a) a sfuel (times ds a) None.
  Lemma keys_simple a y y' : keys (simple_cand a y) = keys (simple_cand a y') -> key_of y = key_of y'.
  Proof. unfold keys, simple_cand, key_of. cbn. intros E. injection E as -> -> ->. reflexivity. Qed.
  Lemma fill_step ds sfuel (P : spool) a ys : well_formed P -> good_cands ds a P -> extract ds sfuel a = Ret ys ->
    exists P', add_cands P (map (simple_cand a) ys) None (Some (one a)) = (P', Ret tt) /\ well_formed P' /\ good_cands ds (S a) P'.
  Proof.
    intros Hw Hg E. apply event_sound in E. destruct E as [F N].
    destruct (add_fresh P (map (simple_cand a) ys) None (Some (one a)) Hw) as (P' & E1 & E2 & E3).
    - rewrite map_map. clear -N. induction ys as [|y ys IH]; cbn [map] in *; [constructor|]. inversion N as [|? ? Hx N']; subst. constructor; [|apply IH, N'].
      intros I. apply in_map_iff in I. destruct I as (y' & E & I). apply Hx. apply in_map_iff. exists y'. split; [apply keys_simple in E; exact E | exact I].
    - intros c I I'. apply in_map_iff in I. destruct I as (y & <- & I). unfold pool_keys in I'. apply in_map_iff in I'. destruct I' as ([i c] & E & I').
      destruct (Hg i c I') as (a' & y' & -> & Ha & _). unfold keys in E. cbn in E. injection E as E _ _ _. lia.
    - exists P'. split; [exact E1|]. split; [exact E2|]. intros i c I. rewrite E3 in I. apply in_app_iff in I. destruct I as [I|I].
      + destruct (Hg i c I) as (a' & y' & -> & Ha & Hf). exists a', y'. split; [reflexivity|]. split; [lia | exact Hf].
      + apply in_combine_r, in_map_iff in I. destruct I as (y & <- & I). rewrite Forall_forall in F. exists a, y. split; [reflexivity|]. split; [lia | apply F, I].
  Qed.
  Lemma fill_sound ds sfuel n : forall a (P P' : spool), well_formed P -> good_cands ds a P -> fill cyc trip one sfuel ds (List.seq a n) P = Ret P' ->
    well_formed P' /\ good_cands ds (a + n) P'.
  Proof.
    induction n as [|n IH]; intros a P P' Hw Hg; cbn [List.seq fill]; [intros E; injection E as <-; rewrite Nat.add_0_r; auto|].
    change (extract_alpha (cyc a) (trip a) (small_of (ds_end ds - ds_start ds)) (one a) a sfuel (times ds a) None) with (extract ds sfuel a).
    destruct (extract ds sfuel a) as [ys|e|] eqn:E; cbn [bind]; try discriminate.
    destruct (fill_step ds sfuel P a ys Hw Hg E) as (P1 & E1 & Hw1 & Hg1). rewrite E1. intros Ef. replace (a + S n)%nat with (S a + n)%nat by lia. eapply IH; eassumption.
  Qed.
  Lemma fill_ends ds n : (forall a, chronological (times ds a)) -> forall a (P : spool), well_formed P -> good_cands ds a P ->
    exists P', forall sfuel, (forall a, (length (times ds a) + 2 <= sfuel)%nat) -> fill cyc trip one sfuel ds (List.seq a n) P = Ret P'.
  Proof.
    intros Hc. induction n as [|n IH]; intros a P Hw Hg; cbn [List.seq fill]; [eauto|].
    destruct (C82_event (cyc a) (trip a) (small_of (ds_end ds - ds_start ds)) (one a) a (times ds a) (Hc a)) as (dyn & res & chs & trs & kept & _ & Hk & _).
    destruct (fill_step ds (length (times ds a) + 2) P a kept Hw Hg) as (P1 & E1 & Hw1 & Hg1); [apply Hk; lia|].
    destruct (IH (S a) P1 Hw1 Hg1) as (P' & E'). exists P'. intros sfuel Hs. destruct (Hk sfuel (Hs a)) as [_ Ek]. rewrite Ek. cbn [bind]. rewrite E1. apply E', Hs.
  Qed.
  Lemma empty_wf : well_formed (empty_pool : spool).
  Proof. split; cbn; try constructor; try discriminate. - intros (d & E & _). discriminate. - intros (c & E & _). discriminate. Qed.
  Lemma wf_NoDup_ids (P : spool) : well_formed P -> NoDup (map e_id (map pool_entry (p_cands P))).
  Proof.
    intros Hw. rewrite map_map. pose proof (seq_NoDup (p_next P) 0) as N. rewrite <- (wf_ids _ Hw) in N. exact N.
  Qed.
  Lemma wf_dget (P : spool) i c : well_formed P -> dget (p_cands P) i = Some c <-> In (i, c) (p_cands P).
  Proof.
    intros Hw. assert (Hn : NoDup (map fst (p_cands P))) by (rewrite (wf_ids _ Hw); apply seq_NoDup). split; [apply VerticalProofs.dget_In | intros I; apply VerticalProofs.In_dget; [exact Hn | exact I]].
  Qed.
  Lemma dcosts_get seq ds a : represents leA seq ds -> (a < length (ds_events ds))%nat -> dget (dcosts one ds) a = Some (one a).
  Proof.
    intros Hr Ha. assert (Hall : forall l : list (nat * Z), In a (map fst l) -> dget (map (fun p => (fst p, one (fst p))) l) a = Some (one a)).
    { induction l as [|[k n] l IH]; cbn [map dget fst In]; [intros []|]. destruct (eq_dec a k) as [->|]; [reflexivity|]. intros [E|I]; [congruence | apply IH, I]. }
    apply Hall. destruct (nth_error (ds_events ds) a) as [e|] eqn:E; [|apply nth_error_None in E; lia].
    apply in_map_iff. exists (a, Z.of_nat (length (times_of e seq))). split; [reflexivity|]. apply (rp_counts _ _ _ Hr). eauto.
  Qed.
  Definition fresh_occs (pre : list (nat * cycle)) (ac : nat * cycle) : list occ :=
    filter (fun o => negb (mem o (concat (map chosen_occs pre)))) (nodup eq_dec (chosen_occs ac)).
  Section Selected.
    Variable ds : @dataseq A.
    Variable P : spool.
    Hypothesis Hw : well_formed P.
    Hypothesis Hg : good_cands ds (length (ds_events ds)) P.
    Definition pick (i : nat) : nat * cycle := match dget (p_cands P) i with Some c => uncand c | None => (0%nat, no_cycle) end.
    Notation es := (map pool_entry (p_cands P)).
    Lemma pick_entry e : In e es -> e = (e_id e, (y_cost (snd (pick (e_id e))), chosen_occs (pick (e_id e)))) /\ cycle_of ds (pick (e_id e)) /\
      exists c, dget (p_cands P) (e_id e) = Some c /\ simple_patt c = chosen_patt (pick (e_id e)).
    Proof.
      intros I. apply in_map_iff in I. destruct I as ([i c] & <- & I). unfold e_id, pool_entry. cbn [fst snd]. pose proof (proj2 (wf_dget P i c Hw) I) as E.
      unfold pick. rewrite E. destruct (Hg i c I) as (a & y & -> & Ha & Hf). rewrite uncand_simple. cbn. split; [reflexivity|]. split; [split; [exact Ha | exact Hf]|].
      eexists. split; [reflexivity|]. unfold simple_patt, chosen_patt, simple_cand. cbn. reflexivity.
    Qed.
    Lemma covered_pick sel o : incl sel (map e_id es) -> In o (covered_by es sel) <-> In o (concat (map chosen_occs (map pick sel))).
    Proof.
      intros Hi. unfold covered_by. rewrite in_flat_map, in_concat. split.
      - intros (e & I & Io). destruct (mem_spec (e_id e) sel) as [Is|Is]; [|destruct Io]. destruct (pick_entry e I) as (E & _).
        exists (chosen_occs (pick (e_id e))). split; [apply in_map, in_map, Is|]. rewrite E in Io. exact Io.
      - intros (l & I & Io). rewrite map_map in I. apply in_map_iff in I. destruct I as (i & <- & I). pose proof (Hi i I) as Ie. apply in_map_iff in Ie.
        destruct Ie as (e & Ee & Ie). exists e. split; [exact Ie|]. rewrite Ee. destruct (mem_spec i sel) as [_|N]; [|contradiction].
        destruct (pick_entry e Ie) as (E & _). rewrite Ee in E. rewrite E. exact Io.
    Qed.
  End Selected.
  Lemma filter_ext_mem {X} `{EqDec X} (l1 l2 l : list X) : (forall o, In o l1 <-> In o l2) -> filter (fun o => negb (mem o l1)) l = filter (fun o => negb (mem o l2)) l.
  Proof.
    intros Hi. apply filter_ext. intros o. f_equal. destruct (mem_spec o l1) as [I|I], (mem_spec o l2) as [J|J]; try reflexivity; exfalso; [apply J, Hi, I | apply I, Hi, J].
  Qed.
  Lemma total_price_perm d l1 l2 : Permutation l1 l2 -> (total_price d l1 == total_price d l2)%Q.
  Proof. unfold total_price. induction 1; simpl; try lra. Qed.

  (* C82: the patterns kept.  Each is a cycle of one event: at least three of its occurrences, the
     median gap as the period and corrections that give back exactly these occurrences.  Each brings
     three or more occurrences that the earlier ones do not cover.  Together they cost no more than
     listing the occurrences they cover one by one. *)
  Theorem C82_patterns : forall seq ds sfuel cands sel ps, represents leA seq ds -> mine_simple cyc trip one sfuel ds = Ret (cands, sel, ps) ->
    exists chosen, ps = map chosen_patt chosen /\ Forall (cycle_of ds) chosen /\
      (forall ac, In ac chosen -> let '(t, t0, E) := chosen_patt ac in get_cov_seq t t0 E = Some (chosen_occs ac)) /\
      (forall pre ac post, chosen = pre ++ ac :: post -> (3 <= length (fresh_occs pre ac))%nat) /\
      (sum (map (fun ac => y_cost (snd ac)) chosen) <= sum (map (fun o => one (snd o)) (nodup eq_dec (concat (map chosen_occs chosen)))))%Q.
  Proof.
    intros seq ds sfuel cands sel ps Hrep. unfold mine_simple.
    destruct (fill cyc trip one sfuel ds (List.seq 0 (length (ds_events ds))) empty_pool) as [P|e|] eqn:Ef; cbn [bind]; try discriminate.
    apply fill_sound in Ef; [|apply empty_wf | intros i c []]. destruct Ef as [Hw Hg]. rewrite Nat.add_0_l in Hg.
    destruct (filter_cover (map pool_entry (p_cands P)) (dcosts one ds) 3) as [sel'|e|] eqn:Ec; cbn [bind]; try discriminate.
    pose proof (wf_NoDup_ids P Hw) as Hids. destruct (C42_selection _ _ _ _ Hids Ec) as (S1 & S2 & S3). pose proof (C42_saves _ _ _ _ Hids Ec) as S4.
    assert (Hsel : forall i, In i sel' -> exists e, In e (map pool_entry (p_cands P)) /\ e_id e = i).
    { intros i I. apply S2, in_map_iff in I. destruct I as (e & E & I). exists e. auto. }
    rewrite (map_out_map _ (fun i => chosen_patt (pick P i))).
    2: { intros i I. destruct (Hsel i I) as (e & Ie & <-). destruct (pick_entry ds P Hw Hg e Ie) as (_ & _ & c & E1 & E2). rewrite E1, E2. reflexivity. }
    cbn [bind]. intros E. injection E as <- <- <-. exists (map (pick P) sel'). split; [rewrite map_map; reflexivity|].
    assert (Hcy : Forall (cycle_of ds) (map (pick P) sel')).
    { rewrite Forall_map, Forall_forall. intros i I. destruct (Hsel i I) as (e & Ie & <-). apply (pick_entry ds P Hw Hg e Ie). }
    split; [exact Hcy|]. split; [|split].
    - intros ac I. rewrite Forall_forall in Hcy. destruct (Hcy ac I) as (_ & Hl & _). unfold chosen_patt. apply C40_simple_cycle. lia.
    - intros pre ac post E. apply map_eq_app in E. destruct E as (s1 & s2 & E & <- & E2). destruct s2 as [|i s2]; [discriminate|]. injection E2 as <- _.
      destruct (S3 _ _ _ E) as (e & Ie & Ei & (_ & Hcov & _)). destruct (pick_entry ds P Hw Hg e Ie) as (Ee & _).
      assert (Hf : fresh (map pool_entry (p_cands P)) s1 e = fresh_occs (map (pick P) s1) (pick P i)).
      { unfold fresh, fresh_occs. rewrite Ee, Ei. cbn [e_unc snd]. apply filter_ext_mem. intros o. apply (covered_pick ds P Hw Hg). intros j J. apply S2. rewrite E. apply in_app_iff. auto. }
      rewrite Hf in Hcov. lia.
    - assert (E1 : (total_cost (map pool_entry (p_cands P)) sel' == sum (map (fun ac => y_cost (snd ac)) (map (pick P) sel')))%Q).
      { unfold total_cost, sum. clear -Hsel Hids Hw Hg. induction sel' as [|i l IH]; cbn [fold_right map]; [lra|]. rewrite IH by (intros j J; apply Hsel; right; exact J).
        destruct (Hsel i (or_introl eq_refl)) as (e & Ie & <-). rewrite cost_of_spec by assumption. destruct (pick_entry ds P Hw Hg e Ie) as (Ee & _).
        assert (e_cost e = y_cost (snd (pick P (e_id e)))) as -> by (rewrite Ee at 1; reflexivity). lra. }
      rewrite <- E1. eapply Qle_trans; [exact S4|].
      assert (Hp : Permutation (nodup eq_dec (covered_by (map pool_entry (p_cands P)) sel')) (nodup eq_dec (concat (map chosen_occs (map (pick P) sel'))))).
      { apply NoDup_Permutation; [apply NoDup_nodup | apply NoDup_nodup|]. intros o. rewrite !nodup_In. apply (covered_pick ds P Hw Hg), S2. }
      rewrite (total_price_perm _ _ _ Hp). clear -Hcy Hrep.
      assert (Hpr : forall o, In o (nodup eq_dec (concat (map chosen_occs (map (pick P) sel')))) -> price (dcosts one ds) o = one (snd o)).
      { intros o I. apply nodup_In, in_concat in I. destruct I as (l & I1 & I2). apply in_map_iff in I1. destruct I1 as (ac & <- & I1). unfold chosen_occs in I2. apply in_map_iff in I2. destruct I2 as (t & <- & _).
        cbn [snd]. unfold price. cbn [snd]. rewrite Forall_forall in Hcy. destruct (Hcy ac I1) as [Ha _]. rewrite (dcosts_get seq ds (fst ac) Hrep Ha). reflexivity. }
      unfold total_price, sum. induction (nodup eq_dec (concat (map chosen_occs (map (pick P) sel')))) as [|o l IH]; cbn [fold_right map]; [lra|].
      rewrite (Hpr o (or_introl eq_refl)). specialize (IH (fun o' I => Hpr o' (or_intror I))). lra.
  Qed.

  (* C82: it ends when the occurrences of each event come in chronological order *)
  Theorem C82_terminates : forall seq ds, represents leA seq ds -> (forall a, chronological (times ds a)) ->
    exists r, forall sfuel, (forall a, (length (times ds a) + 2 <= sfuel)%nat) -> mine_simple cyc trip one sfuel ds = Ret r.
  Proof.
    intros seq ds Hrep Hc. unfold mine_simple.
    destruct (fill_ends ds (length (ds_events ds)) Hc 0 empty_pool empty_wf ltac:(intros i c [])) as (P & E).
    assert (exists sfuel, forall a, (length (times ds a) + 2 <= sfuel)%nat) as [sf Hsf].
    { assert (Hb : forall n, exists sf, forall a, (a < n)%nat -> (length (times ds a) + 2 <= sf)%nat).
      { induction n as [|n [sf IH]]; [exists 0%nat; lia|]. exists (Nat.max sf (length (times ds n) + 2)). intros a Ha. destruct (Nat.eq_dec a n) as [->|]; [lia|]. specialize (IH a ltac:(lia)). lia. }
      destruct (Hb (length (ds_events ds))) as [sf Hs]. exists (Nat.max sf 2). intros a. destruct (le_lt_dec (length (ds_events ds)) a) as [L|L]; [|specialize (Hs a L); lia].
      unfold times. rewrite (rp_none _ _ _ Hrep) by (apply nth_error_None; exact L). cbn. lia. }
    pose proof (fill_sound ds sf _ _ _ _ empty_wf ltac:(intros i c []) (E sf Hsf)) as [Hw Hg]. rewrite Nat.add_0_l in Hg. clear sf Hsf.
    pose proof (wf_NoDup_ids P Hw) as Hids.
    destruct (C42_terminates (map pool_entry (p_cands P)) (dcosts one ds) 3 Hids) as (sel & Es).
    { intros e o Ie Io. destruct (pick_entry ds P Hw Hg e Ie) as (Ee & (Ha & _) & _). rewrite Ee in Io. cbn [e_unc snd] in Io. unfold chosen_occs in Io. apply in_map_iff in Io. destruct Io as (t & <- & _). cbn [snd].
      rewrite (dcosts_get seq ds _ Hrep Ha). discriminate. }
    destruct (C42_selection _ _ _ _ Hids Es) as (_ & S2 & _).
    eexists. intros sfuel Hs. rewrite (E sfuel Hs). cbn [bind]. rewrite Es. cbn [bind].
    rewrite (map_out_map _ (fun i => chosen_patt (pick P i))); [cbn [bind]; reflexivity|].
    intros i I. apply S2, in_map_iff in I. destruct I as (e & <- & Ie). destruct (pick_entry ds P Hw Hg e Ie) as (_ & _ & c & E1 & E2). rewrite E1, E2. reflexivity.
  Qed.

  (* ------------------------------------------------------------ from the log *)
  Lemma shown_mono (m : @miner A) a b : (m_auto m = true -> 0 < 10 ^ Z.of_nat (m_n m) * m_div m) -> shown_time m a <= shown_time m b -> a <= b.
  Proof.
    unfold shown_time, unscale. destruct (m_auto m); [|auto]. intros Hp. specialize (Hp eq_refl). rewrite <- !Z.mul_assoc. intros Hl. apply Z.mul_le_mono_pos_r in Hl; assumption.
  Qed.
  Lemma fit_sequence auto log mine : exists m cb, fit leA auto log mine = Ret m /\ represents leA cb (m_ds m) /\ m_patts m = mine (m_ds m) /\
    map (fun p => (shown_time m (fst p), snd p)) cb = nodup eq_dec log /\ (forall a b, shown_time m a <= shown_time m b -> a <= b).
  Proof.
    unfold fit. set (serie := nodup eq_dec log).
    assert (Hgen : forall ts' n d, (if auto then map (unscale n d) ts' = map fst serie /\ 0 < 10 ^ Z.of_nat n * d else ts' = map fst serie) ->
      exists m cb, bind (dataseq_of_dict leA (group_occs (combine ts' (map snd serie)))) (fun ds =>
        Ret {| m_auto := auto; m_n := n; m_div := d; m_groups := group_occs (combine ts' (map snd serie)); m_ds := ds; m_patts := mine ds |}) = Ret m /\
      represents leA cb (m_ds m) /\ m_patts m = mine (m_ds m) /\ map (fun p => (shown_time m (fst p), snd p)) cb = serie /\ (forall a b, shown_time m a <= shown_time m b -> a <= b)).
    { intros ts' n d Hts. change (dataseq_of_dict leA (group_occs (combine ts' (map snd serie)))) with (dataseq_of_list leA (combine ts' (map snd serie))).
      set (cb := combine ts' (map snd serie)). destruct (C38_sequence leA leA_total leA_trans cb) as [s [-> Hr]]. cbn [bind]. eexists. exists cb. split; [reflexivity|].
      set (m0 := {| m_auto := auto; m_n := n; m_div := d; m_groups := _; m_ds := s; m_patts := _ |}). split; [exact Hr|]. split; [reflexivity|]. split.
      - assert (Hmf : map (shown_time m0) ts' = map fst serie).
        { unfold shown_time; simpl. destruct auto; [tauto|]. rewrite Hts. apply map_id. }
        unfold cb. generalize dependent (shown_time m0). intros g Hmf. clear -Hmf. clearbody serie. revert serie Hmf.
        induction ts' as [|t ts IH]; intros [|[u e] serie] Hmf; simpl in *; try discriminate; [reflexivity|].
        injection Hmf as E1 E2. rewrite E1. f_equal. apply IH, E2.
      - intros a b. apply shown_mono. unfold m0. cbn [m_auto m_n m_div]. intros ->. apply Hts. }
    destruct auto.
    - destruct (autoscale (map fst serie)) as [[[conv n] res] d] eqn:Ea. apply C35_lossless in Ea.
      destruct Ea as (E1 & _ & E3 & _). apply Hgen. split; [exact E1|].
      apply Z.mul_pos_pos; [apply Z.pow_pos_nonneg; lia|]. rewrite E3. destruct res; simpl; lia.
    - apply Hgen. reflexivity.
  Qed.
  Lemma times_log seq ds a o : represents leA seq ds -> (a < length (ds_events ds))%nat -> In o (times ds a) -> In (o, a) (ds_seql ds).
  Proof.
    intros Hr Ha Io. destruct (nth_error (ds_events ds) a) as [e|] eqn:Ee; [|apply nth_error_None in Ee; lia].
    unfold times in Io. rewrite (rp_one _ _ _ Hr a e Ee) in Io. apply In_times in Io.
    apply (in_map (fun p => (fst p, Some (snd p)))) in Io. apply (Permutation_in _ (Permutation_sym (rp_log _ _ _ Hr))) in Io. apply in_map_iff in Io.
    destruct Io as ([o' a'] & E & I). cbn [fst snd] in E. injection E as -> E. assert (a' = a) as ->; [|exact I].
    apply (proj1 (NoDup_nth_error (ds_events ds)) (rp_distinct _ _ _ Hr)); [apply nth_error_Some; congruence | congruence].
  Qed.
  Lemma nodup_sorted (R : Z * A -> Z * A -> Prop) l : StronglySorted R l -> StronglySorted R (nodup eq_dec l).
  Proof.
    induction 1 as [|x l Hs IH Hx]; cbn [nodup]; [constructor|]. destruct (in_dec eq_dec x l); [exact IH|]. constructor; [exact IH|].
    rewrite Forall_forall in *. intros y Iy. apply nodup_In in Iy. apply Hx, Iy.
  Qed.
  Lemma sequence_chrono (g : Z -> Z) (log cb : list (Z * A)) e : (forall a b, g a <= g b -> a <= b) -> StronglySorted (fun u v => fst u <= fst v) log ->
    map (fun p => (g (fst p), snd p)) cb = nodup eq_dec log -> StronglySorted Z.lt (times_of e cb).
  Proof.
    intros Hg Hs E. assert (Hs' : StronglySorted (fun u v => fst u <= fst v) (map (fun p : Z * A => (g (fst p), snd p)) cb)) by (rewrite E; apply nodup_sorted, Hs).
    assert (Hn : NoDup (map (fun p : Z * A => (g (fst p), snd p)) cb)) by (rewrite E; apply NoDup_nodup). apply NoDup_map_inv in Hn. clear E Hs.
    unfold times_of. induction cb as [|[t x] cb IH]; cbn [filter map]; [constructor|]. cbn [map] in Hs'. inversion Hs' as [|? ? Hs1 Hx]; subst. inversion Hn as [|? ? Hn1 Hn2]; subst.
    specialize (IH Hs1 Hn2). cbn [snd]. destruct (eqd x e) eqn:Ex; [|exact IH]. apply (proj1 (eqd_true _ _)) in Ex. subst x. cbn [map fst]. constructor; [exact IH|].
    rewrite Forall_forall in *. intros t' I. apply In_times in I. assert (t <> t') by (intros ->; contradiction).
    specialize (Hx (g t', e)). cbn [fst] in Hx. assert (t <= t') by (apply Hg, Hx, in_map_iff; exists (t', e); auto). lia.
  Qed.

  (* the function of the data that fit calls; [sfuel] bounds the inner loop of the search *)
  Definition miner_of (sfuel : nat) (ds : @dataseq A) : list patt := match mine_simple cyc trip one sfuel ds with Ret (_, _, ps) => ps | _ => [] end.
  Variable sort_time sort_event : frame A -> frame A.

  (* C82: whatever the log, the patterns of a fit that ends speak about it *)
  Theorem C82_about_log : forall auto log sfuel m r, fit leA auto log (miner_of sfuel) = Ret m -> mine_simple cyc trip one sfuel (m_ds m) = Ret r -> about_log m.
  Proof.
    intros auto log sfuel m [[cands sel] ps] Hfit Hmine. destruct (fit_sequence auto log (miner_of sfuel)) as (m' & cb & E & Hrep & Ep & _). rewrite Hfit in E. injection E as <-.
    unfold miner_of in Ep. rewrite Hmine in Ep. destruct (C82_patterns cb (m_ds m) sfuel cands sel ps Hrep Hmine) as (chosen & -> & Hcy & Hcov & _).
    intros p I. rewrite Ep in I. apply in_map_iff in I. destruct I as (ac & <- & I). exists (chosen_occs ac). specialize (Hcov ac I).
    rewrite Forall_forall in Hcy. destruct (Hcy ac I) as (Ha & Hl & _ & Hi & _). split; [exact Hcov|]. unfold chosen_occs. split.
    - destruct (y_occs (snd ac)); cbn in *; [lia | discriminate].
    - intros x Ix. apply in_map_iff in Ix. destruct Ix as (o & <- & Io). eapply times_log; [exact Hrep | exact Ha | apply Hi, Io].
  Qed.

  (* C82: on a log in chronological order the fit ends, and what it keeps is lossless: the events it
     reconstructs and the residual ones are together the events of the log, none twice. *)
  Theorem C82_lossless : forall auto log, sorts sort_time -> StronglySorted (fun u v => fst u <= fst v) log ->
    exists N, forall sfuel, (N <= sfuel)%nat -> exists m cands sel, fit leA auto log (miner_of sfuel) = Ret m /\
      mine_simple cyc trip one sfuel (m_ds m) = Ret (cands, sel, m_patts m) /\ about_log m /\
      (m_patts m <> [] -> (exists x, In x (ds_seql (m_ds m)) /\ ~ covered m x) ->
       exists R S, reconstruct sort_time sort_event m None ByTime true = Ret R /\ get_residuals sort_time sort_event m None ByTime = Ret S /\
         (forall u, In u log <-> In u (map snd R) \/ In u (map snd S)) /\ (forall u, In u (map snd R) -> ~ In u (map snd S)) /\
         NoDup (map snd R) /\ NoDup (map snd S) /\ by_time R /\ by_time S).
  Proof.
    intros auto log Hsort Hs. destruct (fit_sequence auto log (fun _ => [])) as (m0 & cb & E0 & Hrep & _ & Hshow & Hmono).
    assert (Hch : forall a, chronological (times (m_ds m0) a)).
    { intros a. apply chrono_sorted. unfold times. destruct (nth_error (ds_events (m_ds m0)) a) as [e|] eqn:Ee.
      - rewrite (rp_one _ _ _ Hrep a e Ee). eapply sequence_chrono; eassumption.
      - rewrite (rp_none _ _ _ Hrep a Ee). constructor. }
    destruct (C82_terminates cb (m_ds m0) Hrep Hch) as [[[cands sel] ps] Hr].
    assert (Hsame : forall mine m, fit leA auto log mine = Ret m -> m_ds m = m_ds m0).
    { intros mine m. revert E0. unfold fit. destruct (if auto then _ else _) as [[ts' n] d]. destruct (dataseq_of_dict leA _) as [ds|e|]; cbn [bind]; try discriminate.
      intros Ea Eb. injection Ea as <-. injection Eb as <-. reflexivity. }
    exists (S (S (length cb))). intros sfuel Hf.
    destruct (fit_sequence auto log (miner_of sfuel)) as (m & cb' & E & Hrep' & Ep & _). pose proof (Hsame _ _ E) as Eds. exists m, cands, sel. split; [exact E|].
    assert (Hm : mine_simple cyc trip one sfuel (m_ds m) = Ret (cands, sel, ps)).
    { rewrite Eds. apply Hr. intros a. assert (length (times (m_ds m0) a) <= length cb)%nat; [|lia]. unfold times. destruct (nth_error (ds_events (m_ds m0)) a) as [e|] eqn:Ee.
      - rewrite (rp_one _ _ _ Hrep a e Ee). unfold times_of. rewrite map_length. apply filter_le.
      - rewrite (rp_none _ _ _ Hrep a Ee). cbn. lia. }
    assert (Eps : m_patts m = ps) by (rewrite Ep; unfold miner_of; rewrite Hm; reflexivity).
    split; [rewrite Eps; exact Hm|]. assert (Hab : about_log m) by (eapply C82_about_log; eassumption). split; [exact Hab|].
    intros Hne Hun. exact (C43_lossless_partial leA leA_total leA_trans sort_time sort_event auto log (miner_of sfuel) m Hsort E Hab Hne Hun).
  Qed.
End Mine.
Print Assumptions C82_patterns.
Print Assumptions C82_terminates.
Print Assumptions C82_about_log.
Print Assumptions C82_lossless.

(* Not chronological: this log of one event, seven distinct times, makes the search loop for ever,
   whatever the code lengths are. *)
Lemma hang_walk10 trip n s : (3 <= n)%nat -> walk trip (small_of 10) 8 n 3 [5; -1; -2] [-5; 1; 2] 0 0 [] s = NoFuel.
Proof.
  intros Hn.
  assert (E1 : seen_loop n 5 5 [] 0 = Ret ([], 0)) by (destruct n; [lia | reflexivity]).
  assert (E2 : seen_loop n (-1) (-1) [5] 0 = Ret ([5], 1)) by (destruct n as [|[|[|n]]]; [lia | lia | lia | reflexivity]).
  assert (E3 : seen_loop n (-2) (-2) [5; -1] 0 = NoFuel) by (apply seen_stuck; auto).
  cbn -[seen_loop note]. rewrite E1. cbn -[seen_loop note]. rewrite E2. cbn -[seen_loop note]. rewrite E3. reflexivity.
Qed.
Lemma hang_fold10 trip cyc sfuel et ec : extract_fold trip cyc (small_of 10) sfuel hang_occs et ec None = NoFuel.
Proof.
  change (extract_fold trip cyc (small_of 10) sfuel hang_occs et ec None) with (fold_sub trip cyc (small_of 10) hang_occs sfuel et ec 0 None).
  unfold fold_sub. change (List.seq 1 (length hang_occs - 1)) with [1; 2; 3; 4; 5; 6]%nat.
  cbn [centres].
  destruct sfuel as [|[|[|f]]]; [reflexivity | reflexivity | reflexivity|].
  assert (E1 : exists s, walk trip (small_of 10) (S (length hang_occs)) (S (S (S f))) 1 (aft hang_occs 1 None) (bef hang_occs 1 None) 0 0 [] no_pairs = Ret s) by (vm_compute; eauto).
  destruct E1 as [s1 E1]. rewrite E1. cbn [bind].
  assert (E2 : forall s, walk trip (small_of 10) (S (length hang_occs)) (S (S (S f))) 2 (aft hang_occs 2 None) (bef hang_occs 2 None) 0 0 [] s = Ret s) by (intros s; vm_compute; reflexivity).
  rewrite E2. cbn [bind]. rewrite (hang_walk10 trip (S (S (S f)))) by lia. reflexivity.
Qed.
Definition hang_log : list (Z * nat) := map (fun t => (t, 0%nat)) hang_occs.
Theorem C82_hang_refuted : NoDup hang_log /\ exists ds, dataseq_of_list Nat.leb hang_log = Ret ds /\
  forall cyc trip one sfuel, mine_simple cyc trip one sfuel ds = NoFuel.
Proof.
  split; [repeat constructor; cbn; intuition discriminate|]. eexists. split; [vm_compute; reflexivity|]. intros cyc trip one sfuel.
  unfold mine_simple. cbn [ds_events length List.seq fill]. unfold times. match goal with |- context [get_sequence ?d ?k] => let v := eval vm_compute in (get_sequence d k) in change (get_sequence d k) with v end.
  cbv match. change [12; 11; 5; 10; 15; 9; 8] with hang_occs. cbn [ds_end ds_start]. change (15 - 5) with 10.
  unfold extract_alpha. destruct (dyn_spec (cyc 0%nat) (one 0%nat) hang_occs) as (dyn & residual & Ed & _ & _ & D2). rewrite Ed. cbn [bind].
  assert (kept_occs hang_occs dyn = hang_occs) as ->.
  { unfold kept_occs. assert (flat_map inner dyn = []) as ->; [|reflexivity]. clear Ed. induction D2 as [|c dyn (a & b & Hab & Eo) D2 IH]; cbn [flat_map]; [reflexivity|]. rewrite IH, app_nil_r.
    unfold inner. destruct (Nat.ltb_spec 10 (length (y_occs c))) as [L|]; [|reflexivity]. rewrite Eo in L. unfold occs_range in L. rewrite map_length, seq_length in L. cbn in Hab. lia. }
  rewrite hang_fold10. reflexivity.
Qed.
Print Assumptions C82_hang_refuted.

(* A concrete case: event 0 every ten units with one late occurrence, event 1 three times at
   unrelated moments.  Prices: three bits for an occurrence alone, five for a cycle and one for
   each unit of correction. *)
Definition case_cyc (alpha : nat) (p : Z) (os : list Z) : Q := inject_Z (5 + fold_right Z.add 0 (map Z.abs (compute_E os p))).
Definition case_trip (alpha : nat) (dp dE : Z) : Q := inject_Z (5 + dE).
Definition case_log : list (Z * nat) := [(0, 0%nat); (3, 1%nat); (10, 0%nat); (21, 0%nat); (30, 0%nat); (33, 1%nat); (40, 0%nat); (41, 1%nat)].
Example C82_case : exists ds cands, dataseq_of_list Nat.leb case_log = Ret ds /\
  mine_simple case_cyc case_trip (fun _ => 3%Q) 20 ds = Ret (cands, [1%nat], [(simple_tree 0%nat 5 10, 0, [0; 1; -1; 0])]) /\
  map (fun c => (event_of (snd c), c_occs (snd c))) cands = [(0%nat, [0; 21; 40]); (0%nat, [0; 10; 21; 30; 40])].
Proof. eexists. eexists. split; [vm_compute; reflexivity|]. split; [vm_compute; reflexivity|]. vm_compute; reflexivity. Qed.
(* and the hypotheses of C82_lossless: this log is in chronological order, a pattern is kept, and
   the occurrences of event 1 stay uncovered *)
Example C82_lossless_case : StronglySorted (fun u v => fst u <= fst v) case_log /\
  exists m, fit Nat.leb false case_log (miner_of case_cyc case_trip (fun _ => 3%Q) 20) = Ret m /\ m_patts m <> [] /\ In (3, 1%nat) (ds_seql (m_ds m)) /\ ~ covered m (3, 1%nat).
Proof.
  split; [repeat constructor; cbn; lia|]. eexists. split; [vm_compute; reflexivity|]. cbn [m_patts m_ds ds_seql]. split; [discriminate|]. split; [cbn; auto|].
  intros (p & oc & [<-|[]] & E & Io). vm_compute in E. injection E as <-. cbn in Io. intuition discriminate.
Qed.
