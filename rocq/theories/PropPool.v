(* C47: the candidate pool. *)
From Verif Require Import Prelude CheckModel LCMModel PeriodModel PropPeriod PoolModel SegModel PropSeg.
From Coq Require Import QArith.
Local Open Scope nat_scope.

Section PoolProofs.
  Context {mK MK NK Bd : Type} `{EqDec mK} `{EqDec MK} `{EqDec NK}.
  Notation cand := (cand mK MK Bd).
  Notation pool := (pool mK MK NK Bd).
  (* ------------------------------------------------------------ specification *)
  Definition keys (c : cand) : mK * MK := (c_minor c, c_major c).
  Definition found (P : pool) (k : mK * MK) (i : nat) : Prop :=
    exists d, dget (p_map P) (fst k) = Some d /\ dget d (snd k) = Some i.
  Record well_formed (P : pool) : Prop := {
    wf_ids : map fst (p_cands P) = seq 0 (p_next P);
    wf_keys : NoDup (map (fun ic => keys (snd ic)) (p_cands P));
    wf_map : forall k i, found P k i <-> exists c, dget (p_cands P) i = Some c /\ keys c = k;
    wf_sorted : match p_rows P, p_sorted P with
                | None, PNone => True
                | Some rows, PList l => Permutation l (seq 0 (length rows)) /\ ordered (key_at rows) l
                | _, _ => False
                end;
    wf_rows : forall rows r, p_rows P = Some rows -> In r rows -> r_cid r < p_next P }.
  (* the candidates of [ps] whose keys are neither in [seen] nor on an earlier one *)
  Fixpoint new_ones (seen : list (mK * MK)) (ps : list cand) : list cand :=
    match ps with
    | [] => []
    | c :: t => if mem (keys c) seen then new_ones seen t else c :: new_ones (keys c :: seen) t
    end.
  Definition pool_keys (P : pool) : list (mK * MK) := map (fun ic => keys (snd ic)) (p_cands P).
  Definition batch_only (o : op mK MK NK Bd) : Prop := match o with OpOne _ _ => False | _ => True end.

  (* ------------------------------------------------------------------ proofs *)
  Lemma dset_new {K V} `{EqDec K} (d : dict K V) k v : ~ In k (dkeys d) -> dset d k v = d ++ [(k, v)].
  Proof.
    induction d as [|[k0 v0] d IH]; intros Hn; simpl; [reflexivity|]. destruct (eq_dec k k0) as [->|].
    - exfalso. apply Hn. left. reflexivity.
    - f_equal. apply IH. intros Hin. apply Hn. right. exact Hin.
  Qed.
  Lemma dget_seq (d : dict nat cand) n i c : map fst d = seq 0 n -> dget d i = Some c <-> nth_error d i = Some (i, c).
  Proof.
    intros Hs. assert (Hgen : forall (d : dict nat cand) s m, map fst d = seq s m -> forall i, dget d (s + i) = option_map snd (nth_error d i)).
    { clear. induction d as [|[k v] d IH]; intros s m Hs i; [destruct i; reflexivity|].
      destruct m as [|m]; [discriminate|]. simpl in Hs. injection Hs as -> Hs. simpl. destruct i as [|i].
      - rewrite Nat.add_0_r. destruct (eq_dec s s); [reflexivity | congruence].
      - destruct (eq_dec (s + S i) s); [lia|]. simpl. rewrite <- (IH (S s) m Hs i). f_equal. lia. }
    rewrite <- (Nat.add_0_l i) at 1. rewrite (Hgen d 0 n Hs i).
    assert (Hi : forall x, nth_error d i = Some x -> fst x = i).
    { intros x Hx. apply (map_nth_error fst) in Hx. rewrite Hs in Hx.
      assert (i < n). { rewrite <- (seq_length n 0). apply nth_error_Some. congruence. }
      rewrite nth_error_nth' with (d := 0) in Hx by (rewrite seq_length; assumption). rewrite seq_nth in Hx by assumption.
      simpl in Hx. congruence. }
    destruct (nth_error d i) as [[k v]|] eqn:E; simpl; [|split; discriminate].
    specialize (Hi _ eq_refl). simpl in Hi. subst k. split; congruence.
  Qed.
  Lemma known_iff P c : well_formed P ->
    (match dget (p_map P) (c_minor c) with
       | Some d => match dget d (c_major c) with Some _ => true | None => false end
       | None => false end) = mem (keys c) (pool_keys P).
  Proof.
    intros Hw. destruct (mem_spec (keys c) (pool_keys P)) as [Hin|Hin].
    - unfold pool_keys in Hin. apply in_map_iff in Hin. destruct Hin as ([i c'] & Heq & Hin). simpl in Heq.
      assert (Hf : found P (keys c) i).
      { apply wf_map; [exact Hw|]. exists c'. split; [|exact Heq].
        apply In_nth_error in Hin. destruct Hin as [j Hj]. apply (dget_seq _ _ _ _ (wf_ids _ Hw)).
        pose proof Hj as Hj'. apply (map_nth_error fst) in Hj. rewrite (wf_ids _ Hw) in Hj.
        assert (j < p_next P). { rewrite <- (seq_length (p_next P) 0). apply nth_error_Some. congruence. }
        rewrite nth_error_nth' with (d := 0) in Hj by (rewrite seq_length; assumption). rewrite seq_nth in Hj by assumption.
        simpl in Hj. injection Hj as <-. exact Hj'. }
      destruct Hf as (d & Hd & Hd'). simpl in Hd, Hd'. rewrite Hd, Hd'. reflexivity.
    - destruct (dget (p_map P) (c_minor c)) as [d|] eqn:E; [|reflexivity].
      destruct (dget d (c_major c)) as [i|] eqn:E'; [|reflexivity]. exfalso. apply Hin.
      assert (Hf : found P (keys c) i) by (exists d; split; assumption).
      apply (wf_map _ Hw) in Hf. destruct Hf as (c' & Hc & Hk). apply (dget_seq _ _ _ _ (wf_ids _ Hw)) in Hc.
      apply nth_error_In in Hc. unfold pool_keys. rewrite <- Hk. apply (in_map (fun ic => keys (snd ic)) _ _ Hc).
  Qed.
  Lemma record_spec P c nk : well_formed P ->
    match record_cand P c nk with
    | None => mem (keys c) (pool_keys P) = true
    | Some P' => mem (keys c) (pool_keys P) = false /\ well_formed (bump_next P') /\
        p_cands P' = p_cands P ++ [(p_next P, c)] /\ p_next P' = p_next P /\ p_rows P' = p_rows P /\ p_sorted P' = p_sorted P
    end.
  Proof.
    intros Hw. unfold record_cand. rewrite (known_iff P c Hw). destruct (mem (keys c) (pool_keys P)) eqn:Em; [reflexivity|].
    split; [reflexivity|]. simpl.
    assert (Hnew : dset (p_cands P) (p_next P) c = p_cands P ++ [(p_next P, c)]).
    { apply dset_new. unfold dkeys. rewrite (wf_ids _ Hw), in_seq. lia. }
    split; [|rewrite Hnew; auto].
    assert (Hkn : ~ In (keys c) (pool_keys P)) by (apply mem_false; exact Em).
    split; unfold bump_next; cbn [p_cands p_next p_rows p_sorted p_map]; rewrite ?Hnew.
    - rewrite map_app, (wf_ids _ Hw), seq_S. reflexivity.
    - rewrite map_app. apply NoDup_app_intro; [apply (wf_keys _ Hw) | repeat constructor; intros [] |].
      intros k Hk [<-|[]]. contradiction.
    - intros k i. unfold found. simpl.
      assert (Hids' : map fst (p_cands P ++ [(p_next P, c)]) = seq 0 (p_next P + 1)).
      { rewrite map_app, (wf_ids _ Hw), seq_app. reflexivity. }
      assert (Hr : (exists c0, dget (p_cands P ++ [(p_next P, c)]) i = Some c0 /\ keys c0 = k) <->
                   (exists c0, dget (p_cands P) i = Some c0 /\ keys c0 = k) \/ (i = p_next P /\ keys c = k)).
      { assert (Hlen : length (p_cands P) = p_next P).
        { rewrite <- (map_length fst), (wf_ids _ Hw). apply seq_length. }
        split.
        - intros (c0 & Hc & Hk). apply (dget_seq _ _ _ _ Hids') in Hc.
          destruct (lt_dec i (p_next P)) as [Hlt|Hge].
          + left. exists c0. split; [|exact Hk]. apply (dget_seq _ _ _ _ (wf_ids _ Hw)).
            rewrite nth_error_app1 in Hc by lia. exact Hc.
          + right. rewrite nth_error_app2 in Hc by lia. destruct (i - length (p_cands P)) as [|j] eqn:Ej; simpl in Hc.
            * injection Hc as <- <-. auto.
            * destruct j; discriminate.
        - intros [(c0 & Hc & Hk)|[-> Hk]].
          + exists c0. split; [|exact Hk]. apply (dget_seq _ _ _ _ Hids'). apply (dget_seq _ _ _ _ (wf_ids _ Hw)) in Hc.
            rewrite nth_error_app1; [exact Hc|]. apply nth_error_Some. congruence.
          + exists c. split; [|exact Hk]. apply (dget_seq _ _ _ _ Hids'). rewrite nth_error_app2 by lia.
            rewrite Hlen, Nat.sub_diag. reflexivity. }
      rewrite Hr, <- (wf_map _ Hw). unfold found. clear Hr Hids'. split.
      + intros (d & Hd & Hi). rewrite dget_dset in Hd. destruct (eq_dec (fst k) (c_minor c)) as [Hm|Hm].
        * injection Hd as <-. rewrite dget_dset in Hi. destruct (eq_dec (snd k) (c_major c)) as [HM|HM].
          { right. injection Hi as <-. split; [reflexivity|]. destruct k; unfold keys; simpl in *; congruence. }
          { left. unfold dget_or in Hi. rewrite <- Hm in Hi. destruct (dget (p_map P) (fst k)) as [d|]; [eauto | discriminate]. }
        * left. eauto.
      + intros [(d & Hd & Hi)|[-> <-]].
        * rewrite dget_dset. destruct (eq_dec (fst k) (c_minor c)) as [Hm|Hm]; [|eauto].
          eexists. split; [reflexivity|]. rewrite dget_dset. destruct (eq_dec (snd k) (c_major c)) as [HM|HM].
          { exfalso. pose proof (known_iff P c Hw) as Hkn'. rewrite Em, <- Hm, Hd, <- HM, Hi in Hkn'. discriminate. }
          { unfold dget_or. rewrite <- Hm, Hd. exact Hi. }
        * rewrite dget_dset. simpl. destruct (eq_dec (c_minor c) (c_minor c)); [|congruence].
          eexists. split; [reflexivity|]. rewrite dget_dset. destruct (eq_dec (c_major c) (c_major c)); [reflexivity | congruence].
    - apply (wf_sorted _ Hw).
    - intros rows r Hr Hin. apply (wf_rows _ Hw rows r Hr) in Hin. lia.
  Qed.
  Lemma props_cid (c : cand) cid k mo r : In r (get_props c cid k mo) -> r_cid r = cid.
  Proof. unfold get_props. intros Hin. apply in_map_iff in Hin. destruct Hin as (x & <- & _). reflexivity. Qed.

  Lemma loop_spec : forall ps P nk one props, well_formed P ->
    (forall r, In r props -> r_cid r < p_next P) ->
    let '(P', out) := add_loop P ps nk one props in
    well_formed P' /\ p_rows P' = p_rows P /\ p_sorted P' = p_sorted P /\
    (forall l, out = Ret l -> forall r, In r l -> r_cid r < p_next P') /\ p_next P <= p_next P' /\
    out <> NoFuel /\
    exists k, let news := new_ones (pool_keys P) ps in
    p_cands P' = p_cands P ++ combine (seq (p_next P) k) (firstn k news) /\ p_next P' = p_next P + k /\ k <= length news /\
    (one = None -> out <> Exn AttributeError) /\
    (forall e, out = Exn e -> e = AttributeError) /\
    (forall l, out = Ret l -> k = length news).
  Proof.
    induction ps as [|c ps IH]; intros P nk one props Hw Hp; simpl.
    { split; [exact Hw|]. repeat split; try discriminate; auto.
      { intros l Hl. injection Hl as <-. exact Hp. }
      exists 0. simpl. rewrite app_nil_r. repeat split; auto; try discriminate. }
    pose proof (record_spec P c nk Hw) as Hr. destruct (record_cand P c nk) as [P'|].
    - destruct Hr as (Hm & Hw' & Hc & Hn & Hrows & Hsort). rewrite Hm.
      set (mo := match one with Some o => match c_cost c with Some cost => Some (Z.min _ _) | None => None end | None => None end).
      specialize (IH (bump_next P') nk one (props ++ get_props c (p_next P) (index_of (p_nkeys P') nk) mo) Hw').
      assert (Hp' : forall r, In r (props ++ get_props c (p_next P) (index_of (p_nkeys P') nk) mo) -> r_cid r < p_next (bump_next P')).
      { intros r Hin. simpl. rewrite Hn. apply in_app_iff in Hin. destruct Hin as [Hin|Hin]; [apply Hp in Hin; lia|].
        apply props_cid in Hin. lia. }
      specialize (IH Hp'). destruct (add_loop _ _ _ _ _) as [P2 out].
      destruct IH as (A & B & C & D & E & F & k & G1 & G2 & G3 & G4 & G5 & G6). simpl in *.
      assert (Hkeys : forall l, new_ones (pool_keys (bump_next P')) l = new_ones (keys c :: pool_keys P) l).
      { intros l. assert (Hset : forall s1 s2, (forall x, mem x s1 = mem x s2) -> new_ones s1 l = new_ones s2 l).
        { clear. induction l as [|a l IHl]; intros s1 s2 Hs; simpl; [reflexivity|]. rewrite Hs.
          destruct (mem (keys a) s2); [apply IHl, Hs|]. f_equal. apply IHl. intros x. simpl. rewrite Hs. reflexivity. }
        apply Hset. intros x. unfold pool_keys. simpl. rewrite Hc, map_app, mem_app. simpl. rewrite orb_false_r, orb_comm. reflexivity. }
      rewrite Hkeys in *.
      split; [exact A|]. split; [congruence|]. split; [congruence|]. split; [exact D|]. split; [rewrite Hn in E; lia|]. split; [exact F|].
      exists (S k). simpl. rewrite G1, Hc, Hn, <- app_assoc. simpl. repeat split; auto; try lia.
      intros l Hl. rewrite (G6 l Hl). reflexivity.
    - destruct one as [q|].
      + rewrite Hr. split; [exact Hw|]. repeat split; auto; try discriminate.
        exists 0. simpl. rewrite app_nil_r. repeat split; auto; try discriminate; try lia. congruence.
      + rewrite Hr. apply IH; assumption.
  Qed.
  Lemma ordered_ext rows rows' l : (forall i, In i l -> i < length rows) -> ordered (key_at rows) l -> ordered (key_at (rows ++ rows')) l.
  Proof.
    unfold ordered. intros Hl Ho. induction Ho as [|x l Hs IH Hx]; constructor.
    - apply IH. intros i Hi. apply Hl. right. exact Hi.
    - rewrite Forall_forall in *. intros y Hy. specialize (Hx y Hy). unfold key_at in *.
      rewrite !app_nth1; [exact Hx | apply Hl; right; exact Hy | apply Hl; left; reflexivity].
  Qed.
  Lemma nkey_wf P nk : well_formed P -> well_formed (with_nkey P nk).
  Proof. intros [A B C D E]. split; auto. Qed.

  Theorem C47_add : forall (P : pool) ps nk one, well_formed P ->
    let '(P', out) := add_cands P ps nk one in
    well_formed P' /\
    exists k, let news := new_ones (pool_keys P) ps in
      p_cands P' = p_cands P ++ combine (seq (p_next P) k) (firstn k news) /\ p_next P' = p_next P + k /\
      (out = Ret tt -> k = length news) /\ (one = None -> out = Ret tt).
  Proof.
    intros P ps nk one Hw. unfold add_cands.
    pose proof (loop_spec ps (with_nkey P nk) nk one [] (nkey_wf P nk Hw) ltac:(intros r [])) as HL.
    destruct (add_loop (with_nkey P nk) ps nk one []) as [P' out].
    destruct HL as (A & B & C & D & E & F & k & G1 & G2 & G3 & G4 & G5 & G6). cbn zeta in *.
    change (pool_keys (with_nkey P nk)) with (pool_keys P) in *.
    change (p_cands (with_nkey P nk)) with (p_cands P) in *. change (p_next (with_nkey P nk)) with (p_next P) in *.
    change (p_rows (with_nkey P nk)) with (p_rows P) in *. change (p_sorted (with_nkey P nk)) with (p_sorted P) in *.
    destruct out as [[|r0 props0]|e|]; [| |  |congruence].
    - split; [exact A|]. exists k. repeat split; auto. intros _. apply (G6 _ eq_refl).
    - set (props := r0 :: props0) in *. pose proof (wf_sorted _ A) as Hs. specialize (D props eq_refl).
      assert (Hfin : forall s rows', (match s with PList l => Permutation l (seq 0 (length rows')) /\ ordered (key_at rows') l | _ => False end) ->
        (forall r, In r rows' -> r_cid r < p_next P') ->
        well_formed (set_rows P' rows' s) /\
        exists k, let news := new_ones (pool_keys P) ps in
          p_cands (set_rows P' rows' s) = p_cands P ++ combine (seq (p_next P) k) (firstn k news) /\
          p_next (set_rows P' rows' s) = p_next P + k /\
          (@Ret unit tt = Ret tt -> k = length news) /\ (one = None -> @Ret unit tt = Ret tt)).
      { intros s rows' Hs' Hr'. split.
        - destruct A as [A1 A2 A3 A4 A5]. split; [exact A1 | exact A2 | exact A3 | exact Hs' |].
          intros rows r Heq Hin. simpl in Heq. injection Heq as <-. apply Hr', Hin.
        - exists k. simpl. repeat split; auto. intros _. apply (G6 _ eq_refl). }
      destruct (p_rows P') as [rows|] eqn:Erows.
      + destruct (p_sorted P') as [| |l] eqn:Esort; try contradiction. destruct Hs as [Hs1 Hs2].
        apply Hfin.
        * set (fresh := sort_pids (key_at (rows ++ props)) (seq (length rows) (length props))).
          destruct (C37_sort (key_at (rows ++ props)) (seq (length rows) (length props))) as [Ho Hp]. fold fresh in Ho, Hp.
          destruct (C37_merge (key_at (rows ++ props)) l fresh) as (M1 & M2 & _); [|exact Ho|].
          { apply ordered_ext; [|exact Hs2]. intros i Hi. apply (Permutation_in _ Hs1) in Hi. apply in_seq in Hi. lia. }
          split; [|exact M1]. rewrite M2, Hs1, Hp. rewrite app_length, seq_app. reflexivity.
        * intros r Hin. apply in_app_iff in Hin. destruct Hin as [Hin|Hin]; [|apply D, Hin]. apply (wf_rows _ A rows r Erows Hin).
      + apply Hfin; [|exact D]. destruct (C37_sort (key_at props) (seq 0 (length props))) as [Ho Hp]. split; assumption.
    - split; [exact A|]. exists k. repeat split; auto; try discriminate. intros Hone. exfalso.
      apply (G4 Hone). rewrite (G5 e eq_refl). reflexivity.
  Qed.

  Theorem C47_history_partial : forall os : list (op mK MK NK Bd), Forall batch_only os -> well_formed (run_ops empty_pool os).
  Proof.
    intros os Hos. unfold run_ops.
    assert (Hgen : forall P, well_formed P -> well_formed (fold_left run_op os P)).
    { induction Hos as [|o os Ho Hos IH]; intros P Hw; simpl; [exact Hw|]. apply IH. destruct o as [ps nk one|c nk|]; simpl.
      - pose proof (C47_add P ps nk one Hw) as HA. destruct (add_cands P ps nk one) as [P' out]. apply HA.
      - destruct Ho.
      - destruct Hw as [A B C D E]. split; auto. }
    apply Hgen. split; simpl; try constructor; try discriminate.
    - intros (d & Hd & _). discriminate.
    - intros (c & Hc & _). discriminate.
  Qed.

  (* adding candidates already present changes neither the candidates nor their properties *)
  Theorem C47_duplicates : forall (P : pool) ps nk, well_formed P ->
    (forall c, In c ps -> In (keys c) (pool_keys P)) ->
    let '(P', out) := add_cands P ps nk None in
    out = Ret tt /\ p_cands P' = p_cands P /\ p_next P' = p_next P /\ p_map P' = p_map P /\
    p_rows P' = p_rows P /\ p_sorted P' = p_sorted P /\ p_new_cids P' = p_new_cids P.
  Proof.
    intros P ps nk Hw Hin. unfold add_cands.
    assert (Hl : forall ps, (forall c, In c ps -> In (keys c) (pool_keys P)) -> add_loop (with_nkey P nk) ps nk None [] = (with_nkey P nk, Ret [])).
    { clear ps Hin. induction ps as [|c ps IH]; intros Hin; simpl; [reflexivity|].
      pose proof (record_spec (with_nkey P nk) c nk (nkey_wf P nk Hw)) as Hr. destruct (record_cand (with_nkey P nk) c nk) as [P'|].
      - exfalso. destruct Hr as [Hr _]. apply mem_false in Hr. apply Hr. apply (Hin c). left; reflexivity.
      - apply IH. intros c' Hc'. apply Hin. right; exact Hc'. }
    rewrite (Hl ps Hin). simpl. repeat split; reflexivity.
  Qed.

  (* which candidates are reported as new under a key: those added since the last reset *)
  Definition new_under (P : pool) (nk : NK) : list nat := dget_or (p_new_cids P) nk [].
  Definition minors_under (P : pool) (nk : NK) : list mK := dget_or (p_new_minor P) nk [].

  Lemma new_loop : forall ps P nk one props P' l, well_formed P -> add_loop P ps nk one props = (P', Ret l) ->
    let news := new_ones (pool_keys P) ps in
    new_under P' nk = new_under P nk ++ seq (p_next P) (length news) /\
    (forall m, In m (minors_under P' nk) <-> In m (minors_under P nk) \/ In m (map c_minor news)) /\
    (forall k, k <> nk -> dget (p_new_cids P') k = dget (p_new_cids P) k /\ dget (p_new_minor P') k = dget (p_new_minor P) k).
  Proof.
    induction ps as [|c ps IH]; intros P nk one props P' l Hw Hrun; simpl in *.
    - injection Hrun as <- _. rewrite app_nil_r. repeat split; tauto.
    - pose proof (record_spec P c nk Hw) as Hr. destruct (record_cand P c nk) as [P1|] eqn:Erec.
      + destruct Hr as (Hm & Hw' & Hc & Hn & _ & _). rewrite Hm.
        apply IH in Hrun; [|exact Hw']. cbv zeta in Hrun.
        assert (Hkeys : forall l, new_ones (pool_keys (bump_next P1)) l = new_ones (keys c :: pool_keys P) l).
        { intros k. assert (Hset : forall s1 s2, (forall x, mem x s1 = mem x s2) -> new_ones s1 k = new_ones s2 k).
          { clear. induction k as [|a k IHk]; intros s1 s2 Hs; simpl; [reflexivity|]. rewrite Hs.
            destruct (mem (keys a) s2); [apply IHk, Hs|]. f_equal. apply IHk. intros x. simpl. rewrite Hs. reflexivity. }
          apply Hset. intros x. unfold pool_keys. simpl. rewrite Hc, map_app, mem_app. simpl. rewrite orb_false_r, orb_comm. reflexivity. }
        rewrite Hkeys in Hrun. destruct Hrun as (A & B & C).
        assert (E1 : p_new_cids P1 = dset (p_new_cids P) nk (new_under P nk ++ [p_next P])
                     /\ p_new_minor P1 = dset (p_new_minor P) nk (union (minors_under P nk) [c_minor c])).
        { unfold record_cand in Erec. destruct (match dget (p_map P) (c_minor c) with Some _ => _ | None => _ end) in Erec; [discriminate|].
          injection Erec as <-. split; reflexivity. }
        destruct E1 as [E1 E2].
        unfold new_under, minors_under, dget_or in A, B |- *. cbn [bump_next p_new_cids p_new_minor p_next] in A, B, C.
        rewrite E1, Hn in *. rewrite E2 in *. rewrite dget_dset in A. rewrite dget_dset in B.
        destruct (eq_dec nk nk) as [_|N]; [|congruence]. split; [|split].
        * rewrite A, <- app_assoc. reflexivity.
        * intros m. rewrite B, In_union. cbn [In map]. unfold minors_under, dget_or. intuition.
        * intros k Hk. destruct (C k Hk) as [C1 C2]. rewrite C1, C2, !dget_dset. destruct (eq_dec k nk); [contradiction | auto].
      + rewrite Hr. destruct one as [q|]; [discriminate|]. apply (IH P nk None props P' l Hw Hrun).
  Qed.
  Theorem C47_new : forall (P P' : pool) ps nk one, well_formed P -> add_cands P ps nk one = (P', Ret tt) ->
    let news := new_ones (pool_keys P) ps in
    new_under P' nk = new_under P nk ++ seq (p_next P) (length news) /\
    (forall m, In m (minors_under P' nk) <-> In m (minors_under P nk) \/ In m (map c_minor news)) /\
    (forall k, k <> nk -> new_under P' k = new_under P k /\ minors_under P' k = minors_under P k).
  Proof.
    intros P P' ps nk one Hw Hrun. unfold add_cands in Hrun.
    destruct (add_loop (with_nkey P nk) ps nk one []) as [P1 out] eqn:El.
    destruct out as [l| |]; try discriminate.
    destruct (new_loop _ _ _ _ _ _ _ (nkey_wf P nk Hw) El) as (A & B & C).
    assert (E : p_new_cids P' = p_new_cids P1 /\ p_new_minor P' = p_new_minor P1).
    { destruct l as [|r0 l0]; [injection Hrun as <-; auto|].
      destruct (p_rows P1) as [rows|]; [|injection Hrun as <-; auto].
      destruct (p_sorted P1); try discriminate. injection Hrun as <-. auto. }
    destruct E as [E1 E2]. unfold new_under, minors_under, dget_or in *. rewrite E1, E2.
    split; [exact A|]. split; [exact B|]. intros k Hk. destruct (C k Hk) as [C1 C2]. rewrite C1, C2. auto.
  Qed.
  Theorem C47_reset : forall (P : pool) k, let P' := run_op P OpReset in
    new_under P' k = [] /\ minors_under P' k = [] /\ p_cands P' = p_cands P /\ p_next P' = p_next P
    /\ p_rows P' = p_rows P /\ p_sorted P' = p_sorted P /\ p_map P' = p_map P.
  Proof. intros P k. repeat split. Qed.

  (* the properties of a candidate: one row per occurrence up to the limit (by
     default all but the last two), with the sum of the later corrections *)
  Theorem C47_properties : forall (c : cand) cid nk limit i,
    let n := Z.of_nat (length (c_occs c)) in
    let kept := match limit with
                | None => (n - 2)%Z
                | Some m => if (m <? 0)%Z then (n + m)%Z else Z.min m n
                end in
    nth_error (get_props c cid nk limit) i
    = if (Z.of_nat i <? kept)%Z
      then Some {| r_t0 := nth i (c_occs c) 0%Z; r_p := c_p c; r_r := c_r c; r_off := i;
                   r_cum := fold_right Z.add 0%Z (map (fun j => Z.abs (nth j (c_errs c) 0%Z)) (seq i (length (c_errs c) - i)));
                   r_new := nk; r_cid := cid |}
      else None.
  Proof.
    intros c cid nk limit i n kept. unfold get_props.
    set (m := match limit with None => (-2)%Z | Some m => m end).
    assert (Hlen : Z.of_nat (length (upto (c_occs c) m)) = Z.max 0 kept).
    { unfold upto. rewrite firstn_length. unfold kept, n, m. destruct limit as [q|].
      - destruct (Z.ltb_spec q 0); lia.
      - replace (-2 <? 0)%Z with true by reflexivity. lia. }
    rewrite nth_error_map.
    assert (Hcomb : forall (l : list Z) k j, nth_error (combine (seq k (length l)) l) j = option_map (fun x => (k + j, x)) (nth_error l j)).
    { clear. induction l as [|x l IH]; intros k [|j]; simpl; auto.
      - rewrite Nat.add_0_r. reflexivity.
      - rewrite IH. destruct (nth_error l j); simpl; [f_equal; f_equal; lia | reflexivity]. }
    rewrite Hcomb. destruct (Z.ltb_spec (Z.of_nat i) kept) as [Hlt|Hge].
    - assert (Hi : i < length (upto (c_occs c) m)) by lia.
      assert (Hnth : nth_error (upto (c_occs c) m) i = Some (nth i (c_occs c) 0%Z)).
      { rewrite (nth_error_nth' _ 0%Z) by exact Hi. f_equal. unfold upto in *. rewrite firstn_length in Hi.
        generalize dependent (Z.to_nat (if (m <? 0)%Z then Z.of_nat (length (c_occs c)) + m else m)). intros k _ Hk.
        clear -Hk. revert i Hk. generalize dependent k. induction (c_occs c) as [|x l IH]; intros [|k] [|i] Hk; simpl in *; try lia; auto.
        apply IH. lia. }
      rewrite Hnth. cbn [option_map fst snd Nat.add]. f_equal. f_equal.
      assert (Hskip : forall l k, skipn k l = map (fun j => nth j l 0%Z) (seq k (length l - k))).
      { clear. induction l as [|x l IH]; intros [|k]; cbn [length Nat.sub]; try reflexivity.
        - cbn [seq map skipn nth]. f_equal. rewrite <- seq_shift, map_map. cbn [nth]. specialize (IH 0). cbn [skipn] in IH.
          rewrite Nat.sub_0_r in IH. exact IH.
        - cbn [skipn]. rewrite IH, <- seq_shift, map_map. reflexivity. }
      rewrite Hskip, map_map. reflexivity.
    - rewrite (proj2 (nth_error_None _ _)) by lia. reflexivity.
  Qed.

  (* the properties stored for a batch are those of its new candidates, under their ids *)
  Lemma new_props : forall ps P nk props P' l, well_formed P -> add_loop P ps nk None props = (P', Ret l) -> In nk (p_nkeys P) ->
    l = props ++ flat_map (fun ic => get_props (snd ic) (fst ic) (index_of (p_nkeys P) nk) None)
                   (combine (seq (p_next P) (length (new_ones (pool_keys P) ps))) (new_ones (pool_keys P) ps)).
  Proof.
    induction ps as [|c ps IH]; intros P nk props P' l Hw Hrun Hnk; simpl in *.
    - injection Hrun as _ <-. symmetry; apply app_nil_r.
    - pose proof (record_spec P c nk Hw) as Hr. destruct (record_cand P c nk) as [P1|] eqn:Erec.
      + destruct Hr as (Hm & Hw' & Hc & Hn & Hrows & Hsort). rewrite Hm.
        assert (Hk1 : p_nkeys P1 = p_nkeys P).
        { unfold record_cand in Erec. destruct (match dget (p_map P) (c_minor c) with Some _ => _ | None => _ end) in Erec; [discriminate|].
          injection Erec as <-. simpl. unfold note_nkey. apply mem_In in Hnk. rewrite Hnk. reflexivity. }
        apply IH in Hrun; [|exact Hw' | simpl; rewrite Hk1; exact Hnk]. rewrite Hrun. simpl.
        assert (Hkeys : forall l, new_ones (pool_keys (bump_next P1)) l = new_ones (keys c :: pool_keys P) l).
        { intros l0. assert (Hset : forall s1 s2, (forall x, mem x s1 = mem x s2) -> new_ones s1 l0 = new_ones s2 l0).
          { clear. induction l0 as [|a l IHl]; intros s1 s2 Hs; simpl; [reflexivity|]. rewrite Hs.
            destruct (mem (keys a) s2); [apply IHl, Hs|]. f_equal. apply IHl. intros x. simpl. rewrite Hs. reflexivity. }
          apply Hset. intros x. unfold pool_keys. simpl. rewrite Hc, map_app, mem_app. simpl. rewrite orb_false_r, orb_comm. reflexivity. }
        rewrite Hkeys, Hk1, Hn, <- app_assoc. reflexivity.
      + rewrite Hr. apply IH in Hrun; auto.
  Qed.
  Theorem C47_rows : forall (P P' : pool) ps nk, well_formed P -> add_cands P ps nk None = (P', Ret tt) ->
    let news := new_ones (pool_keys P) ps in
    let before := match p_rows P with Some r => r | None => [] end in
    let after := match p_rows P' with Some r => r | None => [] end in
    after = before ++ flat_map (fun ic => get_props (snd ic) (fst ic) (index_of (p_nkeys P') nk) None)
                        (combine (seq (p_next P) (length news)) news).
  Proof.
    intros P P' ps nk Hw Hrun. unfold add_cands in Hrun.
    pose proof (loop_spec ps (with_nkey P nk) nk None [] (nkey_wf P nk Hw) ltac:(intros r [])) as HL.
    destruct (add_loop (with_nkey P nk) ps nk None []) as [P1 out] eqn:El.
    destruct HL as (A & B & _). cbn zeta. change (p_rows (with_nkey P nk)) with (p_rows P) in B.
    assert (Hin : In nk (p_nkeys (with_nkey P nk))).
    { simpl. unfold note_nkey. destruct (mem_spec nk (p_nkeys P)) as [Hi|]; [exact Hi|]. apply in_app_iff. right. left. reflexivity. }
    assert (Hkeep : forall (ps : list cand) (P0 : pool) props (P1 : pool) out, In nk (p_nkeys P0) -> add_loop P0 ps nk None props = (P1, out) -> p_nkeys P1 = p_nkeys P0).
    { clear. induction ps as [|c ps IH]; intros P0 props P1 out Hnk Hrun; simpl in Hrun; [congruence|].
      destruct (record_cand P0 c nk) as [P2|] eqn:Erec; [|eauto].
      assert (Hk1 : p_nkeys P2 = p_nkeys P0).
      { unfold record_cand in Erec. destruct (match dget (p_map P0) (c_minor c) with Some _ => _ | None => _ end) in Erec; [discriminate|].
        injection Erec as <-. simpl. unfold note_nkey. apply mem_In in Hnk. rewrite Hnk. reflexivity. }
      apply IH in Hrun; [simpl in Hrun; congruence | simpl; congruence]. }
    pose proof (Hkeep _ _ _ _ _ Hin El) as HkP1.
    destruct out as [l| |]; try discriminate.
    pose proof (new_props ps (with_nkey P nk) nk [] P1 l (nkey_wf P nk Hw) El Hin) as Hl.
    change (pool_keys (with_nkey P nk)) with (pool_keys P) in Hl. change (p_next (with_nkey P nk)) with (p_next P) in Hl.
    rewrite <- HkP1 in Hl. rewrite app_nil_l in Hl.
    destruct l as [|r0 props0].
    - injection Hrun as <-. rewrite B, <- Hl. symmetry; apply app_nil_r.
    - rewrite B in Hrun. destruct (p_rows P) as [rows|].
      + destruct (p_sorted P1) as [| |ll] in Hrun; try discriminate. injection Hrun as <-. simpl. f_equal. exact Hl.
      + injection Hrun as <-. simpl. exact Hl.
  Qed.

  (* One candidate at a time, in a pool filled by batches: a known one changes nothing; a new one that
     is accepted gets the next identifier and its properties after the others, and the pool stays in
     order; it is refused when it has no property or would not come last. *)
  Theorem C47_single : forall (P : pool) c nk, well_formed P -> StronglySorted Z.le (c_occs c) ->
    let '(P', out) := add_cand P c nk in
    let props := get_props c (p_next P) (index_of (p_nkeys P') nk) None in
    (In (keys c) (pool_keys P) -> P' = P /\ out = Ret None) /\
    (~ In (keys c) (pool_keys P) ->
       match p_rows P with
       | None => out = Ret (Some (p_next P)) /\ p_rows P' = Some props
       | Some rows => (out = Ret (Some (p_next P)) /\ p_rows P' = Some (rows ++ props) /\ well_formed P') \/
           (out = Exn ValueError /\ (rows = [] \/ props = [])) \/
           (out = Exn AttributeError /\ exists r first, In r rows /\ hd_error props = Some first /\ PropPeriod.before (row_key first) (row_key r))
       end) /\
    (forall i, out = Ret (Some i) -> p_cands P' = p_cands P ++ [(i, c)] /\ p_next P' = S i).
  Proof.
    intros P c nk Hw Hocc. unfold add_cand. pose proof (record_spec P c nk Hw) as Hr.
    destruct (record_cand P c nk) as [P1|] eqn:Er.
    2:{ apply mem_In in Hr. repeat split; try discriminate; contradiction. }
    destruct Hr as (Hm & Hw' & Hc & Hn & Hrows & Hsort). apply mem_false in Hm.
    set (props := get_props c (p_next P) (index_of (p_nkeys P1) nk) None).
    assert (Hso : ordered (fun i => row_key (nth i props no_row)) (seq 0 (length props))).
    { unfold ordered.
      assert (Hin : forall i j, i < j < length props -> not_after (row_key (nth i props no_row)) (row_key (nth j props no_row))).
      { intros i j Hij. pose proof (C47_properties c (p_next P) (index_of (p_nkeys P1) nk) None) as Hp. fold props in Hp. cbn zeta in Hp.
        assert (Hg : forall k, k < length props -> exists a, nth_error (c_occs c) k = Some a /\ row_key (nth k props no_row) = (a, c_p c, c_r c)).
        { intros k Hk. specialize (Hp k). rewrite (nth_error_nth' _ no_row Hk) in Hp.
          destruct (Z.ltb_spec (Z.of_nat k) (Z.of_nat (length (c_occs c)) - 2)) as [L|L]; [|discriminate].
          exists (nth k (c_occs c) 0%Z). split; [apply nth_error_nth'; lia|]. apply (f_equal (fun o => match o with Some x => row_key x | None => row_key no_row end)) in Hp. exact Hp. }
        destruct (Hg i ltac:(lia)) as (a & Ea & ->). destruct (Hg j ltac:(lia)) as (b & Eb & ->).
        assert (Hab : (a <= b)%Z).
        { clear -Hocc Ea Eb Hij. revert i j Ea Eb Hij. induction Hocc as [|x l Hs IH Hx]; intros [|i] [|j] Ea Eb Hij; simpl in *; try discriminate; try lia.
          - injection Ea as <-. rewrite Forall_forall in Hx. apply Hx. eapply nth_error_In. exact Eb.
          - apply (IH i j Ea Eb). lia. }
        apply lex3_lt_false. unfold lex3_lt. destruct (Z.ltb_spec b a); [lia|]. rewrite !Z.ltb_irrefl, ?andb_false_r. reflexivity. }
      generalize dependent (length props). intros n Hin. assert (G : forall m k, k + m <= n -> StronglySorted (fun a b => not_after (row_key (nth a props no_row)) (row_key (nth b props no_row))) (seq k m)).
      { induction m as [|m IH]; intros k Hk; simpl; constructor; [apply IH; lia|]. apply Forall_forall. intros x Hx. apply in_seq in Hx. apply Hin. lia. }
      apply (G n 0). lia. }
    assert (Hnone : p_rows P1 = p_rows P) by exact Hrows. rewrite Hnone.
    destruct (p_rows P) as [rows|] eqn:Erows.
    2:{ cbn [p_cands p_next p_rows bump_next set_rows p_nkeys]. fold props. split; [intros K; contradiction|]. split; [auto|].
        intros i [= <-]. rewrite Hc, Hn. auto. }
    pose proof (wf_sorted _ Hw) as Hs. rewrite Erows in Hs. rewrite Hsort. destruct (p_sorted P) as [| |l]; try contradiction.
    destruct Hs as [Hs1 Hs2].
    destruct rows as [|r0 rows0]. { repeat split; try discriminate; try contradiction. intros _. right. left. auto. }
    set (rows := r0 :: rows0) in *.
    destruct props as [|p0 props0] eqn:Eprops. { cbn [p_nkeys]. fold props. rewrite Eprops. repeat split; try discriminate; try contradiction. intros _. right. left. auto. }
    rewrite <- Eprops in *. clearbody rows.
    assert (Hlp : length props > 0) by (rewrite Eprops; simpl; lia).
    destruct (existsb (fun a => lex3_lt (key_at (rows ++ props) (length rows)) (key_at (rows ++ props) a)) l) eqn:Ex.
    - cbn [set_rows p_nkeys p_rows p_cands p_next]. fold props. split; [intros K; contradiction|]. split; [|discriminate].
      intros _. right. right. split; [reflexivity|]. apply existsb_exists in Ex. destruct Ex as (a & Ha & Hlt).
      apply (Permutation_in _ Hs1), in_seq in Ha. apply lex3_lt_spec in Hlt. unfold key_at in Hlt.
      rewrite app_nth2, Nat.sub_diag, app_nth1 in Hlt by lia. exists (nth a rows no_row), p0.
      split; [apply nth_In; lia|]. rewrite Eprops in Hlt |- *. split; [reflexivity | exact Hlt].
    - cbn [bump_next set_rows p_nkeys p_rows p_cands p_next]. fold props. split; [intros K; contradiction|]. split.
      2:{ intros i [= <-]. rewrite Hc, Hn. auto. }
      intros _. left. split; [reflexivity|]. split; [reflexivity|].
      destruct Hw' as [A B C D E]. split; [exact A | exact B | exact C | |].
      + cbn [p_rows p_sorted]. split.
        * rewrite app_length, seq_app. apply Permutation_app; [exact Hs1 | reflexivity].
        * assert (Hl : forall i, In i l -> i < length rows) by (intros i Hi; apply (Permutation_in _ Hs1), in_seq in Hi; lia).
          assert (Hall : Forall (fun a => not_after (key_at (rows ++ props) a) (key_at (rows ++ props) (length rows))) l).
          { apply Forall_forall. intros a Ha. apply lex3_lt_false. apply not_true_iff_false. intros K.
            rewrite <- not_true_iff_false in Ex. apply Ex, existsb_exists. eauto. }
          assert (Htail : ordered (key_at (rows ++ props)) (seq (length rows) (length props))).
          { unfold ordered in *. revert Hso. generalize (length props). intros m.
            assert (G : forall m k, StronglySorted (fun a b => not_after (row_key (nth a props no_row)) (row_key (nth b props no_row))) (seq k m) ->
              StronglySorted (fun a b => not_after (key_at (rows ++ props) a) (key_at (rows ++ props) b)) (seq (length rows + k) m)).
            { clear. induction m as [|m IH]; intros k Hk; simpl in *; [constructor|]. inversion Hk as [|? ? Q1 Q2]; subst. constructor.
              - rewrite <- Nat.add_succ_r. apply IH, Q1.
              - rewrite Forall_forall in *. intros x Hx. apply in_seq in Hx. unfold key_at. rewrite !app_nth2 by lia.
                replace (length rows + k - length rows) with k by lia. apply Q2, in_seq. lia. }
            intros Hs. specialize (G m 0 Hs). rewrite Nat.add_0_r in G. exact G. }
          apply ordered_ext with (rows' := props) in Hs2; [|exact Hl].
          unfold ordered in *. clear -Hs2 Hall Htail Hlp.
          assert (Hfirst : Forall (fun b => not_after (key_at (rows ++ props) (length rows)) (key_at (rows ++ props) b)) (seq (length rows) (length props))).
          { revert Hlp Htail. generalize (length props). intros [|m] Hlp Htail; [lia|]. simpl in *. inversion Htail as [|? ? _ Q2]; subst. constructor; [|exact Q2].
            apply lex3_lt_false. unfold lex3_lt. destruct (key_at (rows ++ props) (length rows)) as [[a b] d]. rewrite !Z.ltb_irrefl, ?andb_false_r. reflexivity. }
          induction Hs2 as [|x l Q1 IH Q2]; [exact Htail|]. inversion Hall as [|? ? Hx Hall']; subst. simpl. constructor; [apply IH, Hall'|].
          apply Forall_app. split; [exact Q2|]. rewrite Forall_forall in *. intros y Hy. eapply not_after_trans; [exact Hx | apply Hfirst, Hy].
      + intros rs r Hrs Hin. cbn [p_rows p_next bump_next set_rows] in *. rewrite Hn. injection Hrs as <-. apply in_app_iff in Hin. destruct Hin as [Hin|Hin].
        * apply (wf_rows _ Hw rows r Erows) in Hin. lia.
        * apply props_cid in Hin. lia.
  Qed.
End PoolProofs.
Print Assumptions C47_single.
Example C47_single_case :
  let P := run_ops (NK := nat) empty_pool [OpMany [{| c_minor := 0; c_major := (7, 2)%Z; c_cost := None; c_nb := 4; c_p := 2; c_r := 4; c_occs := [7; 9; 11; 13]%Z; c_errs := [0; 0; 0]%Z; c_body := tt |}] 0%nat None] in
  let c t := {| c_minor := 1; c_major := (t, 2)%Z; c_cost := None; c_nb := 4; c_p := 2; c_r := 4; c_occs := [t; t + 2; t + 4; t + 6]%Z; c_errs := [0; 0; 0]%Z; c_body := tt |} in
  snd (add_cand P (c 20%Z) 0) = Ret (Some 1) /\ p_sorted (fst (add_cand P (c 20%Z) 0)) = PList [0; 1; 2; 3] /\ snd (add_cand P (c 3%Z) 0) = Exn AttributeError.
Proof. repeat split; reflexivity. Qed.

(* Adding candidates one by one through addCand: the second call raises AttributeError and
   leaves a pool in which the third candidate takes over the identifier of the second, whose
   keys then lead to another candidate. *)
Definition mk (mi : nat) (t0 p : Z) : cand nat (Z * Z) unit :=
  {| c_minor := mi; c_major := (t0, p); c_cost := None; c_nb := 4; c_p := p; c_r := 4;
     c_occs := [t0; t0 + p; t0 + 2 * p; t0 + 3 * p]%Z; c_errs := [0; 0; 0]%Z; c_body := tt |}.
Theorem C47_single_adds_refuted :
  let a := mk 0 0 2 in let b := mk 0 1 3 in let c := mk 1 5 4 in
  let '(P1, r1) := add_cand (NK := nat) empty_pool a 0%nat in
  let '(P2, r2) := add_cand P1 b 0%nat in
  let '(P3, r3) := add_cand P2 c 0%nat in
  r1 = Ret (Some 0) /\ r2 = Exn AttributeError /\ r3 = Exn AttributeError /\
  found P3 (keys b) 1 /\ found P3 (keys c) 1 /\ dget (p_cands P3) 1 = Some c /\ keys b <> keys c /\
  ~ well_formed P3.
Proof.
  cbv zeta. cbn. repeat split.
  - eexists; split; reflexivity.
  - eexists; split; reflexivity.
  - discriminate.
  - intros Hw. destruct Hw as [Hids _ _ _ _]. discriminate.
Qed.
(* A batch after a first single candidate is refused as well *)
Theorem C47_batch_after_single_refuted :
  let '(P1, r1) := add_cand (NK := nat) empty_pool (mk 0 0 2) 0%nat in
  let '(P2, r2) := add_cands P1 [mk 1 5 4] 0%nat None in
  r1 = Ret (Some 0) /\ r2 = Exn AttributeError /\ ~ well_formed P1.
Proof.
  cbv zeta. cbn. split; [reflexivity|]. split; [reflexivity|].
  intros Hw. destruct Hw as [_ _ _ Hs _]. exact Hs.
Qed.
Print Assumptions C47_batch_after_single_refuted.
(* A batch with a known candidate is fine without costOne and raises AttributeError with it *)
Theorem C47_duplicate_with_cost_refuted :
  let a := mk 0 0 2 in
  let '(P1, r1) := add_cands (NK := nat) empty_pool [a] 0%nat (Some 1%Q) in
  let '(P2, r2) := add_cands P1 [a; mk 1 5 4] 0%nat (Some 1%Q) in
  r1 = Ret tt /\ r2 = Exn AttributeError /\ p_cands P2 = p_cands P1.
Proof. vm_compute. repeat split; reflexivity. Qed.

Example C47_case :
  let P := run_ops (NK := nat) empty_pool [OpMany [mk 0 7 2; mk 0 1 3; mk 0 7 2] 0%nat None; OpReset; OpMany [mk 1 2 2; mk 0 1 3] 1%nat None] in
  map fst (p_cands P) = [0; 1; 2] /\ p_new_cids P = [(1, [2])] /\
  p_sorted P = PList [2; 4; 5; 3; 0; 1].
Proof. repeat split; reflexivity. Qed.
Print Assumptions C47_add.
Print Assumptions C47_history_partial.
Print Assumptions C47_duplicates.
Print Assumptions C47_rows.
Print Assumptions C47_new.
Print Assumptions C47_reset.
Print Assumptions C47_properties.
Print Assumptions C47_single_adds_refuted.
Print Assumptions C47_duplicate_with_cost_refuted.
