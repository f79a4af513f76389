(* C43: what a periodic miner gives back of the log it was fitted on. *)
From Verif Require Import Prelude CheckModel LCMModel TextModel SplitModel ArrayModel PeriodModel PropPeriod TreeModel CyclesModel.
Local Open Scope Z_scope.

Lemma map_out_map {X Y} (f : X -> outcome Y) (g : X -> Y) l : (forall x, In x l -> f x = Ret (g x)) -> map_out f l = Ret (map g l).
Proof.
  induction l as [|x l IH]; intros Hf; simpl; [reflexivity|].
  rewrite Hf by (left; reflexivity); simpl. rewrite IH by (intros; apply Hf; right; assumption). reflexivity.
Qed.
Lemma all_some_inv {B} (l : list (option B)) r : all_some l = Some r <-> l = map Some r.
Proof.
  revert r; induction l as [|[x|] l IH]; intros r; simpl.
  - split; [intros E; injection E as <-; reflexivity | destruct r; [reflexivity | discriminate]].
  - destruct (all_some l) as [r0|] eqn:E; simpl.
    + split.
      * intros E'; injection E' as <-; simpl; f_equal; apply IH; reflexivity.
      * destruct r as [|y r]; [discriminate|]; simpl; intros E'; injection E' as -> E'; apply IH in E'; congruence.
    + split; [discriminate|]; destruct r as [|y r]; [discriminate|]; simpl; intros E'; injection E' as _ E'; apply IH in E'; discriminate.
  - split; [discriminate|]; destruct r; discriminate.
Qed.
(* the times of the occurrences and the occurrences with their events are computed alike *)
Lemma cov_occs {B} (t : tree B) t0 E cs : get_cov_seq t t0 E = Some cs ->
  get_occs t t0 E = Some (map fst cs) /\ map (fun o => snd (fst o)) (occs_star t) = map snd cs.
Proof.
  unfold get_cov_seq, get_occs. set (Ed := get_EDict (occs_star t) E).
  set (c := fun k => get_ccorr t k Ed). clearbody Ed.
  change (fun o : Z * B * text => option_map (fun c0 => (fst (fst o) + t0 + c0, snd (fst o))) (get_ccorr t (snd o) Ed))
    with (fun o : Z * B * text => option_map (fun c0 => (fst (fst o) + t0 + c0, snd (fst o))) (c (snd o))).
  change (fun o : Z * B * text => option_map (fun c0 => fst (fst o) + t0 + c0) (get_ccorr t (snd o) Ed))
    with (fun o : Z * B * text => option_map (fun c0 => fst (fst o) + t0 + c0) (c (snd o))).
  clearbody c. rewrite !all_some_inv. generalize (occs_star t). intros l. revert cs.
  induction l as [|[[time e] k] l IH]; intros [|x cs]; simpl; try discriminate; [auto|].
  destruct (c k) as [v|]; simpl; [|discriminate]. intros Heq; injection Heq as <- Heq. destruct (IH cs Heq) as [H1 H2].
  simpl. rewrite H1, H2. auto.
Qed.

Section CyclesProofs.
  Context {A : Type} `{EqDec A} (leA : A -> A -> bool).
  Context (leA_total : forall x y, leA x y = true \/ leA y x = true).
  Context (leA_trans : forall x y z, leA x y = true -> leA y z = true -> leA x z = true).
  Variable sort_time sort_event : frame A -> frame A.
  (* ------------------------------------------------------------ specification *)
  Definition by_time (f : frame A) : Prop := StronglySorted (fun a b => fst (snd a) <= fst (snd b)) f.
  Definition sorts : Prop := forall f, Permutation (sort_time f) f /\ by_time (sort_time f).
  (* the patterns speak about the log: their occurrences are (time, event number) pairs of it *)
  Definition about_log (m : miner A) : Prop :=
    forall p, In p (m_patts m) -> exists cs, get_cov_seq (fst (fst p)) (snd (fst p)) (snd p) = Some cs /\ cs <> [] /\ incl cs (ds_seql (m_ds m)).
  Definition covered (m : miner A) (x : Z * nat) : Prop :=
    exists p cs, In p (m_patts m) /\ get_cov_seq (fst (fst p)) (snd (fst p)) (snd p) = Some cs /\ In x cs.
  (* an occurrence as the user sees it *)
  Definition seen_as (m : miner A) (x : Z * nat) (u : Z * A) : Prop :=
    fst u = shown_time m (fst x) /\ nth_error (ds_events (m_ds m)) (snd x) = Some (snd u).

  (* ------------------------------------------------------------------ proofs *)
  Lemma fit_facts auto log mine m : fit leA auto log mine = Ret m ->
    NoDup (ds_events (m_ds m)) /\ NoDup (ds_seql (m_ds m)) /\
    (forall x, In x (ds_seql (m_ds m)) -> exists u, seen_as m x u /\ In u log) /\
    (forall u, In u log -> exists x, seen_as m x u /\ In x (ds_seql (m_ds m))) /\
    (forall a b, shown_time m a = shown_time m b -> a = b) /\ m_patts m = mine (m_ds m).
  Proof.
    unfold fit. set (serie := nodup eq_dec log).
    assert (Hserie : forall u, In u serie <-> In u log) by (intros u; apply nodup_In).
    assert (Hnd0 : NoDup serie) by apply NoDup_nodup. clearbody serie.
    assert (Hgen : forall ts' n d, (if auto then map (unscale n d) ts' = map fst serie /\ 0 < 10 ^ Z.of_nat n * d else ts' = map fst serie) ->
      bind (dataseq_of_dict leA (group_occs (combine ts' (map snd serie)))) (fun ds =>
        Ret {| m_auto := auto; m_n := n; m_div := d; m_groups := group_occs (combine ts' (map snd serie)); m_ds := ds; m_patts := mine ds |}) = Ret m ->
      NoDup (ds_events (m_ds m)) /\ NoDup (ds_seql (m_ds m)) /\
      (forall x, In x (ds_seql (m_ds m)) -> exists u, seen_as m x u /\ In u log) /\
      (forall u, In u log -> exists x, seen_as m x u /\ In x (ds_seql (m_ds m))) /\
      (forall a b, shown_time m a = shown_time m b -> a = b) /\ m_patts m = mine (m_ds m)).
    { intros ts' n d Hts. change (dataseq_of_dict leA (group_occs (combine ts' (map snd serie)))) with (dataseq_of_list leA (combine ts' (map snd serie))).
      set (cb := combine ts' (map snd serie)).
      destruct (C38_sequence leA leA_total leA_trans cb) as [s [-> Hr]].
      simpl. intros E. injection E as <-. set (m0 := {| m_auto := auto |}).
      assert (Hshow : map (fun p => (shown_time m0 (fst p), snd p)) cb = serie).
      { assert (Hmf : map (shown_time m0) ts' = map fst serie).
        { unfold shown_time; simpl. destruct auto; [tauto|]. rewrite Hts. apply map_id. }
        unfold cb. generalize dependent (shown_time m0). intros g Hmf. clear -Hmf. revert serie Hmf.
        induction ts' as [|t ts IH]; intros [|[u e] serie] Hmf; simpl in *; try discriminate; [reflexivity|].
        injection Hmf as E1 E2. rewrite E1. f_equal. apply IH, E2. }
      assert (Hinj : forall a b, shown_time m0 a = shown_time m0 b -> a = b).
      { unfold shown_time; simpl. case_eq auto; intros Ea; [|auto]. rewrite Ea in Hts. destruct Hts as [_ Hpos]. unfold unscale. intros a b.
        rewrite <- !Z.mul_assoc. intros E. apply Z.mul_reg_r in E; lia. }
      assert (Hndc : NoDup cb). { rewrite <- Hshow in Hnd0. apply NoDup_map_inv in Hnd0. exact Hnd0. }
      assert (Hin : forall t e, In (t, e) cb <-> In (shown_time m0 t, e) log).
      { intros t e. rewrite <- Hserie, <- Hshow, in_map_iff. split.
        - intros Hi. exists (t, e). auto.
        - intros ([t' e'] & E & Hi). simpl in E. injection E as E1 ->. apply Hinj in E1. rewrite <- E1. exact Hi. }
      simpl (m_ds m0). pose proof (rp_log _ _ _ Hr) as Hlog.
      repeat split; auto.
      - apply (rp_distinct _ _ _ Hr).
      - apply NoDup_map_inv with (f := fun p : Z * nat => (fst p, nth_error (ds_events s) (snd p))).
        apply (Permutation_NoDup (Permutation_sym Hlog)). apply FinFun.Injective_map_NoDup; [|exact Hndc].
        intros [a b] [a' b'] E; simpl in E; congruence.
      - intros x Hx. apply (in_map (fun p => (fst p, nth_error (ds_events s) (snd p)))) in Hx.
        apply (Permutation_in _ Hlog) in Hx. apply in_map_iff in Hx. destruct Hx as ([t e] & E & Hi). simpl in E. injection E as E1 E2.
        exists (shown_time m0 t, e). split; [|apply Hin, Hi]. split; simpl; congruence.
      - intros [u e] Hu. assert (Hu' : In (u, e) serie) by (apply Hserie, Hu). rewrite <- Hshow in Hu'. apply in_map_iff in Hu'.
        destruct Hu' as ([t e'] & E & Hi). simpl in E. injection E as <- ->.
        apply (in_map (fun p => (fst p, Some (snd p)))) in Hi. apply (Permutation_in _ (Permutation_sym Hlog)) in Hi.
        apply in_map_iff in Hi. destruct Hi as (x & E & Hi). simpl in E. injection E as E1 E2.
        exists x. split; [|exact Hi]. split; simpl; congruence. }
    destruct auto.
    - destruct (autoscale (map fst serie)) as [[[conv n] res] d] eqn:Ea. apply C35_lossless in Ea.
      destruct Ea as (E1 & _ & E3 & _). apply Hgen. split; [exact E1|].
      apply Z.mul_pos_pos; [apply Z.pow_pos_nonneg; lia|]. rewrite E3. destruct res; simpl; lia.
    - apply Hgen. reflexivity.
  Qed.

  Lemma sort_sub {B} (R : B -> B -> Prop) (f : B -> bool) l : StronglySorted R l -> StronglySorted R (filter f l).
  Proof.
    induction 1 as [|x l Hl IH Hx]; simpl; [constructor|]. destruct (f x); [|exact IH]. constructor; [exact IH|].
    rewrite Forall_forall in *. intros y Hy. apply filter_In in Hy. apply Hx, Hy.
  Qed.
  Lemma drop_spec : forall (f : frame A) seen,
    (forall x, In x (map snd (drop_dups seen f)) <-> In x (map snd f) /\ ~ In x seen) /\
    NoDup (map snd (drop_dups seen f)) /\ (by_time f -> by_time (drop_dups seen f)) /\
    incl (drop_dups seen f) f /\ (NoDup (map fst f) -> NoDup (map fst (drop_dups seen f))).
  Proof.
    induction f as [|r f IH]; intros seen; simpl.
    { repeat split; try tauto; try constructor. intros x []. }
    destruct (mem_spec (snd r) seen) as [Hm|Hm].
    - destruct (IH seen) as (A1 & A2 & A3 & A4 & A5). repeat split; auto.
      + apply A1 in H0. tauto.
      + apply A1 in H0. tauto.
      + intros [[Heq|Hi] Hn]; [subst; contradiction | apply A1; auto].
      + intros Hs. apply A3. inversion Hs; assumption.
      + intros y Hy. right. apply A4, Hy.
      + intros Hn. apply A5. inversion Hn; assumption.
    - destruct (IH (snd r :: seen)) as (A1 & A2 & A3 & A4 & A5). simpl. repeat split.
      + destruct H0 as [Hx|Hx]; [left; exact Hx | right; apply A1 in Hx; tauto].
      + destruct H0 as [<-|Hx]; [exact Hm|]. apply A1 in Hx. intros Hs. apply Hx. right. exact Hs.
      + intros [Hx Hn]. destruct (eq_dec (snd r) x) as [|Hne]; [left; assumption|]. right. apply A1.
        split; [destruct Hx; [contradiction|assumption] | intros [Hc|Hc]; [contradiction | contradiction]].
      + constructor; [|exact A2]. intros Hc. apply A1 in Hc. apply Hc. left. reflexivity.
      + intros Hs. inversion Hs as [|? ? Hs' Hall]; subst. constructor; [apply A3, Hs'|].
        rewrite Forall_forall in *. intros y Hy. apply Hall, A4, Hy.
      + intros y [Hy|Hy]; [left; exact Hy | right; apply A4, Hy].
      + intros Hn. inversion Hn as [|? ? Hn1 Hn2]; subst. constructor; [|apply A5, Hn2]. intros Hc. apply Hn1.
        apply in_map_iff in Hc. destruct Hc as (y & E & Hy). rewrite <- E. apply in_map, A4, Hy.
  Qed.
  Lemma label_spec {B} (l : list B) : map snd (label l) = l /\ NoDup (map fst (label l)).
  Proof.
    unfold label. assert (Hg : forall k, map snd (combine (List.seq k (length l)) l) = l /\ map fst (combine (List.seq k (length l)) l) = List.seq k (length l)).
    { induction l as [|x l IH]; intros k; simpl; [auto|]. destruct (IH (S k)) as [-> ->]. auto. }
    destruct (Hg O) as [-> ->]. split; [reflexivity | apply seq_NoDup].
  Qed.
  Lemma complement_self (f : frame A) : NoDup (map fst f) -> complement f f = [].
  Proof.
    intros Hn. unfold complement. assert (Hg : forall r, In r f -> dget f (fst r) = Some (snd r)).
    { induction f as [|[k v] f IH]; intros r Hr; [destruct Hr|]. simpl in *. inversion Hn as [|? ? Hk Hn']; subst.
      destruct Hr as [<-|Hr]; simpl; [destruct (eq_dec k k); [reflexivity | congruence]|].
      destruct (eq_dec (fst r) k) as [E|]; [exfalso; apply Hk; rewrite <- E; apply in_map, Hr | apply IH; auto]. }
    assert (Hf : forall l, incl l f -> filter (fun r => match dget f (fst r) with None => true | Some (t, e) => negb (t =? fst (snd r)) && negb (eqd e (snd (snd r))) end) l = []).
    { induction l as [|r l IH]; intros Hi; simpl; [reflexivity|]. rewrite Hg by (apply Hi; left; reflexivity).
      destruct (snd r) as [t e]; simpl. rewrite Z.eqb_refl. simpl. apply IH. intros y Hy; apply Hi; right; exact Hy. }
    apply Hf, incl_refl.
  Qed.

  Section Fitted.
    Variable (m : miner A) (d0 : A).
    Hypothesis Hev : forall x, In x (ds_seql (m_ds m)) -> nth_error (ds_events (m_ds m)) (snd x) <> None.
    Definition show (x : Z * nat) : Z * A := (shown_time m (fst x), nth (snd x) (ds_events (m_ds m)) d0).
    Lemma show_seen x : In x (ds_seql (m_ds m)) -> seen_as m x (show x).
    Proof.
      intros Hx. split; [reflexivity|]. simpl. apply nth_error_nth'. apply nth_error_Some, Hev, Hx.
    Qed.
    Lemma rows_spec p cs : get_cov_seq (fst (fst p)) (snd (fst p)) (snd p) = Some cs -> incl cs (ds_seql (m_ds m)) ->
      patt_rows m p = Ret (map show cs).
    Proof.
      destruct p as [[t t0] E]. simpl. intros Hc Hi. apply cov_occs in Hc. destruct Hc as [-> Hs].
      assert (Hg : forall (star : list (Z * nat * text)) cs, incl cs (ds_seql (m_ds m)) -> map (fun o => snd (fst o)) star = map snd cs ->
        map_out (fun oo => match nth_error (ds_events (m_ds m)) (snd (fst (snd oo))) with
          | Some e => Ret (shown_time m (fst oo), e) | None => Exn KeyError end) (combine (map fst cs) star) = Ret (map show cs)).
      { clear -Hev. intros star cs. revert star. induction cs as [|x cs IH]; intros [|o star] Hi Hs; simpl in *; try discriminate; [reflexivity|].
        injection Hs as E Hs. rewrite E. rewrite (proj2 (show_seen x (Hi x (or_introl eq_refl)))). simpl.
        rewrite IH; [reflexivity | intros y Hy; apply Hi; right; exact Hy | exact Hs]. }
      apply Hg; assumption.
    Qed.
    Hypothesis Hlog : about_log m.
    Lemma cov_lists : exists ls, all_some (map (fun p => get_cov_seq (fst (fst p)) (snd (fst p)) (snd p)) (m_patts m)) = Some ls /\
      (forall x, In x (concat ls) <-> covered m x) /\ incl (concat ls) (ds_seql (m_ds m)) /\ (m_patts m <> [] -> concat ls <> []) /\
      map_out (fun i => match py_nth (m_patts m) i with Some p => patt_rows m p | None => Exn IndexError end)
        (map Z.of_nat (List.seq 0 (length (m_patts m)))) = Ret (map (map show) ls).
    Proof.
      assert (Hg : forall ps, incl ps (m_patts m) -> exists ls,
        all_some (map (fun p => get_cov_seq (fst (fst p)) (snd (fst p)) (snd p)) ps) = Some ls /\
        (forall x, In x (concat ls) <-> exists p cs, In p ps /\ get_cov_seq (fst (fst p)) (snd (fst p)) (snd p) = Some cs /\ In x cs) /\
        incl (concat ls) (ds_seql (m_ds m)) /\ (ps <> [] -> concat ls <> []) /\ map_out (patt_rows m) ps = Ret (map (map show) ls)).
      { induction ps as [|p ps IH]; intros Hi.
        - exists []. simpl. repeat split; try tauto; try congruence; [intros (? & ? & [] & _) | intros y []].
        - destruct IH as (ls & L1 & L2 & L3 & L4 & L5); [intros y Hy; apply Hi; right; exact Hy|].
          destruct (Hlog p (Hi p (or_introl eq_refl))) as (cs & C1 & C2 & C3). exists (cs :: ls). simpl. rewrite C1, L1. simpl. repeat split.
          + intros Hx. apply in_app_iff in Hx. destruct Hx as [Hx|Hx]; [exists p, cs; auto|].
            apply L2 in Hx. destruct Hx as (p' & cs' & P1 & P2 & P3). exists p', cs'. auto.
          + intros (p' & cs' & [<-|P1] & P2 & P3); apply in_app_iff; [left; congruence | right; apply L2; eauto].
          + apply incl_app; assumption.
          + intros _. destruct cs; [congruence | discriminate].
          + rewrite (rows_spec p cs C1 C3). simpl. rewrite L5. reflexivity. }
      destruct (Hg (m_patts m) (incl_refl _)) as (ls & L1 & L2 & L3 & L4 & L5). exists ls. repeat split; auto; try apply L2.
      rewrite <- L5. clear. set (g := patt_rows m). clearbody g.
      assert (Hk : forall ps pre, m_patts m = pre ++ ps ->
        map_out (fun i => match py_nth (m_patts m) i with Some p => g p | None => Exn IndexError end)
          (map Z.of_nat (List.seq (length pre) (length ps))) = map_out g ps).
      { induction ps as [|p ps IH]; intros pre E; simpl; [reflexivity|].
        assert (py_nth (m_patts m) (Z.of_nat (length pre)) = Some p) as ->.
        { unfold py_nth. destruct (Z.leb_spec 0 (Z.of_nat (length pre))); [|lia]. rewrite Nat2Z.id, E, nth_error_app2 by lia.
          rewrite Nat.sub_diag. reflexivity. }
        specialize (IH (pre ++ [p])). rewrite <- app_assoc in IH. specialize (IH E). rewrite app_length in IH. simpl in IH.
        rewrite Nat.add_1_r in IH. rewrite IH. reflexivity. }
      apply (Hk (m_patts m) []). reflexivity.
    Qed.
    Lemma reconstruct_spec : sorts -> m_patts m <> [] ->
      exists R, reconstruct sort_time sort_event m None ByTime true = Ret R /\ by_time R /\ NoDup (map snd R) /\ NoDup (map fst R) /\
        (forall u, In u (map snd R) <-> exists x, covered m x /\ u = show x).
    Proof.
      intros Hsort Hne. destruct cov_lists as (ls & L1 & L2 & L3 & L4 & L5). unfold reconstruct. rewrite L5. simpl.
      assert (Hc : concat (map (map show) ls) = map show (concat ls)) by (symmetry; apply concat_map).
      rewrite Hc. specialize (L4 Hne). destruct (concat ls) as [|x l] eqn:E; [congruence|].
      cbn [map]. set (rows := show x :: map show l). destruct (Hsort (label rows)) as [S1 S2]. destruct (label_spec rows) as [B1 B2].
      destruct (drop_spec (sort_time (label rows)) []) as (D1 & D2 & D3 & _ & D5).
      eexists. split; [reflexivity|]. split; [apply D3, S2|]. split; [exact D2|]. split.
      { apply D5. apply (Permutation_NoDup (Permutation_map fst (Permutation_sym S1))). exact B2. }
      intros u. rewrite D1. assert (Hin : In u (map snd (sort_time (label rows))) <-> In u rows).
      { rewrite <- B1 at 2. split; apply Permutation_in, Permutation_map; [|symmetry]; exact S1. }
      rewrite Hin. change rows with (map show (x :: l)). rewrite in_map_iff. split.
      - intros [(y & <- & Hy) _]. exists y. split; [apply L2, Hy | reflexivity].
      - intros (y & Hy & ->). split; [|intros []]. exists y. split; [reflexivity | apply L2, Hy].
    Qed.
  End Fitted.

  Lemma sort_keys (f : frame A) : sorts -> NoDup (map snd f) -> NoDup (map snd (sort_time f)).
  Proof. intros Hs Hn. apply (Permutation_NoDup (Permutation_map snd (Permutation_sym (proj1 (Hs f))))), Hn. Qed.

  (* reconstruct(): exactly the covered events of the log, each once, in time order *)
  Theorem C43_reconstruct : forall auto log mine m, sorts -> fit leA auto log mine = Ret m -> about_log m -> m_patts m <> [] ->
    exists R, reconstruct sort_time sort_event m None ByTime true = Ret R /\ by_time R /\ NoDup (map snd R) /\
      (forall u, In u (map snd R) <-> exists x, covered m x /\ seen_as m x u) /\ incl (map snd R) log.
  Proof.
    intros auto log mine m Hs Hf Hl Hne. destruct (fit_facts auto log mine m Hf) as (F1 & F2 & F3 & F4 & F5 & _).
    assert (Hev : forall x, In x (ds_seql (m_ds m)) -> nth_error (ds_events (m_ds m)) (snd x) <> None).
    { intros x Hx. destruct (F3 x Hx) as (u & [_ E] & _). congruence. }
    assert (Hd : exists d0 : A, True).
    { destruct (m_patts m) as [|p ps] eqn:E; [congruence|]. destruct (Hl p) as (cs & C1 & C2 & C3); [rewrite E; left; reflexivity|].
      destruct cs as [|x cs]; [congruence|]. destruct (F3 x (C3 x (or_introl eq_refl))) as (u & _). exists (snd u). trivial. }
    destruct Hd as [d0 _]. destruct (reconstruct_spec m d0 Hev Hl Hs Hne) as (R & R1 & R2 & R3 & _ & R4).
    assert (Hcov : forall x, covered m x -> In x (ds_seql (m_ds m))).
    { intros x (p & cs & P1 & P2 & P3). destruct (Hl p P1) as (cs' & C1 & _ & C3). apply C3. congruence. }
    assert (Hshow : forall x u, covered m x -> seen_as m x u <-> u = show m d0 x).
    { intros x u Hx. destruct (show_seen m d0 Hev x (Hcov x Hx)) as [S1 S2]. unfold seen_as. split.
      - intros [U1 U2]. destruct u as [a b]; simpl in *. unfold show. f_equal; [exact U1|]. simpl in S2. congruence.
      - intros ->. split; assumption. }
    exists R. repeat split; auto.
    - intros Hu. apply R4 in Hu. destruct Hu as (x & Hx & E). exists x. split; [exact Hx | apply Hshow; assumption].
    - intros (x & Hx & E). apply R4. exists x. split; [exact Hx | apply Hshow; assumption].
    - intros u Hu. apply R4 in Hu. destruct Hu as (x & Hx & ->). destruct (F3 x (Hcov x Hx)) as (u & U1 & U2).
      apply (Hshow x u Hx) in U1. congruence.
  Qed.

  (* reconstruct(ids): the occurrences of the patterns asked for, those counted from the end included, in the
     order asked for; without drop_duplicates one row for each occurrence of each pattern, with it each event
     once *)
  Definition asked (m : miner A) (i : Z) (p : patt) : Prop :=
    let n := Z.of_nat (length (m_patts m)) in - n <= i < n /\ nth_error (m_patts m) (Z.to_nat (i mod n)) = Some p.
  Lemma asked_nth m i p : asked m i p <-> py_nth (m_patts m) i = Some p.
  Proof using.
    unfold asked, py_nth. set (n := Z.of_nat (length (m_patts m))).
    assert (Hn : 0 <= n) by lia. split.
    - intros [Hi Hp]. destruct (Z.leb_spec 0 i) as [Q1|Q1].
      + rewrite Z.mod_small in Hp by lia. exact Hp.
      + destruct (Z.leb_spec 0 (n + i)); [|lia]. rewrite <- (Z.mod_unique_pos i n (-1) (n + i)) in Hp by lia. exact Hp.
    - intros Hp. destruct (Z.leb_spec 0 i) as [Q1|Q1].
      + assert (Z.to_nat i < length (m_patts m))%nat by (apply nth_error_Some; congruence). split; [lia|]. rewrite Z.mod_small by lia. exact Hp.
      + destruct (Z.leb_spec 0 (n + i)); [|discriminate]. split; [lia|]. rewrite <- (Z.mod_unique_pos i n (-1) (n + i)) by lia. exact Hp.
  Qed.
  Theorem C43_chosen : forall auto log mine m ids s, sorts -> (forall f, Permutation (sort_event f) f) ->
    fit leA auto log mine = Ret m -> about_log m -> ids <> [] ->
    ((forall i, In i ids -> exists p, asked m i p) ->
     exists R R' ls, reconstruct sort_time sort_event m (Some ids) s false = Ret R /\ reconstruct sort_time sort_event m (Some ids) s true = Ret R' /\
       Forall2 (fun i l => exists p cs, asked m i p /\ get_cov_seq (fst (fst p)) (snd (fst p)) (snd p) = Some cs /\ Forall2 (seen_as m) cs l) ids ls /\
       Permutation (map snd R) (concat ls) /\ (s = InOrder -> map snd R = concat ls) /\ (s = ByTime -> by_time R /\ by_time R') /\
       NoDup (map snd R') /\ (forall u, In u (map snd R') <-> In u (map snd R)) /\ incl (map snd R) log) /\
    ((exists i, In i ids /\ forall p, ~ asked m i p) -> forall drop, reconstruct sort_time sort_event m (Some ids) s drop = Exn IndexError).
  Proof.
    intros auto log mine m ids s Hs Hse Hf Hl Hne. destruct (fit_facts auto log mine m Hf) as (F1 & F2 & F3 & F4 & F5 & _).
    assert (Hev : forall x, In x (ds_seql (m_ds m)) -> nth_error (ds_events (m_ds m)) (snd x) <> None).
    { intros x Hx. destruct (F3 x Hx) as (u & [_ E] & _). congruence. }
    assert (Hrow : forall p, In p (m_patts m) -> exists cs l, get_cov_seq (fst (fst p)) (snd (fst p)) (snd p) = Some cs /\ patt_rows m p = Ret l /\
              Forall2 (seen_as m) cs l /\ l <> [] /\ incl l log).
    { intros p Hp. destruct (Hl p Hp) as (cs & C1 & C2 & C3). destruct cs as [|x0 cs0] eqn:Ecs; [congruence|]. rewrite <- Ecs in *.
      destruct (F3 x0) as (u0 & _); [apply C3; rewrite Ecs; left; reflexivity|]. exists cs, (map (show m (snd u0)) cs).
      split; [exact C1|]. split; [apply (rows_spec m (snd u0) Hev p cs C1 C3)|]. split; [|split].
      - clear Ecs C1 C2. induction cs as [|x cs IH]; constructor; [apply (show_seen m (snd u0) Hev x), C3; left; reflexivity | apply IH; intros y Hy; apply C3; right; exact Hy].
      - rewrite Ecs. discriminate.
      - intros u Hu. apply in_map_iff in Hu. destruct Hu as (x & <- & Hx). destruct (F3 x (C3 x Hx)) as (u & [U1 U2] & U3).
        destruct (show_seen m (snd u0) Hev x (C3 x Hx)) as [S1 S2]. replace (show m (snd u0) x) with u; [exact U3|].
        destruct u as [a b], (show m (snd u0) x) as [a' b']. cbn [fst snd] in *. congruence. }
    assert (Hin : forall i p, asked m i p -> In p (m_patts m)) by (intros i p [_ Hp]; apply (nth_error_In _ _ Hp)).
    set (g := fun i => match py_nth (m_patts m) i with Some p => patt_rows m p | None => Exn IndexError end).
    split.
    - intros Hask.
      assert (Hg : exists ls, map_out g ids = Ret ls /\
        Forall2 (fun i l => exists p cs, asked m i p /\ get_cov_seq (fst (fst p)) (snd (fst p)) (snd p) = Some cs /\ Forall2 (seen_as m) cs l) ids ls /\
        concat ls <> [] /\ incl (concat ls) log).
      { assert (Hg' : exists ls, map_out g ids = Ret ls /\
          Forall2 (fun i l => exists p cs, asked m i p /\ get_cov_seq (fst (fst p)) (snd (fst p)) (snd p) = Some cs /\ Forall2 (seen_as m) cs l) ids ls /\
          (ids <> [] -> concat ls <> []) /\ incl (concat ls) log).
        { clear Hne. induction ids as [|i ids IH].
          - exists []. split; [reflexivity|]. split; [constructor|]. split; [congruence | intros x []].
          - destruct IH as (ls & I1 & I2 & _ & I4); [intros j Hj; apply Hask; right; exact Hj|].
            destruct (Hask i (or_introl eq_refl)) as (p & Hp). destruct (Hrow p (Hin i p Hp)) as (cs & l & R1 & R2 & R3 & R4 & R5).
            exists (l :: ls). cbn [map_out]. unfold g at 1. rewrite (proj1 (asked_nth m i p) Hp), R2. cbn [bind]. rewrite I1. cbn [bind concat].
            split; [reflexivity|]. split; [constructor; [exists p, cs; auto | exact I2]|]. split; [|apply incl_app; assumption].
            intros _. destruct l; [congruence | discriminate]. }
        destruct Hg' as (ls & G1 & G2 & G3 & G4). exists ls. auto. }
      destruct Hg as (ls & G1 & G2 & G3 & G4).
      unfold reconstruct. fold g. rewrite G1. cbn [bind]. destruct (concat ls) as [|u0 us] eqn:Eu; [congruence|]. rewrite <- Eu in *. clear G3.
      destruct (label_spec (concat ls)) as [B1 B2].
      assert (Hp : Permutation (sort_frame sort_time sort_event s (label (concat ls))) (label (concat ls))).
      { destruct s; cbn [sort_frame]; [apply Hs | apply Hse | apply Permutation_refl]. }
      destruct (drop_spec (sort_frame sort_time sort_event s (label (concat ls))) []) as (D1 & D2 & D3 & D4 & D5).
      assert (Hp' : Permutation (map snd (sort_frame sort_time sort_event s (label (concat ls)))) (concat ls)).
      { rewrite <- B1 at 2. apply Permutation_map, Hp. }
      eexists. eexists. exists ls. split; [reflexivity|]. split; [reflexivity|]. split; [exact G2|]. split; [exact Hp'|].
      split; [intros ->; exact B1|]. split; [intros ->; split; [apply Hs | apply D3, Hs]|]. split; [exact D2|]. split.
      + intros u. rewrite D1. split; [tauto | intros Hu; split; [exact Hu | intros []]].
      + intros u Hu. apply G4. apply (Permutation_in _ Hp' Hu).
    - intros (i & Hi & Hno) drop. unfold reconstruct. fold g.
      assert (Hg : map_out g ids = Exn IndexError).
      { clear Hne. induction ids as [|j ids IH]; [destruct Hi|]. cbn [map_out]. unfold g at 1.
        destruct (py_nth (m_patts m) j) as [p|] eqn:Ej; [|reflexivity].
        destruct (Hrow p) as (cs & l & _ & R2 & _); [apply (Hin j), asked_nth, Ej|]. rewrite R2. cbn [bind].
        destruct Hi as [->|Hi]; [exfalso; apply (Hno p), asked_nth, Ej|]. rewrite IH by exact Hi. reflexivity. }
      rewrite Hg. reflexivity.
  Qed.

  (* the patterns and the residuals together are the log *)
  Theorem C43_lossless_partial : forall auto log mine m, sorts -> fit leA auto log mine = Ret m -> about_log m -> m_patts m <> [] ->
    (exists x, In x (ds_seql (m_ds m)) /\ ~ covered m x) ->
    exists R S, reconstruct sort_time sort_event m None ByTime true = Ret R /\
      get_residuals sort_time sort_event m None ByTime = Ret S /\
      (forall u, In u log <-> In u (map snd R) \/ In u (map snd S)) /\
      (forall u, In u (map snd R) -> ~ In u (map snd S)) /\
      NoDup (map snd R) /\ NoDup (map snd S) /\ by_time R /\ by_time S.
  Proof.
    intros auto log mine m Hs Hf Hl Hne [x0 [Hx0 Hx0']]. destruct (fit_facts auto log mine m Hf) as (F1 & F2 & F3 & F4 & F5 & _).
    assert (Hev : forall x, In x (ds_seql (m_ds m)) -> nth_error (ds_events (m_ds m)) (snd x) <> None).
    { intros x Hx. destruct (F3 x Hx) as (u & [_ E] & _). congruence. }
    destruct (F3 x0 Hx0) as ([u0 d0] & _ & _).
    destruct (cov_lists m d0 Hev Hl) as (ls & L1 & L2 & L3 & _ & _).
    destruct (reconstruct_spec m d0 Hev Hl Hs Hne) as (R & R1 & R2 & R3 & R3' & R4).
    set (un := filter (fun x => negb (mem x (concat ls))) (nodup eq_dec (ds_seql (m_ds m)))).
    assert (Hun : forall x, In x un <-> In x (ds_seql (m_ds m)) /\ ~ covered m x).
    { intros x. unfold un. rewrite filter_In, nodup_In, negb_true_iff, mem_false, L2. tauto. }
    assert (Hshow : forall x u, In x (ds_seql (m_ds m)) -> seen_as m x u <-> u = show m d0 x).
    { intros x u Hx. destruct (show_seen m d0 Hev x Hx) as [S1 S2]. unfold seen_as. split.
      - intros [U1 U2]. destruct u as [a b]; simpl in *. unfold show. f_equal; [exact U1|]. simpl in S2. congruence.
      - intros ->. split; assumption. }
    assert (Hinj : forall x y, In x (ds_seql (m_ds m)) -> In y (ds_seql (m_ds m)) -> show m d0 x = show m d0 y -> x = y).
    { intros x y Hx Hy E. destruct (show_seen m d0 Hev x Hx) as [_ S1]. destruct (show_seen m d0 Hev y Hy) as [_ S2].
      rewrite <- E in S2. injection E as E1 _. apply F5 in E1. destruct x as [a k], y as [b k']; simpl in *. f_equal; [exact E1|].
      rewrite <- S1 in S2. symmetry. rewrite NoDup_nth_error in F1. apply F1; [|exact S2].
      apply nth_error_Some. apply (Hev (b, k') Hy). }
    assert (Hcov : forall x, covered m x -> In x (ds_seql (m_ds m))) by (intros x Hx; apply L3, L2, Hx).
    unfold get_residuals, uncovered. rewrite L1. cbn [bind]. fold un.
    assert (Hmo : map_out (fun r => match nth_error (ds_events (m_ds m)) (snd r) with Some e => Ret (shown_time m (fst r), e) | None => Exn KeyError end) un
                  = Ret (map (show m d0) un)).
    { apply map_out_map. intros x Hx. apply Hun in Hx. rewrite (proj2 (show_seen m d0 Hev x (proj1 Hx))). reflexivity. }
    rewrite Hmo. cbn [bind].
    assert (Hun0 : un <> []). { intros E. assert (Hi : In x0 un) by (apply Hun; auto). rewrite E in Hi. destruct Hi. }
    destruct un as [|y un'] eqn:Eun; [congruence|]. rewrite <- Eun in *. clear Hun0.
    assert (Hrows : exists r rs, map (show m d0) un = r :: rs) by (rewrite Eun; simpl; eauto). destruct Hrows as (r & rs & Er). rewrite Er, <- Er.
    change (reconstruct sort_time sort_event m (Some (map Z.of_nat (List.seq 0 (length (m_patts m))))) ByTime true)
      with (reconstruct sort_time sort_event m None ByTime true).
    rewrite R1. cbn [bind]. rewrite (complement_self R R3'). cbn [map]. rewrite app_nil_r.
    set (S := sort_time (label (map (show m d0) un))). destruct (label_spec (map (show m d0) un)) as [B1 B2].
    destruct (Hs (label (map (show m d0) un))) as [S1 S2]. fold S in S1, S2.
    exists R, S. split; [reflexivity|]. split; [reflexivity|].
    assert (HS : forall u, In u (map snd S) <-> exists x, In x un /\ u = show m d0 x).
    { intros u. assert (Hp : In u (map snd S) <-> In u (map (show m d0) un)).
      { rewrite <- B1. split; apply Permutation_in, Permutation_map; [|symmetry]; exact S1. }
      rewrite Hp, in_map_iff. split; intros (x & X1 & X2); exists x; auto. }
    repeat split; auto.
    - intros Hu. destruct (F4 u Hu) as (x & X1 & X2). apply Hshow in X1; [|exact X2].
      destruct (in_dec (fun a b => eq_dec a b) x (concat ls)) as [Hc|Hc].
      + left. apply R4. exists x. split; [apply L2, Hc | exact X1].
      + right. apply HS. exists x. split; [|exact X1]. apply Hun. split; [exact X2|]. rewrite <- L2. exact Hc.
    - intros [Hu|Hu].
      + apply R4 in Hu. destruct Hu as (x & X1 & ->). destruct (F3 x (Hcov x X1)) as (u & U1 & U2).
        apply Hshow in U1; [congruence | apply Hcov, X1].
      + apply HS in Hu. destruct Hu as (x & X1 & ->). apply Hun in X1. destruct (F3 x (proj1 X1)) as (u & U1 & U2).
        apply Hshow in U1; [congruence | apply X1].
    - intros u HR HSu. apply R4 in HR. apply HS in HSu. destruct HR as (x & X1 & ->). destruct HSu as (x' & X1' & E).
      apply Hun in X1'. apply Hinj in E; [subst; tauto | apply Hcov, X1 | tauto].
    - unfold S. apply sort_keys; [exact Hs|]. rewrite B1.
      assert (Hnu : NoDup un) by (unfold un; apply NoDup_filter, NoDup_nodup).
      assert (Hsub : forall x, In x un -> In x (ds_seql (m_ds m))) by (intros x Hx; apply Hun in Hx; tauto).
      clear -Hnu Hsub Hinj. induction Hnu as [|x l Hx Hl IH]; simpl; constructor.
      + intros Hc. apply in_map_iff in Hc. destruct Hc as (x' & E & Hx'). apply Hinj in E; [subst; contradiction | apply Hsub; right; exact Hx' | apply Hsub; left; reflexivity].
      + apply IH. intros z Hz. apply Hsub. right. exact Hz.
  Qed.

  (* when nothing is left over, asking for the residuals raises KeyError *)
  Theorem C43_full_cover_refuted : forall auto log mine m, fit leA auto log mine = Ret m -> about_log m ->
    (forall x, In x (ds_seql (m_ds m)) -> covered m x) ->
    forall ids s, get_residuals sort_time sort_event m ids s = Exn KeyError.
  Proof.
    intros auto log mine m Hf Hl Hall ids s. destruct (fit_facts auto log mine m Hf) as (F1 & F2 & F3 & F4 & F5 & _).
    unfold get_residuals, uncovered.
    assert (Hls : exists ls, all_some (map (fun p => get_cov_seq (fst (fst p)) (snd (fst p)) (snd p)) (m_patts m)) = Some ls /\
      forall x, covered m x -> In x (concat ls)).
    { unfold covered. unfold about_log in Hl. revert Hl. generalize (m_patts m). clear. induction l as [|p ps IH]; intros Hl.
      - exists []. split; [reflexivity|]. intros x (p & cs & [] & _).
      - destruct IH as (ls & L1 & L2); [intros q Hq; apply Hl; right; exact Hq|].
        destruct (Hl p (or_introl eq_refl)) as (cs & C1 & _). exists (cs :: ls). simpl. rewrite C1, L1. split; [reflexivity|].
        intros x (q & cs' & [<-|Hq] & Q1 & Q2); apply in_app_iff; [left; congruence | right; apply L2; eauto]. }
    destruct Hls as (ls & -> & Hc). cbn [bind].
    assert (filter (fun x => negb (mem x (concat ls))) (nodup eq_dec (ds_seql (m_ds m))) = []) as ->; [|reflexivity].
    destruct (filter _ _) as [|x l] eqn:E; [reflexivity|]. exfalso.
    assert (Hin : In x (x :: l)) by (left; reflexivity). rewrite <- E in Hin. apply filter_In in Hin. destruct Hin as [H1 H2].
    apply nodup_In in H1. apply negb_true_iff, mem_false in H2. apply H2, Hc, Hall, H1.
  Qed.
  (* when no pattern was found both calls raise KeyError *)
  Theorem C43_no_pattern_refuted : forall (m : miner A) s, m_patts m = [] ->
    reconstruct sort_time sort_event m None s true = Exn KeyError /\
    get_residuals sort_time sort_event m None s = Exn KeyError.
  Proof.
    intros m s Hm. split; [unfold reconstruct; rewrite Hm; reflexivity|]. unfold get_residuals, uncovered. rewrite Hm. cbn [map all_some bind length List.seq].
    assert (K : forall l : list (Z * nat), let f := fun r => match nth_error (ds_events (m_ds m)) (snd r) with Some e => Ret (shown_time m (fst r), e) | None => Exn KeyError end in
      (exists rows, map_out f l = Ret rows) \/ map_out f l = Exn KeyError).
    { intros l f. induction l as [|x l IH]; [left; eexists; reflexivity|]. simpl. unfold f at 1 3. destruct (nth_error _ _) as [e|]; [|right; reflexivity]. simpl.
      destruct IH as [[rows ->]| ->]; [left; eexists; reflexivity | right; reflexivity]. }
    match goal with |- bind (map_out _ ?l) _ = _ => destruct (K l) as [[rows E]|E]; cbn zeta in E; rewrite E end; [|reflexivity].
    destruct rows; [reflexivity|]. cbn [bind]. reflexivity.
  Qed.
End CyclesProofs.

(* ------------------------------------------------------- a log with two cycles *)
Definition demo_sort {A} (f : frame A) : frame A := sort (fun a b => fst (snd a) <=? fst (snd b)) f.
Lemma demo_sorts {A} : @sorts A demo_sort.
Proof.
  intros f. split; [apply sort_perm|].
  assert (Hs : StronglySorted (le_rel (fun a b : nat * (Z * A) => fst (snd a) <=? fst (snd b))) (demo_sort f)).
  { apply sort_sorted; intros *; rewrite ?Z.leb_le; lia. }
  clear -Hs. unfold by_time. induction Hs as [|x l Hl IH Hx]; constructor; [exact IH|].
  eapply Forall_impl; [|exact Hx]. intros y Hy. apply Z.leb_le, Hy.
Qed.
Definition demo_log : list (Z * nat) :=
  [(0, 7%nat); (2000, 7%nat); (4100, 7%nat); (5000, 9%nat); (6000, 7%nat); (50000, 7%nat); (52000, 7%nat); (54000, 7%nat)].
Definition demo_mine (ds : @dataseq nat) : list patt :=
  [(simple_tree O 4 20, 0, [0; 1; -1]); (simple_tree O 3 20, 500, [0; 0])].
Example C43_case : exists m, fit Nat.leb true demo_log demo_mine = Ret m /\ about_log m /\ m_patts m <> [] /\ m_n m = 2%nat /\
  (exists x, In x (ds_seql (m_ds m)) /\ ~ covered m x) /\
  get_residuals demo_sort demo_sort m None ByTime = Ret [(0%nat, (5000, 9%nat))].
Proof.
  eexists. split; [vm_compute; reflexivity|]. split; [|split; [discriminate|]]; [|split; [reflexivity|]; split].
  - intros p [<-|[<-|[]]].
    + exists [(0, 0%nat); (20, 0%nat); (41, 0%nat); (60, 0%nat)]. split; [vm_compute; reflexivity|]. split; [discriminate|].
      intros x Hx. simpl in *. intuition.
    + exists [(500, 0%nat); (520, 0%nat); (540, 0%nat)]. split; [vm_compute; reflexivity|]. split; [discriminate|].
      intros x Hx. simpl in *. intuition.
  - exists (50, 1%nat). split; [simpl; auto|]. intros (p & cs & [<-|[<-|[]]] & Hc & Hx); vm_compute in Hc; injection Hc as <-; simpl in Hx; intuition discriminate.
  - vm_compute. reflexivity.
Qed.
(* Asked for the complement of one pattern, get_residuals aligns frames by row number: events of
   the other pattern go missing, and events of the pattern itself can be returned. *)
Theorem C43_subset_refuted : exists m, fit Nat.leb true demo_log demo_mine = Ret m /\ about_log m /\
  exists R S, reconstruct demo_sort demo_sort m (Some [1]) ByTime true = Ret R /\
    get_residuals demo_sort demo_sort m (Some [1]) ByTime = Ret S /\
    In (0, 7%nat) demo_log /\ ~ In (0, 7%nat) (map snd R) /\ ~ In (0, 7%nat) (map snd S) /\
    In (54000, 7%nat) (map snd R) /\ In (54000, 7%nat) (map snd S).
Proof.
  eexists. split; [vm_compute; reflexivity|]. split.
  { intros p [<-|[<-|[]]].
    + exists [(0, 0%nat); (20, 0%nat); (41, 0%nat); (60, 0%nat)]. split; [vm_compute; reflexivity|]. split; [discriminate|].
      intros x Hx. simpl in *. intuition.
    + exists [(500, 0%nat); (520, 0%nat); (540, 0%nat)]. split; [vm_compute; reflexivity|]. split; [discriminate|].
      intros x Hx. simpl in *. intuition. }
  eexists. eexists. split; [vm_compute; reflexivity|]. split; [vm_compute; reflexivity|]. simpl. repeat split; auto; intuition discriminate.
Qed.
Example C43_chosen_case : exists m, fit Nat.leb true demo_log demo_mine = Ret m /\
  reconstruct demo_sort demo_sort m (Some [-1; 1]) InOrder false =
    Ret (combine (List.seq 0%nat 6%nat) [(50000, 7%nat); (52000, 7%nat); (54000, 7%nat); (50000, 7%nat); (52000, 7%nat); (54000, 7%nat)]) /\
  reconstruct demo_sort demo_sort m (Some [-3]) InOrder false = Exn IndexError.
Proof. eexists. split; [vm_compute; reflexivity|]. split; vm_compute; reflexivity. Qed.
Print Assumptions C43_reconstruct.
Print Assumptions C43_chosen.
Print Assumptions C43_lossless_partial.
Print Assumptions C43_full_cover_refuted.
Print Assumptions C43_no_pattern_refuted.
Print Assumptions C43_subset_refuted.
