(* C88: the rounds of nesting and joining of candidates, and mining with complex patterns. *)
From Verif Require Import Prelude CheckModel LCMModel VerticalProofs TextModel SplitModel ArrayModel PropArray PeriodModel PropPeriod TreeModel TreeProofs PropTree TreeBlock NestModel NestProofs PropNest PropConcat
  FactorModel PropFactor SegModel PropSeg CoverModel PropCover PropTopK CliqueModel PropClique PoolModel PropPool CyclesModel PropCycles FoldModel PropFold MineModel PropMineEvent PropMine
  NestMineModel PropNestMine HorizontalModel PropHorizontal PropHorizontalRun ComplexModel.
From Coq Require Import QArith Lqa Qround.
Local Open Scope nat_scope.

(* ------------------------------------------------------------ the pool *)
Section PoolKept.
  Context {mK MK NK Bd : Type} `{EqDec mK} `{EqDec MK} `{EqDec NK}.
  Notation cand := (cand mK MK Bd).
  Notation pool := (pool mK MK NK Bd).
  (* every row is one of the properties of a candidate *)
  Definition rows_of (cands : dict nat cand) (rows : list row) : Prop :=
    forall r, In r rows -> exists c k mo, In (r_cid r, c) cands /\ In r (get_props c (r_cid r) k mo).
  Record kept_pool (P : pool) : Prop := {
    kp_wf : well_formed P;
    kp_inner : forall mk d, dget (p_map P) mk = Some d -> NoDup (dkeys d);
    kp_rows : forall rows, p_rows P = Some rows -> rows_of (p_cands P) rows;
    kp_new : forall k l cid, In (k, l) (p_new_cids P) -> In cid l -> cid < p_next P }.
  Lemma rows_of_more cands cands' rows : incl cands cands' -> rows_of cands rows -> rows_of cands' rows.
  Proof. intros Hi Hr r I. destruct (Hr r I) as (c & k & mo & I1 & I2). exists c, k, mo. split; [apply Hi, I1 | exact I2]. Qed.
  Lemma rows_of_app cands l1 l2 : rows_of cands l1 -> rows_of cands l2 -> rows_of cands (l1 ++ l2).
  Proof. intros H1' H2' r I. apply in_app_or in I. destruct I as [I|I]; auto. Qed.
  Lemma rows_of_props cands c cid k mo : In (cid, c) cands -> rows_of cands (get_props c cid k mo).
  Proof. intros I r Ir. pose proof (props_cid _ _ _ _ _ Ir) as E. rewrite E. exists c, k, mo. split; [exact I | exact Ir]. Qed.
  Lemma record_kept (P P' : pool) c nk : kept_pool P -> record_cand P c nk = Some P' -> kept_pool (bump_next P').
  Proof.
    intros [Hw Hi Hr Hn] E. pose proof (record_spec P c nk Hw) as Hs. rewrite E in Hs. destruct Hs as (_ & Hw' & Hc & Hnx & Hrows & _). constructor; [exact Hw' | | |].
    - unfold record_cand in E. destruct (match dget (p_map P) (c_minor c) with Some _ => _ | None => _ end) in E; [discriminate|]. injection E as <-. cbn [bump_next p_map]. intros mk d.
      rewrite dget_dset. destruct (eq_dec mk (c_minor c)) as [->|N]; [|apply Hi]. intros [= <-]. apply NoDup_dset. unfold dget_or. destruct (dget (p_map P) (c_minor c)) as [d0|] eqn:Ed; [apply (Hi _ _ Ed) | constructor].
    - cbn [bump_next p_rows p_cands]. rewrite Hrows, Hc. intros rows Er. apply (rows_of_more (p_cands P)); [apply incl_appl, incl_refl | apply Hr, Er].
    - cbn [bump_next p_next p_new_cids]. rewrite Hnx. unfold record_cand in E. destruct (match dget (p_map P) (c_minor c) with Some _ => _ | None => _ end) in E; [discriminate|]. injection E as <-. cbn [p_new_cids].
      intros k l cid I Ic. apply dset_In in I. destruct I as [[-> ->]|I]; [|specialize (Hn k l cid I Ic); lia].
      apply in_app_or in Ic. destruct Ic as [Ic|[<-|[]]]; [|lia]. unfold dget_or in Ic. destruct (dget (p_new_cids P) nk) as [l0|] eqn:Ed; [|destruct Ic]. specialize (Hn nk l0 cid (VerticalProofs.dget_In _ _ _ Ed) Ic). lia.
  Qed.
  (* nothing is lost, and each new candidate is one of those given *)
  Lemma loop_kept (Full : cand -> Prop) (one : option Q) : (forall c cid k, Full c -> get_props c cid k (match one, c_cost c with Some o, Some q => Some (Z.min (Qfloor (q / o)%Q) (c_nb c - 2)) | _, _ => None end) <> []) ->
    forall ps (P : pool) nk props P' out, kept_pool P -> rows_of (p_cands P) props -> add_loop P ps nk one props = (P', out) ->
    kept_pool P' /\ incl (p_cands P) (p_cands P') /\ (forall l, out = Ret l -> rows_of (p_cands P') l) /\
    (forall l, out = Ret l -> Forall Full ps -> l = [] -> props = [] /\ p_cands P' = p_cands P).
  Proof.
    intros Hfull. induction ps as [|c ps IH]; intros P nk props P' out Hk Hp E; cbn [add_loop] in E.
    - injection E as <- <-. split; [exact Hk|]. split; [apply incl_refl|]. split; [intros l [= <-]; exact Hp | intros l [= <-] _ ->; auto].
    - destruct (record_cand P c nk) as [P1|] eqn:Er.
      + pose proof (record_kept P P1 c nk Hk Er) as Hk1. pose proof (record_spec P c nk (kp_wf _ Hk)) as Hs. rewrite Er in Hs. destruct Hs as (_ & _ & Hc & _).
        assert (Hinc : incl (p_cands P) (p_cands (bump_next P1))) by (cbn [bump_next p_cands]; rewrite Hc; apply incl_appl, incl_refl).
        set (mo := match one with Some o => _ | None => None end) in E. apply IH in E; [|exact Hk1|].
        * destruct E as (A & B & C & D). split; [exact A|]. split; [intros x I; apply B, Hinc, I|]. split; [exact C|]. intros l El F Enil. exfalso. inversion F as [|? ? Fc F']; subst. destruct (D [] eq_refl F' eq_refl) as [X _].
          apply app_eq_nil in X. destruct X as [_ X]. exact (Hfull c _ _ Fc X).
        * apply rows_of_app; [eapply rows_of_more; [exact Hinc | exact Hp]|]. apply rows_of_props. cbn [bump_next p_cands]. rewrite Hc. apply in_elt.
      + destruct one as [o|]; [injection E as <- <-; split; [exact Hk|]; split; [apply incl_refl|]; split; discriminate|].
        apply IH in E; [|exact Hk | exact Hp]. destruct E as (A & B & C & D). split; [exact A|]. split; [exact B|]. split; [exact C|]. intros l El F. apply (D l El). inversion F; assumption.
  Qed.
  Lemma new_ones_incl (ps : list cand) : forall seen, incl (new_ones seen ps) ps.
  Proof.
    induction ps as [|c ps IH]; intros seen x I; cbn [new_ones] in I; [destruct I|]. destruct (mem (keys c) seen); [right; apply (IH seen), I|]. destruct I as [<-|I]; [left; reflexivity | right; apply (IH (keys c :: seen)), I].
  Qed.
  Lemma set_rows_kept (P : pool) rows s : kept_pool P -> rows_of (p_cands P) rows ->
    match s with PList l => Permutation l (seq 0 (length rows)) /\ ordered (key_at rows) l | _ => False end -> kept_pool (set_rows P rows s).
  Proof.
    intros [[A1 A2 A3 A4 A5] Hi Hr Hn] Hrows Hs. constructor; [|exact Hi | |exact Hn].
    - split; [exact A1 | exact A2 | exact A3 | exact Hs|]. cbn [set_rows p_rows p_next]. intros rows' r [= <-] I. destruct (Hrows r I) as (c & _ & _ & Ic & _).
      apply (in_map fst) in Ic. cbn [fst] in Ic. rewrite A1 in Ic. apply in_seq in Ic. lia.
    - cbn [set_rows p_rows p_cands]. intros rows' [= <-]. exact Hrows.
  Qed.
  Lemma add_kept (Full : cand -> Prop) (P P' : pool) ps nk one out :
    (forall c cid k, Full c -> get_props c cid k (match one, c_cost c with Some o, Some q => Some (Z.min (Qfloor (q / o)%Q) (c_nb c - 2)) | _, _ => None end) <> []) ->
    kept_pool P -> add_cands P ps nk one = (P', out) ->
    kept_pool P' /\ (forall ic, In ic (p_cands P') -> In ic (p_cands P) \/ In (snd ic) ps) /\ incl (p_cands P) (p_cands P') /\ (p_rows P <> None -> p_rows P' <> None) /\
    (out = Ret tt -> Forall Full ps -> p_rows P' = None -> p_cands P' = p_cands P) /\ (one = None -> out = Ret tt).
  Proof.
    intros Hfull Hk E. pose proof (C47_add P ps nk one (kp_wf _ Hk)) as HA. rewrite E in HA. destruct HA as (Hw' & k & Hc & _ & _ & Hone). cbv zeta in *.
    assert (Hin : forall ic, In ic (p_cands P') -> In ic (p_cands P) \/ In (snd ic) ps).
    { intros [i c] I. rewrite Hc in I. apply in_app_or in I. destruct I as [I|I]; [left; exact I|]. right. apply in_combine_r in I. cbn [snd]. apply (new_ones_incl ps (pool_keys P)). eapply in_firstn. exact I. }
    unfold add_cands in E. destruct (add_loop (with_nkey P nk) ps nk one []) as [P1 out1] eqn:El.
    pose proof (loop_spec ps (with_nkey P nk) nk one [] (nkey_wf P nk (kp_wf _ Hk)) ltac:(intros r [])) as HL. rewrite El in HL. destruct HL as (_ & Hr1 & Hs1 & _). cbn [with_nkey p_rows p_sorted] in Hr1, Hs1.
    assert (Hk0 : kept_pool (with_nkey P nk)) by (destruct Hk as [X1 X2 X3 X4]; constructor; [apply nkey_wf, X1 | exact X2 | exact X3 | exact X4]).
    destruct (loop_kept Full one Hfull ps (with_nkey P nk) nk [] P1 out1 Hk0 ltac:(intros r []) El) as (K1 & I1 & R1 & F1). cbn [with_nkey p_cands] in I1, F1.
    destruct out1 as [[|r0 l]|e|].
    - injection E as <- <-. split; [exact K1|]. split; [exact Hin|]. split; [exact I1|]. split; [rewrite Hr1; auto|]. split; [|auto]. intros _ F _. apply (F1 [] eq_refl F eq_refl).
    - specialize (R1 _ eq_refl). pose proof (wf_sorted _ (kp_wf _ K1)) as Hs. destruct (p_rows P1) as [rows|] eqn:Er.
      + destruct (p_sorted P1) as [| |sl] eqn:Es; try contradiction. destruct Hs as [Hs1' Hs2]. injection E as <- <-. split.
        * apply set_rows_kept; [exact K1 | apply rows_of_app; [apply (kp_rows _ K1), Er | exact R1]|].
          pose proof (wf_sorted _ Hw') as X. cbn [set_rows p_rows p_sorted] in X. exact X.
        * split; [exact Hin|]. split; [exact I1|]. split; [discriminate|]. split; [discriminate | auto].
      + injection E as <- <-. split.
        * apply set_rows_kept; [exact K1 | exact R1|]. pose proof (wf_sorted _ Hw') as X. cbn [set_rows p_rows p_sorted] in X. exact X.
        * split; [exact Hin|]. split; [exact I1|]. split; [discriminate|]. split; [discriminate | auto].
    - injection E as <- <-. split; [exact K1|]. split; [exact Hin|]. split; [exact I1|]. split; [rewrite Hr1; auto|]. split; [discriminate | auto].
    - injection E as <- <-. split; [exact K1|]. split; [exact Hin|]. split; [exact I1|]. split; [rewrite Hr1; auto|]. split; [discriminate | auto].
  Qed.
  Lemma reset_kept (P : pool) : kept_pool P -> kept_pool (reset_new P).
  Proof. intros [[A1 A2 A3 A4 A5] Hi Hr Hn]. constructor; [split; assumption | exact Hi | exact Hr | intros k l cid []]. Qed.
  Lemma props_fields (c : cand) cid k mo r : In r (get_props c cid k mo) -> r_r r = c_r c /\ r_off r < length (c_occs c) /\ r_p r = c_p c /\ nth_error (c_occs c) (r_off r) = Some (r_t0 r).
  Proof.
    unfold get_props. set (m := match mo with Some m => m | None => (-2)%Z end). intros I. apply in_map_iff in I. destruct I as ([i o] & <- & I). cbn [r_r r_off r_p r_t0 fst snd].
    assert (E : nth_error (upto (c_occs c) m) i = Some o).
    { apply In_nth_error in I. destruct I as (n & En). assert (L : n < length (combine (seq 0 (length (upto (c_occs c) m))) (upto (c_occs c) m))) by (apply nth_error_Some; congruence).
      rewrite combine_length, seq_length, Nat.min_id in L. rewrite (nth_error_nth' _ (0, 0%Z)) in En by (rewrite combine_length, seq_length, Nat.min_id; exact L).
      rewrite combine_nth in En by apply seq_length. injection En as E1 E2. rewrite seq_nth in E1 by exact L. cbn in E1. subst i o. apply nth_error_nth', L. }
    assert (E' : nth_error (c_occs c) i = Some o).
    { unfold upto in E. set (q := Z.to_nat _) in E. clearbody q. clear -E. revert i E. generalize (c_occs c). induction q as [|q IH]; intros l i E; [destruct i; discriminate|]. destruct l as [|x l]; [destruct i; discriminate|]. destruct i as [|i]; [exact E|]. apply (IH l i E). }
    split; [reflexivity|]. split; [apply nth_error_Some; congruence|]. auto.
  Qed.
  (* what a call of addCands adds *)
  Lemma new_ones_all (ps : list cand) : forall seen c, In c ps -> In (keys c) seen \/ exists c', In c' (new_ones seen ps) /\ keys c' = keys c.
  Proof.
    induction ps as [|x ps IH]; intros seen c I; [destruct I|]. cbn [new_ones]. destruct (mem (keys x) seen) eqn:Em.
    - destruct I as [<-|I]; [left; apply mem_In, Em | apply IH, I].
    - destruct I as [<-|I]; [right; exists x; cbn; auto|]. destruct (IH (keys x :: seen) c I) as [[E|J]|(c' & J & E)]; [right; exists x; cbn; auto | left; exact J | right; exists c'; cbn; auto].
  Qed.
  Lemma note_twice (l : list NK) k : note_nkey (note_nkey l k) k = note_nkey l k.
  Proof.
    unfold note_nkey at 1. assert (E : mem k (note_nkey l k) = true); [|rewrite E; reflexivity]. apply mem_In. unfold note_nkey. destruct (mem k l) eqn:Em; [apply mem_In, Em | apply in_or_app; right; left; reflexivity].
  Qed.
  Lemma in_note (l : list NK) k : In k (note_nkey l k).
  Proof. unfold note_nkey. destruct (mem k l) eqn:Em; [apply mem_In, Em | apply in_or_app; right; left; reflexivity]. Qed.
  Lemma index_note (l : list NK) k x : In k l -> index_of (note_nkey l x) k = index_of l k.
  Proof.
    unfold note_nkey. destruct (mem x l); [reflexivity|]. induction l as [|y l IH]; intros I; [destruct I|]. cbn [app index_of]. unfold eqd. destruct (eq_dec y k) as [->|N]; [reflexivity|]. f_equal. apply IH. destruct I as [->|I]; [congruence | exact I].
  Qed.
  Lemma loop_nkeys : forall ps (P : pool) nk one props P' out, note_nkey (p_nkeys P) nk = p_nkeys P -> add_loop P ps nk one props = (P', out) -> p_nkeys P' = p_nkeys P.
  Proof.
    induction ps as [|c ps IH]; intros P nk one props P' out Hk E; cbn [add_loop] in E; [injection E as <- <-; reflexivity|].
    destruct (record_cand P c nk) as [P1|] eqn:Er.
    - assert (E1 : p_nkeys P1 = p_nkeys P) by (unfold record_cand in Er; destruct (match dget (p_map P) (c_minor c) with Some _ => _ | None => _ end) in Er; [discriminate|]; injection Er as <-; exact Hk).
      apply IH in E; cbn [bump_next p_nkeys] in *; rewrite E1 in *; [exact E | exact Hk].
    - destruct one; [injection E as <- <-; reflexivity|]. apply (IH _ _ _ _ _ _ Hk E).
  Qed.
  Lemma add_exact (P P' : pool) ps nk : kept_pool P -> add_cands P ps nk None = (P', Ret tt) -> exists news : list (nat * cand),
    p_cands P' = p_cands P ++ news /\ (forall ic, In ic news -> In (snd ic) ps) /\ (forall c, In c ps -> exists ic, In ic (p_cands P') /\ keys (snd ic) = keys c) /\
    new_under P' nk = new_under P nk ++ map fst news /\ (forall m, In m (minors_under P' nk) <-> In m (minors_under P nk) \/ In m (map (fun ic => c_minor (snd ic)) news)) /\
    (forall k, k <> nk -> new_under P' k = new_under P k /\ minors_under P' k = minors_under P k) /\
    match p_rows P' with Some r => r | None => [] end = match p_rows P with Some r => r | None => [] end ++ flat_map (fun ic => get_props (snd ic) (fst ic) (index_of (p_nkeys P') nk) None) news /\
    p_nkeys P' = note_nkey (p_nkeys P) nk.
  Proof.
    intros Hk E. pose proof (kp_wf _ Hk) as Hw. pose proof (C47_add P ps nk None Hw) as HA. rewrite E in HA. destruct HA as (_ & k & Hc & _ & Hlen & _). cbv zeta in *. specialize (Hlen eq_refl). subst k. rewrite firstn_all in Hc.
    set (nw := new_ones (pool_keys P) ps) in *. exists (combine (seq (p_next P) (length nw)) nw).
    assert (M1 : map fst (combine (seq (p_next P) (length nw)) nw) = seq (p_next P) (length nw)) by (generalize (p_next P); clear; induction nw as [|x l IH]; intros n; cbn; [reflexivity | rewrite IH; reflexivity]).
    assert (M2 : map snd (combine (seq (p_next P) (length nw)) nw) = nw) by apply map_snd_combine_seq.
    destruct (C47_new P P' ps nk None Hw E) as (N1 & N2 & N3). cbv zeta in N1, N2. fold nw in N1, N2.
    split; [exact Hc|]. split; [intros [i c] I; apply in_combine_r in I; apply (new_ones_incl ps (pool_keys P)); exact I|]. split; [|split; [|split; [|split; [exact N3 | split]]]].
    - intros c I. rewrite Hc. destruct (new_ones_all ps (pool_keys P) c I) as [J|(c' & J & Ek)].
      + apply in_map_iff in J. destruct J as (ic & Ek & J). exists ic. split; [apply in_or_app; left; exact J | exact Ek].
      + fold nw in J. rewrite <- M2 in J. apply in_map_iff in J. destruct J as (ic & <- & J). exists ic. split; [apply in_or_app; right; exact J | exact Ek].
    - rewrite M1. exact N1.
    - intros m. rewrite (N2 m). rewrite <- M2 at 1. rewrite map_map. reflexivity.
    - exact (C47_rows P P' ps nk Hw E).
    - unfold add_cands in E. destruct (add_loop (with_nkey P nk) ps nk None []) as [P1 out] eqn:El. pose proof (loop_nkeys ps (with_nkey P nk) nk None [] P1 out (note_twice (p_nkeys P) nk) El) as En.
      cbn [with_nkey p_nkeys] in En. rewrite <- En. destruct out as [[|r l]|e|]; try discriminate; [injection E as <-; reflexivity|]. destruct (p_rows P1) as [rows|] eqn:Er; [destruct (p_sorted P1); try discriminate|]; injection E as <-; reflexivity.
  Qed.
End PoolKept.

(* ------------------------------------------------------------ candidates *)
Lemma bare_erase (t : tree nat) : bare_tree t = erase t.
Proof. reflexivity. Qed.
Lemma minor_inside (c c' : ccand nat) : shaped c -> shaped c' -> minor_of c = minor_of c' -> inside c = inside c'.
Proof.
  assert (Hb : forall ch : list (tree nat * Z), map (fun cd => (bare_tree (fst cd), snd cd)) ch = map (fun cd => (erase (fst cd), snd cd)) ch) by (intros ch; apply map_ext; intros cd; rewrite bare_erase; reflexivity).
  intros [_ (n & r & p & ch & E) _] [_ (n' & r' & p' & ch' & E') _]. unfold minor_of, inside, kids_of, tree_of in *.
  destruct (cc_P c) as [e q|t], (cc_P c') as [e' q'|t']; try subst t; try subst t'; intros M; try discriminate M; rewrite ?Hb in M; injection M as M; subst; [reflexivity | exact M].
Qed.
(* what is known of a pattern built by the mining *)
Record body_ok (evs : list occ) (c : ccand nat) : Prop := {
  bo_shape : shaped c;
  bo_full : full c;
  bo_ids : NoDup (kid_ids c);
  bo_events : incl (dated c) evs }.
(* [known q c]: q is a code length the mining may give to c *)
Record cand_ok (known : Q -> ccand nat -> Prop) (evs : list occ) (c : scand) : Prop := {
  co_body : body_ok evs (c_body c);
  co_minor : c_minor c = minor_of (c_body c);
  co_cost : exists q, c_cost c = Some q /\ known q (c_body c);
  co_r : c_r c = Z.of_nat (reps_of (c_body c));
  co_occs : length (c_occs c) = reps_of (c_body c);
  co_p : c_p c = snd (major_rp (c_body c));
  co_major : c_major c = (hd 0%Z (cc_O (c_body c)), major_rp (c_body c)) }.
Lemma stride_length n r l : 1 <= n -> length l = r * n -> exists l', stride n l = Ret l' /\ length l' = r.
Proof.
  intros Hn Hl. unfold stride. destruct n as [|n]; [lia|]. eexists. split; [reflexivity|]. rewrite map_length, seq_length, Hl.
  symmetry. apply (Nat.div_unique _ _ _ n); lia.
Qed.
Lemma major_occs_length c l m : shaped c -> length l = reps_of c * m -> 1 <= m -> (is_complex c = false -> length l = reps_of c) ->
  exists l', major_occs c l = Ret l' /\ length l' = reps_of c.
Proof.
  intros Ss Hl Hm Hi. unfold major_occs. destruct (is_complex c) eqn:Ec; [|exists l; split; [reflexivity | apply Hi; reflexivity]].
  assert (Hr : fst (major_rp c) = reps_of c).
  { destruct Ss as [_ (n & r & p & ch & E) _]. unfold major_rp, reps_of, is_complex, tree_of in *. destruct (cc_P c) as [e q|t]; [discriminate|]. subst t. reflexivity. }
  rewrite Hr, Hl. destruct (Nat.eq_dec (reps_of c) 0) as [E0|N0].
  { destruct (shaped_block c Ss) as (m' & _ & H1 & _). lia. }
  rewrite Nat.mul_comm, Nat.div_mul by exact N0. apply stride_length; [exact Hm|]. rewrite Hl. reflexivity.
Qed.
Lemma plain_reps c : shaped c -> is_complex c = false -> length (cc_O c) = reps_of c.
Proof. intros Ss E. rewrite <- (shaped_reps c Ss). unfold major_r, is_complex in *. destruct (cc_P c) as [e p|t]; [reflexivity|]. rewrite E. destruct t; reflexivity. Qed.
Lemma complex_cand_ok (known : Q -> ccand nat -> Prop) evs q c : body_ok evs c -> known q c -> exists sc, complex_cand q c = Ret sc /\ c_body sc = c /\ cand_ok known evs sc.
Proof.
  intros Hb Hq. pose proof Hb as [Ss Fu Ids Hi]. unfold complex_cand. destruct (shaped_block c Ss) as (m & Hm & H1 & Hl).
  unfold get_t0. destruct (cc_O c) as [|o os] eqn:EO; [destruct (shaped_nonempty c Ss EO)|]. rewrite <- EO in *. cbn [bind].
  destruct (major_occs_length c (cc_O c) m Ss Hl Hm (plain_reps c Ss)) as (l & -> & El). cbn [bind].
  assert (Hl2 : length (0%Z :: cc_E c) = reps_of c * m) by (cbn [length]; rewrite Fu, <- Hl, EO; cbn [length]; lia).
  assert (exists es, (if is_complex c then bind (major_occs c (0%Z :: cc_E c)) (fun l => Ret (tl l)) else Ret (cc_E c)) = Ret es) as (es & ->).
  { destruct (is_complex c) eqn:Ec; [|eauto]. destruct (major_occs_length c _ m Ss Hl2 Hm) as (l' & -> & _); [congruence|]. cbn [bind]. eauto. }
  cbn [bind]. eexists. split; [reflexivity|]. split; [reflexivity|]. constructor; cbn; [exact Hb | reflexivity | eauto | f_equal; apply shaped_reps, Ss | exact El | reflexivity | rewrite EO; reflexivity].
Qed.
Lemma length_compute_E os p : length (compute_E os p) = length os - 1.
Proof. unfold compute_E. rewrite map_length. induction os as [|x [|y os] IH]; try reflexivity. cbn [length] in *. cbn. f_equal. cbn in IH. lia. Qed.
Lemma simple_dated (a : nat) p os es : dated {| cc_P := Simple a p; cc_O := os; cc_E := es |} = map (fun o => (o, a)) os.
Proof.
  rewrite <- ev_occs_dated. unfold ev_occs. cbn. induction os as [|o os IH]; [reflexivity|]. cbn. f_equal. exact IH.
Qed.
Lemma simple_sound (a : nat) p os : 1 <= length os -> sound {| cc_P := Simple a p; cc_O := os; cc_E := compute_E os p |}.
Proof.
  intros Hl. destruct (C40_simple_cycle a os p Hl) as (_ & HE & _ & Hc). cbn zeta in *. constructor; unfold tree_of; cbn [cc_P cc_O cc_E].
  - unfold simple_tree. constructor; [exact Hl | eexists; eexists; reflexivity | constructor; [constructor | constructor]].
  - unfold simple_tree. eauto.
  - cbn. lia.
  - rewrite HE. cbn. lia.
  - rewrite simple_dated. exact Hc.
Qed.
Lemma simple_cand_ok (known : Q -> ccand nat -> Prop) evs a y : 1 <= length (y_occs y) -> (forall o, In o (y_occs y) -> In (o, a) evs) -> known (y_cost y) (c_body (simple_cand a y)) -> cand_ok known evs (simple_cand a y) /\ sound (c_body (simple_cand a y)) /\ length (kids_of (c_body (simple_cand a y))) = 1.
Proof.
  intros Hl Hi Hq. pose proof (simple_sound a (y_p y) (y_occs y) Hl) as Hs. split; [|split; [exact Hs | reflexivity]].
  constructor; [|reflexivity | exists (y_cost y); split; [reflexivity | exact Hq] | reflexivity | reflexivity | reflexivity |]; cbn.
  2: { unfold simple_cand, major_rp. cbn. destruct (y_occs y); reflexivity. } constructor; [apply sound_shaped, Hs | apply sound_full, Hs | constructor; [intros [] | constructor] |].
  rewrite simple_dated. intros x I. apply in_map_iff in I. destruct I as (o & <- & I). apply Hi, I.
Qed.

Lemma F2_in {X Y} (P : X -> Y -> Prop) l m y : Forall2 P l m -> In y m -> exists x, In x l /\ P x y.
Proof. induction 1 as [|x y' l m Hxy F IH]; intros I; [destruct I|]. destruct I as [<-|I]; [exists x; cbn; auto|]. destruct (IH I) as (x' & I' & Hx). exists x'. cbn. auto. Qed.
Lemma in_removelast {X} (l : list X) x : In x (removelast l) -> In x l.
Proof. induction l as [|a [|b l] IH]; intros I; [exact I | destruct I|]. destruct I as [<-|I]; [left; reflexivity | right; apply IH, I]. Qed.
Lemma dget_map_snd {X Y} (g : X -> Y) (d : dict nat X) k : dget (map (fun ic => (fst ic, g (snd ic))) d) k = match dget d k with Some c => Some (g c) | None => None end.
Proof. induction d as [|[i x] d IH]; [reflexivity|]. cbn [map dget fst snd]. destruct (eq_dec k i); [reflexivity | exact IH]. Qed.
Lemma ids_get (P : spool) i c : well_formed P -> In (i, c) (p_cands P) -> dget (p_cands P) i = Some c.
Proof. intros Hw I. apply VerticalProofs.In_dget; [|exact I]. unfold dkeys. rewrite (wf_ids _ Hw). apply seq_NoDup. Qed.

(* ------------------------------------------------------------ the rounds *)
Section Rounds.
  Variable cost : ccand nat -> Q.
  Variable bare : ccand nat -> option Q.
  Variable ntrip : ccand nat -> Z -> Z -> Q.
  Variable ncyc : ccand nat -> Z -> list Z -> Q.
  Variable nm : list (ccand nat) -> nat -> nat -> nat.
  Variable text_leb : prkey -> prkey -> bool.
  Variable nms : list (ccand nat) -> nat -> nat -> nat.
  Variable text_lt : list nat -> list nat -> bool.
  Variable iter : list nat -> list nat.
  Variable key_iter : list minor -> list minor.
  Variable small : Z -> bool.
  Variable dc : dict nat Q.
  Variable evs : list occ.
  Variable known : Q -> ccand nat -> Prop.
  Hypothesis Hknown : forall c, known (cost c) c.
  Hypothesis Hlevels : fresh_levels nm.
  Hypothesis Hids : fresh_ids nms.
  Hypothesis Hiter : forall l, Permutation (iter l) l.
  Hypothesis Hdc : forall o, In o evs -> dget dc (snd o) <> None.
  Notation vertical := (vertical cost bare ntrip ncyc nm text_leb key_iter small).
  Notation horizontal := (horizontal cost nms text_lt iter dc).
  Notation combine_round := (combine_round cost bare ntrip ncyc nm text_leb nms text_lt iter key_iter small dc).
  Notation combine_rounds := (combine_rounds cost bare ntrip ncyc nm text_leb nms text_lt iter key_iter small dc).
  Record pool_inv (P : spool) : Prop := {
    pi_kept : kept_pool P;
    pi_cands : forall i c, In (i, c) (p_cands P) -> cand_ok known evs c }.
  Definition all_sound (P : spool) : Prop := forall i c, In (i, c) (p_cands P) -> sound (c_body c).
  Definition one_child (P : spool) : Prop := forall i c, In (i, c) (p_cands P) -> length (kids_of (c_body c)) = 1.

  Lemma class_ok P mk : pool_inv P -> exists cls, class_of P mk = Ret cls /\ (forall c, In c (map fst cls) -> exists i sc, In (i, sc) (p_cands P) /\ c = c_body sc) /\ one_kind (map fst cls).
  Proof.
    intros [[Hw Hin _ _] Hc].
    assert (Hcid : forall cid, In cid (map snd (dget_or (p_map P) mk [])) -> exists c, dget (p_cands P) cid = Some c /\ c_minor c = mk).
    { intros cid I. unfold dget_or in I. destruct (dget (p_map P) mk) as [d|] eqn:Ed; [|destruct I]. apply in_map_iff in I. destruct I as ([MK cid'] & E & I). cbn in E. subst cid'.
      pose proof (VerticalProofs.In_dget _ _ _ (Hin mk d Ed) I) as Eg. destruct (proj1 (wf_map _ Hw (mk, MK) cid)) as (c & E1 & E2); [exists d; auto|]. exists c. split; [exact E1|]. injection E2 as E2 _. exact E2. }
    destruct (map_out_split (fun cid => bind (get_cand P cid) (fun c => match c_cost c with Some q => Ret (c_body c, q) | None => Exn TypeError end))
      (fun cid r => exists sc, In (cid, sc) (p_cands P) /\ fst r = c_body sc /\ c_minor sc = mk) (map snd (dget_or (p_map P) mk []))) as (cls & E & F).
    { intros cid I. destruct (Hcid cid I) as (c & E1 & E2). unfold get_cand. rewrite E1. cbn [bind]. pose proof (VerticalProofs.dget_In _ _ _ E1) as Ic. destruct (co_cost _ _ _ (Hc _ _ Ic)) as (q & Hq & _). rewrite Hq. eexists. split; [reflexivity|]. exists c. cbn [fst]. auto. }
    exists cls. unfold class_of. split; [exact E|].
    assert (Hcl : forall c, In c (map fst cls) -> exists i sc, In (i, sc) (p_cands P) /\ c = c_body sc /\ c_minor sc = mk).
    { intros c I. apply in_map_iff in I. destruct I as (r & <- & I). apply (F2_in _ _ _ _ F) in I. destruct I as (cid & _ & sc & I1 & I2 & I3). exists cid, sc. auto. }
    split; [intros c I; destruct (Hcl c I) as (i & sc & I1 & I2 & _); eauto|]. intros c c' I I'. destruct (Hcl c I) as (i & sc & I1 & -> & M1). destruct (Hcl c' I') as (i' & sc' & I1' & -> & M2).
    pose proof (Hc _ _ I1) as [B1 N1 _ _ _ _ _]. pose proof (Hc _ _ I1') as [B2 N2 _ _ _ _ _]. apply minor_inside; [apply (bo_shape _ _ B1) | apply (bo_shape _ _ B2) | congruence].
  Qed.
  Lemma vertical_ok P nk : pool_inv P -> exists vs, vertical P nk = Ret vs /\ forall c, In c vs -> body_ok evs c /\ (all_sound P -> sound c).
  Proof.
    intros Hp. unfold ComplexModel.vertical. set (mks := key_iter _). clearbody mks.
    destruct (map_out_split (class_of P) (fun _ cls => (forall c, In c (map fst cls) -> exists i sc, In (i, sc) (p_cands P) /\ c = c_body sc) /\ one_kind (map fst cls)) mks) as (classes & E & F).
    { intros mk _. apply class_ok, Hp. }
    rewrite E. cbn [bind].
    assert (Hcls : forall cls, In cls classes -> (forall c, In c (map fst cls) -> exists i sc, In (i, sc) (p_cands P) /\ c = c_body sc) /\ one_kind (map fst cls)).
    { intros cls I. apply (F2_in _ _ _ _ F) in I. destruct I as (mk & _ & I). exact I. }
    destruct (C86_vertical cost bare ntrip ncyc small nm text_leb classes) as (res & Er & Hr).
    { apply Forall_forall. intros cls I. destruct (Hcls cls I) as [H1 H2]. split; [|exact H2]. intros c Ic. destruct (H1 c Ic) as (i & sc & Is & ->). apply (bo_shape evs), (co_body _ _ _ (pi_cands _ Hp _ _ Is)). }
    exists res. split; [exact Er|]. intros c I. destruct (Hr c I) as (Ss & cls & parts & I1 & _ & Hinc & Hd & Hso & Hf & Hi & _). destruct (Hcls cls I1) as [H1 _].
    assert (Hpart : forall c', In c' parts -> exists i sc, In (i, sc) (p_cands P) /\ c' = c_body sc) by (intros c' I'; apply H1, Hinc, I').
    split.
    - constructor; [exact Ss | | |].
      + apply Hf. intros c' I'. destruct (Hpart c' I') as (i & sc & Is & ->). apply (bo_full evs), (co_body _ _ _ (pi_cands _ Hp _ _ Is)).
      + destruct Hi as (t & Et & Nt); [exact Hlevels | intros c' I'; destruct (Hpart c' I') as (i & sc & Is & ->); apply (bo_ids evs), (co_body _ _ _ (pi_cands _ Hp _ _ Is))|].
        unfold kid_ids. rewrite Et. destruct (node_ids t); [constructor | inversion Nt; assumption].
      + rewrite Hd. intros o Io. apply in_concat in Io. destruct Io as (l & Il & Io). apply in_map_iff in Il. destruct Il as (c' & <- & I'). destruct (Hpart c' I') as (i & sc & Is & ->).
        apply (bo_events _ _ (co_body _ _ _ (pi_cands _ Hp _ _ Is))), Io.
    - intros Ha. apply Hso. intros c' I'. destruct (Hpart c' I') as (i & sc & Is & ->). apply (Ha _ _ Is).
  Qed.

  Lemma sorted_in_time rows l : ordered (key_at rows) l -> in_time_order rows l.
  Proof.
    unfold ordered, in_time_order. intros Hs. induction Hs as [|x l Hs IH Hx]; [constructor|]. constructor; [exact IH|]. rewrite Forall_forall in *. intros y I. specialize (Hx y I).
    unfold not_after, key_at, row_key, PropPeriod.before in Hx. destruct Hx as [E|E]; [injection E as E _ _; unfold t0_at, row_at; lia | unfold t0_at, row_at; lia].
  Qed.

  Lemma rows_good P rows l : pool_inv P -> p_rows P = Some rows -> p_sorted P = PList l ->
    pool_ok rows (map (fun ic => (fst ic, c_body (snd ic))) (p_cands P)) dc l /\
    forall i, In i l -> exists c, In (r_cid (row_at rows i), c) (p_cands P) /\ cnd rows (map (fun ic => (fst ic, c_body (snd ic))) (p_cands P)) i = c_body c.
  Proof.
    intros [[Hw Hin Hr _] Hc] Er Es. pose proof (wf_sorted _ Hw) as Hs. rewrite Er, Es in Hs. destruct Hs as [Hperm Hord].
    assert (Hl : forall i, In i l -> i < length rows) by (intros i I; apply (Permutation_in _ Hperm) in I; apply in_seq in I; lia).
    assert (Hrow : forall i, In i l -> exists c k mo, In (r_cid (row_at rows i), c) (p_cands P) /\ In (row_at rows i) (get_props c (r_cid (row_at rows i)) k mo)).
    { intros i I. apply (Hr rows Er). unfold row_at. apply nth_In, Hl, I. }
    assert (Hcnd : forall i c, In (r_cid (row_at rows i), c) (p_cands P) -> dget (map (fun ic => (fst ic, c_body (snd ic))) (p_cands P)) (cid_at rows i) = Some (c_body c)).
    { intros i c I. unfold cid_at. rewrite (dget_map_snd (@c_body _ _ _)), (ids_get P _ c Hw I). reflexivity. }
    assert (Hcnd' : forall i c, In (r_cid (row_at rows i), c) (p_cands P) -> cnd rows (map (fun ic => (fst ic, c_body (snd ic))) (p_cands P)) i = c_body c).
    { intros i c I. unfold cnd. rewrite (Hcnd i c I). reflexivity. }
    split.
    - constructor; [apply sorted_in_time, Hord | apply (Permutation_NoDup (Permutation_sym Hperm)), seq_NoDup|]. intros i I. split; [apply Hl, I|].
      destruct (Hrow i I) as (c & k & mo & I1 & I2). destruct (Hc _ _ I1) as [[B1 B2 B3 B4] _ _ C4 C5 _ _]. destruct (props_fields _ _ _ _ _ I2) as (F1 & F2 & _).
      constructor; rewrite ?(Hcnd' i c I1); [apply (Hcnd i c I1) | exact B1 | exact B2 | exact B3 | rewrite F1; exact C4 | rewrite <- C5; exact F2 |].
      intros o Io. apply Hdc, B4, Io.
    - intros i I. destruct (Hrow i I) as (c & k & mo & I1 & _). exists c. split; [exact I1 | apply (Hcnd' i c I1)].
  Qed.
  Lemma nb_new_none P : pool_inv P -> p_cands P = [] -> forall nk, nb_new P nk = 0.
  Proof.
    intros [[Hw _ _ Hn] _] E nk. pose proof (wf_ids _ Hw) as Hi. rewrite E in Hi. cbn in Hi. destruct (p_next P) as [|n] eqn:En; [|discriminate].
    assert (Hnil : forall k l, In (k, l) (p_new_cids P) -> l = []) by (intros k [|x l] I; [reflexivity|]; specialize (Hn k (x :: l) x I (or_introl eq_refl)); lia).
    unfold nb_new. destruct nk as [nk|].
    - unfold dget_or. destruct (dget (p_new_cids P) (Some nk)) as [l|] eqn:Ed; [|reflexivity]. rewrite (Hnil _ _ (VerticalProofs.dget_In _ _ _ Ed)). reflexivity.
    - clear -Hnil. induction (p_new_cids P) as [|[k l] d IH]; [reflexivity|]. cbn [map list_sum fold_right snd]. rewrite (Hnil k l (or_introl eq_refl)). apply IH. intros k' l' I. apply (Hnil k' l'). right. exact I.
  Qed.
  Lemma horizontal_ok P nk : pool_inv P -> p_rows P <> None -> exists hs, horizontal P nk = Ret hs /\ forall c, In c hs -> body_ok evs c /\ (all_sound P -> one_child P -> sound c).
  Proof.
    intros Hp Hn. unfold ComplexModel.horizontal. destruct (nb_new P nk =? 0) eqn:En; [exists []; split; [reflexivity | intros c []]|].
    pose proof (wf_sorted _ (kp_wf _ (pi_kept _ Hp))) as Hs. destruct (p_rows P) as [rows|] eqn:Er.
    2: { congruence. }
    destruct (p_sorted P) as [| |l] eqn:Es; try contradiction. destruct (rows_good P rows l Hp Er Es) as [Hpo Hcn].
    set (cands := map (fun ic => (fst ic, c_body (snd ic))) (p_cands P)) in *.
    destruct (C87_horizontal rows cands (known_cost P) (fun c => Some (cost c)) dc (index_of (p_nkeys P) nk) nms text_lt iter l Hids Hiter Hpo true) as (res & E & _ & Hr).
    exists res. split; [exact E|]. intros c I. destruct (Hr c I) as (pids & c0 & Hj & _ & Ss & Fu & Hso & _ & (t & Et & Nt) & _ & Hinc & _ & _).
    assert (Hin : forall i, In i pids -> exists sc, In (r_cid (row_at rows i), sc) (p_cands P) /\ cnd rows cands i = c_body sc).
    { intros i Ii. apply Hcn. destruct Hj as [(_ & Hj & _) _ _]. apply Hj, Ii. }
    split.
    - constructor; [exact Ss | exact Fu | unfold kid_ids; rewrite Et; destruct (node_ids t); [constructor | inversion Nt; assumption] |].
      intros o Io. apply Hinc in Io. apply in_concat in Io. destruct Io as (m & Im & Io). apply in_map_iff in Im. destruct Im as (i & <- & Ii). destruct (Hin i Ii) as (sc & Is & Ec). rewrite Ec in Io.
      apply (bo_events _ _ (co_body _ _ _ (pi_cands _ Hp _ _ Is))), Io.
    - intros Ha Ho. apply Hso; intros i Ii; [|apply in_removelast in Ii]; destruct (Hin i Ii) as (sc & Is & Ec); rewrite Ec; [apply (Ha _ _ Is) | apply (Ho _ _ Is)].
  Qed.
  Lemma read_all (P : ccand nat -> Prop) cs : (forall c, In c cs -> body_ok evs c /\ P c) ->
    exists scs, map_out (fun c => complex_cand (cost c) c) cs = Ret scs /\ forall sc, In sc scs -> cand_ok known evs sc /\ In (c_body sc) cs.
  Proof.
    intros Hc. destruct (map_out_split (fun c => complex_cand (cost c) c) (fun c sc => c_body sc = c /\ cand_ok known evs sc) cs) as (scs & E & F).
    { intros c I. destruct (complex_cand_ok known evs (cost c) c (proj1 (Hc c I)) (Hknown c)) as (sc & E & H1 & H2). exists sc. auto. }
    exists scs. split; [exact E|]. intros sc I. destruct (F2_in _ _ _ _ F I) as (c & Ic & E1 & E2). split; [exact E2 | rewrite E1; exact Ic].
  Qed.
  Lemma add_inv P scs nk : pool_inv P -> (forall sc, In sc scs -> cand_ok known evs sc) -> p_rows P <> None ->
    exists P', added (add_cands P scs nk None) = Ret P' /\ pool_inv P' /\ (forall ic, In ic (p_cands P') -> In ic (p_cands P) \/ In (snd ic) scs) /\ incl (p_cands P) (p_cands P') /\ p_rows P' <> None /\
      (new_under P' nk = [] -> p_cands P' = p_cands P) /\ (forall k, k <> nk -> new_under P' k = new_under P k).
  Proof.
    intros Hp Hs Hn. destruct (add_cands P scs nk None) as [P' out] eqn:E.
    destruct (add_kept (fun _ => False) P P' scs nk None out ltac:(intros c cid k []) (pi_kept _ Hp) E) as (K & Hin & Hinc & Hrow & _ & Hout). rewrite (Hout eq_refl) in *.
    exists P'. split; [reflexivity|]. pose proof (C47_new P P' scs nk None (kp_wf _ (pi_kept _ Hp)) E) as (N1 & _ & N3). cbv zeta in N1.
    pose proof (C47_add P scs nk None (kp_wf _ (pi_kept _ Hp))) as HA. rewrite E in HA. destruct HA as (_ & k & A1 & _ & A3 & _). cbv zeta in A1, A3.
    split; [|split; [exact Hin | split; [exact Hinc | split; [apply Hrow, Hn | split; [|intros k' Hk; apply (N3 k' Hk)]]]]].
    2: { intros Ez. rewrite N1 in Ez. apply app_eq_nil in Ez. destruct Ez as [_ Ez]. apply (f_equal (@length nat)) in Ez. rewrite seq_length in Ez. cbn in Ez.
         rewrite A1, (A3 eq_refl), Ez. cbn. apply app_nil_r. }
    constructor; [exact K|].
    intros i c I. destruct (Hin _ I) as [I'|I']; [apply (pi_cands _ Hp i c I') | apply Hs; exact I'].
  Qed.
  Lemma reset_inv P : pool_inv P -> pool_inv (reset_new P).
  Proof. intros [H1 H2]. constructor; [apply reset_kept, H1 | exact H2]. Qed.
  Lemma nothing_new P : nb_new P None = 0 -> forall nk, new_under P nk = [].
  Proof.
    unfold nb_new, new_under, dget_or. intros E nk. destruct (dget (p_new_cids P) nk) as [l|] eqn:Ed; [|reflexivity]. apply VerticalProofs.dget_In in Ed.
    induction (p_new_cids P) as [|[k l'] d IH]; [destruct Ed|]. cbn [map list_sum fold_right snd] in E. destruct Ed as [Ed|Ed]; [injection Ed as -> ->; apply length_zero_iff_nil; lia | apply IH; [unfold list_sum; lia | exact Ed]].
  Qed.
  (* one round: what is in the pool stays *)
  Lemma round_ok P i nkV nkH : pool_inv P -> p_rows P <> None -> exists P', combine_round i nkV nkH P = Ret P' /\ pool_inv P' /\ p_rows P' <> None /\ incl (p_cands P) (p_cands P') /\
    (all_sound P -> one_child P -> all_sound P') /\ (nb_new P' None = 0 -> p_cands P' = p_cands P).
  Proof.
    intros Hp Hn. unfold ComplexModel.combine_round. destruct (vertical_ok P nkH Hp) as (vs & -> & Hv). cbn [bind]. destruct (horizontal_ok P nkV Hp Hn) as (hs & Eh & Hh). rewrite Eh. cbn [bind].
    destruct (read_all _ vs Hv) as (cvs & -> & Hcv). destruct (read_all _ hs Hh) as (chs & -> & Hch). cbn [bind].
    destruct (add_inv (reset_new P) cvs (Some (true, i)) (reset_inv P Hp) (fun sc I => proj1 (Hcv sc I)) Hn) as (P1 & -> & Hp1 & Hin1 & Hinc1 & Hn1 & Hz1 & _). cbn [bind].
    destruct (add_inv P1 chs (Some (false, i)) Hp1 (fun sc I => proj1 (Hch sc I)) Hn1) as (P2 & E2 & Hp2 & Hin2 & Hinc2 & Hn2 & Hz2 & Ho2). exists P2. split; [exact E2|]. split; [exact Hp2|]. split; [exact Hn2|].
    split; [intros ic I; apply Hinc2, Hinc1; exact I|].
    split; [|intros Hz; pose proof (nothing_new P2 Hz) as Hz'; rewrite (Hz2 (Hz' _)); apply Hz1; rewrite <- (Ho2 (Some (true, i)) ltac:(discriminate)); apply Hz'].
    intros Ha Ho k c I. destruct (Hin2 _ I) as [I'|I']; [destruct (Hin1 _ I') as [I1|I1]; [apply (Ha k c I1)|]|].
    - apply (Hv (c_body c)); [apply (Hcv c I1) | exact Ha].
    - apply (Hh (c_body c)); [apply (Hch c I') | exact Ha | exact Ho].
  Qed.
  (* the loop: it stops with the pool of some round, and the fuel only runs out while there are new
     candidates *)
  Fixpoint run_rounds (n i : nat) (nkV nkH : nkey) (P : spool) : outcome spool :=
    match n with O => Ret P | S m => bind (combine_round i nkV nkH P) (run_rounds m (S i) (Some (true, i)) (Some (false, i))) end.
  Lemma rounds_ok : forall fuel i nkV nkH P, pool_inv P -> p_rows P <> None ->
    (exists n P', n <= fuel /\ combine_rounds fuel i nkV nkH P = Ret P' /\ run_rounds n i nkV nkH P = Ret P' /\ pool_inv P' /\ nb_new P' None = 0 /\ incl (p_cands P) (p_cands P') /\
       (n <= 1 -> p_cands P' = p_cands P) /\ (n <= 2 -> all_sound P -> one_child P -> all_sound P')) \/
    (combine_rounds fuel i nkV nkH P = NoFuel /\ exists P', run_rounds fuel i nkV nkH P = Ret P' /\ pool_inv P' /\ nb_new P' None <> 0).
  Proof.
    induction fuel as [|f IH]; intros i nkV nkH P Hp Hn; cbn [ComplexModel.combine_rounds].
    - destruct (nb_new P None =? 0) eqn:En; [apply Nat.eqb_eq in En | apply Nat.eqb_neq in En].
      + left. exists 0, P. split; [lia|]. split; [reflexivity|]. split; [reflexivity|]. split; [exact Hp|]. split; [exact En|]. split; [apply incl_refl|]. split; auto.
      + right. split; [reflexivity|]. exists P. auto.
    - destruct (nb_new P None =? 0) eqn:En; [apply Nat.eqb_eq in En | apply Nat.eqb_neq in En].
      + left. exists 0, P. split; [lia|]. split; [reflexivity|]. split; [reflexivity|]. split; [exact Hp|]. split; [exact En|]. split; [apply incl_refl|]. split; auto.
      + destruct (round_ok P i nkV nkH Hp Hn) as (P1 & E1 & Hp1 & Hn1 & Hi1 & Hs1 & Hz1). rewrite E1. cbn [bind].
        destruct (IH (S i) (Some (true, i)) (Some (false, i)) P1 Hp1 Hn1) as [(n & P' & Ln & E & Er & Hp' & Hz & Hi & Hq & Hs)|(E & P' & Er & Hp' & Hz)].
        * left. exists (S n), P'. split; [lia|]. split; [exact E|]. split; [cbn [run_rounds]; rewrite E1; exact Er|]. split; [exact Hp'|]. split; [exact Hz|]. split; [intros ic I; apply Hi, Hi1, I|].
          split.
          -- intros L1. destruct n as [|n]; [|lia]. cbn [run_rounds] in Er. injection Er as <-. apply Hz1, Hz.
          -- intros L1 Ha Ho i' c I. rewrite (Hq ltac:(lia)) in I. apply (Hs1 Ha Ho i' c I).
        * right. split; [exact E|]. exists P'. split; [cbn [run_rounds]; rewrite E1; exact Er|]. auto.
  Qed.
  (* C88: what a round adds.  [vs] and [hs] are what the vertical and the horizontal combination
     return.  Of candidates with the same keys (the pattern without node ids, the first time, the
     repetitions and the period) the pool keeps the first it got.  The new candidates are noted as
     such, and nothing else is; each gives one row per repetition but the last two. *)
  Definition rows_in (P : spool) : list row := match p_rows P with Some r => r | None => [] end.
  Definition round_adds (i : nat) (vs hs : list (ccand nat)) (P P' : spool) : Prop :=
    exists nv nh : list (nat * scand), p_cands P' = p_cands P ++ nv ++ nh /\
      (forall ic, In ic nv -> In (c_body (snd ic)) vs) /\ (forall ic, In ic nh -> In (c_body (snd ic)) hs) /\
      (forall c, In c (vs ++ hs) -> exists ic, In ic (p_cands P') /\ c_minor (snd ic) = minor_of c /\ get_t0 c = Ret (fst (c_major (snd ic))) /\ snd (c_major (snd ic)) = major_rp c) /\
      new_under P' (Some (true, i)) = map fst nv /\ new_under P' (Some (false, i)) = map fst nh /\
      (forall m, In m (minors_under P' (Some (true, i))) <-> In m (map (fun ic => c_minor (snd ic)) nv)) /\
      (forall m, In m (minors_under P' (Some (false, i))) <-> In m (map (fun ic => c_minor (snd ic)) nh)) /\
      (forall k, k <> Some (true, i) -> k <> Some (false, i) -> new_under P' k = [] /\ minors_under P' k = []) /\
      rows_in P' = rows_in P ++ flat_map (fun ic => get_props (snd ic) (fst ic) (index_of (p_nkeys P') (Some (true, i))) None) nv
                             ++ flat_map (fun ic => get_props (snd ic) (fst ic) (index_of (p_nkeys P') (Some (false, i))) None) nh.
  (* the candidates with a given pattern, and their costs *)
  Lemma class_exact P mk cls : pool_inv P -> class_of P mk = Ret cls -> forall c q, In (c, q) cls <-> exists i sc, In (i, sc) (p_cands P) /\ c_minor sc = mk /\ c_body sc = c /\ c_cost sc = Some q.
  Proof using.
    intros [[Hw Hin _ _] Hc] E c q. unfold class_of in E.
    assert (Hcid : forall cid, In cid (map snd (dget_or (p_map P) mk [])) <-> exists c, dget (p_cands P) cid = Some c /\ c_minor c = mk).
    { intros cid. unfold dget_or. split.
      - intros I. destruct (dget (p_map P) mk) as [d|] eqn:Ed; [|destruct I]. apply in_map_iff in I. destruct I as ([MK cid'] & Ec & I). cbn in Ec. subst cid'.
        pose proof (VerticalProofs.In_dget _ _ _ (Hin mk d Ed) I) as Eg. destruct (proj1 (wf_map _ Hw (mk, MK) cid)) as (c0 & E1 & E2); [exists d; auto|]. exists c0. split; [exact E1|]. injection E2 as E2 _. exact E2.
      - intros (c0 & E1 & <-). destruct (proj2 (wf_map _ Hw (keys c0) cid)) as (d & Ed & Eg); [exists c0; auto|]. cbn [keys fst snd] in Ed, Eg. rewrite Ed. apply in_map_iff. exists (c_major c0, cid). split; [reflexivity | apply VerticalProofs.dget_In, Eg]. }
    assert (Hnd : NoDup (dkeys (p_cands P))) by (unfold dkeys; rewrite (wf_ids _ Hw); apply seq_NoDup).
    assert (G : forall l r, map_out (fun cid => bind (get_cand P cid) (fun c => match c_cost c with Some q => Ret (c_body c, q) | None => Exn TypeError end)) l = Ret r ->
      (In (c, q) r <-> exists cid sc, In cid l /\ dget (p_cands P) cid = Some sc /\ c_body sc = c /\ c_cost sc = Some q)).
    { clear -P. induction l as [|x l IH]; intros r Er; cbn [map_out] in Er.
      - injection Er as <-. split; [intros [] | intros (cid & sc & [] & _)].
      - unfold get_cand in Er at 1. destruct (dget (p_cands P) x) as [sc|] eqn:Ex; cbn [bind] in Er; [|discriminate]. destruct (c_cost sc) as [q0|] eqn:Eq; cbn [bind] in Er; [|discriminate].
        destruct (map_out _ l) as [r'|e|] eqn:El; cbn [bind] in Er; try discriminate. injection Er as <-. specialize (IH r' eq_refl). split.
        + intros [I|I]; [injection I as <- <-; exists x, sc; cbn; auto|]. apply IH in I. destruct I as (cid & sc' & I1 & I2). exists cid, sc'. cbn. auto.
        + intros (cid & sc' & [<-|I1] & I2 & I3 & I4); [left; rewrite Ex in I2; injection I2 as <-; congruence | right; apply IH; exists cid, sc'; auto]. }
    rewrite (G _ _ E). split.
    - intros (cid & sc & I1 & I2 & I3 & I4). apply Hcid in I1. destruct I1 as (c0 & J1 & J2). rewrite I2 in J1. injection J1 as <-. exists cid, sc. split; [apply VerticalProofs.dget_In, I2 | auto].
    - intros (cid & sc & I1 & I2 & I3 & I4). exists cid, sc. pose proof (VerticalProofs.In_dget _ _ _ Hnd I1) as Eg. split; [apply Hcid; exists sc; auto | auto].
  Qed.
  Lemma read_keys cs scs : map_out (fun c => complex_cand (cost c) c) cs = Ret scs ->
    forall c, In c cs -> exists sc, In sc scs /\ c_minor sc = minor_of c /\ get_t0 c = Ret (fst (c_major sc)) /\ snd (c_major sc) = major_rp c.
  Proof using.
    revert scs. induction cs as [|x cs IH]; intros scs E c I; [destruct I|]. cbn [map_out] in E. destruct (complex_cand (cost x) x) as [sx|e|] eqn:Ex; cbn [bind] in E; try discriminate.
    destruct (map_out _ cs) as [scs'|e|] eqn:El; cbn [bind] in E; try discriminate. injection E as <-. destruct I as [<-|I]; [|destruct (IH scs' eq_refl c I) as (sc & I1 & I2); exists sc; cbn; auto].
    exists sx. split; [left; reflexivity|]. unfold complex_cand in Ex. destruct (get_t0 x) as [t0|e|]; cbn [bind] in Ex; try discriminate. destruct (major_occs x (cc_O x)) as [os|e|]; cbn [bind] in Ex; try discriminate.
    destruct (if is_complex x then _ else _) as [es|e|]; cbn [bind] in Ex; try discriminate. injection Ex as <-. cbn. auto.
  Qed.
  Lemma added_ret (r : spool * outcome unit) P : added r = Ret P -> r = (P, Ret tt).
  Proof using. destruct r as [Q [[]|e|]]; cbn; intros E; try discriminate. injection E as ->. reflexivity. Qed.
  Lemma round_exact P i nkV nkH P' : pool_inv P -> p_rows P <> None -> combine_round i nkV nkH P = Ret P' -> exists vs hs, vertical P nkH = Ret vs /\ horizontal P nkV = Ret hs /\ round_adds i vs hs P P'.
  Proof.
    intros Hp Hn. unfold ComplexModel.combine_round. destruct (vertical_ok P nkH Hp) as (vs & -> & Hv). cbn [bind]. destruct (horizontal_ok P nkV Hp Hn) as (hs & Eh & Hh). rewrite Eh. cbn [bind].
    destruct (read_all _ vs Hv) as (cvs & Ev & Hcv). destruct (read_all _ hs Hh) as (chs & Ec & Hch). rewrite Ev, Ec. cbn [bind].
    destruct (add_inv (reset_new P) cvs (Some (true, i)) (reset_inv P Hp) (fun sc I => proj1 (Hcv sc I)) Hn) as (P1 & E1 & Hp1 & _). rewrite E1. cbn [bind]. intros E2.
    exists vs, hs. split; [reflexivity|]. split; [reflexivity|].
    assert (A1 : add_cands (reset_new P) cvs (Some (true, i)) None = (P1, Ret tt)) by (apply added_ret, E1).
    assert (A2 : add_cands P1 chs (Some (false, i)) None = (P', Ret tt)) by (apply added_ret, E2).
    destruct (add_exact (reset_new P) P1 cvs _ (pi_kept _ (reset_inv P Hp)) A1) as (nv & B1 & B2 & B3 & B4 & B5 & B6 & B7 & B8).
    destruct (add_exact P1 P' chs _ (pi_kept _ Hp1) A2) as (nh & C1 & C2 & C3 & C4 & C5 & C6 & C7 & C8).
    change (p_cands (reset_new P)) with (p_cands P) in *. change (p_rows (reset_new P)) with (p_rows P) in *.
    destruct (C6 (Some (true, i)) ltac:(discriminate)) as [D1 D2]. destruct (B6 (Some (false, i)) ltac:(discriminate)) as [D3 D4].
    exists nv, nh. split; [rewrite C1, B1, app_assoc; reflexivity|]. split; [intros ic I; apply (Hcv (snd ic)), B2, I|]. split; [intros ic I; apply (Hch (snd ic)), C2, I|].
    split; [|split; [|split; [|split; [|split; [|split]]]]].
    - intros c I. apply in_app_or in I. destruct I as [I|I].
      + destruct (read_keys vs cvs Ev c I) as (sc & I1 & I2 & I3 & I4). destruct (B3 sc I1) as (ic & I5 & I6). injection I6 as I6 I7. exists ic. split; [rewrite C1; apply in_or_app; left; exact I5|]. rewrite I6, I7. auto.
      + destruct (read_keys hs chs Ec c I) as (sc & I1 & I2 & I3 & I4). destruct (C3 sc I1) as (ic & I5 & I6). injection I6 as I6 I7. exists ic. split; [exact I5|]. rewrite I6, I7. auto.
    - rewrite D1, B4. reflexivity.
    - rewrite C4, D3. reflexivity.
    - intros m. rewrite D2, (B5 m). cbn. tauto.
    - intros m. rewrite (C5 m), D4. cbn. tauto.
    - intros k K1 K2. destruct (C6 k K2) as [-> ->]. destruct (B6 k K1) as [-> ->]. split; reflexivity.
    - assert (Ei : index_of (p_nkeys P') (Some (true, i)) = index_of (p_nkeys P1) (Some (true, i))).
      { rewrite C8. apply index_note. rewrite B8. apply in_note. }
      rewrite Ei. unfold rows_in. rewrite C7, B7, <- app_assoc. reflexivity.
  Qed.
  (* C88: the rounds one after the other.  There is another as long as the last one added something;
     in the first every candidate is new. *)
  Inductive history : nat -> nkey -> nkey -> spool -> spool -> Prop :=
  | hist_end i nkV nkH P : (forall k, new_under P k = []) -> history i nkV nkH P P
  | hist_round i nkV nkH P vs hs P1 P' : (exists kl, In kl (p_new_cids P) /\ snd kl <> []) ->
      (exists classes, Forall2 (fun mk cls => forall c q, In (c, q) cls <-> exists n sc, In (n, sc) (p_cands P) /\ c_minor sc = mk /\ c_body sc = c /\ c_cost sc = Some q) (key_iter (minors_under P nkH)) classes /\
        run_vertical cost bare ntrip ncyc small nm text_leb classes = Ret vs) ->
      horizontal P nkV = Ret hs -> round_adds i vs hs P P1 ->
      history (S i) (Some (true, i)) (Some (false, i)) P1 P' -> history i nkV nkH P P'.
  Lemma rounds_history : forall fuel i nkV nkH P P', pool_inv P -> p_rows P <> None -> combine_rounds fuel i nkV nkH P = Ret P' -> history i nkV nkH P P'.
  Proof.
    induction fuel as [|f IH]; intros i nkV nkH P P' Hp Hn E; cbn [ComplexModel.combine_rounds] in E; destruct (nb_new P None =? 0) eqn:En; try discriminate; try (injection E as <-; apply hist_end, nothing_new, Nat.eqb_eq, En).
    destruct (round_ok P i nkV nkH Hp Hn) as (P1 & E1 & Hp1 & Hn1 & _). rewrite E1 in E. cbn [bind] in E. destruct (round_exact P i nkV nkH P1 Hp Hn E1) as (vs & hs & Ev & Eh & Hr).
    apply (hist_round i nkV nkH P vs hs P1 P'); [| |exact Eh | exact Hr | apply IH; assumption].
    - apply Nat.eqb_neq in En. unfold nb_new in En. clear -En. induction (p_new_cids P) as [|[k l] d IHd]; [cbn in En; congruence|]. destruct l as [|x l]; [|exists (k, x :: l); split; [left; reflexivity | discriminate]].
      destruct IHd as (kl & I & N); [exact En|]. exists kl. split; [right; exact I | exact N].
    - unfold ComplexModel.vertical in Ev. destruct (map_out (class_of P) (key_iter (dget_or (p_new_minor P) nkH []))) as [classes|e|] eqn:Ec; cbn [bind] in Ev; try discriminate. exists classes. split; [|exact Ev].
      unfold minors_under. revert classes Ec Ev. generalize (key_iter (dget_or (p_new_minor P) nkH [])). intros mks classes Ec _. revert classes Ec. induction mks as [|mk mks IHm]; intros classes Ec; cbn [map_out] in Ec; [injection Ec as <-; constructor|].
      destruct (class_of P mk) as [cls|e|] eqn:E2; cbn [bind] in Ec; try discriminate. destruct (map_out (class_of P) mks) as [r|e|]; cbn [bind] in Ec; try discriminate. injection Ec as <-.
      constructor; [apply class_exact; assumption | apply IHm; reflexivity].
  Qed.
  (* a first round without any row *)
  Lemma rounds_no_row fuel i nkH P : pool_inv P -> p_rows P = None ->
    combine_rounds fuel i None nkH P = if nb_new P None =? 0 then Ret P else match fuel with O => NoFuel | S _ => Exn TypeError end.
  Proof.
    intros Hp Er. destruct fuel as [|f]; cbn [ComplexModel.combine_rounds]; destruct (nb_new P None =? 0) eqn:En; try reflexivity.
    unfold ComplexModel.combine_round. destruct (vertical_ok P nkH Hp) as (vs & -> & _). cbn [bind]. unfold ComplexModel.horizontal. rewrite En, Er. reflexivity.
  Qed.
End Rounds.

(* ------------------------------------------------------------ mining *)
Section Mine.
  Context {A : Type} `{EqDec A} (leA : A -> A -> bool).
  Context (leA_total : forall x y, leA x y = true \/ leA y x = true).
  Context (leA_trans : forall x y z, leA x y = true -> leA y z = true -> leA x z = true).
  Variable cyc : nat -> Z -> list Z -> Q.
  Variable trip : nat -> Z -> Z -> Q.
  Variable one : nat -> Q.
  Variable cost : ccand nat -> Q.
  Variable bare : ccand nat -> option Q.
  Variable ntrip : ccand nat -> Z -> Z -> Q.
  Variable ncyc : ccand nat -> Z -> list Z -> Q.
  Variable nm : list (ccand nat) -> nat -> nat -> nat.
  Variable text_leb : prkey -> prkey -> bool.
  Variable nms : list (ccand nat) -> nat -> nat -> nat.
  Variable text_lt : list nat -> list nat -> bool.
  Variable iter : list nat -> list nat.
  Variable key_iter : list minor -> list minor.
  Hypothesis Hlevels : fresh_levels nm.
  Hypothesis Hids : fresh_ids nms.
  Hypothesis Hiter : forall l, Permutation (iter l) l.
  (* no cycle is cheaper than one occurrence of its event *)
  Definition dear : Prop := (forall a, (0 < one a)%Q) /\ (forall a p os, (one a <= cyc a p os)%Q) /\ (forall a dp dE, (one a <= trip a dp dE)%Q).

  Lemma dear_found (ds : @dataseq A) a y : dear -> found_cycle (cyc a) (trip a) (times ds a) y -> (one a <= y_cost y)%Q.
  Proof. intros (_ & D1 & D2) (_ & _ & _ & _ & [->|(x & y' & z & _ & _ & ->)]); auto. Qed.
  Lemma dear_rows a y cid k : (0 < one a)%Q -> 3 <= length (y_occs y) -> (one a <= y_cost y)%Q ->
    get_props (simple_cand a y) cid k (Some (Z.min (Qfloor (y_cost y / one a)%Q) (Z.of_nat (length (y_occs y)) - 2))) <> [].
  Proof.
    intros H1 Hl Hq. assert (Hf : (1 <= Qfloor (y_cost y / one a))%Z).
    { change 1%Z with (Qfloor 1). apply Qfloor_resp_le. apply Qle_shift_div_l; [exact H1 | rewrite Qmult_1_l; exact Hq]. }
    unfold get_props. cbn [simple_cand c_occs]. set (m := Z.min _ _). assert (Hm : (1 <= m)%Z) by (unfold m; lia). clearbody m. destruct (y_occs y) as [|o os]; [cbn in Hl; lia|].
    unfold upto. destruct (Z.ltb_spec m 0) as [L|L]; [lia|]. destruct (Z.to_nat m) eqn:Em; [lia|]. cbn. discriminate.
  Qed.
  Lemma fill_kept (ds : @dataseq A) sfuel n : forall a (P P' : spool), kept_pool P -> good_cands cyc trip ds a P -> fill cyc trip one sfuel ds (List.seq a n) P = Ret P' ->
    kept_pool P' /\ (dear -> (p_rows P = None -> p_cands P = []) -> p_rows P' = None -> p_cands P' = []).
  Proof.
    induction n as [|n IH]; intros a P P' Hk Hg; cbn [List.seq fill]; [intros E; injection E as <-; auto|].
    change (extract_alpha (cyc a) (trip a) (small_of (ds_end ds - ds_start ds)) (one a) a sfuel (times ds a) None) with (extract cyc trip one ds sfuel a).
    destruct (extract cyc trip one ds sfuel a) as [ys|e|] eqn:E; cbn [bind]; try discriminate.
    destruct (fill_step cyc trip one ds sfuel P a ys (kp_wf _ Hk) Hg E) as (P1 & E1 & Hw1 & Hg1). rewrite E1. intros Ef.
    assert (E' := E). apply event_sound in E'. destruct E' as [F _].
    pose proof (add_kept (fun _ => False) P P1 _ _ _ _ ltac:(intros c cid k []) Hk E1) as (K1 & _).
    destruct (IH (S a) P1 P' K1 Hg1 Ef) as [K' Hr']. split; [exact K'|]. intros D H0 Hn. apply (Hr' D); [|exact Hn]. intros Hn1.
    assert (Hn0 : p_rows P = None).
    { destruct (p_rows P) as [rows|] eqn:Er; [|reflexivity]. exfalso. destruct (add_kept (fun _ => False) P P1 _ _ _ _ ltac:(intros c cid k []) Hk E1) as (_ & _ & _ & Hx & _). apply Hx; [congruence | exact Hn1]. }
    set (Fl := fun c : scand => exists y, c = simple_cand a y /\ 3 <= length (y_occs y) /\ (one a <= y_cost y)%Q).
    destruct (add_kept Fl P P1 (map (simple_cand a) ys) None (Some (one a)) (Ret tt)) as (_ & _ & _ & _ & Hx & _); [|exact Hk | exact E1|].
    { intros c cid k (y & -> & Hl & Hq). cbn [simple_cand c_cost c_nb]. apply dear_rows; [apply D | exact Hl | exact Hq]. }
    rewrite Hx; [apply H0, Hn0 | reflexivity | | exact Hn1]. apply Forall_map. rewrite Forall_forall in *. intros y I. exists y. split; [reflexivity|]. specialize (F y I). split; [apply F | eapply dear_found; eassumption].
  Qed.
  (* at first all candidates are new *)
  Definition all_new (P : spool) : Prop := new_under P None = map fst (p_cands P) /\ forall m, In m (minors_under P None) <-> In m (map (fun ic => c_minor (snd ic)) (p_cands P)).
  Lemma fill_new (ds : @dataseq A) sfuel : forall l (P P' : spool), well_formed P -> all_new P -> fill cyc trip one sfuel ds l P = Ret P' -> all_new P'.
  Proof using.
    induction l as [|a l IH]; intros P P' Hw Ha; cbn [fill]; [intros [= <-]; exact Ha|].
    destruct (extract_alpha _ _ _ _ a sfuel _ None) as [ys|e|]; cbn [bind]; try discriminate. destruct (add_cands P (map (simple_cand a) ys) None (Some (one a))) as [P1 [[]|e|]] eqn:E1; try discriminate.
    pose proof (C47_add P (map (simple_cand a) ys) None (Some (one a)) Hw) as HA. rewrite E1 in HA. destruct HA as (Hw1 & k & Hc & _ & Hlen & _). cbv zeta in *. specialize (Hlen eq_refl). subst k. rewrite firstn_all in Hc.
    destruct (C47_new P P1 _ None _ Hw E1) as (N1 & N2 & _). cbv zeta in N1, N2. apply IH; [exact Hw1|]. set (nw := new_ones (pool_keys P) (map (simple_cand a) ys)) in *. split.
    - rewrite N1, Hc, map_app, (proj1 Ha). f_equal. generalize (p_next P). clear. induction nw as [|x l IH]; intros n; cbn; [reflexivity | rewrite <- IH; reflexivity].
    - intros m. rewrite (N2 m), Hc, map_app, in_app_iff, (proj2 Ha m). rewrite <- (map_map snd c_minor (combine _ nw)), map_snd_combine_seq. reflexivity.
  Qed.
  Lemma empty_kept : kept_pool (empty_pool : spool).
  Proof. constructor; [apply empty_wf | discriminate | discriminate | intros k l cid []]. Qed.
  (* the code length of a candidate: the one of its pattern or, for a cycle found in the data, the
     one it was found with *)
  Definition length_of (ds : @dataseq A) (q : Q) (c : ccand nat) : Prop :=
    q = cost c \/ exists a y, c = c_body (simple_cand a y) /\ a < length (ds_events ds) /\ found_cycle (cyc a) (trip a) (times ds a) y /\ q = y_cost y.
  Lemma fill_inv seq (ds : @dataseq A) sfuel P : represents leA seq ds -> fill cyc trip one sfuel ds (List.seq 0 (length (ds_events ds))) empty_pool = Ret P ->
    pool_inv (ds_seql ds) (length_of ds) P /\ all_sound P /\ one_child P /\ (dear -> p_rows P = None -> p_cands P = []).
  Proof.
    intros Hrep E. destruct (fill_kept ds sfuel _ _ _ _ empty_kept ltac:(intros i c []) E) as [K Hr].
    apply fill_sound in E; [|apply empty_wf | intros i c []]. destruct E as [Hw Hg]. rewrite Nat.add_0_l in Hg.
    assert (Hs : forall i c, In (i, c) (p_cands P) -> cand_ok (length_of ds) (ds_seql ds) c /\ sound (c_body c) /\ length (kids_of (c_body c)) = 1).
    { intros i c I. destruct (Hg i c I) as (a & y & -> & Ha & Hf). pose proof Hf as (Hl & _ & Hi & _). apply simple_cand_ok; [lia | |].
      - intros o Io. eapply times_log; [exact Hrep | exact Ha | apply Hi, Io].
      - right. exists a, y. auto. }
    split; [constructor; [exact K | intros i c I; apply (Hs i c I)]|]. split; [intros i c I; apply (Hs i c I)|]. split; [intros i c I; apply (Hs i c I)|]. intros D. apply (Hr D). reflexivity.
  Qed.

  Lemma seql_event seq (ds : @dataseq A) o : represents leA seq ds -> In o (ds_seql ds) -> snd o < length (ds_events ds).
  Proof.
    intros Hr I. assert (In (fst o, nth_error (ds_events ds) (snd o)) (map (fun p => (fst p, Some (snd p))) seq)) as I'.
    { apply (Permutation_in _ (rp_log _ _ _ Hr)). apply in_map_iff. exists o. destruct o; auto. }
    apply in_map_iff in I'. destruct I' as (p & E & _). injection E as _ E. apply nth_error_Some. congruence.
  Qed.
  Notation mine_complex := (mine_complex cyc trip one cost bare ntrip ncyc nm text_leb nms text_lt iter key_iter).
  Notation combine_rounds := (combine_rounds cost bare ntrip ncyc nm text_leb nms text_lt iter key_iter).
  Notation run_rounds ds := (run_rounds cost bare ntrip ncyc nm text_leb nms text_lt iter key_iter (small_of (ds_end ds - ds_start ds)) (dcosts one ds)).
  Notation fill_all sfuel ds := (fill cyc trip one sfuel ds (List.seq 0 (length (ds_events ds))) empty_pool).
  (* the rounds on the pool of simple candidates *)
  Lemma mined_rounds seq (ds : @dataseq A) sfuel rfuel P : represents leA seq ds -> fill_all sfuel ds = Ret P ->
    let cr := combine_rounds (small_of (ds_end ds - ds_start ds)) (dcosts one ds) rfuel 1 None None P in
    (exists n P', n <= rfuel /\ cr = Ret P' /\ run_rounds ds n 1 None None P = Ret P' /\ pool_inv (ds_seql ds) (length_of ds) P' /\ incl (p_cands P) (p_cands P') /\ (n <= 2 -> all_sound P')) \/
    (cr = NoFuel /\ exists P', run_rounds ds rfuel 1 None None P = Ret P' /\ nb_new P' None <> 0) \/
    (cr = Exn TypeError /\ p_rows P = None /\ p_cands P <> []).
  Proof.
    intros Hrep E. cbv zeta. destruct (fill_inv seq ds sfuel P Hrep E) as (Hp & Ha & Ho & _).
    assert (Hdc : forall o, In o (ds_seql ds) -> dget (dcosts one ds) (snd o) <> None).
    { intros o I. rewrite (dcosts_get leA one seq ds (snd o) Hrep (seql_event seq ds o Hrep I)). discriminate. }
    assert (Hkn : forall c, length_of ds (cost c) c) by (intros c; left; reflexivity).
    destruct (p_rows P) as [rows|] eqn:Er.
    - destruct (rounds_ok cost bare ntrip ncyc nm text_leb nms text_lt iter key_iter (small_of (ds_end ds - ds_start ds)) (dcosts one ds) (ds_seql ds) (length_of ds) Hkn Hlevels Hids Hiter Hdc rfuel 1 None None P Hp ltac:(congruence))
        as [(n & P' & Ln & E1 & E2 & Hp' & _ & Hi & _ & Hs)|(E1 & P' & E2 & _ & Hz)].
      + left. exists n, P'. auto 10.
      + right. left. eauto.
    - pose proof (rounds_no_row cost bare ntrip ncyc nm text_leb nms text_lt iter key_iter (small_of (ds_end ds - ds_start ds)) (dcosts one ds) (ds_seql ds) (length_of ds) Hlevels rfuel 1 None P Hp Er) as E1. rewrite E1.
      destruct (nb_new P None =? 0) eqn:En.
      + left. exists 0, P. split; [lia|]. split; [reflexivity|]. split; [reflexivity|]. split; [exact Hp|]. split; [apply incl_refl | auto].
      + apply Nat.eqb_neq in En. assert (p_cands P <> []) by (intros Ec; apply En; eapply nb_new_none; eassumption).
        destruct rfuel as [|f]; [right; left; split; [reflexivity|]; exists P; auto | right; right; auto].
  Qed.

  (* ------------------------------------------------------------ the selection *)
  (* the pattern, first time and corrections of a candidate *)
  Definition patt_of (c : ccand nat) : patt := (tree_of c, hd 0%Z (cc_O c), cc_E c).
  Definition brings (pre : list (ccand nat)) (c : ccand nat) : list occ := filter (fun o => negb (mem o (concat (map dated pre)))) (nodup eq_dec (dated c)).
  Definition at_id (cands : dict nat scand) (i : nat) (cq : ccand nat * Q) : Prop := exists sc, dget cands i = Some sc /\ c_body sc = fst cq /\ c_cost sc = Some (snd cq).
  Section Selected.
    Variable ds : @dataseq A.
    Variable P : spool.
    Hypothesis Hp : pool_inv (ds_seql ds) (length_of ds) P.
    Notation es := (map complex_entry (p_cands P)).
    Definition taken (i : nat) : ccand nat * Q :=
      match dget (p_cands P) i with Some c => (c_body c, match c_cost c with Some q => q | None => 0%Q end) | None => ({| cc_P := Simple 0 0%Z; cc_O := []; cc_E := [] |}, 0%Q) end.
    Lemma taken_entry e : In e es -> e = (e_id e, (snd (taken (e_id e)), dated (fst (taken (e_id e))))) /\ at_id (p_cands P) (e_id e) (taken (e_id e)) /\
      body_ok (ds_seql ds) (fst (taken (e_id e))) /\ length_of ds (snd (taken (e_id e))) (fst (taken (e_id e))).
    Proof.
      intros I. apply in_map_iff in I. destruct I as ([i c] & <- & I). unfold e_id, complex_entry. cbn [fst snd]. pose proof (ids_get P i c (kp_wf _ (pi_kept _ _ _ Hp)) I) as E.
      unfold taken. rewrite E. destruct (pi_cands _ _ _ Hp i c I) as [B _ (q & Eq & Hq) _ _ _ _]. rewrite Eq. cbn [fst snd]. rewrite ev_occs_dated. split; [reflexivity|].
      split; [exists c; cbn [fst snd]; auto|]. split; [exact B | exact Hq].
    Qed.
    Lemma covered_taken sel o : incl sel (map e_id es) -> In o (covered_by es sel) <-> In o (concat (map dated (map (fun i => fst (taken i)) sel))).
    Proof.
      intros Hi. unfold covered_by. rewrite in_flat_map, in_concat. split.
      - intros (e & I & Io). destruct (mem_spec (e_id e) sel) as [Is|Is]; [|destruct Io]. destruct (taken_entry e I) as (E & _).
        exists (dated (fst (taken (e_id e)))). split; [apply in_map; apply (in_map (fun i => fst (taken i))), Is|]. rewrite E in Io. exact Io.
      - intros (l & I & Io). rewrite map_map in I. apply in_map_iff in I. destruct I as (i & <- & I). pose proof (Hi i I) as Ie. apply in_map_iff in Ie.
        destruct Ie as (e & Ee & Ie). exists e. split; [exact Ie|]. rewrite Ee. destruct (mem_spec i sel) as [_|N]; [|contradiction].
        destruct (taken_entry e Ie) as (E & _). rewrite Ee in E. rewrite E. exact Io.
    Qed.
    Lemma complex_ids : NoDup (map e_id es).
    Proof. rewrite map_map. pose proof (seq_NoDup (p_next P) 0) as N. rewrite <- (wf_ids _ (kp_wf _ (pi_kept _ _ _ Hp))) in N. exact N. Qed.
    Lemma patt_ok c : shaped c -> complex_patt c = Ret (patt_of c).
    Proof.
      intros Ss. unfold complex_patt, get_t0, patt_of, tree_of. pose proof (shaped_nonempty c Ss). destruct (cc_O c) as [|o os] eqn:EO; [congruence|]. cbn [bind hd]. destruct (cc_P c); reflexivity.
    Qed.
    Lemma patts_ok sel : incl sel (map e_id es) ->
      map_out (fun i => bind (get_cand P i) (fun c => complex_patt (c_body c))) sel = Ret (map (fun i => patt_of (fst (taken i))) sel).
    Proof.
      intros Hi. apply map_out_map. intros i I. apply Hi, in_map_iff in I. destruct I as (e & <- & Ie). destruct (taken_entry e Ie) as (_ & (sc & E1 & E2 & _) & B & _). 
      assert (Eg : get_cand P (e_id e) = Ret sc) by exact (f_equal (fun o => match o with Some c => Ret c | None => Exn KeyError end) E1). cbn beta. rewrite Eg. cbn [bind]. rewrite E2.
      apply patt_ok, (bo_shape _ _ B).
    Qed.
  End Selected.

  Lemma mined_pool seq (ds : @dataseq A) sfuel rfuel cands sel ps : represents leA seq ds -> mine_complex sfuel rfuel ds = Ret (cands, sel, ps) ->
    exists P0 n P, fill_all sfuel ds = Ret P0 /\ n <= rfuel /\ run_rounds ds n 1 None None P0 = Ret P /\ cands = p_cands P /\ pool_inv (ds_seql ds) (length_of ds) P /\ incl (p_cands P0) cands /\
      (n <= 2 -> all_sound P) /\ filter_cover (map complex_entry (p_cands P)) (dcosts one ds) 3 = Ret sel /\ ps = map (fun i => patt_of (fst (taken P i))) sel.
  Proof.
    intros Hrep. unfold ComplexModel.mine_complex. destruct (fill_all sfuel ds) as [P0|e|] eqn:Ef; cbn [bind]; try discriminate.
    destruct (mined_rounds seq ds sfuel rfuel P0 Hrep Ef) as [(n & P & Ln & E & Er & Hp & Hi & Hs)|[(E & _)|(E & _)]]; cbv zeta in E; rewrite E; cbn [bind]; try discriminate.
    destruct (filter_cover (map complex_entry (p_cands P)) (dcosts one ds) 3) as [sel'|e|] eqn:Ec; cbn [bind]; try discriminate.
    destruct (C42_selection _ _ _ _ (complex_ids ds P Hp) Ec) as (_ & S2 & _). rewrite (patts_ok ds P Hp sel' S2). cbn [bind]. intros E'. injection E' as <- <- <-.
    exists P0, n, P. auto 12.
  Qed.
  (* C88: the patterns kept.  Each is the pattern of a candidate with its first occurrence time and
     its corrections, one for every later occurrence; the candidate's pattern can be expanded, its
     dated events, one for each time and leaf, are events of the log.  Each brings three or more
     events that the earlier ones do not cover.  Together they cost no more than listing the events
     they cover one by one. *)
  Theorem C88_patterns : forall seq (ds : @dataseq A) sfuel rfuel cands sel ps, represents leA seq ds -> mine_complex sfuel rfuel ds = Ret (cands, sel, ps) ->
    exists chosen : list (ccand nat * Q), Forall2 (at_id cands) sel chosen /\ ps = map patt_of (map fst chosen) /\
      (forall c q, In (c, q) chosen -> shaped c /\ full c /\ incl (dated c) (ds_seql ds) /\ length_of ds q c) /\
      (forall pre c post, map fst chosen = pre ++ c :: post -> 3 <= length (brings pre c)) /\
      (sum (map snd chosen) <= sum (map (fun o => one (snd o)) (nodup eq_dec (concat (map dated (map fst chosen))))))%Q.
  Proof.
    intros seq ds sfuel rfuel cands sel ps Hrep Hm. destruct (mined_pool seq ds sfuel rfuel cands sel ps Hrep Hm) as (P0 & n & P & _ & _ & _ & -> & Hp & _ & _ & Ec & ->).
    pose proof (complex_ids ds P Hp) as Hi. destruct (C42_selection _ _ _ _ Hi Ec) as (S1 & S2 & S3). pose proof (C42_saves _ _ _ _ Hi Ec) as S4.
    assert (Hsel : forall i, In i sel -> exists e, In e (map complex_entry (p_cands P)) /\ e_id e = i).
    { intros i I. apply S2, in_map_iff in I. destruct I as (e & E & I). exists e. auto. }
    exists (map (taken P) sel). split; [|split; [|split; [|split]]].
    - assert (G : forall l, incl l sel -> Forall2 (at_id (p_cands P)) l (map (taken P) l)).
      { induction l as [|i l IH]; intros Hl; cbn [map]; [constructor|]. constructor; [|apply IH; intros j J; apply Hl; right; exact J].
        destruct (Hsel i (Hl i (or_introl eq_refl))) as (e & Ie & <-). apply (taken_entry ds P Hp e Ie). }
      apply G, incl_refl.
    - rewrite !map_map. reflexivity.
    - intros c q I. apply in_map_iff in I. destruct I as (i & E & I). destruct (Hsel i I) as (e & Ie & <-). destruct (taken_entry ds P Hp e Ie) as (_ & _ & [B1 B2 _ B4] & L). rewrite E in *. cbn [fst snd] in *. auto.
    - intros pre c post E. rewrite map_map in E. apply map_eq_app in E. destruct E as (s1 & s2 & E & <- & E2). destruct s2 as [|i s2]; [discriminate|]. injection E2 as <- _.
      destruct (S3 _ _ _ E) as (e & Ie & Ei & (_ & Hcov & _)). destruct (taken_entry ds P Hp e Ie) as (Ee & _).
      assert (Hf : PropCover.fresh (map complex_entry (p_cands P)) s1 e = brings (map (fun i => fst (taken P i)) s1) (fst (taken P i))).
      { unfold PropCover.fresh, brings. rewrite Ee, Ei. cbn [e_unc snd]. apply filter_ext_mem. intros o. apply (covered_taken ds P Hp). intros j J. apply S2. rewrite E. apply in_app_iff. auto. }
      rewrite Hf in Hcov. lia.
    - assert (E1 : (total_cost (map complex_entry (p_cands P)) sel == sum (map snd (map (taken P) sel)))%Q).
      { unfold total_cost, sum. clear -Hsel Hi Hp. induction sel as [|i l IH]; cbn [fold_right map]; [lra|]. rewrite IH by (intros j J; apply Hsel; right; exact J).
        destruct (Hsel i (or_introl eq_refl)) as (e & Ie & <-). rewrite cost_of_spec by assumption. destruct (taken_entry ds P Hp e Ie) as (Ee & _).
        assert (e_cost e = snd (taken P (e_id e))) as -> by (rewrite Ee at 1; reflexivity). lra. }
      rewrite <- E1. eapply Qle_trans; [exact S4|]. rewrite (map_map (taken P) fst).
      assert (Hpm : Permutation (nodup eq_dec (covered_by (map complex_entry (p_cands P)) sel)) (nodup eq_dec (concat (map dated (map (fun i => fst (taken P i)) sel))))).
      { apply NoDup_Permutation; [apply NoDup_nodup | apply NoDup_nodup|]. intros o. rewrite !nodup_In. apply (covered_taken ds P Hp), S2. }
      rewrite (total_price_perm _ _ _ Hpm).
      assert (Hpr : forall o, In o (nodup eq_dec (concat (map dated (map (fun i => fst (taken P i)) sel)))) -> price (dcosts one ds) o = one (snd o)).
      { intros o I. apply nodup_In, in_concat in I. destruct I as (l & I1 & I2). rewrite map_map in I1. apply in_map_iff in I1. destruct I1 as (i & <- & I1).
        destruct (Hsel i I1) as (e & Ie & <-). destruct (taken_entry ds P Hp e Ie) as (_ & _ & B & _). apply (bo_events _ _ B) in I2. unfold price. rewrite (dcosts_get leA one seq ds _ Hrep (seql_event seq ds o Hrep I2)). reflexivity. }
      clear -Hpr. unfold total_price, sum. induction (nodup eq_dec (concat (map dated (map (fun i => fst (taken P i)) sel)))) as [|o l IH]; cbn [fold_right map]; [lra|].
      rewrite (Hpr o (or_introl eq_refl)). specialize (IH (fun o' I => Hpr o' (or_intror I))). lra.
  Qed.

  (* the selection does not fail *)
  Lemma chosen_ok seq (ds : @dataseq A) P : represents leA seq ds -> pool_inv (ds_seql ds) (length_of ds) P ->
    exists r, bind (filter_cover (map complex_entry (p_cands P)) (dcosts one ds) 3) (fun sel => bind (map_out (fun i => bind (get_cand P i) (fun c => complex_patt (c_body c))) sel) (fun ps => Ret (p_cands P, sel, ps))) = Ret r.
  Proof.
    intros Hrep Hp. destruct (C42_terminates (map complex_entry (p_cands P)) (dcosts one ds) 3 (complex_ids ds P Hp)) as (sel & Es).
    { intros e o Ie Io. destruct (taken_entry ds P Hp e Ie) as (Ee & _ & B & _). rewrite Ee in Io. cbn [e_unc snd] in Io. apply (bo_events _ _ B) in Io.
      rewrite (dcosts_get leA one seq ds _ Hrep (seql_event seq ds o Hrep Io)). discriminate. }
    rewrite Es. cbn [bind]. destruct (C42_selection _ _ _ _ (complex_ids ds P Hp) Es) as (_ & S2 & _). rewrite (patts_ok ds P Hp sel S2). cbn [bind]. eauto.
  Qed.
  (* C88: when the occurrences of each event come in chronological order and no cycle is cheaper than
     one occurrence, no round raises an exception: the mining returns, or as many rounds as allowed
     were made and the last one found new candidates. *)
  Theorem C88_rounds : forall seq (ds : @dataseq A), represents leA seq ds -> (forall a, chronological (times ds a)) -> dear ->
    exists P0, forall sfuel, (forall a, length (times ds a) + 2 <= sfuel) -> fill_all sfuel ds = Ret P0 /\ forall rfuel,
      (exists r, mine_complex sfuel rfuel ds = Ret r) \/
      (mine_complex sfuel rfuel ds = NoFuel /\ exists P, run_rounds ds rfuel 1 None None P0 = Ret P /\ nb_new P None <> 0).
  Proof.
    intros seq ds Hrep Hc Hd. destruct (fill_ends cyc trip one ds (length (ds_events ds)) Hc 0 empty_pool empty_wf ltac:(intros i c [])) as (P0 & E0). exists P0. intros sfuel Hs.
    specialize (E0 sfuel Hs). split; [exact E0|]. intros rfuel. unfold ComplexModel.mine_complex. rewrite E0. cbn [bind].
    destruct (mined_rounds seq ds sfuel rfuel P0 Hrep E0) as [(n & P & Ln & E & Er & Hp & Hi & Hs')|[(E & P & Er & Hz)|(E & Er & Hn)]]; cbv zeta in E; rewrite E; cbn [bind].
    - left. apply (chosen_ok seq ds P Hrep Hp).
    - right. split; [reflexivity | eauto].
    - exfalso. apply Hn. destruct (fill_inv seq ds sfuel P0 Hrep E0) as (_ & _ & _ & Hr). apply (Hr Hd Er).
  Qed.
  (* C88: the candidates of the simple mining are still there *)
  Theorem C88_extends : forall seq (ds : @dataseq A) sfuel rfuel c0 s0 p0 cands sel ps, represents leA seq ds ->
    mine_simple cyc trip one sfuel ds = Ret (c0, s0, p0) -> mine_complex sfuel rfuel ds = Ret (cands, sel, ps) -> incl c0 cands.
  Proof.
    intros seq ds sfuel rfuel c0 s0 p0 cands sel ps Hrep H0 Hm. destruct (mined_pool seq ds sfuel rfuel cands sel ps Hrep Hm) as (P0 & n & P & Ef & _ & _ & _ & _ & Hi & _).
    unfold mine_simple in H0. rewrite Ef in H0. cbn [bind] in H0. destruct (filter_cover _ _ _) as [sl|e|]; cbn [bind] in H0; try discriminate. destruct (map_out _ _) as [pl|e|]; cbn [bind] in H0; try discriminate. injection H0 as <- _ _. exact Hi.
  Qed.
  (* C88: a pattern is sound when it gives back exactly the occurrences it was made for *)
  Definition all_exact (cands : dict nat scand) (sel : list nat) : Prop := forall i sc, In i sel -> dget cands i = Some sc -> sound (c_body sc).
  (* C88: all are when the second round finds nothing new *)
  Theorem C88_one_round : forall seq (ds : @dataseq A) sfuel cands sel ps, represents leA seq ds -> mine_complex sfuel 2 ds = Ret (cands, sel, ps) -> all_exact cands sel.
  Proof.
    intros seq ds sfuel cands sel ps Hrep Hm i sc _ E. destruct (mined_pool seq ds sfuel 2 cands sel ps Hrep Hm) as (P0 & n & P & _ & Ln & _ & -> & _ & _ & Hs & _).
    apply (Hs Ln i). apply VerticalProofs.dget_In. exact E.
  Qed.
  (* what fit calls *)
  Definition complex_miner_of (sfuel rfuel : nat) (ds : @dataseq A) : list patt := match mine_complex sfuel rfuel ds with Ret (_, _, ps) => ps | _ => [] end.
  Variable sort_time sort_event : frame A -> frame A.
  (* C88: lossless when the patterns kept are sound, in particular when the second round found
     nothing new *)
  Theorem C88_lossless_partial : forall auto log sfuel rfuel m cands sel ps, sorts sort_time -> fit leA auto log (complex_miner_of sfuel rfuel) = Ret m ->
    mine_complex sfuel rfuel (m_ds m) = Ret (cands, sel, ps) -> (rfuel <= 2 \/ all_exact cands sel) ->
    m_patts m = ps /\ about_log m /\
    (ps <> [] -> (exists x, In x (ds_seql (m_ds m)) /\ ~ covered m x) ->
     exists R S, reconstruct sort_time sort_event m None ByTime true = Ret R /\ get_residuals sort_time sort_event m None ByTime = Ret S /\
       (forall u, In u log <-> In u (map snd R) \/ In u (map snd S)) /\ (forall u, In u (map snd R) -> ~ In u (map snd S)) /\
       NoDup (map snd R) /\ NoDup (map snd S) /\ by_time R /\ by_time S).
  Proof.
    intros auto log sfuel rfuel m cands sel ps Hsort Hfit Hm Hex. destruct (fit_sequence leA leA_total leA_trans cyc trip one auto log (complex_miner_of sfuel rfuel)) as (m' & cb & E & Hrep & Ep & _). rewrite Hfit in E. injection E as <-.
    unfold complex_miner_of in Ep. rewrite Hm in Ep. split; [exact Ep|].
    assert (Hex' : all_exact cands sel).
    { destruct Hex as [L|Hex]; [|exact Hex]. intros i sc _ Es. destruct (mined_pool cb (m_ds m) sfuel rfuel cands sel ps Hrep Hm) as (P0 & n & P & _ & Ln & _ & -> & _ & _ & Hs & _).
      apply (Hs ltac:(lia) i). apply VerticalProofs.dget_In. exact Es. }
    assert (Hab : about_log m).
    { destruct (C88_patterns cb (m_ds m) sfuel rfuel cands sel ps Hrep Hm) as (chosen & F & -> & Hc & _). intros p I. rewrite Ep in I. apply in_map_iff in I. destruct I as (c & <- & I).
      apply in_map_iff in I. destruct I as ([c' q] & Ec & I). cbn in Ec. subst c'. destruct (F2_in _ _ _ _ F I) as (i & Ii & sc & E1 & E2 & _). cbn [fst] in E2.
      pose proof (Hex' i sc Ii E1) as Hs. rewrite E2 in Hs. destruct (Hc c q I) as (Ss & _ & Hi & _). exists (dated c). split; [apply (so_cov _ Hs)|]. split; [|exact Hi].
      pose proof (shaped_nonempty c Ss) as Hn. intros Hz. apply Hn. apply length_zero_iff_nil. apply (f_equal (@length (Z * nat))) in Hz. unfold dated in Hz. rewrite combine_length, events_length, <- (sh_nb _ Ss), Nat.min_id in Hz. exact Hz. }
    split; [exact Hab|]. intros Hne Hun. rewrite <- Ep in Hne.
    exact (C43_lossless_partial leA leA_total leA_trans sort_time sort_event auto log (complex_miner_of sfuel rfuel) m Hsort Hfit Hab Hne Hun).
  Qed.

  (* C88: the candidates that are chosen from are those of the simple mining, all of them new at
     first, and what the rounds then add *)
  Theorem C88_history : forall seq (ds : @dataseq A) sfuel rfuel cands sel ps, represents leA seq ds -> mine_complex sfuel rfuel ds = Ret (cands, sel, ps) ->
    exists P0 P, fill_all sfuel ds = Ret P0 /\ all_new P0 /\
      history cost bare ntrip ncyc nm text_leb nms text_lt iter key_iter (small_of (ds_end ds - ds_start ds)) (dcosts one ds) 1 None None P0 P /\ cands = p_cands P.
  Proof.
    intros seq ds sfuel rfuel cands sel ps Hrep Hm. unfold ComplexModel.mine_complex in Hm. destruct (fill_all sfuel ds) as [P0|e|] eqn:Ef; cbn [bind] in Hm; try discriminate.
    destruct (fill_inv seq ds sfuel P0 Hrep Ef) as (Hp & _).
    destruct (combine_rounds _ _ rfuel 1 None None P0) as [P|e|] eqn:Ec; cbn [bind] in Hm; try discriminate. destruct (filter_cover _ _ _) as [sl|e|]; cbn [bind] in Hm; try discriminate. destruct (map_out _ sl) as [pl|e|]; cbn [bind] in Hm; try discriminate. injection Hm as <- _ _.
    exists P0, P. split; [reflexivity|]. split; [apply (fill_new ds sfuel _ _ _ empty_wf (conj eq_refl (fun m => conj (fun X => X) (fun X => X))) Ef)|]. split; [|reflexivity].
    assert (Hdc : forall o, In o (ds_seql ds) -> dget (dcosts one ds) (snd o) <> None).
    { intros o I. rewrite (dcosts_get leA one seq ds (snd o) Hrep (seql_event seq ds o Hrep I)). discriminate. }
    assert (Hkn : forall c, length_of ds (cost c) c) by (intros c; left; reflexivity).
    destruct (p_rows P0) as [rows|] eqn:Er.
    - apply (rounds_history cost bare ntrip ncyc nm text_leb nms text_lt iter key_iter _ _ (ds_seql ds) (length_of ds) Hkn Hlevels Hids Hiter Hdc rfuel); [exact Hp | congruence | exact Ec].
    - pose proof (rounds_no_row cost bare ntrip ncyc nm text_leb nms text_lt iter key_iter (small_of (ds_end ds - ds_start ds)) (dcosts one ds) (ds_seql ds) (length_of ds) Hlevels rfuel 1 None P0 Hp Er) as E1. rewrite Ec in E1.
      destruct (nb_new P0 None =? 0) eqn:En; [|destruct rfuel; discriminate]. injection E1 as ->. apply hist_end, nothing_new, Nat.eqb_eq, En.
  Qed.
  (* C88: a larger bound on the number of rounds changes nothing once the mining returns *)
  Theorem C88_bound : forall (ds : @dataseq A) sfuel rfuel rfuel' r, mine_complex sfuel rfuel ds = Ret r -> rfuel <= rfuel' -> mine_complex sfuel rfuel' ds = Ret r.
  Proof using.
    intros ds sfuel rfuel rfuel' r. unfold ComplexModel.mine_complex. destruct (fill_all sfuel ds) as [P0|e|]; cbn [bind]; try discriminate.
    assert (G : forall small dc f f' i nkV nkH P Q, combine_rounds small dc f i nkV nkH P = Ret Q -> f <= f' -> combine_rounds small dc f' i nkV nkH P = Ret Q).
    { intros small dc. induction f as [|f IH]; intros f' i nkV nkH P Q E L.
      - cbn [ComplexModel.combine_rounds] in E. destruct f'; cbn [ComplexModel.combine_rounds]; destruct (nb_new P None =? 0); try discriminate; exact E.
      - destruct f' as [|f']; [lia|]. cbn [ComplexModel.combine_rounds] in *. destruct (nb_new P None =? 0); [exact E|].
        destruct (ComplexModel.combine_round _ _ _ _ _ _ _ _ _ _ _ _ i nkV nkH P) as [P1|e|]; cbn [bind] in *; try discriminate. apply (IH f'); [exact E | lia]. }
    intros E L. destruct (combine_rounds _ _ rfuel 1 None None P0) as [P|e|] eqn:Ec; cbn [bind] in E; try discriminate. rewrite (G _ _ _ _ _ _ _ _ _ Ec L). exact E.
  Qed.
End Mine.
Print Assumptions C88_patterns.
Print Assumptions C88_rounds.
Print Assumptions C88_extends.
Print Assumptions C88_one_round.
Print Assumptions C88_lossless_partial.
Print Assumptions C88_history.
Print Assumptions C88_bound.

(* Prices: twenty for an occurrence alone, forty for a cycle or pattern, one for each node and each
   unit of correction. *)
Definition demo_abs (l : list Z) : Z := fold_right Z.add 0%Z (map Z.abs l).
Definition demo_one (a : nat) : Q := 20%Q.
Definition demo_cyc (a : nat) (p : Z) (os : list Z) : Q := inject_Z (40 + demo_abs (compute_E os p)).
Definition demo_trip (a : nat) (dp dE : Z) : Q := inject_Z (40 + Z.abs dE).
Definition demo_len (c : ccand nat) : Q := inject_Z (40 + Z.of_nat (length (node_ids (tree_of c))) + demo_abs (cc_E c)).
Definition demo_levels (_ : list (ccand nat)) (k n : nat) : nat := k + S n.
Definition round_mine (sfuel rfuel : nat) : @dataseq nat -> outcome (dict nat scand * list nat * list patt) :=
  mine_complex demo_cyc demo_trip demo_one demo_len (fun _ => Some 40%Q) (fun _ => demo_trip 0) (fun _ => demo_cyc 0) demo_levels (fun _ _ => true) demo_ids idx_leb (fun l => l) (fun l => l) sfuel rfuel.
Lemma demo_levels_fresh : fresh_levels demo_levels.
Proof.
  intros c0 rest n H. apply NoDup_app_intro; [apply seq_NoDup | apply FinFun.Injective_map_NoDup; [intros a b E; unfold demo_levels in E; lia | exact H]|].
  intros x Hx I. apply in_seq in Hx. apply in_map_iff in I. destruct I as (y & <- & _). unfold demo_levels in Hx. lia.
Qed.
Lemma demo_abs_pos l : (0 <= demo_abs l)%Z.
Proof. unfold demo_abs. induction l as [|x l IH]; cbn; lia. Qed.
Lemma demo_dear : dear demo_cyc demo_trip demo_one.
Proof.
  split; [intros a; reflexivity|]. unfold demo_one, demo_cyc, demo_trip. change 20%Q with (inject_Z 20). split; intros; rewrite <- Zle_Qle; [pose proof (demo_abs_pos (compute_E os p)); lia | lia].
Qed.
(* Event 0 starts each of four rounds, event 1 follows ten units later and then event 2 six times. *)
Definition round_log : list (Z * nat) :=
  flat_map (fun t => (t, 0) :: ((t + 10)%Z, 1) :: map (fun d => ((t + d)%Z, 2)) [11; 13; 15; 17; 19; 21]%Z) [0; 100; 200; 300]%Z.
Definition round_miner (sfuel rfuel : nat) : @dataseq nat -> list patt :=
  complex_miner_of demo_cyc demo_trip demo_one demo_len (fun _ => Some 40%Q) (fun _ => demo_trip 0) (fun _ => demo_cyc 0) demo_levels (fun _ _ => true) demo_ids idx_leb (fun l => l) (fun l => l) sfuel rfuel.
(* The claim that the reconstruction of a model with complex patterns only shows events of the log is
   false.  In the third round a pattern is kept that has the pattern (0, 1) followed by the repeated
   event 2 as its children.  It was made for exactly the occurrences of the log, it is the only one
   selected, and it shows event 2 at times it did not happen at; the events of the log it was made for
   are left as residuals. *)
Theorem C88_exact_refuted : @sorts nat demo_sort /\ dear demo_cyc demo_trip demo_one /\ StronglySorted (fun u v => (fst u <= fst v)%Z) round_log /\
  exists m cands i ps sc R, fit Nat.leb false round_log (round_miner 40 3) = Ret m /\ round_mine 40 3 (m_ds m) = Ret (cands, [i], ps) /\
    dget cands i = Some sc /\ Permutation (dated (c_body sc)) (ds_seql (m_ds m)) /\
    reconstruct demo_sort demo_sort m None ByTime true = Ret R /\
    In (22%Z, 2) (map snd R) /\ ~ In (22%Z, 2) round_log /\ In (11%Z, 2) round_log /\ ~ In (11%Z, 2) (map snd R).
Proof.
  split; [exact demo_sorts|]. split; [exact demo_dear|]. split; [cbv; repeat constructor; intros Hc; discriminate|].
  do 6 eexists. split; [vm_compute; reflexivity|]. split; [vm_compute; reflexivity|]. split; [reflexivity|]. split; [|split; [vm_compute; reflexivity|]].
  - apply NoDup_Permutation_bis; [| vm_compute; lia |].
    + vm_compute. repeat constructor; intros Hc; repeat (destruct Hc as [Hc|Hc]; [discriminate|]); exact Hc.
    + intros x Hx. vm_compute in Hx. repeat (destruct Hx as [<-|Hx]; [vm_compute; tauto|]). destruct Hx.
  - split; [vm_compute; tauto|]. split; [intros Hc; vm_compute in Hc; intuition discriminate|]. split; [vm_compute; tauto|]. intros Hc; vm_compute in Hc; intuition discriminate.
Qed.
Print Assumptions C88_exact_refuted.

(* a log that one pattern of two events explains but for one event *)
Definition pair_log : list (Z * nat) := [(0%Z, 0); (10%Z, 1); (55%Z, 2); (100%Z, 0); (110%Z, 1); (200%Z, 0); (210%Z, 1); (300%Z, 0); (310%Z, 1)].
Example C88_case : fresh_levels demo_levels /\ fresh_ids demo_ids /\ dear demo_cyc demo_trip demo_one /\ StronglySorted (fun u v => (fst u <= fst v)%Z) pair_log /\
  exists m cands sel ps, fit Nat.leb false pair_log (round_miner 40 2) = Ret m /\ dataseq_of_list Nat.leb pair_log = Ret (m_ds m) /\
    (forall a, chronological (times (m_ds m) a)) /\
    round_mine 40 2 (m_ds m) = Ret (cands, sel, ps) /\ length cands = 3 /\ sel = [2] /\
    ps = [(Node 0 4 100 [(Leaf 3 0, 0%Z); (Leaf 5 1, 10%Z)], 0%Z, [0; 0; 0; 0; 0; 0; 0]%Z)] /\
    In (55%Z, 2) (ds_seql (m_ds m)) /\ ~ covered m (55%Z, 2).
Proof.
  split; [exact demo_levels_fresh|]. split; [exact demo_ids_fresh|]. split; [exact demo_dear|]. split; [cbv; repeat constructor; intros Hc; discriminate|].
  do 4 eexists. split; [vm_compute; reflexivity|]. split; [vm_compute; reflexivity|].
  split; [intros [|[|[|a]]]; apply chrono_sorted; cbn; repeat constructor; lia|]. split; [vm_compute; reflexivity|]. split; [reflexivity|]. split; [reflexivity|]. split; [reflexivity|].
  split; [vm_compute; tauto|]. intros (p & oc & [<-|[]] & E & Io). vm_compute in E. injection E as <-. cbn in Io. intuition discriminate.
Qed.
(* Without [dear] the first round can raise: a cycle that costs less than one occurrence alone has no
   row among the new ones. *)
Example C88_cheap_case : exists ds, dataseq_of_list Nat.leb pair_log = Ret ds /\
  mine_complex (fun _ _ _ => 1%Q) (fun _ _ _ => 1%Q) (fun _ => 2%Q) demo_len (fun _ => Some 40%Q) (fun _ => demo_trip 0) (fun _ => demo_cyc 0) demo_levels (fun _ _ => true) demo_ids idx_leb (fun l => l) (fun l => l) 40 9 ds = Exn TypeError.
Proof. eexists. split; [vm_compute; reflexivity|]. vm_compute. reflexivity. Qed.
