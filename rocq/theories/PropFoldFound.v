(* C81, continued: three successive occurrences at equal distances are found, in a chain or as a
   triple, unless the cost of what they are found in is too high. *)
From Verif Require Import Prelude CheckModel LCMModel VerticalProofs PeriodModel FoldModel PropFold.
From Coq Require Import QArith.
Local Open Scope Z_scope.

(* h, i and j follow each other in a list *)
Definition in_a_row (l : list nat) (h i j : nat) : Prop := exists l1 l2, l = l1 ++ h :: i :: j :: l2.

Section Found.
  Variable trip : Z -> Z -> Q.
  Variable cyc : Z -> list Z -> Q.
  Variable small : Z -> bool.
  Variable occs : list Z.
  Variable max_p : option Z.
  Hypothesis Hm : max_p = None \/ chronological occs.
  Local Notation aft := (aft occs).
  Local Notation bef := (bef occs).

  (* ns: the triples noted so far *)
  Record kept (ns : list (nat * nat * nat)) (s : pairs) : Prop := {
    k_uniq : forall h h' i j, In (h, i, j) ns -> In (h', i, j) ns -> h = h';
    k_test : forall i j dE dp h c, In ((i, j), (dE, dp, h, c)) (test s) -> In (h, i, j) ns;
    k_trips : forall i j dE dp h c, In ((i, j), (dE, dp, h, c)) (trips s) -> In (h, i, j) ns;
    k_fwd : forall h i dE dp j, In ((h, i), (dE, dp, j)) (fwd s) -> In (h, i, j) ns;
    k_bck : forall i j dE dp h, In ((i, j), (dE, dp, h)) (bck s) -> In (h, i, j) ns;
    k_all : forall h i j, In (h, i, j) ns -> In (i, j) (dkeys (test s)) \/ In (i, j) (dkeys (trips s)) \/ In (i, j) (dkeys (fwd s)) }.

  Lemma ddel_key {K V} `{EqDec K} (d : dict K V) k x : In x (dkeys d) -> x = k \/ In x (dkeys (ddel d k)).
  Proof.
    intros I. destruct (eq_dec x k) as [E|N]; [left; exact E | right]. unfold dkeys, ddel in *. apply in_map_iff in I. destruct I as ((a & b) & E & I). cbn in E. subst a.
    apply in_map_iff. exists (x, b). split; [reflexivity|]. apply filter_In. split; [exact I|]. cbn [fst]. rewrite (proj2 (eqd_false k x)); [reflexivity | congruence].
  Qed.
  Lemma note_kept ns s h i j dE dp c : kept ns s -> h <> i -> (forall h', ~ In (h', i, j) ns) -> kept ((h, i, j) :: ns) (note s h i j dE dp c).
  Proof.
    intros [U T R F B A] Hhi Hnew.
    assert (Htail : forall s1,
      (forall a b dE' dp' x c', In ((a, b), (dE', dp', x, c')) (test s1) -> In (x, a, b) ns) ->
      (forall a b dE' dp' x c', In ((a, b), (dE', dp', x, c')) (trips s1) -> In (x, a, b) ns) ->
      (forall a b dE' dp' x, In ((a, b), (dE', dp', x)) (fwd s1) -> (a, b, x) = (h, i, j) \/ In (a, b, x) ns) ->
      (forall a b dE' dp' x, In ((a, b), (dE', dp', x)) (bck s1) -> In (x, a, b) ns) ->
      (forall x a b, In (x, a, b) ns -> In (a, b) (dkeys (test s1)) \/ In (a, b) (dkeys (trips s1)) \/ In (a, b) (dkeys (fwd s1))) ->
      kept ((h, i, j) :: ns) (match dget (test s1) (i, j) with
        | None => {| test := dset (test s1) (i, j) (dE, dp, h, c); fwd := fwd s1; bck := bck s1; trips := trips s1 |}
        | Some (dE', _, _, _) =>
            if dE <? dE' then {| test := dset (test s1) (i, j) (dE, dp, h, c); fwd := fwd s1; bck := bck s1; trips := trips s1 |}
            else s1
        end)).
    { intros s1 T1 R1 F1 B1 A1. destruct (dget (test s1) (i, j)) as [[[[dE' dp'] b] c']|] eqn:Eg.
      - exfalso. apply dget_In in Eg. exact (Hnew b (T1 _ _ _ _ _ _ Eg)).
      - split; cbn [test fwd bck trips].
        + intros x x' a b [E|I] [E'|I']; [congruence | injection E as <- <- <-; elim (Hnew _ I') | injection E' as <- <- <-; elim (Hnew _ I) | eapply U; eassumption].
        + intros a b dE' dp' x c' I. apply dset_In in I. destruct I as [(E1 & E2)|I]; [injection E1 as -> ->; injection E2 as -> -> -> ->; left; reflexivity | right; eapply T1, I].
        + intros a b dE' dp' x c' I. right. eapply R1, I.
        + intros a b dE' dp' x I. destruct (F1 _ _ _ _ _ I) as [E|I']; [left; congruence | right; exact I'].
        + intros a b dE' dp' x I. right. eapply B1, I.
        + intros x a b [E|I]; [injection E as <- <- <-; left; apply dset_In_key; left; reflexivity|].
          destruct (A1 _ _ _ I) as [I'|I']; [left; apply dset_In_key; right; exact I' | right; exact I']. }
    unfold note. destruct (dget (fwd s) (h, i)) as [[[dE' dp'] j']|] eqn:Ef.
    - destruct (dE <? dE'); apply Htail; cbn [test fwd bck trips]; auto.
      + intros a b dE'' dp'' x I. apply dset_In in I. destruct I as [(E1 & E2)|I]; [injection E1 as -> ->; injection E2 as -> -> ->; left; reflexivity | right; eapply F, I].
      + intros x a b I. destruct (A _ _ _ I) as [I'|[I'|I']]; [left | right; left | right; right; apply dset_In_key; right]; exact I'.
      + intros a b dE'' dp'' x I. right. eapply F, I.
    - destruct (dget (test s) (h, i)) as [[[[dE' dp'] b0] c']|] eqn:Et; apply Htail; cbn [test fwd bck trips]; auto.
      + intros a b dE'' dp'' x c'' I. apply ddel_In in I. eapply T, I.
      + intros a b dE'' dp'' x I. apply dset_In in I. destruct I as [(E1 & E2)|I]; [injection E1 as -> ->; injection E2 as -> -> ->; left; reflexivity | right; eapply F, I].
      + intros a b dE'' dp'' x I. apply dset_In in I. destruct I as [(E1 & E2)|I]; [injection E1 as -> ->; injection E2 as -> -> ->; apply dget_In in Et; eapply T, Et | eapply B, I].
      + intros x a b I. destruct (A _ _ _ I) as [I'|[I'|I']]; [|right; left; exact I' | right; right; apply dset_In_key; right; exact I'].
        destruct (ddel_key (test s) (h, i) _ I') as [E|I'']; [right; right; apply dset_In_key; left; exact E | left; exact I''].
      + intros a b dE'' dp'' x I. right. eapply F, I.
  Qed.
  Lemma fold_dset_key {K V} `{EqDec K} (l d : dict K V) x : In x (dkeys (fold_left (fun d kv => dset d (fst kv) (snd kv)) l d)) <-> In x (dkeys l) \/ In x (dkeys d).
  Proof.
    revert d. induction l as [|[k v] l IH]; intros d; cbn [fold_left fst snd]; [unfold dkeys at 2; cbn; intuition|]. rewrite IH, dset_In_key. unfold dkeys at 3. cbn [map fst In]. intuition.
  Qed.
  Lemma set_aside_kept ns i s : kept ns s -> kept ns (set_aside i s).
  Proof.
    intros K. unfold set_aside. destruct ((i mod 100 =? 0) && (0 <? i))%nat; [|exact K]. destruct K as [U T R F B A]. split; cbn [test fwd bck trips]; auto.
    - intros a b dE dp h c I. apply filter_In in I. eapply T, I.
    - intros a b dE dp h c I.
      refine (fold_dset_In (fun k v => let '(_, _, x, _) := v in In (x, fst k, snd k) ns) _ _ _ _ (a, b) (dE, dp, h, c) I).
      + intros [a' b'] [[[dE' dp'] x] c'] I'. apply filter_In in I'. eapply T, I'.
      + intros [a' b'] [[[dE' dp'] x] c'] I'. eapply R, I'.
    - intros h a b I. destruct (A _ _ _ I) as [I'|[I'|I']]; [| right; left; apply fold_dset_key; right; exact I' | right; right; exact I'].
      unfold dkeys in I'. apply in_map_iff in I'. destruct I' as ((k & v) & E & I'). cbn in E. subst k.
      destruct (b <? i)%nat eqn:Eb.
      + right; left. apply fold_dset_key. left. unfold dkeys. apply in_map_iff. exists ((a, b), v). split; [reflexivity|]. apply filter_In. split; [exact I' | exact Eb].
      + left. unfold dkeys. apply in_map_iff. exists ((a, b), v). split; [reflexivity|]. apply filter_In. split; [exact I' | cbn [fst snd]; rewrite Eb; reflexivity].
  Qed.

  (* the middle of a triple that is noted is the centre *)
  Lemma walk_kept sfuel i : (i < length occs)%nat -> forall fuel ia ib seen ns s s', kept ns s ->
    (forall h x j, In (h, x, j) ns -> (x <= i)%nat /\ (x = i -> (j < i + ia + 1)%nat)) ->
    walk trip small fuel sfuel i (aft i max_p) (bef i max_p) ia ib seen s = Ret s' ->
    exists ns', incl ns ns' /\ kept ns' s' /\ (forall h x j, In (h, x, j) ns' -> (x <= i)%nat).
  Proof.
    intros Hi. induction fuel as [|f IH]; intros ia ib seen ns s s' K Hb; cbn [walk]; [discriminate|].
    destruct ((ia <? length (aft i max_p))%nat && (ib <? length (bef i max_p))%nat) eqn:Hlen.
    2: { intros E; injection E as <-. exists ns. split; [apply incl_refl|]. split; [exact K | intros h x j I; apply (Hb h x j I)]. }
    apply andb_true_iff in Hlen. destruct Hlen as [Hla Hlb]. apply Nat.ltb_lt in Hla, Hlb.
    assert (Hb' : forall h x j, In (h, x, j) ns -> (x <= i)%nat /\ (x = i -> (j < i + S ia + 1)%nat)) by (intros h x j I; specialize (Hb h x j I); lia).
    destruct (_ && _); [apply IH; assumption|]. destruct (_ && _); [apply IH; assumption|]. cbv zeta.
    destruct (small _); [|apply IH; assumption].
    destruct (seen_loop _ _ _ _ _) as [[seen' ipp]|e|]; cbn [bind]; try discriminate.
    destruct (0 <=? ipp); [|apply IH; assumption]. intros E.
    pose proof (bef_length occs max_p Hm i) as Hlen.
    eapply IH in E.
    2: { apply (note_kept ns s (i - ib - 1) i (i + ia + 1)); [exact K | lia|]. intros h' I. specialize (Hb _ _ _ I). lia. }
    2: { intros h x j [Ex|I]; [injection Ex as <- <- <-; lia | apply (Hb' h x j I)]. }
    destruct E as (ns' & H1 & H2 & H3). exists ns'. split; [intros x I; apply H1; right; exact I | split; assumption].
  Qed.
  (* the first step of a walk *)
  Lemma walk_first sfuel i fuel ns s s' : (0 < i)%nat -> (S i < length occs)%nat -> gap occs (i - 1) i = gap occs i (S i) -> small 0 = true ->
    within occs max_p (i - 1) i -> (1 <= sfuel)%nat -> kept ns s -> (forall h x j, In (h, x, j) ns -> (x < i)%nat) ->
    walk trip small (S fuel) sfuel i (aft i max_p) (bef i max_p) 0 0 [] s = Ret s' ->
    exists ns', incl ns ns' /\ In (i - 1, i, S i)%nat ns' /\ kept ns' s' /\ (forall h x j, In (h, x, j) ns' -> (x <= i)%nat).
  Proof.
    intros Hi0 Hi1 Hg Hs Hw Hsf K Hb.
    assert (Ea : exists l, aft i max_p = gap occs i (S i) :: l).
    { unfold FoldModel.aft; cbv zeta. destruct (skipn (S i) occs) as [|x l] eqn:El.
      - apply (f_equal (@length Z)) in El. rewrite skipn_length in El. cbn in El. lia.
      - assert (x = nth (S i) occs 0) as ->. { rewrite <- (firstn_skipn (S i) occs), app_nth2; rewrite firstn_length_le by lia; [|lia]. rewrite Nat.sub_diag, El. reflexivity. }
        cbn [map]. change (nth (S i) occs 0 - at_ occs i) with (gap occs i (S i)). destruct max_p as [m|]; [|eauto]. cbn [filter]. rewrite <- Hg.
        replace (gap occs (i - 1) i <? m) with true by (symmetry; apply Z.ltb_lt; exact Hw). eauto. }
    assert (Eb : exists l, bef i max_p = (- gap occs (i - 1) i) :: l).
    { unfold FoldModel.bef, rev'; cbv zeta; rewrite <- rev_alt. destruct i as [|i]; [lia|].
      assert (firstn (S i) occs = firstn i occs ++ [nth i occs 0]) as E.
      { clear -Hi1. revert occs Hi1. induction i as [|i IH]; intros [|x l] Hl; cbn [length] in Hl; try lia; [reflexivity|]. cbn [firstn nth app]. f_equal. apply IH. lia. }
      rewrite E, rev_app_distr. cbn [rev app map]. replace (nth i occs 0 - at_ occs (S i)) with (- gap occs (S i - 1) (S i)) by (unfold gap, at_; replace (S i - 1)%nat with i by lia; lia).
      destruct max_p as [m|]; [|eauto]. cbn [filter].
      replace (- m <? - gap occs (S i - 1) (S i)) with true by (symmetry; apply Z.ltb_lt; cbn [within] in Hw; lia). eauto. }
    destruct Ea as [la Ea]. destruct Eb as [lb Eb]. cbn [walk]. rewrite Ea, Eb. cbn [length Nat.ltb Nat.leb andb nth]. cbv zeta.
    replace (gap occs i (S i) + - gap occs (i - 1) i) with 0 by lia. cbn [Z.abs].
    assert (Hz : forall a, (Z.abs a <? 0) = false) by (intros a; apply Z.ltb_ge; lia). rewrite !Hz, !andb_false_r, Hs.
    destruct sfuel as [|k]; [lia|]. cbn [seen_loop length Z.leb Z.ltb Z.compare Z.of_nat andb bind app]. rewrite <- Ea, <- Eb. intros E.
    eapply walk_kept in E; [|lia| |].
    2: { apply (note_kept ns s (i - 0 - 1) i (i + 0 + 1)); [exact K | lia|]. intros h' I. specialize (Hb _ _ _ I). lia. }
    2: { intros h x j [Ex|I]; [injection Ex as <- <- <-; lia | specialize (Hb _ _ _ I); lia]. }
    destruct E as (ns' & H1 & H2 & H3). exists ns'. split; [intros x I; apply H1; right; exact I|]. split; [|split; assumption].
    apply H1. left. f_equal; [f_equal; lia | lia].
  Qed.
  Lemma centres_kept sfuel i : (0 < i)%nat -> (S i < length occs)%nat -> gap occs (i - 1) i = gap occs i (S i) -> small 0 = true ->
    within occs max_p (i - 1) i -> (1 <= sfuel)%nat -> forall n m ns s s', kept ns s -> (forall h x j, In (h, x, j) ns -> (x < m)%nat) -> (m + n <= length occs)%nat ->
    centres trip small occs sfuel max_p (List.seq m n) s = Ret s' ->
    exists ns', incl ns ns' /\ ((m <= i < m + n)%nat -> In (i - 1, i, S i)%nat ns') /\ kept ns' s'.
  Proof.
    intros Hi0 Hi1 Hg Hs Hw Hsf. induction n as [|n IH]; intros m ns s s' K Hb Hmn; cbn [List.seq centres].
    - intros E; injection E as <-. exists ns. split; [apply incl_refl|]. split; [lia | exact K].
    - destruct (walk _ _ _ _ _ _ _ _ _ _ _) as [s1|e|] eqn:Ew; cbn [bind]; try discriminate. intros E.
      assert (H1 : exists ns1, incl ns ns1 /\ (m = i -> In (i - 1, i, S i)%nat ns1) /\ kept ns1 s1 /\ (forall h x j, In (h, x, j) ns1 -> (x <= m)%nat)).
      { destruct (Nat.eq_dec m i) as [->|N].
        - destruct (walk_first _ _ _ _ _ _ Hi0 Hi1 Hg Hs Hw Hsf K Hb Ew) as (ns1 & A & B & C & D). exists ns1. auto.
        - eapply walk_kept in Ew; [|lia|exact K|intros h x j I; specialize (Hb h x j I); lia]. destruct Ew as (ns1 & A & B & C). exists ns1. split; [exact A|]. split; [lia|]. split; assumption. }
      destruct H1 as (ns1 & A & B & C & D).
      eapply IH in E; [| apply set_aside_kept, C | intros h x j I; specialize (D h x j I); lia | lia].
      destruct E as (ns2 & A2 & B2 & C2). exists ns2. split; [intros x I; apply A2, A, I|]. split; [|exact C2].
      intros Hr. destruct (Nat.eq_dec m i) as [E|N]; [apply A2, B, E | apply B2; lia].
  Qed.

  (* ---------------------------------------------------------------- chains *)
  Lemma row_suffix l y z b rest rest' : rest = b :: rest' -> in_a_row (rev (l ++ z :: y :: rest)) b y z.
  Proof. intros ->. rewrite rev_app_distr. cbn [rev]. rewrite <- !app_assoc. cbn [app]. do 2 eexists. reflexivity. Qed.
  Lemma follow_found (ns : list (nat * nat * nat)) fuel : forall (fw : dict ppair (Z * Z * nat)) (tr : dict ppair (Z * Z * nat * Q)) y z rest fw' tr' cur,
    (forall h i dE dp j, In ((h, i), (dE, dp, j)) fw -> In (h, i, j) ns) ->
    (exists b rest', rest = b :: rest' /\ In (b, y, z) ns) -> follow fuel fw tr y z rest = (fw', tr', cur) ->
    (exists l, cur = l ++ z :: y :: rest) /\
    (forall i j, In (i, j) (dkeys fw) -> In (i, j) (dkeys fw') \/ exists h, In (h, i, j) ns /\ in_a_row (rev cur) h i j) /\
    (forall i j, In (i, j) (dkeys tr) -> In (i, j) (dkeys tr') \/ exists h, In (h, i, j) ns /\ in_a_row (rev cur) h i j).
  Proof.
    induction fuel as [|f IH]; intros fw tr y z rest fw' tr' cur Hf Hr; cbn [follow].
    - intros E; injection E as <- <- <-. split; [exists []; reflexivity | auto].
    - destruct (dget fw (y, z)) as [[[dE dp] n]|] eqn:Eg; [|intros E; injection E as <- <- <-; split; [exists []; reflexivity | auto]].
      intros E. pose proof (dget_In _ _ _ Eg) as Ig. apply Hf in Ig.
      destruct (IH (ddel fw (y, z)) (ddel tr (z, n)) z n (y :: rest) fw' tr' cur) as ((l & El) & A & B); [intros h i dE' dp' j I; apply ddel_In in I; eapply Hf, I | exists y, rest; auto | exact E|].
      split; [exists (l ++ [n]); rewrite <- app_assoc; exact El|]. destruct Hr as (b & rest' & Hr & Ib). split; intros i j I.
      + destruct (ddel_key fw (y, z) _ I) as [E1|I']; [|apply A, I']. injection E1 as -> ->. right. exists b. split; [exact Ib|].
        rewrite El. change (l ++ n :: z :: y :: rest) with (l ++ [n] ++ z :: y :: rest). rewrite app_assoc. eapply row_suffix, Hr.
      + destruct (ddel_key tr (z, n) _ I) as [E1|I']; [|apply B, I']. injection E1 as -> ->. right. exists y. split; [exact Ig|].
        rewrite El. eapply row_suffix. reflexivity.
  Qed.
  (* found in a chain that is kept if its cost is low enough *)
  Definition in_chain (eff : Q) (cs : list chain) (h i j : nat) : Prop := exists pos p,
    in_a_row pos h i j /\ regular_run small occs pos /\ compute_period (map (fun i => nth i occs 0) pos) = Some p /\
    let os := map (fun i => nth i occs 0) pos in
    (chain_ok eff (cyc p os) (length os) = true -> In {| ch_p := p; ch_cost := cyc p os; ch_pos := pos; ch_occs := os |} cs).
  Lemma in_chain_more eff cs cs' h i j : incl cs cs' -> in_chain eff cs h i j -> in_chain eff cs' h i j.
  Proof. intros Hi (pos & p & A & B & C & D). exists pos, p. repeat (split; [assumption|]). cbv zeta in *. intros E. apply Hi, D, E. Qed.
  Lemma chains_found eff (ns : list (nat * nat * nat)) (bk : dict ppair (Z * Z * nat)) : (forall h h' i j, In (h, i, j) ns -> In (h', i, j) ns -> h = h') ->
    (forall i j dE dp h, In ((i, j), (dE, dp, h)) bk -> In (h, i, j) ns) -> (forall k v, In (k, v) bk -> three_b small occs max_p k v) ->
    forall fuel (fw : dict ppair (Z * Z * nat)) (tr : dict ppair (Z * Z * nat * Q)) cs tr', (length fw <= fuel)%nat -> (forall h i dE dp j, In ((h, i), (dE, dp, j)) fw -> In (h, i, j) ns) ->
    (forall k v, In (k, v) fw -> three_f small occs max_p k v) -> (forall k v, In (k, v) tr -> three_t trip small occs max_p k v) ->
    chains cyc occs fuel eff fw bk tr = Ret (cs, tr') ->
    forall h i j, In (h, i, j) ns -> (In (i, j) (dkeys fw) -> in_chain eff cs h i j) /\
      (In (i, j) (dkeys tr) -> in_chain eff cs h i j \/ In (i, j) (dkeys tr')).
  Proof.
    intros U Hb Hb3. induction fuel as [|f IH]; intros fw tr cs tr' Hl Hf Hf3 Ht3; cbn [chains].
    - destruct fw; [|cbn in Hl; lia]. cbn [min_key]. intros E; injection E as <- <-. intros h i j _. split; [intros [] | auto].
    - destruct (min_key fw) as [[a b]|] eqn:Em; [|apply min_key_None in Em; subst fw; intros E; injection E as <- <-; intros h i j _; split; [intros [] | auto]].
      pose proof (min_key_In _ _ Em) as Hk. destruct (dget bk (a, b)) as [[[dE dp] x]|] eqn:Eb; [|discriminate].
      pose proof (Hb3 _ _ (dget_In _ _ _ Eb)) as (R & W1 & W2 & _). pose proof (Hb _ _ _ _ _ (dget_In _ _ _ Eb)) as Ix. cbn [fst snd] in *.
      destruct (follow (length fw) fw tr a b [x]) as [[fw' tr1] cur] eqn:Ef.
      assert (Hr0 : chain_run small occs max_p (rev [b; a; x])).
      { cbn [rev app]. split; [apply run3, R|]. intros u c l1 l2 E. destruct l1 as [|u1 [|u2 l1]]; cbn in E.
        - injection E as -> -> _. exact W1.
        - injection E as _ -> -> _. exact W2.
        - apply (f_equal (@length nat)) in E. cbn [length] in E. rewrite app_length in E. cbn [length] in E. lia. }
      destruct (follow_spec trip small occs max_p _ _ _ _ _ _ _ _ _ Hf3 Ht3 Hr0 Ef) as ((A & _) & B & C & D & F & _). cbn [length] in F.
      destruct F as [F1 F2].
      { destruct (proj1 (dget_Some_key fw (a, b)) Hk) as [v Ev]. rewrite Ev. discriminate. }
      { destruct fw; [discriminate Em | cbn [length]; discriminate]. }
      destruct (follow_found ns _ _ _ _ _ _ _ _ _ Hf (ex_intro _ x (ex_intro _ [] (conj eq_refl Ix))) Ef) as (_ & G1 & G2).
      destruct (compute_period (map (at_ occs) (rev cur))) as [p|] eqn:Ep; [|discriminate]. cbv zeta.
      destruct (chains cyc occs f eff fw' bk tr1) as [[cs2 tr2]|e|] eqn:E2; cbn [bind fst snd]; try discriminate. intros E.
      assert (Hcs : incl cs2 cs /\ tr' = tr2 /\ (chain_ok eff (cyc p (map (at_ occs) (rev cur))) (length (map (at_ occs) (rev cur))) = true ->
        In {| ch_p := p; ch_cost := cyc p (map (at_ occs) (rev cur)); ch_pos := rev cur; ch_occs := map (at_ occs) (rev cur) |} cs)).
      { destruct (chain_ok _ _ _); injection E as <- <-; [split; [apply incl_tl, incl_refl | split; [reflexivity | intros _; left; reflexivity]] | split; [apply incl_refl | split; [reflexivity | discriminate]]]. }
      destruct Hcs as (Hcs & -> & Hnew).
      assert (Hin : forall h i j, in_a_row (rev cur) h i j -> in_chain eff cs h i j) by (intros h i j Hr; exists (rev cur), p; repeat (split; [assumption|]); exact Hnew).
      intros h i j I. destruct (IH fw' tr1 cs2 tr2) with (h := h) (i := i) (j := j) as [P1 P2]; auto; try lia.
      { intros h' i' dE' dp' j' I'. apply B in I'. eapply Hf, I'. }
      split; intros I1.
      + destruct (G1 _ _ I1) as [I'|(h' & I' & Hr)]; [apply (in_chain_more eff cs2 cs _ _ _ Hcs), P1, I'|]. rewrite (U _ _ _ _ I I'). apply Hin, Hr.
      + destruct (G2 _ _ I1) as [I'|(h' & I' & Hr)]; [destruct (P2 I') as [P|P]; [left; apply (in_chain_more eff cs2 cs _ _ _ Hcs), P | right; exact P]|].
        left. rewrite (U _ _ _ _ I I'). apply Hin, Hr.
  Qed.

  Lemma fold_sub_found sfuel et ec offset cs ts i : (1 <= sfuel)%nat -> (0 < i)%nat -> (S i < length occs)%nat ->
    gap occs (i - 1) i = gap occs i (S i) -> small 0 = true -> within occs max_p (i - 1) i ->
    fold_sub trip cyc small occs sfuel et ec offset max_p = Ret (cs, ts) ->
    in_chain ec cs (i - 1) i (S i) \/
    let p := gap occs i (S i) in
    (triple_ok et (trip p 0) = true -> In {| tr_dE := 0; tr_p := p; tr_cost := trip p 0; tr_pos := [i - 1 + offset; i + offset; S i + offset]%nat |} ts).
  Proof.
    intros Hsf Hi0 Hi1 Hg Hs Hw. unfold fold_sub. destruct (centres _ _ _ _ _ _ _) as [s|e|] eqn:Es; cbn [bind]; try discriminate.
    assert (G : good trip small occs max_p s).
    { eapply (centres_good trip); [exact Hm | |apply good_none|exact Es]. intros k I. apply in_seq in I. lia. }
    destruct (centres_kept sfuel i Hi0 Hi1 Hg Hs Hw Hsf (length occs - 1) 1 [] no_pairs s) as (ns & _ & Hn & [U T R F B A]); [| intros h x j [] | lia | exact Es |].
    { split; cbn; try (intros; contradiction). }
    specialize (Hn ltac:(lia)).
    set (tr := fold_left (fun d kv => dset d (fst kv) (snd kv)) (test s) (trips s)) in *.
    assert (Htr : forall k v, In (k, v) tr -> three_t trip small occs max_p k v).
    { apply fold_dset_In; [apply (g_test trip small occs max_p s G) | apply (g_trips trip small occs max_p s G)]. }
    assert (Hns : forall a b dE dp h c, In ((a, b), (dE, dp, h, c)) tr -> In (h, a, b) ns).
    { intros a b dE dp h c I.
      refine (fold_dset_In (fun k v => let '(_, _, x, _) := v in In (x, fst k, snd k) ns) _ _ _ _ (a, b) (dE, dp, h, c) I).
      - intros [a' b'] [[[dE' dp'] x] c'] I'. eapply T, I'.
      - intros [a' b'] [[[dE' dp'] x] c'] I'. eapply R, I'. }
    cbv zeta. destruct (chains cyc occs (length (fwd s)) ec (fwd s) (bck s) tr) as [[cs' tr']|e|] eqn:Ec; cbn [bind fst snd]; try discriminate.
    intros Er. injection Er as <- <-.
    destruct (chains_spec trip cyc small occs max_p ec (bck s) (length (fwd s)) (fwd s) tr (le_n _) (g_fwd _ _ _ _ s G) (g_bck _ _ _ _ s G) Htr (g_both _ _ _ _ s G)) as (cs2 & tr2 & E2 & _ & Hin).
    rewrite Ec in E2. injection E2 as <- <-.
    destruct (chains_found ec ns (bck s) U B (g_bck _ _ _ _ s G) (length (fwd s)) (fwd s) tr cs' tr' (le_n _) F (g_fwd _ _ _ _ s G) Htr Ec _ _ _ Hn) as [P1 P2].
    assert (I0 : In (i, S i) (dkeys (fwd s)) \/ In (i, S i) (dkeys tr)).
    { destruct (A _ _ _ Hn) as [I|[I|I]]; [right; apply fold_dset_key; left; exact I | right; apply fold_dset_key; right; exact I | left; exact I]. }
    destruct I0 as [I0|I0]; [left; apply P1, I0|]. destruct (P2 I0) as [P|P]; [left; exact P | right].
    intros Hok. unfold dkeys in P. apply in_map_iff in P. destruct P as ((k & [[[dE dp] b] c]) & Ek & P). cbn in Ek. subst k.
    pose proof (Htr _ _ (Hin _ _ P)) as [(_ & _ & _ & E1 & E3) E4]. pose proof (Hns _ _ _ _ _ _ (Hin _ _ P)) as Ib. cbn [fst snd] in *.
    rewrite <- (U _ _ _ _ Hn Ib) in *. rewrite Hg in *. assert (dE = 0) as -> by lia. assert (dp = gap occs i (S i)) as -> by lia. subst c.
    unfold triples_of. apply in_map_iff. exists ((i, S i), (0, gap occs i (S i), (i - 1)%nat, trip (gap occs i (S i)) 0)). split; [reflexivity|].
    apply filter_In. split; [exact P | exact Hok].
  Qed.
End Found.

(* Three successive occurrences at equal distances are successive occurrences of a run that is
   returned as a chain unless its cost is too high, or are returned as a triple unless the cost of
   the triple is too high. *)
Theorem C81_even_found_partial : forall trip cyc small sfuel occs eff_trip eff_chain max_p cs ts i,
  max_p = None \/ chronological occs -> (1 <= sfuel)%nat -> (length occs < 2000)%nat ->
  (0 < i)%nat -> (S i < length occs)%nat -> gap occs (i - 1) i = gap occs i (S i) -> small 0 = true -> within occs max_p (i - 1) i ->
  extract_fold trip cyc small sfuel occs eff_trip eff_chain max_p = Ret (cs, ts) ->
  (exists pos p, in_a_row pos (i - 1) i (S i) /\ regular_run small occs pos /\
     let os := map (fun i => nth i occs 0) pos in compute_period os = Some p /\
     (chain_ok eff_chain (cyc p os) (length os) = true ->
      exists c, In c cs /\ ch_p c = p /\ ch_cost c = cyc p os /\ ch_pos c = pos /\ ch_occs c = os)) \/
  let p := gap occs i (S i) in
  (triple_ok eff_trip (trip p 0) = true ->
   exists t, In t ts /\ tr_dE t = 0 /\ tr_p t = p /\ tr_cost t = trip p 0 /\ tr_pos t = [i - 1; i; S i]%nat).
Proof.
  intros trip cyc small sfuel occs et ec max_p cs ts i Hm Hsf Hl Hi0 Hi1 Hg Hs Hw. unfold extract_fold.
  apply Nat.ltb_lt in Hl. rewrite Hl. intros E.
  destruct (fold_sub_found trip cyc small occs max_p Hm _ _ _ _ _ _ _ Hsf Hi0 Hi1 Hg Hs Hw E) as [(pos & p & A & B & C & D)|D].
  - left. exists pos, p. split; [exact A|]. split; [exact B|]. cbv zeta in *. split; [exact C|]. intros H. eexists. split; [apply D, H|]. repeat split.
  - right. cbv zeta in *. intros H. eexists. split; [apply D, H|]. repeat split; cbn [tr_pos]. rewrite !Nat.add_0_r. reflexivity.
Qed.
Print Assumptions C81_even_found_partial.

(* an even triple in a chain, and one that is returned as a triple *)
Example C81_even_case :
  let occs := [0; 10; 20; 30; 100; 150; 200] in
  chronological occs /\ gap occs 0 1 = gap occs 1 2 /\ gap occs 4 5 = gap occs 5 6 /\
  extract_fold zero_trip zero_cyc near 10 occs 1%Q 1%Q None =
  Ret ([{| ch_p := 10; ch_cost := 0%Q; ch_pos := [0; 1; 2; 3]%nat; ch_occs := [0; 10; 20; 30] |}],
       [{| tr_dE := 0; tr_p := 100; tr_cost := 0%Q; tr_pos := [0; 4; 6]%nat |};
        {| tr_dE := 0; tr_p := 50; tr_cost := 0%Q; tr_pos := [4; 5; 6]%nat |}]).
Proof.
  cbv zeta. split; [|repeat split; vm_compute; reflexivity]. intros i j. cbn [length]. intros H.
  do 7 (destruct j as [|j]; [do 7 (destruct i as [|i]; [first [lia | cbn; lia]|]); lia|]). lia.
Qed.
