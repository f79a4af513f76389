(* C81: the cycles found by folding the occurrences of an event (extract_cycles_fold) are
   regularly spaced subsequences of the occurrences; the search ends when the occurrences come
   in chronological order, and may not end otherwise. *)
From Verif Require Import Prelude CheckModel LCMModel VerticalProofs PeriodModel FoldModel.
From Coq Require Import QArith.
Local Open Scope Z_scope.

(* ------------------------------------------------------------ specification *)
(* three positions whose gaps differ by an accepted amount *)
Definition gap (occs : list Z) (i j : nat) : Z := nth j occs 0 - nth i occs 0.
Definition regular (small : Z -> bool) (occs : list Z) (h i j : nat) : Prop :=
  (h < i < j)%nat /\ (j < length occs)%nat /\ small (Z.abs (gap occs i j - gap occs h i)) = true.
(* every three positions in a row are *)
Inductive regular_run (small : Z -> bool) (occs : list Z) : list nat -> Prop :=
| run3 h i j : regular small occs h i j -> regular_run small occs [h; i; j]
| run_cons h i j l : regular small occs h i j -> regular_run small occs (i :: j :: l) -> regular_run small occs (h :: i :: j :: l).
Definition chronological (occs : list Z) : Prop := forall i j, (i < j < length occs)%nat -> nth i occs 0 < nth j occs 0.
(* no two neighbours are max_p or more apart *)
Definition within (occs : list Z) (max_p : option Z) (i j : nat) : Prop :=
  match max_p with None => True | Some m => gap occs i j < m end.

Section Proofs.
  Variable trip : Z -> Z -> Q.
  Variable cyc : Z -> list Z -> Q.
  Variable small : Z -> bool.

  Lemma dset_In {K V} `{EqDec K} (d : dict K V) k v k' v' : In (k', v') (dset d k v) -> (k' = k /\ v' = v) \/ In (k', v') d.
  Proof.
    induction d as [|[x y] d IH]; cbn [dset]; [intros [E|[]]; left; split; congruence|].
    destruct (eq_dec k x) as [->|N]; cbn [In].
    - intros [E|E]; [left; split; congruence | right; right; exact E].
    - intros [E|E]; [right; left; exact E | destruct (IH E); [left; assumption | right; right; assumption]].
  Qed.
  Lemma dset_In_key {K V} `{EqDec K} (d : dict K V) k v x : In x (dkeys (dset d k v)) <-> x = k \/ In x (dkeys d).
  Proof.
    induction d as [|[a b] d IH]; cbn [dset dkeys map In fst]; [intuition|].
    destruct (eq_dec k a) as [->|N]; cbn [map In fst]; [intuition|]. unfold dkeys in IH. rewrite IH. intuition.
  Qed.
  Lemma fold_dset_In {K V} `{EqDec K} (P : K -> V -> Prop) (l d : dict K V) : (forall k v, In (k, v) l -> P k v) -> (forall k v, In (k, v) d -> P k v) ->
    forall k v, In (k, v) (fold_left (fun d kv => dset d (fst kv) (snd kv)) l d) -> P k v.
  Proof.
    revert d. induction l as [|[k0 v0] l IH]; intros d Hl Hd; cbn [fold_left fst snd]; [exact Hd|].
    apply IH; [intros k' v' I'; apply Hl; right; exact I'|]. intros k' v' I'. apply dset_In in I'. destruct I' as [(-> & ->)|I']; [apply Hl; left; reflexivity | apply Hd, I'].
  Qed.
  Lemma ddel_In {K V} `{EqDec K} (d : dict K V) k x v : In (x, v) (ddel d k) -> In (x, v) d.
  Proof. unfold ddel. rewrite filter_In. tauto. Qed.
  Lemma ddel_keys {K V} `{EqDec K} (d : dict K V) k x : In x (dkeys (ddel d k)) -> In x (dkeys d).
  Proof. unfold dkeys, ddel. rewrite !in_map_iff. intros ((a & b) & E & I). apply filter_In in I. exists (a, b). tauto. Qed.
  Lemma filter_le {B} (f : B -> bool) l : (length (filter f l) <= length l)%nat.
  Proof. induction l as [|x l IH]; cbn [filter length]; [lia|]. destruct (f x); cbn [length]; lia. Qed.
  Lemma ddel_shorter {K V} `{EqDec K} (d : dict K V) k v : dget d k = Some v -> (length (ddel d k) < length d)%nat.
  Proof.
    induction d as [|[x y] d IH]; cbn [dget]; [discriminate|]. unfold ddel. cbn [filter fst length].
    destruct (eq_dec k x) as [->|N]; intros E.
    - rewrite eqd_refl. cbn [negb]. pose proof (filter_le (fun p : K * V => negb (eqd x (fst p))) d). lia.
    - rewrite (proj2 (eqd_false k x) N). cbn [negb length]. specialize (IH E). unfold ddel in IH. lia.
  Qed.
  Lemma min_key_In {V} (d : list (ppair * V)) k : min_key d = Some k -> In k (map fst d).
  Proof.
    revert k. induction d as [|[x v] d IH]; intros k; cbn [min_key map fst In]; [discriminate|].
    destruct (min_key d) as [m|]; intros E; injection E as <-; [|left; reflexivity].
    destruct (ppair_leb x m); [left; reflexivity | right; apply IH; reflexivity].
  Qed.
  Lemma min_key_None {V} (d : list (ppair * V)) : min_key d = None -> d = [].
  Proof. destruct d as [|[x v] d]; cbn [min_key]; [reflexivity|]. destruct (min_key d); discriminate. Qed.

  Section One.
    Variable occs : list Z.
    Variable max_p : option Z.
    Local Notation at_ := (at_ occs).
    Local Notation aft := (aft occs).
    Local Notation bef := (bef occs).

    (* what the lists of distances are *)
    Hypothesis Hm : max_p = None \/ chronological occs.

    Lemma filter_prefix {B} (f : B -> bool) l d i : (forall a b, (a < b < length l)%nat -> f (nth b l d) = true -> f (nth a l d) = true) ->
      (i < length (filter f l))%nat -> nth i (filter f l) d = nth i l d /\ (i < length l)%nat /\ f (nth i l d) = true.
    Proof.
      revert i. induction l as [|x l IH]; intros i Hf Hi; cbn [filter length] in Hi; [lia|].
      destruct (f x) eqn:E.
      - cbn [filter]. rewrite E. destruct i as [|i]; cbn [nth length]; [split; [reflexivity | split; [lia | exact E]]|].
        cbn [length] in Hi. destruct (IH i) as (A & B0 & C); [|lia|].
        + intros a b Hab Hb. apply (Hf (S a) (S b)); [cbn [length]; lia | exact Hb].
        + split; [exact A | split; [lia | exact C]].
      - exfalso. assert (Hall : filter f l = []).
        { clear IH Hi. destruct (filter f l) as [|y r] eqn:El; [reflexivity|]. exfalso.
          assert (Hy : In y (filter f l)) by (rewrite El; left; reflexivity). apply filter_In in Hy. destruct Hy as [Hy Hfy].
          apply (In_nth _ _ d) in Hy. destruct Hy as (b & Hb & Eb). specialize (Hf 0%nat (S b)). cbn [nth length] in Hf. rewrite Eb in Hf. rewrite Hf in E; [discriminate | lia | exact Hfy]. }
        rewrite Hall in Hi. cbn [length] in Hi. lia.
    Qed.

    Lemma nth_sub c (l : list Z) a : (a < length l)%nat -> nth a (map (fun t => t - c) l) 0 = nth a l 0 - c.
    Proof. revert a. induction l as [|x l IH]; intros [|a] Ha; cbn [map nth length] in *; [lia | lia | reflexivity | apply IH; lia]. Qed.
    Lemma aft_nth i k : (k < length (aft i max_p))%nat -> nth k (aft i max_p) 0 = gap occs i (i + k + 1) /\ (i + k + 1 < length occs)%nat /\ within occs max_p i (i + k + 1).
    Proof.
      assert (Hl : forall a, (a < length (skipn (S i) occs))%nat -> nth a (map (fun t => t - at_ i) (skipn (S i) occs)) 0 = gap occs i (i + a + 1)).
      { intros a Ha. rewrite nth_sub by exact Ha. unfold gap, FoldModel.at_. f_equal. rewrite <- (firstn_skipn (S i) occs) at 2. rewrite skipn_length in Ha.
        rewrite app_nth2; rewrite firstn_length_le by lia; [f_equal; lia | lia]. }
      unfold FoldModel.aft; cbv zeta. intros Hk. destruct max_p as [m|].
      - destruct Hm as [Hx|Hc]; [discriminate|].
        destruct (filter_prefix (fun d => d <? m) (map (fun t => t - at_ i) (skipn (S i) occs)) 0 k) as (A & B & C).
        + rewrite map_length. intros a b Hab Hb. rewrite Hl in * by lia. rewrite skipn_length in Hab. apply Z.ltb_lt in Hb. apply Z.ltb_lt.
          unfold gap in *. specialize (Hc (i + a + 1)%nat (i + b + 1)%nat). lia.
        + exact Hk.
        + rewrite map_length in B. rewrite A, Hl in * by exact B. rewrite skipn_length in B. split; [reflexivity | split; [lia|]]. apply Z.ltb_lt in C. exact C.
      - rewrite map_length in Hk. rewrite Hl by exact Hk. rewrite skipn_length in Hk. split; [reflexivity | split; [lia | exact I]].
    Qed.
    Lemma bef_nth i k : (i < length occs)%nat -> (k < length (bef i max_p))%nat ->
      nth k (bef i max_p) 0 = - gap occs (i - k - 1) i /\ (k < i)%nat /\ within occs max_p (i - k - 1) i.
    Proof.
      intros Hi.
      assert (Hl : forall a, (a < i)%nat -> nth a (map (fun t => t - at_ i) (rev (firstn i occs))) 0 = - gap occs (i - a - 1) i).
      { intros a Ha. rewrite nth_sub by (rewrite rev_length, firstn_length_le; lia). unfold gap, FoldModel.at_. rewrite rev_nth by (rewrite firstn_length_le; lia). rewrite firstn_length_le by lia.
        replace (nth (i - S a) (firstn i occs) 0) with (nth (i - a - 1) occs 0); [lia|].
        rewrite <- (firstn_skipn i occs) at 1. rewrite app_nth1 by (rewrite firstn_length_le; lia). f_equal. lia. }
      unfold FoldModel.bef, rev'; cbv zeta; rewrite <- rev_alt. intros Hk. destruct max_p as [m|].
      - destruct Hm as [Hx|Hc]; [discriminate|].
        destruct (filter_prefix (fun d => - m <? d) (map (fun t => t - at_ i) (rev (firstn i occs))) 0 k) as (A & B & C).
        + rewrite map_length, rev_length, firstn_length_le by lia. intros a b Hab Hb. rewrite Hl in * by lia. apply Z.ltb_lt in Hb. apply Z.ltb_lt.
          unfold gap in *. specialize (Hc (i - b - 1)%nat (i - a - 1)%nat). lia.
        + exact Hk.
        + rewrite map_length, rev_length, firstn_length_le in B by lia. rewrite A, Hl in * by exact B. split; [reflexivity | split; [lia|]]. apply Z.ltb_lt in C. unfold within. lia.
      - rewrite map_length, rev_length, firstn_length_le in Hk by lia. rewrite Hl by exact Hk. split; [reflexivity | split; [lia | exact I]].
    Qed.
    Lemma aft_length i : (length (aft i max_p) <= length occs - S i)%nat.
    Proof. unfold FoldModel.aft; cbv zeta. destruct max_p; [etransitivity; [apply filter_le|]|]; rewrite map_length, skipn_length; lia. Qed.
    Lemma bef_length i : (length (bef i max_p) <= i)%nat.
    Proof. unfold FoldModel.bef, rev'; cbv zeta; rewrite <- rev_alt. destruct max_p; [etransitivity; [apply filter_le|]|]; rewrite map_length, rev_length, firstn_length; lia. Qed.

    (* ------------------------------------------------------------- the pairs *)
    Definition three (h i j : nat) (dE dp : Z) : Prop :=
      regular small occs h i j /\ within occs max_p h i /\ within occs max_p i j /\
      dE = Z.abs (gap occs i j - gap occs h i) /\ dp = Z.min (gap occs i j) (gap occs h i).
    Definition three_t (k : ppair) (v : Z * Z * nat * Q) : Prop :=
      let '(dE, dp, b, c) := v in three b (fst k) (snd k) dE dp /\ c = trip dp dE.
    Definition three_f (k : ppair) (v : Z * Z * nat) : Prop := let '(dE, dp, j) := v in three (fst k) (snd k) j dE dp.
    Definition three_b (k : ppair) (v : Z * Z * nat) : Prop := let '(dE, dp, b) := v in three b (fst k) (snd k) dE dp.
    Record good (s : pairs) : Prop := {
      g_test : forall k v, In (k, v) (test s) -> three_t k v;
      g_trips : forall k v, In (k, v) (trips s) -> three_t k v;
      g_fwd : forall k v, In (k, v) (fwd s) -> three_f k v;
      g_bck : forall k v, In (k, v) (bck s) -> three_b k v;
      g_both : incl (dkeys (fwd s)) (dkeys (bck s)) }.

    Lemma good_none : good no_pairs.
    Proof. split; cbn; try (intros k v []); intros k []. Qed.
    Lemma note_good s h i j dE dp : good s -> three h i j dE dp -> good (note s h i j dE dp (trip dp dE)).
    Proof.
      intros G H3.
      assert (Htail : forall s1, good s1 -> good (match dget (test s1) (i, j) with
        | None => {| test := dset (test s1) (i, j) (dE, dp, h, trip dp dE); fwd := fwd s1; bck := bck s1; trips := trips s1 |}
        | Some (dE', _, _, _) =>
            if dE <? dE' then {| test := dset (test s1) (i, j) (dE, dp, h, trip dp dE); fwd := fwd s1; bck := bck s1; trips := trips s1 |}
            else s1
        end)).
      { intros s1 G1.
        assert (Ga : good {| test := dset (test s1) (i, j) (dE, dp, h, trip dp dE); fwd := fwd s1; bck := bck s1; trips := trips s1 |}).
        { destruct G1 as [G1 G2 G3 G4 G5]. split; cbn [test trips fwd bck]; auto.
          intros k v I. apply dset_In in I. destruct I as [(-> & ->)|I]; [split; [exact H3 | reflexivity] | apply G1, I]. }
        destruct (dget (test s1) (i, j)) as [[[[dE' dp'] b] c]|]; [destruct (dE <? dE'); assumption | exact Ga]. }
      unfold note. apply Htail.
      destruct (dget (fwd s) (h, i)) as [[[dE' dp'] j']|] eqn:Ef.
      - destruct (dE <? dE'); [|exact G]. destruct G as [G1 G2 G3 G4 G5]. split; cbn [test trips fwd bck]; auto.
        + intros k v I. apply dset_In in I. destruct I as [(-> & ->)|I]; [exact H3 | apply G3, I].
        + intros k I. apply dset_In_key in I. destruct I as [->|I]; [apply G5, dget_Some_key; eauto | apply G5, I].
      - destruct (dget (test s) (h, i)) as [[[[dE' dp'] b] c]|] eqn:Et; [|exact G]. destruct G as [G1 G2 G3 G4 G5]. split; cbn [test trips fwd bck]; auto.
        + intros k v I. apply G1. eapply ddel_In, I.
        + intros k v I. apply dset_In in I. destruct I as [(-> & ->)|I]; [exact H3 | apply G3, I].
        + intros k v I. apply dset_In in I. destruct I as [(-> & ->)|I]; [|apply G4, I]. apply dget_In in Et. apply G1 in Et. exact (proj1 Et).
        + intros k I. apply dset_In_key. apply dset_In_key in I. destruct I as [->|I]; [left; reflexivity | right; apply G5, I].
    Qed.
    Lemma set_aside_good i s : good s -> good (set_aside i s).
    Proof.
      intros G. unfold set_aside. destruct ((i mod 100 =? 0) && (0 <? i))%nat; [|exact G]. destruct G as [G1 G2 G3 G4 G5]. split; cbn [test trips fwd bck]; auto.
      - intros k v I. apply filter_In in I. apply G1, I.
      - intros k v I. revert k v I. apply fold_dset_In; [intros k v I; apply filter_In in I; apply G1, I | exact G2].
    Qed.
    Lemma walk_good fuel sfuel i : (i < length occs)%nat -> forall ia ib seen s s', good s ->
      walk trip small fuel sfuel i (aft i max_p) (bef i max_p) ia ib seen s = Ret s' -> good s'.
    Proof.
      intros Hi. induction fuel as [|f IH]; intros ia ib seen s s' G; cbn [walk]; [discriminate|].
      destruct ((ia <? length (aft i max_p))%nat && (ib <? length (bef i max_p))%nat) eqn:Hlen; [|intros E; injection E as <-; exact G].
      apply andb_true_iff in Hlen. destruct Hlen as [Ha Hb]. apply Nat.ltb_lt in Ha, Hb.
      destruct (_ && _); [apply IH, G|]. destruct (_ && _); [apply IH, G|]. cbv zeta.
      destruct (aft_nth i ia Ha) as (Ea & La & Wa). destruct (bef_nth i ib Hi Hb) as (Eb & Lb & Wb).
      destruct (small (Z.abs (nth ia (aft i max_p) 0 + nth ib (bef i max_p) 0))) eqn:Hs; [|apply IH, G].
      destruct (seen_loop _ _ _ _ _) as [[seen' ipp]|e|]; cbn [bind]; try discriminate.
      destruct (0 <=? ipp); apply IH; [|exact G]. apply note_good; [exact G|].
      rewrite Ea, Eb in *. replace (gap occs i (i + ia + 1) + - gap occs (i - ib - 1) i) with (gap occs i (i + ia + 1) - gap occs (i - ib - 1) i) in * by lia.
      repeat split; try assumption; try lia.
    Qed.
    Lemma centres_good sfuel : forall l s s', (forall i, In i l -> (i < length occs)%nat) -> good s -> centres trip small occs sfuel max_p l s = Ret s' -> good s'.
    Proof.
      induction l as [|i l IH]; intros s s' Hl G; cbn [centres]; [intros E; injection E as <-; exact G|].
      destruct (walk _ _ _ _ _ _ _ _ _ _ _) as [s1|e|] eqn:Ew; cbn [bind]; try discriminate. apply IH; [intros j Hj; apply Hl; right; exact Hj|].
      apply set_aside_good. eapply walk_good; [apply Hl; left; reflexivity | exact G | exact Ew].
    Qed.

    (* ------------------------------------------------------------ the chains *)
    Definition chain_run (pos : list nat) : Prop :=
      regular_run small occs pos /\ (forall a b l1 l2, pos = l1 ++ a :: b :: l2 -> within occs max_p a b).
    Lemma run_snoc pos y z n : regular_run small occs (pos ++ [y; z]) -> regular small occs y z n -> regular_run small occs (pos ++ [y; z; n]).
    Proof.
      intros R Hn. induction pos as [|a pos IH]; cbn [app] in *; [inversion R|].
      destruct pos as [|b pos]; cbn [app] in *.
      - inversion R; subst; (apply run_cons; [assumption | apply run3, Hn]).
      - destruct pos as [|c pos]; cbn [app] in *; inversion R; subst; first [solve [destruct pos; discriminate] | apply run_cons; [assumption | apply IH; assumption]].
    Qed.
    Lemma pairs_snoc (P : nat -> nat -> Prop) pos y z n : (forall a b l1 l2, pos ++ [y; z] = l1 ++ a :: b :: l2 -> P a b) -> P z n ->
      forall a b l1 l2, pos ++ [y; z; n] = l1 ++ a :: b :: l2 -> P a b.
    Proof.
      intros Hp Hn a b l1 l2 E. change (pos ++ [y; z; n]) with (pos ++ [y; z] ++ [n]) in E. rewrite app_assoc in E.
      destruct l2 as [|w l2] using rev_ind.
      - change (l1 ++ [a; b]) with (l1 ++ [a] ++ [b]) in E. rewrite app_assoc in E. apply app_inj_tail in E. destruct E as [E ->].
        change (pos ++ [y; z]) with (pos ++ [y] ++ [z]) in E. rewrite app_assoc in E. apply app_inj_tail in E. destruct E as [_ ->]. exact Hn.
      - apply (Hp a b l1 l2). change (l1 ++ a :: b :: l2 ++ [w]) with (l1 ++ (a :: b :: l2) ++ [w]) in E. rewrite app_assoc in E. apply app_inj_tail in E. apply E.
    Qed.
    Lemma follow_spec fuel : forall fw tr y z rest fw' tr' cur,
      (forall k v, In (k, v) fw -> three_f k v) -> (forall k v, In (k, v) tr -> three_t k v) ->
      chain_run (rev (z :: y :: rest)) ->
      follow fuel fw tr y z rest = (fw', tr', cur) ->
      chain_run (rev cur) /\ (forall k v, In (k, v) fw' -> In (k, v) fw) /\ (forall k v, In (k, v) tr' -> In (k, v) tr) /\
      (length fw' <= length fw)%nat /\ (dget fw (y, z) <> None -> fuel <> 0%nat -> (length fw' < length fw)%nat /\ (3 + length rest <= length cur)%nat) /\
      (2 + length rest <= length cur)%nat.
    Proof.
      induction fuel as [|f IH]; intros fw tr y z rest fw' tr' cur Hf Ht Hr; cbn [follow].
      - intros E; injection E as <- <- <-. split; [exact Hr | repeat split; auto; cbn [length]; try lia; congruence].
      - destruct (dget fw (y, z)) as [[[dE dp] n]|] eqn:Eg.
        + intros E.
          assert (Hnew : chain_run (rev (n :: z :: y :: rest))).
          { pose proof (Hf _ _ (dget_In _ _ _ Eg)) as (H1 & _ & H2 & _). destruct Hr as [Hr Hw]. cbn [rev] in *. rewrite <- !app_assoc in *. cbn [app] in *.
            split; [apply run_snoc; assumption | apply (pairs_snoc (within occs max_p)); [exact Hw | exact H2]]. }
          destruct (IH (ddel fw (y, z)) (ddel tr (z, n)) z n (y :: rest) fw' tr' cur (fun k v I => Hf k v (ddel_In _ _ _ _ I)) (fun k v I => Ht k v (ddel_In _ _ _ _ I)) Hnew E) as (A & B & C & D & _ & F).
          pose proof (ddel_shorter fw (y, z) _ Eg) as Hd. cbn [length] in F.
            split; [exact A|]. split; [intros k v I; eapply ddel_In, B, I|]. split; [intros k v I; eapply ddel_In, C, I|]. split; [lia|]. split; [intros _ _; split; lia | lia].
        + intros E; injection E as <- <- <-. split; [exact Hr | repeat split; auto; cbn [length]; try lia; congruence].
    Qed.
    (* the fuel of [follow] is enough: the chain is followed to its end *)
    Lemma follow_end fuel : forall fw tr y z rest fw' tr' cur, (length fw <= fuel)%nat -> follow fuel fw tr y z rest = (fw', tr', cur) ->
      exists z' y' rest', cur = z' :: y' :: rest' /\ dget fw' (y', z') = None.
    Proof.
      induction fuel as [|f IH]; intros fw tr y z rest fw' tr' cur Hl; cbn [follow].
      - destruct fw; [|cbn in Hl; lia]. intros E; injection E as <- <- <-. do 3 eexists. split; reflexivity.
      - destruct (dget fw (y, z)) as [[[dE dp] n]|] eqn:Eg.
        + apply IH. pose proof (ddel_shorter fw (y, z) _ Eg). lia.
        + intros E; injection E as <- <- <-. do 3 eexists. split; [reflexivity | exact Eg].
    Qed.
    Record chain_good (eff : Q) (c : chain) : Prop := {
      cg_run : chain_run (ch_pos c);
      cg_long : (4 <= length (ch_pos c))%nat;
      cg_occs : ch_occs c = map (fun i => nth i occs 0) (ch_pos c);
      cg_period : compute_period (ch_occs c) = Some (ch_p c);
      cg_cost : ch_cost c = cyc (ch_p c) (ch_occs c) /\ chain_ok eff (ch_cost c) (length (ch_occs c)) = true }.
    Lemma chains_spec eff bk : forall fuel fw tr, (length fw <= fuel)%nat ->
      (forall k v, In (k, v) fw -> three_f k v) -> (forall k v, In (k, v) bk -> three_b k v) -> (forall k v, In (k, v) tr -> three_t k v) ->
      incl (dkeys fw) (dkeys bk) ->
      exists cs tr', chains cyc occs fuel eff fw bk tr = Ret (cs, tr') /\ Forall (chain_good eff) cs /\ (forall k v, In (k, v) tr' -> In (k, v) tr).
    Proof.
      induction fuel as [|f IH]; intros fw tr Hl Hf Hb Ht Hi; cbn [chains].
      - destruct fw; [|cbn in Hl; lia]. cbn [min_key]. exists [], tr. repeat split; auto.
      - destruct (min_key fw) as [[h i]|] eqn:Em; [|exists [], tr; repeat split; auto].
        pose proof (min_key_In _ _ Em) as Hk. destruct (proj1 (dget_Some_key bk (h, i)) (Hi _ Hk)) as [[[dE dp] b] Eb]. rewrite Eb.
        pose proof (Hb _ _ (dget_In _ _ _ Eb)) as (R & W1 & W2 & _). cbn [fst snd] in *.
        destruct (follow (length fw) fw tr h i [b]) as [[fw' tr'] cur] eqn:Ef.
        assert (Hr0 : chain_run (rev [i; h; b])).
        { cbn [rev app]. split; [apply run3, R|]. intros a c l1 l2 E. destruct l1 as [|x [|y l1]]; cbn in E.
          - injection E as -> -> _. exact W1.
          - injection E as _ -> -> _. exact W2.
          - apply (f_equal (@length nat)) in E. cbn [length] in E. rewrite app_length in E. cbn [length] in E. lia. }
        destruct (follow_spec _ _ _ _ _ _ _ _ _ Hf Ht Hr0 Ef) as (A & B & C & D & F & _). cbn [length] in F.
        destruct F as [F1 F2].
        { destruct (proj1 (dget_Some_key fw (h, i)) Hk) as [v Ev]. rewrite Ev. discriminate. }
        { destruct fw; [discriminate Em | cbn [length]; discriminate]. }
        assert (Hp : exists p, compute_period (map at_ (rev cur)) = Some p).
        { rewrite <- (rev_length cur) in F2. clear -F2. destruct (rev cur) as [|x [|y l]]; cbn [length] in F2; try lia. cbn [map]. unfold compute_period, period_diffs. cbn [diffs]. eauto. }
        destruct Hp as [p Ep]. rewrite Ep.
        destruct (IH fw' tr') as (cs & tr2 & E2 & Hcs & Htr2); try lia; [intros k v I; apply Hf, B, I | exact Hb | intros k v I; apply Ht, C, I | |].
        { intros k I. apply Hi. unfold dkeys in *. apply in_map_iff in I. destruct I as ((k' & v) & <- & I). apply in_map_iff. exists (k', v). split; [reflexivity | apply B, I]. }
        rewrite E2. cbn [bind fst snd]. destruct (chain_ok eff (cyc p (map at_ (rev cur))) (length (map at_ (rev cur)))) eqn:Ec.
        + do 2 eexists. split; [reflexivity|]. split; [constructor; [|exact Hcs]|intros k v I; apply C, Htr2, I].
          split; cbn [ch_p ch_cost ch_pos ch_occs]; auto. rewrite rev_length. lia.
        + do 2 eexists. split; [reflexivity|]. split; [exact Hcs | intros k v I; apply C, Htr2, I].
    Qed.

    Record triple_good (eff : Q) (offset : nat) (t : triple) : Prop := {
      tg_pos : exists h i j, tr_pos t = [h + offset; i + offset; j + offset]%nat /\ regular small occs h i j /\
                 within occs max_p h i /\ within occs max_p i j /\
                 tr_dE t = Z.abs (gap occs i j - gap occs h i) /\ tr_p t = Z.min (gap occs i j) (gap occs h i);
      tg_cost : tr_cost t = trip (tr_p t) (tr_dE t) /\ triple_ok eff (tr_cost t) = true }.
    Lemma fold_sub_sound sfuel et ec offset cs ts : fold_sub trip cyc small occs sfuel et ec offset max_p = Ret (cs, ts) ->
      Forall (chain_good ec) cs /\ Forall (triple_good et offset) ts.
    Proof.
      unfold fold_sub. destruct (centres _ _ _ _ _ _ _) as [s|e|] eqn:Es; cbn [bind]; try discriminate.
      assert (G : good s).
      { eapply centres_good; [|exact good_none|exact Es]. intros i I. apply in_seq in I. lia. }
      assert (Htr : forall k v, In (k, v) (fold_left (fun d kv => dset d (fst kv) (snd kv)) (test s) (trips s)) -> three_t k v).
      { apply fold_dset_In; [apply (g_test s G) | apply (g_trips s G)]. }
      cbv zeta. destruct (chains_spec ec (bck s) (length (fwd s)) (fwd s) _ (le_n _) (g_fwd s G) (g_bck s G) Htr (g_both s G)) as (cs' & tr' & E & Hcs & Hin).
      rewrite E. cbn [bind fst snd]. intros Er. injection Er as <- <-. split; [exact Hcs|].
      apply Forall_forall. intros t I. unfold triples_of in I. apply in_map_iff in I. destruct I as ((k & [[[dE dp] b] c]) & <- & I). apply filter_In in I. destruct I as [I Hok].
      destruct (Htr _ _ (Hin _ _ I)) as [(R & W1 & W2 & E1 & E2) Ec]. cbn [fst snd] in *. split; cbn [tr_pos tr_dE tr_p tr_cost].
      - exists b, (fst k), (snd k). repeat split; try assumption; try apply R.
      - split; assumption.
    Qed.

    (* ----------------------------------------------------------- termination *)
    Lemma seen_ends dp da : 0 < dp -> 0 < da -> forall fuel seen ipp, Forall (fun s => 0 < s) seen -> 0 <= ipp <= Z.of_nat (length seen) ->
      (length seen + 2 <= fuel + Z.to_nat ipp)%nat ->
      exists seen' ipp', (forall more, seen_loop (more + fuel) dp da seen ipp = Ret (seen', ipp')) /\
        Forall (fun s => 0 < s) seen' /\ ((0 <= ipp' /\ length seen' = length seen) \/ (ipp' < 0 /\ length seen' = S (length seen))).
    Proof.
      intros Hdp Hda. induction fuel as [|f IH]; intros seen ipp Hs Hi Hf; [lia|].
      destruct (Z.eq_dec ipp (Z.of_nat (length seen))) as [E|N].
      - exists seen, ipp. split; [|split; [exact Hs | left; lia]]. intros more. rewrite Nat.add_succ_r. cbn [seen_loop].
        replace (ipp <? Z.of_nat (length seen)) with false by (symmetry; apply Z.ltb_ge; lia). rewrite andb_false_r. reflexivity.
      - assert (Hin : 0 < nth (Z.to_nat ipp) seen 0) by (rewrite Forall_forall in Hs; apply Hs, nth_In; lia).
        assert (Hneg : forall k sn, 0 < nth (Z.to_nat ipp) seen 0 -> seen_loop (S k) dp da sn (- nth (Z.to_nat ipp) seen 0) = Ret (sn, - nth (Z.to_nat ipp) seen 0)).
        { intros k sn H. cbn [seen_loop]. replace (0 <=? - nth (Z.to_nat ipp) seen 0) with false by (symmetry; apply Z.leb_gt; lia). reflexivity. }
        assert (Hstep : forall k, seen_loop (S k) dp da seen ipp =
          (let s := nth (Z.to_nat ipp) seen 0 in if dp =? 2 * s then seen_loop k dp da (seen ++ [dp]) (- s)
           else if da =? 2 * s then seen_loop k dp da (seen ++ [da]) (- s) else seen_loop k dp da seen (ipp + 1))).
        { intros k. cbn [seen_loop]. replace (0 <=? ipp) with true by (symmetry; apply Z.leb_le; lia). replace (ipp <? Z.of_nat (length seen)) with true by (symmetry; apply Z.ltb_lt; lia). reflexivity. }
        cbv zeta in Hstep. destruct (dp =? 2 * nth (Z.to_nat ipp) seen 0) eqn:E1.
        { exists (seen ++ [dp]), (- nth (Z.to_nat ipp) seen 0). split; [|split; [apply Forall_app; split; [exact Hs | constructor; [exact Hdp | constructor]] | right; rewrite app_length; cbn [length]; lia]].
          intros more. rewrite Nat.add_succ_r, Hstep. destruct (more + f)%nat as [|k] eqn:Ek; [lia | apply Hneg, Hin]. }
        destruct (da =? 2 * nth (Z.to_nat ipp) seen 0) eqn:E2.
        { exists (seen ++ [da]), (- nth (Z.to_nat ipp) seen 0). split; [|split; [apply Forall_app; split; [exact Hs | constructor; [exact Hda | constructor]] | right; rewrite app_length; cbn [length]; lia]].
          intros more. rewrite Nat.add_succ_r, Hstep. destruct (more + f)%nat as [|k] eqn:Ek; [lia | apply Hneg, Hin]. }
        destruct (IH seen (ipp + 1)) as (s' & i' & A & B & C); [exact Hs | lia | lia|]. exists s', i'. split; [|split; assumption].
        intros more. rewrite Nat.add_succ_r, Hstep. apply A.
    Qed.
    Hypothesis Hc : chronological occs.
    Lemma walk_ends sfuel i : (i < length occs)%nat -> (length occs + 2 <= sfuel)%nat -> forall fuel ia ib seen s,
      Forall (fun s => 0 < s) seen -> (length seen <= ia + ib)%nat ->
      (S (length (aft i max_p) + length (bef i max_p)) <= fuel + ia + ib)%nat -> (ia <= length (aft i max_p))%nat -> (ib <= length (bef i max_p))%nat ->
      exists s', forall more, walk trip small fuel (more + sfuel) i (aft i max_p) (bef i max_p) ia ib seen s = Ret s'.
    Proof.
      intros Hi Hsf. induction fuel as [|f IH]; intros ia ib seen s Hp Hl Hf Ha0 Hb0; [lia|]. cbn [walk].
      destruct ((ia <? length (aft i max_p))%nat && (ib <? length (bef i max_p))%nat) eqn:Hlen; [|exists s; reflexivity].
      apply andb_true_iff in Hlen. destruct Hlen as [Ha Hb]. apply Nat.ltb_lt in Ha, Hb. cbv zeta.
      destruct ((S ib <? length (bef i max_p))%nat && _); [apply IH; auto; lia|].
      destruct ((S ia <? length (aft i max_p))%nat && _); [apply IH; auto; lia|].
      destruct (small _); [|apply IH; auto; lia].
      destruct (aft_nth i ia Ha) as (Ea & La & Wa). destruct (bef_nth i ib Hi Hb) as (Eb & Lb & Wb).
      assert (P1 : 0 < nth ia (aft i max_p) 0) by (rewrite Ea; unfold gap; specialize (Hc i (i + ia + 1)%nat); lia).
      assert (P2 : 0 < - nth ib (bef i max_p) 0) by (rewrite Eb; unfold gap; specialize (Hc (i - ib - 1)%nat i); lia).
      pose proof (aft_length i) as Hla. pose proof (bef_length i) as Hlb.
      destruct (seen_ends (Z.min (nth ia (aft i max_p) 0) (- nth ib (bef i max_p) 0)) (Z.max (nth ia (aft i max_p) 0) (- nth ib (bef i max_p) 0)) ltac:(lia) ltac:(lia) sfuel seen 0 Hp) as (seen' & ipp & E & Hp' & Hl'); [lia | lia|].
      destruct (0 <=? ipp) eqn:Ei.
      - apply Z.leb_le in Ei.
        destruct (IH (S ia) (S ib) (seen' ++ [Z.min (nth ia (aft i max_p) 0) (- nth ib (bef i max_p) 0)])
          (note s (i - ib - 1) i (i + ia + 1) (Z.abs (nth ia (aft i max_p) 0 + nth ib (bef i max_p) 0)) (Z.min (nth ia (aft i max_p) 0) (- nth ib (bef i max_p) 0))
             (trip (Z.min (nth ia (aft i max_p) 0) (- nth ib (bef i max_p) 0)) (Z.abs (nth ia (aft i max_p) 0 + nth ib (bef i max_p) 0))))) as (s' & Hs');
          [apply Forall_app; split; [exact Hp' | constructor; [lia | constructor]] | rewrite app_length; cbn [length]; lia | lia | lia | lia|].
        exists s'. intros more. rewrite E. cbn [bind]. rewrite (proj2 (Z.leb_le 0 ipp) Ei). apply Hs'.
      - destruct (IH (S ia) (S ib) seen' s) as (s' & Hs'); [exact Hp' | lia | lia | lia | lia|].
        exists s'. intros more. rewrite E. cbn [bind]. rewrite Ei. apply Hs'.
    Qed.
    Lemma centres_end sfuel : (length occs + 2 <= sfuel)%nat -> forall l s, (forall i, In i l -> (i < length occs)%nat) ->
      exists s', forall more, centres trip small occs (more + sfuel) max_p l s = Ret s'.
    Proof.
      intros Hsf. induction l as [|i l IH]; intros s Hl; cbn [centres]; [exists s; reflexivity|].
      destruct (walk_ends sfuel i (Hl i (or_introl eq_refl)) Hsf (S (length occs)) 0%nat 0%nat [] s) as (s1 & E1).
      1: constructor. 1: cbn; lia. 2-3: lia.
      { pose proof (aft_length i). pose proof (bef_length i). pose proof (Hl i (or_introl eq_refl)). lia. }
      destruct (IH (set_aside i s1)) as (s2 & E2); [intros j Hj; apply Hl; right; exact Hj|]. exists s2. intros more. rewrite E1. cbn [bind]. apply E2.
    Qed.
    Lemma fold_sub_ends sfuel et ec offset : (length occs + 2 <= sfuel)%nat -> exists r, forall more, fold_sub trip cyc small occs (more + sfuel) et ec offset max_p = Ret r.
    Proof.
      intros Hsf. destruct (centres_end sfuel Hsf (List.seq 1 (length occs - 1)) no_pairs) as (s & Es); [intros i I; apply in_seq in I; lia|].
      assert (G : good s).
      { eapply centres_good; [|exact good_none|exact (Es 0%nat)]. intros i I. apply in_seq in I. lia. }
      assert (Htr : forall k v, In (k, v) (fold_left (fun d kv => dset d (fst kv) (snd kv)) (test s) (trips s)) -> three_t k v).
      { apply fold_dset_In; [apply (g_test s G) | apply (g_trips s G)]. }
      destruct (chains_spec ec (bck s) (length (fwd s)) (fwd s) _ (le_n _) (g_fwd s G) (g_bck s G) Htr (g_both s G)) as (cs' & tr' & E & Hcs & Hin).
      exists (cs', triples_of et offset tr'). intros more. unfold fold_sub. rewrite Es. cbn [bind]. cbv zeta. rewrite E. reflexivity.
    Qed.
  End One.
End Proofs.

(* -------------------------------------------------------------- the theorems *)
(* A chain of the result: its occurrences are those at positions [offset + pos], at least four,
   any three in a row regular, and its period is the median of their differences (C40). *)
Record sound_chain (cyc : Z -> list Z -> Q) (small : Z -> bool) (occs : list Z) (max_p : option Z) (eff : Q) (offset : nat) (c : chain) : Prop := {
  sc_run : regular_run small occs (map (Nat.add offset) (ch_pos c));
  sc_within : forall a b l1 l2, map (Nat.add offset) (ch_pos c) = l1 ++ a :: b :: l2 -> within occs max_p a b;
  sc_long : (4 <= length (ch_pos c))%nat;
  sc_occs : ch_occs c = map (fun i => nth i occs 0) (map (Nat.add offset) (ch_pos c));
  sc_period : compute_period (ch_occs c) = Some (ch_p c);
  sc_cost : ch_cost c = cyc (ch_p c) (ch_occs c) /\ chain_ok eff (ch_cost c) (length (ch_occs c)) = true }.
(* A triple of the result: three regular positions, with the smaller gap and the difference of the gaps *)
Record sound_triple (trip : Z -> Z -> Q) (small : Z -> bool) (occs : list Z) (max_p : option Z) (eff : Q) (t : triple) : Prop := {
  st_pos : exists h i j, tr_pos t = [h; i; j] /\ regular small occs h i j /\ within occs max_p h i /\ within occs max_p i j /\
             tr_dE t = Z.abs (gap occs i j - gap occs h i) /\ tr_p t = Z.min (gap occs i j) (gap occs h i);
  st_cost : tr_cost t = trip (tr_p t) (tr_dE t) /\ triple_ok eff (tr_cost t) = true }.

Section Blocks.
  Variable trip : Z -> Z -> Q.
  Variable cyc : Z -> list Z -> Q.
  Variable small : Z -> bool.
  Variable occs : list Z.

  Lemma block_nth b i : (i < length (block occs b))%nat -> nth i (block occs b) 0 = nth (b * 1500 + i) occs 0 /\ (b * 1500 + i < length occs)%nat.
  Proof.
    unfold block. rewrite firstn_length, skipn_length. generalize (b * 1500)%nat. intros o Hi.
    assert (E : nth i (firstn 1500 (skipn o occs)) 0 = nth i (skipn o occs) 0).
    { rewrite <- (firstn_skipn 1500 (skipn o occs)) at 2. rewrite app_nth1; [reflexivity | rewrite firstn_length, skipn_length; lia]. }
    rewrite E. split; [|lia]. rewrite <- (firstn_skipn o occs) at 2. rewrite app_nth2; rewrite firstn_length_le by lia; [f_equal; lia | lia].
  Qed.
  Lemma block_length b : (length (block occs b) <= length occs)%nat.
  Proof. unfold block. rewrite firstn_length, skipn_length. lia. Qed.
  Lemma block_chronological b : chronological occs -> chronological (block occs b).
  Proof.
    intros H i j Hij. destruct (block_nth b i ltac:(lia)) as [E1 _]. destruct (block_nth b j ltac:(lia)) as [E2 L2]. rewrite E1, E2. apply H. lia.
  Qed.
  (* positions of a part of the list, shifted *)
  Definition part (l : list Z) (o : nat) : Prop := forall i, (i < length l)%nat -> nth i l 0 = nth (o + i) occs 0 /\ (o + i < length occs)%nat.
  Lemma part_gap l o i j : part l o -> (i < length l)%nat -> (j < length l)%nat -> gap l i j = gap occs (o + i) (o + j).
  Proof. intros P Hi Hj. unfold gap. rewrite (proj1 (P i Hi)), (proj1 (P j Hj)). reflexivity. Qed.
  Lemma part_regular l o h i j : part l o -> regular small l h i j -> regular small occs (o + h) (o + i) (o + j).
  Proof.
    intros P ((H1 & H2) & H3 & H4). split; [lia|]. split; [apply P; exact H3|]. rewrite <- !(part_gap l o) by (auto; lia). exact H4.
  Qed.
  Lemma part_run l o pos : part l o -> regular_run small l pos -> regular_run small occs (map (Nat.add o) pos) /\ Forall (fun i => (i < length l)%nat) pos.
  Proof.
    intros P. induction 1 as [h i j H|h i j l0 H R [IH1 IH2]]; cbn [map] in *.
    - split; [apply run3, (part_regular l); assumption|]. destruct H as (H1 & H2 & _). repeat constructor; lia.
    - split; [apply run_cons; [apply (part_regular l); assumption | exact IH1]|]. constructor; [destruct H as (H1 & H2 & _); lia | exact IH2].
  Qed.
  Lemma part_chain max_p l o eff c : part l o -> chain_good cyc small l max_p eff c -> sound_chain cyc small occs max_p eff o c.
  Proof.
    intros P [[R W] Hl Ho Hp Hc]. destruct (part_run l o _ P R) as [R' Hin]. split; auto.
    - intros a b l1 l2 E. destruct max_p as [m|]; [|exact I]. cbn [within] in *.
      apply map_eq_app in E. destruct E as (p1 & p2 & E & E1 & E2). destruct p2 as [|a' [|b' p2]]; [discriminate | discriminate|]. injection E2 as <- <- E2.
      rewrite E in Hin. apply Forall_app in Hin. destruct Hin as [_ Hin]. inversion Hin as [|x y Ha Hin' Ex]; subst. inversion Hin' as [|x y Hb Hin2 Ex]; subst.
      rewrite <- (part_gap l o) by assumption. apply (W _ _ p1 p2 E).
    - rewrite Ho, map_map. apply map_ext_in. intros i I. rewrite Forall_forall in Hin. apply P, Hin, I.
  Qed.
  Lemma part_triple max_p l o eff t : part l o -> triple_good trip small l max_p eff o t -> sound_triple trip small occs max_p eff t.
  Proof.
    intros P [(h & i & j & E & R & W1 & W2 & E1 & E2) Hc]. split; [|exact Hc].
    exists (o + h)%nat, (o + i)%nat, (o + j)%nat. rewrite E. split; [f_equal; [lia | f_equal; [lia | f_equal; lia]]|]. pose proof R as ((H1 & H2) & H3 & _).
    split; [apply (part_regular l); assumption|]. rewrite <- !(part_gap l o) by (auto; lia).
    split; [destruct max_p; [cbn [within] in *; rewrite <- (part_gap l o) by (auto; lia); exact W1 | exact I]|].
    split; [destruct max_p; [cbn [within] in *; rewrite <- (part_gap l o) by (auto; lia); exact W2 | exact I]|]. split; assumption.
  Qed.
  Lemma part_block b : part (block occs b) (b * 1500).
  Proof. intros i Hi. apply block_nth, Hi. Qed.
  Lemma part_all : part occs 0.
  Proof. intros i Hi. cbn. auto. Qed.

  Lemma fold_err {X Y} (f : outcome X -> Y -> outcome X) l e : (forall e y, (forall r, e <> Ret r) -> forall r, f e y <> Ret r) -> (forall r, e <> Ret r) -> forall r, fold_left f l e <> Ret r.
  Proof. intros Hf. revert e. induction l as [|y l IH]; intros e He r; cbn [fold_left]; [apply He | apply IH, Hf, He]. Qed.
  Lemma blocks_sound sfuel et ec max_p : max_p = None \/ chronological occs -> forall l cs0 ts0 cs ts,
    Forall (fun c => exists o, sound_chain cyc small occs max_p ec o c) cs0 -> Forall (sound_triple trip small occs max_p et) ts0 ->
    fold_left (fun acc i =>
        bind acc (fun cts =>
        bind (fold_sub trip cyc small (block occs i) sfuel et ec (i * 1500) max_p) (fun r =>
        Ret (fst cts ++ fst r, snd cts ++ snd r)))) l (Ret (cs0, ts0)) = Ret (cs, ts) ->
    Forall (fun c => exists o, sound_chain cyc small occs max_p ec o c) cs /\ Forall (sound_triple trip small occs max_p et) ts.
  Proof.
    intros Hm. induction l as [|b l IH]; intros cs0 ts0 cs ts H1 H2; cbn [fold_left bind fst snd]; [intros E; injection E as <- <-; split; assumption|].
    destruct (fold_sub _ _ _ _ _ _ _ _ _) as [[cs1 ts1]|e|] eqn:Eb; cbn [bind].
    - assert (Hb : max_p = None \/ chronological (block occs b)) by (destruct Hm; [left; assumption | right; apply block_chronological; assumption]).
      destruct (fold_sub_sound trip cyc small (block occs b) max_p Hb _ _ _ _ _ _ Eb) as [A B]. apply IH; cbn [fst snd]; apply Forall_app; split; auto.
      + eapply Forall_impl; [|exact A]. intros c Hc. exists (b * 1500)%nat. eapply part_chain; [apply part_block | exact Hc].
      + eapply Forall_impl; [|exact B]. intros t Ht. eapply part_triple; [apply part_block | exact Ht].
    - intros E. exfalso. revert E. apply fold_err; [|discriminate]. intros [r|e'|] y Hy r'; cbn [bind]; [destruct (Hy r eq_refl) | discriminate | discriminate].
    - intros E. exfalso. revert E. apply fold_err; [|discriminate]. intros [r|e'|] y Hy r'; cbn [bind]; [destruct (Hy r eq_refl) | discriminate | discriminate].
  Qed.
End Blocks.

(* C81: whatever is found is regular, at positions inside the list. *)
Theorem C81_sound_partial : forall trip cyc small sfuel occs eff_trip eff_chain max_p cs ts,
  max_p = None \/ chronological occs ->
  extract_fold trip cyc small sfuel occs eff_trip eff_chain max_p = Ret (cs, ts) ->
  Forall (fun c => exists offset, ((length occs < 2000)%nat -> offset = 0%nat) /\ sound_chain cyc small occs max_p eff_chain offset c) cs /\
  Forall (sound_triple trip small occs max_p eff_trip) ts.
Proof.
  intros trip cyc small sfuel occs et ec max_p cs ts Hm. unfold extract_fold. destruct (length occs <? 2000)%nat eqn:Hl.
  - intros E. destruct (fold_sub_sound trip cyc small occs max_p Hm _ _ _ _ _ _ E) as [A B]. split.
    + eapply Forall_impl; [|exact A]. intros c Hc. exists 0%nat. split; [reflexivity|]. eapply part_chain; [apply part_all | exact Hc].
    + eapply Forall_impl; [|exact B]. intros t Ht. eapply part_triple; [apply part_all | exact Ht].
  - apply Nat.ltb_ge in Hl. destruct (fold_sub trip cyc small (block occs 0) sfuel et ec 0 max_p) as [[cs0 ts0]|e|] eqn:E0.
    + assert (Hb : max_p = None \/ chronological (block occs 0)) by (destruct Hm; [left; assumption | right; apply block_chronological; assumption]).
      destruct (fold_sub_sound trip cyc small (block occs 0) max_p Hb _ _ _ _ _ _ E0) as [A B]. intros E.
      apply blocks_sound in E; [|exact Hm| |].
      * destruct E as [A' B']. split; [|exact B']. eapply Forall_impl; [|exact A']. intros c (o & Hc). exists o. split; [lia | exact Hc].
      * eapply Forall_impl; [|exact A]. intros c Hc. exists (0 * 1500)%nat. eapply part_chain; [apply part_block | exact Hc].
      * eapply Forall_impl; [|exact B]. intros t Ht. eapply part_triple; [apply (part_block occs 0) | exact Ht].
    + intros E. exfalso. revert E. apply fold_err; [|discriminate]. intros [r|e'|] y Hy r'; cbn [bind]; [destruct (Hy r eq_refl) | discriminate | discriminate].
    + intros E. exfalso. revert E. apply fold_err; [|discriminate]. intros [r|e'|] y Hy r'; cbn [bind]; [destruct (Hy r eq_refl) | discriminate | discriminate].
Qed.
Print Assumptions C81_sound_partial.

(* C81: on times in chronological order the search ends, without an exception, and the result
   does not depend on the bound put on its inner loop. *)
Theorem C81_terminates : forall trip cyc small occs eff_trip eff_chain max_p, chronological occs ->
  exists r, forall sfuel, (length occs + 2 <= sfuel)%nat -> extract_fold trip cyc small sfuel occs eff_trip eff_chain max_p = Ret r.
Proof.
  intros trip cyc small occs et ec max_p Hc. unfold extract_fold.
  assert (Hone : forall b, exists r, forall sfuel, (length occs + 2 <= sfuel)%nat -> fold_sub trip cyc small (block occs b) sfuel et ec (b * 1500) max_p = Ret r).
  { intros b. pose proof (block_length occs b) as Hlb. destruct (fold_sub_ends trip cyc small (block occs b) max_p (or_intror (block_chronological occs b Hc)) (block_chronological occs b Hc) (length (block occs b) + 2) et ec (b * 1500) (le_n _)) as [r Hr].
    exists r. intros sfuel Hs. replace sfuel with (sfuel - (length (block occs b) + 2) + (length (block occs b) + 2))%nat by lia. apply Hr. }
  destruct (length occs <? 2000)%nat.
  - destruct (fold_sub_ends trip cyc small occs max_p (or_intror Hc) Hc (length occs + 2) et ec 0 (le_n _)) as [r Hr].
    exists r. intros sfuel Hs. replace sfuel with (sfuel - (length occs + 2) + (length occs + 2))%nat by lia. apply Hr.
  - destruct (Hone 0%nat) as [r0 E0]. cbn [Nat.mul] in E0.
    assert (Hf : forall l r1, exists r2, forall sfuel, (length occs + 2 <= sfuel)%nat ->
      fold_left (fun acc i => bind acc (fun cts => bind (fold_sub trip cyc small (block occs i) sfuel et ec (i * 1500) max_p) (fun r => Ret (fst cts ++ fst r, snd cts ++ snd r)))) l (Ret r1) = Ret r2).
    { induction l as [|b l IH]; intros r1; [exists r1; reflexivity|]. destruct (Hone b) as [rb Eb].
      destruct (IH (fst r1 ++ fst rb, snd r1 ++ snd rb)) as [r2 E2]. exists r2. intros sfuel Hs. cbn [fold_left bind]. rewrite (Eb sfuel Hs). cbn [bind]. apply E2, Hs. }
    destruct (Hf (List.seq 1 (length occs / 1500 - 1)) r0) as [r2 E2]. exists r2. intros sfuel Hs. rewrite (E0 sfuel Hs). apply E2, Hs.
Qed.
Print Assumptions C81_terminates.

(* C81: every occurrence should be examined; with 2000 of them or more, those after the last
   full 1500 are not: changing them changes nothing. *)
Lemma block_prefix occs occs' k b : firstn (1500 * k) occs = firstn (1500 * k) occs' -> (b < k)%nat -> block occs b = block occs' b.
Proof.
  intros E Hb. unfold block.
  assert (H : forall l : list Z, firstn 1500 (skipn (b * 1500) l) = firstn 1500 (skipn (b * 1500) (firstn (1500 * k) l))).
  { intros l. rewrite skipn_firstn_comm, firstn_firstn. f_equal. lia. }
  rewrite H, E, <- H. reflexivity.
Qed.
Theorem C81_tail_refuted : forall trip cyc small sfuel occs occs' eff_trip eff_chain max_p,
  (2000 <= length occs)%nat -> length occs' = length occs ->
  firstn (1500 * (length occs / 1500)) occs = firstn (1500 * (length occs / 1500)) occs' ->
  extract_fold trip cyc small sfuel occs eff_trip eff_chain max_p = extract_fold trip cyc small sfuel occs' eff_trip eff_chain max_p.
Proof.
  intros trip cyc small sfuel occs occs' et ec max_p Hl El E. unfold extract_fold. rewrite El.
  replace (length occs <? 2000)%nat with false by (symmetry; apply Nat.ltb_ge; exact Hl).
  assert (Hk : (1 <= length occs / 1500)%nat) by (apply Nat.div_le_lower_bound; lia).
  set (k := (length occs / 1500)%nat) in *. rewrite (block_prefix occs occs' k 0 E) by lia.
  generalize (fold_sub trip cyc small (block occs' 0) sfuel et ec 0 max_p). intros r0.
  assert (Hin : forall b, In b (List.seq 1 (k - 1)) -> block occs b = block occs' b) by (intros b I; apply in_seq in I; apply (block_prefix occs occs' k b E); lia).
  revert r0 Hin. generalize (List.seq 1 (k - 1)). induction l as [|b l IH]; intros r0 Hin; cbn [fold_left]; [reflexivity|].
  rewrite (Hin b (or_introl eq_refl)). apply IH. intros b' I. apply Hin. right. exact I.
Qed.
Print Assumptions C81_tail_refuted.

(* C81: the search should end whatever the order of the times; on these seven distinct times
   (as a log gives them when it is not sorted) it never does. *)
Lemma seen_stuck n : forall seen ipp, (ipp = 0 \/ ipp = 1) -> (2 <= length seen)%nat -> nth 0 seen 0 = 5 -> nth 1 seen 0 = -1 -> seen_loop n (-2) (-2) seen ipp = NoFuel.
Proof.
  induction n as [|n IH]; intros seen ipp Hi Hl H0 H1; [reflexivity|]. cbn [seen_loop].
  replace ((0 <=? ipp) && (ipp <? Z.of_nat (length seen))) with true by (symmetry; apply andb_true_iff; split; [apply Z.leb_le | apply Z.ltb_lt]; lia).
  assert (Hap : forall x, (2 <= length (seen ++ [x]))%nat /\ nth 0 (seen ++ [x]) 0 = 5 /\ nth 1 (seen ++ [x]) 0 = -1).
  { intros x. rewrite app_length. cbn [length]. rewrite !app_nth1 by lia. repeat split; try assumption; lia. }
  destruct Hi as [-> | ->].
  - cbn [Z.to_nat]. rewrite H0. cbn. apply IH; auto.
  - change (Z.to_nat 1) with 1%nat. rewrite H1. cbn [Z.mul Z.opp Z.eqb Pos.eqb]. destruct (Hap (-2)) as (A & B & C). apply (IH _ 1); auto.
Qed.
Definition hang_occs : list Z := [12; 11; 5; 10; 15; 9; 8].
Lemma hang_walk trip n s : (3 <= n)%nat -> walk trip (fun dE => dE <? 2) 8 n 3 [5; -1; -2] [-5; 1; 2] 0 0 [] s = NoFuel.
Proof.
  intros Hn.
  assert (E1 : seen_loop n 5 5 [] 0 = Ret ([], 0)) by (destruct n; [lia | reflexivity]).
  assert (E2 : seen_loop n (-1) (-1) [5] 0 = Ret ([5], 1)) by (destruct n as [|[|[|n]]]; [lia | lia | lia | reflexivity]).
  assert (E3 : seen_loop n (-2) (-2) [5; -1] 0 = NoFuel) by (apply seen_stuck; auto).
  cbn -[seen_loop note]. rewrite E1. cbn -[seen_loop note]. rewrite E2. cbn -[seen_loop note]. rewrite E3. reflexivity.
Qed.
Theorem C81_hang_refuted : exists small : Z -> bool, NoDup hang_occs /\
  forall trip cyc sfuel eff_trip eff_chain, extract_fold trip cyc small sfuel hang_occs eff_trip eff_chain None = NoFuel.
Proof.
  exists (fun dE => dE <? 2). split; [repeat constructor; cbn; lia|]. intros trip cyc sfuel et ec.
  change (extract_fold trip cyc (fun dE => dE <? 2) sfuel hang_occs et ec None) with (fold_sub trip cyc (fun dE => dE <? 2) hang_occs sfuel et ec 0 None).
  unfold fold_sub. change (List.seq 1 (length hang_occs - 1)) with [1; 2; 3; 4; 5; 6]%nat.
  cbn [centres].
  destruct sfuel as [|[|[|f]]]; [reflexivity | reflexivity | reflexivity|].
  assert (E1 : exists s, walk trip (fun dE => dE <? 2) (S (length hang_occs)) (S (S (S f))) 1 (aft hang_occs 1 None) (bef hang_occs 1 None) 0 0 [] no_pairs = Ret s) by (vm_compute; eauto).
  destruct E1 as [s1 E1]. rewrite E1. cbn [bind].
  assert (E2 : forall s, walk trip (fun dE => dE <? 2) (S (length hang_occs)) (S (S (S f))) 2 (aft hang_occs 2 None) (bef hang_occs 2 None) 0 0 [] s = Ret s) by (intros s; vm_compute; reflexivity).
  rewrite E2. cbn [bind]. rewrite (hang_walk trip (S (S (S f)))) by lia. reflexivity.
Qed.
Print Assumptions C81_hang_refuted.

(* C81: the positions of a chain should be positions in the list; from the second block on they
   are positions in the block.  3000 increasing times; the last four are regular. *)
Definition far_occs : list Z := map (fun i => 10 * Z.of_nat i) (List.seq 0 2996) ++ [30000; 30001; 30002; 30003].
Definition zero_trip (dp dE : Z) : Q := 0%Q.
Definition zero_cyc (p : Z) (os : list Z) : Q := 0%Q.
Definition same (dE : Z) : bool := dE =? 0.
Theorem C81_positions_refuted : exists cs ts c, extract_fold zero_trip zero_cyc same 2000 far_occs 1%Q 1%Q (Some 5) = Ret (cs, ts) /\
  In c cs /\ ch_occs c <> map (fun i => nth i far_occs 0) (ch_pos c).
Proof.
  assert (H : match extract_fold zero_trip zero_cyc same 2000 far_occs 1%Q 1%Q (Some 5) with
              | Ret (cs, _) => existsb (fun c => negb (eqd (ch_occs c) (map (fun i => nth i far_occs 0) (ch_pos c)))) cs
              | _ => false end = true) by (vm_cast_no_check (eq_refl true)).
  destruct (extract_fold zero_trip zero_cyc same 2000 far_occs 1%Q 1%Q (Some 5)) as [[cs ts]|e|]; [|discriminate|discriminate].
  apply existsb_exists in H. destruct H as (c & I & H). exists cs, ts, c. split; [reflexivity|]. split; [exact I|].
  apply negb_true_iff, eqd_false in H. exact H.
Qed.
Print Assumptions C81_positions_refuted.

(* The hypotheses are met: eight times in order, a chain of five occurrences and three triples *)
Definition some_occs : list Z := [0; 10; 13; 20; 30; 41; 47; 60].
Definition near (dE : Z) : bool := dE <? 3.
Example C81_case : chronological some_occs /\
  extract_fold zero_trip zero_cyc near 10 some_occs 1%Q 1%Q None =
  Ret ([{| ch_p := 10; ch_cost := 0%Q; ch_pos := [0; 1; 3; 4; 5]%nat; ch_occs := [0; 10; 20; 30; 41] |}],
       [{| tr_dE := 0; tr_p := 17; tr_cost := 0%Q; tr_pos := [2; 4; 6]%nat |};
        {| tr_dE := 0; tr_p := 30; tr_cost := 0%Q; tr_pos := [0; 4; 7]%nat |};
        {| tr_dE := 2; tr_p := 19; tr_cost := 0%Q; tr_pos := [3; 5; 7]%nat |}]).
Proof.
  split; [|vm_compute; reflexivity]. intros i j. cbn [length some_occs]. intros H.
  do 8 (destruct j as [|j]; [do 8 (destruct i as [|i]; [first [lia | cbn; lia]|]); lia|]). lia.
Qed.
