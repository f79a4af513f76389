(* C19, C20, C22, C23: SlimClassifier, SLIM.get_support, SLIMVectorizer. *)
From Verif Require Import Prelude CheckModel LCMModel LCMProofs ItemsetSpec VerticalProofs LCMLift
  SlimModel SlimProofs SlimInv SlimRun SlimFit SlimUse SlimAppsModel PropSlim.
From Coq Require Import QArith.
Local Open Scope nat_scope.

(* ------------------------------------------------------------------- C19 *)
Section Argmax.
  Context {S : Type} (slt : S -> S -> bool).
  Context (irrefl : forall a, slt a a = false)
          (trans : forall a b c, slt a b = true -> slt b c = true -> slt a c = true)
          (ntrans : forall a b c, slt a b = false -> slt b c = false -> slt a c = false).
  Definition is_first_max (l : list S) (j : nat) : Prop :=
    exists s, nth_error l j = Some s /\
      (forall j' s', nth_error l j' = Some s' -> slt s s' = false) /\
      (forall j' s', j' < j -> nth_error l j' = Some s' -> slt s' s = true).

  Lemma argmax_from_spec row : forall pre best b,
    is_first_max pre best -> nth_error pre best = Some b ->
    is_first_max (pre ++ row) (argmax_from slt (length pre) best b row).
  Proof.
    induction row as [|x row IH]; intros pre best b Hb E; simpl; [rewrite app_nil_r; exact Hb|].
    destruct Hb as [s [E1 [H1 H2]]]; rewrite E in E1; injection E1 as <-.
    assert (Hlt : best < length pre) by (apply nth_error_Some; congruence).
    replace (pre ++ x :: row) with ((pre ++ [x]) ++ row) by (rewrite <- app_assoc; reflexivity).
    replace (Datatypes.S (length pre)) with (length (pre ++ [x])) by (rewrite app_length; simpl; lia).
    destruct (slt b x) eqn:Ex.
    - apply IH; [|rewrite nth_error_app2, Nat.sub_diag by lia; reflexivity].
      exists x; split; [rewrite nth_error_app2, Nat.sub_diag by lia; reflexivity|]; split.
      + intros j' s' Hj; destruct (Nat.lt_ge_cases j' (length pre)) as [Hl|Hl].
        * rewrite nth_error_app1 in Hj by exact Hl.
          destruct (slt x s') eqn:F; [|reflexivity].
          specialize (H1 j' s' Hj); rewrite (trans b x s' Ex F) in H1; discriminate.
        * rewrite nth_error_app2 in Hj by exact Hl; destruct (j' - length pre) as [|[|?]]; simpl in Hj; try discriminate.
          injection Hj as <-; apply irrefl.
      + intros j' s' Hl Hj; rewrite nth_error_app1 in Hj by exact Hl.
        destruct (slt s' x) eqn:F; [reflexivity|]; specialize (H1 j' s' Hj).
        rewrite (ntrans b s' x H1 F) in Ex; discriminate.
    - apply IH; [|rewrite nth_error_app1 by exact Hlt; exact E].
      exists b; split; [rewrite nth_error_app1 by exact Hlt; exact E|]; split.
      + intros j' s' Hj; destruct (Nat.lt_ge_cases j' (length pre)) as [Hl|Hl].
        * rewrite nth_error_app1 in Hj by exact Hl; eapply H1, Hj.
        * rewrite nth_error_app2 in Hj by exact Hl; destruct (j' - length pre) as [|[|?]]; simpl in Hj; try discriminate.
          injection Hj as <-; exact Ex.
      + intros j' s' Hl Hj; rewrite nth_error_app1 in Hj by lia; eapply H2; eassumption.
  Qed.
  Lemma argmax_spec row : row <> [] -> is_first_max row (argmax slt row).
  Proof.
    destruct row as [|x row]; [congruence|]; intros _; simpl.
    apply (argmax_from_spec row [x] 0 x); [|reflexivity].
    exists x; split; [reflexivity|]; split; [|intros j' s' Hl; lia].
    intros j' s' Hj; destruct j' as [|[|?]]; simpl in Hj; try discriminate; injection Hj as <-; apply irrefl.
  Qed.
End Argmax.

(* [scores !! j !! i] is the score model j gives to transaction i; [slt] is [<] on
   scores, a strict weak order (the scores exp(-0.2 x), x > 0, are never NaN) *)
Theorem C19_predict_best :
  forall (L S : Type) (slt : S -> S -> bool) (d : S) (classes : list L) (scores : list (list S)) (n : nat),
  (forall a, slt a a = false) ->
  (forall a b c, slt a b = true -> slt b c = true -> slt a c = true) ->
  (forall a b c, slt a b = false -> slt b c = false -> slt a c = false) ->
  classes <> [] -> length scores = length classes -> (forall s, In s scores -> length s = n) ->
  exists y, classifier_predict slt d classes scores n = Ret y /\ length y = n /\
    forall i, i < n -> exists j c, nth_error classes j = Some c /\ nth_error y i = Some c /\
      exists s, (exists col, nth_error scores j = Some col /\ nth_error col i = Some s) /\
        (forall j' col s', nth_error scores j' = Some col -> nth_error col i = Some s' -> slt s s' = false) /\
        (forall j' col s', j' < j -> nth_error scores j' = Some col -> nth_error col i = Some s' -> slt s' s = true).
Proof.
  intros L S slt d classes scores n Hir Htr Hnt Hc Hl Hlen.
  destruct classes as [|c0 cs]; [congruence|]; destruct scores as [|s0 ss]; [discriminate|].
  unfold classifier_predict.
  assert (Hall : forallb (fun s => length s =? n) (s0 :: ss) = true).
  { apply forallb_forall; intros s Hs; apply Nat.eqb_eq, Hlen, Hs. }
  rewrite Hall; eexists; split; [reflexivity|]; split; [rewrite map_length; apply seq_length|].
  intros i Hi; set (row := map (fun s => nth i s d) (s0 :: ss)).
  destruct (argmax_spec slt Hir Htr Hnt row) as [s [E [H1 H2]]]; [discriminate|].
  assert (Hrow : forall j col, nth_error (s0 :: ss) j = Some col ->
            exists s', nth_error col i = Some s' /\ nth_error row j = Some s').
  { intros j col Hj; exists (nth i col d); split.
    - apply nth_error_nth'; rewrite (Hlen col); [exact Hi | eapply nth_error_In, Hj].
    - unfold row; exact (map_nth_error (fun s => nth i s d) j _ Hj). }
  assert (Hj : argmax slt row < length (c0 :: cs)).
  { apply nth_error_Some_2 in E || idtac. assert (Hx : argmax slt row < length row) by (apply nth_error_Some; congruence).
    unfold row in Hx at 2; rewrite map_length, Hl in Hx; exact Hx. }
  destruct (nth_error (c0 :: cs) (argmax slt row)) as [c|] eqn:Ec; [|apply nth_error_None in Ec; lia].
  exists (argmax slt row), c; split; [exact Ec|]; split.
  - rewrite nth_error_map, (nth_error_nth' _ 0) by (rewrite seq_length; exact Hi).
    rewrite seq_nth by exact Hi; simpl option_map; f_equal.
    change (nth (argmax slt row) (c0 :: cs) c0 = c); apply nth_error_nth; exact Ec.
  - exists s; split; [|split].
    + destruct (nth_error (s0 :: ss) (argmax slt row)) as [col|] eqn:Ecol; [|apply nth_error_None in Ecol; lia].
      exists col; split; [reflexivity|]; destruct (Hrow _ _ Ecol) as [s' [E1 E2]]; congruence.
    + intros j' col s' Hc' Hs'; destruct (Hrow _ _ Hc') as [s'' [E1 E2]]; apply (H1 j'); congruence.
    + intros j' col s' Hj' Hc' Hs'; destruct (Hrow _ _ Hc') as [s'' [E1 E2]]; apply (H2 j'); [exact Hj' | congruence].
Qed.
Print Assumptions C19_predict_best.
Example C19_case : classifier_predict Nat.ltb 0 [10; 20; 30] [[5;1;7]; [5;3;7]; [2;3;9]] 3 = Ret [10; 20; 30].
Proof. reflexivity. Qed.

(* ------------------------------------------------------------------- C20 *)
Section Labels.
  Context {A L : Type} `{EqDec L}.
  Lemma dedup_In y x : In x (dedup y) <-> In x y.
  Proof.
    induction y as [|z y IH]; simpl; [tauto|]; destruct (mem_spec z y) as [Hz|Hz]; simpl; rewrite IH; [|tauto].
    split; [auto|]; intros [->|Hx]; assumption.
  Qed.
  Lemma dedup_NoDup y : NoDup (dedup y).
  Proof.
    induction y as [|z y IH]; simpl; [constructor|]; destruct (mem_spec z y); [exact IH|].
    constructor; [rewrite dedup_In; assumption | exact IH].
  Qed.
  Lemma select_spec (c : L) : forall (X : list A) (y : list L) k, length X = length y ->
    exists idx, StronglySorted lt idx /\
      (forall i, In i idx <-> k <= i /\ nth_error y (i - k) = Some c) /\
      Forall2 (fun t i => nth_error X (i - k) = Some t) (map fst (filter (fun p => eqd (snd p) c) (combine X y))) idx.
  Proof.
    induction X as [|t X IH]; intros [|z y] k Hl; simpl in Hl; try discriminate.
    - exists []; split; [constructor|]; split; [|constructor].
      intros i; split; [intros []|]; intros [_ E]; destruct (i - k); discriminate.
    - destruct (IH y (S k)) as [idx [H1 [H2 H3]]]; [lia|]; simpl.
      assert (Hshift : forall i t', S k <= i -> nth_error X (i - S k) = Some t' -> nth_error (t :: X) (i - k) = Some t').
      { intros i t' Hi E; replace (i - k) with (S (i - S k)) by lia; exact E. }
      assert (H3' : Forall2 (fun t' i => nth_error (t :: X) (i - k) = Some t')
                 (map fst (filter (fun p => eqd (snd p) c) (combine X y))) idx).
      { assert (Hge : forall i, In i idx -> S k <= i) by (intros i Hi; apply H2, Hi).
        clear -H3 Hshift Hge; induction H3 as [|a b la lb Hab Hr IH']; constructor.
        - apply Hshift; [apply Hge; left; reflexivity | exact Hab].
        - apply IH'; intros i Hi; apply Hge; right; exact Hi. }
      destruct (mem_spec c [z]) as [Hz|Hz]; unfold eqd; destruct (eq_dec z c) as [->|Hzc]; try (simpl in Hz; intuition congruence).
      + exists (k :: idx); split; [|split].
        * constructor; [exact H1|]; apply Forall_forall; intros i Hi; apply H2 in Hi; lia.
        * intros i; simpl; rewrite H2; destruct (Nat.eq_dec i k) as [->|Hne].
          { rewrite Nat.sub_diag; split; auto. }
          split.
          -- intros [E|[Hi E]]; [lia|]; split; [lia|]; replace (i - k) with (S (i - S k)) by lia; exact E.
          -- intros [Hi E]; right; split; [lia|]; replace (i - k) with (S (i - S k)) in E by lia; exact E.
        * simpl; constructor; [rewrite Nat.sub_diag; reflexivity | exact H3'].
      + exists idx; split; [exact H1|]; split; [|exact H3'].
        intros i; rewrite H2; destruct (Nat.eq_dec i k) as [->|Hne].
        { rewrite Nat.sub_diag; simpl; split; [lia | intros [_ E]; congruence]. }
        split; intros [Hi E]; (split; [lia|]); [replace (i - k) with (S (i - S k)) by lia | replace (i - k) with (S (i - S k)) in E by lia]; exact E.
  Qed.
End Labels.
(* what is proved: the partition.  The clause on the pruning option is false of the
   code: see C20_pruning_ignored_refuted *)
Theorem C20_partition_partial :
  forall (A L : Type) (HL : EqDec L) (leL : L -> L -> bool) pruning (X : list (list A)) (y : list L),
  (forall a b, leL a b = true \/ leL b a = true) ->
  (forall a b c, leL a b = true -> leL b c = true -> leL a c = true) ->
  (forall a b, leL a b = true -> leL b a = true -> a = b) ->
  length X = length y ->
  let models := classifier_fit leL pruning X y in
  StronglySorted (fun a b => leL a b = true /\ a <> b) (map fst models) /\
  (forall c, In c (map fst models) <-> In c y) /\
  (forall c m, In (c, m) models ->
     exists idx, StronglySorted lt idx /\ (forall i, In i idx <-> nth_error y i = Some c) /\
       Forall2 (fun t i => nth_error X i = Some t) (m_data m) idx).
Proof.
  intros A L HL leL pruning X y Htot Htr Has Hl models.
  assert (Hm : map fst models = np_unique leL y).
  { unfold models, classifier_fit; rewrite map_map; apply map_id. }
  split; [|split].
  - rewrite Hm; unfold np_unique; pose proof (sort_sorted leL Htot Htr (dedup y)) as Hs.
    pose proof (NoDup_sort leL (dedup y) (dedup_NoDup y)) as Hn.
    induction (sort leL (dedup y)) as [|a l IH]; [constructor|].
    inversion Hs as [|? ? Hs1 Hs2]; subst; inversion Hn as [|? ? Hn1 Hn2]; subst.
    constructor; [apply IH; assumption|]; rewrite Forall_forall in *; intros b Hb; split; [apply Hs2, Hb|].
    intros ->; contradiction.
  - intros c; rewrite Hm; unfold np_unique; rewrite In_sort; apply dedup_In.
  - intros c m Hin; apply in_map_iff in Hin; destruct Hin as [c' [E Hc]]; injection E as -> <-; simpl.
    destruct (select_spec c X y 0 Hl) as [idx [H1 [H2 H3]]]; exists idx; split; [exact H1|]; split.
    + intros i; rewrite H2, Nat.sub_0_r; intuition lia.
    + clear -H3; induction H3 as [|a b la lb Hab Hr IH]; constructor; [rewrite Nat.sub_0_r in Hab; exact Hab | exact IH].
Qed.
Print Assumptions C20_partition_partial.
Theorem C20_pruning_ignored_refuted :
  exists pruning (X : list (list nat)) (y : list nat) c m,
    In (c, m) (classifier_fit Nat.leb pruning X y) /\ m_pruning m <> pruning.
Proof. exists false, [[1;2]], [7]; eexists; eexists; split; [left; reflexivity | discriminate]. Qed.
Print Assumptions C20_pruning_ignored_refuted.
(* whatever the option, every model prunes *)
Theorem C20_always_pruned : forall (A L : Type) (HL : EqDec L) (leL : L -> L -> bool) pruning (X : list (list A)) (y : list L) c m,
  In (c, m) (classifier_fit leL pruning X y) -> m_pruning m = true.
Proof. intros A L HL leL pruning X y c m Hin; apply in_map_iff in Hin; destruct Hin as [c' [E _]]; injection E as _ <-; reflexivity. Qed.
Print Assumptions C20_always_pruned.
Example C20_case : map (fun p => (fst p, m_data (snd p))) (classifier_fit Nat.leb false [[1];[2];[3];[4]] [7;3;7;5])
  = [(3, [[2]]); (5, [[4]]); (7, [[1];[3]])].
Proof. reflexivity. Qed.

(* ------------------------------------------------------------------- C22 *)
Section GetSupport.
  Context {A : Type} `{EqDec A} (shrink : @cache A -> @cache A) (shrink_incl : forall c : @cache A, incl (shrink c) c).

  Definition holds (std : dict A (list nat)) (k : list A) (v : list nat) : Prop :=
    k <> [] /\ known std k /\ NoDup v /\ forall t, In t v <-> forall x, In x k -> In t (tids std x).
  Definition valid (std : dict A (list nat)) (c : @cache A) : Prop := forall k v, In (k, v) c -> holds std k v.

  Lemma cached_In (c : @cache A) k v : cached c k = Some v -> In (k, v) c.
  Proof.
    induction c as [|[k' v'] c IH]; simpl; [discriminate|]; unfold eqd; destruct (eq_dec k k') as [->|].
    - intros E; injection E as <-; left; reflexivity.
    - intros E; right; apply IH, E.
  Qed.
  Lemma get_support_spec std : (forall x, NoDup (tids std x)) -> forall r c, valid std c ->
    match get_support shrink std r c with
    | Ret (v, c') => holds std r v /\ valid std c'
    | Exn e => (r = [] /\ e = IndexError) \/ (~ known std r /\ e = KeyError)
    | NoFuel => False
    end.
  Proof.
    intros Hn; induction r as [|a r IH]; intros c Hv; simpl.
    - destruct (cached c []) as [v|] eqn:E; [|auto].
      apply cached_In, Hv in E; split; [exact E | exact Hv].
    - destruct (cached c (a :: r)) as [v|] eqn:E; [apply cached_In, Hv in E; split; [exact E | exact Hv]|].
      destruct (dget std a) as [u|] eqn:Ea.
      2:{ right; split; [|reflexivity]; intros Hk; apply dget_None in Ea; apply Ea, Hk; left; reflexivity. }
      assert (Hu : tids std a = u) by (unfold tids; rewrite Ea; reflexivity).
      assert (Ha : In a (dkeys std)) by (apply dget_Some_key; eauto).
      destruct r as [|b r].
      + assert (Hh : holds std [a] u).
        { split; [discriminate|]; split; [intros x [<-|[]]; exact Ha|]; split; [rewrite <- Hu; apply Hn|].
          intros t; split; [intros Ht x [<-|[]]; rewrite Hu; exact Ht | intros Ht; rewrite <- Hu; apply Ht; left; reflexivity]. }
        split; [exact Hh|]; intros k v Hin; apply shrink_incl in Hin; destruct Hin as [Ekv|Hin]; [injection Ekv as <- <-; exact Hh | apply Hv, Hin].
      + specialize (IH c Hv); destruct (get_support shrink std (b :: r) c) as [[v c']|e|]; cbn [bind].
        * destruct IH as [[_ [Hk [Hnd Ht]]] Hv'].
          assert (Hh : holds std (a :: b :: r) (inter u v)).
          { split; [discriminate|]; split; [intros x [<-|Hx]; auto|]; split; [apply NoDup_inter; rewrite <- Hu; apply Hn|].
            intros t; rewrite In_inter, Ht, <- Hu; split.
            - intros [H1 H2] x [<-|Hx]; auto.
            - intros Hx; split; [apply Hx; left; reflexivity | intros x Hxx; apply Hx; right; exact Hxx]. }
          split; [exact Hh|]; intros k w Hin; apply shrink_incl in Hin; destruct Hin as [Ekv|Hin]; [injection Ekv as <- <-; exact Hh | apply Hv', Hin].
        * destruct IH as [[E' _]|[Hk ->]]; [discriminate|]; right; split; [|reflexivity].
          intros Hka; apply Hk; intros x Hx; apply Hka; right; exact Hx.
        * exact IH.
  Qed.
  Lemma ask_all_valid std : (forall x, NoDup (tids std x)) -> forall qs c, valid std c -> valid std (ask_all shrink std qs c).
  Proof.
    intros Hn; induction qs as [|q qs IH]; intros c Hv; simpl; [exact Hv|].
    pose proof (get_support_spec std Hn (rev q) c Hv) as Hs.
    destruct (get_support shrink std (rev q) c) as [[v c']|e|]; apply IH; [exact (proj2 Hs) | exact Hv | exact Hv].
  Qed.
  Lemma history_queries std : (forall x, NoDup (tids std x)) -> forall queries c, valid std c ->
    Forall2 (fun q r => match r with
                        | Ret v => holds std (rev q) v
                        | Exn e => (q = [] /\ e = IndexError) \/ (~ known std (rev q) /\ e = KeyError)
                        | NoFuel => False
                        end) queries (history shrink (map Query queries) std c).
  Proof.
    intros Hn; induction queries as [|q qs IH]; intros c Hv; simpl; [constructor|].
    pose proof (get_support_spec std Hn (rev q) c Hv) as Hs.
    destruct (get_support shrink std (rev q) c) as [[v c']|e|]; [| |destruct Hs].
    - constructor; [exact (proj1 Hs) | apply IH, (proj2 Hs)].
    - constructor; [|apply IH, Hv]; destruct Hs as [[E1 E2]|Hs]; [left; split; [|exact E2] | right; exact Hs].
      rewrite <- (rev_involutive q), E1; reflexivity.
  Qed.
End GetSupport.
(* The full property speaks of any sequence of fits; see C22_refit_stale_refuted.
   Proved: after one fit, for any queries in any order and any cache policy. *)
Theorem C22_support_single_fit_partial :
  forall (A : Type) (HA : EqDec A) (shrink : @cache A -> @cache A), (forall c, incl (shrink c) c) ->
  forall (D : list (list A)) (qs queries : list (list A)),
  Forall2 (fun q r =>
      (q <> [] -> (forall x, In x q -> occurs D x) ->
         exists v, r = Ret v /\ NoDup v /\ same_items v (tidset D q)) /\
      (q = [] -> r = Exn IndexError) /\
      ((exists x, In x q /\ ~ occurs D x) -> r = Exn KeyError))
    queries (history shrink (Fit D qs :: map Query queries) [] []).
Proof.
  intros A HA shrink Hs D qs queries; cbn [history].
  set (std := sort more_frequent (vertical D)).
  assert (Hkeys : forall x, In x (dkeys std) <-> occurs D x).
  { intros x; rewrite <- vertical_keys; split; apply Permutation_in; [|symmetry]; apply sort_dkeys_perm. }
  assert (Htids : forall x, tids std x = tids (vertical D) x).
  { intros x; unfold tids; rewrite (dget_perm std (vertical D) x); [reflexivity | apply sort_perm|].
    eapply Permutation_NoDup; [symmetry; apply sort_dkeys_perm | apply vertical_NoDup]. }
  destruct (to_dict_ok (Trans D) [] (conj (NoDup_nil _) I)) as [_ [V2 [_ V4]]]; simpl in V2, V4.
  assert (Hn : forall x, NoDup (tids std x)).
  { intros x; rewrite Htids; unfold tids; destruct (dget (vertical D) x) as [v|] eqn:E; [apply (V2 x), dget_In, E | constructor]. }
  match goal with |- Forall2 _ _ (history _ _ _ ?c) => assert (Hv : valid std c) end.
  { apply ask_all_valid; [exact Hs | exact Hn | intros k v []]. }
  pose proof (history_queries shrink Hs std Hn queries _ Hv) as Hq.
  induction Hq as [|q r queries' rs Hqr Hrest IH]; constructor; [|exact IH].
  destruct r as [v|e|]; [| |destruct Hqr].
  - destruct Hqr as [H1 [H2 [H3 H4]]].
    assert (Hrev : forall x, In x q <-> In x (rev q)) by apply in_rev.
    split; [|split].
    + intros _ _; exists v; split; [reflexivity|]; split; [exact H3|].
      assert (Hiff : forall t, In t v <-> In t (tidset D q)).
      { intros t; rewrite H4, In_tidset; split.
        - intros Hx; assert (Hincl : incl q (nth t D [])).
          { intros x Hxq; apply (V4 x t); rewrite <- Htids; apply Hx, Hrev, Hxq. }
          split; [|exact Hincl]; destruct (Nat.lt_ge_cases t (length D)) as [|Hl]; [assumption|].
          rewrite nth_overflow in Hincl by lia; exfalso; apply H1; destruct q as [|x q]; [reflexivity|].
          destruct (Hincl x); left; reflexivity.
        - intros [_ Hincl] x Hx; rewrite Htids; apply V4, Hincl, Hrev, Hx. }
      split; intros t; apply Hiff.
    + intros ->; exfalso; apply H1; reflexivity.
    + intros [x [Hx Hno]]; exfalso; apply Hno, Hkeys, H2, Hrev, Hx.
  - split; [|split].
    + intros Hne Hocc; exfalso; destruct Hqr as [[E _]|[Hk _]]; [congruence|].
      apply Hk; intros x Hx; apply Hkeys, Hocc, in_rev, Hx.
    + intros ->; destruct Hqr as [[_ ->]|[Hk _]]; [reflexivity|]; exfalso; apply Hk; intros x [].
    + intros [x [Hx Hno]]; destruct Hqr as [[-> _]|[_ ->]]; [destruct Hx | reflexivity].
Qed.
Print Assumptions C22_support_single_fit_partial.
(* full statement: false after a second fit, the cache still answers for the first *)
Theorem C22_refit_stale_refuted :
  exists (D1 D2 : list (list nat)) v,
    history (fun c => c) [Fit D1 []; Fit D2 []; Query [1]] [] [] = [Ret v] /\ ~ same_items v (tidset D2 [1]).
Proof.
  exists [[1;2]; [1]], [[2]; [2]; [1]], [0;1]; split; [vm_compute; reflexivity|].
  intros [_ Hi]; destruct (Hi 2) as [E|[E|[]]]; [vm_compute; auto | discriminate | discriminate].
Qed.
Print Assumptions C22_refit_stale_refuted.
Example C22_case : history (fun c => firstn 2 c) [Fit [[1;2];[1;3];[2;1]] [[2;1]]; Query [1;2]; Query [2;9]; Query []; Query [3;1;3]] [] []
  = [Ret [0;2]; Exn KeyError; Exn IndexError; Ret [1]].
Proof. vm_compute. reflexivity. Qed.

(* ------------------------------------------------------------------- C23 *)
Section Vect.
  Context {A : Type} `{EqDec A} {T : Type} (leA : A -> A -> bool).
  (* the training usage of itemset s in the codetable is n *)
  Definition has_usage (st : slim A T) (s : list A) (n : nat) : Prop :=
    exists k u, In (k, u) (ct st) /\ same_items k s /\ length u = n.
  (* s can be used on the new data: each of its items occurs there and is no stop item *)
  Definition applicable (D : list (list A)) (stop s : list A) : Prop :=
    forall x, In x s -> occurs D x /\ ~ In x stop.

  Lemma firstn_sorted_split {B} (R : B -> B -> Prop) l : StronglySorted R l -> forall k a b,
    In a (firstn k l) -> In b (skipn k l) -> R a b.
  Proof.
    induction 1 as [|x l Hl IH Hx]; intros k a b Ha Hb; [destruct k; destruct Hb|].
    destruct k as [|k]; simpl in *; [destruct Ha|]; destruct Ha as [<-|Ha]; [|eapply IH; eassumption].
    rewrite Forall_forall in Hx; apply Hx; rewrite <- (firstn_skipn k l); apply in_or_app; auto.
  Qed.

  Lemma to_vertical_spec D stop : let d := fst (to_vertical D stop) in
    NoDup (dkeys d) /\ (forall x, In x (dkeys d) <-> occurs D x /\ ~ In x stop)
    /\ (forall x t, In t (tids d x) <-> In x (nth t D []) /\ ~ In x stop).
  Proof.
    simpl; set (f := filter (fun e => negb (mem e stop))).
    assert (Hf : forall r x, In x (f r) <-> In x r /\ ~ In x stop).
    { intros r x; unfold f; rewrite filter_In, negb_true_iff, mem_false; reflexivity. }
    destruct (to_dict_ok (Trans (map f D)) [] (conj (NoDup_nil _) I)) as [V1 [_ [_ V4]]]; simpl in V1, V4.
    split; [exact V1|]; split.
    - intros x; rewrite vertical_keys; unfold occurs; split.
      + intros [t [Ht Hx]]; apply in_map_iff in Ht; destruct Ht as [r [<- Hr]]; apply Hf in Hx; split; [exists r|]; tauto.
      + intros [[r [Hr Hx]] Hs]; exists (f r); split; [apply in_map, Hr | apply Hf; auto].
    - intros x t; rewrite V4; unfold in_list; change (@nil A) with (f []); rewrite map_nth, Hf; reflexivity.
  Qed.

  (* sum of the training usages of the applicable itemsets *)
  Definition app_total (st : slim A T) (D : list (list A)) (stop : list A) : nat :=
    list_sum (map (fun p => if forallb (fun x => negb (mem x stop) && existsb (mem x) D) (fst p)
                            then length (snd p) else 0) (ct st)).
  Record vector_spec (strat : strategy) (k : nat) (stop : list A) (st : slim A T) (D : list (list A))
         (cols : list (list A)) (M : list (list SlimAppsModel.cell)) : Prop := {
    (* shape; the row count is wrong for an empty D, see C23_empty_data_refuted *)
    v_rows : D <> [] -> length M = length D;
    v_width : forall r, In r M -> length r = length cols;
    v_k : length cols <= k;
    (* columns are distinct codetable itemsets without stop items, by decreasing usage,
       and every other applicable itemset has at most their usage *)
    v_distinct : forall i j s s', i <> j -> nth_error cols i = Some s -> nth_error cols j = Some s' -> ~ same_items s s';
    v_app : forall s, In s cols -> applicable D stop s /\ exists n, has_usage st s n;
    v_sorted : forall i j s s' n n', i < j -> nth_error cols i = Some s -> nth_error cols j = Some s' ->
         has_usage st s n -> has_usage st s' n' -> n' <= n;
    v_top : forall s s' n n', In s cols -> has_usage st s n -> has_usage st s' n' -> applicable D stop s' ->
         (forall c, In c cols -> ~ same_items c s') -> n' <= n /\ length cols = k;
    (* cells; the values are numbers when one-hot, or when some applicable itemset was
       used in training, see C23_nan_refuted *)
    v_cells : strat = OneHot \/ 0 < app_total st D stop -> forall t, t < length D ->
        (forall j s q, nth_error cols j = Some s -> nth_error (nth t M []) j = Some q ->
           exists v, q = Some v /\ (~ v == 0 -> incl s (nth t D []))%Q) /\
        (forall j j' s s' v v', j <> j' -> nth_error cols j = Some s -> nth_error cols j' = Some s' ->
           nth_error (nth t M []) j = Some (Some v) -> nth_error (nth t M []) j' = Some (Some v') ->
           (~ v == 0 -> ~ v' == 0 -> disjoint s s')%Q);
    (* one-hot: a column is marked exactly when it fits and meets no earlier marked one *)
    v_onehot : strat = OneHot -> forall t j s, t < length D -> nth_error cols j = Some s ->
        (nth_error (nth t M []) j = Some (Some 1%Q) \/ nth_error (nth t M []) j = Some (Some 0%Q)) /\
        (nth_error (nth t M []) j = Some (Some 1%Q) <->
           incl s (nth t D []) /\
           forall j' s', j' < j -> nth_error cols j' = Some s' ->
             nth_error (nth t M []) j' = Some (Some 1%Q) -> disjoint s' s);
    (* codes: a non-zero cell is the share of the pattern in the usage of applicable ones *)
    v_codes : strat = Codes -> forall t j s v n, t < length D -> nth_error cols j = Some s ->
        nth_error (nth t M []) j = Some (Some v) -> has_usage st s n ->
        (v == 0 \/ v * inject_Z (Z.of_nat (app_total st D stop)) == inject_Z (Z.of_nat n))%Q }.

  Lemma vectorize_spec : forall strat k stop (st : slim A T) D, inv st ->
    exists cols M, vectorize leA strat k stop st D = Some (cols, M) /\ vector_spec strat k stop st D cols M.
  Proof.
    intros strat k stop st D [Hnd Gd].
    destruct (to_vertical_spec D stop) as [V1 [V2 V3]].
    unfold vectorize; destruct (to_vertical D stop) as [d len] eqn:Ev; simpl in V1, V2, V3.
    assert (Hlen : D <> [] -> len = length D).
    { unfold to_vertical in Ev; injection Ev as _ <-; destruct D; [congruence | reflexivity]. }
    set (rows := map (fun p => (fst p, length (snd p))) (slim_transform leA true true false st)).
    set (lens := filter (fun p => subset (fst p) (dkeys d)) rows).
    set (srt := sort (fun a b => snd b <=? snd a) lens).
    set (isets := firstn k srt).
    assert (Hne : forall s, In s (map fst (ct st)) -> s <> []) by (intros s Hs; apply (g_keys _ _ Gd s Hs)).
    assert (Hrows : map fst rows = map (sort leA) (map fst (ct st))).
    { unfold rows; rewrite map_map; rewrite <- transform_all by exact Hne; reflexivity. }
    assert (Hrow : forall s n, In (s, n) rows <-> exists q u, In (q, u) (ct st) /\ s = sort leA q /\ n = length u).
    { intros s n; unfold rows, slim_transform; rewrite map_map, in_map_iff; split.
      - intros [[q u] [E Hin]]; apply filter_In in Hin; destruct Hin as [Hin _]; simpl in E; injection E as <- <-; eauto.
      - intros [q [u [Hin [-> ->]]]]; exists (q, u); split; [reflexivity|]; apply filter_In; split; [exact Hin|].
        simpl; apply Nat.ltb_lt; specialize (Hne q (in_map fst _ _ Hin)); destruct q; [congruence | simpl; lia]. }
    assert (Hdr : kdistinct rows).
    { unfold kdistinct; rewrite Hrows; apply distinct_map_sort, (g_distinct _ _ Gd). }
    assert (Hds : kdistinct srt).
    { eapply kdistinct_perm; [symmetry; apply sort_perm | apply kdistinct_filter, Hdr]. }
    assert (Hdi : kdistinct isets).
    { unfold kdistinct, isets in *; rewrite <- (firstn_skipn k srt), map_app in Hds.
      clear -Hds; induction (map fst (firstn k srt)) as [|x l IH]; [constructor|]; simpl in Hds.
      apply distinct_cons in Hds; destruct Hds as [Hx Hl]; apply distinct_cons; split; [|apply IH, Hl].
      rewrite kmem_app in Hx; apply orb_false_iff in Hx; apply Hx. }
    assert (Hin : forall p, In p isets -> In p srt).
    { intros p Hp; rewrite <- (firstn_skipn k srt); apply in_or_app; left; exact Hp. }
    assert (Hlens : forall s n, In (s, n) srt <-> In (s, n) rows /\ forall x, In x s -> In x (dkeys d)).
    { intros s n; unfold srt; rewrite In_sort; unfold lens; rewrite filter_In, subset_incl; reflexivity. }
    assert (Happ : forall s, applicable D stop s <-> forall x, In x s -> In x (dkeys d)).
    { intros s; unfold applicable; split; intros Ha x Hx; apply V2, Ha, Hx. }
    assert (Hus : forall s n, In (s, n) rows -> forall n', has_usage st s n' -> n' = n).
    { intros s n Hs n' [q [u [Hq [Hss <-]]]]; apply Hrow in Hs; destruct Hs as [q' [u' [Hq' [-> ->]]]].
      assert (E1 : kget (ct st) q' = Some u') by (apply kget_In; [apply (g_distinct _ _ Gd) | exact Hq']).
      assert (E2 : kget (ct st) q' = Some u).
      { apply kget_In_iff; [apply (g_distinct _ _ Gd)|]; exists q; split; [exact Hq|]; apply seteq_spec.
        destruct Hss as [Hs1 Hs2]; split; [intros x Hx; apply Hs2, In_sort, Hx | intros x Hx; apply Hs1, In_sort in Hx; exact Hx]. }
      congruence. }
    assert (Hk : forall s, In s (map fst isets) -> NoDup s /\ known d s).
    { intros s Hs; apply in_map_iff in Hs; destruct Hs as [[s' n] [E Hs]]; simpl in E; subst s'.
      apply Hin, Hlens in Hs; destruct Hs as [Hs Hx]; split; [|exact Hx].
      apply Hrow in Hs; destruct Hs as [q [u [Hq [-> _]]]]; apply NoDup_sort, (g_keys _ _ Gd q), (in_map fst _ _ Hq). }
    destruct (cover_spec d (map fst isets) Hdi Hk) as [c [d' [E [Hm [Hs [Hdj _]]]]]].
    rewrite E.
    set (tot := list_sum (map snd lens)).
    assert (Hne0 : forall s n, In (s, n) srt -> s <> []).
    { intros s n Hs0 ->; apply Hlens in Hs0; destruct Hs0 as [Hs0 _]; apply Hrow in Hs0; destruct Hs0 as [q [u [Hq [E0 _]]]].
      apply (Hne q (in_map fst _ _ Hq)); destruct q as [|x q]; [reflexivity|].
      assert (Hx : In x (sort leA (x :: q))) by (apply In_sort; left; reflexivity); rewrite <- E0 in Hx; destruct Hx. }
    assert (Etot : tot = app_total st D stop).
    { unfold tot, app_total, lens, rows, slim_transform; rewrite map_map.
      clear -Hne V2; induction (ct st) as [|p c IH]; [reflexivity|].
      specialize (IH (fun s Hs => Hne s (or_intror Hs))); simpl.
      destruct (Nat.ltb_spec 0 (length (fst p))) as [Hl|Hl].
      2:{ exfalso; apply (Hne (fst p)); [left; reflexivity | destruct (fst p); [reflexivity | simpl in Hl; lia]]. }
      simpl; rewrite <- IH.
      assert (Eb : subset (sort leA (fst p)) (dkeys d) = forallb (fun x => negb (mem x stop) && existsb (mem x) D) (fst p)).
      { apply eq_true_iff_eq; rewrite subset_incl, forallb_forall; split.
        - intros Hi x Hx; destruct (proj1 (V2 x)) as [[r [Hr Hxr]] Hst]; [apply Hi, In_sort, Hx|].
          apply andb_true_iff; split; [apply negb_true_iff, mem_false, Hst|].
          apply existsb_exists; exists r; split; [exact Hr | apply mem_In, Hxr].
        - intros Hf x Hx; apply In_sort in Hx; apply Hf, andb_true_iff in Hx; destruct Hx as [H1 H2].
          apply V2; split; [|apply mem_false, negb_true_iff, H1].
          apply existsb_exists in H2; destruct H2 as [r [Hr Hxr]]; exists r; split; [exact Hr | apply mem_In, Hxr]. }
      rewrite Eb; destruct (forallb _ (fst p)); simpl; lia. }
    pose (val := fun (p : list A * list nat) (i : nat) =>
          let one := if mem i (snd p) then 1%Q else 0%Q in
          match strat with
          | OneHot => Some one
          | Codes => if tot =? 0 then None
                     else Some (one * (Z.of_nat (match kget isets (fst p) with Some u => u | None => 0 end)
                                       # Pos.of_nat tot))%Q
          end).
    exists (map fst c), (map (fun i => map (fun p => val p i) c) (seq 0 len)).
    assert (Hsorted : StronglySorted (fun a b : list A * nat => snd b <= snd a) srt).
    { assert (Hg := sort_sorted (fun a b : list A * nat => snd b <=? snd a)).
      unfold srt; specialize (Hg ltac:(intros a b; rewrite !Nat.leb_le; lia) ltac:(intros a b e; rewrite !Nat.leb_le; lia) lens).
      clear -Hg; induction Hg as [|a l Hl IH Ha]; constructor; [exact IH|].
      eapply Forall_impl; [|exact Ha]; intros b Hb; apply Nat.leb_le, Hb. }
    assert (Hcol : forall j s, nth_error (map fst c) j = Some s -> exists n, nth_error isets j = Some (s, n) /\ In (s, n) rows).
    { intros j s Hj; rewrite Hm, nth_error_map in Hj; destruct (nth_error isets j) as [[s' n]|] eqn:Ej; [|discriminate].
      injection Hj as <-; exists n; split; [reflexivity|]; apply nth_error_In, Hin, Hlens in Ej; apply Ej. }
    split; [reflexivity|]; constructor.
    - intros HD; rewrite map_length, seq_length; apply Hlen, HD.
    - intros r Hr; apply in_map_iff in Hr; destruct Hr as [i [<- _]]; rewrite !map_length; reflexivity.
    - rewrite Hm, map_length; unfold isets; rewrite firstn_length; lia.
    - rewrite Hm; intros i j s s' Hij Hi Hj Hss.
      assert (Hno : forall i j s s', i < j -> nth_error (map fst isets) i = Some s -> nth_error (map fst isets) j = Some s' -> seteq s s' = false).
      { intros i0 j0 s0 s0' Hlt H1 H2; exact (FOP_nth _ _ Hdi i0 j0 _ _ Hlt H1 H2). }
      assert (Hsq : seteq s s' = true) by (apply seteq_spec; exact Hss).
      destruct (Nat.lt_gt_cases i j) as [Hc _]; destruct (Hc Hij) as [Hl|Hl].
      + rewrite (Hno i j s s' Hl Hi Hj) in Hsq; discriminate.
      + rewrite seteq_sym, (Hno j i s' s Hl Hj Hi) in Hsq; discriminate.
    - intros s Hs0; destruct (In_nth_error _ _ Hs0) as [j Hj]; destruct (Hcol j s Hj) as [n [Hn Hr]].
      apply nth_error_In, Hin, Hlens in Hn; split; [apply Happ, Hn|].
      apply Hrow in Hr; destruct Hr as [q [u [Hq [-> _]]]]; exists (length u), q, u; split; [exact Hq|]; split; [|reflexivity].
      split; intros x Hx; apply In_sort in Hx || apply In_sort; exact Hx.
    - intros i j s s' n n' Hij Hi Hj Hu Hu'.
      destruct (Hcol i s Hi) as [m [Hm1 Hm2]]; destruct (Hcol j s' Hj) as [m' [Hm1' Hm2']].
      rewrite (Hus s m Hm2 n Hu), (Hus s' m' Hm2' n' Hu').
      assert (Hss : StronglySorted (fun a b : list A * nat => snd b <= snd a) isets).
      { unfold isets; clear -Hsorted; revert k; induction Hsorted as [|x l Hl IH Hx]; intros [|k]; simpl; constructor; [apply IH|].
        apply Forall_forall; intros b Hb; rewrite Forall_forall in Hx; apply Hx; rewrite <- (firstn_skipn k l); apply in_or_app; left; exact Hb. }
      clear -Hss Hij Hm1 Hm1'; revert i j Hij Hm1 Hm1'; induction Hss as [|x l Hl IH Hx]; intros i j Hij H1 H2; [destruct i; discriminate|].
      destruct j as [|j]; [lia|]; destruct i as [|i]; simpl in *.
      + injection H1 as ->; rewrite Forall_forall in Hx; apply (Hx (s', m')), nth_error_In in H2 || idtac.
        specialize (Hx (s', m')); apply Hx, (nth_error_In _ _ H2).
      + apply (IH i j); [lia | exact H1 | exact H2].
    - intros s s' n n' Hs0 Hu Hu' Ha Hno.
      assert (Hs' : exists q, In (sort leA q, n') srt /\ same_items q s').
      { destruct Hu' as [q [u [Hq [Hqs <-]]]]; exists q; split; [|exact Hqs]; apply Hlens; split; [apply Hrow; eauto|].
        intros x Hx; apply In_sort in Hx; apply (proj1 (Happ _) Ha), Hqs, Hx. }
      destruct Hs' as [q [Hq Hqs]]; rewrite <- (firstn_skipn k srt) in Hq; apply in_app_or in Hq.
      assert (Hsk : In (sort leA q, n') (skipn k srt)).
      { destruct Hq as [Hq|Hq]; [|exact Hq]; exfalso; apply (Hno (sort leA q)).
        - rewrite Hm; apply (in_map fst _ _ Hq).
        - destruct Hqs as [Q1 Q2]; split; intros x Hx; [apply In_sort in Hx; apply Q1, Hx | apply In_sort, Q2, Hx]. }
      split.
      + destruct (In_nth_error _ _ Hs0) as [j Hj]; destruct (Hcol j s Hj) as [m [Hm1 Hm2]].
        rewrite (Hus s m Hm2 n Hu); apply (firstn_sorted_split _ srt Hsorted k (s, m) (sort leA q, n')); [|exact Hsk].
        apply nth_error_In in Hm1; exact Hm1.
      + rewrite Hm, map_length; unfold isets; rewrite firstn_length; apply Nat.min_l.
        destruct (Nat.le_gt_cases k (length srt)) as [|Hgt]; [assumption|].
        rewrite skipn_all2 in Hsk by lia; destruct Hsk.
    - intros Hstrat t Ht; rewrite <- Etot in Hstrat.
      assert (Hlen' : len = length D) by (apply Hlen; intros ->; simpl in Ht; lia).
      rewrite nth_map_seq by lia.
      assert (Htot : strat = OneHot \/ (tot =? 0) = false).
      { destruct Hstrat as [->|Hp]; [left; reflexivity | right; apply Nat.eqb_neq; lia]. }
      assert (Hval : forall p, exists v, val p t = Some v /\ (~ v == 0 -> In t (snd p))%Q).
      { intros p; unfold val; destruct strat.
        - destruct Htot as [|Htot]; [discriminate|]; rewrite Htot; eexists; split; [reflexivity|].
          destruct (mem_spec t (snd p)) as [Hi|Hi]; [auto|]; intros Hz; exfalso; apply Hz, Qmult_0_l.
        - eexists; split; [reflexivity|]; destruct (mem_spec t (snd p)) as [Hi|Hi]; [auto|].
          intros Hz; exfalso; apply Hz; reflexivity. }
      assert (Hcell : forall j s q, nth_error (map fst c) j = Some s -> nth_error (map (fun p => val p t) c) j = Some q ->
                 exists u v, nth_error c j = Some (s, u) /\ q = Some v /\ (~ v == 0 -> In t u)%Q).
      { intros j s q Hj Hq; rewrite nth_error_map in Hj, Hq; destruct (nth_error c j) as [[s' u]|]; [|discriminate].
        injection Hj as <-; injection Hq as <-; destruct (Hval (s', u)) as [v [Ev' Hv]]; exists u, v; auto. }
      split.
      + intros j s q Hj Hq; destruct (Hcell j s q Hj Hq) as [u [v [Hu [-> Hv]]]]; exists v; split; [reflexivity|].
        intros Hz x Hx; apply nth_error_In in Hu; apply (V3 x t), (Hs _ Hu t x (Hv Hz) Hx).
      + intros j j' s s' v v' Hne' Hj Hj' Hq Hq' Hz Hz' x Hx Hx'.
        destruct (Hcell j s _ Hj Hq) as [u [w [Hu [Ew Hv]]]]; injection Ew as <-.
        destruct (Hcell j' s' _ Hj' Hq') as [u' [w' [Hu' [Ew' Hv']]]]; injection Ew' as <-.
        destruct (Nat.lt_gt_cases j j') as [Hc _]; destruct (Hc Hne') as [Hl|Hl].
        * eapply (FOP_nth _ _ Hdj j j' _ _ Hl Hu Hu'); exists t, x; auto.
        * eapply (FOP_nth _ _ Hdj j' j _ _ Hl Hu' Hu); exists t, x; auto.
    - intros -> t j s Ht Hj.
      assert (Hlen' : len = length D) by (apply Hlen; intros ->; simpl in Ht; lia).
      rewrite nth_map_seq by lia.
      destruct (cover_greedy d (map fst isets) c d' Hdi E) as [_ Hg].
      assert (Hc1 : forall j s, nth_error (map fst c) j = Some s -> exists u, nth_error c j = Some (s, u) /\
                (nth_error (map (fun p => val p t) c) j = Some (Some 1%Q) <-> In t u) /\
                (nth_error (map (fun p => val p t) c) j = Some (Some 0%Q) <-> ~ In t u)).
      { clear; intros j s Hj; rewrite nth_error_map in Hj; destruct (nth_error c j) as [[s' u]|] eqn:Ej; [|discriminate].
        injection Hj as <-; exists u; split; [reflexivity|]; rewrite nth_error_map, Ej; simpl; unfold val; simpl.
        destruct (mem_spec t u) as [Hi|Hi]; split; split; intros Hz; first [reflexivity | assumption | contradiction | discriminate Hz]. }
      destruct (Hc1 j s Hj) as [u [Hu [Hu1 Hu0]]].
      rewrite Hu1, Hu0; split; [destruct (mem_spec t u); auto|].
      destruct (nth_error_split _ _ Hu) as [l1 [l2 [Ec Hl1]]].
      rewrite (Hg l1 s u l2 Ec t); split.
      + intros [_ Hx]; split; [intros x Hxs; apply (V3 x t), Hx, Hxs|].
        intros j' s' Hlt Hj' Hcell x Hx1 Hx2; destruct (Hc1 j' s' Hj') as [u' [Hu' [Hu1' _]]]; apply Hu1' in Hcell.
        apply (proj2 (Hx x Hx2)); exists (s', u'); split; [|simpl; auto].
        rewrite Ec, nth_error_app1 in Hu' by lia; eapply nth_error_In, Hu'.
      + intros [Hx Hd0]; split.
        * destruct (Hcol j s Hj) as [n [Hn _]]; apply (Hne0 s n), Hin; eapply nth_error_In, Hn.
        * intros x Hxs; assert (Hap : In x (dkeys d)).
          { apply (Hk s); [rewrite <- Hm; eapply nth_error_In, Hj | exact Hxs]. }
          split; [apply V3; split; [apply Hx, Hxs | apply V2, Hap]|].
          intros [[s' u'] [He [Hx1 Hx2]]]; simpl in Hx1, Hx2; destruct (In_nth_error _ _ He) as [j' Hj'].
          assert (Hlt : j' < length l1) by (apply nth_error_Some; congruence).
          assert (Hc' : nth_error c j' = Some (s', u')) by (rewrite Ec, nth_error_app1; assumption).
          assert (Hm' : nth_error (map fst c) j' = Some s') by (rewrite nth_error_map, Hc'; reflexivity).
          destruct (Hc1 j' s' Hm') as [u'' [Hu'' [Hu1'' _]]]; assert (u'' = u') by congruence; subst u''.
          apply (Hd0 j' s' ltac:(lia) Hm' (proj2 Hu1'' Hx2) x Hx1 Hxs).
    - intros -> t j s v n Ht Hj Hq Hu.
      assert (Hlen' : len = length D) by (apply Hlen; intros ->; simpl in Ht; lia).
      rewrite nth_map_seq in Hq by lia.
      destruct (Hcol j s Hj) as [m [Hm1 Hm2]].
      rewrite nth_error_map in Hj, Hq; destruct (nth_error c j) as [[s' u]|] eqn:Ej; [|discriminate].
      injection Hj as ->; simpl in Hq; unfold val in Hq; cbn [fst snd] in Hq.
      assert (Ek : kget isets s = Some m) by (apply kget_In; [exact Hdi | eapply nth_error_In, Hm1]).
      rewrite Ek in Hq; rewrite <- Etot; destruct (Nat.eqb_spec tot 0) as [|Hz]; [discriminate|].
      injection Hq as <-; rewrite (Hus s m Hm2 n Hu); destruct (mem t u); [right | left; apply Qmult_0_l].
      rewrite Qmult_1_l; unfold Qeq, Qmult, inject_Z; simpl; rewrite Pos.mul_1_r, Z.mul_1_r; f_equal.
      destruct tot as [|tt]; [congruence|]; rewrite <- positive_nat_Z, Nat2Pos.id by discriminate; reflexivity.
  Qed.

  Context (total : ktable A (list nat) -> T) (tlt : T -> T -> bool).
  Context (tlt_trans : forall t1 t2 t3, tlt t1 t2 = true -> tlt t2 t3 = true -> tlt t1 t3 = true).
  Context (ord : list A -> list A -> bool).
  Context (iter : list (list A) -> list (list A)) (iter_perm : forall l, Permutation (iter l) l).
  Context {G : Type} (gain : ktable A (list nat) -> list A -> list A -> G)
          (gpos : G -> bool) (gge : G -> G -> bool).
  Context (reorder : ktable A (list nat) -> ktable A (list nat)) (reorder_perm : forall c, Permutation (reorder c) c).
  Theorem C23_vectorizer_partial : forall X items st strat k stop D, well_named X items ->
    reachable total tlt ord iter gain gpos gge reorder X items st ->
    exists cols M, vectorize leA strat k stop st D = Some (cols, M) /\ vector_spec strat k stop st D cols M.
  Proof.
    intros X items st strat k stop D Hw R; apply vectorize_spec.
    refine (proj1 (reachable_inv total tlt _ ord iter _ gain gpos gge reorder _ X items st Hw R)); assumption.
  Qed.
End Vect.
Print Assumptions C23_vectorizer_partial.

Section Examples.
  Definition vec_st : outcome (slim nat nat) := toy_fit 20 true [] toy_db.
  Example C23_case : exists st, vec_st = Ret st /\
    vectorize Nat.leb Codes 3 [4] st [[1;2;7]; [3;4]; [4]; [2;3]] =
      Some ([[1;2]; [3]; [1]],
            [[Some (4 # 7); Some (0 # 7); Some (0 # 7)];
             [Some (0 # 7); Some (3 # 7); Some (0 # 7)];
             [Some (0 # 7); Some (0 # 7); Some (0 # 7)];
             [Some (0 # 7); Some (3 # 7); Some (0 # 7)]]).
  Proof. eexists; split; vm_compute; reflexivity. Qed.

  (* no transaction gives one row: [idx] starts at 0 and the length is idx + 1 *)
  Theorem C23_empty_data_refuted : exists st M, vec_st = Ret st /\
    vectorize Nat.leb OneHot 3 [] st [] = Some ([], M) /\ length M <> length (@nil (list nat)).
  Proof. eexists; eexists; split; [vm_compute; reflexivity|]; split; [vm_compute; reflexivity | discriminate]. Qed.
  (* "codes" divides by the total usage of the applicable itemsets, which may be zero *)
  Theorem C23_nan_refuted : exists st cols M, vec_st = Ret st /\
    vectorize Nat.leb Codes 3 [] st [[1]; [7]] = Some (cols, M) /\
    nth_error cols 0 = Some [1] /\ nth_error (nth 1 M []) 0 = Some None.
  Proof.
    eexists; eexists; eexists; split; [vm_compute; reflexivity|]; split; [vm_compute; reflexivity|].
    split; reflexivity.
  Qed.
  (* fit with stop items always raises *)
  Theorem vectorizer_fit_stop_items : forall (R : Type) (stop : list nat) (fitted : outcome R),
    vectorizer_fit (Some stop) fitted = Exn AttributeError.
  Proof. reflexivity. Qed.
End Examples.
Print Assumptions C23_empty_data_refuted.
Print Assumptions C23_nan_refuted.
