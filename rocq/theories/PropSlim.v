(* C12-C18, C21: SLIM.
   Everything numeric or schedule dependent is a variable of the section and hence
   universally quantified: the description length [total] and its comparison
   [tlt], the cover order [ord], the iteration order of Python sets [iter] and of
   the sorted copy of the table [reorder], the gain estimate, and the moment
   [late] at which max_time stops the search. *)
From Verif Require Import Prelude CheckModel LCMModel LCMProofs ItemsetSpec VerticalProofs LCMLift
  SlimModel SlimProofs SlimInv SlimRun SlimFit SlimUse.

(* ------------------------------------------------------------ specification *)
Section Spec.
  Context {A : Type}.
  (* itemset [s] of table [c] is used in transaction [t] *)
  Definition used_in (c : list (list A * list nat)) (s : list A) (t : nat) : Prop :=
    exists u, In (s, u) c /\ In t u.
  (* two itemsets with no common item *)
  Definition disjoint (s s' : list A) : Prop := forall x, In x s -> In x s' -> False.
  (* [has t x]: transaction t contains item x.  The itemsets used in t are
     pairwise disjoint subsets of t whose union is t *)
  Definition exact_cover (has : nat -> A -> Prop) (c : list (list A * list nat)) : Prop :=
    (forall t x, has t x <-> exists s, used_in c s t /\ In x s) /\
    (forall t i j s u s' u', i <> j -> nth_error c i = Some (s, u) -> nth_error c j = Some (s', u') ->
       In t u -> In t u' -> disjoint s s').
  (* item x is in transaction t of a list of transactions *)
  Definition in_list (D : list (list A)) (t : nat) (x : A) : Prop := In x (nth t D []).
  (* item x is in row t of a table of named boolean columns *)
  Definition in_tab (cols : list (A * list bool)) (t : nat) (x : A) : Prop :=
    exists col, In (x, col) cols /\ nth t col false = true.
End Spec.

(* ------------------------------------------------------------------- C12 *)
Theorem C12_cover_exact :
  forall (A : Type) (HA : EqDec A) (std : dict A (list nat)) (isets : list (list A)),
  (forall i j s s', i <> j -> nth_error isets i = Some s -> nth_error isets j = Some s' -> ~ same_items s s') ->
  (forall s, In s isets -> NoDup s /\ forall x, In x s -> In x (dkeys std)) ->
  exists c std', cover std isets = Some (c, std') /\ map fst c = isets
    (* used exactly where it fits among what the itemsets before it left *)
    /\ (forall i s u, nth_error c i = Some (s, u) -> forall t,
          In t u <-> s <> [] /\ forall x, In x s -> In t (tids std x) /\
                     ~ exists s', used_in (firstn i c) s' t /\ In x s')
    (* an item of a transaction is covered at most once *)
    /\ (forall i j s u s' u' t, i <> j -> nth_error c i = Some (s, u) -> nth_error c j = Some (s', u') ->
          In t u -> In t u' -> disjoint s s')
    (* what is left is what no used itemset contains *)
    /\ (forall x t, In t (tids std' x) <-> In t (tids std x) /\ ~ exists s, used_in c s t /\ In x s).
Proof.
  intros A HA std isets Hd Hk.
  assert (Hdist : distinct isets).
  { clear Hk; induction isets as [|s l IH]; [constructor|]; apply distinct_cons; split.
    - apply kmem_false; intros k Hkin; destruct (In_nth_error _ _ Hkin) as [n Hn].
      destruct (seteq s k) eqn:E; [|reflexivity]; exfalso; apply seteq_spec in E.
      apply (Hd 0 (S n) s k); [lia | reflexivity | exact Hn | exact E].
    - apply IH; intros i j s1 s2 Hij H1 H2; apply (Hd (S i) (S j)); [lia | exact H1 | exact H2]. }
  assert (Hcov : forall (c : list (list A * list nat)) t x,
            covers_at c t x <-> exists s, used_in c s t /\ In x s).
  { intros c t x; unfold covers_at, used_in; split.
    - intros [[s u] [H1 [H2 H3]]]; exists s; split; [exists u; auto | exact H2].
    - intros [s [[u [H1 H2]] H3]]; exists (s, u); auto. }
  destruct (cover_spec std isets Hdist Hk) as [c [std' [E [Hm [Hs [Hdj [Hl _]]]]]]].
  exists c, std'; split; [exact E|]; split; [exact Hm|]; split; [|split].
  - intros i s u Hi t; destruct (cover_greedy std isets c std' Hdist E) as [_ Hg].
    destruct (nth_error_split _ _ Hi) as [l1 [l2 [Ec Hlen]]].
    rewrite (Hg l1 s u l2 Ec t), Ec, <- Hlen, firstn_app, Nat.sub_diag, firstn_all, app_nil_r.
    split; intros [H1 H2]; (split; [exact H1|]); intros x Hx; destruct (H2 x Hx) as [H3 H4];
      (split; [exact H3|]); intros Hc; apply H4, Hcov, Hc.
  - intros i j s u s' u' t Hij Hi Hj Ht Ht' x Hx Hx'.
    assert (Hlt : forall i j s u s' u', i < j -> nth_error c i = Some (s, u) -> nth_error c j = Some (s', u') ->
              In t u -> In t u' -> In x s -> In x s' -> False).
    { clear -Hdj; intros i j s u s' u' Hij Hi Hj Ht Ht' Hx Hx'.
      eapply (FOP_nth _ _ Hdj i j _ _ Hij Hi Hj); exists t, x; auto. }
    destruct (Nat.lt_gt_cases i j) as [Hc _]; destruct (Hc Hij); eauto.
  - intros x t; rewrite Hl, Hcov; reflexivity.
Qed.
Print Assumptions C12_cover_exact.
Example C12_case :
  let std := vertical [[1;2;3]; [2;3]; [1;3]; [4;1;2]] in
  cover std [[1;2]; [2;3]; [3]; [1]] =
  Some ([([1;2], [0;3]); ([2;3], [1]); ([3], [0;2]); ([1], [2])], [(1,[]); (2,[]); (3,[]); (4,[3])]).
Proof. vm_compute. reflexivity. Qed.

Section Slim.
  Context {A : Type} `{EqDec A} {T : Type} (total : ktable A (list nat) -> T) (tlt : T -> T -> bool).
  Context (tlt_trans : forall t1 t2 t3, tlt t1 t2 = true -> tlt t2 t3 = true -> tlt t1 t3 = true).
  Context (ord : list A -> list A -> bool).
  Context (iter : list (list A) -> list (list A)) (iter_perm : forall l, Permutation (iter l) l).
  Context {G : Type} (gain : ktable A (list nat) -> list A -> list A -> G)
          (gpos : G -> bool) (gge : G -> G -> bool).
  Context (reorder : ktable A (list nat) -> ktable A (list nat)) (reorder_perm : forall c, Permutation (reorder c) c).

  Let fit := fit_loop total tlt ord iter gain gpos gge reorder.
  Let upd := update total tlt ord iter.

  (* the input data, in either of the two formats *)
  Inductive data := Trans (D : list (list A)) | Tab (cols : list (A * list bool)).
  Definition to_dict (X : data) : dict A (list nat) :=
    match X with Trans D => vertical D | Tab cols => tab_vertical cols end.
  Definition has (X : data) : nat -> A -> Prop :=
    match X with Trans D => in_list D | Tab cols => in_tab cols end.
  Definition column (X : data) (x : A) : Prop :=
    match X with Trans D => occurs D x | Tab cols => In x (map fst cols) end.
  (* column names and the items option are free of repetitions *)
  Definition well_named (X : data) (items : list A) : Prop :=
    NoDup items /\ match X with Trans _ => True | Tab cols => NoDup (map fst cols) end.

  (* states an object can be in: after prefit, after any complete fit, and after any
     update with a new itemset over known items *)
  Inductive reachable (X : data) (items : list A) : slim A T -> Prop :=
  | after_prefit s0 : reachable X items (prefit ord (to_dict X) items s0)
  | after_fit late fuel n pruning st st' : reachable X items st ->
      fit late fuel n pruning st = Ret st' -> reachable X items st'
  | after_update pruning st cand st' : reachable X items st ->
      NoDup cand -> (forall x, In x cand -> column X x \/ In x items) ->
      (forall s, In s (map fst (ct st)) -> ~ same_items s cand) ->
      upd pruning st cand = Ret st' -> reachable X items st'.

  (* ------------------------------------------------------ proof machinery *)
  Lemma where_from_In col : forall i t, In t (where_from i col) <-> i <= t /\ nth (t - i) col false = true.
  Proof.
    induction col as [|b col IH]; intros i t; simpl.
    - split; [intros [] | intros [_ Hx]; destruct (t - i); discriminate].
    - destruct b; simpl; rewrite ?IH; destruct (Nat.eq_dec t i) as [->|Hne].
      + rewrite Nat.sub_diag; split; auto.
      + split.
        * intros [->|[H1 H2]]; [congruence|]; split; [lia|]; replace (t - i) with (S (t - S i)) by lia; exact H2.
        * intros [H1 H2]; right; split; [lia|]; replace (t - i) with (S (t - S i)) in H2 by lia; exact H2.
      + rewrite Nat.sub_diag; split; [lia | intros [_ Hx]; discriminate].
      + split; intros [H1 H2]; (split; [lia|]).
        * replace (t - i) with (S (t - S i)) by lia; exact H2.
        * replace (t - i) with (S (t - S i)) in H2 by lia; exact H2.
  Qed.
  Lemma where_from_NoDup col : forall i, NoDup (where_from i col).
  Proof.
    induction col as [|b col IH]; intros i; simpl; [constructor|]; destruct b; [|apply IH].
    constructor; [|apply IH]; rewrite where_from_In; lia.
  Qed.
  Lemma to_dict_ok X items : well_named X items ->
    NoDup (dkeys (to_dict X)) /\ (forall x v, In (x, v) (to_dict X) -> NoDup v)
    /\ (forall x, In x (dkeys (to_dict X)) <-> column X x)
    /\ (forall x t, In t (tids (to_dict X) x) <-> has X t x).
  Proof.
    intros [_ Hw]; destruct X as [D|cols]; simpl in *.
    - assert (Hn : NoDup (dkeys (vertical D))) by apply vertical_NoDup.
      split; [exact Hn|]; split; [|split].
      + intros x v Hi; apply vertical_In in Hi; destruct Hi as [_ ->]; apply NoDup_tidset.
      + apply vertical_keys.
      + intros x t; unfold tids, in_list; destruct (dget (vertical D) x) as [v|] eqn:E.
        * apply dget_In, vertical_In in E; destruct E as [_ ->]; rewrite In_tids_of.
          split; [tauto|]; intros Hx; split; [|exact Hx].
          destruct (Nat.lt_ge_cases t (length D)); [assumption|]; rewrite nth_overflow in Hx by lia; destruct Hx.
        * apply dget_None in E; split; [intros []|]; intros Hx; apply E, vertical_keys.
          destruct (Nat.lt_ge_cases t (length D)) as [Hl|Hl]; [exists (nth t D []); split; [apply nth_In, Hl | exact Hx]|].
          rewrite nth_overflow in Hx by lia; destruct Hx.
    - assert (Hk : dkeys (tab_vertical cols) = map fst cols).
      { unfold dkeys, tab_vertical; rewrite map_map; reflexivity. }
      split; [rewrite Hk; exact Hw|]; split; [|split].
      + intros x v Hi; apply in_map_iff in Hi; destruct Hi as [c [E _]]; injection E as <- <-; apply where_from_NoDup.
      + intros x; rewrite Hk; reflexivity.
      + intros x t; unfold tids, in_tab; destruct (dget (tab_vertical cols) x) as [v|] eqn:E.
        * apply dget_In in E; apply in_map_iff in E; destruct E as [[y col] [E Hin]]; injection E as <- <-.
          simpl; rewrite where_from_In, Nat.sub_0_r; split.
          -- intros [_ Ht]; exists col; auto.
          -- intros [col' [Hin' Ht]]; split; [lia|].
             assert (E1 : dget cols y = Some col) by (apply In_dget; [exact Hw | exact Hin]).
             assert (E2 : dget cols y = Some col') by (apply In_dget; [exact Hw | exact Hin']).
             rewrite E1 in E2; injection E2 as <-; exact Ht.
        * apply dget_None in E; split; [intros []|]; intros [col [Hin _]]; apply E; rewrite Hk.
          apply in_map_iff; exists (x, col); auto.
  Qed.

  Lemma reachable_inv X items st : well_named X items -> reachable X items st ->
    inv st /\ (forall x t, In t (tids (sct st) x) <-> has X t x)
    /\ (forall x, In x (dkeys (sct st)) <-> column X x \/ In x items).
  Proof.
    intros Hw; induction 1 as [s0|late fuel n pruning st st' _ [I [Ht Hk]] E|pruning st cand st' _ [I [Ht Hk]] Hn Hc Hf E].
    - destruct (to_dict_ok X items Hw) as [D1 [D2 [D3 D4]]]; destruct Hw as [Hi _].
      destruct (prefit_good ord (to_dict X) items s0 D1 D2 Hi) as [P1 [P2 P3]].
      split; [exact P1|]; split; [intros x t; rewrite P2; apply D4 | intros x; rewrite P3, D3; reflexivity].
    - pose proof (fit_loop_sound total tlt ord iter iter_perm tlt_trans gain gpos gge reorder reorder_perm late pruning fuel n st st) as Hs.
      fold fit in Hs; rewrite E in Hs; destruct Hs as [I' [Es _]]; [split; auto|].
      rewrite Es; auto.
    - assert (Hkc : cand <> [] -> key_ok (sct st) cand).
      { intros Hne; split; [exact Hn|]; split; [exact Hne|]; intros x Hx; apply Hk, Hc, Hx. }
      destruct cand as [|a cand]; [discriminate E|].
      pose proof (update_spec total tlt ord iter iter_perm tlt_trans pruning st (a :: cand) I) as Hu.
      fold upd in Hu; rewrite E in Hu; destruct Hu as [I' Es].
      + apply Hkc; discriminate.
      + apply kmem_false; intros s Hs; destruct (seteq (a :: cand) s) eqn:F; [|reflexivity].
        exfalso; apply (Hf s Hs); apply seteq_spec in F; split; apply F.
      + rewrite Es; auto.
  Qed.
  Lemma good_exact_cover std c (P : nat -> A -> Prop) : good std c ->
    (forall x t, In t (tids std x) <-> P t x) -> exact_cover P c.
  Proof.
    intros Gd Ht; split.
    - intros t x; rewrite <- Ht; split.
      + intros Hx; destruct (ex_total _ _ (g_exact _ _ Gd) x t Hx) as [[s u] [H1 [H2 H3]]].
        exists s; split; [exists u; auto | exact H2].
      + intros [s [[u [H1 H2]] H3]]; apply (ex_sound _ _ (g_exact _ _ Gd) _ H1 t x H2 H3).
    - assert (Hlt : forall t i j s u s' u', i < j -> nth_error c i = Some (s, u) -> nth_error c j = Some (s', u') ->
              In t u -> In t u' -> disjoint s s').
      { intros t i j s u s' u' Hij Hi Hj Hu Hu' x Hx Hx'.
        eapply (FOP_nth _ _ (ex_disj _ _ (g_exact _ _ Gd)) i j _ _ Hij Hi Hj); exists t, x; auto. }
      intros t i j s u s' u' Hij Hi Hj Hu Hu'; destruct (Nat.lt_gt_cases i j) as [Hc _]; destruct (Hc Hij); [eauto|].
      intros x Hx Hx'; eapply Hlt; [| exact Hj | exact Hi | exact Hu' | exact Hu | exact Hx' | exact Hx]; lia.
  Qed.

  (* ----------------------------------------------------------------- C13 *)
  (* fit(X): prefit then the loop; any data format, any max_time, pruning or not *)
  Theorem C13_fit_lossless : forall X items s0 late fuel pruning st, well_named X items ->
    fit late fuel 0 pruning (prefit ord (to_dict X) items s0) = Ret st ->
    exact_cover (has X) (ct st).
  Proof.
    intros X items s0 late fuel pruning st Hw E.
    destruct (reachable_inv X items st Hw) as [I [Ht _]].
    { eapply after_fit; [apply (after_prefit X items s0) | exact E]. }
    eapply good_exact_cover; [apply I | exact Ht].
  Qed.
  (* fit never raises inside the search (an empty database included) *)
  Theorem C13_fit_defined : forall X items s0 late fuel pruning, well_named X items ->
    fit late fuel 0 pruning (prefit ord (to_dict X) items s0) <> NoFuel ->
    exists st, fit late fuel 0 pruning (prefit ord (to_dict X) items s0) = Ret st.
  Proof.
    intros X items s0 late fuel pruning Hw Hf.
    destruct (reachable_inv X items (prefit ord (to_dict X) items s0) Hw (after_prefit X items s0)) as [I _].
    pose proof (fit_loop_sound total tlt ord iter iter_perm tlt_trans gain gpos gge reorder reorder_perm late pruning
                  fuel 0 (prefit ord (to_dict X) items s0) (prefit ord (to_dict X) items s0)) as Hs.
    fold fit in Hs; destruct (fit late fuel 0 pruning (prefit ord (to_dict X) items s0)) as [st|e|] eqn:E.
    - eauto.
    - destruct Hs; split; auto.
    - congruence.
  Qed.

  (* ----------------------------------------------------------------- C14 *)
  (* The full property also allows updating with an itemset that is already in the
     codetable; see C14_repeated_update_refuted.  Proved: any history of prefit,
     fits and updates with itemsets not yet in the codetable. *)
  Theorem C14_updates_lossless_partial : forall X items st, well_named X items ->
    reachable X items st -> exact_cover (has X) (ct st).
  Proof.
    intros X items st Hw R; destruct (reachable_inv X items st Hw R) as [I [Ht _]].
    eapply good_exact_cover; [apply I | exact Ht].
  Qed.
  (* such updates do not raise, unless the database has no item at all *)
  Theorem C14_updates_defined : forall X items st pruning cand, well_named X items -> reachable X items st ->
    NoDup cand -> cand <> [] -> (forall x, In x cand -> column X x \/ In x items) ->
    (forall s, In s (map fst (ct st)) -> ~ same_items s cand) ->
    (exists t x, has X t x) -> exists st', upd pruning st cand = Ret st' /\ reachable X items st'.
  Proof.
    intros X items st pruning cand Hw R Hn Hne Hc Hf [t [x Hx]].
    destruct (reachable_inv X items st Hw R) as [I [Ht Hk]].
    pose proof (update_spec total tlt ord iter iter_perm tlt_trans pruning st cand I) as Hu.
    fold upd in Hu; destruct (upd pruning st cand) as [st'|e|] eqn:E.
    - exists st'; split; [reflexivity|]; eapply after_update; [exact R | exact Hn | exact Hc | exact Hf | exact E].
    - exfalso; destruct Hu as [_ Hu].
      + split; [exact Hn|]; split; [exact Hne|]; intros y Hy; apply Hk, Hc, Hy.
      + apply kmem_false; intros s Hs; destruct (seteq cand s) eqn:F; [|reflexivity].
        exfalso; apply (Hf s Hs); apply seteq_spec in F; split; apply F.
      + apply Hu; exists x, t; apply Ht, Hx.
    - exfalso; apply Hu.
      + split; [exact Hn|]; split; [exact Hne|]; intros y Hy; apply Hk, Hc, Hy.
      + apply kmem_false; intros s Hs; destruct (seteq cand s) eqn:F; [|reflexivity].
        exfalso; apply (Hf s Hs); apply seteq_spec in F; split; apply F.
  Qed.

  (* ----------------------------------------------------------------- C15 *)
  (* one pass of the while loop: the search stops, or the total strictly decreased *)
  Theorem C15_round_improves : forall X items st pruning, well_named X items -> reachable X items st ->
    exists o, round total tlt ord iter gain gpos gge reorder pruning st = Ret o /\
      match o with None => True | Some st' => tlt (sz st') (sz st) = true end.
  Proof.
    intros X items st pruning Hw R; destruct (reachable_inv X items st Hw R) as [I _].
    destruct (round_spec total tlt ord iter iter_perm tlt_trans gain gpos gge reorder reorder_perm pruning st I) as [o [E Ho]].
    exists o; split; [exact E|]; destruct o; [apply Ho | exact Logic.I].
  Qed.
  (* the final total is that of the standard code table or less; when less, it is the
     total of a table with exactly the itemsets and tids of the final code table in use *)
  Theorem C15_fit_not_worse : forall X items s0 late fuel pruning st, well_named X items ->
    fit late fuel 0 pruning (prefit ord (to_dict X) items s0) = Ret st ->
    st = prefit ord (to_dict X) items s0 \/
    (tlt (sz st) s0 = true /\
     exists c, sz st = total c /\ forall s u, u <> [] ->
       (exists k, In (k, u) (ct st) /\ same_items k s) <-> (exists k, In (k, u) c /\ same_items k s)).
  Proof.
    intros X items s0 late fuel pruning st Hw E.
    destruct (reachable_inv X items (prefit ord (to_dict X) items s0) Hw (after_prefit X items s0)) as [I _].
    pose proof (fit_loop_sound total tlt ord iter iter_perm tlt_trans gain gpos gge reorder reorder_perm late pruning
                  fuel 0 (prefit ord (to_dict X) items s0) (prefit ord (to_dict X) items s0)) as Hs.
    fold fit in Hs; rewrite E in Hs; destruct Hs as [I' [_ Hs]]; [split; auto|].
    destruct Hs as [->|[Hlt [c0 [G0 [Et Hk]]]]]; [left; reflexivity|]; right; split; [exact Hlt|].
    exists (used c0); split; [exact Et|]; intros s u Hu.
    assert (Hchar : forall c, kdistinct c -> (exists k, In (k, u) c /\ same_items k s) <-> kget c s = Some u).
    { intros c Hd; rewrite kget_In_iff by exact Hd; split; intros [k [H1 H2]]; exists k; (split; [exact H1|]).
      - apply seteq_spec; split; apply H2.
      - apply seteq_spec in H2; split; apply H2. }
    rewrite (Hchar (ct st)) by apply (g_distinct _ _ (proj2 I')).
    rewrite (Hchar (used c0)) by (apply kdistinct_filter, (g_distinct _ _ G0)).
    rewrite Hk, kget_used by apply (g_distinct _ _ (proj2 I')).
    destruct (kget (ct st) s) as [v|]; [|split; discriminate].
    destruct (Nat.eqb_spec (length v) 0) as [Hz|Hz]; [|reflexivity].
    destruct v; [|discriminate]; split; [intros F; injection F as <-; congruence | discriminate].
  Qed.
  (* the loop ends, whatever the sizes are, as long as [<] is a strict order *)
  Theorem C15_fit_terminates : (forall t, tlt t t = false) ->
    forall X items s0 late pruning, well_named X items ->
    exists enough, forall fuel, enough <= fuel ->
    exists st, fit late fuel 0 pruning (prefit ord (to_dict X) items s0) = Ret st.
  Proof.
    intros tlt_irrefl X items s0 late pruning Hw.
    set (st0 := prefit ord (to_dict X) items s0).
    destruct (reachable_inv X items st0 Hw (after_prefit X items s0)) as [I _].
    exists (S (S (length (all_totals total (sct st0))))); intros fuel Hf.
    apply (fit_loop_stops total tlt ord iter iter_perm tlt_trans gain gpos gge reorder reorder_perm late tlt_irrefl
             pruning st0 fuel 0 st0 []).
    - split; auto.
    - constructor.
    - intros w [].
    - intros w [].
    - cbn [length]; rewrite Nat.sub_0_r; exact Hf.
  Qed.

  (* ----------------------------------------------------------------- C16 *)
  (* pruning, as done by evaluate on a new candidate in any reachable state: it
     terminates, the total it returns is the unpruned one or less, singletons all
     stay, no itemset is added, and the result covers the data exactly *)
  Theorem C16_pruning_safe : forall X items st cand, well_named X items -> reachable X items st ->
    NoDup cand -> cand <> [] -> (forall x, In x cand -> column X x \/ In x items) ->
    (forall s, In s (map fst (ct st)) -> ~ same_items s cand) -> (exists t x, has X t x) ->
    exists t c t' c',
      evaluate total tlt ord iter false st cand = Ret (t, c) /\
      evaluate total tlt ord iter true st cand = Ret (t', c') /\
      (t' = t \/ tlt t' t = true) /\
      (forall x, column X x \/ In x items -> In [x] (map fst c')) /\
      (forall s, In s (map fst c') -> exists s', In s' (map fst c) /\ same_items s s') /\
      exact_cover (has X) c /\ exact_cover (has X) c'.
  Proof.
    intros X items st cand Hw R Hn Hne Hc Hf [t0 [x0 Hx0]].
    destruct (reachable_inv X items st Hw R) as [I [Ht Hk]].
    assert (Ho : occupied (sct st)) by (exists x0, t0; apply Ht, Hx0).
    assert (Hkc : key_ok (sct st) cand).
    { split; [exact Hn|]; split; [exact Hne|]; intros x Hx; apply Hk, Hc, Hx. }
    assert (Hfr : fresh st cand).
    { apply kmem_false; intros s Hs; destruct (seteq cand s) eqn:F; [|reflexivity].
      exfalso; apply (Hf s Hs); apply seteq_spec in F; split; apply F. }
    destruct (evaluate_cover ord st cand I Hkc Hfr) as [c [std' [E [Em Gd]]]].
    pose proof (insert_right_perm ord cand (map fst (ct st))) as Hp.
    destruct (prune_spec total tlt iter iter_perm tlt_trans st c (total (used c)) I Ho Gd) as [c' [t' [E' [G' [Htt [_ Hs]]]]]].
    { intros s Hs; rewrite Em, (kmem_perm _ _ _ Hp); apply kmem_true; exists s; split; [right; exact Hs | apply seteq_refl]. }
    { apply sized_self, Gd. }
    exists (total (used c)), c, t', c'; unfold evaluate; rewrite E, (compute_sizes_good total _ c Gd Ho); cbn [bind].
    split; [reflexivity|]; split; [rewrite E'; reflexivity|]; split; [exact Htt|]; split; [|split; [|split]].
    - intros x Hx; apply Hk in Hx; pose proof (g_singles _ _ G' x Hx) as Hm; apply kmem_true in Hm.
      destruct Hm as [s [Hs1 Hs2]]; rewrite <- (seteq_single x s); [exact Hs1 | apply (g_keys _ _ G' s Hs1) | exact Hs2].
    - intros s Hin; destruct (proj1 (kmem_true (map fst c) s)) as [s' [H1 H2]].
      + apply Hs, kmem_true; exists s; split; [exact Hin | apply seteq_refl].
      + exists s'; split; [exact H1|]; apply seteq_spec in H2; split; apply H2.
    - eapply good_exact_cover; [exact Gd | exact Ht].
    - eapply good_exact_cover; [exact G' | exact Ht].
  Qed.

  (* ----------------------------------------------------------------- C17 *)
  Theorem C17_usage_bounded : forall D items st, NoDup items -> reachable (Trans D) items st ->
    (forall s u, In (s, u) (ct st) ->
       NoDup u /\ (forall t, In t u -> t < length D /\ incl s (nth t D [])) /\ length u <= support D s) /\
    (forall t i j s u s' u', i <> j -> nth_error (ct st) i = Some (s, u) -> nth_error (ct st) j = Some (s', u') ->
       In t u -> In t u' -> disjoint s s').
  Proof.
    intros D items st Hi R; destruct (reachable_inv (Trans D) items st (conj Hi I) R) as [[_ Gd] [Ht _]]; split.
    - intros s u Hu.
      assert (Hin : forall t, In t u -> t < length D /\ incl s (nth t D [])).
      { intros t Htu; assert (Hincl : incl s (nth t D [])).
        { intros x Hx; apply (Ht x t), (ex_sound _ _ (g_exact _ _ Gd) _ Hu t x Htu Hx). }
        split; [|exact Hincl]; destruct (Nat.lt_ge_cases t (length D)) as [|Hl]; [assumption|].
        rewrite nth_overflow in Hincl by lia.
        destruct (g_keys _ _ Gd s (in_map fst _ _ Hu)) as [_ [Hne _]]; destruct s as [|x s]; [congruence|].
        destruct (Hincl x); left; reflexivity. }
      pose proof (g_nodup _ _ Gd _ Hu) as Hnd; simpl in Hnd.
      split; [exact Hnd|]; split; [exact Hin|]; rewrite <- length_tidset.
      apply NoDup_incl_length; [exact Hnd|]; intros t Htu; apply In_tidset, Hin, Htu.
    - destruct (good_exact_cover (sct st) (ct st) (has (Trans D)) Gd Ht) as [_ Hd]; exact Hd.
  Qed.

  (* ----------------------------------------------------------------- C18 *)
  Context (leA : A -> A -> bool).
  (* cell (t, j) of the boolean matrix returned by SLIM.cover *)
  Definition cell (M : list (list bool)) (t j : nat) : bool := nth j (nth t M []) false.

  Lemma cover_matrix_cell n (c : ktable A (list nat)) t j : t < n ->
    cell (cover_matrix n c) t j = true <-> exists s u, nth_error c j = Some (s, u) /\ In t u.
  Proof.
    intros Ht; unfold cell, cover_matrix; rewrite nth_map_seq by exact Ht.
    destruct (nth_error c j) as [[s u]|] eqn:E.
    - rewrite (nth_error_nth _ j false (map_nth_error (fun p => mem t (snd p)) j c E)); simpl.
      rewrite mem_In; split; [intros Hu; exists s, u; auto | intros [s' [u' [E' Hu]]]; congruence].
    - rewrite nth_overflow by (rewrite map_length; apply nth_error_None, E).
      split; [discriminate | intros [s' [u' [E' _]]]; discriminate].
  Qed.
  Lemma cover_new X items st dsct n (hasn : nat -> A -> Prop) : well_named X items -> reachable X items st ->
    NoDup (dkeys dsct) -> (forall x t, In x (dkeys (sct st)) -> (In t (tids dsct x) <-> hasn t x)) ->
    exists c, cover_dict leA st dsct = Some c /\
      let M := cover_matrix n c in
      (forall t j s, t < n -> cell M t j = true -> nth_error (map fst c) j = Some s ->
         forall x, In x s -> hasn t x) /\
      (forall t j j' s s', t < n -> j <> j' -> cell M t j = true -> cell M t j' = true ->
         nth_error (map fst c) j = Some s -> nth_error (map fst c) j' = Some s' -> disjoint s s') /\
      (forall t x, t < n -> (hasn t x /\ (column X x \/ In x items)) <->
         exists j s, cell M t j = true /\ nth_error (map fst c) j = Some s /\ In x s).
  Proof.
    intros Hw R Hnd Hh; destruct (reachable_inv X items st Hw R) as [I [_ Hk]].
    destruct (cover_dict_spec leA st dsct I Hnd) as [c [E [C1 [C2 [C3 [C4 C5]]]]]].
    assert (Hkn : forall e, In e c -> forall x, In x (fst e) -> In x (dkeys (sct st))).
    { intros e He x Hx; destruct (C1 e He) as [_ [k [Hkin Ek]]]; rewrite Ek in Hx; apply In_sort in Hx.
      apply (g_keys _ _ (proj2 I) k Hkin), Hx. }
    assert (Hcell : forall t j s, t < n -> cell (cover_matrix n c) t j = true -> nth_error (map fst c) j = Some s ->
              exists u, nth_error c j = Some (s, u) /\ In t u).
    { intros t j s Htn Hc Hj; apply cover_matrix_cell in Hc; [|exact Htn]; destruct Hc as [s' [u [Hn Hu]]].
      rewrite nth_error_map, Hn in Hj; injection Hj as <-; eauto. }
    exists c; split; [exact E|]; cbv zeta; split; [|split].
    - intros t j s Htn Hc Hj x Hx; destruct (Hcell t j s Htn Hc Hj) as [u [Hn Hu]].
      apply nth_error_In in Hn; apply Hh; [apply (Hkn _ Hn x Hx) | apply (C2 _ Hn t x Hu Hx)].
    - intros t j j' s s' Htn Hne Hc Hc' Hj Hj' x Hx Hx'.
      destruct (Hcell t j s Htn Hc Hj) as [u [Hn Hu]]; destruct (Hcell t j' s' Htn Hc' Hj') as [u' [Hn' Hu']].
      destruct (Nat.lt_gt_cases j j') as [Hlt _]; destruct (Hlt Hne) as [Hl|Hl].
      + eapply (FOP_nth _ _ C3 j j' _ _ Hl Hn Hn'); exists t, x; auto.
      + eapply (FOP_nth _ _ C3 j' j _ _ Hl Hn' Hn); exists t, x; auto.
    - intros t x Htn; split.
      + intros [Hx Hkx]; apply Hk in Hkx.
        destruct (C5 x t) as [[s u] [He [H1 H2]]]; [apply Hh; assumption | exact Hkx|].
        destruct (In_nth_error _ _ He) as [j Hj]; exists j, s; split; [|split; [|exact H1]].
        * apply cover_matrix_cell; [exact Htn|]; exists s, u; auto.
        * apply (map_nth_error fst) in Hj; exact Hj.
      + intros [j [s [Hc [Hj Hx]]]]; destruct (Hcell t j s Htn Hc Hj) as [u [Hn Hu]]; apply nth_error_In in Hn.
        pose proof (Hkn _ Hn x Hx) as Hkx; split; [|apply Hk, Hkx].
        apply Hh; [exact Hkx | apply (C2 _ Hn t x Hu Hx)].
  Qed.
  Theorem C18_cover_new_transactions : forall X items st D', well_named X items -> reachable X items st ->
    exists c, slim_cover leA st D' = Some c /\
      let M := cover_matrix (length D') c in
      (forall t j s, t < length D' -> cell M t j = true -> nth_error (map fst c) j = Some s ->
         incl s (nth t D' [])) /\
      (forall t j j' s s', t < length D' -> j <> j' -> cell M t j = true -> cell M t j' = true ->
         nth_error (map fst c) j = Some s -> nth_error (map fst c) j' = Some s' -> disjoint s s') /\
      (forall t x, t < length D' -> (In x (nth t D' []) /\ (column X x \/ In x items)) <->
         exists j s, cell M t j = true /\ nth_error (map fst c) j = Some s /\ In x s).
  Proof.
    intros X items st D' Hw R.
    destruct (to_dict_ok (Trans D') [] (conj (NoDup_nil _) Logic.I)) as [V1 [_ [_ V4]]].
    apply (cover_new X items st (vertical D') (length D') (in_list D') Hw R V1).
    intros x t _; apply V4.
  Qed.
  Theorem C18_cover_new_table : forall X items st cols n, well_named X items -> reachable X items st ->
    NoDup (map fst cols) -> (forall x col, In (x, col) cols -> length col = n) ->
    exists c, slim_cover_tab leA st cols = Some c /\
      let M := cover_matrix n c in
      (forall t j s, t < n -> cell M t j = true -> nth_error (map fst c) j = Some s ->
         forall x, In x s -> in_tab cols t x) /\
      (forall t j j' s s', t < n -> j <> j' -> cell M t j = true -> cell M t j' = true ->
         nth_error (map fst c) j = Some s -> nth_error (map fst c) j' = Some s' -> disjoint s s') /\
      (forall t x, t < n -> (in_tab cols t x /\ (column X x \/ In x items)) <->
         exists j s, cell M t j = true /\ nth_error (map fst c) j = Some s /\ In x s).
  Proof.
    intros X items st cols n Hw R Hnc Hlen.
    destruct (to_dict_ok (Tab cols) [] (conj (NoDup_nil _) Hnc)) as [V1 [_ [_ V4]]]; simpl in V1, V4.
    assert (Hsub : NoDup (dkeys (filter (fun c => mem (fst c) (dkeys (sct st))) (tab_vertical cols)))).
    { unfold dkeys; clear -V1; unfold dkeys in V1; induction (tab_vertical cols) as [|p l IH]; simpl; [constructor|].
      inversion V1 as [|? ? Hp Hl]; subst; destruct (mem (fst p) (map fst (sct st))); [|auto].
      simpl; constructor; [|auto]; intros Hin; apply Hp; apply in_map_iff in Hin; destruct Hin as [q [Eq Hq]].
      apply filter_In in Hq; rewrite <- Eq; apply in_map, Hq. }
    apply (cover_new X items st _ n (in_tab cols) Hw R Hsub).
    intros x t Hx; rewrite <- V4; unfold tids.
    assert (E : dget (filter (fun c => mem (fst c) (dkeys (sct st))) (tab_vertical cols)) x = dget (tab_vertical cols) x).
    { clear -Hx; induction (tab_vertical cols) as [|[y v] l IH]; simpl; [reflexivity|].
      destruct (mem_spec y (dkeys (sct st))) as [Hy|Hy]; simpl; destruct (eq_dec x y) as [->|]; auto; contradiction. }
    rewrite E; reflexivity.
  Qed.

  (* ----------------------------------------------------------------- C21 *)
  (* The full property (one entry per transaction) fails when the last transactions
     are empty: see C21_trailing_empty_refuted.  Proved: the result has the
     transactions up to the last non-empty one, each with its items, sorted. *)
  Theorem C21_reconstruct_partial :
    (forall x y, leA x y = true \/ leA y x = true) ->
    (forall x y z, leA x y = true -> leA y z = true -> leA x z = true) ->
    forall D items st, NoDup items -> reachable (Trans D) items st -> (exists t x, in_list D t x) ->
    exists R, reconstruct leA st = Ret R /\ length R <= length D /\
      (forall t, length R <= t -> nth t D [] = []) /\
      (forall t, t < length R -> NoDup (nth t R []) /\ same_items (nth t R []) (nth t D []) /\
         StronglySorted (fun x y => leA x y = true) (nth t R [])) /\
      (nth (length D - 1) D [] <> [] -> length R = length D).
  Proof.
    intros Htot Htr D items st Hi R [t0 [x0 Hx0]].
    destruct (reachable_inv (Trans D) items st (conj Hi I) R) as [Iv [Ht _]].
    destruct (reconstruct_spec leA st Iv) as [L [last [E [Hl [[x1 Hx1] [Hmax [Hin Hs]]]]]]].
    { exists x0, t0; apply Ht, Hx0. }
    assert (Hlast : last < length D).
    { apply Ht in Hx1; simpl in Hx1; unfold in_list in Hx1.
      destruct (Nat.lt_ge_cases last (length D)); [assumption|]; rewrite nth_overflow in Hx1 by lia; destruct Hx1. }
    exists L; split; [exact E|]; rewrite Hl; split; [lia|]; split; [|split].
    - intros t Hlt; destruct (nth t D []) as [|x r] eqn:En; [reflexivity|]; exfalso.
      assert (Hx : In t (tids (sct st) x)) by (apply Ht; simpl; unfold in_list; rewrite En; left; reflexivity).
      apply Hmax in Hx; lia.
    - intros t Hlt; destruct (Hs (nth t L [])) as [Hnd [q Eq]]; [apply nth_In; lia|]; split; [exact Hnd|]; split.
      + split; intros x Hx.
        * apply Hin in Hx; [|lia]; apply Ht in Hx; exact Hx.
        * apply Hin; [lia|]; apply Ht; exact Hx.
      + rewrite Eq; apply sort_sorted; assumption.
    - intros Hne; destruct (nth (length D - 1) D []) as [|x r] eqn:En; [congruence|].
      assert (Hx : In (length D - 1) (tids (sct st) x)) by (apply Ht; simpl; unfold in_list; rewrite En; left; reflexivity).
      apply Hmax in Hx; lia.
  Qed.
  (* a database without any item cannot be reconstructed: max() of nothing *)
  Theorem C21_reconstruct_nothing : forall D items st, NoDup items -> reachable (Trans D) items st ->
    (forall t x, ~ in_list D t x) -> reconstruct leA st = Exn ValueError.
  Proof.
    intros D items st Hi R Hno; destruct (reachable_inv (Trans D) items st (conj Hi I) R) as [Iv [Ht _]].
    apply reconstruct_empty; [exact Iv|]; intros [x [t Hx]]; apply (Hno t x), Ht, Hx.
  Qed.
End Slim.
Print Assumptions C13_fit_lossless.
Print Assumptions C13_fit_defined.
Print Assumptions C14_updates_lossless_partial.
Print Assumptions C14_updates_defined.
Print Assumptions C15_round_improves.
Print Assumptions C15_fit_not_worse.
Print Assumptions C15_fit_terminates.
Print Assumptions C16_pruning_safe.
Print Assumptions C17_usage_bounded.
Print Assumptions C18_cover_new_transactions.
Print Assumptions C18_cover_new_table.
Print Assumptions C21_reconstruct_partial.
Print Assumptions C21_reconstruct_nothing.

(* ------------------------------------------------------------ concrete cases *)
Section Cases.
  (* a toy description length (an integer): entries + item counts + usages *)
  Definition toy_total (c : ktable nat (list nat)) : nat :=
    list_sum (map (fun p => 3 * length (fst p) + 2 * length (snd p)) c).
  Definition toy_ord (a b : list nat) : bool := length b <=? length a.
  Definition toy_gain (c : ktable nat (list nat)) (x y : list nat) : nat := length x + length y.
  Definition toy_fit fuel pruning items D : outcome (slim nat nat) :=
    slim_fit toy_total Nat.ltb toy_ord (fun l => l) toy_gain (fun _ => true) (fun a b => b <=? a) (fun c => c)
             (fun _ => false) fuel pruning items 99 D.
  Definition toy_db : list (list nat) := [[1;2;3]; [1;2]; [2;1;4]; [3;4]; []; [1;2;3;4]].
  Definition toy_reachable D := reachable toy_total Nat.ltb toy_ord (fun l => l) toy_gain (fun _ => true)
    (fun a b => b <=? a) (fun c => c) (Trans D) [].

  Lemma ltb_trans a b c : (a <? b) = true -> (b <? c) = true -> (a <? c) = true.
  Proof. rewrite !Nat.ltb_lt; lia. Qed.

  Example C13_case : well_named (Trans toy_db) [9] /\
    (match toy_fit 20 true [9] toy_db with Ret st => Some (ct st, sz st) | _ => None end)
    = Some ([([1;2], [0;1;2;5]); ([1], []); ([2], []); ([3], [0;3;5]); ([4], [2;3;5]); ([9], [])], 32).
  Proof.
    split; [split; [repeat constructor; intros [] | exact I] | vm_compute; reflexivity].
  Qed.
  (* a reachable state after an update with a new itemset, and a candidate for C16 *)
  Example C14_case : exists st st', toy_reachable toy_db st /\
    update toy_total Nat.ltb toy_ord (fun l => l) true st [1;2] = Ret st' /\ toy_reachable toy_db st' /\
    ct st' = [([1;2], [0;1;2;5]); ([1], []); ([2], []); ([3], [0;3;5]); ([4], [2;3;5])].
  Proof.
    exists (prefit toy_ord (vertical toy_db) [] 99); eexists.
    assert (R : toy_reachable toy_db (prefit toy_ord (vertical toy_db) [] 99)).
    { apply (after_prefit toy_total Nat.ltb toy_ord (fun l => l) toy_gain (fun _ => true) (fun a b => b <=? a) (fun c => c) (Trans toy_db) [] 99). }
    split; [exact R|]; split; [vm_compute; reflexivity|]; split; [|reflexivity].
    eapply after_update with (cand := [1;2]) (pruning := true); [exact R | | | |vm_compute; reflexivity].
    - repeat constructor; simpl; intuition lia.
    - intros x Hx; left; exists [1;2]; split; [right; left; reflexivity | exact Hx].
    - intros s Hs [H1 H2]; vm_compute in Hs.
      destruct Hs as [<-|[<-|[<-|[<-|[]]]]]; [specialize (H2 2) | specialize (H2 1) | specialize (H2 1) | specialize (H2 1)];
        simpl in H2; intuition lia.
  Qed.
  (* pruning does something: the candidate {1,2,3} makes {1,2} not worth its code *)
  Definition prune_db : list (list nat) := [[1;2;3]; [1;2;3]; [1;2;3]; [1;2]; [1]; [2]].
  Example C16_case : exists st,
    update toy_total Nat.ltb toy_ord (fun l => l) true (prefit toy_ord (vertical prune_db) [] 99) [1;2] = Ret st /\
    evaluate toy_total Nat.ltb toy_ord (fun l => l) false st [3;2;1]
      = Ret (33, [([3;2;1], [0;1;2]); ([1;2], [3]); ([1], [4]); ([2], [5]); ([3], [])]) /\
    evaluate toy_total Nat.ltb toy_ord (fun l => l) true st [3;2;1]
      = Ret (29, [([3;2;1], [0;1;2]); ([1], [3;4]); ([2], [3;5]); ([3], [])]).
  Proof. eexists; repeat split; vm_compute; reflexivity. Qed.
  Example C18_case : exists st c, toy_fit 20 false [] toy_db = Ret st /\
    slim_cover Nat.leb st [[1;2;7]; [4]; [2;3;4]] = Some c /\
    map fst c = [[1;2]; [1]; [2]; [3]; [4]] /\
    cover_matrix 3 c = [[true;false;false;false;false]; [false;false;false;false;true];
                        [false;false;true;true;true]].
  Proof. eexists; eexists; split; [vm_compute; reflexivity|]; split; [vm_compute; reflexivity|]; split; reflexivity. Qed.
  Example C21_case : exists st, toy_fit 20 true [] toy_db = Ret st /\
    reconstruct Nat.leb st = Ret [[1;2;3]; [1;2]; [1;2;4]; [3;4]; []; [1;2;3;4]].
  Proof. eexists; split; vm_compute; reflexivity. Qed.

  (* ------------------------------------------------------------ refutations *)
  (* C14, full statement: false when the itemset is already in the codetable; the
     second occurrence in the cover overwrites the usage of the first with nothing *)
  Theorem C14_repeated_update_refuted :
    exists D st cand st', toy_reachable D st /\ NoDup cand /\ cand <> [] /\ (forall x, In x cand -> occurs D x) /\
      update toy_total Nat.ltb toy_ord (fun l => l) false st cand = Ret st' /\
      ~ exact_cover (in_list D) (ct st').
  Proof.
    exists [[1;2]; [1]], (prefit toy_ord (vertical [[1;2]; [1]]) [] 99), [1]; eexists.
    split; [apply (after_prefit toy_total Nat.ltb toy_ord (fun l => l) toy_gain (fun _ => true) (fun a b => b <=? a) (fun c => c) (Trans [[1;2];[1]]) [] 99)|].
    split; [repeat constructor; intros []|]; split; [discriminate|].
    split; [intros x [<-|[]]; exists [1]; simpl; tauto|]; split; [vm_compute; reflexivity|].
    intros [Hx _]; destruct (proj1 (Hx 1 1)) as [s [[u [Hu Ht]] Hs]]; [left; reflexivity|].
    destruct Hu as [E|[E|[]]]; injection E as <- <-; simpl in *; intuition lia.
  Qed.
  (* C21, full statement: false when the database ends with an empty transaction *)
  Theorem C21_trailing_empty_refuted :
    exists D st R, toy_fit 5 true [] D = Ret st /\ reconstruct Nat.leb st = Ret R /\ length R <> length D.
  Proof.
    exists [[1;2]; [1]; []]; eexists; eexists; split; [vm_compute; reflexivity|].
    split; [vm_compute; reflexivity | simpl; lia].
  Qed.
End Cases.
Print Assumptions C14_repeated_update_refuted.
Print Assumptions C21_trailing_empty_refuted.
