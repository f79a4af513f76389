(* C72, C73, C74: description lengths of SLIM, code lengths of new data, and what
   SlimClassifier predicts from them.  Real numbers of the standard library. *)
From Coq Require Import Reals Lra.
From Verif Require Import Prelude CheckModel LCMModel LCMProofs ItemsetSpec VerticalProofs LCMLift
  SlimModel SlimProofs SlimInv SlimRun SlimFit SlimUse PropSlim SlimAppsModel PropSlimApps
  SlimSizesModel SlimSizesProofs.
Local Open Scope R_scope.

(* ------------------------------------------------------------ specification *)
(* the length in bits of the optimal code of an event of probability p *)
Definition bits (p : R) : R := - (ln p / ln 2).

Section Spec.
  Context {A : Type} `{EqDec A}.
  (* number of transactions that contain x, and of (transaction, item) cells *)
  Definition freq (X : @data A) (x : A) : nat :=
    match X with
    | Trans D => support D [x]
    | Tab cols => match dget cols x with Some col => length (filter (fun b => b) col) | None => 0 end
    end.
  Definition names (X : @data A) : list A :=
    match X with Trans D => nodup eq_dec (concat D) | Tab cols => map fst cols end.
  Definition cells (X : @data A) : nat := list_sum (map (freq X) (names X)).
  (* standard code length of an item *)
  Definition item_bits (X : @data A) (x : A) : R := bits (INR (freq X x) / INR (cells X)).

  (* code length of an itemset of a code table [c]: usage over total usage *)
  Definition itemset_bits (c : list (list A * list nat)) (e : list A * list nat) : R :=
    bits (INR (length (snd e)) / INR (list_sum (map (fun e => length (snd e)) c))).
  (* L(D|CT): every transaction is written with the codes of the itemsets covering it *)
  Definition data_bits (n : nat) (c : list (list A * list nat)) : R :=
    Rsum (fun t => Rsum (fun e => if mem t (snd e) then itemset_bits c e else 0) c) (seq 0 n).
  (* L(CT|D): every used itemset is spelled with the item codes and followed by its code *)
  Definition model_bits (X : @data A) (c : list (list A * list nat)) : R :=
    Rsum (fun e => Rsum (item_bits X) (fst e) + itemset_bits c e)
         (filter (fun e => negb (length (snd e) =? 0)%nat) c).
End Spec.

(* ------------------------------------------------------------------ lemmas *)
Lemma code_pos u tot : (0 < u)%nat -> code u tot = bits (INR u / INR tot).
Proof. intros Hu; unfold code; destruct (Nat.eqb_spec u 0); [lia | reflexivity]. Qed.
Lemma code_zero tot : code 0 tot = 0.
Proof. reflexivity. Qed.
Lemma used_filter {A} (c : ktable A (list nat)) : used c = filter (fun e => negb (length (snd e) =? 0)%nat) c.
Proof. unfold used; apply filter_ext; intros [k v]; simpl; destruct (length v); reflexivity. Qed.

Lemma sum_members (l : list nat) n a : NoDup l -> (forall t, In t l -> (t < n)%nat) ->
  Rsum (fun t => if mem t l then a else 0) (seq 0 n) = a * INR (length l).
Proof.
  intros Hn Hb; rewrite <- (Rsum_filter _ (fun t => mem t l)).
  - rewrite (Rsum_perm _ _ l).
    + rewrite (Rsum_ext _ (fun _ => a)), Rsum_const; [ring|].
      intros t Ht; apply mem_In in Ht; rewrite Ht; reflexivity.
    + apply NoDup_Permutation; [apply NoDup_filter, seq_NoDup | exact Hn|].
      intros t; rewrite filter_In, in_seq, mem_In; split; [tauto|]; intros Ht; specialize (Hb t Ht); split; [lia | exact Ht].
  - intros t _ E; rewrite E; reflexivity.
Qed.

Section Tables.
  Context {A : Type} `{EqDec A}.
  Implicit Types (std d : dict A (list nat)) (c : ktable A (list nat)).

  Lemma good_keys_perm std c c' k k' v v' : good std c -> good std c' -> In (k, v) c -> In (k', v') c' ->
    seteq k k' = true -> Permutation k k'.
  Proof.
    intros G G' Hi Hi' Hs; apply seteq_spec in Hs; apply NoDup_Permutation.
    - apply (g_keys _ _ G k (in_map fst _ _ Hi)).
    - apply (g_keys _ _ G' k' (in_map fst _ _ Hi')).
    - intros x; split; apply Hs.
  Qed.
  Lemma used_distinct std c : good std c -> kdistinct (used c).
  Proof. intros G; apply kdistinct_filter, (g_distinct _ _ G). Qed.

  Lemma table_sizes_eq d u : table_sizes d u =
    (Rsum (fun e => code (length (snd e)) (usage_sum u) * INR (length (snd e))) u,
     Rsum (fun e => Rsum (starting d) (fst e) + code (length (snd e)) (usage_sum u)) u).
  Proof.
    unfold table_sizes; rewrite count_items_sum, Rsum_concat, !Rsum_map, Rsum_plus; reflexivity.
  Qed.
  Lemma sizes_same_map d std c c' : good std c -> good std c' ->
    (forall k, kget (used c) k = kget (used c') k) -> table_sizes d (used c) = table_sizes d (used c').
  Proof.
    intros G G' Hg; rewrite !table_sizes_eq.
    pose proof (used_distinct _ _ G) as Hd; pose proof (used_distinct _ _ G') as Hd'.
    assert (Hu : usage_sum (used c) = usage_sum (used c')).
    { apply INR_eq; unfold usage_sum; rewrite !INR_list_sum.
      apply (sum_same_map (fun e => INR (length (snd e)))); auto. }
    rewrite Hu; apply f_equal2.
    - apply (sum_same_map (fun e => code (length (snd e)) (usage_sum (used c')) * INR (length (snd e)))); auto.
    - apply (sum_same_map (fun e => Rsum (starting d) (fst e) + code (length (snd e)) (usage_sum (used c')))); auto.
      intros k k' v Hi Hi' Hs; simpl; f_equal; apply Rsum_perm.
      apply filter_In in Hi; apply filter_In in Hi'.
      apply (good_keys_perm std c c' k k' v v G G' (proj1 Hi) (proj1 Hi') Hs).
  Qed.

  (* ------------------------------------------------------------ prefit *)
  Lemma prefit_perm (ord : list A -> list A -> bool) std : forall c, NoDup (dkeys std) ->
    (forall x, In x (dkeys std) -> kmem (map fst c) [x] = false) ->
    Permutation (fold_left (fun c e => kput ord c [fst e] (snd e)) std c)
                (c ++ map (fun e => ([fst e], snd e)) std).
  Proof.
    induction std as [|[x v] std IH]; intros c Hn Hc; cbn [fold_left map]; [rewrite app_nil_r; reflexivity|].
    inversion Hn as [|? ? Hx Hn']; subst; cbn [fst snd].
    assert (E : kput ord c [x] v = kinsert ord c [x] v).
    { unfold kput; rewrite (Hc x (or_introl eq_refl)); reflexivity. }
    rewrite E; pose proof (kinsert_perm ord c [x] v) as Hp; rewrite IH.
    - rewrite Hp; simpl; apply Permutation_middle.
    - exact Hn'.
    - intros y Hy; rewrite (kmem_perm _ _ _ (Permutation_map fst Hp)); simpl.
      rewrite (Hc y (or_intror Hy)), orb_false_r.
      destruct (seteq [y] [x]) eqn:F; [|reflexivity]; exfalso; apply seteq_spec in F; destruct F as [F _].
      destruct (F y) as [->|[]]; [left; reflexivity | exact (Hx Hy)].
  Qed.

  Lemma starting_In d x v : NoDup (dkeys d) -> In (x, v) d ->
    starting d x = code (length v) (usage_sum d).
  Proof.
    intros Hn Hi; unfold starting, starting_codes.
    pose proof (sort_perm more_frequent d) as Hp.
    rewrite (usage_sum_perm _ _ Hp).
    assert (E : dget (map (fun e => (fst e, code (length (snd e)) (usage_sum d))) (sort more_frequent d)) x
                = Some (code (length v) (usage_sum d))).
    { apply In_dget.
      - unfold dkeys; rewrite map_map; simpl; apply (Permutation_NoDup (Permutation_sym (Permutation_map fst Hp))), Hn.
      - apply in_map_iff; exists (x, v); split; [reflexivity|]; apply (Permutation_in _ (Permutation_sym Hp)), Hi. }
    rewrite E; reflexivity.
  Qed.

  Lemma prefit_sizes (ord : list A -> list A -> bool) d items :
    NoDup (dkeys d) -> NoDup items ->
    let st := prefit ord d items (start_sizes d) in
    table_sizes d (used (ct st)) = start_sizes d.
  Proof.
    intros Hn Hi; cbv zeta; unfold prefit; cbn [ct].
    set (base := sort more_frequent d).
    pose proof (sort_perm more_frequent d : Permutation base d) as Hp.
    set (ex := filter (fun x => negb (mem x (dkeys base))) items).
    set (c := fold_left (fun c e => kput ord c [fst e] (snd e)) (base ++ map (fun x => (x, [])) ex) []).
    assert (Hex : dkeys (map (fun x : A => (x, @nil nat)) ex) = ex).
    { unfold dkeys; rewrite map_map; apply map_id. }
    assert (Hnb : NoDup (dkeys base)) by (apply (Permutation_NoDup (Permutation_sym (Permutation_map fst Hp))), Hn).
    assert (Hc : Permutation c (map (fun e => ([fst e], snd e)) (base ++ map (fun x => (x, [])) ex))).
    { unfold c; rewrite prefit_perm; [reflexivity | | reflexivity].
      unfold dkeys; rewrite map_app; apply NoDup_app_intro.
      - exact Hnb.
      - fold (dkeys (map (fun x : A => (x, @nil nat)) ex)); rewrite Hex; apply NoDup_filter, Hi.
      - intros x H1 H2; fold (dkeys (map (fun x : A => (x, @nil nat)) ex)) in H2; rewrite Hex in H2.
        apply filter_In in H2; destruct H2 as [_ H2]; apply negb_true_iff, mem_false in H2; apply H2, H1. }
    clearbody c; rewrite table_sizes_eq; unfold start_sizes; fold base.
    rewrite usage_sum_used.
    assert (Hu : usage_sum c = usage_sum base).
    { rewrite (usage_sum_perm _ _ Hc); unfold usage_sum; rewrite map_map; simpl.
      rewrite map_app, map_map, list_sum_app; simpl.
      replace (list_sum (map (fun _ : A => 0%nat) ex)) with 0%nat; [lia|].
      clear; induction ex; [reflexivity | exact IHex]. }
    rewrite Hu, !Rsum_map; cbn [fst snd].
    assert (Hz : forall (F : list A * list nat -> R), (forall k, F (k, []) = 0) ->
      Rsum F (used c) = Rsum (fun e => F ([fst e], snd e)) base).
    { intros F HF; unfold used; rewrite Rsum_filter.
      - rewrite (Rsum_perm _ _ _ Hc), Rsum_map, Rsum_app, Rsum_map; simpl.
        rewrite (Rsum_zero (fun x => F ([x], []))) by (intros; apply HF); ring.
      - intros [k v] _ E; simpl in E; destruct v; [apply HF | discriminate]. }
    apply f_equal2.
    - rewrite Hz; [reflexivity|]; intros k; simpl; ring.
    - set (F := fun e : list A * list nat => if (length (snd e) =? 0)%nat then 0
                 else Rsum (starting d) (fst e) + code (length (snd e)) (usage_sum base)).
      transitivity (Rsum F (used c)).
      + apply Rsum_ext; intros [k v] Hk; apply filter_In in Hk; unfold F; simpl in *.
        destruct v; [destruct Hk; discriminate | reflexivity].
      + rewrite Hz by reflexivity.
        rewrite (Rsum_ext _ (fun e => 2 * code (length (snd e)) (usage_sum base))).
        *
          generalize (usage_sum base) as tot; clear; intros tot; induction base as [|e l IH]; simpl; [ring|]; rewrite IH; ring.
        * intros [x v] Hxv; unfold F; cbn [fst snd length].
          destruct (Nat.eqb_spec (length v) 0) as [E|E]; [rewrite E, code_zero; ring|].
          cbn [Rsum fold_right]; rewrite (starting_In d x v Hn).
          -- rewrite (usage_sum_perm _ _ Hp); ring.
          -- apply (Permutation_in _ Hp), Hxv.
  Qed.
End Tables.

(* ---------------------------------------------------------------------- C72 *)
Section Session.
  Context {A : Type} `{EqDec A} (ord : list A -> list A -> bool).
  Context (iter : list (list A) -> list (list A)) (iter_perm : forall l, Permutation (iter l) l).
  Context {G : Type} (gain : ktable A (list nat) -> list A -> list A -> G)
          (gpos : G -> bool) (gge : G -> G -> bool).
  Context (reorder : ktable A (list nat) -> ktable A (list nat)) (reorder_perm : forall c, Permutation (reorder c) c).

  (* the states of a SLIM object given data X: after prefit, a complete fit, or an update
     with a new itemset over known items *)
  Inductive session (X : @data A) (items : list A) : slim A (R * R) -> Prop :=
  | s_prefit : session X items (prefit ord (to_dict X) items (start_sizes (to_dict X)))
  | s_fit late fuel n pruning st st' : session X items st ->
      fit_loop (table_sizes (to_dict X)) shorter ord iter gain gpos gge reorder late fuel n pruning st = Ret st' ->
      session X items st'
  | s_update pruning st cand st' : session X items st ->
      NoDup cand -> (forall x, In x cand -> column X x \/ In x items) ->
      (forall s, In s (map fst (ct st)) -> ~ same_items s cand) ->
      update (table_sizes (to_dict X)) shorter ord iter pruning st cand = Ret st' -> session X items st'.

  Lemma shorter_trans a b c : shorter a b = true -> shorter b c = true -> shorter a c = true.
  Proof.
    unfold shorter; repeat match goal with |- context [Rlt_dec ?u ?v] => destruct (Rlt_dec u v) end; auto; try lra; discriminate.
  Qed.
  Lemma session_reachable X items st : session X items st ->
    reachable (table_sizes (to_dict X)) shorter ord iter gain gpos gge reorder X items st.
  Proof. induction 1; [apply after_prefit | eapply after_fit; eassumption | eapply after_update; eassumption]. Qed.

  Lemma session_sized X items st : well_named X items -> session X items st ->
    sized (table_sizes (to_dict X)) (sct st) (ct st) (sz st).
  Proof.
    intros Hw Hs; induction Hs as [|late fuel n pruning st st' Hs IH E|pruning st cand st' Hs IH Hn Hc Hf E].
    - destruct (to_dict_ok X items Hw) as [D1 [D2 _]].
      destruct (prefit_good ord (to_dict X) items (start_sizes (to_dict X)) D1 D2 (proj1 Hw)) as [[_ Gd] _].
      set (st := prefit ord (to_dict X) items (start_sizes (to_dict X))) in *.
      exists (ct st); split; [exact Gd|]; split; [|reflexivity].
      symmetry; apply (prefit_sizes ord (to_dict X) items D1 (proj1 Hw)).
    - pose proof (session_reachable _ _ _ Hs) as Hr.
      destruct (reachable_inv _ shorter shorter_trans ord iter iter_perm gain gpos gge reorder reorder_perm X items st Hw Hr) as [I _].
      pose proof (fit_loop_sound (table_sizes (to_dict X)) shorter ord iter iter_perm shorter_trans gain gpos gge reorder reorder_perm late pruning fuel n st st) as Hsd.
      rewrite E in Hsd; destruct Hsd as [I' [Es [Eq|[_ Hz]]]]; [split; auto | subst; exact IH | rewrite Es; exact Hz].
    - pose proof (session_reachable _ _ _ Hs) as Hr.
      destruct (reachable_inv _ shorter shorter_trans ord iter iter_perm gain gpos gge reorder reorder_perm X items st Hw Hr) as [I [_ Hk]].
      destruct cand as [|a cand]; [discriminate E|].
      assert (Hkc : key_ok (sct st) (a :: cand)).
      { split; [exact Hn|]; split; [discriminate|]; intros x Hx; apply Hk, Hc, Hx. }
      assert (Hfr : fresh st (a :: cand)).
      { apply kmem_false; intros s Hs'; destruct (seteq (a :: cand) s) eqn:F; [|reflexivity].
        exfalso; apply (Hf s Hs'); apply seteq_spec in F; split; apply F. }
      unfold update in E.
      destruct (used (ct st)) as [|e u] eqn:Eu.
      + rewrite evaluate_empty in E; auto; [discriminate|].
        intros Ho; apply (good_used _ _ (proj2 I)) in Ho; auto.
      + assert (Ho : occupied (sct st)) by (apply (good_used _ _ (proj2 I)); congruence).
        destruct (evaluate_spec (table_sizes (to_dict X)) shorter ord iter iter_perm shorter_trans pruning st (a :: cand) I Hkc Hfr Ho) as [t [us [E' [Gu [Ht _]]]]].
        rewrite E' in E; cbn [bind fst snd] in E; injection E as <-.
        destruct (update_with_spec ord st t us I Gu) as [I' Hg].
        change (sct (update_with ord st t us)) with (sct st); change (sz (update_with ord st t us)) with t.
        apply (sized_ext _ (sct st) us); [apply (g_distinct _ _ Gu) | apply (g_distinct _ _ (proj2 I')) | | exact Ht].
        intros k; symmetry; apply Hg.
  Qed.

  Lemma freq_tids X items x v : well_named X items -> In (x, v) (to_dict X) -> length v = freq X x.
  Proof.
    intros [_ Hw]; destruct X as [D|cols]; simpl in *.
    - intros Hi; apply vertical_In in Hi; destruct Hi as [_ ->]; apply length_tidset.
    - intros Hi; apply in_map_iff in Hi; destruct Hi as [[y col] [E Hi]]; injection E as <- <-.
      rewrite (In_dget cols y col Hw Hi); simpl; clear; generalize 0%nat as i.
      induction col as [|b col IH]; intros i; simpl; [reflexivity|]; destruct b; simpl; rewrite IH; reflexivity.
  Qed.
  Lemma names_keys X items : well_named X items -> Permutation (names X) (dkeys (to_dict X)).
  Proof.
    intros Hw; destruct (to_dict_ok X items Hw) as [D1 [_ [D3 _]]].
    destruct X as [D|cols]; simpl in *.
    - apply NoDup_Permutation; [apply NoDup_nodup | exact D1|].
      intros x; rewrite nodup_In, D3, in_concat; split; intros [t Ht]; exists t; tauto.
    - unfold dkeys, tab_vertical; rewrite map_map; reflexivity.
  Qed.
  Lemma cells_sum X items : well_named X items -> cells X = usage_sum (to_dict X).
  Proof.
    intros Hw; unfold cells, usage_sum; apply INR_eq; rewrite !INR_list_sum.
    rewrite (Rsum_perm _ _ _ (names_keys X items Hw)); unfold dkeys; rewrite Rsum_map.
    apply Rsum_ext; intros [x v] Hi; simpl; rewrite (freq_tids X items x v Hw Hi); reflexivity.
  Qed.

  (* data_size_ and model_size_ are the description lengths of the data and of the code
     table that the object holds, in every state of a session on non-empty data *)
  Theorem C72_sizes_are_description_lengths : forall X items st n, well_named X items -> session X items st ->
    (exists t x, has X t x) -> (forall t x, has X t x -> (t < n)%nat) ->
    sz st = (data_bits n (ct st), model_bits X (ct st)).
  Proof.
    intros X items st n Hw Hs _ Hb.
    destruct (session_sized X items st Hw Hs) as [c0 [G0 [Et Hk]]].
    destruct (reachable_inv _ shorter shorter_trans ord iter iter_perm gain gpos gge reorder reorder_perm X items st Hw
                (session_reachable _ _ _ Hs)) as [[_ Gd] [Ht _]].
    rewrite Et, (sizes_same_map _ _ _ _ G0 Gd Hk), table_sizes_eq, usage_sum_used.
    assert (Hin : forall e, In e (ct st) -> forall t, In t (snd e) -> (t < n)%nat).
    { intros e He t Hte; destruct (g_keys _ _ Gd (fst e) (in_map fst _ _ He)) as [_ [Hne _]].
      destruct e as [[|x s] v]; [exfalso; apply Hne; reflexivity|]; simpl in *.
      apply (Hb t x), Ht, (ex_sound _ _ (g_exact _ _ Gd) _ He t x Hte); left; reflexivity. }
    apply f_equal2.
    - unfold used; rewrite Rsum_filter.
      + unfold data_bits; rewrite Rsum_swap; apply Rsum_ext; intros [k v] He; cbn [fst snd].
        rewrite sum_members; [|apply (g_nodup _ _ Gd _ He) | apply (Hin _ He)].
        destruct v as [|t0 v]; [simpl; ring|]; rewrite code_pos by (simpl; lia); reflexivity.
      + intros [k v] _ E; simpl in *; destruct v; [simpl; ring | discriminate].
    - rewrite used_filter; unfold model_bits; apply Rsum_ext; intros [k v] He; apply filter_In in He.
      destruct He as [He Hl]; simpl in *; destruct v as [|t0 v]; [discriminate|].
      rewrite code_pos by (simpl; lia); unfold itemset_bits, usage_sum; cbn [snd]; f_equal.
      apply Rsum_ext; intros x Hx.
      destruct (to_dict_ok X items Hw) as [D1 [_ [_ D4]]].
      assert (Htx : In t0 (tids (to_dict X) x)).
      { apply D4, Ht, (ex_sound _ _ (g_exact _ _ Gd) _ He t0 x); [left; reflexivity | exact Hx]. }
      unfold tids in Htx; destruct (dget (to_dict X) x) as [w|] eqn:Ew; [|destruct Htx].
      apply dget_In in Ew; rewrite (starting_In _ x w D1 Ew).
      unfold item_bits; rewrite <- (freq_tids X items x w Hw Ew), (cells_sum X items Hw).
      apply code_pos; destruct w; [destruct Htx | simpl; lia].
  Qed.

  (* fit never ends with a longer total description than that of the singletons alone *)
  Theorem C72_fit_compresses : forall X items late fuel pruning st n, well_named X items ->
    (exists t x, has X t x) -> (forall t x, has X t x -> (t < n)%nat) ->
    let st0 := prefit ord (to_dict X) items (start_sizes (to_dict X)) in
    fit_loop (table_sizes (to_dict X)) shorter ord iter gain gpos gge reorder late fuel 0 pruning st0 = Ret st ->
    data_bits n (ct st) + model_bits X (ct st) <= data_bits n (ct st0) + model_bits X (ct st0).
  Proof.
    intros X items late fuel pruning st n Hw Ho Hb st0 E.
    pose proof (s_prefit X items : session X items st0) as S0.
    pose proof (C72_sizes_are_description_lengths X items st0 n Hw S0 Ho Hb) as E0.
    pose proof (C72_sizes_are_description_lengths X items st n Hw (s_fit X items late fuel 0 pruning st0 st S0 E) Ho Hb) as E1.
    destruct (C15_fit_not_worse _ shorter shorter_trans ord iter iter_perm gain gpos gge reorder reorder_perm
                X items (start_sizes (to_dict X)) late fuel pruning st Hw E) as [->|[Hlt _]]; [fold st0; lra|].
    assert (Hs : start_sizes (to_dict X) = sz st0) by reflexivity.
    rewrite Hs, E0, E1 in Hlt; unfold shorter in Hlt; cbn [fst snd] in Hlt.
    match type of Hlt with context [Rlt_dec ?u ?v] => destruct (Rlt_dec u v); [lra | discriminate] end.
  Qed.
End Session.
Print Assumptions C72_sizes_are_description_lengths.
Print Assumptions C72_fit_compresses.

(* a session whose hypotheses are met: an itemset is added, and the sizes have their bits *)
Example C72_case :
  let X := Trans [[1;2]; [1;2;3]; [2]]%nat in
  exists st, session toy_ord (fun l => l) toy_gain (fun _ => true) Nat.leb (fun c => c) X [] st
    /\ ct st = [([1;2], [0;1]); ([2], [2]); ([1], []); ([3], [1])]%nat
    /\ well_named X [] /\ (forall t x, has X t x -> (t < 3)%nat).
Proof.
  cbv zeta; eexists; split; [|split; [|split]].
  - eapply (s_update _ _ _ _ _ _ _ _ false _ [1;2]%nat); [apply s_prefit | | | |].
    + repeat constructor; simpl; intuition discriminate.
    + intros x [<-|[<-|[]]]; left; exists [1;2]%nat; simpl; auto.
    + cbn -[Rsum]; intros s Hs [_ Hi]; repeat (destruct Hs as [<-|Hs]; [
        pose proof (Hi 1%nat (or_introl eq_refl)); pose proof (Hi 2%nat (or_intror (or_introl eq_refl))); simpl in *; intuition discriminate|]); destruct Hs.
    + reflexivity.
  - reflexivity.
  - split; [constructor | exact Logic.I].
  - intros t x Hx; simpl in Hx; unfold in_list in Hx.
    destruct t as [|[|[|t]]]; try lia; destruct t; destruct Hx.
Qed.

(* ---------------------------------------------------------------------- C73 *)
Lemma ln2_pos : 0 < ln 2.
Proof. rewrite <- ln_1; apply ln_increasing; lra. Qed.
Lemma bits_pos u tot : (0 < u < tot)%nat -> 0 < bits (INR u / INR tot).
Proof.
  intros Hu; unfold bits.
  assert (0 < INR u) by (apply lt_0_INR; lia).
  assert (INR u < INR tot) by (apply lt_INR; lia).
  assert (0 < INR u / INR tot) by (apply Rdiv_lt_0_compat; lra).
  assert (INR u / INR tot < 1).
  { apply (Rmult_lt_reg_r (INR tot)); [lra|]; unfold Rdiv; rewrite Rmult_assoc, Rinv_l by lra; lra. }
  assert (ln (INR u / INR tot) < 0) by (rewrite <- ln_1; apply ln_increasing; assumption).
  pose proof ln2_pos as Hl; unfold Rdiv at 1; pose proof (Rinv_0_lt_compat _ Hl).
  replace (- (ln (INR u / INR tot) * / ln 2)) with ((- ln (INR u / INR tot)) * / ln 2) by ring.
  apply Rmult_lt_0_compat; lra.
Qed.

Section CodeLength.
  Context {A : Type} `{EqDec A}.
  (* the Laplace-corrected code length of the itemset [s] of the code table [c] *)
  Definition corrected_total (c : list (list A * list nat)) : nat := list_sum (map (fun e => S (length (snd e))) c).
  Definition corrected_bits (c : list (list A * list nat)) (s : list A) (r : R) : Prop :=
    exists k u, In (k, u) c /\ same_items k s /\ r = bits (INR (S (length u)) / INR (corrected_total c)).

  Lemma list_sum_ge {B} (f : B -> nat) l x y : In x l -> In y l -> x <> y -> (f x + f y <= list_sum (map f l))%nat.
  Proof.
    induction l as [|z l IH]; [intros []|]; intros Hx Hy Hne.
    change (list_sum (map f (z :: l))) with (f z + list_sum (map f l))%nat.
    assert (Hone : forall w, In w l -> (f w <= list_sum (map f l))%nat).
    { clear; induction l as [|z l IH]; intros w Hw; [destruct Hw|].
      change (list_sum (map f (z :: l))) with (f z + list_sum (map f l))%nat.
      destruct Hw as [->|Hw]; [lia | specialize (IH w Hw); lia]. }
    destruct Hx as [->|Hx], Hy as [->|Hy]; [congruence | specialize (Hone y Hy); lia | specialize (Hone x Hx); lia|].
    specialize (IH Hx Hy Hne); lia.
  Qed.
  Lemma two_entries {B} (l : list B) x : NoDup l -> (2 <= length l)%nat -> In x l -> exists y, In y l /\ y <> x.
  Proof.
    intros Hn Hl Hx; destruct l as [|a [|b l]]; simpl in Hl; try lia.
    inversion Hn as [|? ? Ha _]; subst; destruct Hx as [->|Hx].
    - exists b; split; [right; left; reflexivity|]; intros ->; apply Ha; left; reflexivity.
    - exists a; split; [left; reflexivity|]; intros ->; apply Ha, Hx.
  Qed.

  Section AnyState.
  Context {T : Type} (total : ktable A (list nat) -> T) (tlt : T -> T -> bool).
  Context (tlt_trans : forall t1 t2 t3, tlt t1 t2 = true -> tlt t2 t3 = true -> tlt t1 t3 = true).
  Context (ord : list A -> list A -> bool).
  Context (iter : list (list A) -> list (list A)) (iter_perm : forall l, Permutation (iter l) l).
  Context {G : Type} (gain : ktable A (list nat) -> list A -> list A -> G)
          (gpos : G -> bool) (gge : G -> G -> bool).
  Context (reorder : ktable A (list nat) -> ktable A (list nat)) (reorder_perm : forall c, Permutation (reorder c) c).
  Context (leA : A -> A -> bool).

  Lemma laplace_get (st : slim A T) k : inv st -> In k (map fst (ct st)) ->
    exists u, In (k, u) (ct st) /\
      kget (laplace (slim_transform leA true true false st)) (sort leA k)
      = Some (bits (INR (S (length u)) / INR (corrected_total (ct st)))).
  Proof.
    intros [_ Gd] Hk; apply in_map_iff in Hk; destruct Hk as [[k' u] [E Hi]]; simpl in E; subst k'.
    exists u; split; [exact Hi|].
    assert (Et : slim_transform leA true true false st = map (fun p => (sort leA (fst p), snd p)) (ct st)).
    { unfold slim_transform; f_equal; rewrite (filter_ext_in _ (fun _ => true)).
      - clear; induction (ct st); simpl; congruence.
      - intros [s v] He; simpl; destruct (g_keys _ _ Gd s (in_map fst _ _ He)) as [_ [Hne _]].
        destruct s; [congruence | reflexivity]. }
    rewrite Et; unfold laplace; rewrite !map_map; simpl.
    change (list_sum (map (fun x : list A * list nat => S (length (snd x))) (ct st))) with (corrected_total (ct st)).
    apply kget_In_iff.
    - unfold kdistinct; rewrite map_map; simpl; rewrite <- (map_map fst (sort leA)).
      apply distinct_map_sort, (g_distinct _ _ Gd).
    - exists (sort leA k); split; [|apply seteq_refl].
      apply in_map_iff; exists (k, u); simpl; split; [|exact Hi].
      rewrite code_pos by lia; reflexivity.
  Qed.

  (* get_code_length on new transactions, when the code table has at least two itemsets:
     one value per transaction; the sum of the Laplace-corrected codes of the itemsets that
     cover it, which is positive; +inf exactly for a transaction without known items *)
  Theorem C73_code_length_partial : forall X items st D', well_named X items ->
    reachable total tlt ord iter gain gpos gge reorder X items st -> (2 <= length (ct st))%nat ->
    exists c lens, slim_cover leA st D' = Some c /\
      get_code_length leA st (length D') (slim_cover leA st D') = Some lens /\ length lens = length D' /\
      forall t, (t < length D')%nat ->
        ((exists x, In x (nth t D' []) /\ (column X x \/ In x items)) ->
           exists rs, Forall2 (corrected_bits (ct st)) (map fst (filter (fun e => mem t (snd e)) c)) rs /\
             0 < Rsum (fun r => r) rs /\ nth_error lens t = Some (Some (Rsum (fun r => r) rs))) /\
        ((forall x, In x (nth t D' []) -> ~ (column X x \/ In x items)) -> nth_error lens t = Some None).
  Proof.
    intros X items st D' Hw Hr Hl2.
    destruct (reachable_inv total tlt tlt_trans ord iter iter_perm gain gpos gge reorder reorder_perm X items st Hw Hr) as [I [_ Hk]].
    destruct (to_dict_ok (Trans D') [] (conj (NoDup_nil _) Logic.I)) as [V1 [_ [_ V4]]]; simpl in V1, V4.
    destruct (cover_dict_spec leA st (vertical D') I V1) as [c [E [C1 [C2 [C3 [C4 C5]]]]]].
    unfold slim_cover; rewrite E; unfold get_code_length.
    exists c; eexists; split; [reflexivity|]; split; [reflexivity|]; split; [rewrite map_length, seq_length; reflexivity|].
    intros t Ht.
    assert (Hnth : forall (f : nat -> option R), nth_error (map f (seq 0 (length D'))) t = Some (f t)).
    { intros f; rewrite (map_nth_error f t (seq 0 (length D')) (d := t)); [reflexivity|].
      rewrite (nth_error_nth' _ 0%nat) by (rewrite seq_length; exact Ht); rewrite seq_nth by exact Ht; reflexivity. }
    rewrite !Hnth; set (m := laplace _).
    pose proof (g_distinct _ _ (proj2 I)) as Hdc.
    assert (Hbits : forall e, In e c -> exists r, corrected_bits (ct st) (fst e) r /\ 0 < r /\ kget m (fst e) = Some r).
    { intros e He; destruct (C1 e He) as [_ [k [Hkin Ek]]].
      destruct (laplace_get st k I Hkin) as [u [Hu Eg]]; rewrite Ek; eexists; split; [|split; [|exact Eg]].
      - exists k, u; split; [exact Hu|]; split; [|reflexivity]; split; intros x Hx; apply In_sort in Hx || apply In_sort; exact Hx.
      - apply bits_pos; split; [lia|].
        assert (Hnd : NoDup (ct st)) by (apply (NoDup_map_inv fst), (distinct_NoDup _ Hdc)).
        destruct (two_entries (ct st) (k, u) Hnd Hl2 Hu) as [y [Hy Hne]].
        pose proof (list_sum_ge (fun e => S (length (snd e))) (ct st) (k, u) y Hu Hy (not_eq_sym Hne)) as Hge.
        unfold corrected_total; simpl in Hge; lia. }
    assert (Hex : exists rs, Forall2 (corrected_bits (ct st)) (map fst (filter (fun e => mem t (snd e)) c)) rs
              /\ (forall r, In r rs -> 0 < r) /\ length rs = length (filter (fun e => mem t (snd e)) c)
              /\ Rsum (fun e => if mem t (snd e) then match kget m (fst e) with Some r => r | None => 0 end else 0) c
                 = Rsum (fun r => r) rs).
    { clear - Hbits; induction c as [|e c IH]; [exists []; simpl; repeat split; auto; intros r []|].
      destruct IH as [rs [F1 [F2 [F3 F4]]]]; [intros f Hf; apply Hbits; right; exact Hf|].
      cbn [filter]; destruct (mem t (snd e)) eqn:Em.
      - destruct (Hbits e (or_introl eq_refl)) as [r [Hr [Hp Eg]]]; exists (r :: rs); split; [|split; [|split]].
        + simpl; constructor; assumption.
        + intros q [<-|Hq]; auto.
        + simpl; congruence.
        + cbn [Rsum fold_right]; rewrite Em, Eg; f_equal; exact F4.
      - exists rs; split; [exact F1|]; split; [exact F2|]; split; [exact F3|].
        cbn [Rsum fold_right]; rewrite Em, Rplus_0_l; exact F4. }
    destruct Hex as [rs [F1 [F2 [F3 F4]]]]; unfold row_length; rewrite F4; split.
    - intros [x [Hx Hkx]]; exists rs; split; [exact F1|].
      destruct (C5 x t) as [e [He [H1 H2]]]; [apply V4; exact Hx | apply Hk, Hkx|].
      assert (Hpos : 0 < Rsum (fun r => r) rs).
      { destruct rs as [|r rs].
        - exfalso; simpl in F3; symmetry in F3; apply length_zero_iff_nil in F3.
          assert (Hin : In e (filter (fun e => mem t (snd e)) c)) by (apply filter_In; split; [exact He | apply mem_In, H2]).
          rewrite F3 in Hin; destruct Hin.
        - apply (Rsum_pos _ _ r); [intros y Hy; apply Rlt_le, F2, Hy | left; reflexivity | apply F2; left; reflexivity]. }
      split; [exact Hpos|]; destruct (Req_EM_T _ 0) as [Ez|_]; [lra | reflexivity].
    - intros Hno; destruct rs as [|r rs]; [simpl; destruct (Req_EM_T 0 0); [reflexivity | congruence]|].
      exfalso; destruct (filter (fun e => mem t (snd e)) c) as [|e l] eqn:Ef; [discriminate|].
      assert (He : In e (filter (fun e => mem t (snd e)) c)) by (rewrite Ef; left; reflexivity).
      apply filter_In in He; destruct He as [He Hm]; apply mem_In in Hm.
      destruct (C1 e He) as [_ [k [Hkin Ek]]]; destruct (g_keys _ _ (proj2 I) k Hkin) as [_ [Hne Hkn]].
      destruct k as [|x k]; [congruence|].
      assert (Hx : In x (fst e)) by (rewrite Ek; apply In_sort; left; reflexivity).
      apply (Hno x); [apply V4, (C2 e He t x Hm Hx) | apply Hk, Hkn; left; reflexivity].
  Qed.
  End AnyState.
End CodeLength.
Print Assumptions C73_code_length_partial.

Example C73_case : exists st c, vec_st = Ret st /\ (2 <= length (ct st))%nat /\
  slim_cover Nat.leb st [[1;2;9]; [8]]%nat = Some c /\ map fst (filter (fun e => mem 0%nat (snd e)) c) = [[1;2]]%nat.
Proof. eexists; eexists; split; [vm_compute; reflexivity|]; split; [vm_compute; lia|]; split; vm_compute; reflexivity. Qed.

(* with a single itemset its code has length 0, which is then replaced by +inf: a
   transaction made of the one known item is scored as if it were unknown *)
Theorem C73_single_itemset_refuted : exists st, toy_reachable [[1]; [1]]%nat st /\
  column (Trans [[1]; [1]]%nat) 1%nat /\
  get_code_length Nat.leb st 1 (slim_cover Nat.leb st [[1]]%nat) = Some [None].
Proof.
  exists (prefit toy_ord (to_dict (Trans [[1]; [1]]%nat)) [] 0%nat); split; [apply after_prefit|]; split; [exists [1]%nat; simpl; auto|].
  assert (E : slim_cover Nat.leb (prefit toy_ord (to_dict (Trans [[1]; [1]]%nat)) [] 0%nat) [[1]]%nat = Some [([1], [0])]%nat) by (vm_compute; reflexivity).
  rewrite E; unfold get_code_length; cbn [map seq]; do 2 f_equal; unfold row_length.
  match goal with |- context [Req_EM_T ?s 0] => destruct (Req_EM_T s 0) as [_|N] end; [reflexivity|].
  exfalso; apply N; cbn -[INR code]; unfold code; cbn -[INR ln].
  unfold Rdiv at 2; rewrite Rinv_r by (apply not_0_INR; lia); rewrite ln_1; unfold Rdiv; ring.
Qed.
Print Assumptions C73_single_itemset_refuted.

Lemma few_itemsets : forall {A : Type} `{EqDec A} {T : Type} (leA : A -> A -> bool) (st : slim A T) D', inv st -> (length (ct st) < 2)%nat ->
  get_code_length leA st (length D') (slim_cover leA st D') = Some (map (fun _ => None) D').
Proof.
  intros A HA T leA st D' I Hl.
  destruct (to_dict_ok (Trans D') [] (conj (NoDup_nil _) Logic.I)) as [V1 _]; simpl in V1.
  destruct (cover_dict_spec leA st (vertical D') I V1) as [c [E [C1 _]]].
  unfold slim_cover; rewrite E; unfold get_code_length; f_equal.
  set (m := laplace _).
  assert (Hz : forall e, In e c -> kget m (fst e) = Some 0).
  { intros e He; destruct (C1 e He) as [_ [k [Hkin Ek]]]; destruct (laplace_get leA st k I Hkin) as [u [Hu Eg]].
    unfold m; rewrite Ek, Eg; f_equal.
    destruct (ct st) as [|p [|q l]]; [destruct Hu| |simpl in Hl; lia]. destruct Hu as [->|[]].
    unfold corrected_total; cbn [map list_sum fold_right snd]; rewrite Nat.add_0_r; unfold bits.
    unfold Rdiv at 2; rewrite Rinv_r by (apply not_0_INR; lia); rewrite ln_1; unfold Rdiv; ring. }
  assert (Hr : forall t, row_length m c t = None).
  { intros t; unfold row_length.
    assert (Es : Rsum (fun e => if mem t (snd e) then match kget m (fst e) with Some r => r | None => 0 end else 0) c = 0).
    { clear -Hz; induction c as [|e c IH]; [reflexivity|]; cbn [Rsum fold_right]; rewrite (Hz e (or_introl eq_refl)).
      unfold Rsum in IH; rewrite IH by (intros f Hf; apply Hz; right; exact Hf); destruct (mem t (snd e)); ring. }
    rewrite Es; destruct (Req_EM_T 0 0); [reflexivity | congruence]. }
  rewrite (map_ext _ (fun _ => None) Hr); clear; generalize 0%nat; induction D' as [|d D IH]; intros n; [reflexivity|]; cbn [length seq map]; rewrite IH; reflexivity.
Qed.
(* With fewer than two itemsets in the code table every transaction is scored as if it were unknown. *)
Theorem C73_few : forall {A : Type} {HA : EqDec A} {T : Type} (total : ktable A (list nat) -> T) tlt,
  (forall t1 t2 t3 : T, tlt t1 t2 = true -> tlt t2 t3 = true -> tlt t1 t3 = true) ->
  forall ord iter, (forall l : list (list A), Permutation (iter l) l) ->
  forall {G : Type} (gain : ktable A (list nat) -> list A -> list A -> G) gpos gge reorder, (forall c : ktable A (list nat), Permutation (reorder c) c) ->
  forall leA X items st D', well_named X items -> reachable total tlt ord iter gain gpos gge reorder X items st -> (length (ct st) < 2)%nat ->
  get_code_length leA st (length D') (slim_cover leA st D') = Some (map (fun _ => None) D').
Proof.
  intros A HA T total tlt Ht ord iter Hi G gain gpos gge reorder Hr leA X items st D' Hw R Hl.
  destruct (reachable_inv total tlt Ht ord iter Hi gain gpos gge reorder Hr X items st Hw R) as [I _].
  apply few_itemsets; assumption.
Qed.
Print Assumptions C73_few.
Example C73_few_case : let st := prefit toy_ord (to_dict (Trans [[1]; [1]]%nat)) [] 0%nat in toy_reachable [[1]; [1]]%nat st /\ length (ct st) = 1%nat.
Proof. split; [apply after_prefit | reflexivity]. Qed.

(* ---------------------------------------------------------------------- C74 *)
(* strictly shorter, +inf (None) being the longest *)
Definition shorter_than (a b : option R) : Prop :=
  match a, b with Some x, Some y => x < y | Some _, None => True | None, _ => False end.
Lemma decision_decreasing a b : decision a < decision b <-> shorter_than b a.
Proof.
  destruct a as [x|], b as [y|]; simpl.
  - split; [intros Hl; apply exp_lt_inv in Hl; lra | intros Hl; apply exp_increasing; lra].
  - pose proof (exp_pos (- (1/5) * x)); split; [lra | intros []].
  - pose proof (exp_pos (- (1/5) * y)); split; auto.
  - split; [lra | intros []].
Qed.
(* decision_function lies in [0, 1), is 0 exactly at +inf *)
Theorem C74_decision_range : forall x, (forall r, x = Some r -> 0 < r) ->
  0 <= decision x < 1 /\ (decision x = 0 <-> x = None).
Proof.
  intros [r|] Hr; simpl.
  - pose proof (exp_pos (- (1/5) * r)); specialize (Hr r eq_refl); split; [split; [lra|]|split; [intros; exfalso; lra | discriminate]].
    assert (Hl : exp (- (1/5) * r) < exp 0) by (apply exp_increasing; lra); rewrite exp_0 in Hl; exact Hl.
  - split; [lra | split; reflexivity].
Qed.
Definition Rltb (a b : R) : bool := if Rlt_dec a b then true else false.
Lemma Rltb_lt a b : Rltb a b = true <-> a < b.
Proof. unfold Rltb; destruct (Rlt_dec a b); split; auto; discriminate. Qed.
Lemma Rltb_ge a b : Rltb a b = false <-> b <= a.
Proof. unfold Rltb; destruct (Rlt_dec a b); split; try discriminate; auto; intros; lra. Qed.

(* SlimClassifier.predict: [lens] holds, per class, the code lengths its model gives to the
   transactions.  Each transaction goes to the class with the shortest code, the first one
   in the order of the classes if several are shortest *)
Theorem C74_predict_shortest_code :
  forall (L : Type) (classes : list L) (lens : list (list (option R))) (n : nat),
  classes <> [] -> length lens = length classes -> (forall s, In s lens -> length s = n) ->
  exists y, classifier_predict Rltb 0 classes (map (map decision) lens) n = Ret y /\ length y = n /\
    forall i, (i < n)%nat -> exists j c len, nth_error classes j = Some c /\ nth_error y i = Some c /\
      (exists col, nth_error lens j = Some col /\ nth_error col i = Some len) /\
      (forall j' col len', nth_error lens j' = Some col -> nth_error col i = Some len' -> ~ shorter_than len' len) /\
      (forall j' col len', (j' < j)%nat -> nth_error lens j' = Some col -> nth_error col i = Some len' ->
         shorter_than len len').
Proof.
  intros L classes lens n Hc Hl Hn.
  destruct (C19_predict_best L R Rltb 0 classes (map (map decision) lens) n) as [y [E [Hy Hb]]].
  - intros a; apply Rltb_ge; lra.
  - intros a b c; rewrite !Rltb_lt; lra.
  - intros a b c; rewrite !Rltb_ge; lra.
  - exact Hc.
  - rewrite map_length; exact Hl.
  - intros s Hs; apply in_map_iff in Hs; destruct Hs as [s' [<- Hs]]; rewrite map_length; apply Hn, Hs.
  - exists y; split; [exact E|]; split; [exact Hy|]; intros i Hi.
    destruct (Hb i Hi) as [j [c [H1 [H2 [s [[col [H3 H4]] [H5 H6]]]]]]].
    rewrite nth_error_map in H3; destruct (nth_error lens j) as [col'|] eqn:Ej; [|discriminate].
    injection H3 as <-; rewrite nth_error_map in H4; destruct (nth_error col' i) as [len|] eqn:Ei; [|discriminate].
    injection H4 as <-; exists j, c, len; split; [exact H1|]; split; [exact H2|]; split; [eauto|]; split.
    + intros j' col len' Hj' Hi' Hlt; apply decision_decreasing in Hlt.
      specialize (H5 j' (map decision col) (decision len')); rewrite !nth_error_map, Hj', Hi' in H5.
      specialize (H5 eq_refl eq_refl); apply Rltb_ge in H5; lra.
    + intros j' col len' Hlt Hj' Hi'; apply decision_decreasing.
      specialize (H6 j' (map decision col) (decision len') Hlt); rewrite !nth_error_map, Hj', Hi' in H6.
      specialize (H6 eq_refl eq_refl); apply Rltb_lt in H6; lra.
Qed.
Print Assumptions C74_decision_range.
Print Assumptions C74_predict_shortest_code.
Example C74_case : exists y, classifier_predict Rltb 0 [3;5;7]%nat (map (map decision) [[Some 4; None]; [Some 2; None]; [None; Some 9]]) 2 = Ret y
  /\ y = [5;7]%nat.
Proof.
  destruct (C74_predict_shortest_code nat [3;5;7]%nat [[Some 4; None]; [Some 2; None]; [None; Some 9]] 2) as [y [E [Hy Hb]]];
    [discriminate | reflexivity | intros s [<-|[<-|[<-|[]]]]; reflexivity|].
  exists y; split; [exact E|]; destruct y as [|a [|b [|]]]; try discriminate.
  destruct (Hb 0%nat) as [j [c [len [H1 [H2 [[col [H3 H4]] [H5 _]]]]]]]; [lia|].
  destruct (Hb 1%nat) as [j' [c' [len' [H1' [H2' [[col' [H3' H4']] [H5' _]]]]]]]; [lia|].
  f_equal; [|f_equal].
  - specialize (H5 1%nat _ _ eq_refl eq_refl).
    destruct j as [|[|[|[|j]]]]; simpl in H1, H3; try discriminate; injection H1 as <-; injection H3 as <-;
      injection H2 as ->; injection H4 as <-; simpl in H5; try reflexivity; exfalso; apply H5; lra || exact Logic.I.
  - specialize (H5' 2%nat _ _ eq_refl eq_refl).
    destruct j' as [|[|[|[|j']]]]; simpl in H1', H3'; try discriminate; injection H1' as <-; injection H3' as <-;
      injection H2' as ->; injection H4' as <-; simpl in H5'; try reflexivity; exfalso; apply H5'; exact Logic.I.
Qed.
