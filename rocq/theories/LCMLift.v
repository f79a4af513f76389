(* From the search on indices to statements about the database. *)
From Verif Require Import Prelude FilterModel FilterProofs CheckModel LCMModel LCMProofs
  ItemsetSpec VerticalProofs.
From Coq Require Import QArith.
Local Open Scope nat_scope.

Lemma reaches_mono ms n a b : a <= b -> reaches ms n a = true -> reaches ms n b = true.
Proof.
  intros Hab; destruct ms as [m|q]; simpl.
  - rewrite !Z.leb_le; lia.
  - rewrite !Qle_bool_iff; intros Hq; eapply Qle_trans; [exact Hq|].
    rewrite <- Zle_Qle; lia.
Qed.

  Lemma run_jobs_spec {R} (job : nat -> R) sched : forall s i,
    fold_left (run_job job) sched s i = if mem i sched then Some (job i) else s i.
  Proof.
    induction sched as [|k sched IH]; intros s i; simpl; [reflexivity|].
    rewrite IH; unfold run_job at 1.
    destruct (mem i sched) eqn:E; [rewrite orb_true_r; reflexivity|].
    rewrite orb_false_r; unfold eqd.
    destruct (eq_dec i k) as [->|n].
    - rewrite Nat.eqb_refl; reflexivity.
    - destruct (Nat.eqb_spec i k); [congruence | reflexivity].
  Qed.
  Lemma parallel_spec {R} (job : nat -> R) sched n :
    (forall k, k < n -> In k sched) -> parallel sched n job = map (fun k => Some (job k)) (seq 0 n).
  Proof.
    intros Hs; unfold parallel; apply map_ext_in; intros k Hk; apply in_seq in Hk.
    rewrite run_jobs_spec; destruct (mem_spec k sched) as [|Hn]; [reflexivity|].
    exfalso; apply Hn, Hs; lia.
  Qed.
  Lemma gather_parallel {R} (job : nat -> list R) sched n :
    (forall k, k < n -> In k sched) -> gather (parallel sched n job) = flat_map job (seq 0 n).
  Proof.
    intros Hs; rewrite parallel_spec; [|exact Hs]; unfold gather.
    induction (seq 0 n) as [|k l IH]; simpl; [reflexivity | rewrite IH; reflexivity].
  Qed.

Lemma map_flat_map {A B C} (g : B -> C) (f : A -> list B) l :
  map g (flat_map f l) = flat_map (fun x => map g (f x)) l.
Proof.
  induction l as [|x l IH]; simpl; [reflexivity | rewrite map_app, IH; reflexivity].
Qed.
Lemma filter_flat_map {A B} (g : B -> bool) (f : A -> list B) l :
  filter g (flat_map f l) = flat_map (fun x => filter g (f x)) l.
Proof.
  induction l as [|x l IH]; simpl; [reflexivity | rewrite filter_app, IH; reflexivity].
Qed.

Lemma NoDup_incl_length_lt {A} (l l' : list A) (x : A) :
  NoDup l -> incl l l' -> In x l' -> ~ In x l -> length l < length l'.
Proof.
  intros Hn Hi Hx Hnx.
  assert (L : length (x :: l) <= length l').
  { apply NoDup_incl_length; [constructor; assumption|]; intros y [<-|Hy]; auto. }
  simpl in L; lia.
Qed.

Section Lift.
  Context {A : Type} `{EqDec A} (leA : A -> A -> bool) (ms : minsupp) (D : list (list A)).
  Notation tbl := (fit_table ms D).
  Notation tab := (map snd tbl).
  Notation n := (length D).
  Notation reach := (reaches ms n).
  Notation U := (seq 0 n).

  Lemma tbl_In x v : In (x, v) tbl <-> occurs D x /\ v = tids_of D x /\ reach (length v) = true.
  Proof.
    unfold fit_table; rewrite In_sort; unfold drop_rare; rewrite filter_In, vertical_In; simpl; tauto.
  Qed.
  Lemma tbl_keys_NoDup : NoDup (dkeys tbl).
  Proof.
    unfold fit_table, dkeys.
    eapply Permutation_NoDup.
    { apply Permutation_map, Permutation_sym, sort_perm. }
    pose proof (vertical_NoDup D) as Hn; unfold dkeys in Hn.
    unfold drop_rare; induction (vertical D) as [|[k v] d IH]; simpl; [constructor|].
    simpl in Hn; inversion Hn as [|? ? Hk Hd]; subst.
    destruct (reach (length v)); simpl; [constructor; [|auto] | auto].
    intros Hi; apply Hk; apply in_map_iff in Hi; destruct Hi as [kv [E Hi]].
    apply filter_In in Hi; apply in_map_iff; exists kv; tauto.
  Qed.

  (* the item renamed k *)
  Definition key_at (k : nat) : option A := option_map fst (nth_error tbl k).

  Lemma key_at_some k x : key_at k = Some x -> nth_error tbl k = Some (x, tids_of D x)
       /\ k < length tab /\ ids tab k = tids_of D x /\ occurs D x /\ reach (length (tids_of D x)) = true.
  Proof.
    unfold key_at; destruct (nth_error tbl k) as [[y v]|] eqn:E; [|discriminate].
    simpl; intros [= ->]; pose proof (nth_error_In _ _ E) as Hi; apply tbl_In in Hi.
    destruct Hi as [Ho [-> Hr]]; repeat split; auto.
    - rewrite map_length; apply nth_error_Some; rewrite E; discriminate.
    - unfold ids; apply nth_error_nth; rewrite nth_error_map, E; reflexivity.
  Qed.
  Lemma key_at_lt k : k < length tab -> exists x, key_at k = Some x.
  Proof.
    rewrite map_length; intros Hk; apply nth_error_Some in Hk; unfold key_at.
    destruct (nth_error tbl k) as [[x v]|]; [exists x; reflexivity | congruence].
  Qed.
  Lemma key_at_inj i j x : key_at i = Some x -> key_at j = Some x -> i = j.
  Proof.
    intros Hi Hj; apply (proj1 (NoDup_nth_error (dkeys tbl)) tbl_keys_NoDup).
    - unfold dkeys; rewrite map_length; apply key_at_some in Hi; rewrite map_length in Hi; tauto.
    - unfold dkeys; rewrite !nth_error_map; unfold key_at in *; congruence.
  Qed.
  Lemma key_at_ex x : occurs D x -> reach (support D [x]) = true -> exists k, key_at k = Some x.
  Proof.
    intros Ho Hr; assert (Hi : In (x, tids_of D x) tbl).
    { apply tbl_In; split; [exact Ho|]; split; [reflexivity|]; unfold tids_of; rewrite length_tidset; exact Hr. }
    apply In_nth_error in Hi; destruct Hi as [k Hk]; exists k; unfold key_at; rewrite Hk; reflexivity.
  Qed.

  Lemma tab_ok i : i < length tab -> ids tab i = filter (fun t => mem t (ids tab i)) U.
  Proof.
    intros Hi; destruct (key_at_lt i Hi) as [x Hx]; apply key_at_some in Hx.
    destruct Hx as [_ [_ [-> _]]]; unfold tids_of at 1, tidset; apply filter_ext_In.
    intros t Ht; apply in_seq in Ht; apply eq_true_iff_eq.
    rewrite mem_In, In_tids_of, subset_single, mem_In; intuition lia.
  Qed.
  Lemma tab_freq i : i < length tab -> reach (length (ids tab i)) = true.
  Proof.
    intros Hi; destruct (key_at_lt i Hi) as [x Hx]; apply key_at_some in Hx.
    destruct Hx as [_ [_ [-> [_ Hr]]]]; exact Hr.
  Qed.

  Lemma In_names x C : In x (names tbl C) <-> exists k, In k C /\ key_at k = Some x.
  Proof.
    unfold names; rewrite in_flat_map; unfold key_at; split; intros [k [Hk Hx]]; exists k; (split; [exact Hk|]).
    - destruct (nth_error tbl k) as [kv|]; [|destruct Hx]; destruct Hx as [<-|[]]; reflexivity.
    - destruct (nth_error tbl k) as [kv|]; [|discriminate]; injection Hx as <-; left; reflexivity.
  Qed.
  Lemma names_NoDup C : NoDup C -> NoDup (names tbl C).
  Proof.
    induction 1 as [|k C Hk HC IH]; simpl; [constructor|].
    apply NoDup_app_intro; [destruct (nth_error tbl k); repeat constructor; simpl; tauto | exact IH |].
    intros x Hx Hx'; apply In_names in Hx'; destruct Hx' as [j [Hj Ej]].
    assert (Ek : key_at k = Some x).
    { unfold key_at; destruct (nth_error tbl k) as [kv|]; [|destruct Hx]; destruct Hx as [<-|[]]; reflexivity. }
    rewrite (key_at_inj _ _ _ Ek Ej) in Hk; contradiction.
  Qed.
  Lemma names_length C : incl C (keys tab) -> length (names tbl C) = length C.
  Proof.
    induction C as [|k C IH]; intros Hi; [reflexivity|].
    simpl; rewrite app_length, IH by (intros x Hx; apply Hi; right; exact Hx).
    assert (Hk : k < length tab) by (apply In_keys, Hi; left; reflexivity).
    rewrite map_length in Hk; apply nth_error_Some in Hk.
    destruct (nth_error tbl k); [reflexivity | congruence].
  Qed.
  Lemma names_incl C C' : incl C (keys tab) -> incl (names tbl C) (names tbl C') -> incl C C'.
  Proof.
    intros Hk Hi k Hkc; assert (Hl : k < length tab) by (apply In_keys, Hk, Hkc).
    destruct (key_at_lt k Hl) as [x Hx].
    assert (Hn : In x (names tbl C')) by (apply Hi, In_names; exists k; auto).
    apply In_names in Hn; destruct Hn as [j [Hj Ej]]; rewrite (key_at_inj _ _ _ Hx Ej); exact Hj.
  Qed.
  Lemma names_mono C C' : incl C C' -> incl (names tbl C) (names tbl C').
  Proof.
    intros Hi x Hx; apply In_names in Hx; apply In_names; destruct Hx as [k [Hk E]]; exists k; auto.
  Qed.

  Lemma tset_names C : incl C (keys tab) -> tset tab U C = tidset D (names tbl C).
  Proof.
    intros Hk; unfold tset, tidset; apply filter_ext_In; intros t Ht; apply in_seq in Ht.
    apply eq_true_iff_eq; rewrite forallb_forall, subset_incl; split.
    - intros Hf x Hx; apply In_names in Hx; destruct Hx as [k [Hkc Ex]].
      specialize (Hf k Hkc); apply mem_In in Hf; apply key_at_some in Ex.
      destruct Ex as [_ [_ [E _]]]; rewrite E in Hf; apply In_tids_of in Hf; tauto.
    - intros Hi k Hkc; apply mem_In; assert (Hl : k < length tab) by (apply In_keys, Hk, Hkc).
      destruct (key_at_lt k Hl) as [x Hx]; pose proof (key_at_some _ _ Hx) as [_ [_ [-> _]]].
      apply In_tids_of; split; [lia|]; apply Hi, In_names; exists k; auto.
  Qed.

  (* support and extension *)
  Lemma tidset_incl_iff X x :
    incl (tidset D X) (tids_of D x) <-> forall t, In t D -> incl X t -> In x t.
  Proof.
    split.
    - intros Hi t Ht Hx; apply (In_nth _ _ []) in Ht; destruct Ht as [i [Hl Ht]].
      assert (Hin : In i (tidset D X)) by (apply In_tidset; rewrite Ht; auto).
      apply Hi, In_tids_of in Hin; rewrite Ht in Hin; tauto.
    - intros Hf i Hin; apply In_tidset in Hin; apply In_tids_of; split; [tauto|].
      apply Hf; [apply nth_In; tauto | tauto].
  Qed.
  Lemma support_anti X Y : incl X Y -> support D Y <= support D X.
  Proof.
    intros Hi; rewrite <- !length_tidset; apply NoDup_incl_length; [apply NoDup_tidset|].
    intros t Ht; apply In_tidset in Ht; apply In_tidset; split; [tauto|].
    eapply incl_tran; [exact Hi | tauto].
  Qed.

  Lemma closed_names C : closed tab U C -> reach (support D (names tbl C)) = true ->
    closed_in D (names tbl C).
  Proof.
    intros [Hk Hc] Hr; split.
    - intros x Hx; apply In_names in Hx; destruct Hx as [k [_ E]]; apply key_at_some in E; tauto.
    - intros x Ho Hf.
      assert (Hi : incl (tidset D (names tbl C)) (tids_of D x)) by (apply tidset_incl_iff, Hf).
      destruct (key_at_ex x Ho) as [k Ek].
      { eapply reaches_mono; [|exact Hr]; rewrite <- !length_tidset.
        apply NoDup_incl_length; [apply NoDup_tidset | exact Hi]. }
      apply In_names; exists k; split; [|exact Ek].
      pose proof (key_at_some _ _ Ek) as [_ [Hl [E _]]].
      apply Hc; [apply In_keys, Hl|]; rewrite tset_names, E; [exact Hi | exact Hk].
  Qed.
  Definition index_set (X : list A) : list nat :=
    filter (fun k => match key_at k with Some x => mem x X | None => false end) (keys tab).
  Lemma index_set_spec X : (forall x, In x X -> occurs D x) -> reach (support D X) = true ->
    incl (index_set X) (keys tab) /\ same_set (names tbl (index_set X)) X.
  Proof.
    intros Ho Hr; split; [intros k Hk; apply filter_In in Hk; tauto|]; split; intros x Hx.
    - apply In_names in Hx; destruct Hx as [k [Hk E]]; apply filter_In in Hk.
      rewrite E in Hk; apply mem_In; tauto.
    - destruct (key_at_ex x (Ho x Hx)) as [k Ek].
      { eapply reaches_mono; [|exact Hr]; apply support_anti; intros y [<-|[]]; exact Hx. }
      apply In_names; exists k; split; [|exact Ek]; apply filter_In; split.
      + apply In_keys; apply key_at_some in Ek; tauto.
      + rewrite Ek; apply mem_In, Hx.
  Qed.
  Lemma tidset_ext X Y : same_set X Y -> tidset D X = tidset D Y.
  Proof.
    intros [H1 H2]; apply filter_ext_In; intros i _; apply eq_true_iff_eq; rewrite !subset_incl.
    split; intros Hi; eapply incl_tran; eassumption.
  Qed.
  Lemma support_ext X Y : same_set X Y -> support D X = support D Y.
  Proof. intros Hs; rewrite <- !length_tidset, (tidset_ext X Y Hs); reflexivity. Qed.
  Lemma closed_index X : closed_in D X -> reach (support D X) = true -> closed tab U (index_set X).
  Proof.
    intros [Ho Hc] Hr; destruct (index_set_spec X Ho Hr) as [Hk Hs].
    split; [exact Hk|]; intros k Hkk Hi; apply filter_In; split; [exact Hkk|].
    apply In_keys in Hkk; destruct (key_at_lt k Hkk) as [x Ex]; rewrite Ex; apply mem_In.
    pose proof (key_at_some _ _ Ex) as [_ [_ [E [Hox _]]]].
    apply Hc; [exact Hox|]; apply tidset_incl_iff.
    rewrite tset_names, (tidset_ext _ _ Hs), E in Hi; [exact Hi | exact Hk].
  Qed.

  (* ------------------------------------------------------------ LCM *)
  Notation nodes := (all_nodes reach tab).
  Lemma nodes_flat : nodes = flat_map (explore reach tab) (seq 0 (length tbl)).
  Proof. unfold all_nodes, keys; rewrite map_length; reflexivity. Qed.

  Lemma node_sound C ts : In (C, ts) nodes ->
    let X := names tbl C in
    NoDup X /\ X <> [] /\ ts = tidset D X /\ length ts = support D X /\
    reach (support D X) = true /\ closed_in D X /\ length X = length C.
  Proof.
    intros Hin X.
    destruct (all_sound reach tab U tab_ok tab_freq C ts Hin)
      as [Et [Hc [Hne [Nd Hr]]]].
    assert (Et' : ts = tidset D X) by (rewrite Et; apply tset_names, Hc).
    assert (Hl : length ts = support D X) by (rewrite Et'; apply length_tidset).
    assert (HX : length X = length C) by (apply names_length, Hc).
    assert (Hr' : reach (support D X) = true) by (rewrite <- Hl; exact Hr).
    repeat match goal with |- _ /\ _ => split end; auto.
    - apply names_NoDup, Nd.
    - intros E; rewrite E in HX; destruct C; [congruence | discriminate].
    - apply closed_names; assumption.
  Qed.
  Lemma node_complete X : X <> [] -> closed_in D X -> reach (support D X) = true ->
    exists C, In (C, tidset D X) nodes /\ same_set (names tbl C) X.
  Proof.
    intros Hne Hc Hr; destruct (index_set_spec X (proj1 Hc) Hr) as [Hk Hs].
    pose proof (closed_index X Hc Hr) as Hci.
    assert (Et : tset tab U (index_set X) = tidset D X).
    { rewrite tset_names by exact Hk; apply tidset_ext, Hs. }
    destruct (all_complete reach tab U (reaches_mono ms n) (seq_NoDup _ _) tab_ok tab_freq (index_set X))
      as [C [HC Hsc]].
    - exact Hci.
    - destruct X as [|x X]; [congruence|]; intros E.
      assert (Hx : In x (names tbl (index_set (x :: X)))) by (apply Hs; left; reflexivity).
      rewrite E in Hx; destruct Hx.
    - rewrite Et, length_tidset; exact Hr.
    - exists C; rewrite (tset_ext tab U C _ Hsc), Et in HC; split; [exact HC|].
      eapply same_set_trans; [|exact Hs]; split; apply names_mono; apply Hsc.
  Qed.
  Lemma node_keys C ts : In (C, ts) nodes -> incl C (keys tab).
  Proof.
    intros Hin; destruct (all_sound reach tab U tab_ok tab_freq C ts Hin) as [_ [Hc _]].
    apply Hc.
  Qed.
  Lemma node_unique : ForallOrdPairs (fun e f => ~ same_set (names tbl (fst e)) (names tbl (fst f))) nodes.
  Proof.
    eapply FOP_impl; [|apply (all_unique reach tab U); [apply tab_ok | apply tab_freq]].
    intros [C ts] [C' ts'] Hin Hin' Hn [S1 S2]; apply Hn; simpl in *.
    split; eapply names_incl; eauto using node_keys.
  Qed.

  Definition schedule (sched : list nat) : Prop := Permutation sched (seq 0 (length tbl)).
  Lemma schedule_covers sched : schedule sched -> forall k, k < length tbl -> In k sched.
  Proof.
    intros Hs k Hk; apply (Permutation_in _ (Permutation_sym Hs)), in_seq; lia.
  Qed.

  Lemma transform_eq lexico ml sched : schedule sched ->
    transform leA ms n tbl lexico ml sched
    = filter (fun r => length_ok ml (r_items r)) (map (mk_row leA tbl lexico) nodes).
  Proof.
    intros Hs; unfold transform; rewrite gather_parallel by (apply schedule_covers, Hs).
    rewrite nodes_flat, map_flat_map, filter_flat_map; reflexivity.
  Qed.

  Lemma out_items_same lexico X : same_set (out_items leA lexico X) X.
  Proof.
    unfold out_items; destruct lexico; [|apply same_set_refl].
    split; intros x Hx; apply In_sort in Hx || apply In_sort; exact Hx.
  Qed.
  Lemma out_items_NoDup lexico X : NoDup X -> NoDup (out_items leA lexico X).
  Proof. unfold out_items; destruct lexico; [apply NoDup_sort | auto]. Qed.
  Lemma out_items_length lexico X : length (out_items leA lexico X) = length X.
  Proof. unfold out_items; destruct lexico; [apply length_sort | reflexivity]. Qed.

  Lemma closed_ext X Y : same_set X Y -> closed_in D X -> closed_in D Y.
  Proof.
    intros [S1 S2] [Ho Hc]; split.
    - intros x Hx; apply Ho, S2, Hx.
    - intros x Hx Hf; apply S1, Hc; [exact Hx|]; intros t Ht Hi; apply Hf; [exact Ht|].
      eapply incl_tran; eassumption.
  Qed.

  Lemma lcm_sound lexico ml sched r : schedule sched ->
    In r (transform leA ms n tbl lexico ml sched) ->
    NoDup (r_items r) /\ r_items r <> [] /\ r_supp r = support D (r_items r)
    /\ r_tids r = tidset D (r_items r) /\ reach (r_supp r) = true /\ closed_in D (r_items r).
  Proof.
    intros Hs Hin; rewrite transform_eq in Hin by exact Hs.
    apply filter_In in Hin; destruct Hin as [Hin _].
    apply in_map_iff in Hin; destruct Hin as [[C ts] [<- Hin]]; simpl.
    destruct (node_sound C ts Hin) as [Nd [Hne [Et [El [Hr [Hc HX]]]]]].
    pose proof (out_items_same lexico (names tbl C)) as Hsame.
    repeat match goal with |- _ /\ _ => split end.
    - apply out_items_NoDup, Nd.
    - intros E; assert (L : length (out_items leA lexico (names tbl C)) = 0) by (rewrite E; reflexivity).
      rewrite out_items_length in L; destruct (names tbl C); [congruence | discriminate].
    - rewrite (support_ext _ _ Hsame); exact El.
    - rewrite (tidset_ext _ _ Hsame); exact Et.
    - rewrite El; exact Hr.
    - eapply closed_ext; [apply same_set_sym, Hsame | exact Hc].
  Qed.
  Lemma lcm_complete lexico sched X : schedule sched ->
    X <> [] -> closed_in D X -> reach (support D X) = true ->
    exists r, In r (transform leA ms n tbl lexico (-1) sched) /\ same_set (r_items r) X.
  Proof.
    intros Hs Hne Hc Hr; destruct (node_complete X Hne Hc Hr) as [C [HC Hsame]].
    exists (mk_row leA tbl lexico (C, tidset D X)); split.
    - rewrite transform_eq by exact Hs; apply filter_In; split.
      + apply in_map, HC.
      + unfold length_ok; rewrite Z.eqb_refl, orb_true_r; reflexivity.
    - simpl; eapply same_set_trans; [apply out_items_same | exact Hsame].
  Qed.
  Lemma lcm_unique lexico ml sched : schedule sched ->
    ForallOrdPairs (fun r r' => ~ same_set (r_items r) (r_items r'))
                   (transform leA ms n tbl lexico ml sched).
  Proof.
    intros Hs; rewrite transform_eq by exact Hs; apply FOP_filter, FOP_map.
    eapply FOP_impl; [|apply node_unique].
    intros e f _ _ Hn Hsame; apply Hn; simpl in Hsame.
    eapply same_set_trans; [apply same_set_sym, (out_items_same lexico)|].
    eapply same_set_trans; [exact Hsame | apply out_items_same].
  Qed.
  Lemma lcm_max_length lexico ml sched : schedule sched ->
    transform leA ms n tbl lexico ml sched
    = filter (fun r => length_ok ml (r_items r)) (transform leA ms n tbl lexico (-1) sched).
  Proof.
    intros Hs; rewrite !transform_eq by exact Hs.
    induction (map (mk_row leA tbl lexico) nodes) as [|r l IH]; simpl; [reflexivity|].
    assert (E : length_ok (-1) (r_items r) = true)
      by (unfold length_ok; rewrite Z.eqb_refl, orb_true_r; reflexivity).
    rewrite E; simpl; destruct (length_ok ml (r_items r)); rewrite IH; reflexivity.
  Qed.

  (* --------------------------------------------------------- LCMMax *)
  Notation mnodes := (all_max reach tab).
  Definition freq (X : list A) : Prop := reach (support D X) = true.

  (* every frequent itemset over D extends to a maximal one *)
  Definition all_items : list A := dkeys (vertical D).
  Lemma all_items_In x : In x all_items <-> occurs D x.
  Proof. apply vertical_keys. Qed.
  Lemma maximal_ext : forall m X, (forall x, In x X -> occurs D x) -> freq X ->
    length (diff all_items X) <= m ->
    exists Y, incl X Y /\ maximal_such freq D Y.
  Proof.
    induction m as [|m IH]; intros X Ho Hf Hm.
    - exists X; split; [apply incl_refl|]; split; [exact Hf|]; split; [exact Ho|].
      intros Y HY _ _ y Hy; destruct (mem_spec y X) as [|Hn]; [assumption|].
      assert (Hd : In y (diff all_items X)) by (apply In_diff; rewrite all_items_In; auto).
      destruct (diff all_items X); [destruct Hd | simpl in Hm; lia].
    - destruct (existsb (fun x => reach (support D (x :: X))) (diff all_items X)) eqn:E.
      + apply existsb_exists in E; destruct E as [x [Hx Hr]]; apply In_diff in Hx.
        rewrite all_items_In in Hx.
        destruct (IH (x :: X)) as [Y [HY1 HY2]].
        * intros y [<-|Hy]; [tauto | auto].
        * exact Hr.
        * assert (Hd : length (diff all_items (x :: X)) < length (diff all_items X)).
          { apply NoDup_incl_length_lt with (x := x).
            - apply NoDup_diff, vertical_NoDup.
            - intros y Hy; apply In_diff in Hy; apply In_diff; simpl in Hy; tauto.
            - apply In_diff; rewrite all_items_In; tauto.
            - intros Hc; apply In_diff in Hc; apply Hc; left; reflexivity. }
          lia.
        * exists Y; split; [|exact HY2]; intros y Hy; apply HY1; right; exact Hy.
      + exists X; split; [apply incl_refl|]; split; [exact Hf|]; split; [exact Ho|].
        intros Y HY Hi HfY y Hy; destruct (mem_spec y X) as [|Hn]; [assumption|].
        rewrite existsb_false_iff in E.
        assert (Hd : In y (diff all_items X)) by (apply In_diff; rewrite all_items_In; auto).
        specialize (E y Hd); unfold freq in HfY.
        rewrite (reaches_mono ms n (support D Y)) in E; [discriminate | | exact HfY].
        apply support_anti; intros z [<-|Hz]; auto.
  Qed.

  Lemma maximal_closed X : maximal_such freq D X -> closed_in D X.
  Proof.
    intros [Hf [Ho Hm]]; split; [exact Ho|]; intros x Hx Hall.
    apply (Hm (x :: X)); [intros y [<-|Hy]; auto | intros y Hy; right; exact Hy | | left; reflexivity].
    unfold freq in *; replace (support D (x :: X)) with (support D X); [exact Hf|].
    unfold support; f_equal; apply filter_ext_In; intros t Ht; apply eq_true_iff_eq.
    rewrite !subset_incl; split.
    - intros Hi y [<-|Hy]; [apply Hall; assumption | apply Hi, Hy].
    - intros Hi y Hy; apply Hi; right; exact Hy.
  Qed.

  Lemma mnode_complete X : X <> [] -> maximal_such freq D X ->
    exists C, In (C, tidset D X) mnodes /\ same_set (names tbl C) X.
  Proof.
    intros Hne Hmx; pose proof (maximal_closed X Hmx) as Hc; destruct Hmx as [Hr [_ Hm]].
    destruct (index_set_spec X (proj1 Hc) Hr) as [Hk Hs].
    pose proof (closed_index X Hc Hr) as Hci.
    assert (Et : tset tab U (index_set X) = tidset D X).
    { rewrite tset_names by exact Hk; apply tidset_ext, Hs. }
    destruct (all_max_keeps reach tab U (reaches_mono ms n) (seq_NoDup _ _) tab_ok tab_freq (index_set X))
      as [C [HC Hsc]].
    - exact Hci.
    - destruct X as [|x X]; [congruence|]; intros E.
      assert (Hx : In x (names tbl (index_set (x :: X)))) by (apply Hs; left; reflexivity).
      rewrite E in Hx; destruct Hx.
    - rewrite Et, length_tidset; exact Hr.
    - intros k Hkk Hrk; assert (Hk2 : incl (k :: index_set X) (keys tab)).
      { intros j [<-|Hj]; auto. }
      rewrite (tset_names (k :: index_set X) Hk2), length_tidset in Hrk.
      eapply (names_incl (k :: index_set X)); [exact Hk2 | | left; reflexivity].
      eapply incl_tran; [|apply Hs].
      apply Hm; [| |exact Hrk].
      + intros y Hy; apply In_names in Hy; destruct Hy as [j [_ Ej]]; apply key_at_some in Ej; tauto.
      + eapply incl_tran; [apply Hs|]; apply names_mono; intros j Hj; right; exact Hj.
    - exists C; rewrite (tset_ext tab U C _ Hsc), Et in HC; split; [exact HC|].
      eapply same_set_trans; [|exact Hs]; split; apply names_mono; apply Hsc.
  Qed.
  Lemma mnode_incl : incl mnodes nodes.
  Proof. apply (all_max_incl reach tab U); [apply tab_ok | apply tab_freq]. Qed.
  Lemma mnode_unique : ForallOrdPairs (fun e f => ~ same_set (names tbl (fst e)) (names tbl (fst f))) mnodes.
  Proof.
    eapply FOP_impl; [|apply (all_max_unique reach tab U); [apply tab_ok | apply tab_freq]].
    intros [C ts] [C' ts'] Hin Hin' Hn [S1 S2]; apply Hn; simpl in *.
    apply mnode_incl in Hin; apply mnode_incl in Hin'.
    split; eapply names_incl; eauto using node_keys.
  Qed.

  Definition max_cut (ml : Z) (r : row A) : bool :=
    (ml =? -1)%Z || (Z.of_nat (length (r_items r)) <=? ml)%Z.

  Lemma transform_max_eq lexico ml sched : schedule sched ->
    let rows := map (max_row tbl) mnodes in
    transform_max leA ms n tbl lexico ml sched
    = map (fun r => {| r_items := out_items leA lexico (r_items r); r_supp := r_supp r; r_tids := r_tids r |})
          (filter (max_cut ml) (filter (fun r => maximalb (map r_items rows) (r_items r)) rows)).
  Proof.
    intros Hs rows; unfold transform_max.
    rewrite gather_parallel by (apply schedule_covers, Hs).
    assert (E : flat_map (root_rows_max ms n tbl) (seq 0 (length tbl)) = rows).
    { unfold rows, all_max, keys; rewrite map_length, map_flat_map; reflexivity. }
    rewrite E; clear E.
    assert (E : filter (fun r => existsb (seteq (r_items r)) (filter_maximal (map r_items rows))) rows
                = filter (fun r => maximalb (map r_items rows) (r_items r)) rows).
    { apply filter_ext_In; intros r Hr; apply eq_true_iff_eq; rewrite existsb_exists, maximalb_spec; split.
      - intros [m [Hm E]]; apply seteq_spec in E; apply filter_maximal_In in Hm; destruct Hm as [_ Hm].
        intros e He Hi; eapply incl_tran; [|apply E]; apply Hm; [exact He|].
        eapply incl_tran; [apply E | exact Hi].
      - intros Hm; exists (r_items r); split; [|apply seteq_spec; split; apply incl_refl].
        apply filter_maximal_In; split; [apply in_map, Hr | exact Hm]. }
    rewrite E; clear E; f_equal.
    set (l := filter (fun r => maximalb (map r_items rows) (r_items r)) rows).
    assert (Hl : forall r, In r l -> NoDup (r_items r)).
    { intros r Hr; apply filter_In in Hr; destruct Hr as [Hr _].
      apply in_map_iff in Hr; destruct Hr as [[C ts] [<- Hin]]; simpl.
      apply mnode_incl, node_sound in Hin; apply Hin. }
    unfold max_cut; destruct (ml =? -1)%Z eqn:E; simpl.
    - clear Hl; induction l as [|r l IH]; simpl; [reflexivity | f_equal; exact IH].
    - apply filter_ext_In; intros r Hr; rewrite card_NoDup; auto.
  Qed.

  Lemma max_rows_maximal C ts : In (C, ts) mnodes ->
    maximalb (map r_items (map (max_row tbl) mnodes)) (names tbl C) = true <->
    maximal_such freq D (names tbl C).
  Proof.
    intros Hin; rewrite maximalb_spec; unfold is_maximal_in; split.
    - intros Hm.
      assert (Hin' := Hin); apply mnode_incl, node_sound in Hin'.
      destruct Hin' as [_ [Hne [_ [_ [Hr [[Ho _] _]]]]]].
      destruct (maximal_ext (length (diff all_items (names tbl C))) (names tbl C) Ho Hr (le_n _))
        as [Y [Hi HY]].
      assert (HYne : Y <> []).
      { intros ->; destruct (names tbl C) as [|x l]; [congruence | apply (Hi x); left; reflexivity]. }
      destruct (mnode_complete Y HYne HY) as [C' [HC' Hs]].
      assert (Hback : incl (names tbl C') (names tbl C)).
      { apply Hm; [|eapply incl_tran; [exact Hi | apply Hs]].
        rewrite map_map; apply in_map_iff; exists (C', tidset D Y); split; [reflexivity | exact HC']. }
      destruct HY as [HY1 [HY2 HY3]]; split; [exact Hr|]; split; [exact Ho|].
      intros Z HZ HiZ HfZ; eapply incl_tran; [|exact Hback].
      eapply incl_tran; [|apply Hs].
      apply HY3; [exact HZ | | exact HfZ].
      eapply incl_tran; [apply Hs|]; eapply incl_tran; eassumption.
    - intros [Hf [Ho Hm]] e He Hi; rewrite map_map in He; apply in_map_iff in He.
      destruct He as [[C' ts'] [<- HC']]; simpl in *.
      apply mnode_incl, node_sound in HC'; destruct HC' as [_ [_ [_ [_ [Hr [[Ho' _] _]]]]]].
      apply Hm; assumption.
  Qed.

  Lemma lcmmax_rows lexico ml sched r : schedule sched ->
    In r (transform_max leA ms n tbl lexico ml sched) ->
    NoDup (r_items r) /\ r_items r <> [] /\ r_supp r = support D (r_items r)
    /\ r_tids r = tidset D (r_items r) /\ maximal_such freq D (r_items r)
    /\ (ml = (-1)%Z \/ (Z.of_nat (length (r_items r)) <= ml)%Z).
  Proof.
    intros Hs Hin; rewrite transform_max_eq in Hin by exact Hs.
    apply in_map_iff in Hin; destruct Hin as [r0 [<- Hin]]; simpl.
    apply filter_In in Hin; destruct Hin as [Hin Hcut].
    apply filter_In in Hin; destruct Hin as [Hin Hmax].
    apply in_map_iff in Hin; destruct Hin as [[C ts] [<- Hin]]; simpl in *.
    apply (max_rows_maximal C ts Hin) in Hmax.
    apply mnode_incl, node_sound in Hin; destruct Hin as [Nd [Hne [Et [El [Hr [Hc HX]]]]]].
    pose proof (out_items_same lexico (names tbl C)) as Hsame.
    repeat match goal with |- _ /\ _ => split end.
    - apply out_items_NoDup, Nd.
    - intros E; assert (L : length (out_items leA lexico (names tbl C)) = 0) by (rewrite E; reflexivity).
      rewrite out_items_length in L; destruct (names tbl C); [congruence | discriminate].
    - rewrite (support_ext _ _ Hsame); exact El.
    - rewrite (tidset_ext _ _ Hsame); exact Et.
    - destruct Hmax as [M1 [M2 M3]]; split; [|split].
      + unfold freq; rewrite (support_ext _ _ Hsame); exact M1.
      + intros x Hx; apply M2, Hsame, Hx.
      + intros Y HY Hi HfY; eapply incl_tran; [|apply Hsame].
        apply M3; [exact HY | | exact HfY]. eapply incl_tran; [apply Hsame | exact Hi].
    - unfold max_cut in Hcut; simpl in Hcut; rewrite out_items_length.
      apply orb_true_iff in Hcut; rewrite Z.eqb_eq, Z.leb_le in Hcut; tauto.
  Qed.
  Lemma lcmmax_complete lexico ml sched X : schedule sched ->
    X <> [] -> NoDup X -> maximal_such freq D X ->
    (ml = (-1)%Z \/ (Z.of_nat (length X) <= ml)%Z) ->
    exists r, In r (transform_max leA ms n tbl lexico ml sched) /\ same_set (r_items r) X.
  Proof.
    intros Hs Hne Nx Hmx Hml; destruct (mnode_complete X Hne Hmx) as [C [HC Hsame]].
    exists {| r_items := out_items leA lexico (names tbl C); r_supp := length (tidset D X); r_tids := tidset D X |}.
    split; [|simpl; eapply same_set_trans; [apply out_items_same | exact Hsame]].
    rewrite transform_max_eq by exact Hs; apply in_map_iff.
    exists (max_row tbl (C, tidset D X)); split; [reflexivity|].
    apply filter_In; split; [apply filter_In; split|].
    - apply in_map, HC.
    - simpl; apply (max_rows_maximal C (tidset D X) HC).
      destruct Hmx as [M1 [M2 M3]]; split; [|split].
      + unfold freq; rewrite (support_ext _ _ Hsame); exact M1.
      + intros x Hx; apply M2, Hsame, Hx.
      + intros Y HY Hi HfY; eapply incl_tran; [|apply Hsame].
        apply M3; [exact HY | | exact HfY]. eapply incl_tran; [apply Hsame | exact Hi].
    - unfold max_cut; simpl; apply orb_true_iff; rewrite Z.eqb_eq, Z.leb_le.
      destruct Hml as [?|Hml]; [left; assumption | right].
      apply mnode_incl, node_sound in HC; destruct HC as [Nd _].
      assert (length (names tbl C) <= length X) by (apply NoDup_incl_length; [exact Nd | apply Hsame]).
      lia.
  Qed.
  Lemma lcmmax_unique lexico ml sched : schedule sched ->
    ForallOrdPairs (fun r r' => ~ same_set (r_items r) (r_items r'))
                   (transform_max leA ms n tbl lexico ml sched).
  Proof.
    intros Hs; rewrite transform_max_eq by exact Hs; apply FOP_map, FOP_filter, FOP_filter, FOP_map.
    eapply FOP_impl; [|apply mnode_unique].
    intros e f _ _ Hn Hsame; apply Hn; simpl in Hsame.
    eapply same_set_trans; [apply same_set_sym, (out_items_same lexico)|].
    eapply same_set_trans; [exact Hsame | apply out_items_same].
  Qed.
End Lift.
