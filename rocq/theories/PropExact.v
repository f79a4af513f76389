(* C22, C29, C54: what is answered where the full claim fails. *)
From Coq Require Import Permutation.
From Verif Require Import Prelude CheckModel LCMModel LCMProofs ItemsetSpec VerticalProofs LCMLift
  SlimModel SlimProofs SlimInv SlimRun SlimFit SlimUse SlimAppsModel PropSlim.
From Coq Require Import QArith.
Local Open Scope nat_scope.
From Verif Require Import PropSlimApps.

(* ---------------------------------------------------------------------- C22 *)
Section Spec.
  Context {A : Type} `{EqDec A}.
  (* an answer [r] to the question for the items [q] after fits on the data sets [fitted], the last one first:
     each item is looked up in one of these data sets, perhaps not the last one; only the last one decides which
     items are unknown *)
  Definition sound_answer (fitted : list (list (list A))) (q : list A) (r : outcome (list nat)) : Prop :=
    match r with
    | Ret v => q <> [] /\ NoDup v /\ exists Ds, Forall2 (fun x D => In D fitted /\ occurs D x) q Ds /\
                 forall t, In t v <-> Forall2 (fun x D => In x (nth t D [])) q Ds
    | Exn e => (q = [] /\ e = IndexError) \/ (e = KeyError /\ exists x, In x q /\ ~ occurs (hd [] fitted) x)
    | NoFuel => False
    end.
  Fixpoint sound_answers (fitted : list (list (list A))) (ops : list (op A)) (rs : list (outcome (list nat))) : Prop :=
    match ops, rs with
    | [], [] => True
    | Fit D _ :: t, _ => sound_answers (D :: fitted) t rs
    | Query q :: t, r :: rs' => sound_answer fitted q r /\ sound_answers fitted t rs'
    | _, _ => False
    end.
End Spec.

Lemma Forall2_app_one {X Y} (R : X -> Y -> Prop) l l' x y : Forall2 R l l' -> R x y -> Forall2 R (l ++ [x]) (l' ++ [y]).
Proof. intros Hl Hx. apply Forall2_app; [exact Hl | repeat constructor; exact Hx]. Qed.
Lemma Forall2_rev_ {X Y} (R : X -> Y -> Prop) l l' : Forall2 R l l' -> Forall2 R (rev l) (rev l').
Proof. induction 1 as [|x y l l' Hx Hl IH]; [constructor|]. cbn [rev]. apply Forall2_app_one; assumption. Qed.

Section History.
  Context {A : Type} `{EqDec A} (shrink : @cache A -> @cache A) (shrink_incl : forall c : @cache A, incl (shrink c) c).
  Definition mixed (fitted : list (list (list A))) (k : list A) (v : list nat) : Prop :=
    k <> [] /\ NoDup v /\ exists Ds, Forall2 (fun x D => In D fitted /\ occurs D x) k Ds /\
      forall t, In t v <-> Forall2 (fun x D => In x (nth t D [])) k Ds.
  Definition stale (fitted : list (list (list A))) (c : @cache A) : Prop := forall k v, In (k, v) c -> mixed fitted k v.
  (* the table belongs to the data *)
  Record table_of (D : list (list A)) (std : dict A (list nat)) : Prop := {
    to_keys : forall x, In x (dkeys std) <-> occurs D x;
    to_tids : forall x t, In t (tids std x) <-> In x (nth t D []);
    to_nodup : forall x, NoDup (tids std x) }.
  Lemma fit_table D : table_of D (sort more_frequent (vertical D)).
  Proof.
    set (std := sort more_frequent (vertical D)).
    assert (Htids : forall x, tids std x = tids (vertical D) x).
    { intros x; unfold tids; rewrite (dget_perm std (vertical D) x); [reflexivity | apply sort_perm|].
      eapply Permutation_NoDup; [symmetry; apply sort_dkeys_perm | apply vertical_NoDup]. }
    destruct (to_dict_ok (Trans D) [] (conj (NoDup_nil _) I)) as [_ [V2 [_ V4]]]; simpl in V2, V4.
    split.
    - intros x; rewrite <- vertical_keys; split; apply Permutation_in; [|symmetry]; apply sort_dkeys_perm.
    - intros x t. rewrite Htids. apply V4.
    - intros x; rewrite Htids; unfold tids; destruct (dget (vertical D) x) as [v|] eqn:E; [apply (V2 x), dget_In, E | constructor].
  Qed.
  Lemma mixed_more D fitted k v : mixed fitted k v -> mixed (D :: fitted) k v.
  Proof.
    intros (Hk & Hv & Ds & F & E). split; [exact Hk|]. split; [exact Hv|]. exists Ds. split; [|exact E].
    clear -F. induction F as [|x y l l' [Hx Ho] Hl IH]; constructor; [split; [right; exact Hx | exact Ho] | exact IH].
  Qed.
  Lemma support_mixed D fitted std : In D fitted \/ fitted = [] /\ D = [] -> table_of D std -> forall r c, stale fitted c ->
    match get_support shrink std r c with
    | Ret (v, c') => mixed fitted r v /\ stale fitted c'
    | Exn e => (r = [] /\ e = IndexError) \/ (e = KeyError /\ exists x, In x r /\ ~ occurs D x)
    | NoFuel => False
    end.
  Proof.
    intros HD HT; induction r as [|a r IH]; intros c Hv; simpl.
    - destruct (cached c []) as [v|] eqn:E; [|auto]. apply cached_In, Hv in E; split; [exact E | exact Hv].
    - destruct (cached c (a :: r)) as [v|] eqn:E; [apply cached_In, Hv in E; split; [exact E | exact Hv]|].
      destruct (dget std a) as [u|] eqn:Ea.
      2:{ right; split; [reflexivity|]. exists a. split; [left; reflexivity|]. intros Ho. apply (to_keys _ _ HT) in Ho. apply dget_None in Ea. contradiction. }
      assert (Hu : tids std a = u) by (unfold tids; rewrite Ea; reflexivity).
      assert (Ha : occurs D a) by (apply (to_keys _ _ HT), dget_Some_key; eauto).
      assert (HDf : In D fitted).
      { destruct HD as [HD|[_ ->]]; [exact HD|]. exfalso. destruct Ha as (t & Ht & _). destruct Ht. }
      assert (Hun : NoDup u) by (rewrite <- Hu; apply (to_nodup _ _ HT)).
      destruct r as [|b r].
      + assert (Hh : mixed fitted [a] u).
        { split; [discriminate|]. split; [exact Hun|]. exists [D]. split; [repeat constructor; assumption|]. intros t. rewrite <- Hu, (to_tids _ _ HT). split.
          - intros Hi. repeat constructor. exact Hi.
          - intros F. inversion F; subst. assumption. }
        split; [exact Hh|]; intros k v Hin; apply shrink_incl in Hin; destruct Hin as [Ekv|Hin]; [injection Ekv as <- <-; exact Hh | apply Hv, Hin].
      + specialize (IH c Hv); destruct (get_support shrink std (b :: r) c) as [[v c']|e|]; cbn [bind].
        * destruct IH as [(_ & Hnd & Ds & F & Ht) Hv'].
          assert (Hh : mixed fitted (a :: b :: r) (inter u v)).
          { split; [discriminate|]. split; [apply NoDup_inter; exact Hun|]. exists (D :: Ds). split; [constructor; [split; assumption | exact F]|].
            intros t. rewrite In_inter, Ht, <- Hu, (to_tids _ _ HT). split.
            - intros [H1 H2]. constructor; assumption.
            - intros F'. inversion F'; subst. split; assumption. }
          split; [exact Hh|]; intros k w Hin; apply shrink_incl in Hin; destruct Hin as [Ekv|Hin]; [injection Ekv as <- <-; exact Hh | apply Hv', Hin].
        * destruct IH as [[E' _]|[-> (x & Hx & Hn)]]; [discriminate|]. right. split; [reflexivity|]. exists x. split; [right; exact Hx | exact Hn].
        * exact IH.
  Qed.
  Lemma ask_all_mixed D fitted std : In D fitted \/ fitted = [] /\ D = [] -> table_of D std -> forall qs c, stale fitted c -> stale fitted (ask_all shrink std qs c).
  Proof.
    intros HD HT; induction qs as [|q qs IH]; intros c Hv; simpl; [exact Hv|].
    pose proof (support_mixed D fitted std HD HT (rev q) c Hv) as Hs.
    destruct (get_support shrink std (rev q) c) as [[v c']|e|]; apply IH; [exact (proj2 Hs) | exact Hv | exact Hv].
  Qed.
  Lemma history_mixed : forall ops D fitted std c, In D fitted \/ fitted = [] /\ D = [] -> hd [] fitted = D -> table_of D std -> stale fitted c ->
    sound_answers fitted ops (history shrink ops std c).
  Proof.
    induction ops as [|[D' qs|q] ops IH]; intros D fitted std c HD Hhd HT Hv; cbn [history sound_answers]; [exact I| |].
    - apply (IH D'); [left; left; reflexivity | reflexivity | apply fit_table|].
      apply (ask_all_mixed D'); [left; left; reflexivity | apply fit_table|]. intros k v Hin. apply mixed_more, Hv, Hin.
    - pose proof (support_mixed D fitted std HD HT (rev q) c Hv) as Hs.
      destruct (get_support shrink std (rev q) c) as [[v c']|e|]; [| |destruct Hs].
      + destruct Hs as [(Hk & Hnd & Ds & F & Ht) Hc]. split; [|apply (IH D); assumption]. cbn [sound_answer].
        split; [intros ->; apply Hk; reflexivity|]. split; [exact Hnd|]. exists (rev Ds). split.
        * apply Forall2_rev_ in F. rewrite rev_involutive in F. exact F.
        * intros t. rewrite Ht. split; intros F'; apply Forall2_rev_ in F'; rewrite ?rev_involutive in F'; exact F'.
      + split; [|apply (IH D); assumption]. cbn [sound_answer]. rewrite Hhd. destruct Hs as [[E ->]|[-> (x & Hx & Hn)]]; [left | right].
        * split; [|reflexivity]. rewrite <- (rev_involutive q), E. reflexivity.
        * split; [reflexivity|]. exists x. split; [apply in_rev, Hx | exact Hn].
  Qed.
End History.
(* in every history of fits and questions, whatever the cache keeps *)
Theorem C22_history : forall (A : Type) (HA : EqDec A) (shrink : @cache A -> @cache A), (forall c, incl (shrink c) c) ->
  forall ops, sound_answers [] ops (history shrink ops [] []).
Proof.
  intros A HA shrink Hs ops. apply (history_mixed shrink Hs ops [] [] [] []); [right; split; reflexivity | reflexivity | | intros k v []].
  exact (fit_table []).
Qed.
Print Assumptions C22_history.
(* the answer for two items after a second fit: 1 as in the first data, 2 as in the second *)
Example C22_history_case : history (fun c => c) [Fit [[1]; [1; 3]; [2]] []; Fit [[2]; [2; 4]; [1]] []; Query [1; 4]; Query [1; 3]; Query []] [] [] =
  [Ret [1]; Exn KeyError; Exn IndexError].
Proof. vm_compute. reflexivity. Qed.

(* ---------------------------------------------------------------------- C29 *)
From Verif Require Import ArrayModel PropArray.
(* position [i] is the first one of the array whose row begins with the first value of [r], and the row there is [r] *)
Definition leads {A} (ar : list (list A)) (i : nat) (r : list A) : Prop :=
  nth_error ar i = Some r /\ forall k r', k < i -> nth_error ar k = Some r' -> hd_error r' <> hd_error r.
(* a common row is found exactly when it leads in both arrays *)
Theorem C29_exact : forall (A : Type) (HA : EqDec A) (leA : A -> A -> bool),
  (forall a b, leA a b = true \/ leA b a = true) -> (forall a b c, leA a b = true -> leA b c = true -> leA a c = true) ->
  forall ar1 ar2, (forall r, In r (ar1 ++ ar2) -> r <> []) ->
  exists res, intersect2d leA ar1 ar2 = Ret res /\ NoDup res /\
    forall r i j, In (r, (i, j)) res <-> leads ar1 i r /\ leads ar2 j r.
Proof.
  intros A HA leA le_total le_trans ar1 ar2 Hr.
  destruct (first_column_spec ar1) as [c1 [E1 [L1 N1]]]; [intros r Hin; apply Hr, in_or_app; left; exact Hin|].
  destruct (first_column_spec ar2) as [c2 [E2 [L2 N2]]]; [intros r Hin; apply Hr, in_or_app; right; exact Hin|].
  unfold intersect2d; rewrite E1, E2; eexists; split; [reflexivity|].
  destruct (np_unique_spec leA le_total le_trans c1) as [Hs Hu].
  assert (Hnu : NoDup (np_unique leA c1)).
  { clear -Hs. induction Hs as [|a l Hl IH Ha]; constructor; [|exact IH]. intros Hin. rewrite Forall_forall in Ha. destruct (Ha a Hin) as [_ F]. apply F. reflexivity. }
  assert (Hlead : forall ar c v, (forall i, nth_error c i = match nth_error ar i with Some r => hd_error r | None => None end) ->
            In v c -> exists r, leads ar (first_index v c) r /\ hd_error r = Some v).
  { intros ar c v N Hv. destruct (first_index_spec v c Hv) as [F1 F2]. rewrite N in F1.
    destruct (nth_error ar (first_index v c)) as [r|] eqn:G; [|discriminate]. exists r. split; [|exact F1]. split; [exact G|].
    intros k r' Hk Ek E. apply (F2 k Hk). rewrite N, Ek, E. exact F1. }
  assert (Hfun : forall ar i i' (r r' : list A), leads ar i r -> leads ar i' r' -> hd_error r = hd_error r' -> i = i' /\ r = r').
  { intros ar i i' r r' [A1 A2] [B1 B2] E. destruct (Nat.lt_trichotomy i i') as [Hl|[->|Hl]].
    - destruct (B2 i r Hl A1 E).
    - split; congruence.
    - destruct (A2 i' r' Hl B1). symmetry; exact E. }
  assert (Hsel : forall v i j, In (v, (i, j)) (intersect1d leA c1 c2) <-> In v c1 /\ In v c2 /\ i = first_index v c1 /\ j = first_index v c2).
  { intros v i j. unfold intersect1d. rewrite in_map_iff. split.
    - intros (v' & E & Hv). injection E as -> <- <-. apply filter_In in Hv. destruct Hv as [H1 H2]. apply Hu in H1. apply mem_In in H2. auto.
    - intros (H1 & H2 & -> & ->). exists v. split; [reflexivity|]. apply filter_In. split; [apply Hu, H1 | apply mem_In, H2]. }
  split.
  - assert (Hn : NoDup (map fst (filter (fun p : A * (nat * nat) => eqd (nth (fst (snd p)) ar1 []) (nth (snd (snd p)) ar2 [])) (intersect1d leA c1 c2)))).
    { assert (Hf : forall (f : A * (nat * nat) -> bool) l, NoDup (map fst l) -> NoDup (map fst (filter f l))).
      { induction l as [|p l IH]; cbn [map filter]; intros Hl; [constructor|]. inversion Hl as [|? ? H1 H2]; subst.
        destruct (f p); [|apply IH, H2]. cbn [map]. constructor; [|apply IH, H2]. intros Hin. apply H1.
        apply in_map_iff in Hin. destruct Hin as (q & <- & Hq). apply filter_In in Hq. apply in_map, Hq. }
      apply Hf. unfold intersect1d. rewrite map_map. cbn [fst]. rewrite map_id. apply NoDup_filter, Hnu. }
    assert (Hall : forall p, In p (filter (fun p : A * (nat * nat) => eqd (nth (fst (snd p)) ar1 []) (nth (snd (snd p)) ar2 [])) (intersect1d leA c1 c2)) ->
              hd_error (nth (fst (snd p)) ar1 []) = Some (fst p)).
    { intros [v [i j]] Hp. apply filter_In in Hp. destruct Hp as [Hp _]. apply Hsel in Hp. destruct Hp as (H1 & _ & -> & _).
      destruct (Hlead ar1 c1 v N1 H1) as (r & [G _] & Ehd). cbn [fst snd]. rewrite (nth_error_nth _ _ _ G). exact Ehd. }
    revert Hn Hall. generalize (filter (fun p : A * (nat * nat) => eqd (nth (fst (snd p)) ar1 []) (nth (snd (snd p)) ar2 [])) (intersect1d leA c1 c2)).
    induction l as [|p l IH]; intros Hn Hall; cbn [map]; [constructor|]. inversion Hn as [|? ? H1 H2]; subst. constructor; [|apply IH; [exact H2 | intros q Hq; apply Hall; right; exact Hq]].
    intros Hin. apply in_map_iff in Hin. destruct Hin as (q & E & Hq). injection E as E _. apply H1.
    assert (Ef : fst p = fst q) by (pose proof (Hall p (or_introl eq_refl)); pose proof (Hall q (or_intror Hq)); congruence).
    rewrite Ef. apply in_map, Hq.
  - intros r i j. rewrite in_map_iff. split.
    + intros ([v [i' j']] & E & Hin). cbn [fst snd] in E. injection E as Er <- <-. apply filter_In in Hin. destruct Hin as [Hin Heq].
      apply (proj1 (eqd_true _ _)) in Heq. cbn [fst snd] in Heq. apply Hsel in Hin. destruct Hin as (H1 & H2 & -> & ->).
      destruct (Hlead ar1 c1 v N1 H1) as (r1 & G1 & _). destruct (Hlead ar2 c2 v N2 H2) as (r2 & G2 & _).
      rewrite (nth_error_nth _ _ _ (proj1 G1)) in Er, Heq. rewrite (nth_error_nth _ _ _ (proj1 G2)) in Heq. subst. auto.
    + intros [G1 G2]. destruct r as [|v r]; [destruct (Hr [] (in_or_app _ _ _ (or_introl (nth_error_In _ _ (proj1 G1)))) eq_refl)|].
      assert (H1 : In v c1) by (eapply nth_error_In with (n := i); rewrite N1, (proj1 G1); reflexivity).
      assert (H2 : In v c2) by (eapply nth_error_In with (n := j); rewrite N2, (proj1 G2); reflexivity).
      destruct (Hlead ar1 c1 v N1 H1) as (r1 & K1 & Eh1). destruct (Hlead ar2 c2 v N2 H2) as (r2 & K2 & Eh2).
      destruct (Hfun ar1 _ _ _ _ G1 K1 (eq_sym Eh1)) as [-> <-]. destruct (Hfun ar2 _ _ _ _ G2 K2 (eq_sym Eh2)) as [-> <-].
      exists (v, (first_index v c1, first_index v c2)). cbn [fst snd]. rewrite (nth_error_nth _ _ _ (proj1 G1)). split; [reflexivity|].
      apply filter_In. cbn [fst snd]. rewrite (nth_error_nth _ _ _ (proj1 G1)), (nth_error_nth _ _ _ (proj1 G2)). split; [apply Hsel; auto | apply eqd_refl].
Qed.
Print Assumptions C29_exact.
(* the row [1; 2] leads in the first array only *)
Example C29_exact_case : intersect2d Nat.leb [[1; 2]; [3; 4]; [5; 6]] [[5; 6]; [1; 7]; [1; 2]; [3; 4]] = Ret [([3; 4], (1, 3)); ([5; 6], (2, 0))].
Proof. vm_compute. reflexivity. Qed.

(* ---------------------------------------------------------------------- C54 *)
From Verif Require GraphUtilModel PropGraphUtil.
(* For each pattern node, the data nodes met after the first one are counted, and the smallest count is returned. *)
Theorem C54_exact : forall es, PropGraphUtil.pattern_nodes es <> [] ->
  exists m, GraphUtilModel.get_support es = Ret m /\
    (exists p, In p (PropGraphUtil.pattern_nodes es) /\ m = Prelude.card (tl (PropGraphUtil.images p es))) /\
    forall q, In q (PropGraphUtil.pattern_nodes es) -> m <= Prelude.card (tl (PropGraphUtil.images q es)).
Proof.
  intros es Hp. destruct (PropGraphUtil.node_embeddings_keys es) as [Hnd Hk].
  set (counts := map (fun kv => Prelude.card (snd kv)) (GraphUtilModel.node_embeddings es)).
  assert (Hc : forall n, In n counts <-> exists q, In q (PropGraphUtil.pattern_nodes es) /\ n = Prelude.card (tl (PropGraphUtil.images q es))).
  { intros n. unfold counts. rewrite in_map_iff. split.
    - intros ([q t] & E & Hi). cbn [snd] in E. pose proof (VerticalProofs.In_dget _ _ _ Hnd Hi) as Hg. rewrite PropGraphUtil.node_embeddings_spec in Hg.
      exists q. split; [apply Hk; apply (in_map fst) in Hi; exact Hi|].
      destruct (PropGraphUtil.images q es) as [|x u]; [discriminate|]. injection Hg as ->. symmetry; exact E.
    - intros (q & Hq & En). pose proof (PropGraphUtil.node_embeddings_spec es q) as Hg. apply Hk in Hq.
      destruct (PropGraphUtil.images q es) as [|x u] eqn:Ei; [apply VerticalProofs.dget_None in Hg; contradiction|].
      exists (q, u). split; [symmetry; exact En | apply VerticalProofs.dget_In; exact Hg]. }
  assert (Hg : GraphUtilModel.get_support es = GraphUtilModel.min_out counts).
  { unfold GraphUtilModel.get_support. destruct es; [destruct Hp; reflexivity | reflexivity]. }
  destruct counts as [|c cs].
  { exfalso. destruct (PropGraphUtil.pattern_nodes es) as [|p ps] eqn:Ep; [congruence|].
    destruct (proj2 (Hc (Prelude.card (tl (PropGraphUtil.images p es))))). exists p. split; [left; reflexivity | reflexivity]. }
  destruct (PropGraphUtil.fold_min cs c) as [H1 H2]. exists (fold_left Nat.min cs c). split; [exact Hg|]. split.
  - apply Hc in H1. exact H1.
  - intros q Hq. apply H2, Hc. exists q. auto.
Qed.
Print Assumptions C54_exact.
(* without embeddings the support is 0; embeddings without nodes are an error *)
Theorem C54_none : forall es, PropGraphUtil.pattern_nodes es = [] ->
  GraphUtilModel.get_support es = match es with [] => Ret 0 | _ => Exn ValueError end.
Proof.
  intros es Hp. destruct (PropGraphUtil.node_embeddings_keys es) as [_ Hk]. unfold GraphUtilModel.get_support.
  destruct es as [|e es]; [reflexivity|]. destruct (GraphUtilModel.node_embeddings (e :: es)) as [|[k v] d]; [reflexivity|].
  exfalso. specialize (Hk k). rewrite Hp in Hk. apply Hk. left. reflexivity.
Qed.
Print Assumptions C54_none.
Example C54_exact_case : GraphUtilModel.get_support [[(4, 1); (6, 2)]; [(5, 1); (7, 2)]; [(8, 1); (6, 2)]; [(8, 1)]] = Ret 2.
Proof. vm_compute. reflexivity. Qed.
