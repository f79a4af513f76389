(* C60: the GraphMDL search never makes the description longer; C69: it stops. *)
From Coq Require Import QArith.
From Coq Require Import Sorting.Sorted.
Open Scope nat_scope.
From Verif Require Import Prelude CheckModel LCMModel GraphSearchModel.

(* ------------------------------------------------------- specification *)
(* A history of description lengths: starting from [x], each accepted change
   starts at the current length and ends strictly below it; the last is [y]. *)
Fixpoint decreasing_history (x : Q) (h : list (Q * Q)) (y : Q) : Prop :=
  match h with
  | [] => x == y
  | (a, b) :: t => x == a /\ (b < a)%Q /\ decreasing_history b t y
  end%Q.

(* No two positions of a list hold equal candidates. *)
Definition evaluated_once {C} (eq : C -> C -> bool) (l : list C) : Prop :=
  forall i j a b, i < j -> nth_error l i = Some a -> nth_error l j = Some b -> eq a b = false.

Definition state_of {C} (r : res C) : st C :=
  match r with Done s | Raised _ s | Running s => s end.

(* A table is in the order of [_order_rows]. *)
Definition in_order {C} (key : C -> Z * Z) : list (row C) -> Prop :=
  StronglySorted (fun a b => row_leb key a b = true).

(* The description length does not depend on how rows with the same number of
   labels, support and arrival number are placed. *)
Definition ties_harmless {C} (key : C -> Z * Z) (dl : list (row C) -> Q) : Prop :=
  forall a b, Permutation a b -> in_order key a -> in_order key b -> (dl a == dl b)%Q.

(* --------------------------------------------------------------- proofs *)
Lemma history_snoc x h y a b :
  decreasing_history x h y -> (y == a)%Q -> (b < a)%Q -> decreasing_history x (h ++ [(a, b)]) b.
Proof.
  revert x; induction h as [|[u v] t IH]; intros x H E L; cbn in *.
  - split; [rewrite H; exact E|]; split; [exact L | reflexivity].
  - destruct H as [H1 [H2 H3]]; split; [exact H1|]; split; [exact H2|]; apply IH; auto.
Qed.
Lemma history_eq x h y z : decreasing_history x h y -> (y == z)%Q -> decreasing_history x h z.
Proof.
  revert x; induction h as [|[u v] t IH]; intros x H E; cbn in *.
  - rewrite H; exact E.
  - destruct H as [H1 [H2 H3]]; split; [exact H1|]; split; [exact H2|]; apply IH; auto.
Qed.
Lemma history_le x h y : decreasing_history x h y -> (y <= x)%Q.
Proof.
  revert x; induction h as [|[u v] t IH]; intros x H; cbn in *.
  - rewrite H; apply Qle_refl.
  - destruct H as [H1 [H2 H3]]; rewrite H1.
    apply Qle_trans with v; [apply IH, H3 | apply Qlt_le_weak, H2].
Qed.

Lemma row_leb_total {C} key (a b : row C) : row_leb key a b = true \/ row_leb key b a = true.
Proof.
  unfold row_leb; destruct (key (rcand a)) as [la sa], (key (rcand b)) as [lb sb].
  destruct (Z.lt_trichotomy la lb) as [H|[H|H]].
  - right; apply orb_true_iff; left; apply Z.ltb_lt; lia.
  - subst lb; destruct (Z.lt_trichotomy sa sb) as [G|[G|G]].
    + right; apply orb_true_iff; right; rewrite Z.eqb_refl; cbn; apply orb_true_iff; left; apply Z.ltb_lt; lia.
    + subst sb; destruct (Nat.le_ge_cases (arrival a) (arrival b)); [left|right];
        rewrite !Z.eqb_refl; apply orb_true_iff; right; cbn; apply orb_true_iff; right; apply Nat.leb_le; lia.
    + left; apply orb_true_iff; right; rewrite Z.eqb_refl; cbn; apply orb_true_iff; left; apply Z.ltb_lt; lia.
  - left; apply orb_true_iff; left; apply Z.ltb_lt; lia.
Qed.
Lemma row_leb_spec {C} key (a b : row C) : row_leb key a b = true <->
  (fst (key (rcand b)) < fst (key (rcand a)) \/ fst (key (rcand b)) = fst (key (rcand a)) /\
   (snd (key (rcand b)) < snd (key (rcand a)) \/ snd (key (rcand b)) = snd (key (rcand a)) /\
    (Z.of_nat (arrival a) <= Z.of_nat (arrival b))))%Z.
Proof.
  unfold row_leb; destruct (key (rcand a)) as [la sa], (key (rcand b)) as [lb sb]; cbn.
  rewrite orb_true_iff, andb_true_iff, orb_true_iff, andb_true_iff,
    !Z.ltb_lt, !Z.eqb_eq, Nat.leb_le, Nat2Z.inj_le; tauto.
Qed.
Lemma row_leb_trans {C} key (a b c : row C) :
  row_leb key a b = true -> row_leb key b c = true -> row_leb key a c = true.
Proof. rewrite !row_leb_spec; lia. Qed.
Lemma sort_rows_in_order {C} key (l : list (row C)) : in_order key (sort_rows key l).
Proof. apply sort_sorted; [apply row_leb_total | apply row_leb_trans]. Qed.

(* One step of each loop. *)
Section Steps.
  Context {C : Type}.
  Variable candidate_eq : C -> C -> bool.
  Variable generate : list (row C) -> list (row C) -> list C.
  Variable dl : list (row C) -> Q.
  Variable usage : list (row C) -> row C -> Z.
  Variable row_key : C -> Z * Z.
  Variable clock : nat -> Q.
  Variable timeout : option Q.
  Definition next f (o : lres) : res C :=
    match o with
    | Through cur s => search candidate_eq generate dl usage row_key clock timeout f false cur s
    | Left stop cur s => search candidate_eq generate dl usage row_key clock timeout f stop cur s
    | LRaised e s => Raised e s
    | LRunning s => Running s
    end.
  Lemma pruning_loop_S f i s : pruning_loop dl usage row_key (S f) i s =
    match nth_error (pruning_rows s) i with
    | None => Done s
    | Some r =>
      if negb (existsb (same_row r) (rows s)) then Raised ValueError s
      else if negb (Qle_bool (length_ (try_remove usage row_key s r))
                             (dl (rows (try_remove usage row_key s r)))) then
        match pruning_loop dl usage row_key f 0 (keep_removal dl (try_remove usage row_key s r) r) with
        | Done s4 => pruning_loop dl usage row_key f (S i) s4
        | o => o
        end
      else pruning_loop dl usage row_key f (S i) (add_row row_key (try_remove usage row_key s r) r)
    end.
  Proof. reflexivity. Qed.
  Lemma candidate_loop_cons f all c rest cur s :
    candidate_loop candidate_eq dl usage row_key clock timeout f all (c :: rest) cur s =
    if existsb (fun x => candidate_eq x c) (already_test s) then LRaised TypeError s
    else match timeout with
    | None => evaluate dl usage row_key timeout f (index_of candidate_eq all c =? length all - 1) c cur s
                (candidate_loop candidate_eq dl usage row_key clock timeout f all rest cur)
    | Some t =>
        if Qle_bool t (clock (ticks s))
        then Left false (clock (ticks s)) (graph_mdl_end dl usage (set_ticks s (S (ticks s))))
        else evaluate dl usage row_key timeout f (index_of candidate_eq all c =? length all - 1) c
               (clock (ticks s)) (set_ticks s (S (ticks s)))
               (candidate_loop candidate_eq dl usage row_key clock timeout f all rest (clock (ticks s)))
    end.
  Proof. reflexivity. Qed.
  Lemma search_S f stop cur s :
    search candidate_eq generate dl usage row_key clock timeout (S f) stop cur s =
    if stop then Done s
    else match timeout with
    | None => next f (round candidate_eq generate dl usage row_key clock timeout f cur s)
    | Some t =>
        if negb (Qle_bool cur t) then Done s
        else if Qle_bool t (clock (ticks s)) then Done (graph_mdl_end dl usage (set_ticks s (S (ticks s))))
        else next f (round candidate_eq generate dl usage row_key clock timeout f
                       (clock (ticks s)) (set_ticks s (S (ticks s))))
    end.
  Proof. reflexivity. Qed.
  Lemma insert_tested s c r s3 : insert_candidate usage row_key s c = (r, s3) ->
    already_test s3 = already_test s ++ [c] /\ accepted s3 = accepted s.
  Proof. intros E; injection E as E1 E2; subst s3; split; reflexivity. Qed.
End Steps.

Section Proofs.
  Context {C : Type}.
  Variable candidate_eq : C -> C -> bool.
  Variable generate : list (row C) -> list (row C) -> list C.
  Variable dl : list (row C) -> Q.
  Variable usage : list (row C) -> row C -> Z.
  Variable row_key : C -> Z * Z.
  Variable clock : nat -> Q.
  Variable timeout : option Q.

  Notation pruning_loop := (pruning_loop dl usage row_key).
  Notation pruning := (pruning dl usage row_key).
  Notation candidate_loop := (candidate_loop candidate_eq dl usage row_key clock timeout).
  Notation search := (search candidate_eq generate dl usage row_key clock timeout).
  Notation fit := (fit candidate_eq generate dl usage row_key clock timeout).
  Notation sort_rows := (sort_rows row_key).

  (* ---- a general preservation principle ---- *)
  Definition lstate (r : lres) : st C :=
    match r with Through _ s | Left _ _ s | LRaised _ s | LRunning s => s end.

  (* part of the state that never needs the length *)
  Record wf (s : st C) : Prop := {
    wf_order : in_order row_key (rows s);
    wf_ids : NoDup (map rid (rows s));
    wf_fresh : forall r, In r (rows s) \/ In r (pruning_rows s) -> rid r < fresh s;
    wf_same : forall r x, In r (pruning_rows s) -> In x (rows s) -> rid r = rid x -> r = x
  }.

  Lemma same_row_spec (a b : row C) : same_row a b = true <-> rid a = rid b.
  Proof. apply Nat.eqb_eq. Qed.

  Lemma remove1_perm (r : row C) l :
    In r l -> (forall x, In x l -> rid r = rid x -> r = x) -> Permutation (r :: remove1 r l) l.
  Proof.
    induction l as [|x t IH]; intros Hi Hs; [destruct Hi|]; cbn.
    destruct (same_row r x) eqn:E.
    - apply same_row_spec in E; rewrite (Hs x); [reflexivity | left; reflexivity | exact E].
    - rewrite perm_swap; apply perm_skip, IH.
      + destruct Hi as [->|Hi]; [unfold same_row in E; rewrite Nat.eqb_refl in E; discriminate | exact Hi].
      + intros y Hy; apply Hs; right; exact Hy.
  Qed.
  Lemma remove1_incl (r : row C) l x : In x (remove1 r l) -> In x l.
  Proof.
    induction l as [|y t IH]; cbn; [tauto|].
    destruct (same_row r y); [intros; right; assumption | intros [->|H]; [left; reflexivity | right; auto]].
  Qed.
  Lemma sort_rows_perm l : Permutation (sort_rows l) l.
  Proof. apply sort_perm. Qed.

  Lemma ids_unique l (r x : row C) : NoDup (map rid l) -> In r l -> In x l -> rid r = rid x -> r = x.
  Proof.
    induction l as [|y t IH]; intros Hn Hr Hx E; [destruct Hr|].
    inversion Hn as [|? ? Hni Hnt]; subst.
    destruct Hr as [<-|Hr], Hx as [<-|Hx]; [reflexivity | | | apply IH; assumption].
    - elim Hni; rewrite E; apply in_map, Hx.
    - elim Hni; rewrite <- E; apply in_map, Hr.
  Qed.

  Lemma in_rows_existsb r s : wf s -> In r (pruning_rows s) ->
    existsb (same_row r) (rows s) = true -> In r (rows s).
  Proof.
    intros W Hp E; apply existsb_exists in E; destruct E as [x [Hx E]].
    apply same_row_spec in E; rewrite (wf_same s W r x Hp Hx E); exact Hx.
  Qed.

  Lemma drop_perm r s : wf s -> In r (rows s) ->
    Permutation (r :: rows (drop_row row_key s r)) (rows s).
  Proof.
    intros W H; cbn; rewrite sort_rows_perm; apply remove1_perm; [exact H|].
    intros x Hx; apply ids_unique with (rows s); [apply W | exact H | exact Hx].
  Qed.

  (* wf only looks at rows, pruning rows and fresh *)
  Lemma wf_ext s s' : wf s -> rows s' = rows s -> pruning_rows s' = pruning_rows s ->
    fresh s' = fresh s -> wf s'.
  Proof.
    intros [A B D E] H1 H2 H3; constructor; rewrite ?H1, ?H2, ?H3; assumption.
  Qed.
  Lemma wf_cover s : wf s -> wf (cover usage s).
  Proof. intros W; apply (wf_ext s); auto. Qed.
  Lemma wf_drop s r : wf s -> In r (rows s) -> wf (drop_row row_key s r).
  Proof.
    intros W H; pose proof (drop_perm r s W H) as P; destruct W as [A B D E]; constructor.
    - apply sort_rows_in_order.
    - apply (Permutation_map rid) in P; cbn in P.
      apply Permutation_sym in P; apply (Permutation_NoDup P) in B; inversion B; assumption.
    - intros x [Hx|Hx]; apply D; [left|right; exact Hx].
      apply (Permutation_in _ P); right; exact Hx.
    - intros x y Hx Hy; apply E; [exact Hx|]; apply (Permutation_in _ P); right; exact Hy.
  Qed.
  Lemma add_perm s r : Permutation (rows (add_row row_key s r)) (r :: rows s).
  Proof.
    cbn; rewrite sort_rows_perm; symmetry; apply Permutation_cons_append.
  Qed.
  Lemma wf_add s r : wf s -> rid r < fresh s -> ~ In (rid r) (map rid (rows s)) ->
    (forall x, In x (pruning_rows s) -> rid x = rid r -> x = r) -> wf (add_row row_key s r).
  Proof.
    intros W Hf Hn Hs; pose proof (add_perm s r) as P; destruct W as [A B D E]; constructor.
    - apply sort_rows_in_order.
    - apply (Permutation_NoDup (l := map rid (r :: rows s)));
        [symmetry; apply Permutation_map, P | cbn; constructor; assumption].
    - intros x [Hx|Hx]; [|apply D; right; exact Hx].
      apply (Permutation_in _ P) in Hx; destruct Hx as [<-|Hx]; [exact Hf | apply D; left; exact Hx].
    - intros x y Hx Hy Exy; apply (Permutation_in _ P) in Hy; destruct Hy as [<-|Hy];
        [apply Hs; assumption | apply E; assumption].
  Qed.
  Lemma wf_pruning s p : wf s -> (forall x, In x p -> In x (pruning_rows s) \/ In x (rows s)) ->
    wf (set_pruning s p).
  Proof.
    intros [A B D E] H; constructor; cbn; try assumption.
    - intros x [Hx|Hx]; [apply D; left; exact Hx|].
      apply H in Hx; apply D; tauto.
    - intros x y Hx Hy Exy; destruct (H x Hx) as [G|G]; [apply E; assumption|].
      apply (ids_unique (rows s)); assumption.
  Qed.
  Lemma wf_cpc s : wf s -> wf (compute_pruning_candidates s).
  Proof.
    intros W; apply wf_pruning; [exact W|]; intros x Hx; apply in_app_or in Hx.
    destruct Hx as [Hx|Hx]; [left; exact Hx | right; apply filter_In in Hx; apply Hx].
  Qed.
  Lemma wf_start s : wf s -> wf (start_pruning s).
  Proof.
    intros W; unfold start_pruning; apply wf_pruning.
    - apply (wf_ext s); auto.
    - intros x Hx; left; apply In_sort in Hx; exact Hx.
  Qed.
  Lemma dropped_absent s r : wf s -> In r (rows s) ->
    ~ In (rid r) (map rid (rows (drop_row row_key s r))).
  Proof.
    intros W H F; pose proof (drop_perm r s W H) as P.
    apply (Permutation_map rid), Permutation_sym in P.
    apply (Permutation_NoDup P) in F; [destruct F | apply W] || idtac.
    pose proof (Permutation_NoDup P (wf_ids s W)) as N; cbn in N; inversion N; contradiction.
  Qed.

  (* ---- the invariant with lengths ---- *)
  Hypothesis ties : ties_harmless row_key dl.
  Variable start : Q.
  Record inv (s : st C) : Prop := {
    i_wf : wf s;
    i_len : (length_ s == dl (rows s))%Q;
    i_hist : decreasing_history start (accepted s) (length_ s)
  }.

  Lemma inv_ext s s' : inv s -> rows s' = rows s -> pruning_rows s' = pruning_rows s ->
    fresh s' = fresh s -> length_ s' = length_ s -> accepted s' = accepted s -> inv s'.
  Proof.
    intros [W L H] H1 H2 H3 H4 H5; constructor.
    - apply (wf_ext s); assumption.
    - rewrite H4, H1; exact L.
    - rewrite H4, H5; exact H.
  Qed.
  Lemma inv_pruning s p : inv s -> (forall x, In x p -> In x (pruning_rows s) \/ In x (rows s)) ->
    inv (set_pruning s p).
  Proof. intros [W L H] Hp; constructor; [apply wf_pruning; assumption | exact L | exact H]. Qed.
  Lemma inv_cpc s : inv s -> inv (compute_pruning_candidates s).
  Proof. intros [W L H]; constructor; [apply wf_cpc; assumption | exact L | exact H]. Qed.
  Lemma inv_start s : inv s -> inv (start_pruning s).
  Proof. intros [W L H]; constructor; [apply wf_start; assumption | exact L | exact H]. Qed.
  Lemma inv_end s : inv s -> inv (graph_mdl_end dl usage s).
  Proof.
    intros [W L H]; constructor.
    - apply (wf_ext s); auto.
    - cbn; reflexivity.
    - cbn; apply history_eq with (length_ s); assumption.
  Qed.
  Lemma Qlt_negb a b : negb (Qle_bool a b) = true -> (b < a)%Q.
  Proof.
    intros H; apply Qnot_le_lt; intros F; apply Qle_bool_iff in F; rewrite F in H; discriminate.
  Qed.
  (* a strictly better table becomes the reference *)
  Lemma inv_adopt s l0 : wf s -> length_ s = l0 ->
    decreasing_history start (accepted s) l0 -> (dl (rows s) < l0)%Q ->
    inv (note (adopt dl s) l0).
  Proof.
    intros W E H L; constructor.
    - apply (wf_ext s); auto.
    - cbn; reflexivity.
    - cbn; apply history_snoc with l0; [exact H | reflexivity | exact L].
  Qed.
  (* a permuted table in order keeps the invariant *)
  Lemma inv_perm s s' : inv s -> wf s' -> Permutation (rows s') (rows s) ->
    length_ s' = length_ s -> accepted s' = accepted s -> inv s'.
  Proof.
    intros [W L H] W' P E1 E2; constructor; [exact W' | | rewrite E1, E2; exact H].
    rewrite E1, L; apply ties; [symmetry; exact P | apply W | apply W'].
  Qed.

  Lemma inv_pruning_loop fuel : forall i s, inv s -> inv (state_of (pruning_loop fuel i s)).
  Proof.
    induction fuel as [|f IH]; intros i s I; [exact I|].
    rewrite pruning_loop_S.
    destruct (nth_error (pruning_rows s) i) as [r|] eqn:En; [|exact I].
    apply nth_error_In in En.
    destruct (existsb (same_row r) (rows s)) eqn:Ee; cbn [negb]; [|exact I].
    assert (W : wf s) by apply I.
    assert (Hr : In r (rows s)) by (apply in_rows_existsb; assumption).
    pose proof (wf_drop s r W Hr) as Wd.
    set (s1 := try_remove usage row_key s r).
    assert (W1 : wf s1) by (apply wf_cover; exact Wd).
    destruct (negb (Qle_bool (length_ s1) (dl (rows s1)))) eqn:El.
    - apply Qlt_negb in El.
      assert (I2 : inv (note (adopt dl s1) (length_ s1))).
      { apply inv_adopt; [exact W1 | reflexivity | apply I | exact El]. }
      assert (I3 : inv (keep_removal dl s1 r)).
      { apply inv_start, inv_cpc, inv_pruning; [exact I2|].
        intros x Hx; left; apply remove1_incl in Hx; exact Hx. }
      pose proof (IH 0 _ I3) as I4.
      destruct (pruning_loop f 0 (keep_removal dl s1 r)) as [s4|e4 s4|s4];
        cbn in I4; [apply IH; exact I4 | exact I4 | exact I4].
    - apply IH; apply (inv_perm s); auto.
      + apply wf_add; [exact W1 | | | ].
        * apply (wf_fresh s W); left; exact Hr.
        * apply dropped_absent; assumption.
        * intros x Hx E; apply (wf_same s W); assumption.
      + rewrite add_perm; apply drop_perm; assumption.
  Qed.

  Lemma insert_candidate_facts c s r s3 : inv s -> insert_candidate usage row_key s c = (r, s3) ->
    wf s3 /\ In r (rows s3) /\ Permutation (rows s3) (r :: rows s) /\ length_ s3 = length_ s /\ accepted s3 = accepted s.
  Proof.
    intros I Ei; unfold insert_candidate in Ei.
    set (s0 := compute_old_usage s) in *.
    assert (I0 : inv s0) by (apply (inv_ext s); auto).
    set (s1 := set_fresh s0 (S (fresh s0))) in *.
    set (r0 := new_row s0 c) in *.
    assert (W1 : wf s1).
    { destruct (i_wf _ I0) as [A B D E]; constructor; cbn; try assumption.
      intros x Hx; apply D in Hx; change (rid x < fresh s0) in Hx; change (rid x < S (fresh s0)); lia. }
    assert (Hr : ~ In (rid r0) (map rid (rows s1))).
    { intros F; apply in_map_iff in F; destruct F as [x [E Hx]].
      assert (rid x < fresh s0) by (apply (wf_fresh s0 (i_wf _ I0)); left; exact Hx).
      change (rid x = fresh s0) in E; lia. }
    assert (W2 : wf (add_row row_key s1 r0)).
    { apply wf_add; [exact W1 | change (fresh s0 < S (fresh s0)); lia | exact Hr |].
      intros x Hx E; assert (rid x < fresh s0) by (apply (wf_fresh s0 (i_wf _ I0)); right; exact Hx).
      change (rid x = fresh s0) in E; lia. }
    injection Ei as E1 E2; subst r s3.
    split; [apply (wf_ext (add_row row_key s1 r0)); auto|].
    split; [apply (Permutation_in _ (Permutation_sym (add_perm s1 r0))); left; reflexivity|].
    split; [apply (add_perm s1 r0)|]; split; reflexivity.
  Qed.
  Lemma inv_evaluate fuel last c cur s k : inv s ->
    (forall s', inv s' -> inv (lstate (k s'))) ->
    inv (lstate (evaluate dl usage row_key timeout fuel last c cur s k)).
  Proof.
    intros I Hk; unfold evaluate.
    destruct (insert_candidate usage row_key s c) as [r s3] eqn:Ei.
    pose proof (insert_candidate_facts c s r s3 I Ei) as X.
    destruct X as [W3 [In3 [P3 [Len3 Acc3]]]]; clear Ei.
    assert (I4 : inv (drop_row row_key s3 r)).
    { apply (inv_perm s); auto; [apply wf_drop; assumption|].
      apply Permutation_cons_inv with r; rewrite (drop_perm r s3 W3 In3); exact P3. }
    destruct (negb (Qle_bool (length_ s3) (dl (rows s3)))) eqn:El.
    - apply Qlt_negb in El.
      assert (I5 : inv (start_pruning (accept dl s3))).
      { apply inv_start, inv_cpc, inv_adopt; [exact W3 | reflexivity | | exact El].
        rewrite Acc3, Len3; apply I. }
      pose proof (inv_pruning_loop fuel 0 _ I5) as I6; unfold GraphSearchModel.pruning.
      destruct (pruning_loop fuel 0 (start_pruning (accept dl s3))) as [s4|e4 s4|s4]; exact I6.
    - destruct (negb (Qle_bool (dl (rows s3)) (length_ s3)) && last).
      + cbn; apply inv_end; exact I4.
      + apply Hk, I4.
  Qed.

  Lemma inv_candidate_loop fuel all cs : forall cur s, inv s ->
    inv (lstate (candidate_loop fuel all cs cur s)).
  Proof.
    induction cs as [|c rest IH]; intros cur s I; [exact I|].
    rewrite candidate_loop_cons.
    destruct (existsb _ (already_test s)); [exact I|].
    destruct timeout as [t|] eqn:Et.
    - assert (I1 : inv (set_ticks s (S (ticks s)))) by (apply (inv_ext s); auto).
      destruct (Qle_bool t (clock (ticks s))); [apply inv_end; exact I1|].
      rewrite <- Et; apply inv_evaluate; [exact I1|]; intros s' I'; rewrite Et; apply IH, I'.
    - rewrite <- Et; apply inv_evaluate; [exact I|]; intros s' I'; rewrite Et; apply IH, I'.
  Qed.

  Lemma inv_round fuel cur s : inv s ->
    inv (lstate (round candidate_eq generate dl usage row_key clock timeout fuel cur s)).
  Proof.
    intros I; unfold round.
    pose proof (inv_candidate_loop fuel (generate (rewritten s) (rows s))
                    (generate (rewritten s) (rows s)) cur s I) as Il.
    destruct (generate (rewritten s) (rows s)) as [|c cs]; [apply inv_end, I | exact Il].
  Qed.

  Lemma inv_search fuel : forall stop cur s, inv s -> inv (state_of (search fuel stop cur s)).
  Proof.
    induction fuel as [|f IH]; intros stop cur s I; [destruct stop; exact I|].
    rewrite search_S; destruct stop; [exact I|].
    assert (N : forall o, inv (lstate o) ->
      inv (state_of (next candidate_eq generate dl usage row_key clock timeout f o))).
    { intros [x y|b x y|e4 y|y] H; cbn in H; [apply IH; exact H | apply IH; exact H | exact H | exact H]. }
    pose proof inv_round as Rd; destruct timeout as [t|].
    - destruct (negb (Qle_bool cur t)); [exact I|].
      assert (I1 : inv (set_ticks s (S (ticks s)))) by (apply (inv_ext s); auto).
      destruct (Qle_bool t (clock (ticks s))); [apply inv_end; exact I1|].
      apply N, Rd, I1.
    - apply N, Rd, I.
  Qed.
End Proofs.

Section Once.
  Context {C : Type}.
  Variable candidate_eq : C -> C -> bool.
  Variable generate : list (row C) -> list (row C) -> list C.
  Variable dl : list (row C) -> Q.
  Variable usage : list (row C) -> row C -> Z.
  Variable row_key : C -> Z * Z.
  Variable clock : nat -> Q.
  Variable timeout : option Q.

  Definition strict (h : list (Q * Q)) := forall a b, In (a, b) h -> (b < a)%Q.
  Definition ok (s : st C) := evaluated_once candidate_eq (already_test s) /\ strict (accepted s).
  Lemma strict_snoc h a b : strict h -> (b < a)%Q -> strict (h ++ [(a, b)]).
  Proof.
    intros H L x y Hi; apply in_app_or in Hi; destruct Hi as [Hi|[E|[]]];
      [apply H, Hi | injection E as <- <-; exact L].
  Qed.

  Lemma pruning_loop_ok fuel : forall i s,
    strict (accepted s) ->
    strict (accepted (state_of (pruning_loop dl usage row_key fuel i s))) /\
    already_test (state_of (pruning_loop dl usage row_key fuel i s)) = already_test s.
  Proof.
    induction fuel as [|f IH]; intros i s I; [split; [exact I | reflexivity]|].
    rewrite pruning_loop_S.
    destruct (nth_error (pruning_rows s) i) as [r|] eqn:En; [|split; [exact I | reflexivity]].
    destruct (existsb (same_row r) (rows s)) eqn:Ee; cbn [negb]; [|split; [exact I | reflexivity]].
    set (s1 := try_remove usage row_key s r).
    destruct (negb (Qle_bool (length_ s1) (dl (rows s1)))) eqn:El.
    - apply Qlt_negb in El.
      set (s3 := keep_removal dl s1 r).
      assert (I3 : strict (accepted s3)) by (apply strict_snoc; [exact I | exact El]).
      destruct (IH 0 s3 I3) as [A B].
      destruct (pruning_loop dl usage row_key f 0 s3) as [s4|e s4|s4]; cbn in A, B.
      + destruct (IH (S i) s4 A) as [A' B']; split; [exact A' | rewrite B', B; reflexivity].
      + split; [exact A | exact B].
      + split; [exact A | exact B].
    - apply (IH (S i) (add_row row_key s1 r)); exact I.
  Qed.

  Lemma once_snoc l c : evaluated_once candidate_eq l ->
    existsb (fun x => candidate_eq x c) l = false -> evaluated_once candidate_eq (l ++ [c]).
  Proof.
    intros H E i j a b Lij Hi Hj.
    assert (Lj : j < length (l ++ [c])) by (apply nth_error_Some; congruence).
    rewrite app_length in Lj; cbn in Lj.
    rewrite nth_error_app1 in Hi by lia.
    destruct (Nat.lt_ge_cases j (length l)) as [G|G].
    - rewrite nth_error_app1 in Hj by exact G; exact (H i j a b Lij Hi Hj).
    - assert (j = length l) by lia; subst j; rewrite nth_error_app2, Nat.sub_diag in Hj by lia.
      injection Hj as <-; destruct (candidate_eq a c) eqn:Ea; [|reflexivity].
      apply nth_error_In in Hi.
      assert (X : existsb (fun x => candidate_eq x c) l = true)
        by (apply existsb_exists; exists a; auto).
      congruence.
  Qed.

  Lemma candidate_loop_ok fuel all cs : forall cur s, ok s ->
    ok (lstate (candidate_loop candidate_eq dl usage row_key clock timeout fuel all cs cur s)).
  Proof.
    induction cs as [|c rest IH]; intros cur s I; [exact I|].
    rewrite candidate_loop_cons.
    destruct (existsb (fun x => candidate_eq x c) (already_test s)) eqn:Et; [exact I|].
    assert (EV : forall last cur s1, already_test s1 = already_test s -> accepted s1 = accepted s ->
      ok (lstate (evaluate dl usage row_key timeout fuel last c cur s1
           (candidate_loop candidate_eq dl usage row_key clock timeout fuel all rest cur)))).
    { intros last cur1 s1 E1 E2; unfold evaluate.
      destruct (insert_candidate usage row_key s1 c) as [r s3] eqn:Ei.
      apply insert_tested in Ei; destruct Ei as [T3 A3]; rewrite E1 in T3; rewrite E2 in A3.
      assert (O3 : evaluated_once candidate_eq (already_test s3))
        by (rewrite T3; apply once_snoc; [apply I | exact Et]).
      destruct (negb (Qle_bool (length_ s3) (dl (rows s3)))) eqn:El.
      - apply Qlt_negb in El; unfold pruning.
        destruct (pruning_loop_ok fuel 0 (start_pruning (accept dl s3))) as [A B].
        { change (strict (accepted s3 ++ [(length_ s3, dl (rows s3))])).
          apply strict_snoc; [rewrite A3; apply I | exact El]. }
        destruct (pruning_loop dl usage row_key fuel 0 (start_pruning (accept dl s3))) as [s4|e4 s4|s4];
          cbn [state_of lstate] in *; (split; [rewrite B; exact O3 | exact A]).
      - destruct (negb (Qle_bool (dl (rows s3)) (length_ s3)) && last).
        + split; [exact O3 | change (strict (accepted s3)); rewrite A3; apply I].
        + apply IH; split; [exact O3 | change (strict (accepted s3)); rewrite A3; apply I]. }
    destruct timeout as [t|].
    - destruct (Qle_bool t (clock (ticks s))); [exact I|].
      apply EV; reflexivity.
    - apply EV; reflexivity.
  Qed.

  Lemma round_ok fuel cur s : ok s ->
    ok (lstate (round candidate_eq generate dl usage row_key clock timeout fuel cur s)).
  Proof.
    intros I; unfold round.
    pose proof (candidate_loop_ok fuel (generate (rewritten s) (rows s))
                    (generate (rewritten s) (rows s)) cur s I) as Il.
    destruct (generate (rewritten s) (rows s)) as [|c cs]; [exact I | exact Il].
  Qed.

  Lemma search_ok fuel : forall stop cur s, ok s ->
    ok (state_of (search candidate_eq generate dl usage row_key clock timeout fuel stop cur s)).
  Proof.
    induction fuel as [|f IH]; intros stop cur s I; [destruct stop; exact I|].
    rewrite search_S; destruct stop; [exact I|].
    assert (N : forall o, ok (lstate o) ->
      ok (state_of (next candidate_eq generate dl usage row_key clock timeout f o))).
    { intros [x y|b x y|e4 y|y] H; cbn in H; [apply IH; exact H | apply IH; exact H | exact H | exact H]. }
    pose proof round_ok as Rd; destruct timeout as [t|].
    - destruct (negb (Qle_bool cur t)); [exact I|].
      destruct (Qle_bool t (clock (ticks s))); [exact I|].
      apply N, Rd, I.
    - apply N, Rd, I.
  Qed.
End Once.

(* C60: whatever the candidates, the evaluation, the clock, the timeout and the
   moment at which the run is looked at (finished, interrupted by an exception
   or still running), the description length went down from the initial one
   through strictly decreasing accepted values, and it is the length of the
   table in place.  Partial: the length must not depend on how tied rows are
   placed (see the refutation below). *)
Theorem C60_monotone_partial :
  forall (C : Type) candidate_eq generate (dl : list (row C) -> Q) usage row_key clock timeout fuel,
  ties_harmless row_key dl ->
  let s := state_of (fit candidate_eq generate dl usage row_key clock timeout fuel) in
  decreasing_history (dl []) (accepted s) (length_ s) /\
  (length_ s <= dl [])%Q /\
  (length_ s == dl (rows s))%Q.
Proof.
  intros C ceq gen dl usage key clock timeout fuel T s.
  assert (I : inv dl key (dl []) s).
  { apply inv_search; [exact T|]; constructor; [|reflexivity|reflexivity].
    constructor; cbn; [constructor | constructor | tauto | tauto]. }
  split; [apply I|]; split; [eapply history_le, I | apply I].
Qed.

(* C60: without any condition, a change is accepted only when it is strictly
   better, and no candidate is evaluated twice. *)
Theorem C60_accept_once :
  forall (C : Type) candidate_eq generate (dl : list (row C) -> Q) usage row_key clock timeout fuel,
  let s := state_of (fit candidate_eq generate dl usage row_key clock timeout fuel) in
  (forall old new, In (old, new) (accepted s) -> (new < old)%Q) /\
  evaluated_once candidate_eq (already_test s).
Proof.
  intros C ceq gen dl usage key clock timeout fuel s.
  assert (O : ok ceq s).
  { apply search_ok; split; [intros i j a b _ H; destruct i; discriminate | intros a b []]. }
  split; [apply O | apply O].
Qed.

(* ------------------------------------------------------------- stopping *)
Section Stop.
  Context {C : Type}.
  Variable candidate_eq : C -> C -> bool.
  Variable generate : list (row C) -> list (row C) -> list C.
  Variable dl : list (row C) -> Q.
  Variable usage : list (row C) -> row C -> Z.
  Variable row_key : C -> Z * Z.
  Variable clock : nat -> Q.
  Variable timeout : option Q.

  Notation pruning_loop := (pruning_loop dl usage row_key).
  Notation candidate_loop := (candidate_loop candidate_eq dl usage row_key clock timeout).
  Notation round := (round candidate_eq generate dl usage row_key clock timeout).
  Notation search := (search candidate_eq generate dl usage row_key clock timeout).
  Notation next := (next candidate_eq generate dl usage row_key clock timeout).
  Definition stopped (o : res C) := match o with Running _ => False | _ => True end.
  Definition lstopped (o : @lres C) := match o with LRunning _ => False | _ => True end.

  (* ---- more fuel does not change a run that stopped ---- *)
  Lemma pruning_mono f : forall i s o, pruning_loop f i s = o -> stopped o ->
    pruning_loop (S f) i s = o.
  Proof.
    induction f as [|f IH]; intros i s o E St; [subst o; destruct St|].
    rewrite pruning_loop_S; rewrite pruning_loop_S in E.
    destruct (nth_error (pruning_rows s) i) as [r|]; [|exact E].
    destruct (negb (existsb (same_row r) (rows s))); [exact E|].
    destruct (negb (Qle_bool _ _)).
    - destruct (pruning_loop f 0 (keep_removal dl (try_remove usage row_key s r) r))
        as [s4|e4 s4|s4] eqn:Ep.
      + rewrite (IH _ _ _ Ep I); apply IH; assumption.
      + rewrite (IH _ _ _ Ep I); exact E.
      + subst o; destruct St.
    - apply IH; assumption.
  Qed.
  Lemma pruning_mono_le f f' i s o : pruning_loop f i s = o -> stopped o -> f <= f' ->
    pruning_loop f' i s = o.
  Proof. intros E St L; induction L; [exact E | apply pruning_mono; assumption]. Qed.

  Lemma evaluate_mono f last c cur s k k' o :
    (forall s o, k s = o -> lstopped o -> k' s = o) ->
    evaluate dl usage row_key timeout f last c cur s k = o -> lstopped o ->
    evaluate dl usage row_key timeout (S f) last c cur s k' = o.
  Proof.
    intros K E St; unfold evaluate in *.
    destruct (insert_candidate usage row_key s c) as [r s3].
    destruct (negb (Qle_bool (length_ s3) (dl (rows s3)))).
    - unfold pruning in *.
      destruct (pruning_loop f 0 (start_pruning (accept dl s3))) as [s4|e4 s4|s4] eqn:Ep.
      + rewrite (pruning_mono _ _ _ _ Ep I); exact E.
      + rewrite (pruning_mono _ _ _ _ Ep I); exact E.
      + subst o; destruct St.
    - destruct (negb (Qle_bool (dl (rows s3)) (length_ s3)) && last); [exact E | apply K; assumption].
  Qed.
  Lemma candidate_loop_mono f all cs : forall cur s o,
    candidate_loop f all cs cur s = o -> lstopped o -> candidate_loop (S f) all cs cur s = o.
  Proof.
    induction cs as [|c rest IH]; intros cur s o E St; [exact E|].
    rewrite candidate_loop_cons; rewrite candidate_loop_cons in E.
    destruct (existsb _ (already_test s)); [exact E|].
    destruct timeout as [t|] eqn:Et.
    - destruct (Qle_bool t (clock (ticks s))); [exact E|].
      rewrite <- Et in *; eapply evaluate_mono; [|exact E|exact St].
      intros s' o'; apply IH.
    - rewrite <- Et in *; eapply evaluate_mono; [|exact E|exact St].
      intros s' o'; apply IH.
  Qed.
  Lemma round_mono f cur s o : round f cur s = o -> lstopped o -> round (S f) cur s = o.
  Proof.
    unfold GraphSearchModel.round; destruct (generate (rewritten s) (rows s)); [auto|].
    apply candidate_loop_mono.
  Qed.
  Lemma search_mono f : forall stop cur s o, search f stop cur s = o -> stopped o ->
    search (S f) stop cur s = o.
  Proof.
    induction f as [|f IH]; intros stop cur s o E St.
    - destruct stop; [exact E | cbn in E; subst o; destruct St].
    - rewrite search_S; rewrite search_S in E.
      destruct stop; [exact E|].
      assert (N : forall cur s, next f (round f cur s) = o -> next (S f) (round (S f) cur s) = o).
      { intros cur' s' E'; destruct (round f cur' s') as [x y|b x y|e4 y|y] eqn:Er.
        - rewrite (round_mono _ _ _ _ Er I); apply IH; assumption.
        - rewrite (round_mono _ _ _ _ Er I); apply IH; assumption.
        - rewrite (round_mono _ _ _ _ Er I); exact E'.
        - cbn in E'; rewrite <- E' in St; destruct St. }
      destruct timeout as [t|].
      + destruct (negb (Qle_bool cur t)); [exact E|].
        destruct (Qle_bool t (clock (ticks s))); [exact E | apply N, E].
      + apply N, E.
  Qed.
  Lemma search_mono_le f f' stop cur s : stopped (search f stop cur s) -> f <= f' ->
    stopped (search f' stop cur s).
  Proof.
    intros St L; induction L as [|m L IH]; [exact St|].
    rewrite (search_mono m stop cur s _ eq_refl IH); exact IH.
  Qed.

  (* ---- pruning stops ---- *)
  Lemma remove1_length (r : row C) l : existsb (same_row r) l = true ->
    S (length (remove1 r l)) = length l.
  Proof.
    induction l as [|x t IH]; cbn; [discriminate|].
    destruct (same_row r x); cbn; [reflexivity | intros H; rewrite IH by exact H; reflexivity].
  Qed.
  Definition shrinks (n : nat) (o : res C) : Prop :=
    match o with Done s' => length (rows s') <= n | Raised _ _ => True | Running _ => False end.
  Lemma shrinks_stopped n o : shrinks n o -> stopped o.
  Proof. destruct o; cbn; tauto. Qed.

  Lemma pruning_stops n : forall i s, length (rows s) <= n ->
    exists f, shrinks (length (rows s)) (pruning_loop f i s).
  Proof.
    induction n as [n IHn] using lt_wf_ind.
    assert (H : forall k i s, length (rows s) <= n -> length (pruning_rows s) - i <= k ->
      exists f, shrinks (length (rows s)) (pruning_loop f i s)); [|intros i s L; eapply H; eauto].
    induction k as [|k IHk]; intros i s L K.
    - exists 1; rewrite pruning_loop_S.
      rewrite (proj2 (nth_error_None (pruning_rows s) i)) by lia; apply le_n.
    - destruct (nth_error (pruning_rows s) i) as [r|] eqn:En.
      2:{ exists 1; rewrite pruning_loop_S, En; apply le_n. }
      assert (Li : i < length (pruning_rows s)) by (apply nth_error_Some; congruence).
      destruct (existsb (same_row r) (rows s)) eqn:Ee.
      2:{ exists 1; rewrite pruning_loop_S, En, Ee; exact I. }
      pose proof (remove1_length r (rows s) Ee) as Lr.
      assert (Step : forall f, pruning_loop (S f) i s =
        if negb (Qle_bool (length_ (try_remove usage row_key s r))
                             (dl (rows (try_remove usage row_key s r)))) then
        match pruning_loop f 0 (keep_removal dl (try_remove usage row_key s r) r) with
        | Done s4 => pruning_loop f (S i) s4
        | o => o
        end
      else pruning_loop f (S i) (add_row row_key (try_remove usage row_key s r) r))
        by (intros f; rewrite pruning_loop_S, En, Ee; reflexivity).
      assert (L1 : S (length (rows (try_remove usage row_key s r))) = length (rows s)).
      { change (rows (try_remove usage row_key s r)) with (sort_rows row_key (remove1 r (rows s))).
        unfold sort_rows; rewrite length_sort; exact Lr. }
      assert (L3 : rows (keep_removal dl (try_remove usage row_key s r) r) =
                   rows (try_remove usage row_key s r)) by reflexivity.
      assert (L5 : length (rows (add_row row_key (try_remove usage row_key s r) r)) = length (rows s)).
      { change (rows (add_row row_key (try_remove usage row_key s r) r)) with
          (sort_rows row_key (rows (try_remove usage row_key s r) ++ [r])).
        unfold sort_rows; rewrite length_sort, app_length; cbn [length]; lia. }
      assert (P5 : pruning_rows (add_row row_key (try_remove usage row_key s r) r) = pruning_rows s)
        by reflexivity.
      revert Step L1 L3 L5 P5.
      generalize (add_row row_key (try_remove usage row_key s r) r) as s5.
      generalize (keep_removal dl (try_remove usage row_key s r) r) as s3.
      generalize (try_remove usage row_key s r) as s1.
      intros s1 s3 s5 Step L1 L3 L5 P5.
      destruct (negb (Qle_bool (length_ s1) (dl (rows s1)))).
      + assert (N3 : length (rows s3) < n) by (rewrite L3; lia).
        destruct (IHn _ N3 0 s3 (le_n _)) as [f1 H1].
        destruct (pruning_loop f1 0 s3) as [s4|e4 s4|s4] eqn:E1; cbn in H1; [| |destruct H1].
        * assert (N4 : length (rows s4) < n) by (rewrite L3 in H1; lia).
          destruct (IHn _ N4 (S i) s4 (le_n _)) as [f2 H2].
          exists (S (f1 + f2)); rewrite Step.
          rewrite (pruning_mono_le _ (f1 + f2) _ _ _ E1 I) by lia.
          rewrite (pruning_mono_le _ (f1 + f2) _ _ _ eq_refl (shrinks_stopped _ _ H2)) by lia.
          destruct (pruning_loop f2 (S i) s4); cbn in *; [rewrite L3 in H1; lia | exact I | exact H2].
        * exists (S f1); rewrite Step, E1; exact I.
      + destruct (IHk (S i) s5) as [f H1]; [lia | rewrite P5; lia |].
        exists (S f); rewrite Step, <- L5; exact H1.
  Qed.

  Lemma pruning_tested f : forall i s, already_test (state_of (pruning_loop f i s)) = already_test s.
  Proof.
    induction f as [|f IH]; intros i s; [reflexivity|]; rewrite pruning_loop_S.
    destruct (nth_error (pruning_rows s) i) as [r|]; [|reflexivity].
    destruct (negb (existsb (same_row r) (rows s))); [reflexivity|].
    destruct (negb (Qle_bool _ _)); [|rewrite IH; reflexivity].
    pose proof (IH 0 (keep_removal dl (try_remove usage row_key s r) r)) as H.
    change (already_test (keep_removal dl (try_remove usage row_key s r) r)) with (already_test s) in H.
    destruct (pruning_loop f 0 (keep_removal dl (try_remove usage row_key s r) r)); cbn in H;
      [rewrite IH; exact H | exact H | exact H].
  Qed.

  (* ---- the candidates of one turn ---- *)
  Definition post (cs : list C) (tested : list C) (o : lres) : Prop :=
    match o with
    | LRunning _ => False
    | LRaised _ _ => True
    | Left true _ _ => True
    | Through _ s' => incl (already_test s') (tested ++ cs) /\
        (cs <> [] -> length tested < length (already_test s')) /\
        length tested <= length (already_test s')
    | Left false cur' s' => incl (already_test s') (tested ++ cs) /\
        (length tested < length (already_test s') \/
         exists t k, timeout = Some t /\ (t <= cur')%Q /\ cur' = clock k /\ k < ticks s')
    end.
  Lemma post_stopped cs l o : post cs l o -> lstopped o.
  Proof. destruct o as [| [] | |]; cbn; tauto. Qed.
  Lemma candidate_loop_mono_le f f' all cs cur s o :
    candidate_loop f all cs cur s = o -> lstopped o -> f <= f' -> candidate_loop f' all cs cur s = o.
  Proof. intros E St L; induction L; [exact E | apply candidate_loop_mono; assumption]. Qed.

  Lemma candidate_loop_stops all cs : forall cur s, exists f,
    post cs (already_test s) (candidate_loop f all cs cur s).
  Proof.
    induction cs as [|c rest IH]; intros cur s.
    { exists 0; split; [rewrite app_nil_r; apply incl_refl|]; split; [congruence | apply le_n]. }
    assert (Eq : forall f, candidate_loop f all (c :: rest) cur s = _)
      by (intros f; apply candidate_loop_cons).
    destruct (existsb _ (already_test s)).
    { exists 0; rewrite Eq; exact I. }
    revert Eq; generalize (index_of candidate_eq all c =? length all - 1) as last; intros last Eq.
    assert (EV : forall cur s1, already_test s1 = already_test s -> exists f,
      post (c :: rest) (already_test s) (evaluate dl usage row_key timeout f last c cur s1
        (candidate_loop f all rest cur))).
    { intros cur1 s1 E1; unfold evaluate.
      destruct (insert_candidate usage row_key s1 c) as [r s3] eqn:Ei.
      apply insert_tested in Ei; destruct Ei as [T3 _]; rewrite E1 in T3.
      destruct (negb (Qle_bool (length_ s3) (dl (rows s3)))).
      - unfold pruning.
        destruct (pruning_stops _ 0 (start_pruning (accept dl s3)) (le_n _)) as [f H].
        pose proof (pruning_tested f 0 (start_pruning (accept dl s3))) as Et.
        change (already_test (start_pruning (accept dl s3))) with (already_test s3) in Et.
        exists f; destruct (pruning_loop f 0 (start_pruning (accept dl s3))) as [s4|e4 s4|s4];
          cbn in Et; cbn [post]; [|exact I|destruct H].
        rewrite Et, T3; split; [|left; rewrite app_length; cbn [length]; lia].
        intros x Hx; apply in_app_or in Hx; apply in_or_app.
        destruct Hx as [Hx|[<-|[]]]; [left; exact Hx | right; left; reflexivity].
      - destruct (negb (Qle_bool (dl (rows s3)) (length_ s3)) && last).
        + exists 0; exact I.
        + destruct (IH cur1 (drop_row row_key s3 r)) as [f P]; exists f.
          change (already_test (drop_row row_key s3 r)) with (already_test s3) in P.
          assert (Inc : forall l, incl l (already_test s3 ++ rest) -> incl l (already_test s ++ c :: rest)).
          { intros l Hl x Hx; apply Hl in Hx; rewrite T3, <- app_assoc in Hx; exact Hx. }
          assert (Lt : length (already_test s3) = S (length (already_test s)))
            by (rewrite T3, app_length; cbn [length]; lia).
          destruct (candidate_loop f all rest cur1 (drop_row row_key s3 r))
            as [cur2 s4|[] cur2 s4|e4 s4|s4]; cbn [post] in *; auto.
          * destruct P as [P1 [P2 P3]]; split; [apply Inc, P1|]; split; [intros _|]; lia.
          * destruct P as [P1 P2]; split; [apply Inc, P1|];
              destruct P2 as [P2|P2]; [left; lia | right; exact P2]. }
    destruct timeout as [t|] eqn:Et.
    - destruct (Qle_bool t (clock (ticks s))) eqn:Eq1.
      + exists 0; rewrite Eq.
        cbn [post]; split; [intros x Hx; apply in_or_app; left; exact Hx|].
        right; exists t, (ticks s); rewrite Et; split; [reflexivity|]; split;
          [apply Qle_bool_iff, Eq1|]; split; [reflexivity | apply le_n].
      + destruct (EV (clock (ticks s)) (set_ticks s (S (ticks s))) eq_refl) as [f P].
        exists f; rewrite Eq; exact P.
    - destruct (EV cur s eq_refl) as [f P]; exists f; rewrite Eq; exact P.
  Qed.

  (* ---- the whole search ---- *)
  Variable universe : list C.
  Hypothesis eq_refl_ : forall c, candidate_eq c c = true.
  Hypothesis finite : forall w r c, In c (generate w r) -> In c universe.
  Hypothesis monotone : forall i j, i <= j -> (clock i <= clock j)%Q.

  Lemma once_NoDup l : evaluated_once candidate_eq l -> NoDup l.
  Proof.
    intros H; apply NoDup_nth_error; intros i j Li E.
    destruct (nth_error l i) as [a|] eqn:Ei; [|apply nth_error_None in Ei; lia].
    symmetry in E; destruct (Nat.lt_trichotomy i j) as [G|[G|G]]; [|exact G|].
    - pose proof (H i j a a G Ei E) as X; rewrite eq_refl_ in X; discriminate.
    - pose proof (H j i a a G E Ei) as X; rewrite eq_refl_ in X; discriminate.
  Qed.

  (* time is up: at most one more turn *)
  Lemma late_stops t cur s k : timeout = Some t -> (t <= cur)%Q -> cur = clock k -> k < ticks s ->
    exists f, stopped (search f false cur s).
  Proof.
    intros Et Lc Ec Lk; exists 1; rewrite search_S, Et.
    destruct (negb (Qle_bool cur t)); [exact I|].
    assert (X : Qle_bool t (clock (ticks s)) = true).
    { apply Qle_bool_iff, Qle_trans with cur; [exact Lc|]; subst cur; apply monotone; lia. }
    rewrite X; exact I.
  Qed.

  Definition room (s : st C) := length universe - length (already_test s).
  Definition good (s : st C) := ok candidate_eq s /\ incl (already_test s) universe.

  Lemma turn_stops n :
    (forall m, m < n -> forall cur s, room s <= m -> good s -> exists f, stopped (search f false cur s)) ->
    forall cur s, room s <= n -> good s -> exists f, stopped (next f (round f cur s)).
  Proof.
    intros IH cur s Ln [O Inc]; unfold GraphSearchModel.round.
    assert (Hcs : incl (generate (rewritten s) (rows s)) universe) by (intros c Hc; eapply finite, Hc).
    destruct (generate (rewritten s) (rows s)) as [|c0 cs]; [exists 0; exact I|].
    set (all := c0 :: cs) in *.
    destruct (candidate_loop_stops all all cur s) as [N P].
    pose proof (candidate_loop_ok candidate_eq dl usage row_key clock timeout N all all cur s O) as Oo.
    assert (Keep : forall f, N <= f -> candidate_loop f all all cur s = candidate_loop N all all cur s)
      by (intros f L; apply candidate_loop_mono_le with N;
          [reflexivity | exact (post_stopped _ _ _ P) | exact L]).
    assert (Fin : forall b cur' s', (exists f, stopped (search f b cur' s')) ->
      exists f, N <= f /\ stopped (search f b cur' s')).
    { intros b cur' s' [f Hf]; exists (N + f); split; [lia|]; apply search_mono_le with f; [exact Hf | lia]. }
    assert (Step : forall s', ok candidate_eq s' -> incl (already_test s') (already_test s ++ all) ->
        length (already_test s) < length (already_test s') -> forall cur',
        exists f, stopped (search f false cur' s')).
    { intros s' O' I' L' cur'.
      assert (Inc' : incl (already_test s') universe).
      { intros z Hz; apply I' in Hz; apply in_app_or in Hz; destruct Hz as [Hz|Hz]; [apply Inc, Hz | apply Hcs, Hz]. }
      assert (B : length (already_test s') <= length universe)
        by (apply NoDup_incl_length; [apply once_NoDup, O' | exact Inc']).
      apply (IH (room s')); [unfold room in *; lia | apply le_n | split; assumption]. }
    destruct (candidate_loop N all all cur s) as [cur' s'|b cur' s'|e s'|s'] eqn:Eo; cbn in Oo; [| | |destruct P].
    - destruct P as [P1 [P2 _]].
      destruct (Fin false cur' s') as [f [Lf Hf]]; [apply Step; [exact Oo | exact P1 | apply P2; discriminate]|].
      exists f; rewrite (Keep f Lf); exact Hf.
    - destruct (Fin b cur' s') as [f [Lf Hf]].
      { destruct b; [exists 0; exact I|].
        destruct P as [P1 [P2|[t [k [Et [Lt [Ek Lk]]]]]]];
          [apply Step; assumption | exact (late_stops t cur' s' k Et Lt Ek Lk)]. }
      exists f; rewrite (Keep f Lf); exact Hf.
    - exists N; rewrite (Keep N (le_n _)); exact I.
  Qed.

  Lemma search_stops n : forall cur s, room s <= n -> good s -> exists f, stopped (search f false cur s).
  Proof.
    induction n as [n IH] using lt_wf_ind; intros cur s Ln G.
    pose proof (fun x => search_S candidate_eq generate dl usage row_key clock timeout x false cur s) as Eq.
    pose proof (turn_stops n IH) as T.
    destruct timeout as [t|] eqn:Et.
    - destruct (negb (Qle_bool cur t)) eqn:E1.
      { exists 1; rewrite Eq; exact I. }
      destruct (Qle_bool t (clock (ticks s))) eqn:E2.
      { exists 1; rewrite Eq; exact I. }
      destruct (T (clock (ticks s)) (set_ticks s (S (ticks s))) Ln G) as [f Hf].
      exists (S f); rewrite Eq; exact Hf.
    - destruct (T cur s Ln G) as [f Hf]; exists (S f); rewrite Eq; exact Hf.
  Qed.
End Stop.

(* C69: when the candidates that can ever be generated are finitely many and
   the clock does not run backwards, fit stops, by returning or by raising,
   for every timeout. *)
Theorem C69_stops :
  forall (C : Type) candidate_eq generate (dl : list (row C) -> Q) usage row_key clock timeout universe,
  (forall c, candidate_eq c c = true) ->
  (forall rewritten_graph table c, In c (generate rewritten_graph table) -> In c universe) ->
  (forall i j, i <= j -> (clock i <= clock j)%Q) ->
  exists fuel, forall s, fit candidate_eq generate dl usage row_key clock timeout fuel <> Running s.
Proof.
  intros C ceq gen dl usage key clock timeout U Hrefl HU Hclock.
  destruct (search_stops ceq gen dl usage key clock timeout U Hrefl HU Hclock (length U) 0%Q (initial dl))
    as [f Hf].
  - unfold room; cbn; lia.
  - split; [split; [intros i j a b _ H; destruct i; discriminate | intros a b []] | intros x []].
  - exists f; intros s E; unfold fit in E; rewrite E in Hf; exact Hf.
Qed.

(* ------------------------------------------------ cases and refutations *)
Section Witness.
  Definition w_names (l : list (row nat)) := map (@rcand nat) l.
  (* candidate 1 has two labels, candidates 2 and 3 one; same support *)
  Definition w_key (c : nat) : Z * Z := match c with 1 => (2, 0)%Z | _ => (1, 0)%Z end.
  Definition w_dl (l : list (row nat)) : Q :=
    match w_names l with
    | [] => 10%Q | [1] => 9%Q | [1; 2] => 8%Q | [2] => 7%Q | [2; 3] => 6%Q | [3] => 8%Q | _ => 20%Q
    end.
  Definition w_usage (l : list (row nat)) (r : row nat) : Z :=
    match w_names l, rcand r with
    | [1], 1 => 5%Z | [1; 2], 1 => 3%Z | [2; 3], 2 => 2%Z | _, _ => 4%Z
    end.
  Definition w_generate (_ l : list (row nat)) : list nat :=
    match w_names l with [] => [1] | [1] => [2] | [2] => [3] | _ => [] end.

  (* as above, with a length that only looks at the set of rows *)
  Definition v_dl (l : list (row nat)) : Q := inject_Z (10 - Z.of_nat (length l)).
End Witness.

(* C60: when the length depends on the place of tied rows, the final length
   can exceed the initial one: rows 2 and 3 get the same arrival number after
   row 1 is pruned, row 2 is put back behind row 3 by a failed pruning, and
   the last cover then uses the new order. *)
Theorem C60_ties_refuted :
  exists (C : Type) candidate_eq generate (dl : list (row C) -> Q) usage row_key clock fuel s,
  fit candidate_eq generate dl usage row_key clock None fuel = Done s /\ (dl [] < length_ s)%Q.
Proof.
  exists nat, Nat.eqb, w_generate, w_dl, w_usage, w_key, (fun _ => 0%Q), 20.
  eexists; split; [vm_compute; reflexivity | reflexivity].
Qed.

(* C69: fit does not always return: a candidate that was tested and is
   generated again makes it raise TypeError. *)
Theorem C69_returns_refuted :
  exists (C : Type) candidate_eq generate (dl : list (row C) -> Q) usage row_key clock universe,
  (forall c, candidate_eq c c = true) /\
  (forall w t c, In c (generate w t) -> In c universe) /\
  (forall i j, i <= j -> (clock i <= clock j)%Q) /\
  exists fuel s, fit candidate_eq generate dl usage row_key clock None fuel = Raised TypeError s.
Proof.
  exists nat, Nat.eqb, (fun _ _ => [1; 2]), (fun l => match w_names l with [2] => 5%Q | _ => 10%Q end),
    w_usage, w_key, (fun _ => 0%Q), [1; 2].
  split; [apply Nat.eqb_refl|]; split; [intros w t c H; exact H|]; split; [intros; apply Qle_refl|].
  exists 20; eexists; vm_compute; reflexivity.
Qed.

Example C60_case : ties_harmless w_key v_dl /\
  exists s, fit Nat.eqb w_generate v_dl w_usage w_key (fun n => inject_Z (Z.of_nat n)) (Some 100%Q) 20 = Done s
    /\ (length_ s < v_dl [])%Q /\ already_test s = [1; 2].
Proof.
  split.
  - intros a b P _ _; unfold v_dl; rewrite (Permutation_length P); reflexivity.
  - eexists; split; [vm_compute; reflexivity|]; split; reflexivity.
Qed.
Example C69_case :
  (forall c, Nat.eqb c c = true) /\
  (forall w t c, In c (w_generate w t) -> In c [1; 2; 3]) /\
  exists s, fit Nat.eqb w_generate w_dl w_usage w_key (fun n => inject_Z (Z.of_nat n)) (Some 3%Q) 20 = Done s.
Proof.
  split; [apply Nat.eqb_refl|]; split.
  - intros w t c; unfold w_generate.
    destruct (w_names t) as [|[|[|[|n]]] [|]]; cbn; intuition.
  - eexists; vm_compute; reflexivity.
Qed.

Print Assumptions C60_monotone_partial.
Print Assumptions C60_accept_once.
Print Assumptions C60_ties_refuted.
Print Assumptions C69_stops.
Print Assumptions C69_returns_refuted.
