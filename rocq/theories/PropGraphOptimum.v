(* C60, continued: where the GraphMDL search stops. *)
From Coq Require Import QArith Sorting.Sorted.
Open Scope nat_scope.
From Verif Require Import Prelude CheckModel LCMModel GraphSearchModel PropGraphSearch.

(* ------------------------------------------------------- specification *)
(* the table with one more row, made from candidate [c] *)
Definition with_candidate {C} (key : C -> Z * Z) (table : list (row C)) (n : nat) (c : C) : list (row C) :=
  sort_rows key (table ++ [{| rid := n; rcand := c; arrival := length table + 1 |}]).

(* --------------------------------------------------------------- proofs *)
Lemma insert_head {A} (leb : A -> A -> bool) x l : Forall (fun y => leb x y = true) l -> insert_left leb x l = x :: l.
Proof. destruct l as [|y l]; [reflexivity|]. intros F. inversion F as [|? ? E]; subst. cbn. rewrite E. reflexivity. Qed.
Lemma sort_sorted_id {A} (leb : A -> A -> bool) l : StronglySorted (fun a b => leb a b = true) l -> sort leb l = l.
Proof. induction 1 as [|x l Hs IH Hx]; [reflexivity|]. unfold sort in *. cbn [fold_right]. rewrite IH. apply insert_head, Hx. Qed.

Section Optimum.
  Context {C : Type}.
  Variable candidate_eq : C -> C -> bool.
  Variable generate : list (row C) -> list (row C) -> list C.
  Variable dl : list (row C) -> Q.
  Variable usage : list (row C) -> row C -> Z.
  Variable row_key : C -> Z * Z.
  Variable clock : nat -> Q.
  Notation leb := (row_leb row_key).

  Lemma remove_insert (r x : row C) l : in_order row_key l -> rid x <> rid r ->
    remove1 r (insert_left leb x l) = insert_left leb x (remove1 r l).
  Proof.
    intros Hs Hx. assert (Hxr : same_row r x = false) by (apply Nat.eqb_neq; congruence).
    induction Hs as [|y l Hs IH Hy]; cbn [insert_left remove1]; [rewrite Hxr; reflexivity|].
    destruct (leb x y) eqn:E; cbn [remove1]; rewrite ?Hxr.
    - destruct (same_row r y) eqn:Er; cbn [insert_left]; [|rewrite E; reflexivity].
      symmetry. apply insert_head. eapply Forall_impl; [|exact Hy]. cbn beta. intros z Hz. eapply row_leb_trans; eassumption.
    - destruct (same_row r y) eqn:Er; [reflexivity|]. cbn [insert_left]. rewrite E, IH. reflexivity.
  Qed.
  (* a row that is added and removed again leaves no trace *)
  Lemma add_remove (r : row C) l : in_order row_key l -> ~ In (rid r) (map rid l) -> sort_rows row_key (remove1 r (sort_rows row_key (l ++ [r]))) = l.
  Proof.
    intros Hs Hn.
    assert (E : remove1 r (sort_rows row_key (l ++ [r])) = sort_rows row_key l).
    { clear Hs. unfold sort_rows. induction l as [|x l IH]; cbn.
      - unfold same_row. rewrite Nat.eqb_refl. reflexivity.
      - cbn in Hn. unfold sort in IH. rewrite remove_insert; [rewrite IH by tauto; reflexivity | apply (sort_rows_in_order row_key) | intros K; apply Hn; left; exact K]. }
    rewrite E. unfold sort_rows. rewrite (sort_sorted_id leb l Hs). apply sort_sorted_id, Hs.
  Qed.

  Hypothesis ties : ties_harmless row_key dl.
  Hypothesis eq_refl_ : forall c, candidate_eq c c = true.
  Notation inv := (inv dl row_key (dl [])).
  Notation pruning_loop := (pruning_loop dl usage row_key).
  Notation candidate_loop := (candidate_loop candidate_eq dl usage row_key clock None).
  Notation search := (search candidate_eq generate dl usage row_key clock None).
  Notation fit := (fit candidate_eq generate dl usage row_key clock None).
  (* the graph was last rewritten with the rows of the table *)
  Definition fresh_graph (s : st C) : Prop := Permutation (rewritten s) (rows s).
  Lemma start' s : inv s -> inv (start_pruning s).
  Proof. apply (inv_start generate dl usage row_key (dl [])). Qed.
  Lemma cpc' s : inv s -> inv (compute_pruning_candidates s).
  Proof. apply (inv_cpc generate dl usage row_key (dl [])). Qed.
  Lemma pruning' s p : inv s -> (forall x, In x p -> In x (pruning_rows s) \/ In x (rows s)) -> inv (set_pruning s p).
  Proof. apply (inv_pruning generate dl usage row_key (dl [])). Qed.
  Lemma graph_pruning fuel : forall i s, inv s -> fresh_graph s -> fresh_graph (state_of (pruning_loop fuel i s)).
  Proof.
    induction fuel as [|f IH]; intros i s I G; [exact G|]. rewrite pruning_loop_S.
    destruct (nth_error (pruning_rows s) i) as [r|] eqn:En; [|exact G]. apply nth_error_In in En.
    destruct (existsb (same_row r) (rows s)) eqn:Ee; cbn [negb]; [|exact G].
    assert (W : wf row_key s) by apply I. assert (Hr : In r (rows s)) by (eapply in_rows_existsb; eassumption).
    pose proof (wf_drop row_key s r W Hr) as Wd. set (s1 := try_remove usage row_key s r).
    assert (W1 : wf row_key s1) by (apply wf_cover; exact Wd).
    destruct (negb (Qle_bool (length_ s1) (dl (rows s1)))) eqn:El.
    - apply Qlt_negb in El.
      assert (I3 : inv (keep_removal dl s1 r)).
      { apply start', cpc', pruning'; [apply inv_adopt; [exact W1 | reflexivity | apply I | exact El]|].
        intros x Hx; left; apply remove1_incl in Hx; exact Hx. }
      assert (G3 : fresh_graph (keep_removal dl s1 r)) by apply Permutation_refl.
      pose proof (IH 0 _ I3 G3) as G4. pose proof (inv_pruning_loop generate dl usage row_key ties (dl []) f 0 _ I3) as I4.
      destruct (pruning_loop f 0 (keep_removal dl s1 r)) as [s4|e4 s4|s4]; cbn in G4, I4; [apply IH; assumption | exact G4 | exact G4].
    - assert (P : Permutation (rows (add_row row_key s1 r)) (rows s)).
      { rewrite add_perm; apply (drop_perm row_key r s W Hr). }
      assert (W2 : wf row_key (add_row row_key s1 r)).
      { apply wf_add; [exact W1 | | | ].
        + apply (wf_fresh row_key s W); left; exact Hr.
        + apply (dropped_absent row_key s r W Hr).
        + intros x Hx E; apply (wf_same row_key s W); assumption. }
      apply IH.
      + apply (inv_perm dl row_key ties (dl []) s); auto.
      + unfold fresh_graph in *. change (rewritten (add_row row_key s1 r)) with (rewritten s). rewrite P. exact G.
  Qed.

  (* one evaluation: the candidate improves the table, or leaves it as it was *)
  Lemma evaluate_cases fuel last c cur s k : inv s -> fresh_graph s ->
    let new := with_candidate row_key (rows s) (fresh s) c in
    let o := evaluate dl usage row_key None fuel last c cur s k in
    ((dl new < length_ s)%Q /\ (forall cur' s', o <> Left true cur' s') /\ (forall cur' s', o <> Through cur' s') /\ inv (lstate o) /\ fresh_graph (lstate o)) \/
    ((length_ s <= dl new)%Q /\ exists s1, rows s1 = rows s /\ rewritten s1 = rewritten s /\ length_ s1 = length_ s /\ inv s1 /\
       ((last = true /\ o = Left true cur (graph_mdl_end dl usage s1)) \/ o = k s1)).
  Proof.
    intros I G new o. unfold o, evaluate. destruct (insert_candidate usage row_key s c) as [r s3] eqn:Ei.
    assert (Hs := insert_candidate_facts dl usage row_key (dl []) c s r s3 I Ei). destruct Hs as (W3 & In3 & P3 & Len3 & Acc3).
    assert (Er : r = {| rid := fresh s; rcand := c; arrival := length (rows s) + 1 |} /\ rows s3 = new /\ rewritten s3 = rewritten s).
    { unfold insert_candidate in Ei. injection Ei as E1 E2. subst r s3. repeat split. }
    destruct Er as (Er & Er3 & Eg).
    assert (Hfr : ~ In (rid r) (map rid (rows s))).
    { rewrite Er. cbn. intros F. apply in_map_iff in F. destruct F as (x & E & Hx).
      assert (rid x < fresh s) by (apply (wf_fresh row_key s (i_wf _ _ _ _ I)); left; exact Hx). lia. }
    assert (Eq : rows (drop_row row_key s3 r) = rows s).
    { cbn. rewrite Er3. unfold new, with_candidate. rewrite <- Er. apply add_remove; [apply I | exact Hfr]. }
    assert (I4 : inv (drop_row row_key s3 r)).
    { apply (inv_perm dl row_key ties (dl []) s); auto; [apply wf_drop; assumption | rewrite Eq; apply Permutation_refl]. }
    rewrite Er3, Len3. destruct (negb (Qle_bool (length_ s) (dl new))) eqn:El.
    - left. assert (El' := Qlt_negb _ _ El). split; [exact El'|].
      assert (I5 : inv (start_pruning (accept dl s3))).
      { apply start', cpc', inv_adopt; [exact W3 | reflexivity | rewrite Acc3, Len3; apply I | rewrite Len3, Er3; exact El']. }
      assert (G5 : fresh_graph (start_pruning (accept dl s3))) by apply Permutation_refl.
      pose proof (inv_pruning_loop generate dl usage row_key ties (dl []) fuel 0 _ I5) as I6. pose proof (graph_pruning fuel 0 _ I5 G5) as G6.
      unfold GraphSearchModel.pruning.
      destruct (pruning_loop fuel 0 (start_pruning (accept dl s3))) as [s4|e4 s4|s4]; (split; [discriminate|]; split; [discriminate|]; split; [exact I6 | exact G6]).
    - right. split.
      { apply negb_false_iff, Qle_bool_iff in El. exact El. }
      exists (drop_row row_key s3 r). split; [exact Eq|]. split; [exact Eg|]. split; [exact Len3|]. split; [exact I4|].
      destruct (negb (Qle_bool (dl new) (length_ s)) && last) eqn:E2; [|right; reflexivity].
      apply andb_true_iff in E2. left. split; [apply E2 | reflexivity].
  Qed.

  Lemma index_le all pre c rest : all = pre ++ c :: rest -> index_of candidate_eq all c <= length pre.
  Proof.
    intros ->. unfold index_of. induction pre as [|x pre IH]; cbn; [rewrite eq_refl_; lia|]. destruct (candidate_eq x c); lia.
  Qed.
  Definition no_better (w : list (row C)) (s : st C) (cs : list C) : Prop :=
    forall c, In c cs -> exists n, ~ In n (map rid (rows s)) /\ (length_ s <= dl (with_candidate row_key (rows s) n c))%Q.
  Lemma loop_cases fuel all cs : forall pre cur s, all = pre ++ cs -> inv s -> fresh_graph s ->
    let o := candidate_loop fuel all cs cur s in
    (inv (lstate o) /\ fresh_graph (lstate o)) /\
    (forall cur' s', o = Left true cur' s' -> rows s' = rows s /\ no_better (rewritten s) s cs).
  Proof.
    induction cs as [|c cs IH]; intros pre cur s Ea I G o; [split; [split; assumption | discriminate]|].
    unfold o. rewrite candidate_loop_cons. destruct (existsb _ (already_test s)); [split; [split; assumption | discriminate]|].
    set (last := index_of candidate_eq all c =? length all - 1).
    assert (Hlast : last = true -> cs = []).
    { intros E. apply Nat.eqb_eq in E. pose proof (index_le all pre c cs Ea) as Hi. rewrite E in Hi. rewrite Ea, app_length in Hi. cbn in Hi.
      destruct cs; [reflexivity | cbn in Hi; lia]. }
    assert (Hn : ~ In (fresh s) (map rid (rows s))).
    { intros F. apply in_map_iff in F. destruct F as (x & E & Hx).
      assert (rid x < fresh s) by (apply (wf_fresh row_key s (i_wf _ _ _ _ I)); left; exact Hx). lia. }
    destruct (evaluate_cases fuel last c cur s (candidate_loop fuel all cs cur) I G) as [(H1 & H2 & H3 & H4 & H5)|(H1 & s1 & R1 & R2 & R3 & R4 & R5)].
    - split; [split; assumption|]. intros cur' s' E. exfalso. exact (H2 _ _ E).
    - assert (G1 : fresh_graph s1) by (unfold fresh_graph; rewrite R1, R2; exact G).
      assert (Here : exists n, ~ In n (map rid (rows s)) /\ (length_ s <= dl (with_candidate row_key (rows s) n c))%Q) by eauto.
      destruct R5 as [[El ->]| ->].
      + split; [split; [apply inv_end; exact R4 | apply Permutation_refl]|]. intros cur' s' [= <- <-]. split; [exact R1|].
        rewrite (Hlast El). intros x [<-|[]]. exact Here.
      + destruct (IH (pre ++ [c]) cur s1) as [K1 K2]; [rewrite <- app_assoc; exact Ea | exact R4 | exact G1 |]. split; [exact K1|].
        intros cur' s' E. destruct (K2 cur' s' E) as [K3 K4]. split; [congruence|]. intros x [<-|Hx]; [exact Here|].
        destruct (K4 x Hx) as (n & N1 & N2). exists n. rewrite R1, R3 in *. auto.
  Qed.
  Lemma search_end fuel : forall stop cur s s', inv s -> fresh_graph s -> search fuel stop cur s = Done s' ->
    (stop = true /\ s' = s) \/
    exists s0, inv s0 /\ fresh_graph s0 /\ rows s' = rows s0 /\ no_better (rewritten s0) s0 (generate (rewritten s0) (rows s0)).
  Proof.
    induction fuel as [|f IH]; intros stop cur s s' I G E; [destruct stop; [left; split; [reflexivity | cbn in E; congruence] | discriminate]|].
    rewrite search_S in E. destruct stop; [left; split; [reflexivity | congruence]|]. right. unfold round in E.
    destruct (generate (rewritten s) (rows s)) as [|c cs] eqn:Eg.
    - cbn [next] in E. exists s. rewrite Eg. split; [exact I|]. split; [exact G|]. split; [|intros x []].
      destruct f; cbn in E; injection E as <-; reflexivity.
    - destruct (loop_cases f (c :: cs) (c :: cs) [] cur s eq_refl I G) as [[K1 K2] K3].
      destruct (candidate_loop f (c :: cs) (c :: cs) cur s) as [cur1 s1|stop1 cur1 s1|e1 s1|s1] eqn:El; cbn [next lstate] in *; try discriminate.
      + destruct (IH false cur1 s1 s' K1 K2 E) as [[? _]|Hx]; [discriminate | exact Hx].
      + destruct stop1.
        * destruct (K3 cur1 s1 eq_refl) as [K4 K5]. exists s. rewrite Eg. split; [exact I|]. split; [exact G|].
          destruct (IH true cur1 s1 s' K1 K2 E) as [[_ ->]|Hx]; [split; assumption|].
          destruct f; cbn in E; injection E as <-; split; assumption.
        * destruct (IH false cur1 s1 s' K1 K2 E) as [[? _]|Hx]; [discriminate | exact Hx].
  Qed.

  (* Without a time limit, the table the search returns cannot be made shorter by any candidate: each one
     generated for it was tried, and the table with it is at least as long. *)
  Theorem C60_optimum_partial : forall fuel s, fit fuel = Done s ->
    exists w, Permutation w (rows s) /\ forall c, In c (generate w (rows s)) ->
      exists n, ~ In n (map rid (rows s)) /\ (length_ s <= dl (with_candidate row_key (rows s) n c))%Q.
  Proof.
    intros fuel s E.
    assert (I0 : inv (initial dl)).
    { constructor; [|reflexivity|reflexivity]. constructor; cbn; [constructor | constructor | tauto | tauto]. }
    assert (Is : inv s).
    { pose proof (inv_search candidate_eq generate dl usage row_key clock None ties (dl []) fuel false 0%Q _ I0) as Hi.
      unfold GraphSearchModel.fit in E. rewrite E in Hi. exact Hi. }
    destruct (search_end fuel false 0%Q (initial dl) s I0 (Permutation_refl _) E) as [[? _]|(s0 & I1 & G1 & R1 & N1)]; [discriminate|].
    exists (rewritten s0). rewrite R1. split; [exact G1|]. intros c Hc. destruct (N1 c Hc) as (n & N2 & N3). exists n. split; [exact N2|].
    rewrite (i_len _ _ _ _ Is), R1, <- (i_len _ _ _ _ I1). exact N3.
  Qed.
End Optimum.
Print Assumptions C60_optimum_partial.
Definition o_dl (l : list (row nat)) : Q := match length l with 0 => 10%Q | 1 => 9%Q | _ => 11%Q end.
Definition o_generate (_ l : list (row nat)) : list nat := match map (@rcand nat) l with [] => [1; 5] | [1] => [2; 3] | _ => [] end.
Example C60_optimum_case : ties_harmless w_key o_dl /\ (forall c, Nat.eqb c c = true) /\
  exists s, fit Nat.eqb o_generate o_dl w_usage w_key (fun _ => 0%Q) None 20 = Done s /\
    map (@rcand nat) (rows s) = [1] /\ o_generate (rows s) (rows s) = [2; 3] /\ already_test s = [1; 2; 3].
Proof.
  split; [|split; [apply Nat.eqb_refl|]].
  - intros a b P _ _. unfold o_dl. rewrite (Permutation_length P). reflexivity.
  - eexists. split; [vm_compute; reflexivity|]. repeat split.
Qed.
