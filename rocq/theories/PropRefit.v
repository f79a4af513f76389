(* C92: what a GraphMDL object answers after any history of calls. *)
From Coq Require Import QArith.
Open Scope nat_scope.
From Verif Require Import Prelude CheckModel LCMModel VerticalProofs GraphSearchModel PropGraphSearch RefitModel.

(* ------------------------------------------------------- specification *)
Section Spec.
  Context {C P : Type}.
  Variable candidate_eq : C -> C -> bool.

  (* the calls that only ask *)
  Definition asks (c : call C P) : Prop := match c with Fit _ _ _ _ => False | _ => True end.
  Definition answers (h : list (call C P)) : list (answer P) := fst (run candidate_eq new h).
  Definition object_after (h : list (call C P)) : miner C P := snd (run candidate_eq new h).
  (* the answers to the calls of [q] made after those of [h] *)
  Definition answers_after (h q : list (call C P)) : list (answer P) :=
    fst (run candidate_eq (object_after h) q).

  (* the last timeout given to a fit, even to one that failed; 0 and None do
     not count *)
  Fixpoint last_timeout (t : option Q) (h : list (call C P)) : option Q :=
    match h with
    | [] => t
    | Fit _ (Some q) _ _ :: r => last_timeout (if Qeq_bool q 0 then t else Some q) r
    | _ :: r => last_timeout t r
    end.
  (* rows that earlier fits wanted to prune and could not *)
  Definition nothing_left (h : list (call C P)) : Prop := pruning_rows (m_st (object_after h)) = [].

  (* the patterns of a covered table: those of the rows with a code length,
     and the singletons *)
  Definition table_patterns (w : world C P) (cs : list C) : list P :=
    map (fun ic => w_pattern w (snd ic))
        (filter (fun ic => w_coded w cs (fst ic)) (combine (seq 0 (length cs)) cs))
    ++ w_singles w cs.
End Spec.

(* --------------------------------------------------------------- proofs *)
Lemma insert_left_map {A B} (f : A -> B) (le1 : A -> A -> bool) (le2 : B -> B -> bool) x l :
  (forall a b, le2 (f a) (f b) = le1 a b) -> insert_left le2 (f x) (map f l) = map f (insert_left le1 x l).
Proof.
  intros H. induction l as [|y t IH]; [reflexivity|]. cbn. rewrite H. destruct (le1 x y); [reflexivity|].
  cbn. rewrite IH. reflexivity.
Qed.
Lemma sort_map {A B} (f : A -> B) le1 le2 l :
  (forall a b, le2 (f a) (f b) = le1 a b) -> sort le2 (map f l) = map f (sort le1 l).
Proof.
  intros H. induction l as [|x t IH]; [reflexivity|]. cbn [map]. unfold sort in *. cbn [fold_right]. rewrite IH.
  apply insert_left_map, H.
Qed.
Lemma filter_map_comm {A B} (f : A -> B) p q l : (forall a, In a l -> q (f a) = p a) -> filter q (map f l) = map f (filter p l).
Proof.
  induction l as [|x t IH]; intros H; [reflexivity|]. cbn. rewrite H by (left; reflexivity).
  rewrite IH by (intros a Ha; apply H; right; exact Ha). destruct (p x); reflexivity.
Qed.

(* ---- identities stay below the counter ---- *)
Section Bounded.
  Context {C : Type}.
  Variable candidate_eq : C -> C -> bool.
  Variable generate : list (row C) -> list (row C) -> list C.
  Variable dl : list (row C) -> Q.
  Variable usage : list (row C) -> row C -> Z.
  Variable row_key : C -> Z * Z.
  Variable clock : nat -> Q.
  Variable timeout : option Q.

  Record bounded (s : st C) : Prop := {
    b_rows : forall r, In r (rows s) -> rid r < fresh s;
    b_pruning : forall r, In r (pruning_rows s) -> rid r < fresh s;
    b_usages : forall i, fresh s <= i -> dget (usages s) i = None;
    b_old : forall i, fresh s <= i -> dget (old_usage s) i = None;
    b_ids : NoDup (map rid (rows s))
  }.
  Lemma remove1_ids (r : row C) l : NoDup (map rid l) ->
    NoDup (map rid (remove1 r l)) /\ ~ In (rid r) (map rid (remove1 r l)).
  Proof.
    induction l as [|x t IH]; intros N; [split; [constructor | intros []]|]. cbn in N. inversion N as [|? ? Hn Ht]; subst.
    cbn [remove1]. destruct (same_row r x) eqn:E.
    - apply Nat.eqb_eq in E. rewrite E. split; assumption.
    - apply Nat.eqb_neq in E. destruct (IH Ht) as [A B]. cbn [map]. split.
      + constructor; [|exact A]. intros F. apply Hn. apply in_map_iff in F as (y & Ey & Hy). rewrite <- Ey. apply in_map, (remove1_incl r), Hy.
      + intros [F|F]; [congruence | contradiction].
  Qed.
  Lemma sort_ids l : NoDup (map rid l) -> NoDup (map rid (sort_rows row_key l)).
  Proof. apply Permutation_NoDup, Permutation_map. symmetry. apply sort_perm. Qed.
  Lemma fold_dset_None (f : row C -> Z) l : forall d n, (forall r, In r l -> rid r < n) ->
    (forall i, n <= i -> dget d i = None) ->
    forall i, n <= i -> dget (fold_left (fun d r => dset d (rid r) (f r)) l d) i = None.
  Proof.
    induction l as [|x t IH]; intros d n Hl Hd i Hi; cbn; [apply Hd, Hi|].
    apply (IH _ n); [intros r Hr; apply Hl; right; exact Hr | | exact Hi].
    intros j Hj. rewrite dget_dset. destruct (eq_dec j (rid x)) as [->|N]; [|apply Hd, Hj].
    specialize (Hl x (or_introl eq_refl)). lia.
  Qed.
  Lemma bounded_cover s : bounded s -> bounded (cover usage s).
  Proof.
    intros [A B D E I]. constructor; try assumption.
    cbn. apply fold_dset_None; assumption.
  Qed.
  Lemma bounded_old s : bounded s -> bounded (compute_old_usage s).
  Proof.
    intros [A B D E I]. constructor; try assumption.
    cbn. apply fold_dset_None; [assumption | reflexivity].
  Qed.
  Lemma bounded_rows s l : bounded s -> (forall r, In r l -> rid r < fresh s) -> NoDup (map rid l) -> bounded (set_rows s l).
  Proof. intros [A B D E I] Hl Hn. constructor; assumption. Qed.
  Lemma bounded_pruning s l : bounded s -> (forall r, In r l -> rid r < fresh s) -> bounded (set_pruning s l).
  Proof. intros [A B D E I] Hl. constructor; assumption. Qed.
  Lemma bounded_drop s r : bounded s -> bounded (drop_row row_key s r).
  Proof.
    intros B. apply bounded_rows; [exact B | |].
    - intros x Hx. apply In_sort in Hx. apply remove1_incl in Hx. apply (b_rows s B), Hx.
    - apply sort_ids, remove1_ids, B.
  Qed.
  Lemma bounded_add s r : bounded s -> rid r < fresh s -> ~ In (rid r) (map rid (rows s)) -> bounded (add_row row_key s r).
  Proof.
    intros B Hr Hn. apply bounded_rows; [exact B | |].
    - intros x Hx. apply In_sort in Hx. apply in_app_or in Hx.
      destruct Hx as [Hx|[<-|[]]]; [apply (b_rows s B), Hx | exact Hr].
    - apply sort_ids. rewrite map_app. apply (Permutation_NoDup (l := rid r :: map rid (rows s))).
      + apply Permutation_cons_append.
      + constructor; [exact Hn | apply B].
  Qed.
  Lemma bounded_cpc s : bounded s -> bounded (compute_pruning_candidates s).
  Proof.
    intros B. apply bounded_pruning; [exact B|]. intros x Hx. apply in_app_or in Hx.
    destruct Hx as [Hx|Hx]; [apply (b_pruning s B), Hx | apply filter_In in Hx; apply (b_rows s B), Hx].
  Qed.
  Lemma bounded_start s : bounded s -> bounded (start_pruning s).
  Proof.
    intros B. unfold start_pruning. apply bounded_pruning; [apply bounded_old, B|].
    intros x Hx. apply In_sort in Hx. apply (b_pruning s B), Hx.
  Qed.
  (* what changes none of the fields *)
  Lemma bounded_ext s s' : bounded s -> rows s' = rows s -> pruning_rows s' = pruning_rows s ->
    fresh s' = fresh s -> usages s' = usages s -> old_usage s' = old_usage s -> bounded s'.
  Proof. intros [A B D E I] H1 H2 H3 H4 H5. constructor; rewrite ?H1, ?H2, ?H3, ?H4, ?H5; assumption. Qed.
  Lemma bounded_keep s r : bounded s -> bounded (keep_removal dl s r).
  Proof.
    intros B. unfold keep_removal. apply bounded_start, bounded_cpc, bounded_pruning.
    - apply (bounded_ext s); auto.
    - intros x Hx. apply remove1_incl in Hx. apply (b_pruning s B), Hx.
  Qed.
  Lemma bounded_pruning_loop fuel : forall i s, bounded s -> bounded (state_of (pruning_loop dl usage row_key fuel i s)).
  Proof.
    induction fuel as [|f IH]; intros i s B; [exact B|]. rewrite pruning_loop_S.
    destruct (nth_error (pruning_rows s) i) as [r|] eqn:En; [|exact B]. apply nth_error_In in En.
    destruct (negb (existsb (same_row r) (rows s))); [exact B|].
    assert (B1 : bounded (try_remove usage row_key s r)) by (apply bounded_cover, bounded_drop, B).
    destruct (negb _).
    - pose proof (IH 0 _ (bounded_keep _ r B1)) as B4.
      destruct (pruning_loop dl usage row_key f 0 _) as [s4|e s4|s4]; cbn in B4; [apply IH, B4 | exact B4 | exact B4].
    - apply IH, bounded_add; [exact B1 | apply (b_pruning s B), En |].
      cbn. intros F. apply in_map_iff in F as (x & Ex & Hx). apply In_sort in Hx.
      apply (proj2 (remove1_ids r (rows s) (b_ids s B))). rewrite <- Ex. apply in_map, Hx.
  Qed.
  Lemma bounded_insert s c r s3 : bounded s -> insert_candidate usage row_key s c = (r, s3) ->
    bounded s3 /\ rid r = fresh s /\ rid r < fresh s3.
  Proof.
    intros B E. unfold insert_candidate in E.
    assert (B1 : bounded (set_fresh (compute_old_usage s) (S (fresh s)))).
    { destruct (bounded_old s B) as [X Y Z W V]. constructor; cbn in *.
      - intros x Hx. specialize (X x Hx). lia.
      - intros x Hx. specialize (Y x Hx). lia.
      - intros i Hi. apply Z. lia.
      - intros i Hi. apply W. lia.
      - exact V. }
    injection E as E1 E2. subst r s3. split; [|split; [reflexivity|cbn; lia]].
    apply (bounded_ext (cover usage (add_row row_key (set_fresh (compute_old_usage s) (S (fresh s))) (new_row (compute_old_usage s) c)))); try reflexivity.
    apply bounded_cover, bounded_add; [exact B1|cbn; lia|].
    cbn. intros F. apply in_map_iff in F as (x & Ex & Hx). pose proof (b_rows s B x Hx). lia.
  Qed.
  Lemma bounded_end s : bounded s -> bounded (graph_mdl_end dl usage s).
  Proof. intros B. apply (bounded_ext (cover usage s)); try reflexivity. apply bounded_cover, B. Qed.
  Lemma bounded_candidate_loop fuel all cs : forall cur s, bounded s ->
    bounded (lstate (candidate_loop candidate_eq dl usage row_key clock timeout fuel all cs cur s)).
  Proof.
    induction cs as [|c rest IH]; intros cur s B; [exact B|]. rewrite candidate_loop_cons.
    destruct (existsb _ (already_test s)); [exact B|].
    assert (EV : forall last cur s1, bounded s1 ->
      bounded (lstate (evaluate dl usage row_key timeout fuel last c cur s1
        (candidate_loop candidate_eq dl usage row_key clock timeout fuel all rest cur)))).
    { intros last cur1 s1 B1. unfold evaluate. destruct (insert_candidate usage row_key s1 c) as [r s3] eqn:Ei.
      destruct (bounded_insert _ _ _ _ B1 Ei) as (B3 & _).
      destruct (negb _).
      - assert (B4 : bounded (start_pruning (accept dl s3))).
        { apply bounded_start, bounded_cpc, (bounded_ext s3); auto. }
        pose proof (bounded_pruning_loop fuel 0 _ B4) as B5. unfold pruning.
        destruct (pruning_loop dl usage row_key fuel 0 _); exact B5.
      - destruct (_ && _); [apply bounded_end, bounded_drop, B3 | apply IH, bounded_drop, B3]. }
    destruct timeout as [t|].
    - assert (B1 : bounded (set_ticks s (S (ticks s)))) by (apply (bounded_ext s); auto).
      destruct (Qle_bool t (clock (ticks s))); [apply bounded_end, B1 | apply EV, B1].
    - apply EV, B.
  Qed.
  Lemma bounded_search fuel : forall stop cur s, bounded s ->
    bounded (state_of (search candidate_eq generate dl usage row_key clock timeout fuel stop cur s)).
  Proof.
    assert (Rd : forall fuel cur s, bounded s -> bounded (lstate (round candidate_eq generate dl usage row_key clock timeout fuel cur s))).
    { intros f cur s B. unfold round. pose proof (bounded_candidate_loop f (generate (rewritten s) (rows s)) (generate (rewritten s) (rows s)) cur s B) as B1.
      destruct (generate (rewritten s) (rows s)); [apply bounded_end, B | exact B1]. }
    induction fuel as [|f IH]; intros stop cur s B; [destruct stop; exact B|].
    rewrite search_S. destruct stop; [exact B|].
    assert (N : forall o, bounded (lstate o) ->
      bounded (state_of (next candidate_eq generate dl usage row_key clock timeout f o))).
    { intros [x y|b x y|e4 y|y] H; cbn in H; [apply IH; exact H | apply IH; exact H | exact H | exact H]. }
    destruct timeout as [t|].
    - destruct (negb (Qle_bool cur t)); [exact B|].
      assert (B1 : bounded (set_ticks s (S (ticks s)))) by (apply (bounded_ext s); auto).
      destruct (Qle_bool t (clock (ticks s))); [apply bounded_end, B1|]. apply N, Rd, B1.
    - apply N, Rd, B.
  Qed.
End Bounded.

(* ---- the identities of the rows do not matter ---- *)
Section Shifted.
  Context {C P : Type}.
  Variable candidate_eq : C -> C -> bool.
  Variable w : world C P.
  Variable clock : nat -> Q.
  Variable timeout : option Q.
  Variable k : nat.

  Notation gen := (fun a b => w_generate w (names a) (names b)).
  Notation dl := (fun l => w_dl w (names l)).
  Notation use := (fun l r => w_usage w (names l) (position r l)).
  Notation key := (w_key w).

  Definition sh (r : row C) : row C := {| rid := rid r + k; rcand := rcand r; arrival := arrival r |}.
  Definition same_dict (a b : list (nat * Z)) : Prop := forall i, dget b (i + k) = dget a i.
  Record alike (s t : st C) : Prop := {
    a_rows : rows t = map sh (rows s);
    a_len : length_ t = length_ s;
    a_rew : rewritten t = map sh (rewritten s);
    a_pru : pruning_rows t = map sh (pruning_rows s);
    a_use : same_dict (usages s) (usages t);
    a_old : same_dict (old_usage s) (old_usage t);
    a_test : already_test t = already_test s;
    a_fresh : fresh t = fresh s + k;
    a_ticks : ticks t = ticks s;
    a_acc : accepted t = accepted s;
    a_cov : covers t = map (map sh) (covers s)
  }.

  Lemma names_sh l : names (map sh l) = names l.
  Proof. unfold names. rewrite map_map. reflexivity. Qed.
  Lemma same_row_sh a b : same_row (sh a) (sh b) = same_row a b.
  Proof.
    unfold same_row, sh. cbn. destruct (Nat.eqb_spec (rid a) (rid b)), (Nat.eqb_spec (rid a + k) (rid b + k)); try reflexivity; lia.
  Qed.
  Lemma position_sh r l : position (sh r) (map sh l) = position r l.
  Proof. induction l as [|x t IH]; [reflexivity|]. cbn [map position]. rewrite same_row_sh, IH. reflexivity. Qed.
  Lemma remove1_sh r l : remove1 (sh r) (map sh l) = map sh (remove1 r l).
  Proof. induction l as [|x t IH]; [reflexivity|]. cbn [map remove1]. rewrite same_row_sh, IH. destruct (same_row r x); reflexivity. Qed.
  Lemma existsb_sh r l : existsb (same_row (sh r)) (map sh l) = existsb (same_row r) l.
  Proof. induction l as [|x t IH]; [reflexivity|]. cbn [map existsb]. rewrite same_row_sh, IH. reflexivity. Qed.
  Lemma sort_rows_sh l : sort_rows key (map sh l) = map sh (sort_rows key l).
  Proof. apply sort_map. reflexivity. Qed.
  Lemma fold_dset_sh (f g : row C -> Z) l : forall a b, (forall r, In r l -> g (sh r) = f r) -> same_dict a b ->
    same_dict (fold_left (fun d r => dset d (rid r) (f r)) l a) (fold_left (fun d r => dset d (rid r) (g r)) (map sh l) b).
  Proof.
    induction l as [|x t IH]; intros a b H D; [exact D|]. cbn [map fold_left]. apply IH; [intros r Hr; apply H; right; exact Hr|].
    intros i. rewrite !dget_dset. change (rid (sh x)) with (rid x + k).
    destruct (eq_dec (i + k) (rid x + k)), (eq_dec i (rid x)); try lia; [rewrite H by (left; reflexivity); reflexivity | apply D].
  Qed.
  Lemma usage_of_sh s t r : alike s t -> usage_of t (sh r) = usage_of s r.
  Proof. intros A. unfold usage_of. change (rid (sh r)) with (rid r + k). rewrite (a_use s t A). reflexivity. Qed.
  Lemma dl_sh s t : alike s t -> w_dl w (names (rows t)) = w_dl w (names (rows s)).
  Proof. intros A. rewrite (a_rows s t A), names_sh. reflexivity. Qed.

  Ltac fields A := destruct A as [A1 A2 A3 A4 A5 A6 A7 A8 A9 A10 A11]; constructor; cbn; try assumption.

  Lemma alike_cover s t : alike s t -> alike (cover use s) (cover use t).
  Proof.
    intros A. fields A.
    - rewrite A1. apply fold_dset_sh; [|exact A5]. intros r _. rewrite position_sh, names_sh. reflexivity.
    - rewrite A1, A11. reflexivity.
  Qed.
  Lemma alike_rows s t l : alike s t -> alike (set_rows s l) (set_rows t (map sh l)).
  Proof. intros A. fields A; reflexivity. Qed.
  Lemma alike_pruning s t l : alike s t -> alike (set_pruning s l) (set_pruning t (map sh l)).
  Proof. intros A. fields A; reflexivity. Qed.
  Lemma alike_ticks s t n : alike s t -> alike (set_ticks s n) (set_ticks t n).
  Proof. intros A. fields A; reflexivity. Qed.
  Lemma alike_tested s t l : alike s t -> alike (set_tested s l) (set_tested t l).
  Proof. intros A. fields A; reflexivity. Qed.
  Lemma alike_fresh s t n : alike s t -> alike (set_fresh s n) (set_fresh t (n + k)).
  Proof. intros A. fields A; reflexivity. Qed.
  Lemma alike_adopt s t : alike s t -> alike (adopt dl s) (adopt dl t).
  Proof.
    intros A. pose proof (dl_sh s t A) as E. fields A.
  Qed.
  Lemma alike_note s t q : alike s t -> alike (note s q) (note t q).
  Proof. intros A. fields A. rewrite A2, A10. reflexivity. Qed.
  Lemma alike_old s t : alike s t -> alike (compute_old_usage s) (compute_old_usage t).
  Proof.
    intros A. pose proof (fun r => usage_of_sh s t r A) as U. fields A.
    rewrite A1. apply fold_dset_sh; [intros r _; apply U | intros i; reflexivity].
  Qed.
  Lemma alike_drop s t r : alike s t -> alike (drop_row key s r) (drop_row key t (sh r)).
  Proof.
    intros A. unfold drop_row. rewrite (a_rows s t A), remove1_sh, sort_rows_sh. apply alike_rows, A.
  Qed.
  Lemma alike_add s t r : alike s t -> alike (add_row key s r) (add_row key t (sh r)).
  Proof.
    intros A. unfold add_row. rewrite (a_rows s t A).
    change [sh r] with (map sh [r]). rewrite <- map_app, sort_rows_sh. apply alike_rows, A.
  Qed.
  Lemma alike_cpc s t : alike s t -> alike (compute_pruning_candidates s) (compute_pruning_candidates t).
  Proof.
    intros A. unfold compute_pruning_candidates. rewrite (a_pru s t A), (a_rows s t A).
    rewrite (filter_map_comm sh (fun r => match dget (old_usage s) (rid r) with Some o => (usage_of s r <? o)%Z | None => false end)).
    - rewrite <- map_app. apply alike_pruning, A.
    - intros a _. change (rid (sh a)) with (rid a + k). rewrite (a_old s t A), (usage_of_sh s t a A). reflexivity.
  Qed.
  Lemma alike_start s t : alike s t -> alike (start_pruning s) (start_pruning t).
  Proof.
    intros A. unfold start_pruning. cbv zeta. pose proof (alike_old s t A) as A'.
    change (pruning_rows (compute_old_usage t)) with (pruning_rows t). change (pruning_rows (compute_old_usage s)) with (pruning_rows s).
    rewrite (a_pru s t A).
    rewrite (sort_map sh (fun a b => (usage_of (compute_old_usage s) a <=? usage_of (compute_old_usage s) b)%Z)).
    - apply alike_pruning, A'.
    - intros a b. rewrite !(usage_of_sh _ _ _ A'). reflexivity.
  Qed.
  Lemma alike_keep s t r : alike s t -> alike (keep_removal dl s r) (keep_removal dl t (sh r)).
  Proof.
    intros A. unfold keep_removal. cbv zeta. apply alike_start, alike_cpc.
    change (pruning_rows (note (adopt dl t) (length_ t))) with (pruning_rows t).
    change (pruning_rows (note (adopt dl s) (length_ s))) with (pruning_rows s).
    rewrite (a_pru s t A), remove1_sh, (a_len s t A). apply alike_pruning, alike_note, alike_adopt, A.
  Qed.
  Lemma alike_end s t : alike s t -> alike (graph_mdl_end dl use s) (graph_mdl_end dl use t).
  Proof. intros A. apply alike_adopt, alike_cover, A. Qed.

  Definition res_alike (a b : res C) : Prop :=
    match a, b with
    | Done s, Done t | Running s, Running t => alike s t
    | Raised e s, Raised e' t => e = e' /\ alike s t
    | _, _ => False
    end.
  Definition lres_alike (a b : @lres C) : Prop :=
    match a, b with
    | Through c s, Through c' t => c = c' /\ alike s t
    | Left b c s, Left b' c' t => b = b' /\ c = c' /\ alike s t
    | LRaised e s, LRaised e' t => e = e' /\ alike s t
    | LRunning s, LRunning t => alike s t
    | _, _ => False
    end.

  Lemma alike_pruning_loop fuel : forall i s t, alike s t ->
    res_alike (pruning_loop dl use key fuel i s) (pruning_loop dl use key fuel i t).
  Proof.
    induction fuel as [|f IH]; intros i s t A; [exact A|]. rewrite !pruning_loop_S.
    rewrite (a_pru s t A), nth_error_map. destruct (nth_error (pruning_rows s) i) as [r|]; cbn [option_map]; [|exact A].
    rewrite (a_rows s t A), existsb_sh. destruct (negb (existsb (same_row r) (rows s))); [split; [reflexivity | exact A]|].
    assert (A1 : alike (try_remove use key s r) (try_remove use key t (sh r))) by (apply alike_cover, alike_drop, A).
    rewrite (dl_sh _ _ A1), (a_len _ _ A1).
    destruct (negb _).
    - pose proof (IH 0 _ _ (alike_keep _ _ r A1)) as R4.
      destruct (pruning_loop dl use key f 0 (keep_removal dl (try_remove use key s r) r)) as [s4|e s4|s4],
               (pruning_loop dl use key f 0 (keep_removal dl (try_remove use key t (sh r)) (sh r))) as [t4|e' t4|t4];
        try (destruct R4; fail); [apply IH, R4 | exact R4 | exact R4].
    - apply IH, alike_add, A1.
  Qed.

  Lemma alike_insert s t c : alike s t ->
    let '(r, s3) := insert_candidate use key s c in
    let '(r', t3) := insert_candidate use key t c in
    r' = sh r /\ alike s3 t3.
  Proof.
    intros A. unfold insert_candidate. cbv zeta. pose proof (alike_old s t A) as A0.
    assert (E : new_row (compute_old_usage t) c = sh (new_row (compute_old_usage s) c)).
    { unfold new_row, sh. cbn [rid rcand arrival]. rewrite (a_fresh _ _ A0), (a_rows _ _ A0), map_length. reflexivity. }
    split; [exact E|]. rewrite E.
    assert (A1 : alike (set_fresh (compute_old_usage s) (S (fresh (compute_old_usage s))))
                       (set_fresh (compute_old_usage t) (S (fresh (compute_old_usage t))))).
    { rewrite (a_fresh _ _ A0). change (S (fresh (compute_old_usage s) + k)) with (S (fresh (compute_old_usage s)) + k). apply alike_fresh, A0. }
    pose proof (alike_cover _ _ (alike_add _ _ (new_row (compute_old_usage s) c) A1)) as A2.
    rewrite (a_test _ _ A2). apply alike_tested, A2.
  Qed.

  Lemma alike_candidate_loop fuel all cs : forall cur s t, alike s t ->
    lres_alike (candidate_loop candidate_eq dl use key clock timeout fuel all cs cur s)
               (candidate_loop candidate_eq dl use key clock timeout fuel all cs cur t).
  Proof.
    induction cs as [|c rest IH]; intros cur s t A; [split; [reflexivity | exact A]|]. rewrite !candidate_loop_cons.
    rewrite (a_test s t A). destruct (existsb _ (already_test s)); [split; [reflexivity | exact A]|].
    assert (EV : forall last cur s1 t1, alike s1 t1 ->
      lres_alike (evaluate dl use key timeout fuel last c cur s1
                    (candidate_loop candidate_eq dl use key clock timeout fuel all rest cur))
                 (evaluate dl use key timeout fuel last c cur t1
                    (candidate_loop candidate_eq dl use key clock timeout fuel all rest cur))).
    { intros last cur1 s1 t1 A1. unfold evaluate. pose proof (alike_insert s1 t1 c A1) as A3.
      destruct (insert_candidate use key s1 c) as [r s3], (insert_candidate use key t1 c) as [r' t3].
      destruct A3 as [-> A3]. rewrite (dl_sh _ _ A3), (a_len _ _ A3).
      destruct (negb (Qle_bool (length_ s3) _)).
      - assert (A4 : alike (start_pruning (accept dl s3)) (start_pruning (accept dl t3))).
        { apply alike_start, alike_cpc. rewrite (a_len _ _ A3). apply alike_note, alike_adopt, A3. }
        pose proof (alike_pruning_loop fuel 0 _ _ A4) as A5. unfold pruning.
        destruct (pruning_loop dl use key fuel 0 (start_pruning (accept dl s3))),
                 (pruning_loop dl use key fuel 0 (start_pruning (accept dl t3))); try (destruct A5; fail); cbn.
        + split; [reflexivity | split; [reflexivity | exact A5]].
        + exact A5.
        + exact A5.
      - destruct (_ && last).
        + split; [reflexivity | split; [reflexivity | apply alike_end, alike_drop, A3]].
        + apply IH, alike_drop, A3. }
    destruct timeout as [q|].
    - rewrite (a_ticks s t A). destruct (Qle_bool q (clock (ticks s))).
      + split; [reflexivity | split; [reflexivity | apply alike_end, alike_ticks, A]].
      + apply EV, alike_ticks, A.
    - apply EV, A.
  Qed.

  Lemma alike_round fuel cur s t : alike s t ->
    lres_alike (round candidate_eq gen dl use key clock timeout fuel cur s)
               (round candidate_eq gen dl use key clock timeout fuel cur t).
  Proof.
    intros A. unfold round. rewrite (a_rew s t A), (a_rows s t A), !names_sh.
    destruct (w_generate w (names (rewritten s)) (names (rows s))) as [|c cs].
    - split; [reflexivity | split; [reflexivity | apply alike_end, A]].
    - apply alike_candidate_loop, A.
  Qed.

  Lemma alike_search fuel : forall stop cur s t, alike s t ->
    res_alike (search candidate_eq gen dl use key clock timeout fuel stop cur s)
              (search candidate_eq gen dl use key clock timeout fuel stop cur t).
  Proof.
    induction fuel as [|f IH]; intros stop cur s t A; [destruct stop; exact A|].
    rewrite !search_S. destruct stop; [exact A|].
    assert (N : forall a b, lres_alike a b ->
      res_alike (next candidate_eq gen dl use key clock timeout f a)
                (next candidate_eq gen dl use key clock timeout f b)).
    { intros [x y|b x y|e y|y] [x' y'|b' x' y'|e' y'|y'] H; try (destruct H; fail); cbn in H |- *.
      - destruct H as [-> H]. apply IH, H.
      - destruct H as [-> [-> H]]. apply IH, H.
      - exact H.
      - exact H. }
    pose proof alike_round as Rd. destruct timeout as [q|].
    - destruct (negb (Qle_bool cur q)); [exact A|]. rewrite (a_ticks s t A).
      destruct (Qle_bool q (clock (ticks s))); [apply alike_end, alike_ticks, A|].
      apply N, Rd, alike_ticks, A.
    - apply N, Rd, A.
  Qed.

  (* the answers to questions *)
  Lemma alike_find s t r : covers t = map (map sh) (covers s) -> coded w t (sh r) = coded w s r.
  Proof.
    intros A. unfold coded. rewrite A. clear A. induction (covers s) as [|l c IH]; [reflexivity|]. cbn [map find].
    rewrite existsb_sh. destruct (existsb (same_row r) l); [rewrite names_sh, position_sh; reflexivity | exact IH].
  Qed.
  Lemma alike_singles s t : alike s t -> singles w t = singles w s.
  Proof. intros A. unfold singles. rewrite (a_cov s t A). destruct (covers s) as [|l c]; [reflexivity|]. cbn [map]. rewrite names_sh. reflexivity. Qed.
  Lemma alike_found s t : alike s t -> found w t = found w s.
  Proof.
    intros A. unfold found. rewrite (alike_singles s t A), (a_rows s t A).
    rewrite (filter_map_comm sh (coded w s)) by (intros a _; apply alike_find, A). rewrite map_map. reflexivity.
  Qed.
  Lemma alike_used s t : alike s t ->
    existsb (fun r => negb (usage_of t r =? 0)%Z) (rows t) = existsb (fun r => negb (usage_of s r =? 0)%Z) (rows s).
  Proof.
    intros A. rewrite (a_rows s t A). induction (rows s) as [|x l IH]; [reflexivity|]. cbn [map existsb].
    rewrite (usage_of_sh s t x A), IH. reflexivity.
  Qed.
End Shifted.

(* ---- a search that ended covered the table in place ---- *)
Section Settled.
  Context {C : Type}.
  Variable candidate_eq : C -> C -> bool.
  Variable generate : list (row C) -> list (row C) -> list C.
  Variable dl : list (row C) -> Q.
  Variable usage : list (row C) -> row C -> Z.
  Variable row_key : C -> Z * Z.
  Variable clock : nat -> Q.
  Variable timeout : option Q.

  Definition settled (s : st C) : Prop := length_ s = dl (rows s) /\ hd_error (covers s) = Some (rows s)
    /\ (NoDup (map rid (rows s)) -> forall r, In r (rows s) -> usage_of s r = usage (rows s) r).
  Lemma fold_usages (f : row C -> Z) l : forall d, NoDup (map rid l) -> forall r, In r l ->
    dget (fold_left (fun d r => dset d (rid r) (f r)) l d) (rid r) = Some (f r).
  Proof.
    assert (K : forall l d i, ~ In i (map rid l) -> dget (fold_left (fun d r => dset d (rid r) (f r)) l d) i = dget d i).
    { clear. induction l as [|x t IH]; intros d i Hi; [reflexivity|]. cbn in *. rewrite IH by tauto. rewrite dget_dset.
      destruct (eq_dec i (rid x)) as [->|N]; [tauto | reflexivity]. }
    induction l as [|x t IH]; intros d N r Hr; [destruct Hr|]. cbn in N. inversion N as [|? ? Hn Ht]; subst. cbn [fold_left].
    destruct Hr as [<-|Hr]; [|apply IH; assumption]. rewrite K by exact Hn. rewrite dget_dset. destruct (eq_dec (rid x) (rid x)); congruence.
  Qed.
  Lemma settled_end s : settled (graph_mdl_end dl usage s).
  Proof.
    split; [reflexivity | split; [reflexivity|]]. intros N r Hr. unfold usage_of. cbn in *.
    rewrite (fold_usages (usage (rows s))) by assumption. reflexivity.
  Qed.
  (* the clock read last is not after the timeout *)
  Definition in_time (cur : Q) : Prop := match timeout with Some t => Qle_bool cur t = true | None => True end.
  Definition after (o : @lres C) : Prop :=
    match o with
    | Through cur _ => in_time cur
    | Left stop cur s => settled s \/ (stop = false /\ in_time cur)
    | _ => True
    end.
  Lemma Qle_early t now : Qle_bool t now = false -> Qle_bool now t = true.
  Proof.
    intros E. apply Qle_bool_iff. destruct (Qlt_le_dec t now) as [F|F]; [|exact F].
    apply Qlt_le_weak, Qle_bool_iff in F. congruence.
  Qed.
  Lemma after_loop fuel all cs : forall cur s, in_time cur ->
    after (candidate_loop candidate_eq dl usage row_key clock timeout fuel all cs cur s).
  Proof.
    induction cs as [|c rest IH]; intros cur s Hc; [exact Hc|]. rewrite candidate_loop_cons.
    destruct (existsb _ (already_test s)); [exact I|].
    assert (EV : forall last cur s1, in_time cur ->
      after (evaluate dl usage row_key timeout fuel last c cur s1
        (candidate_loop candidate_eq dl usage row_key clock timeout fuel all rest cur))).
    { intros last cur1 s1 Hc1. unfold evaluate. destruct (insert_candidate usage row_key s1 c) as [r s3].
      destruct (negb _).
      - destruct (pruning dl usage row_key fuel _); [right; split; [reflexivity | exact Hc1] | exact I | exact I].
      - destruct (_ && last); [left; apply settled_end | apply IH, Hc1]. }
    unfold in_time in *. destruct timeout as [t|].
    - destruct (Qle_bool t (clock (ticks s))) eqn:E; [left; apply settled_end | apply EV, Qle_early, E].
    - apply EV, Hc.
  Qed.
  Lemma after_round fuel cur s : in_time cur ->
    after (round candidate_eq generate dl usage row_key clock timeout fuel cur s).
  Proof.
    intros Hc. unfold round. pose proof (after_loop fuel (generate (rewritten s) (rows s)) (generate (rewritten s) (rows s)) cur s Hc) as A.
    destruct (generate (rewritten s) (rows s)); [left; apply settled_end | exact A].
  Qed.
  Lemma search_settled fuel : forall stop cur s s', settled s \/ (stop = false /\ in_time cur) ->
    search candidate_eq generate dl usage row_key clock timeout fuel stop cur s = Done s' -> settled s'.
  Proof.
    induction fuel as [|f IH]; intros stop cur s s' H.
    - destruct stop; cbn; [intros [= <-]; destruct H as [H|[H _]]; [exact H | discriminate] | discriminate].
    - rewrite search_S. destruct stop; [intros [= <-]; destruct H as [H|[H _]]; [exact H | discriminate]|].
      assert (N : forall o, after o -> next candidate_eq generate dl usage row_key clock timeout f o = Done s' -> settled s').
      { intros [x y|b x y|e y|y] A; cbn in A |- *; try discriminate; apply IH; [right; split; [reflexivity | exact A] | exact A]. }
      pose proof after_round as Rd. unfold in_time in *. destruct timeout as [t|].
      + destruct (Qle_bool cur t) eqn:Ec; cbn [negb].
        * destruct (Qle_bool t (clock (ticks s))) eqn:E; [intros [= <-]; apply settled_end|].
          apply N, Rd, Qle_early, E.
        * intros [= <-]. destruct H as [H|[_ H]]; [exact H | discriminate].
      + apply N, Rd. exact I.
  Qed.
End Settled.

(* ---- with rows left by an earlier fit, the first improvement ends the fit ---- *)
Section Leftover.
  Context {C : Type}.
  Variable candidate_eq : C -> C -> bool.
  Variable generate : list (row C) -> list (row C) -> list C.
  Variable dl : list (row C) -> Q.
  Variable usage : list (row C) -> row C -> Z.
  Variable row_key : C -> Z * Z.
  Variable clock : nat -> Q.
  Variable timeout : option Q.
  Variable left_rows : list (row C).
  Hypothesis some_left : left_rows <> [].

  Record stuck (s : st C) : Prop := {
    k_rows : rows s = [];
    k_left : pruning_rows s = left_rows;
    k_ids : forall r, In r left_rows -> rid r < fresh s
  }.
  Definition lstuck (o : @lres C) : Prop :=
    match o with
    | Through _ s | Left _ _ s => stuck s
    | LRaised e s => (e = TypeError \/ e = ValueError) /\ pruning_rows s <> []
    | LRunning s => pruning_rows s <> []
    end.
  Definition rstuck (o : res C) : Prop :=
    match o with
    | Done s => stuck s
    | Raised e s => (e = TypeError \/ e = ValueError) /\ pruning_rows s <> []
    | Running s => pruning_rows s <> []
    end.
  Lemma stuck_some s : stuck s -> pruning_rows s <> [].
  Proof. intros K. rewrite (k_left s K). exact some_left. Qed.
  Lemma stuck_end s : stuck s -> stuck (graph_mdl_end dl usage s).
  Proof. intros [A B D]. constructor; assumption. Qed.
  Lemma stuck_ticks s n : stuck s -> stuck (set_ticks s n).
  Proof. intros [A B D]. constructor; assumption. Qed.

  Lemma stuck_loop fuel all cs : forall cur s, stuck s ->
    lstuck (candidate_loop candidate_eq dl usage row_key clock timeout fuel all cs cur s).
  Proof.
    induction cs as [|c rest IH]; intros cur s K; [exact K|]. rewrite candidate_loop_cons.
    destruct (existsb _ (already_test s)); [split; [left; reflexivity | apply stuck_some, K]|].
    assert (EV : forall last cur s1, stuck s1 ->
      lstuck (evaluate dl usage row_key timeout fuel last c cur s1
        (candidate_loop candidate_eq dl usage row_key clock timeout fuel all rest cur))).
    { intros last cur1 s1 K1. unfold evaluate. destruct (insert_candidate usage row_key s1 c) as [r s3] eqn:Ei.
      assert (F : rows s3 = [r] /\ pruning_rows s3 = left_rows /\ old_usage s3 = [] /\ rid r = fresh s1 /\ fresh s3 = S (fresh s1)).
      { unfold insert_candidate in Ei. injection Ei as E1 E2. subst r s3. cbn. rewrite (k_rows s1 K1), (k_left s1 K1). cbn.
        repeat split. }
      destruct F as (F1 & F2 & F3 & F4 & F5).
      assert (K4 : stuck (drop_row row_key s3 r)).
      { constructor; cbn.
        - rewrite F1. cbn. unfold same_row. rewrite Nat.eqb_refl. reflexivity.
        - exact F2.
        - intros x Hx. rewrite F5. pose proof (k_ids s1 K1 x Hx). lia. }
      destruct (negb _).
      - unfold pruning. set (s5 := start_pruning (accept dl s3)).
        assert (P5 : Permutation (pruning_rows s5) left_rows).
        { unfold s5, start_pruning, accept, compute_pruning_candidates. cbn [pruning_rows set_pruning compute_old_usage set_old note adopt].
          rewrite sort_perm. cbn [rows old_usage note adopt]. rewrite F1, F3. cbn. rewrite app_nil_r, F2. reflexivity. }
        assert (N5 : pruning_rows s5 <> []).
        { intros E. rewrite E in P5. apply Permutation_nil in P5. apply some_left, P5. }
        assert (R5 : rows s5 = [r]) by (unfold s5; cbn; exact F1).
        destruct fuel as [|f]; [exact N5|]. rewrite pruning_loop_S.
        destruct (nth_error (pruning_rows s5) 0) as [x|] eqn:En.
        + apply nth_error_In, (Permutation_in _ P5) in En. rewrite R5. cbn [existsb]. unfold same_row. rewrite F4.
          pose proof (k_ids s1 K1 x En). destruct (Nat.eqb_spec (rid x) (fresh s1)); [lia|].
          split; [right; reflexivity | exact N5].
        + exfalso. destruct (pruning_rows s5); [apply N5; reflexivity | discriminate].
      - destruct (_ && last); [apply stuck_end, K4 | apply IH, K4]. }
    destruct timeout as [t|].
    - destruct (Qle_bool t (clock (ticks s))); [apply stuck_end, stuck_ticks, K | apply EV, stuck_ticks, K].
    - apply EV, K.
  Qed.
  Lemma stuck_round fuel cur s : stuck s -> lstuck (round candidate_eq generate dl usage row_key clock timeout fuel cur s).
  Proof.
    intros K. unfold round. pose proof (stuck_loop fuel (generate (rewritten s) (rows s)) (generate (rewritten s) (rows s)) cur s K) as A.
    destruct (generate (rewritten s) (rows s)); [apply stuck_end, K | exact A].
  Qed.
  Lemma stuck_search fuel : forall stop cur s, stuck s ->
    rstuck (search candidate_eq generate dl usage row_key clock timeout fuel stop cur s).
  Proof.
    induction fuel as [|f IH]; intros stop cur s K; [destruct stop; [exact K | apply stuck_some, K]|].
    rewrite search_S. destruct stop; [exact K|].
    assert (N : forall o, lstuck o -> rstuck (next candidate_eq generate dl usage row_key clock timeout f o)).
    { intros [x y|b x y|e y|y] A; cbn in A |- *; [apply IH, A | apply IH, A | exact A | exact A]. }
    pose proof stuck_round as Rd. destruct timeout as [t|].
    - destruct (negb (Qle_bool cur t)); [exact K|].
      destruct (Qle_bool t (clock (ticks s))); [apply stuck_end, stuck_ticks, K|]. apply N, Rd, stuck_ticks, K.
    - apply N, Rd, K.
  Qed.
End Leftover.

(* ------------------------------------------------------------- histories *)
Section Histories.
  Context {C P : Type}.
  Variable candidate_eq : C -> C -> bool.
  Notation run := (run candidate_eq).
  Notation object_after := (object_after (P := P) candidate_eq).
  Notation answers_after := (answers_after (P := P) candidate_eq).
  Notation answers := (answers (P := P) candidate_eq).
  Notation nothing_left := (nothing_left (P := P) candidate_eq).
  Notation step := (step candidate_eq).

  Lemma run_app (m : miner C P) h q :
    run m (h ++ q) = (fst (run m h) ++ fst (run (snd (run m h)) q), snd (run (snd (run m h)) q)).
  Proof.
    revert m. induction h as [|c t IH]; intros m; cbn [app RefitModel.run].
    - cbn [fst snd app]. destruct (run m q); reflexivity.
    - destruct (step m c) as [a m1]. rewrite IH. destruct (run m1 t) as [l m2]. cbn. reflexivity.
  Qed.
  Lemma run_cons (m : miner C P) c q : fst (run m (c :: q)) = fst (step m c) :: fst (run (snd (step m c)) q).
  Proof. cbn. destruct (step m c) as [a m1]. cbn. destruct (run m1 q). reflexivity. Qed.
  Lemma object_app h q : object_after (h ++ q) = snd (run (object_after h) q).
  Proof. unfold PropRefit.object_after. rewrite run_app. reflexivity. Qed.
  Lemma object_snoc h c : object_after (h ++ [c]) = snd (step (object_after h) c).
  Proof. rewrite object_app. cbn. destruct (step (object_after h) c). reflexivity. Qed.
  Lemma answers_app h q : answers (h ++ q) = answers h ++ answers_after h q.
  Proof. unfold PropRefit.answers, PropRefit.answers_after, PropRefit.object_after. rewrite run_app. reflexivity. Qed.

  Lemma history_ind (Inv : miner C P -> Prop) : Inv new -> (forall m c, Inv m -> Inv (snd (step m c))) ->
    forall h, Inv (object_after h).
  Proof.
    intros H0 Hs h. induction h as [|c t IH] using rev_ind; [exact H0|]. rewrite object_snoc. apply Hs, IH.
  Qed.

  Lemma restart_bounded (w : world C P) s : bounded s -> bounded (restart w s).
  Proof. intros [A B D E I]. constructor; try assumption; [intros r [] | constructor]. Qed.
  Lemma emptied_bounded (s : st C) c : bounded s -> bounded (emptied s c).
  Proof. intros [A B D E I]. constructor; try assumption; [intros r [] | constructor]. Qed.
  Lemma new_bounded : bounded (m_st (@new C P)).
  Proof. constructor; cbn; try (intros r []); try reflexivity. constructor. Qed.

  Lemma fit_state (m : miner C P) w t clock fuel : w_start w = Fine ->
    m_st (snd (step m (Fit (Some w) t clock fuel)))
    = state_of (search_on candidate_eq w clock (update (m_timeout m) t) fuel (restart w (m_st m))).
  Proof. intros E. cbn. rewrite E. destruct (search_on _ _ _ _ _ _); reflexivity. Qed.
  Lemma fit_answer (m : miner C P) w t clock fuel : w_start w = Fine ->
    fst (step m (Fit (Some w) t clock fuel))
    = match search_on candidate_eq w clock (update (m_timeout m) t) fuel (restart w (m_st m)) with
      | Done _ => Self | Raised e _ => Error e | Running _ => Interrupted end.
  Proof. intros E. cbn. rewrite E. destruct (search_on _ _ _ _ _ _); reflexivity. Qed.
  Lemma fit_rest (m : miner C P) w t clock fuel : w_start w = Fine ->
    m_world (snd (step m (Fit (Some w) t clock fuel))) = Some w
    /\ m_initial (snd (step m (Fit (Some w) t clock fuel))) = w_dl w [].
  Proof. intros E. cbn. rewrite E. destruct (search_on _ _ _ _ _ _); split; reflexivity. Qed.

  Lemma history_bounded h : bounded (m_st (object_after h)).
  Proof.
    apply (history_ind (fun m => bounded (m_st m))); [apply new_bounded|].
    intros m [D t clock fuel| | | |] B; try exact B. destruct D as [w|]; [|exact B].
    destruct (w_start w) eqn:E.
    - rewrite fit_state by exact E. apply bounded_search, restart_bounded, B.
    - cbn. rewrite E. apply (bounded_ext (m_st m)); auto.
    - cbn. rewrite E. apply emptied_bounded, B.
    - cbn. rewrite E. apply emptied_bounded, B.
  Qed.

  Lemma step_timeout (m : miner C P) c : m_timeout (snd (step m c)) = last_timeout (m_timeout m) [c].
  Proof.
    destruct c as [D t clock fuel| | | |]; try reflexivity. cbn.
    assert (U : update (m_timeout m) t = match t with Some q => if Qeq_bool q 0 then m_timeout m else Some q | None => m_timeout m end).
    { unfold update, given. destruct t as [q|]; [destruct (Qeq_bool q 0)|]; reflexivity. }
    assert (F : m_timeout (snd (do_fit candidate_eq m D t clock fuel)) = update (m_timeout m) t).
    { unfold do_fit. destruct D as [w|]; [|reflexivity]. destruct (w_start w); try reflexivity. cbv zeta.
      match goal with |- context [match ?x with Done _ => _ | _ => _ end] => destruct x; reflexivity end. }
    rewrite F, U. destruct t; reflexivity.
  Qed.
  Lemma last_timeout_app (h q : list (call C P)) : forall t, last_timeout t (h ++ q) = last_timeout (last_timeout t h) q.
  Proof.
    induction h as [|c r IH]; intros t; [reflexivity|]. destruct c as [D [x|] clock fuel| | | |]; cbn; apply IH.
  Qed.
  Lemma object_timeout h : m_timeout (object_after h) = last_timeout None h.
  Proof.
    induction h as [|c r IH] using rev_ind; [reflexivity|]. rewrite object_snoc, step_timeout, IH, last_timeout_app. reflexivity.
  Qed.
  Lemma timeout_counts (h : list (call C P)) : given (last_timeout None h) = last_timeout None h.
  Proof.
    assert (H : forall (h : list (call C P)) t, given t = t -> given (last_timeout t h) = last_timeout t h).
    { clear. induction h as [|c r IH]; intros t Ht; [exact Ht|].
      destruct c as [D [x|] clock fuel| | | |]; cbn; apply IH; try exact Ht.
      destruct (Qeq_bool x 0) eqn:E; [exact Ht|]. unfold given. rewrite E. reflexivity. }
    apply H. reflexivity.
  Qed.

  (* the answers to questions only look at these *)
  Lemma asks_same (m : miner C P) c : asks c -> snd (step m c) = m.
  Proof. destruct c; cbn; tauto. Qed.
  Lemma asks_alike (m m' : miner C P) k w q : Forall asks q -> m_world m = Some w -> m_world m' = Some w ->
    m_initial m = m_initial m' -> alike k (m_st m') (m_st m) -> fst (run m q) = fst (run m' q).
  Proof.
    intros Hq Em Em' Ei A. induction Hq as [|c r Hc Hr IH]; [reflexivity|]. rewrite !run_cons, !asks_same, IH by exact Hc. f_equal.
    destruct c; [destruct Hc | | | |]; cbn.
    - unfold do_patterns. rewrite Em, Em'. f_equal. eapply alike_found, A.
    - f_equal. apply (a_len _ _ _ A).
    - rewrite Ei. reflexivity.
    - unfold do_discover. rewrite Em, Em', (alike_used _ _ _ A), (alike_singles w _ _ _ A), (alike_found w _ _ _ A). reflexivity.
  Qed.

  (* C92: when no earlier fit left rows to prune, a fit and the questions after
     it are answered as by a new object that is given the timeout given last. *)
  Theorem C92_last_fit (h : list (call C P)) w t clock fuel q :
    nothing_left h -> w_start w = Fine -> Forall asks q ->
    answers_after h (Fit (Some w) t clock fuel :: q)
    = answers (Fit (Some w) (last_timeout None (h ++ [Fit (Some w) t clock fuel])) clock fuel :: q).
  Proof.
    intros Hn Ew Hq. unfold PropRefit.answers_after, PropRefit.answers.
    set (c := Fit (Some w) t clock fuel). set (T := last_timeout None (h ++ [c])).
    set (m := object_after h). rewrite !run_cons.
    assert (ET : update (m_timeout m) t = T).
    { unfold T. rewrite last_timeout_app, <- object_timeout. fold m. rewrite <- (step_timeout m c). unfold c. cbn. rewrite Ew.
      destruct (search_on _ _ _ _ _ _); reflexivity. }
    assert (EN : update (m_timeout (@new C P)) T = T).
    { unfold update. unfold T. rewrite timeout_counts. destruct (last_timeout None (h ++ [c])); reflexivity. }
    assert (A0 : alike (fresh (m_st m)) (restart w (m_st (@new C P))) (restart w (m_st m))).
    { destruct (history_bounded h) as [B1 B2 B3 B4 B5]. fold m in B3, B4.
      constructor; cbn; try reflexivity.
      - exact Hn.
      - intros i. rewrite B3 by lia. reflexivity.
      - intros i. rewrite B4 by lia. reflexivity. }
    pose proof (alike_search candidate_eq w clock T _ fuel false 0%Q _ _ A0) as R.
    assert (A1 : alike (fresh (m_st m)) (m_st (snd (step new (Fit (Some w) T clock fuel)))) (m_st (snd (step m c)))).
    { unfold c. rewrite !fit_state by exact Ew. rewrite ET, EN. unfold search_on.
      destruct (search candidate_eq _ _ _ _ clock T fuel false 0 (restart w (m_st new))),
               (search candidate_eq _ _ _ _ clock T fuel false 0 (restart w (m_st m))); try (destruct R; fail); [exact R | apply R | exact R]. }
    f_equal.
    - unfold c. rewrite !fit_answer by exact Ew. rewrite ET, EN. unfold search_on.
      destruct (search candidate_eq _ _ _ _ clock T fuel false 0 (restart w (m_st new))),
               (search candidate_eq _ _ _ _ clock T fuel false 0 (restart w (m_st m))); try (destruct R; fail); try reflexivity.
      destruct R as [-> _]. reflexivity.
    - apply (asks_alike _ _ (fresh (m_st m)) w); [exact Hq | apply fit_rest, Ew | apply fit_rest, Ew | | exact A1].
      unfold c. destruct (fit_rest m w t clock fuel Ew) as [_ ->]. destruct (fit_rest new w T clock fuel Ew) as [_ ->]. reflexivity.
  Qed.

  (* C92: asking changes nothing. *)
  Theorem C92_asking (h q g : list (call C P)) : Forall asks q -> answers_after (h ++ q) g = answers_after h g.
  Proof.
    intros Hq. unfold PropRefit.answers_after. rewrite object_app. f_equal. f_equal.
    generalize (object_after h). induction Hq as [|c r Hc Hr IH]; intros m; [reflexivity|]. cbn [RefitModel.run].
    pose proof (asks_same m c Hc) as E. destruct (step m c) as [a m1]. cbn in E. subst m1. specialize (IH m). destruct (run m r). exact IH.
  Qed.

  (* C92: a fit without a graph raises and leaves the answers as they were. *)
  Theorem C92_no_graph (h q : list (call C P)) t clock fuel : Forall asks q ->
    answers_after h (Fit None t clock fuel :: q) = Error ValueError :: answers_after h q.
  Proof.
    intros Hq. unfold PropRefit.answers_after. rewrite run_cons. f_equal. cbn [step RefitModel.step do_fit snd].
    set (m := object_after h). set (m' := with_timeout m _).
    induction Hq as [|c r Hc Hr IH]; [reflexivity|]. rewrite !run_cons, !asks_same, IH by exact Hc. f_equal.
    destruct c; [destruct Hc | | | |]; reflexivity.
  Qed.

  (* C92: before the first graph there is nothing to show; [patterns] says so
     by returning an exception and not by raising it. *)
  Theorem C92_unfitted (h : list (call C P)) :
    Forall (fun c => match c with Fit (Some _) _ _ _ => False | _ => True end) h ->
    answers_after h [Patterns; DescriptionLength; InitialDescriptionLength; Discover]
    = [ErrorValue; Number 0; Number 0; Error ValueError].
  Proof.
    intros Hh. assert (E : m_world (object_after h) = None /\ m_st (object_after h) = m_st (@new C P) /\ m_initial (object_after h) = 0%Q).
    { revert Hh. induction h as [|c r IH] using rev_ind; intros Hh; [repeat split|].
      apply Forall_app in Hh as [Hr Hc]. specialize (IH Hr). rewrite object_snoc. inversion Hc as [|? ? Hc' _]; subst.
      destruct c as [[w|] t clock fuel| | | |]; try exact IH. destruct Hc'. }
    destruct E as (E1 & E2 & E3). unfold PropRefit.answers_after.
    cbn. unfold do_patterns, do_discover. rewrite E1, E2, E3. reflexivity.
  Qed.

  (* a fit that raises before the search: nothing changes when the labels raise;
     when the first cover or its length raises, the patterns are those of an
     empty table on the new graph, and the lengths those known before *)
  Theorem C92_failed_fit (h : list (call C P)) (w : world C P) t clock fuel e :
    let after := answers_after h [Fit (Some w) t clock fuel; Patterns; DescriptionLength; InitialDescriptionLength; Discover] in
    exists p d i s, answers_after h [Patterns; DescriptionLength; InitialDescriptionLength; Discover] = [p; d; i; s]
    /\ (w_start w = AtLabels e -> after = [Error e; p; d; i; s])
    /\ (w_start w = AtCover e -> after = [Error e; PatternSet []; d; i; Error ValueError])
    /\ (w_start w = AtLength e -> after = [Error e; PatternSet (w_singles w []); d; i;
          match w_singles w [] with [] => Error ValueError | _ => Printed (w_singles w []) end]).
  Proof.
    cbv zeta. unfold PropRefit.answers_after. generalize (object_after h) as m. intros [mw ms mt mi].
    do 4 eexists. split; [reflexivity|]. split; [|split]; intros E; cbn; unfold do_fit; rewrite E; cbn;
      unfold do_patterns, do_discover, found; cbn; [reflexivity ..|].
    destruct (w_singles w []); reflexivity.
  Qed.

  (* ---- what a fit that returned leaves ---- *)
  Lemma position_nth (l : list (row C)) r i : NoDup (map rid l) -> nth_error l i = Some r -> position r l = i.
  Proof.
    revert i. induction l as [|x t IH]; intros i N H; [destruct i; discriminate|]. cbn in N. inversion N as [|? ? Hn Ht]; subst.
    destruct i as [|i]; cbn in H.
    - injection H as <-. cbn. unfold same_row. rewrite Nat.eqb_refl. reflexivity.
    - cbn. unfold same_row. destruct (Nat.eqb_spec (rid r) (rid x)) as [E|E].
      + exfalso. apply Hn. rewrite <- E. apply in_map. exact (nth_error_In _ _ H).
      + f_equal. apply IH; assumption.
  Qed.
  Lemma names_length (l : list (row C)) : length (names l) = length l.
  Proof. apply map_length. Qed.
  Lemma filter_positions (w : world C P) (p : nat -> bool) l : forall n f,
    (forall i r, nth_error l i = Some r -> f r = p (n + i)) ->
    map (fun r => w_pattern w (rcand r)) (filter f l)
    = map (fun ic => w_pattern w (snd ic)) (filter (fun ic => p (fst ic)) (combine (seq n (length l)) (names l))).
  Proof.
    induction l as [|x t IH]; intros n f H; [reflexivity|]. cbn [length seq names map combine filter fst].
    pose proof (H 0 x eq_refl) as Hx. rewrite Nat.add_0_r in Hx. rewrite Hx.
    assert (Ht : forall i r, nth_error t i = Some r -> f r = p (S n + i)).
    { intros i r Hr. rewrite (H (S i) r Hr). f_equal. lia. }
    destruct (p n); cbn [map]; rewrite (IH (S n) f Ht); reflexivity.
  Qed.
  Lemma existsb_positions (p : nat -> bool) (l : list (row C)) : forall n f,
    (forall i r, nth_error l i = Some r -> f r = p (n + i)) -> existsb f l = existsb p (seq n (length l)).
  Proof.
    induction l as [|x t IH]; intros n f H; [reflexivity|]. cbn [length seq existsb].
    pose proof (H 0 x eq_refl) as Hx. rewrite Nat.add_0_r in Hx. rewrite Hx. f_equal. apply IH.
    intros i r Hr. rewrite (H (S i) r Hr). f_equal. lia.
  Qed.

  (* C92: after a fit that returned there is a list of candidates, the code
     table, such that all questions are answered for this table: its
     description length, the patterns of its rows that have a code length and
     its singletons. *)
  Theorem C92_returned (h : list (call C P)) w t clock fuel :
    hd_error (answers_after h [Fit (Some w) t clock fuel]) = Some Self ->
    exists cs : list C,
      answers_after h [Fit (Some w) t clock fuel; Patterns; DescriptionLength; InitialDescriptionLength; Discover]
      = [Self; PatternSet (table_patterns w cs); Number (w_dl w cs); Number (w_dl w []);
         if existsb (fun i => negb (w_usage w cs i =? 0)%Z) (seq 0 (length cs)) then Error AttributeError
         else match w_singles w cs with [] => Error ValueError | _ => Printed (table_patterns w cs) end].
  Proof.
    unfold PropRefit.answers_after. set (m := object_after h). set (c := Fit (Some w) t clock fuel).
    rewrite run_cons. cbn [hd_error]. intros Hs0.
    assert (Hs : fst (step m c) = Self) by (apply (f_equal (fun o => match o with Some a => a | None => Self end)) in Hs0; exact Hs0). clear Hs0.
    assert (Ew : w_start w = Fine) by (unfold c in Hs; cbn in Hs; destruct (w_start w); [reflexivity | discriminate | discriminate | discriminate]).
    set (m1 := snd (step m c)).
    assert (B : bounded (m_st m1)) by (unfold m1, m; rewrite <- object_snoc; apply history_bounded).
    assert (S1 : settled (fun l => w_dl w (names l)) (fun l r => w_usage w (names l) (position r l)) (m_st m1)).
    { unfold m1, c. rewrite fit_state by exact Ew. unfold c in Hs. rewrite fit_answer in Hs by exact Ew.
      destruct (search_on candidate_eq w clock (update (m_timeout m) t) fuel (restart w (m_st m))) as [s|e s|s] eqn:Er; try discriminate.
      cbn [state_of]. unfold search_on in Er. apply search_settled in Er; [exact Er|]. left. split; [reflexivity | split; [reflexivity|]]. intros _ r []. }
    destruct S1 as (L1 & V1 & U1). specialize (U1 (b_ids _ B)).
    exists (names (rows (m_st m1))). rewrite !run_cons, Hs.
    fold m1. cbn [fst snd RefitModel.step RefitModel.run].
    assert (Ev : exists rest, covers (m_st m1) = rows (m_st m1) :: rest).
    { destruct (covers (m_st m1)) as [|x rest]; [discriminate|]. injection V1 as ->. exists rest. reflexivity. }
    destruct Ev as [rest Ev].
    assert (Es : singles w (m_st m1) = w_singles w (names (rows (m_st m1)))) by (unfold singles; rewrite Ev; reflexivity).
    assert (Ef : found w (m_st m1) = table_patterns w (names (rows (m_st m1)))).
    { unfold found, table_patterns. rewrite Es. f_equal. rewrite names_length.
      apply (filter_positions w (fun i => w_coded w (names (rows (m_st m1))) i)). intros i r Hr. cbn [Nat.add].
      unfold coded. rewrite Ev. cbn [find].
      assert (existsb (same_row r) (rows (m_st m1)) = true) as ->.
      { apply existsb_exists. exists r. split; [exact (nth_error_In _ _ Hr) | unfold same_row; apply Nat.eqb_refl]. }
      rewrite (position_nth _ r i (b_ids _ B) Hr). reflexivity. }
    destruct (fit_rest m w t clock fuel Ew) as [Ew1 Ei1]. fold c in Ew1, Ei1. fold m1 in Ew1, Ei1.
    unfold do_patterns, do_discover. rewrite Ew1, Ef, Es, L1, Ei1. repeat f_equal.
    rewrite names_length.
    rewrite (existsb_positions (fun i => negb (w_usage w (names (rows (m_st m1))) i =? 0)%Z) (rows (m_st m1)) 0); [reflexivity|].
    intros i r Hr. cbn [Nat.add]. rewrite (U1 r (nth_error_In _ _ Hr)), (position_nth _ r i (b_ids _ B) Hr). reflexivity.
  Qed.

  (* ---- after a fit that left rows to prune ---- *)
  Lemma step_left (m : miner C P) c : bounded (m_st m) -> pruning_rows (m_st m) <> [] ->
    pruning_rows (m_st (snd (step m c))) <> [].
  Proof.
    intros B Hl. destruct c as [[w|] t clock fuel| | | |]; try exact Hl.
    destruct (w_start w) eqn:E; [|cbn; rewrite E; exact Hl ..].
    rewrite fit_state by exact E.
    pose proof (stuck_search candidate_eq (fun a b => w_generate w (names a) (names b)) (fun l => w_dl w (names l))
      (fun l r => w_usage w (names l) (position r l)) (w_key w) clock (update (m_timeout m) t) (pruning_rows (m_st m)) Hl fuel false 0%Q (restart w (m_st m))) as R.
    unfold search_on. destruct (search candidate_eq _ _ _ _ clock _ fuel false 0 (restart w (m_st m))) as [s|e s|s]; cbn in R |- *.
    - rewrite (k_left _ _ (R ltac:(constructor; [reflexivity | reflexivity | apply B]))). exact Hl.
    - apply R. constructor; [reflexivity | reflexivity | apply B].
    - apply R. constructor; [reflexivity | reflexivity | apply B].
  Qed.
  Lemma left_forever h h' : ~ nothing_left h -> ~ nothing_left (h ++ h').
  Proof.
    intros Hl. induction h' as [|c r IH] using rev_ind; [rewrite app_nil_r; exact Hl|].
    unfold PropRefit.nothing_left. rewrite app_assoc, object_snoc. apply step_left; [apply history_bounded | exact IH].
  Qed.

  (* C92: once a fit left rows to prune, the object never finds a pattern
     again: each later fit finds singletons only and the initial description
     length, or raises, or is interrupted. *)
  Theorem C92_leftover (h h' : list (call C P)) w t clock fuel : ~ nothing_left h -> w_start w = Fine ->
    answers_after (h ++ h') [Fit (Some w) t clock fuel; Patterns; DescriptionLength]
      = [Self; PatternSet (w_singles w []); Number (w_dl w [])]
    \/ hd_error (answers_after (h ++ h') [Fit (Some w) t clock fuel]) = Some (Error ValueError)
    \/ hd_error (answers_after (h ++ h') [Fit (Some w) t clock fuel]) = Some (Error TypeError)
    \/ hd_error (answers_after (h ++ h') [Fit (Some w) t clock fuel]) = Some Interrupted.
  Proof.
    intros Hl Ew. apply (left_forever h h') in Hl. set (g := h ++ h') in *. unfold PropRefit.nothing_left in Hl.
    pose proof (history_bounded g) as B. set (c := Fit (Some w) t clock fuel).
    assert (K : stuck (pruning_rows (m_st (object_after g))) (restart w (m_st (object_after g)))) by (constructor; [reflexivity | reflexivity | apply B]).
    pose proof (stuck_search candidate_eq (fun a b => w_generate w (names a) (names b)) (fun l => w_dl w (names l))
      (fun l r => w_usage w (names l) (position r l)) (w_key w) clock (update (m_timeout (object_after g)) t) _ Hl fuel false 0%Q _ K) as R.
    pose proof (C92_returned g w t clock fuel) as Ret.
    unfold PropRefit.answers_after in *. set (m := object_after g) in *. rewrite !run_cons in *. cbn [hd_error] in *. fold c in Ret.
    pose proof (fit_answer m w t clock fuel Ew) as Fa. pose proof (fit_state m w t clock fuel Ew) as Fs. fold c in Fa, Fs.
    unfold search_on in Fa, Fs.
    destruct (search candidate_eq _ _ _ _ clock _ fuel false 0 (restart w (m_st m))) as [s|e s|s] eqn:Er; cbn in R; rewrite Fa in *.
    - left. apply search_settled in Er; [|left; split; [reflexivity | split; [reflexivity|]]; intros _ r []].
      destruct Er as (L1 & V1 & _). rewrite (k_rows _ _ R) in L1, V1.
      destruct (fit_rest m w t clock fuel Ew) as [Ew1 _]. fold c in Ew1.
      set (m1 := snd (step m c)) in *. cbn [fst snd RefitModel.step RefitModel.run state_of] in *. unfold do_patterns. rewrite Ew1, Fs.
      unfold found, singles. rewrite (k_rows _ _ R), L1. destruct (covers s) as [|x rest]; [discriminate|]. injection V1 as ->. reflexivity.
    - right. destruct R as [[->| ->] _]; [right; left; reflexivity | left; reflexivity].
    - right. right. right. reflexivity.
  Qed.
End Histories.

(* ------------------------------------------------ cases and refutations *)
Section Witness.
  (* candidate 1 and then candidate 2 make the description shorter; when 2 is
     added row 1 is used less, but removing it does not help *)
  Definition growing : world nat nat := {|
    w_start := Fine;
    w_generate := fun _ l => match l with [] => [1] | [1] => [2] | _ => [] end;
    w_dl := fun l => inject_Z (10 - Z.of_nat (length l));
    w_usage := fun l i => match l, i with [1], 0 => 5%Z | [1; 2], 0 => 3%Z | _, _ => 4%Z end;
    w_key := fun c => match c with 1 => (2, 0)%Z | _ => (1, 0)%Z end;
    w_coded := fun _ _ => true;
    w_pattern := fun c => c;
    w_singles := fun l => match l with [] => [7; 8] | _ => [7] end |}.
  (* one candidate that makes the description shorter *)
  Definition plain_world : world nat nat := {|
    w_start := Fine;
    w_generate := fun _ l => match l with [] => [1] | _ => [] end;
    w_dl := fun l => inject_Z (10 - Z.of_nat (length l));
    w_usage := fun _ _ => 5%Z;
    w_key := fun _ => (1, 0)%Z;
    w_coded := fun _ _ => true;
    w_pattern := fun c => c + 20;
    w_singles := fun l => match l with [] => [7; 8] | _ => [7] end |}.
  (* a graph without labels (theorem C80_no_label in PropTableLength) *)
  Definition unlabelled : world nat nat := {|
    w_start := AtLength ValueError;
    w_generate := fun _ _ => [];
    w_dl := fun _ => 0%Q;
    w_usage := fun _ _ => 0%Z;
    w_key := fun _ => (0, 0)%Z;
    w_coded := fun _ _ => false;
    w_pattern := fun c => c;
    w_singles := fun _ => [] |}.
  Definition seconds (n : nat) : Q := inject_Z (Z.of_nat n).
  Definition fit_on (w : world nat nat) (t : option Q) : call nat nat := Fit (Some w) t seconds 20.
End Witness.

(* C92: fitting the same graph again raises although the first fit returned
   patterns. *)
Theorem C92_refit_refuted : exists (C P : Type) candidate_eq (w : world C P) clock fuel l q,
  w_start w = Fine /\
  answers candidate_eq [Fit (Some w) None clock fuel; Patterns; DescriptionLength; Fit (Some w) None clock fuel]
  = [Self; PatternSet l; Number q; Error ValueError] /\ (q < w_dl w [])%Q.
Proof.
  exists nat, nat, Nat.eqb, growing, seconds, 20, [1; 2; 7], 8%Q.
  split; [reflexivity|]. split; [vm_compute; reflexivity | reflexivity].
Qed.

(* C92: a timeout is kept by later fits that give none. *)
Theorem C92_timeout_refuted : exists (C P : Type) candidate_eq (w v : world C P) clock fuel,
  w_start w = Fine /\ nothing_left candidate_eq [Fit (Some v) (Some 1%Q) clock fuel] /\
  answers_after candidate_eq [Fit (Some v) (Some 1%Q) clock fuel] [Fit (Some w) None clock fuel; Patterns]
  <> answers candidate_eq [Fit (Some w) None clock fuel; Patterns].
Proof.
  exists nat, nat, Nat.eqb, plain_world, plain_world, seconds, 20.
  split; [reflexivity|]. split; [reflexivity|]. vm_compute. discriminate.
Qed.

(* C92: [discover] raises when the fit found a pattern that is used. *)
Theorem C92_discover_refuted : exists (C P : Type) candidate_eq (w : world C P) clock fuel l,
  answers candidate_eq [Fit (Some w) None clock fuel; Patterns; Discover]
  = [Self; PatternSet l; Error AttributeError] /\ l <> [].
Proof.
  exists nat, nat, Nat.eqb, plain_world, seconds, 20, [21; 7]. split; [vm_compute; reflexivity | discriminate].
Qed.

(* C92: after a fit that failed, the description length is that of the graph
   before and the patterns are those of the new one. *)
Theorem C92_failed_refuted : exists (C P : Type) candidate_eq (w v : world C P) clock fuel l q,
  answers candidate_eq [Fit (Some w) None clock fuel; Patterns; DescriptionLength;
                        Fit (Some v) None clock fuel; Patterns; DescriptionLength]
  = [Self; PatternSet l; Number q; Error ValueError; PatternSet []; Number q] /\ l <> [].
Proof.
  exists nat, nat, Nat.eqb, plain_world, unlabelled, seconds, 20, [21; 7], 9%Q.
  split; [vm_compute; reflexivity | discriminate].
Qed.

Example C92_case :
  (nothing_left Nat.eqb [fit_on plain_world None; Patterns; Fit None (Some 3%Q) seconds 2; fit_on plain_world (Some 100%Q)]
   /\ last_timeout None [fit_on plain_world None; Patterns; Fit None (Some 3%Q) seconds 2; fit_on plain_world (Some 0%Q)] = Some 3%Q
   /\ Forall asks [@Patterns nat nat; DescriptionLength; Discover])
  /\ hd_error (answers_after Nat.eqb [fit_on plain_world None] [fit_on growing None]) = Some Self
  /\ table_patterns growing [1; 2] = [1; 2; 7]
  /\ ~ nothing_left Nat.eqb [fit_on growing None]
  /\ answers_after Nat.eqb [fit_on growing None] [fit_on plain_world None] = [Error ValueError]
  /\ answers_after Nat.eqb [fit_on growing None] [fit_on growing (Some (1 # 2)%Q); Patterns]
     = [Self; PatternSet [7; 8]]
  /\ answers Nat.eqb [Fit None None seconds 3; @Patterns nat nat] = [Error ValueError; ErrorValue].
Proof.
  repeat split; try (vm_compute; reflexivity); try (repeat constructor; fail). vm_compute. discriminate.
Qed.

Print Assumptions C92_last_fit.
Print Assumptions C92_failed_fit.
Print Assumptions C92_asking.
Print Assumptions C92_no_graph.
Print Assumptions C92_unfitted.
Print Assumptions C92_returned.
Print Assumptions C92_leftover.
Print Assumptions C92_refit_refuted.
Print Assumptions C92_timeout_refuted.
Print Assumptions C92_discover_refuted.
Print Assumptions C92_failed_refuted.
