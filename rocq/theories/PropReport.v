(* C93: which patterns GraphMDL reports. *)
From Coq Require Import Reals Lra.
From Verif Require Import Prelude CheckModel LCMModel VerticalProofs GraphUtilModel GraphCoverModel MergeModel RewriteModel.
From Verif Require Import PrequentialModel GraphLengthModel GenerateModel ReportModel.
From Verif Require Import PropGraphUtil PropPrequential KraftProofs PropGraphLength PropGraphCover RewriteProofs PropRewrite PropTableLength.
Open Scope nat_scope.

Section C93.
  Context {L : Type} `{EqDec L}.
  Context (substr : L -> L -> bool) (set_order : list (nat * nat) -> list (nat * nat)) (multi : bool).
  Context (row_name node_name : nat -> L).

  Lemma code_zero u t : 0 < u -> u <= t -> (log2 (INR u) (INR t) = 0)%R <-> u = t.
  Proof.
    intros Hu Ht. pose proof ln2_pos as L2. apply lt_0_INR in Hu as Ru.
    assert (0 < INR t)%R as Rt by (apply lt_0_INR; lia). unfold log2. split.
    - intros E. destruct (Nat.eq_dec u t) as [|N]; [assumption|]. exfalso.
      assert (INR u < INR t)%R as Rl by (apply lt_INR; lia).
      assert (ln (INR u / INR t) < ln 1)%R as Hl.
      { apply ln_increasing; [apply Rdiv_lt_0_compat; assumption|].
        apply Rmult_lt_reg_r with (INR t); [assumption|]. unfold Rdiv. rewrite Rmult_assoc, Rinv_l by lra. lra. }
      rewrite ln_1 in Hl.
      assert (ln (INR u / INR t) / ln 2 < 0)%R as Hd.
      { unfold Rdiv at 1. rewrite <- (Rmult_0_l (/ ln 2)). apply Rmult_lt_compat_r; [apply Rinv_0_lt_compat; lra | exact Hl]. }
      lra.
    - intros ->. unfold Rdiv. rewrite Rinv_r by lra. rewrite ln_1. ring.
  Qed.

  Lemma row_usage_le (log : list (entry L)) i : row_usage log i <= length log.
  Proof. unfold row_usage, uses_of. induction log as [|x l IH]; [apply le_n|]. cbn [filter length]. destruct (eqd _ _); cbn [length]; lia. Qed.
  Lemma row_usage_all (log : list (entry L)) i : row_usage log i < length log <-> exists y, In y log /\ e_row y <> Some i.
  Proof.
    unfold row_usage, uses_of. induction log as [|x l IH]; cbn [filter length].
    - split; [lia | intros (y & [] & _)].
    - destruct (eqd (e_row x) (Some i)) eqn:E; cbn [length].
      + apply (proj1 (eqd_true _ _)) in E. rewrite <- Nat.succ_lt_mono, IH. split.
        * intros (y & Hy & N). exists y. split; [right; exact Hy | exact N].
        * intros (y & [<-|Hy] & N); [contradiction | exists y; auto].
      + split; [|intros _; pose proof (row_usage_le l i) as K; unfold row_usage, uses_of in K; lia].
        intros _. exists x. split; [left; reflexivity|]. intros F. rewrite F, eqd_refl in E. discriminate.
  Qed.
  Lemma row_usage_some (log : list (entry L)) i x : In x log -> e_row x = Some i -> 0 < row_usage log i.
  Proof.
    intros Hx E. unfold row_usage, uses_of. assert (In x (filter (fun x => eqd (e_row x) (Some i)) log)) as Hi.
    { apply filter_In. split; [exact Hx | rewrite E; apply eqd_refl]. }
    destruct (filter _ log); [destruct Hi | simpl; lia].
  Qed.

  Context (substr_refl : forall l, substr l l = true)
          (set_order_In : forall l x, In x (set_order l) <-> In x l).

  (* C93: on a graph whose vertex and edge names differ, the patterns reported
     for a code table are exactly those of the rows that are used in the cover,
     except when one row makes up the whole cover, and the singletons used. *)
  Theorem C93_reported (g : data L) (rows : list (row L)) (m : marks L) :
    admissible g rows -> readable row_name node_name g -> marks_ok m -> told_apart g ->
    exists m' log ps ns, cover' substr set_order multi g rows m = Ret (m', log)
    /\ patterns multi (covered (patterns_of rows) log (rewrite row_name node_name log)) = Ret (ps, ns)
    /\ (forall p, In p ps <-> exists i r, nth_error rows i = Some r /\ p = pattern_graph (r_pattern r)
          /\ (exists x, In x log /\ e_row x = Some i) /\ (exists y, In y log /\ e_row y <> Some i))
    /\ (forall n, In n ns <->
          (exists x v l, In x log /\ e_use x = VertexUse v l /\ n = vertex_singleton l)
          \/ (exists x u v l, In x log /\ e_use x = EdgeUse u v l /\ n = edge_singleton multi l)).
  Proof.
    intros Ha Hr Hm Hd.
    destruct (run_exists substr set_order multi substr_refl set_order_In row_name node_name g rows m Ha Hr Hm)
      as (m' & log & ids & E & _ & _ & R).
    pose proof (cover_tagged substr set_order multi g rows m _ E) as Ht. cbn [snd] in Ht.
    pose proof (covered_usage_sum rows log (rewrite row_name node_name log) Ht) as Eu.
    set (c := covered (patterns_of rows) log (rewrite row_name node_name log)) in *.
    assert (Apart : forall l, In l (map fst (t_vertex c)) -> In l (map fst (t_edge c)) -> False).
    { intros l H1 H2. unfold c, covered in H1, H2. cbn [t_vertex t_edge] in H1, H2.
      apply vertex_usage_keys in H1 as (x & n & Hx & Ex). apply edge_usage_keys in H2 as (y & u & v & Hy & Ey).
      pose proof (ru_from _ _ _ _ _ _ _ R x Hx) as Fx. rewrite Ex in Fx.
      pose proof (ru_from _ _ _ _ _ _ _ R y Hy) as Fy. rewrite Ey in Fy.
      apply (Hd l); [apply edge_names_of; eauto | apply vertex_names_of; [apply (ad_nodes _ _ Ha) | eauto]]. }
    assert (Nv : NoDup (map fst (t_vertex c))) by apply (proj1 (counter_total _)).
    assert (Ne : NoDup (map fst (t_edge c))) by apply (proj1 (counter_total _)).
    assert (Ks : dkeys (singleton_code_length c) = map fst (t_vertex c) ++ map fst (t_edge c)).
    { unfold singleton_code_length. cbv zeta. rewrite (fold_add_codes _ (t_vertex c) []); [|exact Nv | intros l _ []]. cbn [app].
      rewrite fold_add_codes; [|exact Ne |].
      - unfold dkeys. rewrite map_app, !map_map. cbn [fst]. reflexivity.
      - intros l Hl F. unfold dkeys in F. rewrite map_map in F. cbn [fst] in F. exact (Apart l F Hl). }
    set (sing := fun l => if mem l (map fst (t_edge c)) then edge_singleton multi l else vertex_singleton l).
    assert (Es : reported_singletons multi c = Ret (map sing (dkeys (singleton_code_length c)))).
    { unfold reported_singletons. rewrite Ks. unfold sing, create_singleton_pattern.
      assert (forall k, (forall l, In l k -> In l (map fst (t_vertex c)) \/ In l (map fst (t_edge c))) ->
        map_out (fun l => if mem l (map fst (t_edge c)) then Ret (edge_singleton multi l)
          else if mem l (map fst (t_vertex c)) then Ret (vertex_singleton l) else Exn ValueError) k
        = Ret (map (fun l => if mem l (map fst (t_edge c)) then edge_singleton multi l else vertex_singleton l) k)) as F.
      { induction k as [|l k IH]; intros Hk; [reflexivity|]. cbn [map_out map].
        rewrite IH by (intros x Hx; apply Hk; right; exact Hx).
        destruct (mem l (map fst (t_edge c))) eqn:E1; [reflexivity|].
        destruct (mem l (map fst (t_vertex c))) eqn:E2; [reflexivity|]. exfalso.
        destruct (Hk l (or_introl eq_refl)) as [F|F]; apply mem_In in F; congruence. }
      apply F. intros l Hl. apply in_app_or in Hl. exact Hl. }
    exists m', log, (reported_rows c), (map sing (dkeys (singleton_code_length c))).
    split; [exact E|]. split; [fold c; unfold patterns; rewrite Es; reflexivity|]. split.
    - intros p. unfold reported_rows. rewrite in_map_iff. split.
      + intros (r & <- & Hin). apply filter_In in Hin as [Hin Hz]. apply covered_In in Hin as (i & q & Eq & ->). cbn [c_pattern].
        destruct (Req_EM_T _ 0) as [|N]; [discriminate|]. unfold row_code_length in N. cbn [c_usage] in N.
        destruct (row_usage log i =? 0) eqn:E0; [elim N; reflexivity|]. apply Nat.eqb_neq in E0.
        unfold patterns_of in Eq. rewrite nth_error_map in Eq. destruct (nth_error rows i) as [r|] eqn:Er; [|discriminate].
        injection Eq as <-. exists i, r. split; [exact Er|]. split; [reflexivity|]. split; [apply row_used; lia|].
        apply row_usage_all. rewrite Eu in N. pose proof (row_usage_le log i) as Hle.
        destruct (Nat.eq_dec (row_usage log i) (length log)) as [F|F]; [|lia].
        elim N. apply code_zero; [lia | exact Hle | exact F].
      + intros (i & r & Er & -> & (x & Hx & Ex) & Hy). apply row_usage_all in Hy. pose proof (row_usage_some log i x Hx Ex) as Hp.
        exists {| c_pattern := pattern_graph (r_pattern r); c_usage := row_usage log i; c_ports := port_usage log i |}.
        split; [reflexivity|]. apply filter_In. split.
        * apply covered_In. exists i, (pattern_graph (r_pattern r)). split; [|reflexivity].
          unfold patterns_of. rewrite nth_error_map, Er. reflexivity.
        * destruct (Req_EM_T _ 0) as [F|]; [|reflexivity]. exfalso. unfold row_code_length in F. cbn [c_usage] in F.
          rewrite (proj2 (Nat.eqb_neq _ _)) in F by lia. rewrite Eu in F. apply code_zero in F; lia.
    - intros n. rewrite in_map_iff, Ks. unfold sing. split.
      + intros (l & <- & Hl). apply in_app_or in Hl. destruct (mem l (map fst (t_edge c))) eqn:Em.
        * right. apply mem_In in Em. apply edge_usage_keys in Em as (x & u & v & Hx & Ex). exists x, u, v, l. auto.
        * left. destruct Hl as [Hl|Hl]; [|apply mem_In in Hl; congruence].
          apply vertex_usage_keys in Hl as (x & v & Hx & Ex). exists x, v, l. auto.
      + intros [(x & v & l & Hx & Ex & ->)|(x & u & v & l & Hx & Ex & ->)].
        * assert (In l (map fst (t_vertex c))) as Hl by (apply vertex_usage_keys; eauto).
          exists l. split; [|apply in_or_app; left; exact Hl].
          destruct (mem l (map fst (t_edge c))) eqn:Em; [|reflexivity]. apply mem_In in Em. destruct (Apart l Hl Em).
        * assert (In l (map fst (t_edge c))) as Hl by (apply edge_usage_keys; eauto).
          exists l. split; [|apply in_or_app; right; exact Hl]. apply mem_In in Hl. rewrite Hl. reflexivity.
  Qed.
End C93.

(* A pattern that makes up the whole cover is not reported: its code has length
   0, the value patterns() takes for an unused row. *)
Definition pair_graph : data nat := {| d_nodes := [(1, Some (Name 10)); (2, None)]; d_edges := [(1, 2, 7)] |}.
Definition pair_rows : list (row nat) :=
  [{| r_pattern := {| p_nodes := [(1, Some (Name 10)); (2, None)]; p_edges := [((1, 2), [7])] |};
      r_embeddings := [[(1, 1); (2, 2)]] |}].

Lemma pair_readable : readable row_no node_no pair_graph.
Proof.
  apply readable_small.
  - intros u v l. simpl. intuition (try congruence); repeat match goal with H : (_, _) = (_, _) |- _ => injection H; clear H; intros; subst end; lia.
  - apply names_small. repeat constructor.
Qed.
Lemma pair_admissible : admissible pair_graph pair_rows.
Proof.
  split; [unfold pair_graph, pair_rows; tidy_tac | intros u l; simpl; intuition congruence |].
  exists pair_rows, []. split; [reflexivity|]. split; repeat constructor; discriminate.
Qed.

Theorem C93_sole_refuted : exists (g : data nat) rows m' log, admissible g rows /\ readable row_no node_no g
  /\ told_apart g /\ cover' eqd (fun l => l) false g rows fresh_marks = Ret (m', log)
  /\ log <> [] /\ (forall x, In x log -> e_row x = Some 0)
  /\ patterns false (covered (patterns_of rows) log (rewrite row_no node_no log)) = Ret ([], []).
Proof.
  assert (told_apart pair_graph) as Ht by (intros l Hl Hv; simpl in Hl, Hv; intuition congruence).
  assert (marks_ok fresh_marks) as Hm by (split; intros k c; discriminate).
  destruct (C93_reported eqd (fun l => l) false row_no node_no (fun l => eqd_refl l) (fun l x => iff_refl _)
              pair_graph pair_rows fresh_marks pair_admissible pair_readable Hm Ht) as (m' & log & ps & ns & E & P & Hps & Hns).
  assert (exists m0 log0, cover' eqd (fun l => l) false pair_graph pair_rows fresh_marks = Ret (m0, log0)
    /\ log0 <> [] /\ (forall x, In x log0 -> e_row x = Some 0)
    /\ (forall x, In x log0 -> match e_use x with VertexUse _ _ | EdgeUse _ _ _ => False | _ => True end)) as (m0 & log0 & E0 & N & A & B).
  { eexists. eexists. split; [vm_compute; reflexivity|]. split; [discriminate|].
    split; intros x Hx; simpl in Hx; destruct Hx as [<-|[]]; [reflexivity | exact I]. }
  rewrite E0 in E. injection E as -> ->. exists pair_graph, pair_rows, m', log.
  split; [exact pair_admissible|]. split; [exact pair_readable|]. split; [exact Ht|]. split; [exact E0|].
  split; [exact N|]. split; [exact A|]. rewrite P. f_equal. f_equal.
  - destruct ps as [|p ps]; [reflexivity|]. destruct (proj1 (Hps p) (or_introl eq_refl)) as (i & r & Er & _ & (x & Hx & Ex) & (y & Hy & Ey)).
    elim Ey. rewrite (A y Hy), <- Ex. symmetry. apply A, Hx.
  - destruct ns as [|n ns]; [reflexivity|].
    destruct (proj1 (Hns n) (or_introl eq_refl)) as [(x & v & l & Hx & Ex & _)|(x & u & v & l & Hx & Ex & _)];
      specialize (B x Hx); rewrite Ex in B; destruct B.
Qed.

(* A name on nodes and on an edge: only the edge is reported. *)
Theorem C93_shared_name_refuted : exists (g : data nat) m' log ps ns, admissible g []
  /\ cover' eqd (fun l => l) false g [] fresh_marks = Ret (m', log)
  /\ patterns false (covered [] log (rewrite row_no node_no log)) = Ret (ps, ns)
  /\ (exists x v, In x log /\ e_use x = VertexUse v 7) /\ ~ In (vertex_singleton 7) ns.
Proof.
  exists {| d_nodes := [(1, Some (Name 7)); (2, Some (Name 7))]; d_edges := [(1, 2, 7)] |}.
  eexists. eexists. exists [], [edge_singleton false 7]. split.
  { split; [tidy_tac | intros u l; simpl; intuition congruence |]. exists [], []. repeat split; constructor. }
  split; [vm_compute; reflexivity|]. split; [reflexivity|]. split.
  - eexists. exists 1. split; [right; left; reflexivity | reflexivity].
  - intros [F|[]]. discriminate.
Qed.

(* the data graph and the table of C76_case meet the hypotheses; there two rows
   and a singleton are used *)
Example C93_case : admissible demo_graph demo_rows /\ readable row_no node_no demo_graph /\ told_apart demo_graph
  /\ marks_ok fresh_marks
  /\ exists m' log, cover' eqd (fun l => l) false demo_graph demo_rows fresh_marks = Ret (m', log)
     /\ map e_row log = [Some 0; Some 0; Some 1; None].
Proof.
  split; [exact demo_admissible|]. split; [exact demo_readable|].
  split; [intros l Hl Hv; simpl in Hl, Hv; intuition congruence|].
  split; [split; intros k c; discriminate|].
  eexists. eexists. split; [vm_compute; reflexivity | reflexivity].
Qed.

Print Assumptions C93_reported.
Print Assumptions C93_sole_refuted.
Print Assumptions C93_shared_name_refuted.
Print Assumptions C93_case.
