(* C68: the cover of a graph does not depend on the covers made before. *)
From Verif Require Import Prelude CheckModel LCMModel VerticalProofs GraphUtilModel PropGraphUtil
  GraphCoverModel PropGraphCover.

(* ------------------------------------------------------- specification *)
(* a graph as the user loads it: no mark *)
Definition unmarked {L} : marks L := {| marker := 0; edge_mark := []; node_mark := [] |}.
(* what a cover reports: its uses, or the exception it raises *)
Definition reported {L} (o : outcome (marks L * list (use L))) : outcome (list (use L)) :=
  bind o (fun s => Ret (snd s)).

(* --------------------------------------------------------------- proofs *)
Section Rel.
  Context {A B : Type} (R : A -> B -> Prop).
  Definition orel (o : outcome A) (o' : outcome B) : Prop :=
    match o, o' with
    | Ret a, Ret b => R a b
    | Exn e, Exn e' => e = e'
    | NoFuel, NoFuel => True
    | _, _ => False
    end.
End Rel.
Lemma orel_bind {A B C D} (R : A -> B -> Prop) (T : C -> D -> Prop) o o' f f' :
  orel R o o' -> (forall a b, R a b -> orel T (f a) (f' b)) -> orel T (bind o f) (bind o' f').
Proof. destruct o, o'; cbn; intros H K; try contradiction; auto. Qed.
Lemma orel_refl {A} (o : outcome A) : orel eq o o.
Proof. destruct o; cbn; auto. Qed.
Lemma orel_fold {S T A} (R : S -> T -> Prop) f f' : forall (l : list A) s t,
  (forall s t a, R s t -> orel R (f s a) (f' t a)) -> R s t -> orel R (fold_out f l s) (fold_out f' l t).
Proof.
  induction l as [|a l IH]; intros s t Hf Hs; [exact Hs|]; cbn.
  eapply orel_bind; [apply Hf, Hs|]; intros; apply IH; assumption.
Qed.

Section C68.
  Context {L : Type} `{EqDec L}.
  Context (substr : L -> L -> bool) (set_order : list (nat * nat) -> list (nat * nat)) (multi : bool).
  Context (g : data L).

  Definition same (m m' : marks L) : Prop :=
    (forall u v l, edge_is_marked m u v l = edge_is_marked m' u v l) /\
    (forall n l, node_is_marked m n l = node_is_marked m' n l).
  Definition same_s (s s' : marks L * list (use L)) : Prop := same (fst s) (fst s') /\ snd s = snd s'.

  Lemma same_edge m m' u v l : same m m' -> same (set_edge m u v l) (set_edge m' u v l).
  Proof.
    intros [He Hn]; split; [|exact Hn]; intros a b c.
    rewrite (edge_is_marked_set m u v l (a, b, c)), (edge_is_marked_set m' u v l (a, b, c)).
    cbn [fst snd]; rewrite He; reflexivity.
  Qed.
  Lemma same_node m m' n l : same m m' -> same (set_node m n l) (set_node m' n l).
  Proof.
    intros [He Hn]; split; [exact He|]; intros a b; rewrite !node_is_marked_set, Hn; reflexivity.
  Qed.
  Lemma same_is_edge m m' u v l : same m m' ->
    orel eq (is_edge_marked multi g m u v l) (is_edge_marked multi g m' u v l).
  Proof.
    intros [He _]; unfold is_edge_marked; rewrite He; apply orel_refl.
  Qed.
  Lemma same_mark_edge m m' u v l : same m m' ->
    orel same (mark_edge substr multi g m u v l) (mark_edge substr multi g m' u v l).
  Proof.
    intros S; unfold mark_edge.
    destruct (negb (has_edge g u v)); [reflexivity|].
    destruct multi; [destruct (mem (u, v, l) (d_edges g)) | destruct (existsb _ (d_edges g))];
      cbn; try reflexivity; apply same_edge, S.
  Qed.
  Lemma same_is_node m m' n l : same m m' ->
    orel eq (is_node_marked substr g m n l) (is_node_marked substr g m' n l).
  Proof.
    intros [_ Hn]; unfold is_node_marked; rewrite Hn; apply orel_refl.
  Qed.
  Lemma same_is_labels m m' n lab : same m m' ->
    orel eq (is_node_labels_marked substr g m n lab) (is_node_labels_marked substr g m' n lab).
  Proof.
    intros S; destruct lab as [l|ls|ls]; [apply same_is_node, S | | reflexivity].
    apply orel_fold; [|reflexivity]; intros b b' l <-.
    eapply orel_bind; [apply same_is_node, S|]; intros c c' <-; reflexivity.
  Qed.
  Lemma same_mark_node m m' n lab : same m m' ->
    orel same (mark_node substr g m n lab) (mark_node substr g m' n lab).
  Proof.
    intros S; destruct lab as [l|ls|ls]; [apply same_node, S | | reflexivity].
    apply orel_fold; [|exact S]; intros x x' l Hx.
    eapply orel_bind; [apply orel_refl|]; intros b b' <-; destruct b; [apply same_node, Hx | exact Hx].
  Qed.
  Lemma same_embedding m m' e p : same m m' ->
    orel eq (is_embedding_marked set_order multi g m e p) (is_embedding_marked set_order multi g m' e p).
  Proof.
    intros S; unfold is_embedding_marked; destruct (edges_in set_order e p) as [|pq es]; [reflexivity|].
    apply orel_fold; [|reflexivity]; intros b b' x <-.
    eapply orel_bind; [apply orel_refl|]; intros ls ? <-.
    eapply orel_bind; [apply orel_refl|]; intros u ? <-.
    eapply orel_bind; [apply orel_refl|]; intros v ? <-.
    destruct (has_edge g u v); [|apply orel_refl].
    apply orel_fold; [|reflexivity]; intros c c' l <-.
    eapply orel_bind; [apply same_is_edge, S|]; intros d d' <-; reflexivity.
  Qed.
  Lemma same_pattern_node m m' p a n : same m m' ->
    orel same (mark_pattern_node substr g m p a n) (mark_pattern_node substr g m' p a n).
  Proof.
    intros S; unfold mark_pattern_node; destruct (dget (p_nodes p) a) as [[lab|]|];
      [apply same_mark_node, S | exact S | reflexivity].
  Qed.
  Lemma same_mark_embedding m m' e p : same m m' ->
    orel same (mark_embedding substr set_order multi g m e p) (mark_embedding substr set_order multi g m' e p).
  Proof.
    intros S; apply orel_fold; [|exact S]; intros x x' pq Hx.
    eapply orel_bind; [apply orel_refl|]; intros ls ? <-.
    eapply orel_bind; [apply orel_refl|]; intros u ? <-.
    eapply orel_bind; [apply orel_refl|]; intros v ? <-.
    apply orel_bind with (R := same).
    - destruct (has_edge g u v); [|destruct (has_edge g v u); [reflexivity | exact Hx]].
      apply orel_fold; [|exact Hx]; intros y y' l Hy; apply same_mark_edge, Hy.
    - intros y y' Hy; eapply orel_bind; [apply same_pattern_node, Hy|].
      intros z z' Hz; apply same_pattern_node, Hz.
  Qed.

  Lemma same_row s s' r : same_s s s' ->
    orel same_s (row_cover substr set_order multi g s r) (row_cover substr set_order multi g s' r).
  Proof.
    intros S; unfold row_cover; destruct (p_edges (r_pattern r)).
    - apply orel_fold; [|exact S]; clear s s' S; intros s s' e S.
      apply orel_fold; [|exact S]; clear s s' S; intros s s' kv [Sm Su].
      destruct (dget (p_nodes (r_pattern r)) (snd kv)) as [[lab|]|]; [|reflexivity|reflexivity].
      eapply orel_bind; [apply same_is_labels, Sm|]; intros b ? <-.
      destruct b; [split; assumption|].
      eapply orel_bind; [apply same_mark_node, Sm|]; intros y y' Hy.
      split; [exact Hy | cbn; rewrite Su; reflexivity].
    - apply orel_fold; [|exact S]; clear s s' S; intros s s' e [Sm Su].
      eapply orel_bind; [apply same_embedding, Sm|]; intros b ? <-.
      destruct b; [split; assumption|].
      eapply orel_bind; [apply same_mark_embedding, Sm|]; intros y y' Hy.
      split; [exact Hy | cbn; rewrite Su; reflexivity].
  Qed.
  Lemma same_vertex n s s' l : same_s s s' ->
    orel same_s (vertex_singleton_turn substr g n s l) (vertex_singleton_turn substr g n s' l).
  Proof.
    intros [Sm Su]; unfold vertex_singleton_turn.
    eapply orel_bind; [apply same_is_node, Sm|]; intros b ? <-.
    destruct b; [split; assumption|].
    eapply orel_bind; [apply same_mark_node, Sm|]; intros y y' Hy.
    split; [exact Hy | cbn; rewrite Su; reflexivity].
  Qed.
  Lemma same_singletons s s' : same_s s s' ->
    orel same_s (singleton_cover substr multi g s) (singleton_cover substr multi g s').
  Proof.
    intros S; unfold singleton_cover; eapply orel_bind.
    - apply orel_fold; [|exact S]; clear s s' S; intros s s' [[u v] l] [Sm Su]; cbn [edge_singleton_turn].
      eapply orel_bind; [apply same_is_edge, Sm|]; intros b ? <-.
      destruct b; [split; assumption|].
      eapply orel_bind; [apply same_mark_edge, Sm|]; intros y y' Hy.
      split; [exact Hy | cbn; rewrite Su; reflexivity].
    - clear s s' S; intros s s' S; apply orel_fold; [|exact S]; clear s s' S; intros s s' v S.
      unfold node_singleton_turn; destruct (snd v) as [[l|ls|ls]|];
        [apply same_vertex, S | | | exact S]; (apply orel_fold; [|exact S]; intros; apply same_vertex; assumption).
  Qed.

  Lemma ok_next_same m m' : marks_ok m -> marks_ok m' ->
    same {| marker := S (marker m); edge_mark := edge_mark m; node_mark := node_mark m |}
         {| marker := S (marker m'); edge_mark := edge_mark m'; node_mark := node_mark m' |}.
  Proof.
    assert (E : forall x : marks L, marks_ok x -> forall u v l,
      edge_is_marked {| marker := S (marker x); edge_mark := edge_mark x; node_mark := node_mark x |} u v l = false).
    { intros x [He _] u v l; unfold edge_is_marked; cbn [edge_mark marker].
      destruct (dget (edge_mark x) (u, v, l)) as [c|] eqn:Ed; [|reflexivity].
      apply He in Ed; apply Nat.eqb_neq; lia. }
    assert (N : forall x : marks L, marks_ok x -> forall n l,
      node_is_marked {| marker := S (marker x); edge_mark := edge_mark x; node_mark := node_mark x |} n l = false).
    { intros x [_ Hn] n l; unfold node_is_marked; cbn [node_mark marker].
      destruct (dget (node_mark x) (n, l)) as [c|] eqn:Ed; [|reflexivity].
      apply Hn in Ed; apply Nat.eqb_neq; lia. }
    intros O O'; split; intros; [rewrite !E | rewrite !N]; auto.
  Qed.

  (* marks stay no newer than the marker *)
  Notation keeps o := (match o with Ret m => marks_ok m | _ => True end).
  Notation keeps_s o := (match o with Ret s => marks_ok (fst s) | _ => True end).
  Lemma keeps_fold {S A} (P : S -> Prop) (f : S -> A -> outcome S) : forall l s,
    (forall s a, P s -> match f s a with Ret s' => P s' | _ => True end) ->
    P s -> match fold_out f l s with Ret s' => P s' | _ => True end.
  Proof.
    induction l as [|a l IH]; intros s Hf Hs; [exact Hs|]; cbn.
    pose proof (Hf s a Hs) as Ha; destruct (f s a) as [s1| |]; cbn; [apply IH; assumption | exact I | exact I].
  Qed.
  Lemma keeps_mark_edge m u v l : marks_ok m -> keeps (mark_edge substr multi g m u v l).
  Proof.
    intros O; unfold mark_edge; destruct (negb (has_edge g u v)); [exact I|].
    destruct multi; [destruct (mem (u, v, l) (d_edges g)) | destruct (existsb _ (d_edges g))];
      try exact I; apply marks_ok_edge, O.
  Qed.
  Lemma keeps_mark_node m n lab : marks_ok m -> keeps (mark_node substr g m n lab).
  Proof.
    intros O; destruct lab as [l|ls|ls]; [apply marks_ok_node, O | | exact I].
    apply keeps_fold; [|exact O]; intros x l Hx; destruct (in_label substr g n l) as [b| |]; cbn; [|exact I|exact I].
    destruct b; [apply marks_ok_node, Hx | exact Hx].
  Qed.
  Lemma keeps_pattern_node m p a n : marks_ok m -> keeps (mark_pattern_node substr g m p a n).
  Proof.
    intros O; unfold mark_pattern_node; destruct (dget (p_nodes p) a) as [[lab|]|];
      [apply keeps_mark_node, O | exact O | exact I].
  Qed.
  Lemma keeps_embedding m e p : marks_ok m -> keeps (mark_embedding substr set_order multi g m e p).
  Proof.
    intros O; apply keeps_fold; [|exact O]; intros x pq Hx.
    destruct (labels_of p pq) as [ls| |]; [cbn|exact I|exact I].
    destruct (key_of e (fst pq)) as [u| |]; [cbn|exact I|exact I].
    destruct (key_of e (snd pq)) as [v| |]; [cbn|exact I|exact I].
    assert (K : keeps (if has_edge g u v then fold_out (fun m l => mark_edge substr multi g m u v l) ls x
                       else if has_edge g v u then Exn KeyError else Ret x)).
    { destruct (has_edge g u v); [|destruct (has_edge g v u); [exact I | exact Hx]].
      apply keeps_fold; [|exact Hx]; intros; apply keeps_mark_edge; assumption. }
    destruct (if has_edge g u v then _ else _) as [y| |]; [cbn|exact I|exact I].
    pose proof (keeps_pattern_node y p (fst pq) u K) as K1.
    destruct (mark_pattern_node substr g y p (fst pq) u) as [z| |]; [cbn|exact I|exact I].
    apply keeps_pattern_node, K1.
  Qed.
  Lemma keeps_row s r : marks_ok (fst s) -> keeps_s (row_cover substr set_order multi g s r).
  Proof.
    intros O; unfold row_cover; destruct (p_edges (r_pattern r)).
    - apply keeps_fold; [|exact O]; clear s O; intros s e O.
      apply keeps_fold; [|exact O]; clear s O; intros s kv O.
      destruct (dget (p_nodes (r_pattern r)) (snd kv)) as [[lab|]|]; [|exact I|exact I].
      destruct (is_node_labels_marked substr g (fst s) (fst kv) lab) as [[]| |]; [exact O | |exact I|exact I]; cbn.
      pose proof (keeps_mark_node (fst s) (fst kv) lab O) as K.
      destruct (mark_node substr g (fst s) (fst kv) lab); [exact K|exact I|exact I].
    - apply keeps_fold; [|exact O]; clear s O; intros s e O; unfold edge_pattern_turn.
      destruct (is_embedding_marked set_order multi g (fst s) e (r_pattern r)) as [[]| |];
        [exact O | |exact I|exact I]; cbn.
      pose proof (keeps_embedding (fst s) e (r_pattern r) O) as K.
      destruct (mark_embedding substr set_order multi g (fst s) e (r_pattern r)); [exact K|exact I|exact I].
  Qed.
  Lemma keeps_vertex n s l : marks_ok (fst s) -> keeps_s (vertex_singleton_turn substr g n s l).
  Proof.
    intros O; unfold vertex_singleton_turn.
    destruct (is_node_marked substr g (fst s) n l) as [[]| |]; [exact O | |exact I|exact I].
    cbn; apply marks_ok_node, O.
  Qed.
  Lemma keeps_cover rows m : marks_ok m -> keeps_s (cover substr set_order multi g rows m).
  Proof.
    intros O; unfold cover.
    set (s0 := ({| marker := S (marker m); edge_mark := edge_mark m; node_mark := node_mark m |}, @nil (use L))).
    assert (O0 : marks_ok (fst s0)).
    { destruct O as [He Hn]; split; cbn; intros k c Hk; [apply He in Hk | apply Hn in Hk]; lia. }
    pose proof (keeps_fold (fun s => marks_ok (fst s)) (row_cover substr set_order multi g) rows s0
                  (fun s a Hs => keeps_row s a Hs) O0) as K.
    destruct (fold_out (row_cover substr set_order multi g) rows s0) as [s| |]; [cbn|exact I|exact I].
    unfold singleton_cover.
    pose proof (keeps_fold (fun s => marks_ok (fst s)) (edge_singleton_turn substr multi g) (d_edges g) s) as K1.
    assert (K2 : forall s a, marks_ok (fst s) -> keeps_s (edge_singleton_turn substr multi g s a)).
    { intros x [[u v] l] Hx; cbn.
      destruct (is_edge_marked multi g (fst x) u v l) as [[]| |]; [exact Hx | |exact I|exact I]; cbn.
      pose proof (keeps_mark_edge (fst x) u v l Hx) as K2.
      destruct (mark_edge substr multi g (fst x) u v l); [exact K2|exact I|exact I]. }
    specialize (K1 K2 K).
    destruct (fold_out (edge_singleton_turn substr multi g) (d_edges g) s) as [s1| |]; [cbn|exact I|exact I].
    apply (keeps_fold (fun s => marks_ok (fst s))); [|exact K1].
    intros x v Hx; unfold node_singleton_turn; destruct (snd v) as [[l|ls|ls]|];
      [apply keeps_vertex, Hx | | | exact Hx];
      (apply (keeps_fold (fun s => marks_ok (fst s))); [|exact Hx]; intros; apply keeps_vertex; assumption).
  Qed.

  (* C68: after any number of covers of the same graph by any code tables, the
     cover by a table reports the same uses, in the same order, or raises the
     same exception, as on the graph just loaded. *)
  Theorem C68_history : forall (earlier : list (list (row L))) (rows : list (row L)) (m : marks L),
    fold_out (fun m t => bind (cover substr set_order multi g t m) (fun s => Ret (fst s))) earlier unmarked
      = Ret m ->
    reported (cover substr set_order multi g rows m)
    = reported (cover substr set_order multi g rows unmarked).
  Proof.
    intros earlier rows m E.
    assert (O0 : marks_ok (@unmarked L)) by (split; intros k c Hk; discriminate).
    assert (O : marks_ok m).
    { pose proof (keeps_fold marks_ok (fun m t => bind (cover substr set_order multi g t m) (fun s => Ret (fst s)))
                    earlier unmarked) as K; rewrite E in K; apply K; [|exact O0].
      intros x t Hx; pose proof (keeps_cover t x Hx) as Kc.
      destruct (cover substr set_order multi g t x); [exact Kc|exact I|exact I]. }
    assert (X : orel same_s (cover substr set_order multi g rows m) (cover substr set_order multi g rows unmarked)).
    { unfold cover; apply orel_bind with (R := same_s); [|intros; apply same_singletons; assumption].
      apply orel_fold; [intros; apply same_row; assumption|].
      split; [apply ok_next_same; assumption | reflexivity]. }
    destruct (cover substr set_order multi g rows m), (cover substr set_order multi g rows unmarked);
      cbn in X |- *; try contradiction; [|subst; reflexivity|reflexivity].
    destruct X as [_ ->]; reflexivity.
  Qed.
End C68.

(* C68 does not extend to a copy.  networkx copies a graph with its
   cover_marker but shares the dicts of marks: if the graph is covered again
   after the copy was taken, the cover of the copy finds the edges marked and
   reports no use. *)
Theorem C68_copy_refuted :
  exists (g : data nat) (first second : marks nat * list (use nat)) (copy : marks nat),
  cover Nat.eqb (fun l => l) false g [] unmarked = Ret first /\
  cover Nat.eqb (fun l => l) false g [] (fst first) = Ret second /\
  copy = {| marker := marker (fst first); edge_mark := edge_mark (fst second);
            node_mark := node_mark (fst second) |} /\
  reported (cover Nat.eqb (fun l => l) false g [] copy) = Ret [] /\
  reported (cover Nat.eqb (fun l => l) false g [] unmarked) = Ret [EdgeUse 1 2 7; VertexUse 1 8].
Proof.
  exists {| d_nodes := [(1, Some (Name 8)); (2, None)]; d_edges := [(1, 2, 7)] |}.
  eexists; eexists; eexists; split; [vm_compute; reflexivity|].
  split; [vm_compute; reflexivity|]; split; [reflexivity|]; split; vm_compute; reflexivity.
Qed.

Example C68_case :
  let g := {| d_nodes := [(1, Some (Name 8)); (2, None)]; d_edges := [(1, 2, 7)] |} in
  let p := {| p_nodes := [(1, Some (Name 8)); (2, None)]; p_edges := [((1, 2), [7])] |} in
  let r := {| r_pattern := p; r_embeddings := [[(1, 1); (2, 2)]] |} in
  exists m, fold_out (fun m t => bind (cover Nat.eqb (fun l => l) false g t m) (fun s => Ret (fst s)))
              [[]; [r]; []] unmarked = Ret m /\
  reported (cover Nat.eqb (fun l => l) false g [r] m) = Ret [RowUse p [(1, 1); (2, 2)]].
Proof. eexists; split; vm_compute; reflexivity. Qed.

Print Assumptions C68_history.
Print Assumptions C68_copy_refuted.
