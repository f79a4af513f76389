(* C103: graphs that are the same up to the numbers of their nodes. *)
From Verif Require Import Prelude CheckModel LCMModel VerticalProofs GraphUtilModel GraphCoverModel MatchModel PropMatch IsoModel.

Section C103.
  Context {L : Type} `{EqDec L}.
  Context (order : list (list (nat * nat)) -> list (list (nat * nat))) (order_perm : forall l, Permutation (order l) l).

  (* ------------------------------------------------------- specification *)
  Definition node (g : lgraph L) (n : nat) : Prop := In n (dkeys (l_nodes g)).
  Definition label_is (g : lgraph L) (n : nat) (o : option (label L)) : Prop := In (n, o) (l_nodes g).
  Definition edge (g : lgraph L) (u v : nat) : Prop := In (u, v) (dkeys (l_edges g)).
  Definition edge_is (g : lgraph L) (u v : nat) (o : option L) : Prop := In ((u, v), o) (l_edges g).
  Record graph_ok (g : lgraph L) : Prop := {
    ok_nodes : NoDup (dkeys (l_nodes g));
    ok_edges : NoDup (dkeys (l_edges g));
    ok_ends : forall u v, edge g u v -> node g u /\ node g v }.
  (* f places the nodes of g on those of p, one on each *)
  Record one_to_one (f : nat -> nat) (g p : lgraph L) : Prop := {
    oo_in : forall n, node g n -> node p (f n);
    oo_inj : forall n n', node g n -> node g n' -> f n = f n' -> n = n';
    oo_onto : forall k, node p k -> exists n, node g n /\ f n = k }.
  (* same label: one renamed graph is the other, labels included *)
  Record same_graph (f : nat -> nat) (g p : lgraph L) : Prop := {
    sg_map : one_to_one f g p;
    sg_labels : forall n o, label_is g n o -> label_is p (f n) o;
    sg_edges : forall u v o, node g u -> node g v -> (edge_is g u v o <-> edge_is p (f u) (f v) o) }.
  (* what a label of the pattern asks of a label of the graph: nothing when there is none; to be or to
     contain a single name; to be a collection with all the names of a collection *)
  Definition many (o : option (label L)) (xs : list L) : Prop := o = Some (Names xs) \/ o = Some (NameList xs).
  Definition asked (o1 o2 : option (label L)) : Prop :=
    o2 = None \/
    (exists y, o2 = Some (Name y) /\ (o1 = Some (Name y) \/ exists xs, many o1 xs /\ In y xs)) \/
    (exists xs ys, many o1 xs /\ many o2 ys /\ incl ys xs).
  Record mapped (f : nat -> nat) (g p : lgraph L) : Prop := {
    mp_map : one_to_one f g p;
    mp_labels : forall n o1 o2, label_is g n o1 -> label_is p (f n) o2 -> asked o1 o2;
    mp_edges : forall u v, node g u -> node g v -> (edge g u v <-> edge p (f u) (f v));
    mp_names : forall u v x y, edge_is g u v (Some x) -> edge_is p (f u) (f v) (Some y) -> x = y }.
  (* every node has one name and every edge has a name *)
  Definition plain (g : lgraph L) : Prop :=
    (forall n o, label_is g n o -> exists x, o = Some (Name x)) /\ (forall u v o, edge_is g u v o -> exists x, o = Some x).
  Definition named_edges (g : lgraph L) : Prop := forall u v o, edge_is g u v o -> exists x, o = Some x.
  (* the map a list of pairs stands for *)
  Definition as_map (e : list (nat * nat)) (n : nat) : nat := match dget e n with Some k => k | None => n end.
  Definition table (g : lgraph L) (f : nat -> nat) : list (nat * nat) := map (fun n => (n, f n)) (dkeys (l_nodes g)).

  (* -------------------------------------------------------------- proofs *)
  Lemma bijections_spec : forall ns ms e, NoDup ms -> (In e (bijections ns ms) <-> map fst e = ns /\ Permutation (map snd e) ms).
  Proof.
    induction ns as [|n ns IH]; intros ms e Hd; cbn [bijections].
    - split.
      + destruct ms as [|m ms]; [|intros []]. intros [<-|[]]. split; [reflexivity | constructor].
      + intros (E & P). destruct e; [|discriminate]. apply Permutation_nil in P. subst ms. left. reflexivity.
    - rewrite in_flat_map. split.
      + intros (k & Ik & I). apply in_map_iff in I. destruct I as (e' & <- & I). apply (IH _ _ (NoDup_rem k ms Hd)) in I. destruct I as (E & P). cbn [map fst snd].
        split; [rewrite E; reflexivity|]. apply NoDup_Permutation.
        * constructor; [|apply (Permutation_NoDup (Permutation_sym P)), NoDup_rem, Hd]. intros X. apply (Permutation_in _ P) in X. exact (remove_In _ _ _ X).
        * exact Hd.
        * intros x. split.
          -- intros [<-|X]; [exact Ik|]. apply (Permutation_in _ P) in X. apply in_remove in X. apply X.
          -- intros X. destruct (eq_dec k x) as [->|D]; [left; reflexivity|]. right. apply (Permutation_in _ (Permutation_sym P)). apply in_in_remove; congruence.
      + intros (E & P). destruct e as [|[n' k] e]; [discriminate|]. cbn [map fst snd] in *. injection E as -> E. exists k.
        split; [apply (Permutation_in _ P); left; reflexivity|]. apply in_map, IH; [apply NoDup_rem, Hd|]. split; [exact E|].
        assert (N : NoDup (k :: map snd e)) by (apply (Permutation_NoDup (Permutation_sym P)), Hd). inversion N as [|? ? Hn N']; subst.
        apply NoDup_Permutation; [exact N' | apply NoDup_rem, Hd |]. intros x. split.
        * intros X. apply in_in_remove; [intros ->; contradiction|]. apply (Permutation_in _ P). right. exact X.
        * intros X. apply in_remove in X. destruct X as [X D]. apply (Permutation_in _ (Permutation_sym P)) in X. destruct X as [<-|X]; [contradiction | exact X].
  Qed.
  Lemma bijections_NoDup : forall ns ms, NoDup ms -> NoDup (bijections ns ms).
  Proof.
    induction ns as [|n ns IH]; intros ms Hd; cbn [bijections]; [destruct ms; repeat constructor; intros []|].
    assert (G : forall f : nat -> list (list (nat * nat)), (forall k, NoDup (f k)) -> NoDup (flat_map (fun k => map (cons (n, k)) (f k)) ms)).
    { intros f Hf. induction Hd as [|k l Hn Hd IHd]; cbn [flat_map]; [constructor|]. apply NoDup_app_intro; [|exact IHd|].
      - apply FinFun.Injective_map_NoDup; [intros x y E; injection E; auto | apply Hf].
      - intros x I J. apply in_map_iff in I. destruct I as (y & <- & _). apply in_flat_map in J. destruct J as (k' & I' & J). apply in_map_iff in J.
        destruct J as (z & E & _). injection E as -> _. contradiction. }
    apply G. intros k. apply IH, NoDup_rem, Hd.
  Qed.

  Lemma node_match_asked (o1 o2 : option (label L)) : node_match o1 o2 = true <-> asked o1 o2.
  Proof.
    assert (All : forall xs ys : list L, forallb (fun i => mem i xs) ys = true <-> incl ys xs).
    { intros xs ys. rewrite forallb_forall. split; intros X i Hi; [apply mem_In, X, Hi | apply mem_In, X, Hi]. }
    unfold asked, many. split.
    - destruct o1 as [[x|xs|xs]|], o2 as [[y|ys|ys]|]; cbn [node_match]; try discriminate; intros E; try (left; reflexivity); right;
        try (apply eqd_eq in E; subst; left; eauto; fail); try (apply mem_In in E; left; eauto 8; fail); right; apply All in E; eauto 8.
    - intros [->|[(y & -> & [->|(xs & [->| ->] & I)])|(xs & ys & [->| ->] & [->| ->] & I)]]; cbn [node_match];
        try (destruct o1 as [[x|xs|xs]|]; reflexivity); try apply eqd_refl; try (apply mem_In; exact I); apply All; exact I.
  Qed.
  Lemma label_at_is g n o : graph_ok g -> label_is g n o -> label_at (l_nodes g) n = o.
  Proof. intros G I. unfold label_at. rewrite (In_dget _ n o (ok_nodes g G) I). reflexivity. Qed.
  Lemma node_label g n : node g n -> exists o, label_is g n o.
  Proof. unfold node, label_is, dkeys. intros I. apply in_map_iff in I. destruct I as ([n' o] & <- & I). eauto. Qed.
  Lemma label_node g n o : label_is g n o -> node g n.
  Proof. unfold node, label_is, dkeys. intros I. apply in_map_iff. exists (n, o). auto. Qed.
  Lemma edge_label g u v : edge g u v -> exists o, edge_is g u v o.
  Proof. unfold edge, edge_is, dkeys. intros I. apply in_map_iff in I. destruct I as ([uv o] & E & I). cbn in E. subst. eauto. Qed.
  Lemma label_edge g u v o : edge_is g u v o -> edge g u v.
  Proof. unfold edge, edge_is, dkeys. intros I. apply in_map_iff. exists ((u, v), o). auto. Qed.
  Lemma label_fun g n o o' : graph_ok g -> label_is g n o -> label_is g n o' -> o = o'.
  Proof. intros G A B. apply (label_at_is g n o G) in A. apply (label_at_is g n o' G) in B. congruence. Qed.
  Lemma edge_fun g u v o o' : graph_ok g -> edge_is g u v o -> edge_is g u v o' -> o = o'.
  Proof. intros G A B. pose proof (VerticalProofs.In_dget _ _ _ (ok_edges g G) A). pose proof (VerticalProofs.In_dget _ _ _ (ok_edges g G) B). congruence. Qed.
  Lemma dget_edge g u v : dget (l_edges g) (u, v) = None <-> ~ edge g u v.
  Proof.
    split.
    - intros E I. apply edge_label in I. destruct I as (o & I). revert E I. unfold edge_is. generalize (l_edges g). intros d. induction d as [|[k w] d IH]; [intros _ []|].
      cbn [dget]. destruct (eq_dec (u, v) k) as [E|E]; [discriminate|]. intros X [Y|Y]; [injection Y as Y _; congruence | exact (IH X Y)].
    - intros N. destruct (dget (l_edges g) (u, v)) as [o|] eqn:E; [|reflexivity]. elim N. apply VerticalProofs.dget_In in E. exact (label_edge g u v o E).
  Qed.

  Lemma one_to_one_perm f g p : graph_ok g -> graph_ok p -> one_to_one f g p <-> Permutation (map f (dkeys (l_nodes g))) (dkeys (l_nodes p)).
  Proof.
    intros G P. split.
    - intros [A B C]. apply NoDup_Permutation; [| exact (ok_nodes p P) |].
      + pose proof (ok_nodes g G) as N. assert (B' : forall n n', In n (dkeys (l_nodes g)) -> In n' (dkeys (l_nodes g)) -> f n = f n' -> n = n') by exact B.
        clear -N B'. induction N as [|x l Hx N IH]; cbn [map]; [constructor|]. constructor.
        * intros I. apply in_map_iff in I. destruct I as (y & E & I). apply (B' y x) in E; [subst; contradiction | right; exact I | left; reflexivity].
        * apply IH. intros n n' I I' E. apply B'; [right; exact I | right; exact I' | exact E].
      + intros k. rewrite in_map_iff. split.
        * intros (n & <- & I). exact (A n I).
        * intros I. destruct (C k I) as (n & I' & E). exists n. auto.
    - intros Q. split.
      + intros n I. apply (Permutation_in _ Q), in_map, I.
      + pose proof (Permutation_NoDup (Permutation_sym Q) (ok_nodes p P)) as N. unfold node. clear -N. intros n n'. induction (dkeys (l_nodes g)) as [|x l IH]; [intros []|].
        cbn [map] in N. inversion N as [|? ? Hx N']; subst. intros [<-|I] [<-|I'] E; [reflexivity | | | exact (IH N' I I' E)]; elim Hx; [rewrite E | rewrite <- E]; apply in_map; assumption.
      + intros k I. apply (Permutation_in _ (Permutation_sym Q)) in I. apply in_map_iff in I. destruct I as (n & E & I). exists n. auto.
  Qed.
  Lemma keeps_table f g p : graph_ok g -> graph_ok p -> one_to_one f g p -> keeps g p (table g f) = true <-> mapped f g p.
  Proof.
    intros G P Q. unfold keeps, table. rewrite andb_true_iff, !forallb_forall. split.
    - intros (A & B). split; [exact Q | | |].
      + intros n o1 o2 I J. specialize (A (n, f n)). cbn [fst snd] in A. rewrite (label_at_is g n o1 G I), (label_at_is p (f n) o2 P J) in A.
        apply node_match_asked, A. apply in_map_iff. exists n. split; [reflexivity | exact (label_node g n o1 I)].
      + intros u v Iu Iv. specialize (B (u, f u) (in_map (fun n => (n, f n)) _ _ Iu)). rewrite forallb_forall in B.
        specialize (B (v, f v) (in_map (fun n => (n, f n)) _ _ Iv)). unfold keeps_edge in B. cbn [fst snd] in B.
        pose proof (dget_edge g u v) as D1. pose proof (dget_edge p (f u) (f v)) as D2.
        destruct (dget (l_edges g) (u, v)) as [o1|] eqn:E1, (dget (l_edges p) (f u, f v)) as [o2|] eqn:E2; try discriminate B.
        * apply VerticalProofs.dget_In in E1, E2. split; intros _; [exact (label_edge p _ _ o2 E2) | exact (label_edge g _ _ o1 E1)].
        * split; intros X; exfalso; [exact (proj1 D1 eq_refl X) | exact (proj1 D2 eq_refl X)].
      + intros u v x y I J. destruct (ok_ends g G u v (label_edge g u v _ I)) as (Iu & Iv). specialize (B (u, f u) (in_map (fun n => (n, f n)) _ _ Iu)). rewrite forallb_forall in B.
        specialize (B (v, f v) (in_map (fun n => (n, f n)) _ _ Iv)). unfold keeps_edge in B. cbn [fst snd] in B.
        rewrite (VerticalProofs.In_dget _ _ _ (ok_edges g G) I), (VerticalProofs.In_dget _ _ _ (ok_edges p P) J) in B. exact (eqd_eq _ _ B).
    - intros M. split.
      + intros x I. apply in_map_iff in I. destruct I as (n & <- & I). cbn [fst snd]. destruct (node_label g n I) as (o1 & I1).
        destruct (node_label p (f n) (oo_in f g p Q n I)) as (o2 & I2). rewrite (label_at_is g n o1 G I1), (label_at_is p (f n) o2 P I2). apply node_match_asked.
        exact (mp_labels f g p M n o1 o2 I1 I2).
      + intros x I. rewrite forallb_forall. intros y J. apply in_map_iff in I, J. destruct I as (u & <- & Iu), J as (v & <- & Iv). unfold keeps_edge. cbn [fst snd].
        pose proof (mp_edges f g p M u v Iu Iv) as S. pose proof (dget_edge g u v) as D1. pose proof (dget_edge p (f u) (f v)) as D2.
        destruct (dget (l_edges g) (u, v)) as [o1|] eqn:E1, (dget (l_edges p) (f u, f v)) as [o2|] eqn:E2; [| | |reflexivity].
        * apply VerticalProofs.dget_In in E1, E2. destruct o1 as [x|], o2 as [y|]; try reflexivity. cbn [edge_match]. rewrite (mp_names f g p M u v x y E1 E2). apply eqd_refl.
        * exfalso. apply (proj1 D2 eq_refl), S. exact (label_edge g u v o1 (VerticalProofs.dget_In _ _ _ E1)).
        * exfalso. apply (proj1 D1 eq_refl), S. exact (label_edge p _ _ o2 (VerticalProofs.dget_In _ _ _ E2)).
  Qed.
  Lemma table_as_map g e : NoDup (dkeys (l_nodes g)) -> map fst e = dkeys (l_nodes g) -> e = table g (as_map e).
  Proof.
    intros N E. unfold table. rewrite <- E in *. clear E. assert (W : forall d : list (nat * nat), (forall n k, In (n, k) d -> as_map e n = k) -> d = map (fun n => (n, as_map e n)) (map fst d)).
    { induction d as [|[n k] d IH]; intros X; [reflexivity|]. cbn [map fst]. rewrite (X n k (or_introl eq_refl)). f_equal. apply IH. intros n' k' I. apply X. right. exact I. }
    apply W. intros n k I. unfold as_map. rewrite (VerticalProofs.In_dget e n k N I). reflexivity.
  Qed.
  Lemma as_map_table g f n : node g n -> NoDup (dkeys (l_nodes g)) -> as_map (table g f) n = f n.
  Proof.
    intros I N. unfold as_map. rewrite (VerticalProofs.In_dget (table g f) n (f n)); [reflexivity | |].
    - unfold table, dkeys. rewrite map_map. cbn [fst]. rewrite map_id. exact N.
    - unfold table. apply in_map_iff. exists n. auto.
  Qed.
  Lemma isomorphisms_spec g p e : graph_ok g -> graph_ok p -> In e (isomorphisms order g p) <-> exists f, mapped f g p /\ e = table g f.
  Proof.
    intros G P. unfold isomorphisms.
    assert (Q : In e (order (filter (keeps g p) (bijections (dkeys (l_nodes g)) (dkeys (l_nodes p))))) <->
                In e (filter (keeps g p) (bijections (dkeys (l_nodes g)) (dkeys (l_nodes p))))).
    { split; apply Permutation_in; [apply order_perm | apply Permutation_sym, order_perm]. }
    rewrite Q, filter_In, (bijections_spec _ _ e (ok_nodes p P)). split.
    - intros ((E & R) & K). pose proof (table_as_map g e (ok_nodes g G) E) as T. exists (as_map e). split; [|exact T]. rewrite T in K.
      apply keeps_table in K; [exact K | exact G | exact P |]. apply one_to_one_perm; [exact G | exact P|]. rewrite T in R. unfold table in R. rewrite map_map in R. exact R.
    - intros (f & M & ->). split.
      + unfold table. rewrite !map_map. cbn [fst snd]. rewrite map_id. split; [reflexivity|]. apply one_to_one_perm; [exact G | exact P | exact (mp_map f g p M)].
      + apply keeps_table; [exact G | exact P | exact (mp_map f g p M) | exact M].
  Qed.
  Lemma isomorphisms_NoDup g p : graph_ok p -> NoDup (isomorphisms order g p).
  Proof. intros P. unfold isomorphisms. apply (Permutation_NoDup (Permutation_sym (order_perm _))), NoDup_filter, bijections_NoDup, (ok_nodes p P). Qed.

  (* is_isomorphic(graph, pattern) says whether the nodes of the graph can be placed on those of the
     pattern, one on each, so that edges go to edges and non-edges to non-edges, the names of two edges are
     the same when both have one, and each label is at least what the pattern asks for *)
  Theorem C103_isomorphic g p : graph_ok g -> graph_ok p -> is_isomorphic order g p = true <-> exists f, mapped f g p.
  Proof.
    intros G P. unfold is_isomorphic. pose proof (fun e => isomorphisms_spec g p e G P) as S. destruct (isomorphisms order g p) as [|e l].
    - split; [discriminate|]. intros (f & M). destruct (proj2 (S (table g f))). exists f. auto.
    - split; [|reflexivity]. intros _. destruct (proj1 (S e) (or_introl eq_refl)) as (f & M & _). eauto.
  Qed.
  Print Assumptions C103_isomorphic.

  Lemma asked_plain x y : asked (Some (Name x)) (Some (Name y)) -> x = y.
  Proof. unfold asked, many. intros [X|[(z & E & [X|(xs & [X|X] & _)])|(xs & ys & [X|X] & _)]]; congruence. Qed.
  Lemma asked_refl o : asked o o.
  Proof.
    destruct o as [[x|xs|xs]|]; unfold asked, many; [right; left; eauto | | | left; reflexivity]; right; right; exists xs, xs; (split; [|split]); auto; intros z Z; exact Z.
  Qed.
  Lemma asked_trans a b c : asked a b -> asked b c -> asked a c.
  Proof.
    unfold asked, many. intros A [->|[(y & -> & B)|(ys & zs & Hb & Hc & I)]]; [left; reflexivity | |].
    - right. left. exists y. split; [reflexivity|]. destruct B as [->|(ys & Hb & I)].
      + destruct A as [A|[(z & E & A)|(xs & ys & _ & [A|A] & _)]]; try discriminate A. injection E as <-. exact A.
      + right. destruct A as [->|[(z & -> & _)|(xs & ys' & Ha & Hb' & J)]]; [destruct Hb; discriminate | destruct Hb; discriminate|].
        exists xs. split; [exact Ha|]. apply J. assert (ys' = ys) as -> by (destruct Hb as [->| ->], Hb' as [X|X]; congruence). exact I.
    - right. right. destruct A as [->|[(z & -> & _)|(xs & ys' & Ha & Hb' & J)]]; [destruct Hb; discriminate | destruct Hb; discriminate|].
      exists xs, zs. split; [exact Ha|]. split; [exact Hc|]. assert (ys' = ys) as -> by (destruct Hb as [->| ->], Hb' as [X|X]; congruence). exact (incl_tran I J).
  Qed.
  Lemma mapped_plain f g p : graph_ok g -> graph_ok p -> plain g -> plain p -> mapped f g p <-> same_graph f g p.
  Proof.
    intros G P (Ng & Eg) (Np & Ep). split; intros M.
    - split; [exact (mp_map f g p M) | |].
      + intros n o I. destruct (node_label p (f n) (oo_in f g p (mp_map f g p M) n (label_node g n o I))) as (o' & J). pose proof (mp_labels f g p M n o o' I J) as A.
        destruct (Ng n o I) as (x & ->), (Np (f n) o' J) as (y & ->). apply asked_plain in A. subst y. exact J.
      + intros u v o Iu Iv. pose proof (mp_edges f g p M u v Iu Iv) as S. split; intros I.
        * destruct (edge_label p (f u) (f v) (proj1 S (label_edge g u v o I))) as (o' & J). destruct (Eg u v o I) as (x & ->), (Ep _ _ o' J) as (y & ->).
          rewrite (mp_names f g p M u v x y I J). exact J.
        * destruct (edge_label g u v (proj2 S (label_edge p _ _ o I))) as (o' & J). destruct (Ep _ _ o I) as (x & ->), (Eg u v o' J) as (y & ->).
          rewrite <- (mp_names f g p M u v y x J I). exact J.
    - split; [exact (sg_map f g p M) | | |].
      + intros n o1 o2 I J. rewrite <- (label_fun p (f n) o1 o2 P (sg_labels f g p M n o1 I) J). apply asked_refl.
      + intros u v Iu Iv. split; intros I; apply edge_label in I; destruct I as (o & I); apply (sg_edges f g p M u v o Iu Iv) in I; exact (label_edge _ _ _ o I).
      + intros u v x y I J. destruct (ok_ends g G u v (label_edge g u v _ I)) as (Iu & Iv). apply (sg_edges f g p M u v (Some x) Iu Iv) in I. pose proof (edge_fun p _ _ _ _ P I J) as E. congruence.
  Qed.
  (* when every node has one name and every edge has a name, it says whether the two graphs are the same
     up to the numbers of the nodes *)
  Theorem C103_same g p : graph_ok g -> graph_ok p -> plain g -> plain p -> is_isomorphic order g p = true <-> exists f, same_graph f g p.
  Proof.
    intros G P Pg Pp. rewrite (C103_isomorphic g p G P). split; intros (f & M); exists f; apply (mapped_plain f g p G P Pg Pp); exact M.
  Qed.
  Print Assumptions C103_same.

  Lemma one_to_one_id g : one_to_one (fun n => n) g g.
  Proof. split; [auto | auto | eauto]. Qed.
  Lemma mapped_id g : graph_ok g -> mapped (fun n => n) g g.
  Proof.
    intros G. split; [apply one_to_one_id | | tauto |].
    - intros n o1 o2 I J. rewrite (label_fun g n o1 o2 G I J). apply asked_refl.
    - intros u v x y I J. pose proof (edge_fun g u v _ _ G I J). congruence.
  Qed.
  Lemma one_to_one_comp f f' g h k : one_to_one f g h -> one_to_one f' h k -> one_to_one (fun n => f' (f n)) g k.
  Proof.
    intros [A B C] [A' B' C']. split.
    - auto.
    - intros n n' I J E. apply B; auto.
    - intros z I. destruct (C' z I) as (y & J & <-). destruct (C y J) as (x & K & <-). eauto.
  Qed.
  Lemma mapped_comp f f' g h k : graph_ok g -> graph_ok h -> named_edges h -> mapped f g h -> mapped f' h k -> mapped (fun n => f' (f n)) g k.
  Proof.
    intros G Hh N M M'. pose proof (oo_in f g h (mp_map f g h M)) as A. split.
    - apply (one_to_one_comp f f' g h k); [exact (mp_map f g h M) | exact (mp_map f' h k M')].
    - intros n o1 o2 I J. destruct (node_label h (f n) (A n (label_node g n o1 I))) as (o & K). apply (asked_trans o1 o o2).
      + exact (mp_labels f g h M n o1 o I K).
      + exact (mp_labels f' h k M' (f n) o o2 K J).
    - intros u v Iu Iv. rewrite (mp_edges f g h M u v Iu Iv). apply (mp_edges f' h k M'); auto.
    - intros u v x y I J. destruct (ok_ends g G u v (label_edge g u v _ I)) as (Iu & Iv). destruct (edge_label h (f u) (f v)) as (o & K).
      { apply (mp_edges f g h M u v Iu Iv). exact (label_edge g u v _ I). }
      destruct (N _ _ o K) as (z & ->). rewrite (mp_names f g h M u v x z I K). exact (mp_names f' h k M' _ _ z y K J).
  Qed.
  (* the other way round: the number of the node placed on k *)
  Definition back (f : nat -> nat) (g : lgraph L) (k : nat) : nat := hd k (filter (fun n => f n =? k) (dkeys (l_nodes g))).
  Lemma back_spec f g p : one_to_one f g p -> (forall k, node p k -> node g (back f g k) /\ f (back f g k) = k) /\ (forall n, node g n -> back f g (f n) = n).
  Proof.
    intros [A B C]. assert (W : forall k, node p k -> node g (back f g k) /\ f (back f g k) = k).
    { intros k I. destruct (C k I) as (n & J & E). unfold back. assert (X : In n (filter (fun n => f n =? k) (dkeys (l_nodes g)))) by (apply filter_In; split; [exact J | apply Nat.eqb_eq; exact E]).
      destruct (filter (fun n => f n =? k) (dkeys (l_nodes g))) as [|m l] eqn:F; [destruct X|]. cbn [hd]. assert (Y : In m (filter (fun n => f n =? k) (dkeys (l_nodes g)))) by (rewrite F; left; reflexivity).
      apply filter_In in Y. destruct Y as (Y & E'). apply Nat.eqb_eq in E'. split; assumption. }
    split; [exact W|]. intros n I. destruct (W (f n) (A n I)) as (J & E). exact (B _ _ J I E).
  Qed.
  Lemma same_back f g p : graph_ok p -> same_graph f g p -> same_graph (back f g) p g.
  Proof.
    intros P M. destruct (back_spec f g p (sg_map f g p M)) as (W1 & W2). split; [split| |].
    - intros k I. apply W1, I.
    - intros k k' I J E. destruct (W1 k I) as (_ & E1), (W1 k' J) as (_ & E2). congruence.
    - intros n I. exists (f n). split; [exact (oo_in f g p (sg_map f g p M) n I) | apply W2, I].
    - intros k o I. destruct (W1 k (label_node p k o I)) as (J & E). destruct (node_label g _ J) as (o' & K). pose proof (sg_labels f g p M _ o' K) as X. rewrite E in X.
      rewrite (label_fun p k o o' P I X). exact K.
    - intros u v o Iu Iv. destruct (W1 u Iu) as (Ju & Eu), (W1 v Iv) as (Jv & Ev). rewrite (sg_edges f g p M _ _ o Ju Jv), Eu, Ev. tauto.
  Qed.
  (* a graph is found the same as itself; for graphs with one name on each node and edge the order of the
     arguments does not matter; and it can be chained through a graph whose edges have names *)
  Theorem C103_equivalence g h k : graph_ok g -> graph_ok h -> graph_ok k ->
    is_isomorphic order g g = true /\
    (plain g -> plain h -> is_isomorphic order g h = is_isomorphic order h g) /\
    (named_edges h -> is_isomorphic order g h = true -> is_isomorphic order h k = true -> is_isomorphic order g k = true).
  Proof.
    intros G Hh K. split; [|split].
    - apply (C103_isomorphic g g G G). exists (fun n => n). apply mapped_id, G.
    - intros Pg Ph. apply Bool.eq_iff_eq_true. rewrite (C103_same g h G Hh Pg Ph), (C103_same h g Hh G Ph Pg). split; intros (f & M); eexists; apply same_back; eassumption.
    - intros N A B. apply (C103_isomorphic g h G Hh) in A. apply (C103_isomorphic h k Hh K) in B. destruct A as (f & A), B as (f' & B). apply (C103_isomorphic g k G K).
      exists (fun n => f' (f n)). exact (mapped_comp f f' g h k G Hh N A B).
  Qed.
  Print Assumptions C103_equivalence.

  Lemma mapped_ext f f' g p : graph_ok g -> (forall n, node g n -> f n = f' n) -> mapped f g p -> mapped f' g p.
  Proof.
    intros G E M. destruct (mp_map f g p M) as [A B C]. split; [split| | |].
    - intros n I. rewrite <- E; auto.
    - intros n n' I J. rewrite <- !E; auto.
    - intros k I. destruct (C k I) as (n & J & <-). exists n. rewrite <- E; auto.
    - intros n o1 o2 I. rewrite <- E by exact (label_node g n o1 I). apply (mp_labels f g p M n o1 o2 I).
    - intros u v Iu Iv. rewrite <- !E by assumption. apply (mp_edges f g p M u v Iu Iv).
    - intros u v x y I. destruct (ok_ends g G u v (label_edge g u v _ I)) as (Iu & Iv). rewrite <- !E by assumption. exact (mp_names f g p M u v x y I).
  Qed.
  Lemma table_ext g f f' : (forall n, node g n -> f n = f' n) -> table g f = table g f'.
  Proof. intros E. unfold table. apply map_ext_in. intros n I. rewrite (E n I). reflexivity. Qed.
  Lemma table_eq g f f' n : table g f = table g f' -> node g n -> f n = f' n.
  Proof.
    unfold table, node. induction (dkeys (l_nodes g)) as [|x l IH]; [intros _ []|]. cbn [map]. intros E [<-|I]; [injection E; auto|].
    apply IH; [|exact I]. injection E; auto.
  Qed.
  (* get_automorphisms gives every placement of a graph on itself, once each, that of each node on itself
     among them *)
  Theorem C103_automorphisms g : graph_ok g ->
    NoDup (get_automorphisms order g) /\
    (forall e, In e (get_automorphisms order g) <-> exists f, mapped f g g /\ e = table g f) /\
    In (table g (fun n => n)) (get_automorphisms order g).
  Proof.
    intros G. split; [apply isomorphisms_NoDup, G|]. split; [intros e; apply isomorphisms_spec; assumption|].
    apply isomorphisms_spec; [exact G | exact G|]. exists (fun n => n). split; [apply mapped_id, G | reflexivity].
  Qed.
  Print Assumptions C103_automorphisms.
  Lemma automorphism_map g e : graph_ok g -> In e (get_automorphisms order g) -> mapped (as_map e) g g /\ e = table g (as_map e).
  Proof.
    intros G I. apply (isomorphisms_spec g g e G G) in I. destruct I as (f & M & ->).
    assert (X : forall n, node g n -> f n = as_map (table g f) n) by (intros n J; rewrite as_map_table; [reflexivity | exact J | exact (ok_nodes g G)]).
    split; [exact (mapped_ext f _ g g G X M) | exact (table_ext g f _ X)].
  Qed.
  (* when the edges have names they form a group: one followed by another is one of them, and each can be
     undone by one of them *)
  Theorem C103_group g : graph_ok g -> named_edges g ->
    (forall e e', In e (get_automorphisms order g) -> In e' (get_automorphisms order g) -> In (table g (fun n => as_map e' (as_map e n))) (get_automorphisms order g)) /\
    (forall e, In e (get_automorphisms order g) -> exists e', In e' (get_automorphisms order g) /\
       forall n, node g n -> as_map e' (as_map e n) = n /\ as_map e (as_map e' n) = n).
  Proof.
    intros G N.
    assert (Comp : forall e e', In e (get_automorphisms order g) -> In e' (get_automorphisms order g) -> In (table g (fun n => as_map e' (as_map e n))) (get_automorphisms order g)).
    { intros e e' I J. destruct (automorphism_map g e G I) as (M & _), (automorphism_map g e' G J) as (M' & _). apply isomorphisms_spec; [exact G | exact G|].
      eexists. split; [|reflexivity]. exact (mapped_comp (as_map e) (as_map e') g g g G G N M M'). }
    split; [exact Comp|]. intros e I. destruct (automorphism_map g e G I) as (M & Te). destruct (C103_automorphisms g G) as (ND & _ & Id).
    set (A := get_automorphisms order g) in *. set (phi := fun e' => table g (fun n => as_map e' (as_map e n))).
    assert (Inj : forall x y, In x A -> In y A -> phi x = phi y -> x = y).
    { intros x y Ix Iy E. destruct (automorphism_map g x G Ix) as (_ & Tx), (automorphism_map g y G Iy) as (_ & Ty).
      transitivity (table g (as_map x)); [exact Tx|]. transitivity (table g (as_map y)); [|symmetry; exact Ty]. apply table_ext. intros k J.
      destruct (oo_onto _ _ _ (mp_map _ _ _ M) k J) as (n & Jn & <-). exact (table_eq g _ _ n E Jn). }
    assert (NDm : NoDup (map phi A)).
    { clear -ND Inj. induction ND as [|x l Hx ND IH]; cbn [map]; [constructor|]. constructor.
      - intros I. apply in_map_iff in I. destruct I as (y & E & I). apply Inj in E; [subst; contradiction | right; exact I | left; reflexivity].
      - apply IH. intros a b Ia Ib. apply Inj; right; assumption. }
    assert (Sub : incl (map phi A) A) by (intros x Ix; apply in_map_iff in Ix; destruct Ix as (y & <- & Iy); exact (Comp e y I Iy)).
    assert (Sup : incl A (map phi A)) by (apply NoDup_length_incl; [exact NDm | rewrite map_length; lia | exact Sub]).
    apply Sup in Id. apply in_map_iff in Id. destruct Id as (e' & E & I'). exists e'. split; [exact I'|].
    assert (W : forall n, node g n -> as_map e' (as_map e n) = n) by (intros n J; exact (table_eq g _ _ n E J)).
    intros n J. split; [exact (W n J)|]. destruct (oo_onto _ _ _ (mp_map _ _ _ M) n J) as (m & Jm & <-). rewrite (W m Jm). reflexivity.
  Qed.
  Print Assumptions C103_group.
End C103.

(* without these conditions the claims fail: a graph whose node has two labels matches a pattern asking
   for one of them, and not the other way round *)
Theorem C103_symmetric_refuted : exists g p : lgraph nat, graph_ok g /\ graph_ok p /\ named_edges g /\ named_edges p /\
  is_isomorphic (fun l => l) g p = true /\ is_isomorphic (fun l => l) p g = false.
Proof.
  exists {| l_nodes := [(1, Some (Names [5; 6])); (2, Some (Name 7))]; l_edges := [((1, 2), Some 3)] |},
         {| l_nodes := [(1, Some (Name 5)); (2, Some (Name 7))]; l_edges := [((1, 2), Some 3)] |}.
  repeat split; try (cbn; repeat constructor; cbn; intuition congruence); try reflexivity.
  - destruct H as [E|[]]; injection E as <- <-; cbn; auto.
  - destruct H as [E|[]]; injection E as <- <-; cbn; auto.
  - destruct H as [E|[]]; injection E as <- <-; cbn; auto.
  - destruct H as [E|[]]; injection E as <- <-; cbn; auto.
  - intros u v o [E|[]]. injection E as <- <- <-. eauto.
  - intros u v o [E|[]]. injection E as <- <- <-. eauto.
Qed.
Print Assumptions C103_symmetric_refuted.

(* an edge without name matches any name (the ValueError is returned, not raised), so two different graphs
   both match a third *)
Theorem C103_transitive_refuted : exists g h k : lgraph nat, graph_ok g /\ graph_ok h /\ graph_ok k /\ plain g /\ plain k /\
  is_isomorphic (fun l => l) g h = true /\ is_isomorphic (fun l => l) h k = true /\ is_isomorphic (fun l => l) g k = false.
Proof.
  pose (mk := fun o : option nat => {| l_nodes := [(1, Some (Name 5)); (2, Some (Name 7))]; l_edges := [((1, 2), o)] |}).
  assert (Ok : forall o, graph_ok (mk o)).
  { intros o. split; [repeat constructor; cbn; intuition congruence | repeat constructor; cbn; auto |]. intros u v [E|[]]. injection E as <- <-. cbn. auto. }
  assert (Pl : forall x, plain (mk (Some x))).
  { intros x. split; [intros n o [E|[E|[]]]; injection E as <- <-; eauto | intros u v o [E|[]]; injection E as <- <- <-; eauto]. }
  exists (mk (Some 3)), (mk None), (mk (Some 4)). do 3 (split; [apply Ok|]). do 2 (split; [apply Pl|]). repeat split.
Qed.
Print Assumptions C103_transitive_refuted.

(* and the automorphisms of a graph with such edges need not compose: a ring whose edges are named 1,
   nothing, 2, nothing can be turned by one step but not by two *)
Theorem C103_group_refuted : exists (g : lgraph nat) e, graph_ok g /\
  In e (get_automorphisms (fun l => l) g) /\ ~ In (table g (fun n => as_map e (as_map e n))) (get_automorphisms (fun l => l) g).
Proof.
  exists {| l_nodes := [(1, None); (2, None); (3, None); (4, None)]; l_edges := [((1, 2), Some 1); ((2, 3), None); ((3, 4), Some 2); ((4, 1), None)] |},
         [(1, 2); (2, 3); (3, 4); (4, 1)].
  split; [|split].
  - split; [repeat constructor; cbn; intuition congruence | repeat constructor; cbn; intuition congruence |]. intros u v [E|[E|[E|[E|[]]]]]; injection E as <- <-; cbn; tauto.
  - vm_compute. tauto.
  - intros I. vm_compute in I. repeat (destruct I as [I|I]; [discriminate I|]). exact I.
Qed.
Print Assumptions C103_group_refuted.

(* a triangle 1 -> 2 -> 3 -> 1 and the same one numbered otherwise: they are the same, and there are three
   ways to place the first on itself *)
Definition ring3 (a b c : nat) : lgraph nat :=
  {| l_nodes := [(a, Some (Name 5)); (b, Some (Name 5)); (c, Some (Name 5))]; l_edges := [((a, b), Some 1); ((b, c), Some 1); ((c, a), Some 1)] |}.
Example C103_case : graph_ok (ring3 1 2 3) /\ graph_ok (ring3 7 4 9) /\ plain (ring3 1 2 3) /\ plain (ring3 7 4 9) /\
  is_isomorphic (fun l => l) (ring3 1 2 3) (ring3 7 4 9) = true /\ length (get_automorphisms (fun l => l) (ring3 1 2 3)) = 3 /\
  is_isomorphic (fun l => l) (ring3 1 2 3) {| l_nodes := l_nodes (ring3 1 2 3); l_edges := [((1, 2), Some 1); ((2, 3), Some 1); ((1, 3), Some 1)] |} = false.
Proof.
  assert (Ok : forall a b c, a <> b -> a <> c -> b <> c -> graph_ok (ring3 a b c)).
  { intros a b c D1 D2 D3. split; [repeat constructor; cbn; intuition congruence | repeat constructor; cbn; intuition congruence |].
    intros u v [E|[E|[E|[]]]]; injection E as <- <-; cbn; auto. }
  assert (Pl : forall a b c, plain (ring3 a b c)).
  { intros a b c. split; [intros n o [E|[E|[E|[]]]]; injection E as <- <-; eauto | intros u v o [E|[E|[E|[]]]]; injection E as <- <- <-; eauto]. }
  do 2 (split; [apply Ok; lia|]). do 2 (split; [apply Pl|]). repeat split.
Qed.
