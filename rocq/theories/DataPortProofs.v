(* Proofs about DataPortModel. *)
From Verif Require Import Prelude CheckModel LCMModel VerticalProofs GraphUtilModel PropGraphUtil
  GraphCoverModel PropGraphCover MergeModel PropMerge RewriteModel RewriteProofs PropRewrite DataPortModel.
From Coq Require Import Permutation.

Section Proofs.
  Context {L : Type} `{EqDec L}.
  Variable substr : L -> L -> bool.
  Variable set_order : list (nat * nat) -> list (nat * nat).
  Variable multi : bool.
  Hypothesis substr_refl : forall l, substr l l = true.
  Hypothesis set_order_In : forall l x, In x (set_order l) <-> In x l.
  Variable g : data L.

  Definition incident (p : pattern L) (a : nat) : Prop :=
    exists b ls, In ((a, b), ls) (p_edges p) \/ In ((b, a), ls) (p_edges p).

  (* the names of a node at an edge are marked with the embedding *)
  Lemma mark_embedding_nodes m e p m' n a l : NoDup (dkeys (p_edges p)) -> occurrence g p e -> In (n, a) e -> incident p a ->
    In l (node_names (p_nodes p) a) -> mark_embedding substr set_order multi g m e p = Ret m' -> node_is_marked m' n l = true.
  Proof.
    intros Hp Ho Hna (b & ls & Hinc) Hl E.
    assert (exists pq, In pq (dkeys (p_edges p)) /\ (fst pq = a \/ snd pq = a)) as (pq & Hpq & Ea).
    { destruct Hinc as [Hi|Hi]; eexists; (split; [exact (in_map fst _ _ Hi)|]); cbn [fst snd]; auto. }
    assert (forall m m', mark_pattern_node substr g m p a n = Ret m' -> node_is_marked m' n l = true) as Hmark.
    { intros m0 m1 E1. unfold mark_pattern_node, node_names in *. destruct (dget (p_nodes p) a) as [[lab|]|] eqn:Ed; [|destruct Hl|destruct Hl].
      destruct (oc_labels _ _ _ Ho n a lab Hna Ed) as (Hh & dl & Hd & Hi).
      destruct (mark_node_ok substr substr_refl g m0 n lab dl Hh Hd Hi) as (m2 & E2 & _ & _ & _ & M). rewrite E1 in E2. injection E2 as <-.
      rewrite M, Nat.eqb_refl, (proj2 (mem_In _ _) Hl). reflexivity. }
    assert (forall m q c w m', mark_pattern_node substr g m q c w = Ret m' -> grows m m') as P.
    { intros m0 q c w m1. unfold mark_pattern_node. destruct (dget (p_nodes q) c) as [[lab|]|]; intros F.
      - eapply grows_mark_node, F.
      - injection F as <-. apply grows_refl.
      - discriminate. }
    unfold mark_embedding in E. apply (edges_in_spec set_order set_order_In g p e Ho) in Hpq.
    revert Hpq E. generalize (edges_in set_order e p) as es. intros es. revert m. induction es as [|x es IH]; intros m Hin E; [destruct Hin|].
    cbn [fold_out] in E. apply bind_Ret in E. destruct E as (m1 & E1 & E). destruct Hin as [->|Hin]; [|exact (IH m1 Hin E)].
    assert (grows m1 m') as Hg.
    { revert E. apply fold_out_rel; [apply grows_refl | apply grows_trans|]. intros s qr s' Es.
      apply bind_Ret in Es as (ls' & _ & Es). apply bind_Ret in Es as (u & _ & Es). apply bind_Ret in Es as (v & _ & Es).
      apply bind_Ret in Es as (s1 & F1 & Es). apply bind_Ret in Es as (s2 & F2 & Es).
      apply grows_trans with s1; [|apply grows_trans with s2; [eapply P, F2 | eapply P, Es]].
      destruct (has_edge g u v).
      - eapply fold_out_rel with (R := grows); [apply grows_refl | apply grows_trans | | exact F1].
        intros y k y' Ey. exact (grows_mark_edge _ _ _ _ _ _ _ _ Ey).
      - destruct (has_edge g v u); [discriminate|]. injection F1 as <-. apply grows_refl. }
    apply Hg. apply bind_Ret in E1 as (ls' & _ & E1). apply bind_Ret in E1 as (u & Eu & E1). apply bind_Ret in E1 as (v & Ev & E1).
    apply bind_Ret in E1 as (s1 & _ & E1). apply bind_Ret in E1 as (s2 & F2 & E1).
    destruct (key_of_ok g p e Ho a (in_map snd _ _ Hna)) as (w & Ew & _ & Hw). rewrite <- (Hw n Hna) in Ew.
    destruct Ea as [Ea|Ea]; rewrite Ea in *.
    - rewrite Ew in Eu. injection Eu as <-. eapply P; [exact E1|]. exact (Hmark _ _ F2).
    - rewrite Ew in Ev. injection Ev as <-. exact (Hmark _ _ E1).
  Qed.

  Lemma all_marked_false m n : is_node_all_labels_marked substr g m n = Ret false ->
    exists l, In l (node_names (d_nodes g) n) /\ node_is_marked m n l = false.
  Proof.
    unfold is_node_all_labels_marked, node_names. destruct (dget (d_nodes g) n) as [[[l|ls|ls]|]|]; intros E; try discriminate; cbn [names_of].
    - exists l. split; [left; reflexivity|]. unfold is_node_marked in E. apply bind_Ret in E as (c & _ & E). destruct c; [congruence | discriminate].
    - exact (some_unmarked _ _ _ _ _ E).
    - exact (some_unmarked _ _ _ _ _ E).
  Qed.
  Lemma search_port_why m p e ports : search_port substr g m p e = Ret ports -> forall n a, In (n, a) ports ->
    degree (d_edges g) n <> degree (pattern_edges p) a \/ exists l, In l (node_names (d_nodes g) n) /\ node_is_marked m n l = false.
  Proof.
    unfold search_port. intros E.
    refine (fold_out_reach _ (fun res => forall n a, In (n, a) res -> degree (d_edges g) n <> degree (pattern_edges p) a \/
      exists l, In l (node_names (d_nodes g) n) /\ node_is_marked m n l = false) e _ [] ports _ E); [|intros n a []].
    intros s [n0 a0] s' _ Hs Es. apply bind_Ret in Es as (b & Eb & Es). injection Es as <-. destruct b; [|exact Hs].
    intros n a Hin. apply in_app_or in Hin. destruct Hin as [Hin|[Hin|[]]]; [exact (Hs n a Hin)|]. injection Hin as <- <-. cbn [fst snd] in Eb.
    unfold is_port in Eb. apply bind_Ret in Eb as (c & Ec & Eb). destruct c; cbn [negb] in Eb.
    - right. apply bind_Ret in Eb as (d & Ed & Eb). destruct d; [discriminate|]. exact (all_marked_false m n0 Ed).
    - left. unfold is_node_edges_marked in Ec. destruct (mem _ _ && mem _ _); [|discriminate]. injection Ec as Ec. apply Nat.eqb_neq, Ec.
  Qed.

  Definition why (x : entry L) : Prop := forall p e, e_use x = RowUse p e -> p_edges p <> [] -> forall n a, In (n, a) (e_ports x) ->
    degree (d_edges g) n <> degree (pattern_edges p) a \/ exists l, In l (node_names (d_nodes g) n) /\ covers_vertex n l (RowUse p e) = false.
  Lemma cover_why rows m s : Forall (row_ok g) rows ->
    (forall r a, In r rows -> p_edges (r_pattern r) <> [] -> In a (dkeys (p_nodes (r_pattern r))) -> incident (r_pattern r) a) ->
    cover' substr set_order multi g rows m = Ret s -> Forall why (snd s).
  Proof.
    intros Hok Hinc E. rewrite Forall_forall in Hok. unfold cover' in E. apply bind_Ret in E as (s1 & E1 & E).
    assert (forall (t : marks L * list (entry L)) x, Forall why (snd t) -> ~ edged_row (e_use x) -> forall m' : marks L, Forall why (snd (m', snd t ++ [x]))) as Hsnoc.
    { intros t x Ht Hx m'. cbn [snd]. apply Forall_app. split; [exact Ht|]. constructor; [|constructor]. intros p e Ex Hp. exfalso. apply Hx. rewrite Ex. exact Hp. }
    assert (Forall why (snd s1)) as H1.
    { refine (fold_out_reach _ (fun s => Forall why (snd s)) _ _ _ s1 _ E1); [|constructor].
      intros t [i r] t' Hi Ht Et. apply in_combine_r in Hi. destruct (Hok r Hi) as [Hk Ho]. rewrite Forall_forall in Ho.
      unfold row_cover' in Et. destruct (p_edges (r_pattern r)) as [|pe pes] eqn:Ep.
      - refine (fold_out_reach _ (fun s => Forall why (snd s)) _ _ t t' Ht Et).
        intros u e u' _ Hu Eu. unfold node_pattern_turn' in Eu.
        refine (fold_out_reach _ (fun s => Forall why (snd s)) _ _ u u' Hu Eu).
        intros v kv v' _ Hv Ev. destruct (dget _ _) as [[lab|]|]; try discriminate.
        apply bind_Ret in Ev as (b & _ & Ev). destruct b; [injection Ev as <-; exact Hv|].
        apply bind_Ret in Ev as (ports & _ & Ev). apply bind_Ret in Ev as (m1 & _ & Ev). injection Ev as <-.
        apply Hsnoc; [exact Hv|]. cbn [e_use edged_row]. intros F. apply F, Ep.
      - refine (fold_out_reach _ (fun s => Forall why (snd s)) _ _ t t' Ht Et).
        intros u e u' He Hu Ev. unfold edge_pattern_turn' in Ev.
        apply bind_Ret in Ev as (b & _ & Ev). destruct b; [injection Ev as <-; exact Hu|].
        apply bind_Ret in Ev as (m1 & Em & Ev). apply bind_Ret in Ev as (ports & Eq & Ev). injection Ev as <-.
        cbn [snd]. apply Forall_app. split; [exact Hu|]. constructor; [|constructor].
        intros p f Ex Hp n a Hna. cbn [e_use e_ports] in Ex, Hna. injection Ex as <- <-.
        destruct (search_port_why _ _ _ _ Eq n a Hna) as [Hd|(l & Hl & Hm)]; [left; exact Hd|]. right. exists l. split; [exact Hl|].
        destruct (covers_vertex n l (RowUse (r_pattern r) e)) eqn:Ec; [|reflexivity]. exfalso. cbn [covers_vertex] in Ec.
        apply existsb_exists in Ec. destruct Ec as ([n' a'] & Hin & Ec). cbn [fst snd] in Ec. apply andb_true_iff in Ec. destruct Ec as [En El].
        apply Nat.eqb_eq in En. subst n'. apply mem_In in El. rewrite <- Ep in Hk.
        rewrite (mark_embedding_nodes (fst u) e (r_pattern r) m1 n a' l Hk (Ho e He) Hin) in Hm; [discriminate | | exact El | exact Em].
        apply Hinc; [exact Hi | exact Hp | exact (oc_known _ _ _ (Ho e He) n a' Hin)]. }
    assert (forall n l t t', Forall why (snd t) -> vertex_singleton_turn' substr g n t l = Ret t' -> Forall why (snd t')) as Hv.
    { intros n l t t' Ht Et. unfold vertex_singleton_turn' in Et. apply bind_Ret in Et as (b & _ & Et).
      destruct b; [injection Et as <-; exact Ht|]. apply bind_Ret in Et as (m1 & _ & Et). injection Et as <-. apply Hsnoc; [exact Ht | intros []]. }
    unfold singleton_cover' in E. apply bind_Ret in E as (s2 & E2 & E).
    assert (Forall why (snd s2)) as H2.
    { refine (fold_out_reach _ (fun s => Forall why (snd s)) _ _ s1 s2 H1 E2).
      intros t [[u v] l] t' _ Ht Et. unfold edge_singleton_turn' in Et. apply bind_Ret in Et as (b & _ & Et).
      destruct b; [injection Et as <-; exact Ht|]. apply bind_Ret in Et as (m1 & _ & Et). injection Et as <-. apply Hsnoc; [exact Ht | intros []]. }
    refine (fold_out_reach _ (fun s => Forall why (snd s)) _ _ s2 s H2 E).
    intros t [n o] t' _ Ht Et. unfold node_singleton_turn' in Et. cbn [fst snd] in Et.
    destruct o as [[l|ls|ls]|].
    - exact (Hv n l t t' Ht Et).
    - refine (fold_out_reach _ (fun s => Forall why (snd s)) _ _ t t' Ht Et). intros; eapply Hv; eassumption.
    - refine (fold_out_reach _ (fun s => Forall why (snd s)) _ _ t t' Ht Et). intros; eapply Hv; eassumption.
    - injection Et as <-. exact Ht.
  Qed.

  (* when the pattern covers every edge at [n] the degrees are equal *)
  Lemma degree_same p e n a : occurrence g p e -> names_once p -> NoDup (map fst e) -> NoDup (d_edges g) -> In (n, a) e ->
    (forall k, In k (d_edges g) -> fst (fst k) = n \/ snd (fst k) = n -> covers_edge k (RowUse p e) = true) ->
    degree (d_edges g) n = degree (pattern_edges p) a.
  Proof.
    intros Ho Hp Hf Hge Hna Hall.
    set (key := fun b => match find (fun kv => snd kv =? b) e with Some kv => fst kv | None => 0 end).
    assert (forall m b, In (m, b) e -> key b = m) as Hkey.
    { intros m b Hi. unfold key. destruct (find (fun kv => snd kv =? b) e) as [[m' b']|] eqn:F.
      - apply find_some in F as [Fi Fb]. cbn [snd] in Fb. apply Nat.eqb_eq in Fb. subst b'. cbn [fst].
        exact (same_fst e _ _ _ (oc_nodes _ _ _ Ho) Fi Hi).
      - pose proof (find_none _ _ F _ Hi) as N. cbn [snd] in N. rewrite Nat.eqb_refl in N. discriminate. }
    assert (forall b, In b (map snd e) -> In (key b, b) e) as Hin.
    { intros b Hb. apply in_map_iff in Hb as ([m b'] & <- & Hb). cbn [snd] in *. rewrite (Hkey m b' Hb). exact Hb. }
    set (phi := fun pe : nat * nat * L => (key (fst (fst pe)), key (snd (fst pe)), snd pe)).
    assert (forall b c l, In (b, c, l) (pattern_edges p) -> In b (map snd e) /\ In c (map snd e) /\ In (phi (b, c, l)) (d_edges g)) as Hphi.
    { intros b c l Hi. apply pattern_edges_In in Hi as (ls & Hi & Hl).
      destruct (oc_ends _ _ _ Ho b c ls Hi) as [Hb Hc']. repeat split; try assumption.
      exact (oc_edges _ _ _ Ho b c ls _ _ l Hi (Hin b Hb) (Hin c Hc') Hl). }
    assert (forall b c, In b (map snd e) -> In c (map snd e) -> key b = key c -> b = c) as Hinj.
    { intros b c Hb Hc' E. apply Hin in Hb, Hc'. rewrite E in Hb. exact (same_snd e _ _ _ Hf Hb Hc'). }
    assert (forall fl : nat * nat * L -> bool, NoDup (map phi (filter fl (pattern_edges p)))) as Hnd.
    { intros fl. pose proof (NoDup_filter fl _ (pattern_edges_nodup p Hp)) as N.
      assert (forall x, In x (filter fl (pattern_edges p)) -> In x (pattern_edges p)) as S
        by (intros x Hx; apply filter_In in Hx; tauto).
      induction N as [|[[b c] l] es Hx N IH]; [constructor|]. cbn [map]. constructor.
      - intros Hm. apply in_map_iff in Hm as ([[b' c'] l'] & Em & Hm). apply Hx.
        destruct (Hphi b c l (S _ (or_introl eq_refl))) as (B1 & B2 & _).
        destruct (Hphi b' c' l' (S _ (or_intror Hm))) as (B3 & B4 & _).
        unfold phi in Em. cbn [fst snd] in Em. injection Em as E1 E2 E3. apply Hinj in E1, E2; try assumption.
        subst. exact Hm.
      - apply IH. intros x Hi. apply S. right; exact Hi. }
    assert (forall sel : nat * nat * L -> nat, (forall pe, In pe (pattern_edges p) -> sel (phi pe) = key (sel pe) /\ In (sel pe) (map snd e)) ->
      (forall k, In k (d_edges g) -> sel k = n -> covers_edge k (RowUse p e) = true) ->
      length (filter (fun de => sel de =? n) (d_edges g)) = length (filter (fun pe => sel pe =? a) (pattern_edges p))) as Hlen.
    { intros sel Hs Hc. rewrite <- (map_length phi (filter (fun pe => sel pe =? a) (pattern_edges p))). apply Permutation_length.
      apply NoDup_Permutation; [apply NoDup_filter, Hge | apply Hnd|]. intros k. rewrite filter_In, Nat.eqb_eq, in_map_iff. split.
      - intros [Hk Ek]. specialize (Hc k Hk Ek). destruct k as [[u v] l]. cbn [covers_edge] in Hc. apply existsb_exists in Hc.
        destruct Hc as ([[b c] ls] & Hi & Hc). cbn [fst snd] in Hc. rewrite !andb_true_iff, !mem_In in Hc. destruct Hc as [[Hu Hv] Hl].
        assert (Hpe : In (b, c, l) (pattern_edges p)) by (apply pattern_edges_In; eauto).
        assert (Eph : phi (b, c, l) = (u, v, l)) by (unfold phi; cbn [fst snd]; rewrite (Hkey u b Hu), (Hkey v c Hv); reflexivity).
        exists (b, c, l). split; [exact Eph|]. apply filter_In. split; [exact Hpe|]. apply Nat.eqb_eq. destruct (Hs _ Hpe) as [S1 S2].
        rewrite Eph, Ek in S1. apply Hinj; [exact S2 | exact (in_map snd _ _ Hna)|]. rewrite (Hkey n a Hna). congruence.
      - intros ([[b c] l] & <- & Hi). apply filter_In in Hi. destruct Hi as [Hi Ei]. apply Nat.eqb_eq in Ei. split; [apply (Hphi b c l Hi)|].
        destruct (Hs _ Hi) as [S1 _]. rewrite S1, Ei. apply Hkey, Hna. }
    unfold degree. f_equal; apply (Hlen (fun x => _)); cbn beta.
    - intros [[b c] l] Hi. split; [reflexivity | apply (Hphi b c l Hi)].
    - intros k Hk Ek. apply Hall; auto.
    - intros [[b c] l] Hi. split; [reflexivity | apply (Hphi b c l Hi)].
    - intros k Hk Ek. apply Hall; auto.
  Qed.
End Proofs.
