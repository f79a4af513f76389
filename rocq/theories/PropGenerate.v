(* C77: the candidates of GraphMDL. *)
From Verif Require Import Prelude CheckModel LCMModel VerticalProofs GraphUtilModel PropGraphUtil
  GraphCoverModel PropGraphCover MergeModel PropMerge RewriteModel RewriteProofs PropRewrite GenerateModel.

(* ------------------------------------------------------- specification *)
Section Spec.
  Context {L : Type} `{EqDec L}.

  (* [e] sends the nodes of [p] to distinct nodes of [g], edges to edges with
     the same name, names to names *)
  Record occurs (g : data L) (p : net L) (e : list (nat * nat)) : Prop := {
    os_data : NoDup (map fst e);
    os_nodes : NoDup (map snd e);
    os_total : forall a, In a (map snd e) <-> In a (node_list p);
    os_edges : forall a b l u v, In (a, b, l) (n_edges p) -> In (u, a) e -> In (v, b) e -> In (u, v, l) (d_edges g);
    os_names : forall n a l, In (n, a) e -> In l (names_at p a) -> In l (node_names (d_nodes g) n)
  }.

  (* the pattern that a use of the cover is a use of *)
  Definition use_net (multi : bool) (x : use L) : net L :=
    match x with
    | RowUse p _ => net_of p
    | EdgeUse _ _ l => edge_singleton multi l
    | VertexUse _ l => vertex_singleton l
    end.
  (* the two uses have a data node in common, which is node a of the one
     pattern and node b of the other *)
  Definition meet (x y : use L) (a b : nat) : Prop :=
    exists n, In (n, a) (use_nodes x) /\ In (n, b) (use_nodes y).
  (* the candidate joins the patterns of the two uses at all the nodes they
     have in common *)
  Definition joins (multi : bool) (c : generated L) (x y : use L) : Prop :=
    g_first c = use_net multi x /\ g_second c = use_net multi y
    /\ forall a b, In (a, b) (port (g_cand c)) <-> meet x y a b.

  (* names can be told apart, and the patterns are those the search builds *)
  Record joinable (multi : bool) (row_name : nat -> L) (row_index : L -> outcome nat) (g : data L) (rows : list (row L)) : Prop := {
    jn_index : forall i, row_index (row_name i) = Ret i;
    jn_rows : forall r, In r rows -> numbered (net_of (r_pattern r));
    jn_simple : multi = false -> NoDup (map fst (d_edges g)) /\ forall r, In r rows -> simple (net_of (r_pattern r));
    jn_kinds : forall u v l n, In (u, v, l) (d_edges g) -> ~ In l (node_names (d_nodes g) n);
    jn_edge : forall u v l i, In (u, v, l) (d_edges g) -> l <> row_name i;
    jn_vertex : forall n l i, In l (node_names (d_nodes g) n) -> l <> row_name i
  }.
End Spec.

(* --------------------------------------------------------------- proofs *)
Lemma nodup_map_inj {A B} (f : A -> B) (l : list A) : NoDup l ->
  (forall x y, In x l -> In y l -> f x = f y -> x = y) -> NoDup (map f l).
Proof.
  induction l as [|a l IH]; intros Hn Hf; [constructor|]. inversion_clear Hn as [|? ? Ha Hl]. cbn [map]. constructor.
  - intros Hi. apply in_map_iff in Hi as (b & E & Hb).
    rewrite (Hf a b (or_introl eq_refl) (or_intror Hb) (eq_sym E)) in Ha. exact (Ha Hb).
  - apply IH; [exact Hl|]. intros x y Hx Hy. apply Hf; right; assumption.
Qed.

Section Merged.
  Context {L : Type} `{EqDec L}.
  Context (multi : bool) (g : data L).

  (* gluing two occurrences *)
  Lemma merge_occurs (P Q : net L) e f ports : occurs g P e -> occurs g Q f ->
    numbered P -> NoDup (node_list Q) -> closed P -> closed Q ->
    NoDup ports -> (forall a b, In (a, b) ports <-> exists n, In (n, a) e /\ In (n, b) f) ->
    (forall u l, ~ In (u, u, l) (d_edges g)) ->
    multi = true \/ (simple P /\ simple Q /\ no_common_edge P Q ports) ->
    exists G h, merge multi P Q ports = Ok G /\ occurs g G h.
  Proof.
    intros Oe Of Num N2 C1 C2 Np Hports Hloop Hm.
    assert (port_list P Q ports) as Hpl.
    { split; [|split].
      - apply nodup_map_inj; [exact Np|]. intros [a b] [a' b'] Hx Hy E. cbn [fst] in E. subst a'.
        apply Hports in Hx as (n & E1 & F1). apply Hports in Hy as (n' & E2 & F2).
        rewrite (same_fst _ _ _ _ (os_nodes _ _ _ Oe) E1 E2) in F1.
        rewrite (same_snd _ _ _ _ (os_data _ _ _ Of) F1 F2). reflexivity.
      - apply nodup_map_inj; [exact Np|]. intros [a b] [a' b'] Hx Hy E. cbn [snd] in E. subst b'.
        apply Hports in Hx as (n & E1 & F1). apply Hports in Hy as (n' & E2 & F2).
        rewrite (same_fst _ _ _ _ (os_nodes _ _ _ Of) F1 F2) in E1.
        rewrite (same_snd _ _ _ _ (os_data _ _ _ Oe) E1 E2). reflexivity.
      - intros a b Hab. apply Hports in Hab as (n & E1 & F1).
        split; [apply (os_total _ _ _ Oe) | apply (os_total _ _ _ Of)]; [apply (in_map snd) in E1 | apply (in_map snd) in F1]; assumption. }
    assert (loops_on_ports Q ports) as Hl.
    { intros a l Ha. exfalso. destruct (C2 a a l Ha) as [Ha1 _]. apply (os_total _ _ _ Of) in Ha1.
      apply in_map_iff in Ha1 as ([u a'] & E & Hu). cbn [snd] in E. subst a'.
      exact (Hloop u l (os_edges _ _ _ Of a a l u u Ha Hu Hu)). }
    destruct (C75_merge_partial multi P Q ports Num N2 C1 C2 Hpl Hl Hm)
      as (G & F & EG & Finj & Fport & Gnodes & Gnames & Gedges & _).
    set (h := e ++ map (fun nb => (fst nb, F (snd nb))) (filter (fun nb => negb (mem (snd nb) (map snd ports))) f)).
    assert (forall n b, In (n, b) f -> In b (node_list Q)) as Hfn.
    { intros n b Hb. apply (os_total _ _ _ Of). apply (in_map snd) in Hb. exact Hb. }
    assert (forall n c, In (n, c) h <-> In (n, c) e \/ exists b, In (n, b) f /\ F b = c) as Hh.
    { intros n c. unfold h. rewrite in_app_iff. split.
      - intros [Hc|Hc]; [left; exact Hc | right]. apply in_map_iff in Hc as ([n' b] & E & Hb).
        cbn [fst snd] in E. injection E as <- <-. apply filter_In in Hb as [Hb _]. eauto.
      - intros [Hc|(b & Hb & <-)]; [left; exact Hc|]. destruct (mem_spec b (map snd ports)) as [Hp|Hp].
        + left. apply in_map_iff in Hp as ([a b'] & E & Hp). cbn [snd] in E. subst b'.
          destruct (proj2 (Fport a b (Hfn n b Hb)) Hp) as [-> _].
          apply Hports in Hp as (n' & E1 & F1). rewrite (same_fst _ _ _ _ (os_nodes _ _ _ Of) Hb F1). exact E1.
        + right. apply in_map_iff. exists (n, b). split; [reflexivity|]. apply filter_In. split; [exact Hb|].
          cbn [snd]. rewrite (proj2 (mem_false _ _) Hp). reflexivity. }
    exists G, h. split; [exact EG|]. split.
    - unfold h. rewrite map_app, map_map. cbn [fst]. apply NoDup_app_intro; [exact (os_data _ _ _ Oe)| |].
      + pose proof (os_data _ _ _ Of) as Hd. clear -Hd.
        induction f as [|[n b] f IH]; [constructor|]. cbn [map fst] in Hd. inversion_clear Hd as [|? ? Hn Hf].
        cbn [filter snd]. destruct (negb (mem b (map snd ports))); [|apply IH, Hf]. cbn [map fst].
        constructor; [|apply IH, Hf]. intros Hi. apply Hn. apply in_map_iff in Hi as (x & <- & Hx).
        apply filter_In in Hx as [Hx _]. apply in_map, Hx.
      + intros n He Hf. apply in_map_iff in He as ([n1 a] & E & He). cbn [fst] in E. subst n1.
        apply in_map_iff in Hf as ([n1 b] & E & Hf). cbn [fst] in E. subst n1.
        apply filter_In in Hf as [Hf Hb]. cbn [snd] in Hb. apply negb_true_iff, mem_false in Hb. apply Hb.
        assert (In (a, b) ports) as Hp by (apply Hports; eauto). apply (in_map snd) in Hp. exact Hp.
    - unfold h. rewrite map_app, map_map. cbn [snd]. apply NoDup_app_intro; [exact (os_nodes _ _ _ Oe)| |].
      + rewrite <- (map_map snd F). apply nodup_map_inj.
        * pose proof (os_nodes _ _ _ Of) as Hd. clear -Hd.
          induction f as [|[n b] f IH]; [constructor|]. cbn [map snd] in Hd. inversion_clear Hd as [|? ? Hn Hf].
          cbn [filter snd]. destruct (negb (mem b (map snd ports))); [|apply IH, Hf]. cbn [map snd].
          constructor; [|apply IH, Hf]. intros Hi. apply Hn. apply in_map_iff in Hi as (x & <- & Hx).
          apply filter_In in Hx as [Hx _]. apply in_map, Hx.
        * intros b b' Hb Hb'. apply in_map_iff in Hb as ([n b0] & <- & Hb). apply in_map_iff in Hb' as ([n' b0'] & <- & Hb').
          apply filter_In in Hb as [Hb _]. apply filter_In in Hb' as [Hb' _]. cbn [snd].
          apply Finj; eapply Hfn; eassumption.
      + intros c He Hf. apply (os_total _ _ _ Oe) in He.
        apply in_map_iff in Hf as ([n b] & E & Hf). cbn [snd] in E. apply filter_In in Hf as [Hf Hb].
        cbn [snd] in Hb. apply negb_true_iff, mem_false in Hb. apply Hb.
        pose proof (proj1 (Fport c b (Hfn n b Hf)) (conj E He)) as Hp. apply (in_map snd) in Hp. exact Hp.
    - intros c. rewrite Gnodes, in_map_iff. split.
      + intros ([n c'] & <- & Hc). cbn [snd]. apply Hh in Hc as [Hc|(b & Hb & <-)].
        * left. apply (os_total _ _ _ Oe). apply (in_map snd) in Hc. exact Hc.
        * right. eauto.
      + intros [Hc|(b & Hb & <-)].
        * apply (os_total _ _ _ Oe), in_map_iff in Hc as ([n c'] & E & Hc). cbn [snd] in E. subst c'.
          exists (n, c). split; [reflexivity|]. apply Hh. left; exact Hc.
        * apply (os_total _ _ _ Of), in_map_iff in Hb as ([n c'] & E & Hc). cbn [snd] in E. subst c'.
          exists (n, F b). split; [reflexivity|]. apply Hh. right; eauto.
    - assert (forall n c, In (n, c) h -> In c (node_list P) -> In (n, c) e) as Old.
      { intros n c Hc Hn. apply Hh in Hc as [Hc|(b & Hb & Eb)]; [exact Hc|].
        pose proof (proj1 (Fport c b (Hfn n b Hb)) (conj Eb Hn)) as Hp. apply Hports in Hp as (n' & E1 & F1).
        rewrite (same_fst _ _ _ _ (os_nodes _ _ _ Of) Hb F1). exact E1. }
      assert (forall n b, In (n, F b) h -> In b (node_list Q) -> In (n, b) f) as New.
      { intros n b Hc Hn. apply Hh in Hc as [Hc|(b' & Hb & Eb)].
        - assert (In (F b) (node_list P)) as HP.
          { apply (os_total _ _ _ Oe). apply (in_map snd) in Hc. exact Hc. }
          pose proof (proj1 (Fport (F b) b Hn) (conj eq_refl HP)) as Hp. apply Hports in Hp as (n' & E1 & F1).
          rewrite (same_fst _ _ _ _ (os_nodes _ _ _ Oe) Hc E1). exact F1.
        - apply Finj in Eb; [subst; exact Hb | exact (Hfn n b' Hb) | exact Hn]. }
      intros a b l u v He Hu Hv. rewrite Gedges in He. apply in_app_or in He as [He|He].
      + destruct (C1 a b l He) as [Ha Hb]. exact (os_edges _ _ _ Oe a b l u v He (Old u a Hu Ha) (Old v b Hv Hb)).
      + apply in_map_iff in He as ([[a' b'] l'] & E & He). cbn [fst snd] in E. injection E as <- <- <-.
        destruct (C2 a' b' l' He) as [Ha Hb]. exact (os_edges _ _ _ Of a' b' l' u v He (New u a' Hu Ha) (New v b' Hv Hb)).
    - intros n c l Hc Hl'. apply Gnames in Hl' as [Hl'|(b & Hb & Eb & Hl')].
      + assert (In c (node_list P)) as Hn.
        { destruct (in_dec eq_dec c (node_list P)) as [|No]; [assumption|]. rewrite (names_at_absent P c No) in Hl'. destruct Hl'. }
        apply Hh in Hc as [Hc|(b & Hb & Eb)]; [exact (os_names _ _ _ Oe n c l Hc Hl')|].
        pose proof (proj1 (Fport c b (Hfn n b Hb)) (conj Eb Hn)) as Hp. apply Hports in Hp as (n' & E1 & F1).
        apply (os_names _ _ _ Oe n c l); [|exact Hl']. rewrite (same_fst _ _ _ _ (os_nodes _ _ _ Of) Hb F1). exact E1.
      + subst c. apply (os_names _ _ _ Of n b l); [|exact Hl']. apply Hh in Hc as [Hc|(b' & Hb' & Eb)].
        * assert (In (F b) (node_list P)) as HP.
          { apply (os_total _ _ _ Oe). apply (in_map snd) in Hc. exact Hc. }
          pose proof (proj1 (Fport (F b) b Hb) (conj eq_refl HP)) as Hp. apply Hports in Hp as (n' & E1 & F1).
          rewrite (same_fst _ _ _ _ (os_nodes _ _ _ Oe) Hc E1). exact F1.
        * apply Finj in Eb; [subst; exact Hb' | exact (Hfn n b' Hb') | exact Hb].
  Qed.
End Merged.

Section Generation.
  Context {L : Type} `{EqDec L}.
  Context (ltb : L -> L -> bool) (row_index : L -> outcome nat).
  Context (pair_order : list (nat * nat) -> list (nat * nat)) (port_order : list nat -> list nat).
  Context (pair_order_In : forall l x, In x (pair_order l) <-> In x l)
          (port_order_perm : forall l, Permutation (port_order l) l).
  Context (multi : bool) (row_name node_name : nat -> L).

  (* ---- the edges of the rewritten graph *)
  Lemma add_redge_keys (r : rgraph L) x y v : NoDup (dkeys (r_edges r)) -> NoDup (dkeys (r_edges (add_redge r x y v))).
  Proof.
    intros Hn. cbn [add_redge r_edges]. rewrite dkeys_dset. destruct (mem_spec (x, y) (dkeys (r_edges r))) as [Hm|Hm]; [exact Hn|].
    apply NoDup_app_intro; [exact Hn | repeat constructor; intros [] | intros k Hk [<-|[]]; exact (Hm Hk)].
  Qed.
  Lemma rewrite_keys log : NoDup (dkeys (r_edges (rewrite row_name node_name log))).
  Proof.
    unfold rewrite. set (r0 := {| r_nodes := []; r_edges := [] |}).
    assert (NoDup (dkeys (r_edges r0))) as H0 by constructor. clearbody r0. revert r0 H0.
    induction log as [|x log IH]; intros r0 H0; [exact H0|]. cbn [fold_left]. apply IH. unfold rewrite_use.
    set (r1 := add_rnode r0 _). assert (NoDup (dkeys (r_edges r1))) as H1 by exact H0. clearbody r1. revert r1 H1.
    induction (e_ports x) as [|p ps IHp]; intros r1 H1; [exact H1|]. cbn [fold_left]. apply IHp.
    unfold create_rewrite_edge. destruct (labelled _ _ _); apply add_redge_keys; exact H1.
  Qed.

  Section Run.
    Context (g : data L) (rows : list (row L)) (log : list (entry L)) (ids : list nat) (r : rgraph L).
    Context (Hadm : admissible g rows) (Hread : readable row_name node_name g)
            (Hjoin : joinable multi row_name row_index g rows)
            (R : run row_name node_name g rows log ids r) (Hkeys : NoDup (dkeys (r_edges r))).
    Let Rr := ru_repr _ _ _ _ _ _ _ R.
    Notation all_ports := (get_two_nodes_all_port port_order r).
    Notation label_of x := (r_label (use_node row_name x)).

    Definition side_of (x : entry L) : side L :=
      match e_use x with
      | RowUse _ _ => RowSide (match e_row x with Some i => i | None => 0 end)
      | EdgeUse _ _ l => SingleSide l
      | VertexUse _ l => SingleSide l
      end.

    Lemma edge_fact i x p t v : nth_error log i = Some x -> nth_error ids i = Some p ->
      (In ((p, t), v) (r_edges r) <-> exists n, In (n, v) (e_ports x) /\ node_at r t = Some (port_node node_name n)).
    Proof.
      intros Hx Hp. rewrite (re_edge _ _ _ _ _ Rr). split.
      - intros (i' & x' & n & Hx' & Hp' & Hv & Ht).
        rewrite (sorted_nth _ _ _ _ (re_sorted _ _ _ _ _ Rr) Hp' Hp) in Hx'. rewrite Hx in Hx'. injection Hx' as <-. eauto.
      - intros (n & Hv & Ht). exists i, x, n. auto.
    Qed.
    (* two different uses meet where their nodes have an edge to the same port *)
    Lemma meet_ports i j x y p q : nth_error log i = Some x -> nth_error log j = Some y ->
      nth_error ids i = Some p -> nth_error ids j = Some q -> i <> j -> forall a b,
      meet (e_use x) (e_use y) a b <-> exists t, In ((p, t), a) (r_edges r) /\ In ((q, t), b) (r_edges r).
    Proof.
      intros Hx Hy Hp Hq Hij a b. pose proof (nth_error_In _ _ Hx) as Ix. pose proof (nth_error_In _ _ Hy) as Iy. split.
      - intros (n & Ha & Hb).
        pose proof (ru_shared _ _ _ _ _ _ _ R i j x y n a b Hx Hy Hij Ha Hb) as P1.
        pose proof (ru_shared _ _ _ _ _ _ _ R j i y x n b a Hy Hx (not_eq_sym Hij) Hb Ha) as P2.
        destruct (re_port _ _ _ _ _ Rr x n Ix (in_map fst _ _ P1)) as [t Ht].
        exists t. split; [apply (edge_fact i x p t a Hx Hp) | apply (edge_fact j y q t b Hy Hq)]; eauto.
      - intros (t & Ha & Hb). apply (edge_fact i x p t a Hx Hp) in Ha as (n & Ha & Ht).
        apply (edge_fact j y q t b Hy Hq) in Hb as (n' & Hb & Ht'). rewrite Ht in Ht'. injection Ht' as E.
        apply (rd_nodes _ _ _ Hread) in E. subst n'. exists n.
        split; [exact (ru_ports _ _ _ _ _ _ _ R x Ix _ Ha) | exact (ru_ports _ _ _ _ _ _ _ R y Iy _ Hb)].
    Qed.

    Lemma port_nodes_In t : In t (port_nodes r) <-> exists z, node_at r t = Some z /\ is_pattern z = false.
    Proof.
      unfold port_nodes.
      assert (forall (ns : list (rnode L)) k t, In t (map fst (filter (fun v => negb (is_pattern (snd v))) (combine (seq k (length ns)) ns)))
        <-> exists i z, nth_error ns i = Some z /\ is_pattern z = false /\ t = k + i) as A.
      { induction ns as [|z ns IH]; intros k u; cbn [length seq combine filter].
        - cbn. split; [intros [] | intros ([|i] & z & E & _); discriminate].
        - cbn [snd]. destruct (is_pattern z) eqn:Ez; cbn [negb map In fst]; rewrite IH; split.
          + intros (i & w & E & Ew & ->). exists (S i), w. split; [exact E|]. split; [exact Ew | lia].
          + intros ([|i] & w & E & Ew & ->); [cbn in E; congruence|]. exists i, w. split; [exact E|]. split; [exact Ew | lia].
          + intros [<-|(i & w & E & Ew & ->)]; [exists 0, z; repeat split; [exact Ez | lia]|].
            exists (S i), w. split; [exact E|]. split; [exact Ew | lia].
          + intros ([|i] & w & E & Ew & ->); [left; lia | right]. exists i, w. split; [exact E|]. split; [exact Ew | lia]. }
      rewrite A. unfold node_at. split.
      - intros (i & z & E & Ez & ->). exists z. auto.
      - intros (z & E & Ez). destruct t as [|i]; [discriminate|]. exists i, z. auto.
    Qed.
    Lemma edge_port p t v : In ((p, t), v) (r_edges r) -> In t (port_nodes r).
    Proof.
      intros He. apply (re_edge _ _ _ _ _ Rr) in He as (i & x & n & _ & _ & _ & Ht).
      apply port_nodes_In. exists (port_node node_name n). auto.
    Qed.
    Lemma two_edges (es : list ((nat * nat) * nat)) p q t : NoDup (dkeys es) -> p <> q ->
      (length (filter (fun e => eqd (fst e) (p, t) || eqd (fst e) (q, t)) es) = 2
       <-> In (p, t) (dkeys es) /\ In (q, t) (dkeys es)).
    Proof.
      intros Hn Hpq.
      assert (forall es, NoDup (dkeys es) -> length (filter (fun e : (nat * nat) * nat => eqd (fst e) (p, t) || eqd (fst e) (q, t)) es)
        = (if mem (p, t) (dkeys es) then 1 else 0) + (if mem (q, t) (dkeys es) then 1 else 0)) as A.
      { clear -Hpq. induction es as [|[k v] es IH]; intros Hn; [reflexivity|]. unfold dkeys in *. cbn [map fst] in *.
        inversion_clear Hn as [|? ? Hk Hs]. cbn [filter fst]. specialize (IH Hs).
        assert (forall x, mem x (k :: map fst es) = eqd k x || mem x (map fst es)) as M.
        { intros x. apply Bool.eq_iff_eq_true. rewrite orb_true_iff, !mem_In, eqd_true. reflexivity. }
        rewrite !M. destruct (eqd k (p, t)) eqn:E1.
        - apply (proj1 (eqd_true _ _)) in E1. subst k.
          rewrite (proj2 (eqd_false (p, t) (q, t))) by congruence. cbn [orb length]. rewrite IH.
          rewrite (proj2 (mem_false (p, t) (map fst es)) Hk). reflexivity.
        - destruct (eqd k (q, t)) eqn:E2; cbn [orb length]; rewrite IH; [|reflexivity].
          apply (proj1 (eqd_true _ _)) in E2. subst k.
          rewrite (proj2 (mem_false (q, t) (map fst es)) Hk). lia. }
      rewrite (A es Hn). destruct (mem_spec (p, t) (dkeys es)), (mem_spec (q, t) (dkeys es)); split; try tauto; lia.
    Qed.
    Lemma key_edge p t : In (p, t) (dkeys (r_edges r)) <-> exists v, In ((p, t), v) (r_edges r).
    Proof.
      unfold dkeys. rewrite in_map_iff. split.
      - intros ([k v] & E & Hi). cbn in E. subst k. eauto.
      - intros [v Hi]. exists ((p, t), v). auto.
    Qed.
    Lemma all_ports_In p q : p <> q -> forall t, In t (all_ports p q) <->
      exists a b, In ((p, t), a) (r_edges r) /\ In ((q, t), b) (r_edges r).
    Proof.
      intros Hpq t. unfold get_two_nodes_all_port. split.
      - intros Ht. eapply Permutation_in in Ht; [|apply port_order_perm]. apply filter_In in Ht as [_ Ht].
        apply Nat.eqb_eq, two_edges in Ht as [H1 H2]; [|exact Hkeys | exact Hpq].
        apply key_edge in H1 as [a Ha]. apply key_edge in H2 as [b Hb]. eauto.
      - intros (a & b & Ha & Hb). eapply Permutation_in; [apply Permutation_sym, port_order_perm|].
        apply filter_In. split; [exact (edge_port _ _ _ Ha)|]. apply Nat.eqb_eq, two_edges; [exact Hkeys | exact Hpq|].
        split; apply key_edge; eauto.
    Qed.
    Lemma port_nodes_nodup : NoDup (port_nodes r).
    Proof.
      unfold port_nodes. generalize 1. induction (r_nodes r) as [|z ns IH]; intros k; [constructor|].
      cbn [length seq combine filter snd]. destruct (negb (is_pattern z)); [|apply IH]. cbn [map fst]. constructor; [|apply IH].
      intros Hi. apply in_map_iff in Hi as ([a b] & E & Hi). cbn in E. subst a. apply filter_In in Hi as [Hi _].
      apply in_combine_l, in_seq in Hi. lia.
    Qed.
    Lemma all_ports_nodup p q : NoDup (all_ports p q).
    Proof.
      unfold get_two_nodes_all_port. eapply Permutation_NoDup; [apply Permutation_sym, port_order_perm|].
      apply NoDup_filter, port_nodes_nodup.
    Qed.

    Lemma redge_label_ok p t v : In ((p, t), v) (r_edges r) -> redge_label r p t = Ret v.
    Proof. intros He. unfold redge_label. rewrite (In_dget _ _ _ Hkeys He). reflexivity. Qed.
    Lemma port_tuples_ok (p q : nat) (inv : bool) : forall (ts : list nat) (acc : list (nat * nat)),
      (forall t, In t ts -> exists a b, In ((p, t), a) (r_edges r) /\ In ((q, t), b) (r_edges r)) ->
      exists ports, fold_out (fun acc t => bind (redge_label r p t) (fun a => bind (redge_label r q t) (fun b =>
          Ret (acc ++ [if inv then (b, a) else (a, b)])))) ts acc = Ret (acc ++ ports)
        /\ Forall2 (fun t ab => In ((p, t), if inv then snd ab else fst ab) (r_edges r)
                              /\ In ((q, t), if inv then fst ab else snd ab) (r_edges r)) ts ports.
    Proof.
      induction ts as [|t ts IH]; intros acc Ht.
      - exists []. rewrite app_nil_r. split; [reflexivity | constructor].
      - destruct (Ht t (or_introl eq_refl)) as (a & b & Ha & Hb). cbn [fold_out].
        rewrite (redge_label_ok p t a Ha). cbn [bind]. rewrite (redge_label_ok q t b Hb). cbn [bind].
        destruct (IH (acc ++ [if inv then (b, a) else (a, b)]) (fun t' Ht' => Ht t' (or_intror Ht'))) as (ports & E & F).
        exists ((if inv then (b, a) else (a, b)) :: ports). rewrite E, <- app_assoc. split; [reflexivity|].
        constructor; [destruct inv; split; assumption | exact F].
    Qed.

    Definition oriented (c : joined L) (x y : entry L) : Prop :=
      first_label (j_cand c) = label_of x /\ second_label (j_cand c) = label_of y
      /\ j_first c = side_of x /\ j_second c = side_of y
      /\ (forall a b, In (a, b) (port (j_cand c)) <-> meet (e_use x) (e_use y) a b)
      /\ NoDup (port (j_cand c)).

    Lemma ports_of_pair i j x y p q inv : nth_error log i = Some x -> nth_error log j = Some y ->
      nth_error ids i = Some p -> nth_error ids j = Some q -> i <> j ->
      exists ports, port_tuples r (all_ports p q) p q inv = Ret ports
        /\ (forall a b, In (a, b) ports <-> if inv then meet (e_use y) (e_use x) a b else meet (e_use x) (e_use y) a b)
        /\ NoDup ports.
    Proof.
      intros Hx Hy Hp Hq Hij.
      assert (p <> q) as Hpq by (intros <-; exact (Hij (sorted_nth _ _ _ _ (re_sorted _ _ _ _ _ Rr) Hp Hq))).
      destruct (port_tuples_ok p q inv (all_ports p q) [] (fun t Ht => proj1 (all_ports_In p q Hpq t) Ht)) as (ports & E & F).
      exists ports. split; [exact E|].
      assert (forall a b, (exists t, In ((p, t), a) (r_edges r) /\ In ((q, t), b) (r_edges r)) <->
                In (if inv then (b, a) else (a, b)) ports) as A.
      { intros a b. split.
        - intros (t & Ha & Hb). assert (In t (all_ports p q)) as Ht by (apply (all_ports_In p q Hpq); eauto).
          clear E. induction F as [|t' [a' b'] ts ps [F1 F2] F IH]; [destruct Ht|]. destruct Ht as [<-|Ht]; [|right; exact (IH Ht)].
          left. pose proof (redge_label_ok _ _ _ Ha) as L1. pose proof (redge_label_ok _ _ _ Hb) as L2.
          rewrite (redge_label_ok _ _ _ F1) in L1. rewrite (redge_label_ok _ _ _ F2) in L2.
          injection L1 as L1. injection L2 as L2. destruct inv; cbn [fst snd] in *; congruence.
        - intros Hi. clear E. induction F as [|t' [a' b'] ts ps [F1 F2] F IH]; [destruct Hi|].
          destruct Hi as [Hi|Hi]; [|exact (IH Hi)]. exists t'. destruct inv; cbn [fst snd] in *; injection Hi as -> ->; auto. }
      split.
      - intros a b. destruct inv.
        + rewrite <- (A b a), <- (meet_ports i j x y p q Hx Hy Hp Hq Hij). unfold meet. split; intros (n & H1 & H2); exists n; auto.
        + rewrite <- (A a b), <- (meet_ports i j x y p q Hx Hy Hp Hq Hij). reflexivity.
      - (* distinct ports have distinct pattern nodes *)
        pose proof (all_ports_nodup p q) as Hn. clear E A.
        induction F as [|t [a b] ts ps [F1 F2] F IH]; [constructor|]. inversion_clear Hn as [|? ? Ht Hts].
        constructor; [|exact (IH Hts)]. intros Hi. apply Ht. clear IH Ht Hts.
        induction F as [|t' [a' b'] ts ps [G1 G2] F IH]; [destruct Hi|]. destruct Hi as [Hi|Hi]; [|right; exact (IH Hi)].
        injection Hi as -> ->. left.
        assert (forall v, In ((p, t), v) (r_edges r) -> In ((p, t'), v) (r_edges r) -> t' = t) as B.
        { intros v V1 V2. apply (edge_fact i x p t v Hx Hp) in V1 as (n1 & N1 & T1).
          apply (edge_fact i x p t' v Hx Hp) in V2 as (n2 & N2 & T2).
          pose proof (nth_error_In _ _ Hx) as Ix. apply (ru_ports _ _ _ _ _ _ _ R x Ix) in N1. apply (ru_ports _ _ _ _ _ _ _ R x Ix) in N2.
          rewrite (same_fst _ _ _ _ (proj2 (ru_keys _ _ _ _ _ _ _ R x Ix)) N1 N2) in T1.
          exact (re_once _ _ _ _ _ Rr t' t n2 T2 T1). }
        exact (B _ F1 G1).
    Qed.

    Lemma node_ok i x p : nth_error log i = Some x -> nth_error ids i = Some p -> node r p = Ret (use_node row_name x).
    Proof.
      intros Hx Hp. pose proof (re_use _ _ _ _ _ Rr i x p Hx Hp) as E. unfold node_at in E. unfold node.
      destruct p; [discriminate|]. rewrite E. reflexivity.
    Qed.
    Lemma row_label x : In x log -> is_singleton (use_node row_name x) = false ->
      exists k, label_of x = row_name k /\ side_of x = RowSide k /\ row_index (label_of x) = Ret k.
    Proof.
      intros Ix Hs. unfold use_node, side_of in *. destruct (e_use x); cbn [is_singleton] in Hs; try discriminate.
      eexists. split; [reflexivity|]. split; [reflexivity|]. apply (jn_index _ _ _ _ _ Hjoin).
    Qed.
    Lemma single_label x : is_singleton (use_node row_name x) = true -> side_of x = SingleSide (label_of x).
    Proof. unfold use_node, side_of. destruct (e_use x); cbn [is_singleton r_label]; [discriminate | reflexivity | reflexivity]. Qed.

    (* two uses that have a node in common give a candidate, in one order or
       the other *)
    Lemma join_ok i j x y p q : nth_error log i = Some x -> nth_error log j = Some y ->
      nth_error ids i = Some p -> nth_error ids j = Some q -> i <> j ->
      exists c, join ltb row_index port_order r (p, q) = Ret c /\ (oriented c x y \/ oriented c y x).
    Proof.
      intros Hx Hy Hp Hq Hij. unfold join. cbn [fst snd].
      rewrite (node_ok i x p Hx Hp), (node_ok j y q Hy Hq). cbn [bind].
      pose proof (nth_error_In _ _ Hx) as Ix. pose proof (nth_error_In _ _ Hy) as Iy.
      destruct (ports_of_pair i j x y p q false Hx Hy Hp Hq Hij) as (ps & E1 & A1 & N1).
      destruct (ports_of_pair i j x y p q true Hx Hy Hp Hq Hij) as (ps' & E2 & A2 & N2).
      destruct (is_singleton (use_node row_name x)) eqn:Sx, (is_singleton (use_node row_name y)) eqn:Sy.
      - pose proof (single_label x Sx) as Lx. pose proof (single_label y Sy) as Ly. destruct (ltb _ _).
        + rewrite E1. cbn [bind]. eexists. split; [reflexivity|]. left. repeat (split; [solve [reflexivity | symmetry; assumption | exact A1]|]). exact N1.
        + rewrite E2. cbn [bind]. eexists. split; [reflexivity|]. right. repeat (split; [solve [reflexivity | symmetry; assumption | exact A2]|]). exact N2.
      - pose proof (single_label x Sx) as Lx. destruct (row_label y Iy Sy) as (k & _ & Ly & Ek).
        rewrite Ek. cbn [bind]. rewrite E2. cbn [bind]. eexists. split; [reflexivity|]. right.
        repeat (split; [solve [reflexivity | symmetry; assumption | exact A2]|]). exact N2.
      - pose proof (single_label y Sy) as Ly. destruct (row_label x Ix Sx) as (k & _ & Lx & Ek).
        rewrite Ek. cbn [bind]. rewrite E1. cbn [bind]. eexists. split; [reflexivity|]. left.
        repeat (split; [solve [reflexivity | symmetry; assumption | exact A1]|]). exact N1.
      - destruct (row_label x Ix Sx) as (k & _ & Lx & Ek). destruct (row_label y Iy Sy) as (k' & _ & Ly & Ek').
        rewrite Ek. cbn [bind]. rewrite Ek'. cbn [bind]. destruct (k <? k').
        + rewrite E1. cbn [bind]. eexists. split; [reflexivity|]. left. repeat (split; [solve [reflexivity | symmetry; assumption | exact A1]|]). exact N1.
        + rewrite E2. cbn [bind]. eexists. split; [reflexivity|]. right. repeat (split; [solve [reflexivity | symmetry; assumption | exact A2]|]). exact N2.
    Qed.

    (* ---- which pairs are looked at *)
    Lemma pairs_In l : forall a b : nat, In (a, b) (pairs l) -> In a l /\ In b l /\ (NoDup l -> a <> b).
    Proof.
      induction l as [|x l IH]; intros a b; [intros []|]. cbn [pairs]. rewrite in_app_iff. intros [Hi|Hi].
      - apply in_map_iff in Hi as (y & E & Hy). injection E as -> ->. split; [left; reflexivity|]. split; [right; exact Hy|].
        intros Hn <-. inversion_clear Hn. tauto.
      - apply IH in Hi as (H1 & H2 & H3). split; [right; exact H1|]. split; [right; exact H2|].
        intros Hn. inversion_clear Hn. auto.
    Qed.
    Lemma pairs_all l : forall a b : nat, In a l -> In b l -> a <> b -> In (a, b) (pairs l) \/ In (b, a) (pairs l).
    Proof.
      induction l as [|x l IH]; intros a b; [intros []|]. cbn [pairs]. rewrite !in_app_iff.
      intros [->|Ha] [->|Hb] Hne; [congruence | left; left; apply in_map, Hb | right; left; apply in_map, Ha|].
      destruct (IH a b Ha Hb Hne); auto.
    Qed.
    Lemma in_nodes_In t p : In p (in_nodes r t) <-> exists v, In ((p, t), v) (r_edges r).
    Proof.
      unfold in_nodes. rewrite in_map_iff. split.
      - intros ([[p' t'] v] & E & Hi). cbn [fst] in E. subst p'. apply filter_In in Hi as [Hi Et].
        apply Nat.eqb_eq in Et. cbn in Et. subst t'. eauto.
      - intros [v Hi]. exists ((p, t), v). split; [reflexivity|]. apply filter_In. split; [exact Hi | apply Nat.eqb_refl].
    Qed.
    Lemma in_nodes_nodup t : NoDup (in_nodes r t).
    Proof.
      unfold in_nodes. pose proof Hkeys as Hall. revert Hall. generalize (r_edges r).
      intros es0. induction es0 as [|[[p q] v] es IH]; intros Hall; [constructor|].
      unfold dkeys in Hall. cbn [map fst] in Hall. inversion_clear Hall as [|? ? Hk Hn].
      cbn [filter fst snd]. destruct (Nat.eqb_spec q t) as [->|_]; [|exact (IH Hn)]. cbn [map fst].
      constructor; [|exact (IH Hn)]. intros Hi. apply Hk. apply in_map_iff in Hi as ([[p' t'] w] & E & Hi). cbn [fst] in E. subst p'.
      apply filter_In in Hi as [Hi Et]. apply Nat.eqb_eq in Et. cbn in Et. subst t'.
      apply in_map_iff. exists ((p, t), w). auto.
    Qed.
    Definition looked_at : list (nat * nat) := flat_map (fun t => get_port_candidates pair_order (in_nodes r t)) (port_nodes r).
    Lemma looked_at_uses p q : In (p, q) looked_at -> exists i j x y,
      nth_error log i = Some x /\ nth_error log j = Some y /\ nth_error ids i = Some p /\ nth_error ids j = Some q
      /\ i <> j /\ exists a b, meet (e_use x) (e_use y) a b.
    Proof.
      intros Hi. unfold looked_at in Hi. apply in_flat_map in Hi as (t & Ht & Hi).
      unfold get_port_candidates in Hi. apply pair_order_In, nodup_In, pairs_In in Hi as (Hp & Hq & Hne).
      specialize (Hne (in_nodes_nodup t)). apply in_nodes_In in Hp as [a Ha]. apply in_nodes_In in Hq as [b Hb].
      pose proof (proj1 (re_edge _ _ _ _ _ Rr _ _ _) Ha) as (i & x & n & Hx & Hp & _).
      pose proof (proj1 (re_edge _ _ _ _ _ Rr _ _ _) Hb) as (j & y & n' & Hy & Hq & _).
      assert (i <> j) as Hij by (intros <-; congruence).
      exists i, j, x, y. repeat (split; [assumption|]). exists a, b.
      apply (meet_ports i j x y p q Hx Hy Hp Hq Hij). eauto.
    Qed.
    Lemma uses_looked_at i j x y : nth_error log i = Some x -> nth_error log j = Some y -> i <> j ->
      (exists a b, meet (e_use x) (e_use y) a b) ->
      exists p q, nth_error ids i = Some p /\ nth_error ids j = Some q /\ (In (p, q) looked_at \/ In (q, p) looked_at).
    Proof.
      intros Hx Hy Hij (a & b & Hm).
      destruct (nth_both log ids i x (eq_sym (re_length _ _ _ _ _ Rr)) Hx) as [p Hp].
      destruct (nth_both log ids j y (eq_sym (re_length _ _ _ _ _ Rr)) Hy) as [q Hq].
      exists p, q. split; [exact Hp|]. split; [exact Hq|].
      pose proof (proj1 (meet_ports i j x y p q Hx Hy Hp Hq Hij a b) Hm) as (t & Ha & Hb).
      assert (p <> q) as Hpq by (intros <-; exact (Hij (sorted_nth _ _ _ _ (re_sorted _ _ _ _ _ Rr) Hp Hq))).
      assert (forall u v, In (u, v) (pairs (in_nodes r t)) -> In (u, v) looked_at) as A.
      { intros u v Hi. unfold looked_at. apply in_flat_map. exists t. split; [exact (edge_port _ _ _ Ha)|].
        unfold get_port_candidates. apply pair_order_In, nodup_In, Hi. }
      destruct (pairs_all (in_nodes r t) p q) as [Hi|Hi].
      - apply in_nodes_In; eauto.
      - apply in_nodes_In; eauto.
      - exact Hpq.
      - left; apply A, Hi.
      - right; apply A, Hi.
    Qed.

    (* ---- the list of candidates *)
    Definition core (c : joined L) := (j_cand c, j_first c, j_second c).
    Lemma add_joined_spec cs (c : joined L) :
      (forall d, In d (add_joined cs c) -> (exists d0, In d0 cs /\ core d0 = core d) \/ core d = core c)
      /\ (forall d, In d cs -> exists d', In d' (add_joined cs c) /\ core d' = core d /\ incl (j_data d) (j_data d'))
      /\ (exists d, In d (add_joined cs c) /\ candidate_eq (j_cand d) (j_cand c) = true /\ incl (j_data c) (j_data d)).
    Proof.
      induction cs as [|x cs (A & B & C)]; cbn [add_joined].
      - split; [intros d [<-|[]]; right; reflexivity|]. split; [intros d []|].
        exists c. split; [left; reflexivity|]. split; [apply C59_reflexive | apply incl_refl].
      - destruct (candidate_eq (j_cand x) (j_cand c)) eqn:E.
        + split; [|split].
          * intros d [<-|Hd]; left; [exists x | exists d]; cbn [In]; auto.
          * intros d [<-|Hd]; [eexists; split; [left; reflexivity | split; [reflexivity | intros t Ht; apply In_union; left; exact Ht]]|].
            exists d. cbn [In]. split; [auto|]. split; [reflexivity | apply incl_refl].
          * eexists. split; [left; reflexivity|]. split; [exact E | intros t Ht; apply In_union; right; exact Ht].
        + split; [|split].
          * intros d [<-|Hd]; [left; exists x; cbn [In]; auto|]. destruct (A d Hd) as [(d0 & H1 & H2)|H1]; [left | right; exact H1].
            exists d0. cbn [In]. auto.
          * intros d [<-|Hd]; [exists x; cbn [In]; split; [auto | split; [reflexivity | apply incl_refl]]|].
            destruct (B d Hd) as (d' & H1 & H2). exists d'. cbn [In]. auto.
          * destruct C as (d & H1 & H2). exists d. cbn [In]. auto.
    Qed.
    Definition distinct_cands (cs : list (joined L)) : Prop :=
      ForallOrdPairs (fun c d => candidate_eq (j_cand c) (j_cand d) = false) cs.
    Lemma add_joined_distinct cs c : distinct_cands cs -> distinct_cands (add_joined cs c).
    Proof.
      unfold distinct_cands. induction 1 as [|x cs Hx Hc IH]; cbn [add_joined]; [repeat constructor|].
      destruct (candidate_eq (j_cand x) (j_cand c)) eqn:E; constructor.
      - exact Hx.
      - exact Hc.
      - rewrite Forall_forall in *. intros d Hd. destruct (add_joined_spec cs c) as (A & _).
        destruct (A d Hd) as [(d0 & H1 & H2)|H1].
        + injection H2 as H2 _ _. rewrite <- H2. apply Hx, H1.
        + injection H1 as H1 _ _. rewrite H1. exact E.
      - exact IH.
    Qed.
    Lemma fold_flat {S A B} (f : S -> B -> outcome S) (h : A -> list B) l : forall s,
      fold_out (fun s a => fold_out f (h a) s) l s = fold_out f (flat_map h l) s.
    Proof.
      induction l as [|a l IH]; intros s; [reflexivity|]. cbn [fold_out flat_map]. rewrite fold_out_app.
      destruct (fold_out f (h a) s) as [s'|e|]; cbn [bind]; [apply IH | reflexivity | reflexivity].
    Qed.
    Lemma collect_ok : exists cs, collect ltb row_index pair_order port_order r = Ret cs
      /\ (forall c, In c cs -> exists i j x y, nth_error log i = Some x /\ nth_error log j = Some y /\ i <> j
            /\ (exists a b, meet (e_use x) (e_use y) a b) /\ oriented c x y)
      /\ (forall p q, In (p, q) looked_at -> exists c d, join ltb row_index port_order r (p, q) = Ret c /\ In d cs
            /\ candidate_eq (j_cand d) (j_cand c) = true /\ incl (j_data c) (j_data d))
      /\ distinct_cands cs.
    Proof.
      unfold collect. rewrite (fold_flat _ (fun t => get_port_candidates pair_order (in_nodes r t))). fold looked_at.
      set (Good := fun c => exists i j x y, nth_error log i = Some x /\ nth_error log j = Some y /\ i <> j
            /\ (exists a b, meet (e_use x) (e_use y) a b) /\ oriented c x y).
      assert (forall c d, core c = core d -> Good d -> Good c) as Gcore.
      { intros c d E (i & j & x & y & Hx & Hy & Hij & Hm & Ho). exists i, j, x, y. repeat (split; [assumption|]).
        injection E as E1 E2 E3. unfold oriented in *. rewrite E1, E2, E3. exact Ho. }
      assert (forall pq, In pq looked_at -> exists c, join ltb row_index port_order r pq = Ret c /\ Good c) as Hj.
      { intros [p q] Hi. destruct (looked_at_uses p q Hi) as (i & j & x & y & Hx & Hy & Hp & Hq & Hij & a & b & Hm).
        destruct (join_ok i j x y p q Hx Hy Hp Hq Hij) as (c & E & [Ho|Ho]); exists c; (split; [exact E|]).
        - exists i, j, x, y. repeat (split; [assumption|]). split; [exists a, b; exact Hm | exact Ho].
        - exists j, i, y, x. repeat (split; [solve [assumption | apply not_eq_sym; assumption]|]).
          split; [exists b, a; destruct Hm as (n & M1 & M2); exists n; auto | exact Ho]. }
      assert (forall ps cs, incl ps looked_at -> (forall c, In c cs -> Good c) -> distinct_cands cs ->
        exists cs', fold_out (fun cs c => bind (join ltb row_index port_order r c) (fun j => Ret (add_joined cs j))) ps cs = Ret cs'
          /\ (forall c, In c cs' -> Good c) /\ (forall d, In d cs -> exists d', In d' cs' /\ core d' = core d /\ incl (j_data d) (j_data d'))
          /\ (forall pq, In pq ps -> exists c d, join ltb row_index port_order r pq = Ret c /\ In d cs'
                /\ candidate_eq (j_cand d) (j_cand c) = true /\ incl (j_data c) (j_data d)) /\ distinct_cands cs') as A.
      { induction ps as [|pq ps IH]; intros cs Hin Hg Hd.
        - exists cs. split; [reflexivity|]. split; [exact Hg|].
          split; [intros d Hdd; exists d; split; [exact Hdd | split; [reflexivity | apply incl_refl]]|]. split; [intros pq [] | exact Hd].
        - destruct (Hj pq (Hin pq (or_introl eq_refl))) as (c & E & Gc). cbn [fold_out]. rewrite E. cbn [bind].
          destruct (add_joined_spec cs c) as (S1 & S2 & d & S3 & S4 & S5).
          destruct (IH (add_joined cs c)) as (cs' & E' & A1 & A2 & A3 & A4).
          + intros z Hz. apply Hin. right; exact Hz.
          + intros z Hz. destruct (S1 z Hz) as [(d0 & H1 & H2)|H1]; [exact (Gcore z d0 (eq_sym H2) (Hg d0 H1)) | exact (Gcore z c H1 Gc)].
          + apply add_joined_distinct, Hd.
          + exists cs'. split; [exact E'|]. split; [exact A1|]. split; [|split; [|exact A4]].
            * intros z Hz. destruct (S2 z Hz) as (z' & Z1 & Z2 & Z5). destruct (A2 z' Z1) as (z2 & Z3 & Z4 & Z6).
              exists z2. split; [exact Z3|]. split; [congruence | exact (incl_tran Z5 Z6)].
            * intros z [<-|Hz]; [|exact (A3 z Hz)]. destruct (A2 d S3) as (d' & D1 & D2 & D3). exists c, d'.
              split; [exact E|]. split; [exact D1|]. split; [|exact (incl_tran S5 D3)]. injection D2 as D2 _ _. rewrite D2. exact S4. }
      destruct (A looked_at [] (incl_refl _) (fun c F => match F with end) (FOP_nil _)) as (cs & E & A1 & _ & A3 & A4).
      exists cs. split; [exact E|]. split; [exact A1|]. split; [|exact A4]. intros p q Hi. exact (A3 (p, q) Hi).
    Qed.

    (* the labels tell the kinds of uses apart *)
    Lemma side_label x y : In x log -> In y log -> label_of x = label_of y -> side_of x = side_of y.
    Proof.
      intros Ix Iy E. pose proof (ru_from _ _ _ _ _ _ _ R x Ix) as Fx. pose proof (ru_from _ _ _ _ _ _ _ R y Iy) as Fy.
      unfold use_node, side_of in *.
      destruct (e_use x) as [px ex|ux vx lx|nx lx], (e_use y) as [py ey|uy vy ly|ny ly]; cbn [r_label] in E;
        try (f_equal; assumption).
      - f_equal. apply (rd_rows _ _ _ Hread), E.
      - destruct (jn_edge _ _ _ _ _ Hjoin _ _ _ _ Fy (eq_sym E)).
      - destruct (jn_vertex _ _ _ _ _ Hjoin _ _ _ Fy (eq_sym E)).
      - destruct (jn_edge _ _ _ _ _ Hjoin _ _ _ _ Fx E).
      - destruct (jn_vertex _ _ _ _ _ Hjoin _ _ _ Fx E).
    Qed.
    Lemma oriented_equal c d x y : In x log -> In y log -> (exists x' y', In x' log /\ In y' log /\ oriented d x' y') ->
      oriented c x y -> candidate_eq (j_cand d) (j_cand c) = true -> oriented d x y.
    Proof.
      intros Ix Iy (x' & y' & Ix' & Iy' & D1 & D2 & D3 & D4 & D5 & D6) (C1 & C2 & C3 & C4 & C5 & C6) E.
      apply (C59_equal_partial _ _ D6 C6) in E as (E1 & E2 & E3).
      split; [congruence|]. split; [congruence|].
      split; [rewrite D3; apply side_label; [assumption | assumption | congruence]|].
      split; [rewrite D4; apply side_label; [assumption | assumption | congruence]|].
      split; [|exact D6]. intros a b. rewrite E3. apply C5.
    Qed.

    (* ---- the patterns *)
    Notation nets := (map (fun w : row L => net_of (r_pattern w)) rows).
    Notation side_net := (side_pattern multi nets (edge_names_of log) (vertex_names_of log)).
    Lemma side_ok x : In x log -> side_net (side_of x) = Ret (use_net multi (e_use x)).
    Proof.
      intros Ix. pose proof (ru_from _ _ _ _ _ _ _ R x Ix) as Fx. unfold side_of.
      destruct (e_use x) as [p e|u v l|n l] eqn:Ex; cbn [side_pattern use_net].
      - destruct Fx as (i & w & Ei & Hi & -> & _). rewrite Ei. rewrite (map_nth_error _ _ _ Hi). reflexivity.
      - unfold create_singleton_pattern. rewrite (proj2 (mem_In l (edge_names_of log))); [reflexivity|].
        unfold edge_names_of. apply in_flat_map. exists x. rewrite Ex. split; [exact Ix | left; reflexivity].
      - unfold create_singleton_pattern. rewrite (proj2 (mem_false l (edge_names_of log))).
        + rewrite (proj2 (mem_In l (vertex_names_of log))); [reflexivity|].
          unfold vertex_names_of. apply in_flat_map. exists x. rewrite Ex. split; [exact Ix | left; reflexivity].
        + intros Hi. unfold edge_names_of in Hi. apply in_flat_map in Hi as (y & Iy & Hi).
          pose proof (ru_from _ _ _ _ _ _ _ R y Iy) as Fy. destruct (e_use y) as [p e|u v l'|m l']; try (destruct Hi; fail).
          destruct Hi as [->|[]]. exact (jn_kinds _ _ _ _ _ Hjoin _ _ _ _ Fy Fx).
    Qed.

    Lemma use_numbered x : In x log -> numbered (use_net multi (e_use x)) /\ (multi = false -> simple (use_net multi (e_use x))).
    Proof.
      intros Ix. pose proof (ru_from _ _ _ _ _ _ _ R x Ix) as Fx.
      destruct (e_use x) as [p e|u v l|n l]; cbn [use_net].
      - destruct Fx as (i & w & _ & _ & -> & Hw & _). split; [apply (jn_rows _ _ _ _ _ Hjoin), Hw|].
        intros Hm. apply (jn_simple _ _ _ _ _ Hjoin Hm), Hw.
      - destruct (C75_singletons multi l) as ((A & _ & B & _) & _). auto.
      - destruct (C75_singletons multi l) as (_ & (A & _ & B & _)). auto.
    Qed.
    Lemma edge_singleton_eq (l : L) : edge_singleton multi l = {| n_nodes := [(1, None); (2, None)]; n_edges := [(1, 2, l)] |}.
    Proof. destruct multi; reflexivity. Qed.
    Lemma use_occurs x : In x log -> occurs g (use_net multi (e_use x)) (use_nodes (e_use x)).
    Proof.
      intros Ix. destruct (ru_keys _ _ _ _ _ _ _ R x Ix) as [K1 K2]. pose proof (ru_from _ _ _ _ _ _ _ R x Ix) as Fx.
      destruct (e_use x) as [p e|u v l|n l]; cbn [use_net use_nodes] in *.
      - destruct Fx as (i & w & _ & _ & _ & _ & Ho & _ & Ht & _). split; [exact K1 | exact K2 | exact Ht | |].
        + intros a b l u v He Hu Hv. cbn [net_of n_edges] in He. apply pattern_edges_In in He as (ls & He & Hl).
          exact (oc_edges _ _ _ Ho a b ls u v l He Hu Hv Hl).
        + intros n a l Hn Hl. unfold names_at, node_names in Hl. cbn [net_of n_nodes] in Hl.
          destruct (dget (p_nodes p) a) as [[lab|]|] eqn:Ea; try (destruct Hl; fail).
          destruct (oc_labels _ _ _ Ho n a lab Hn Ea) as (_ & dl & Ed & Hi). unfold node_names. rewrite Ed. apply Hi, Hl.
      - rewrite edge_singleton_eq. split; [exact K1 | exact K2 | | |].
        + intros a. unfold node_list. cbn. tauto.
        + intros a b l' u' v' [He|[]] Hu Hv. injection He as <- <- <-.
          cbn [In] in Hu, Hv. destruct Hu as [Hu|[Hu|[]]]; [|discriminate]. destruct Hv as [Hv|[Hv|[]]]; [discriminate|].
          injection Hu as <-. injection Hv as <-. exact Fx.
        + intros m a l' _ Hl. unfold names_at, node_names in Hl. cbn [n_nodes dget] in Hl.
          destruct (eq_dec a 1); [destruct Hl|]. destruct (eq_dec a 2); destruct Hl.
      - split; [exact K1 | exact K2 | | |].
        + intros a. unfold node_list, vertex_singleton. cbn. tauto.
        + intros a b l' u' v' [].
        + intros m a l' [Hm|[]] Hl. injection Hm as <- <-. unfold names_at, node_names, vertex_singleton in Hl. cbn in Hl.
          destruct Hl as [<-|[]]. exact Fx.
    Qed.
    Lemma use_closed x : In x log -> closed (use_net multi (e_use x)).
    Proof.
      intros Ix. pose proof (ru_from _ _ _ _ _ _ _ R x Ix) as Fx. destruct (e_use x) as [p e|u v l|n l]; cbn [use_net].
      - destruct Fx as (i & w & _ & _ & _ & _ & Ho & _ & Ht & _). intros a b l He. cbn [net_of n_edges] in He.
        apply pattern_edges_In in He as (ls & He & _). destruct (oc_ends _ _ _ Ho a b ls He) as [A B].
        split; apply Ht; assumption.
      - apply C75_singletons.
      - apply (C75_singletons multi).
    Qed.
    Lemma use_covers x a b l u v : In x log -> In (a, b, l) (n_edges (use_net multi (e_use x))) ->
      In (u, a) (use_nodes (e_use x)) -> In (v, b) (use_nodes (e_use x)) -> covers_edge (u, v, l) (e_use x) = true.
    Proof.
      intros Ix. destruct (e_use x) as [p e|u0 v0 l0|n l0]; cbn [use_net use_nodes covers_edge]; intros He Hu Hv.
      - cbn [net_of n_edges] in He. apply pattern_edges_In in He as (ls & He & Hl). apply existsb_exists.
        exists ((a, b), ls). split; [exact He|]. cbn [fst snd]. rewrite !andb_true_iff, !mem_In. auto.
      - rewrite edge_singleton_eq in He. destruct He as [He|[]]. injection He as <- <- <-.
        cbn [In] in Hu, Hv. destruct Hu as [Hu|[Hu|[]]]; [|discriminate]. destruct Hv as [Hv|[Hv|[]]]; [discriminate|].
        injection Hu as <-. injection Hv as <-. apply eqd_refl.
      - destruct He.
    Qed.

    (* the merged pattern of two uses occurs in the data graph *)
    Lemma uses_merge i j x y ports : nth_error log i = Some x -> nth_error log j = Some y -> i <> j ->
      NoDup ports -> (forall a b, In (a, b) ports <-> meet (e_use x) (e_use y) a b) ->
      exists G h, merge multi (use_net multi (e_use x)) (use_net multi (e_use y)) ports = Ok G /\ occurs g G h.
    Proof.
      intros Hx Hy Hij Hn Hp. pose proof (nth_error_In _ _ Hx) as Ix. pose proof (nth_error_In _ _ Hy) as Iy.
      pose proof (use_occurs x Ix) as Ox. pose proof (use_occurs y Iy) as Oy.
      destruct (use_numbered x Ix) as [Nx Sx]. destruct (use_numbered y Iy) as [Ny Sy].
      apply (merge_occurs multi g _ _ (use_nodes (e_use x)) (use_nodes (e_use y)) ports Ox Oy Nx).
      - eapply Permutation_NoDup; [apply Permutation_sym, Ny | apply seq_NoDup].
      - exact (use_closed x Ix).
      - exact (use_closed y Iy).
      - exact Hn.
      - exact Hp.
      - exact (ad_loops _ _ Hadm).
      - assert (multi = true \/ multi = false) as [Em|Em] by (destruct multi; auto); [left; exact Em | right].
        split; [apply Sx, Em|]. split; [apply Sy, Em|].
        intros a b l p q l' He Ha Hb He'. apply Hp in Ha as (u & U1 & U2). apply Hp in Hb as (v & V1 & V2).
        pose proof (os_edges _ _ _ Ox p q l' u v He' U1 V1) as D1. pose proof (os_edges _ _ _ Oy a b l u v He U2 V2) as D2.
        assert (l' = l) as -> by exact (same_snd _ _ _ _ (proj1 (jn_simple _ _ _ _ _ Hjoin Em)) D1 D2).
        pose proof (use_covers x p q l u v Ix He' U1 V1) as K1. pose proof (use_covers y a b l u v Iy He U2 V2) as K2.
        assert (2 <= length (filter (covers_edge (u, v, l)) (map e_use log))) as G.
        { apply (two_hits _ _ i j (e_use x) (e_use y)); [apply map_nth_error, Hx | apply map_nth_error, Hy | exact Hij | exact K1 | exact K2]. }
        rewrite (ru_once _ _ _ _ _ _ _ R (u, v, l) D1) in G. lia.
    Qed.

    Notation generate := (generate_candidates ltb row_index pair_order port_order multi nets (edge_names_of log) (vertex_names_of log) r).

    Lemma finish_ok c x y : In x log -> In y log -> oriented c x y ->
      exists d, finish multi nets (edge_names_of log) (vertex_names_of log) c = Ret d
        /\ NoDup (port (g_cand d))
        /\ g_cand d = (if eqd (first_label (j_cand c)) (second_label (j_cand c)) then inverse (j_cand c) else j_cand c)
        /\ (joins multi d (e_use x) (e_use y) \/ joins multi d (e_use y) (e_use x)).
    Proof.
      intros Ix Iy (C1 & C2 & C3 & C4 & C5 & C6). unfold finish. rewrite C3, C4.
      rewrite (side_ok x Ix). cbn [bind]. rewrite (side_ok y Iy). cbn [bind].
      rewrite C59_own_inverse. cbn [snd].
      eexists. split; [reflexivity|]. cbn [g_cand g_first g_second].
      destruct (eqd (first_label (j_cand c)) (second_label (j_cand c))) eqn:E.
      - apply (proj1 (eqd_true _ _)) in E. split; [|split; [reflexivity|]].
        + cbn [inverse port]. apply nodup_map_inj; [exact C6|]. intros [a b] [a' b'] _ _ F. cbn in F. congruence.
        + right. assert (use_net multi (e_use x) = use_net multi (e_use y)) as En.
          { assert (side_of x = side_of y) as Es by (apply side_label; [assumption | assumption | congruence]).
            pose proof (side_ok x Ix) as S1. rewrite Es, (side_ok y Iy) in S1. injection S1 as S1. congruence. }
          split; [exact En|]. split; [symmetry; exact En|]. intros a b.
          destruct (C59_inverse (j_cand c)) as ((_ & _ & I3) & _). cbn [g_cand]. rewrite I3, C5. unfold meet.
          split; intros (n & H1 & H2); exists n; auto.
      - split; [exact C6|]. split; [reflexivity|]. left. split; [reflexivity|]. split; [reflexivity | exact C5].
    Qed.

    Lemma join_data p q c : join ltb row_index port_order r (p, q) = Ret c -> j_data c = all_ports p q.
    Proof.
      unfold join. cbn [fst snd]. intros E. apply bind_Ret in E as (n1 & _ & E). apply bind_Ret in E as (n2 & _ & E).
      destruct (is_singleton n1), (is_singleton n2).
      - destruct (ltb _ _); apply bind_Ret in E as (ps & _ & E); injection E as <-; reflexivity.
      - apply bind_Ret in E as (j & _ & E). apply bind_Ret in E as (ps & _ & E). injection E as <-. reflexivity.
      - apply bind_Ret in E as (j & _ & E). apply bind_Ret in E as (ps & _ & E). injection E as <-. reflexivity.
      - apply bind_Ret in E as (i & _ & E). apply bind_Ret in E as (j & _ & E).
        destruct (i <? j); apply bind_Ret in E as (ps & _ & E); injection E as <-; reflexivity.
    Qed.
    Lemma common_port i j x y p q : nth_error log i = Some x -> nth_error log j = Some y ->
      nth_error ids i = Some p -> nth_error ids j = Some q -> i <> j -> forall n a b,
      In (n, a) (use_nodes (e_use x)) -> In (n, b) (use_nodes (e_use y)) ->
      exists t, In t (all_ports p q) /\ node_at r t = Some (port_node node_name n).
    Proof.
      intros Hx Hy Hp Hq Hij n a b Ha Hb.
      assert (p <> q) as Hpq by (intros <-; exact (Hij (sorted_nth _ _ _ _ (re_sorted _ _ _ _ _ Rr) Hp Hq))).
      pose proof (ru_shared _ _ _ _ _ _ _ R i j x y n a b Hx Hy Hij Ha Hb) as P1.
      pose proof (ru_shared _ _ _ _ _ _ _ R j i y x n b a Hy Hx (not_eq_sym Hij) Hb Ha) as P2.
      destruct (re_port _ _ _ _ _ Rr x n (nth_error_In _ _ Hx) (in_map fst _ _ P1)) as [t Ht]. exists t. split; [|exact Ht].
      apply (all_ports_In p q Hpq t). exists a, b. split; [apply (edge_fact i x p t a Hx Hp) | apply (edge_fact j y q t b Hy Hq)]; eauto.
    Qed.
    (* every node the two uses share is recorded with the candidate *)
    Definition records (c : generated L) (x y : use L) : Prop :=
      forall n a b, In (n, a) (use_nodes x) -> In (n, b) (use_nodes y) ->
        exists t, In t (g_data c) /\ node_at r t = Some (port_node node_name n).
    Lemma generate_ok : exists cs, generate = Ret cs
      /\ (forall c, In c cs -> NoDup (port (g_cand c)) /\ exists i j x y, nth_error log i = Some x /\ nth_error log j = Some y /\ i <> j
            /\ (exists a b, meet (e_use x) (e_use y) a b) /\ joins multi c (e_use x) (e_use y))
      /\ (forall i j x y, nth_error log i = Some x -> nth_error log j = Some y -> i <> j ->
            (exists a b, meet (e_use x) (e_use y) a b) ->
            exists c, In c cs /\ (joins multi c (e_use x) (e_use y) \/ joins multi c (e_use y) (e_use x))
              /\ records c (e_use x) (e_use y))
      /\ ForallOrdPairs (fun c d => candidate_eq (g_cand c) (g_cand d) = false) cs.
    Proof.
      destruct collect_ok as (cs & Ec & A & B & D). unfold generate_candidates. rewrite Ec. cbn [bind].
      set (Fin := finish multi nets (edge_names_of log) (vertex_names_of log)).
      assert (forall todo acc, incl todo cs -> exists ds,
        fold_out (fun acc j => bind (Fin j) (fun x => Ret (acc ++ [x]))) todo acc = Ret (acc ++ ds)
        /\ Forall2 (fun c d => Fin c = Ret d) todo ds) as Loop.
      { induction todo as [|c todo IH]; intros acc Hin.
        - exists []. rewrite app_nil_r. split; [reflexivity | constructor].
        - destruct (A c (Hin c (or_introl eq_refl))) as (i & j & x & y & Hx & Hy & _ & _ & Ho).
          destruct (finish_ok c x y (nth_error_In _ _ Hx) (nth_error_In _ _ Hy) Ho) as (d & Ed & _).
          cbn [fold_out]. unfold Fin at 1. rewrite Ed. cbn [bind].
          destruct (IH (acc ++ [d]) (fun z Hz => Hin z (or_intror Hz))) as (ds & E & F).
          exists (d :: ds). rewrite E, <- app_assoc. split; [reflexivity|]. constructor; [exact Ed | exact F]. }
      destruct (Loop cs [] (incl_refl _)) as (ds & E & F). cbn [app] in E. exists ds. split; [exact E|]. clear E Loop.
      assert (forall d, In d ds -> exists c, In c cs /\ Fin c = Ret d) as Back.
      { clear -F. induction F as [|c d cs ds Fc F IH]; intros z Hz; [destruct Hz|]. destruct Hz as [<-|Hz].
        - exists c. cbn [In]. auto.
        - destruct (IH z Hz) as (c' & H1 & H2). exists c'. cbn [In]. auto. }
      assert (forall c, In c cs -> exists d, In d ds /\ Fin c = Ret d) as Forth.
      { clear -F. induction F as [|c d cs ds Fc F IH]; intros z Hz; [destruct Hz|]. destruct Hz as [<-|Hz].
        - exists d. cbn [In]. auto.
        - destruct (IH z Hz) as (c' & H1 & H2). exists c'. cbn [In]. auto. }
      split; [|split].
      - intros d Hd. destruct (Back d Hd) as (c & Hc & Ed).
        destruct (A c Hc) as (i & j & x & y & Hx & Hy & Hij & Hm & Ho).
        destruct (finish_ok c x y (nth_error_In _ _ Hx) (nth_error_In _ _ Hy) Ho) as (d' & Ed' & Hn & _ & Hj).
        unfold Fin in Ed. rewrite Ed in Ed'. injection Ed' as <-. split; [exact Hn|].
        destruct Hj as [Hj|Hj]; [exists i, j, x, y; auto|]. exists j, i, y, x.
        repeat (split; [solve [assumption | apply not_eq_sym; assumption]|]). split; [|exact Hj].
        destruct Hm as (a & b & n & M1 & M2). exists b, a, n. auto.
      - intros i j x y Hx Hy Hij Hm. destruct (uses_looked_at i j x y Hx Hy Hij Hm) as (p & q & Hp & Hq & Hl).
        pose proof (nth_error_In _ _ Hx) as Ix. pose proof (nth_error_In _ _ Hy) as Iy.
        assert (forall c d, In d cs -> candidate_eq (j_cand d) (j_cand c) = true -> oriented c x y \/ oriented c y x -> incl (j_data c) (j_data d) ->
                  (forall n a b, In (n, a) (use_nodes (e_use x)) -> In (n, b) (use_nodes (e_use y)) ->
                     exists t, In t (j_data c) /\ node_at r t = Some (port_node node_name n)) ->
                  exists d', In d' ds /\ (joins multi d' (e_use x) (e_use y) \/ joins multi d' (e_use y) (e_use x))
                    /\ records d' (e_use x) (e_use y)) as Fin'.
        { intros c d Hd He Ho Hincl Hrec. destruct (A d Hd) as (i' & j' & x' & y' & Hx' & Hy' & _ & _ & Ho').
          assert (exists x' y', In x' log /\ In y' log /\ oriented d x' y') as Hex.
          { exists x', y'. repeat split; try apply Ho'; eapply nth_error_In; eassumption. }
          destruct (Forth d Hd) as (d' & Hd' & Ed). exists d'. split; [exact Hd'|].
          assert (g_data d' = j_data d) as Eg.
          { unfold Fin, finish in Ed. apply bind_Ret in Ed as (p1 & _ & Ed). apply bind_Ret in Ed as (p2 & _ & Ed). injection Ed as <-. reflexivity. }
          split; [|intros n a b Ha Hb; rewrite Eg; destruct (Hrec n a b Ha Hb) as (t & T1 & T2); exists t; split; [apply Hincl, T1 | exact T2]].
          destruct Ho as [Ho|Ho].
          - pose proof (oriented_equal c d x y Ix Iy Hex Ho He) as Od.
            destruct (finish_ok d x y Ix Iy Od) as (d2 & Ed' & _ & _ & Hj). unfold Fin in Ed. rewrite Ed in Ed'.
            injection Ed' as <-. exact Hj.
          - pose proof (oriented_equal c d y x Iy Ix Hex Ho He) as Od.
            destruct (finish_ok d y x Iy Ix Od) as (d2 & Ed' & _ & _ & Hj). unfold Fin in Ed. rewrite Ed in Ed'.
            injection Ed' as <-. tauto. }
        destruct Hl as [Hl|Hl]; destruct (B _ _ Hl) as (c & d & Ej & Hd & He & Hi).
        + destruct (join_ok i j x y p q Hx Hy Hp Hq Hij) as (c' & Ec' & Ho). rewrite Ej in Ec'. injection Ec' as <-.
          apply (Fin' c d Hd He Ho Hi). rewrite (join_data _ _ _ Ej). exact (common_port i j x y p q Hx Hy Hp Hq Hij).
        + destruct (join_ok j i y x q p Hy Hx Hq Hp (not_eq_sym Hij)) as (c' & Ec' & Ho). rewrite Ej in Ec'. injection Ec' as <-.
          apply (Fin' c d Hd He); [tauto | exact Hi|]. rewrite (join_data _ _ _ Ej). intros n a b Ha Hb.
          exact (common_port j i y x q p Hy Hx Hq Hp (not_eq_sym Hij) n b a Hb Ha).
      - assert (forall c, In c cs -> NoDup (port (j_cand c))) as Hnd.
        { intros c Hc. destruct (A c Hc) as (i & j & x & y & _ & _ & _ & _ & Ho). apply Ho. }
        assert (forall c d, In c cs -> Fin c = Ret d -> g_cand d =
          if eqd (first_label (j_cand c)) (second_label (j_cand c)) then inverse (j_cand c) else j_cand c) as Hg.
        { intros c d Hc Ed. destruct (A c Hc) as (i & j & x & y & Hx & Hy & _ & _ & Ho).
          destruct (finish_ok c x y (nth_error_In _ _ Hx) (nth_error_In _ _ Hy) Ho) as (d' & Ed' & _ & Eg & _).
          unfold Fin in Ed. rewrite Ed in Ed'. injection Ed' as <-. exact Eg. }
        clear A B Back Forth Ec. unfold distinct_cands in D. revert Hnd Hg.
        induction F as [|c d cs ds Fc F IH]; intros Hnd Hg; [constructor|].
        inversion_clear D as [|? ? Dc Ds]. constructor.
        2: { apply IH; [exact Ds | intros z Hz; apply Hnd; right; exact Hz | intros z z' Hz; apply Hg; right; exact Hz]. }
        rewrite Forall_forall in *. intros d' Hd'.
        assert (exists c', In c' cs /\ Fin c' = Ret d') as (c' & Hc' & Ed').
        { clear -F Hd'. induction F as [|c d cs ds Fc F IH]; [destruct Hd'|]. destruct Hd' as [<-|Hz].
          - exists c. cbn [In]. auto.
          - destruct (IH Hz) as (c' & H1 & H2). exists c'. cbn [In]. auto. }
        specialize (Dc c' Hc'). rewrite (Hg c d (or_introl eq_refl) Fc), (Hg c' d' (or_intror Hc') Ed').
        assert (NoDup (port (j_cand c))) as N1 by (apply Hnd; left; reflexivity).
        assert (NoDup (port (j_cand c'))) as N2 by (apply Hnd; right; exact Hc').
        assert (forall z : candidate L nat, NoDup (port z) -> NoDup (port (inverse z))) as Ni.
        { intros z Hz. cbn [inverse port]. apply nodup_map_inj; [exact Hz|]. intros [a b] [a' b'] _ _ G. cbn in G. congruence. }
        apply not_true_iff_false. intros G. apply not_true_iff_false in Dc. apply Dc.
        apply (C59_equal_partial _ _ N1 N2).
        destruct (eqd (first_label (j_cand c)) (second_label (j_cand c))) eqn:E1;
          destruct (eqd (first_label (j_cand c')) (second_label (j_cand c'))) eqn:E2.
        + apply (C59_equal_partial _ _ (Ni _ N1) (Ni _ N2)) in G as (G1 & G2 & G3). cbn [inverse first_label second_label] in G1, G2.
          split; [exact G2|]. split; [exact G1|]. intros [a b].
          destruct (C59_inverse (j_cand c)) as ((_ & _ & I1) & _). destruct (C59_inverse (j_cand c')) as ((_ & _ & I2) & _).
          rewrite <- I1, <- I2. apply G3.
        + exfalso. apply (C59_equal_partial _ _ (Ni _ N1) N2) in G as (G1 & G2 & _). cbn [inverse first_label second_label] in G1, G2.
          apply (proj1 (eqd_true _ _)) in E1. apply eqd_false in E2. congruence.
        + exfalso. apply (C59_equal_partial _ _ N1 (Ni _ N2)) in G as (G1 & G2 & _). cbn [inverse first_label second_label] in G1, G2.
          apply (proj1 (eqd_true _ _)) in E2. apply eqd_false in E1. congruence.
        + apply (C59_equal_partial _ _ N1 N2), G.
    Qed.
  End Run.
End Generation.

(* ------------------------------------------------------------- theorems *)
(* After a cover, the candidates of the search are exactly the joins of two
   uses that have data nodes in common, each at all the common nodes; no two
   of them are equal; and the pattern each of them stands for can be built and
   occurs in the data graph. *)
Theorem C77_candidates_partial {L} `{EqDec L} substr set_order pair_order port_order ltb row_index multi row_name node_name
    (g : data L) (rows : list (row L)) (m : marks L) :
  (forall l, substr l l = true) -> (forall l x, In x (set_order l) <-> In x l) ->
  (forall l x, In x (pair_order l) <-> In x l) -> (forall l, Permutation (port_order l) l) ->
  admissible g rows -> readable row_name node_name g -> joinable multi row_name row_index g rows -> marks_ok m ->
  exists m' log cs, cover' substr set_order multi g rows m = Ret (m', log)
    /\ generate_candidates ltb row_index pair_order port_order multi (map (fun w => net_of (r_pattern w)) rows)
         (edge_names_of log) (vertex_names_of log) (rewrite row_name node_name log) = Ret cs
    /\ (forall i j x y, nth_error log i = Some x -> nth_error log j = Some y -> i <> j ->
          (exists a b, meet (e_use x) (e_use y) a b) ->
          exists c, In c cs /\ (joins multi c (e_use x) (e_use y) \/ joins multi c (e_use y) (e_use x))
            /\ records node_name (rewrite row_name node_name log) c (e_use x) (e_use y))
    /\ (forall c, In c cs -> exists i j x y, nth_error log i = Some x /\ nth_error log j = Some y /\ i <> j
          /\ (exists a b, meet (e_use x) (e_use y) a b) /\ joins multi c (e_use x) (e_use y))
    /\ (forall c, In c cs -> exists p e,
          merge multi (g_first c) (g_second c) (port (g_cand c)) = Ok p /\ occurs g p e)
    /\ ForallOrdPairs (fun c d => candidate_eq (g_cand c) (g_cand d) = false) cs.
Proof.
  intros Hs Ho Hpair Hport Ha Hr Hj Hm.
  destruct (run_exists substr set_order multi Hs Ho row_name node_name g rows m Ha Hr Hm) as (m' & log & ids & E & _ & _ & R).
  pose proof (rewrite_keys row_name node_name log) as Hk.
  destruct (generate_ok ltb row_index pair_order port_order Hpair Hport multi row_name node_name g rows log ids _ Hr Hj R Hk)
    as (cs & Ec & A & B & D).
  exists m', log, cs. split; [exact E|]. split; [exact Ec|]. split; [exact B|]. split; [|split; [|exact D]].
  - intros c Hc. apply A, Hc.
  - intros c Hc. destruct (A c Hc) as (Hn & i & j & x & y & Hx & Hy & Hij & _ & J1 & J2 & J3). rewrite J1, J2.
    exact (uses_merge ltb row_index multi row_name node_name g rows log ids _ Ha Hj R i j x y _ Hx Hy Hij Hn J3).
Qed.
Print Assumptions C77_candidates_partial.

Definition row_at (l : nat) : outcome nat := Ret ((l - 101) / 2).
Lemma row_at_no i : row_at (row_no i) = Ret i.
Proof. unfold row_at, row_no. replace (2 * i + 101 - 101) with (i * 2) by lia. rewrite Nat.div_mul by lia. reflexivity. Qed.

(* two occurrences of a row that overlap in two nodes, a row for a label, an
   edge left over: five candidates *)
Example C77_case :
  admissible demo_graph demo_rows /\ readable row_no node_no demo_graph
  /\ joinable false row_no row_at demo_graph demo_rows
  /\ exists m' log cs, cover' eqd (fun l => rev l) false demo_graph demo_rows
        {| marker := 3; edge_mark := [((1, 2, 7), 3)]; node_mark := [((1, 10), 2)] |} = Ret (m', log)
    /\ generate_candidates Nat.ltb row_at (fun l => rev l) (fun l => l) false (map (fun w => net_of (r_pattern w)) demo_rows)
         (edge_names_of log) (vertex_names_of log) (rewrite row_no node_no log) = Ret cs
    /\ map (fun c => (first_label (g_cand c), second_label (g_cand c), port (g_cand c))) cs =
         [(row_no 0, 9, [(1, 2)]); (row_no 0, row_no 0, [(2, 2); (3, 1)]); (row_no 0, row_no 1, [(1, 1)]);
          (row_no 0, row_no 1, [(3, 1)]); (row_no 0, 9, [(3, 1)])]
    /\ merge false (g_first (nth 1 cs {| g_cand := {| first_label := 0; second_label := 0; port := [] |}; g_first := empty; g_second := empty; g_data := [] |}))
                   (g_second (nth 1 cs {| g_cand := {| first_label := 0; second_label := 0; port := [] |}; g_first := empty; g_second := empty; g_data := [] |}))
                   [(2, 2); (3, 1)] =
         Ok {| n_nodes := [(1, Some (Name 10)); (2, None); (3, Some (Name 10)); (4, None)];
               n_edges := [(1, 2, 7); (2, 3, 8); (3, 2, 7); (2, 4, 8)] |}.
Proof.
  split; [exact demo_admissible|]. split; [exact demo_readable|]. split.
  - split.
    + exact row_at_no.
    + intros r Hr. simpl in Hr. rows_tac Hr; apply Permutation_refl.
    + intros _. split; [nodup_tac|]. intros r Hr. simpl in Hr. rows_tac Hr; unfold simple; cbn; nodup_tac.
    + intros u v l n Hi Hl. cbn in Hi. unfold node_names, demo_graph in Hl. cbn [d_nodes dget] in Hl.
      repeat match type of Hl with In _ (match (if ?c then _ else _) with _ => _ end) => destruct c; cbn in Hl end;
        intuition congruence.
    + intros u v l i Hi. cbn in Hi. unfold row_no.
      intuition (try congruence); repeat match goal with H : (_, _) = (_, _) |- _ => injection H; clear H; intros; subst end; lia.
    + intros n l i Hl. assert (l < 100); [|unfold row_no; lia].
      refine (names_small (d_nodes demo_graph) _ n l Hl). repeat constructor.
  - do 3 eexists. split; [vm_compute; reflexivity|]. split; [vm_compute; reflexivity|]. split; reflexivity.
Qed.

(* An edge and a node with the same name: the pattern of the node's name is
   taken to be an edge, and the candidate stands for a pattern that does not
   occur in the data graph. *)
Theorem C77_shared_name_refuted :
  exists (g : data nat), admissible g [] /\ readable row_no node_no g /\
  exists m' log c p, cover' eqd (fun l => l) false g [] {| marker := 0; edge_mark := []; node_mark := [] |} = Ret (m', log)
    /\ generate_candidates Nat.ltb row_at (fun l => l) (fun l => l) false []
         (edge_names_of log) (vertex_names_of log) (rewrite row_no node_no log) = Ret [c]
    /\ merge false (g_first c) (g_second c) (port (g_cand c)) = Ok p
    /\ forall e, ~ occurs g p e.
Proof.
  exists {| d_nodes := [(1, Some (Name 5)); (2, None)]; d_edges := [(1, 2, 5)] |}. split; [|split].
  - split; [tidy_tac | intros u l; simpl; intuition congruence|]. exists [], []. split; [reflexivity | split; constructor].
  - apply readable_small.
    + intros u v l. simpl. intuition (try congruence). injection H0; intros; subst; lia.
    + apply names_small. repeat constructor.
  - do 4 eexists. split; [vm_compute; reflexivity|]. split; [vm_compute; reflexivity|]. split; [vm_compute; reflexivity|].
    intros e Ho.
    assert (exists u, In (u, 1) e) as [u Hu].
    { assert (In 1 (map snd e)) as Hi by (apply (os_total _ _ _ Ho); left; reflexivity).
      apply in_map_iff in Hi as ([u a] & E & Hi). cbn in E. subst a. eauto. }
    assert (exists v, In (v, 2) e) as [v Hv].
    { assert (In 2 (map snd e)) as Hi by (apply (os_total _ _ _ Ho); right; left; reflexivity).
      apply in_map_iff in Hi as ([v a] & E & Hi). cbn in E. subst a. eauto. }
    assert (exists w, In (w, 3) e) as [w Hw].
    { assert (In 3 (map snd e)) as Hi by (apply (os_total _ _ _ Ho); right; right; left; reflexivity).
      apply in_map_iff in Hi as ([w a] & E & Hi). cbn in E. subst a. eauto. }
    pose proof (os_edges _ _ _ Ho 1 2 5 u v (or_introl eq_refl) Hu Hv) as [E1|[]].
    pose proof (os_edges _ _ _ Ho 1 3 5 u w (or_intror (or_introl eq_refl)) Hu Hw) as [E2|[]].
    injection E1 as <- <-. injection E2 as <-.
    pose proof (same_snd _ _ _ _ (os_data _ _ _ Ho) Hv Hw). discriminate.
Qed.

(* A node whose name is that of a row, "P0": the pair of its name and an edge
   is taken for the pair of the row and the edge, and never proposed. *)
Theorem C77_row_name_refuted :
  exists (g : data nat) (rows : list (row nat)), admissible g rows /\ readable row_no node_no g /\
  exists m' log cs i j x y, cover' eqd (fun l => l) false g rows {| marker := 0; edge_mark := []; node_mark := [] |} = Ret (m', log)
    /\ generate_candidates Nat.ltb row_at (fun l => l) (fun l => l) false (map (fun w => net_of (r_pattern w)) rows)
         (edge_names_of log) (vertex_names_of log) (rewrite row_no node_no log) = Ret cs
    /\ nth_error log i = Some x /\ nth_error log j = Some y /\ i <> j /\ meet (e_use x) (e_use y) 1 1
    /\ forall c, In c cs -> ~ joins false c (e_use x) (e_use y) /\ ~ joins false c (e_use y) (e_use x).
Proof.
  exists {| d_nodes := [(1, None); (2, None); (3, None); (4, Some (Name (row_no 0))); (5, None)];
            d_edges := [(1, 2, 7); (1, 3, 131); (4, 5, 131)] |}.
  exists [{| r_pattern := {| p_nodes := [(1, None); (2, None)]; p_edges := [((1, 2), [7])] |}; r_embeddings := [[(1, 1); (2, 2)]] |}].
  split; [|split].
  - split; [tidy_tac | intros u l; simpl; intuition congruence|].
    eexists. exists []. rewrite app_nil_r. split; [reflexivity|]. split; [repeat constructor; discriminate | constructor].
  - split; unfold row_no, node_no; intros; try lia.
    + cbn in H. cases_tac; lia.
    + unfold node_names in H. cbn [d_nodes dget] in H.
      repeat match type of H with In _ (match (if ?c then _ else _) with _ => _ end) => destruct c; cbn in H end;
        cases_tac; lia.
  - do 3 eexists. exists 3, 2. do 2 eexists. split; [vm_compute; reflexivity|]. split; [vm_compute; reflexivity|].
    split; [vm_compute; reflexivity|]. split; [vm_compute; reflexivity|]. split; [discriminate|].
    split; [exists 4; cbn; auto|].
    intros c [<-|[]]. split; intros (J1 & J2 & _); discriminate.
Qed.
Print Assumptions C77_shared_name_refuted.
Print Assumptions C77_row_name_refuted.
