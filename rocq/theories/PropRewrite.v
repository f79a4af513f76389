(* C76: the rewritten graph loses nothing. *)
From Verif Require Import Prelude CheckModel LCMModel VerticalProofs GraphUtilModel PropGraphUtil
  GraphCoverModel PropGraphCover MergeModel PropMerge RewriteModel RewriteProofs.

(* ------------------------------------------------------- specification *)
Section Spec.
  Context {L : Type} `{EqDec L}.

  (* a code table whose embeddings are one-to-one occurrences, in a data graph *)
  Record tidy (g : data L) (rows : list (row L)) : Prop := {
    ad_nodes : NoDup (dkeys (d_nodes g));
    ad_rows : Forall (row_ok g) rows;
    ad_names : forall r, In r rows -> names_once (r_pattern r);
    ad_dict : forall r e, In r rows -> In e (r_embeddings r) -> NoDup (map fst e)
                /\ (forall n a, In (n, a) e -> In n (dkeys (d_nodes g)))
                /\ (forall a, In a (dkeys (p_nodes (r_pattern r))) -> In a (map snd e));
    ad_incident : forall r a, In r rows -> p_edges (r_pattern r) <> [] ->
                In a (dkeys (p_nodes (r_pattern r))) ->
                exists b ls, In ((a, b), ls) (p_edges (r_pattern r)) \/ In ((b, a), ls) (p_edges (r_pattern r))
  }.
  (* moreover the graph has no loops; rows without edges come last and have
     one node *)
  Record admissible (g : data L) (rows : list (row L)) : Prop := {
    ad_tidy :> tidy g rows;
    ad_loops : forall u l, ~ In (u, u, l) (d_edges g);
    ad_bare : bare_last rows
  }.

  (* the numbers of data nodes, the names P0, P1, ... and the names in the
     graph can be told apart where the code needs it *)
  Record readable (row_name node_name : nat -> L) (g : data L) : Prop := {
    rd_rows : forall i j, row_name i = row_name j -> i = j;
    rd_nodes : forall n m, node_name n = node_name m -> n = m;
    rd_row_node : forall i n, row_name i <> node_name n;
    rd_edge : forall u v l n, In (u, v, l) (d_edges g) -> l <> node_name n;
    rd_vertex : forall u l n, In l (node_names (d_nodes g) u) -> l <> node_name n
  }.

  (* a node of the data graph that carries information *)
  Definition visible (g : data L) (n : nat) : Prop :=
    (exists l, In l (node_names (d_nodes g) n)) \/ (exists m l, In (n, m, l) (d_edges g) \/ In (m, n, l) (d_edges g)).

  (* [f] renumbers the visible nodes of [g] as those of [g'] *)
  Record renumbering (g g' : data L) (f : nat -> nat -> Prop) : Prop := {
    rn_total : forall n, visible g n -> exists n', f n n';
    rn_onto : forall n', visible g' n' -> exists n, f n n';
    rn_fun : forall n a b, f n a -> f n b -> a = b;
    rn_inj : forall a b n', f a n' -> f b n' -> a = b;
    rn_edges : forall n n' m m' l, f n n' -> f m m' -> (In (n, m, l) (d_edges g) <-> In (n', m', l) (d_edges g'));
    rn_names : forall n n' l, f n n' -> (In l (node_names (d_nodes g) n) <-> In l (node_names (d_nodes g') n'))
  }.
End Spec.

(* --------------------------------------------------------------- proofs *)
Section Proofs.
  Context {L : Type} `{EqDec L}.
  Context (substr : L -> L -> bool) (set_order : list (nat * nat) -> list (nat * nat)) (multi : bool).
  Context (substr_refl : forall l, substr l l = true)
          (set_order_In : forall l x, In x (set_order l) <-> In x l).
  Context (row_name node_name : nat -> L).

  (* every use of a row carries the position of the row, the others none *)
  Definition tagged (rows : list (row L)) (x : entry L) : Prop :=
    match e_use x with
    | RowUse p e => exists i r, e_row x = Some i /\ nth_error rows i = Some r /\ p = r_pattern r
    | _ => e_row x = None
    end.
  Lemma cover_tagged g rows m s : cover' substr set_order multi g rows m = Ret s -> Forall (tagged rows) (snd s).
  Proof.
    intros E. unfold cover' in E. apply bind_Ret in E as (s1 & E1 & E).
    assert (Forall (tagged rows) (snd s1)) as H1.
    { refine (fold_out_reach _ (fun s => Forall (tagged rows) (snd s)) _ _ _ s1 _ E1); [|constructor].
      intros t [i r] t' Hi Ht Et.
      assert (nth_error rows i = Some r) as Hr.
      { apply In_nth_error in Hi as [k Hk]. clear -Hk.
        assert (forall (rr : list (row L)) k0 k, nth_error (combine (seq k0 (length rr)) rr) k = Some (i, r) ->
          i = k0 + k /\ nth_error rr k = Some r) as A.
        { induction rr as [|r0 rs IH]; intros k0 [|j] E; cbn [length seq combine nth_error] in E; try discriminate.
          - injection E as E1 E2. split; [lia | rewrite E2; reflexivity].
          - apply IH in E as [-> E]. split; [lia | exact E]. }
        destruct (A rows 0 k Hk) as [-> E]. exact E. }
      unfold row_cover' in Et. destruct (p_edges (r_pattern r)).
      - refine (fold_out_reach _ (fun s => Forall (tagged rows) (snd s)) _ _ t t' Ht Et).
        intros u e u' _ Hu Eu. unfold node_pattern_turn' in Eu.
        refine (fold_out_reach _ (fun s => Forall (tagged rows) (snd s)) _ _ u u' Hu Eu).
        intros v kv v' _ Hv Ev. destruct (dget _ _) as [[lab|]|]; try discriminate.
        apply bind_Ret in Ev as (b & _ & Ev). destruct b; [injection Ev as <-; exact Hv|].
        apply bind_Ret in Ev as (ports & _ & Ev). apply bind_Ret in Ev as (m1 & _ & Ev). injection Ev as <-.
        cbn [snd]. apply Forall_app. split; [exact Hv|]. constructor; [|constructor]. exists i, r. auto.
      - refine (fold_out_reach _ (fun s => Forall (tagged rows) (snd s)) _ _ t t' Ht Et).
        intros u e u' _ Hu Ev. unfold edge_pattern_turn' in Ev.
        apply bind_Ret in Ev as (b & _ & Ev). destruct b; [injection Ev as <-; exact Hu|].
        apply bind_Ret in Ev as (m1 & _ & Ev). apply bind_Ret in Ev as (ports & _ & Ev). injection Ev as <-.
        cbn [snd]. apply Forall_app. split; [exact Hu|]. constructor; [|constructor]. exists i, r. auto. }
    assert (forall n l t t', Forall (tagged rows) (snd t) -> vertex_singleton_turn' substr g n t l = Ret t' ->
              Forall (tagged rows) (snd t')) as Hv.
    { intros n l t t' Ht Et. unfold vertex_singleton_turn' in Et. apply bind_Ret in Et as (b & _ & Et).
      destruct b; [injection Et as <-; exact Ht|]. apply bind_Ret in Et as (m1 & _ & Et). injection Et as <-.
      cbn [snd]. apply Forall_app. split; [exact Ht|]. constructor; [reflexivity | constructor]. }
    unfold singleton_cover' in E. apply bind_Ret in E as (s2 & E2 & E).
    assert (Forall (tagged rows) (snd s2)) as H2.
    { refine (fold_out_reach _ (fun s => Forall (tagged rows) (snd s)) _ _ s1 s2 H1 E2).
      intros t [[u v] l] t' _ Ht Et. unfold edge_singleton_turn' in Et. apply bind_Ret in Et as (b & _ & Et).
      destruct b; [injection Et as <-; exact Ht|]. apply bind_Ret in Et as (m1 & _ & Et). injection Et as <-.
      cbn [snd]. apply Forall_app. split; [exact Ht|]. constructor; [reflexivity | constructor]. }
    refine (fold_out_reach _ (fun s => Forall (tagged rows) (snd s)) _ _ s2 s H2 E).
    intros t [n o] t' _ Ht Et. unfold node_singleton_turn' in Et. cbn [fst snd] in Et.
    destruct o as [[l|ls|ls]|].
    - exact (Hv n l t t' Ht Et).
    - refine (fold_out_reach _ (fun s => Forall (tagged rows) (snd s)) _ _ t t' Ht Et). intros; eapply Hv; eassumption.
    - refine (fold_out_reach _ (fun s => Forall (tagged rows) (snd s)) _ _ t t' Ht Et). intros; eapply Hv; eassumption.
    - injection Et as <-. exact Ht.
  Qed.

  (* what is known of a run *)
  Record run (g : data L) (rows : list (row L)) (log : list (entry L)) (ids : list nat) (r : rgraph L) : Prop := {
    ru_once : forall k, In k (d_edges g) -> length (filter (covers_edge k) (map e_use log)) = 1;
    ru_vertex : forall n l, In l (node_names (d_nodes g) n) ->
                  exists x, In x log /\ covers_vertex n l (e_use x) = true;
    ru_from : forall x, In x log ->
                match e_use x with
                | RowUse p e => exists i r, e_row x = Some i /\ nth_error rows i = Some r /\ p = r_pattern r
                                 /\ In r rows /\ occurrence g p e /\ NoDup (map fst e)
                                 /\ (forall a, In a (map snd e) <-> In a (dkeys (p_nodes p)))
                                 /\ names_once p
                                 /\ (p_edges p <> [] -> forall a, In a (map snd e) ->
                                      exists b ls, In ((a, b), ls) (p_edges p) \/ In ((b, a), ls) (p_edges p))
                | EdgeUse u v l => In (u, v, l) (d_edges g)
                | VertexUse n l => In l (node_names (d_nodes g) n)
                end;
    ru_repr : represents row_name node_name log ids r;
    ru_shared : forall i j x y n a b, nth_error log i = Some x -> nth_error log j = Some y -> i <> j ->
                  In (n, a) (use_nodes (e_use x)) -> In (n, b) (use_nodes (e_use y)) -> In (n, a) (e_ports x);
    ru_ports : forall x, In x log -> incl (e_ports x) (use_nodes (e_use x));
    ru_keys : forall x, In x log -> NoDup (map fst (use_nodes (e_use x))) /\ NoDup (map snd (use_nodes (e_use x)));
    ru_single : forall x, In x log -> ~ edged_row (e_use x) -> e_ports x = use_nodes (e_use x)
  }.

  Lemma run_exists g rows m : admissible g rows -> readable row_name node_name g -> marks_ok m ->
    exists m' log ids, cover' substr set_order multi g rows m = Ret (m', log)
      /\ cover substr set_order multi g rows m = Ret (m', map e_use log)
      /\ marks_ok m' /\ run g rows log ids (rewrite row_name node_name log).
  Proof.
    intros Ha Hr Hm.
    destruct (C53_cover_partial substr set_order multi substr_refl set_order_In g rows m (ad_nodes _ _ Ha) Hm (ad_rows _ _ Ha))
      as (m' & log0 & Ec & C1 & C2 & C3 & C4).
    assert (forall r e, In r rows -> In e (r_embeddings r) -> searchable substr g (r_pattern r) e) as Hs.
    { intros r e Hir Hie m0. apply search_port_total; [exact substr_refl|]. intros n a Hna.
      destruct (ad_dict _ _ Ha r e Hir Hie) as (_ & D & _). split; [exact (D n a Hna)|].
      pose proof (ad_rows _ _ Ha) as Hok. rewrite Forall_forall in Hok. destruct (Hok r Hir) as [_ Ho].
      rewrite Forall_forall in Ho. exact (oc_known _ _ _ (Ho e Hie) n a Hna). }
    pose proof (cover_proj substr set_order multi g rows m Hs) as Ep. rewrite Ec in Ep.
    destruct (cover' substr set_order multi g rows m) as [[m1 log]|x|] eqn:Ec'; try discriminate.
    cbn [omap proj fst snd] in Ep. injection Ep as -> El.
    pose proof (cover_inv substr set_order multi g rows m _ (ad_nodes _ _ Ha) (ad_rows _ _ Ha) (ad_bare _ _ Ha) Ec') as Hi.
    pose proof (cover_tagged g rows m _ Ec') as Ht. cbn [snd] in Ht. rewrite Forall_forall in Ht.
    subst log0.
    assert (forall x, In x log ->
                match e_use x with
                | RowUse p e => exists i r, e_row x = Some i /\ nth_error rows i = Some r /\ p = r_pattern r
                                 /\ In r rows /\ occurrence g p e /\ NoDup (map fst e)
                                 /\ (forall a, In a (map snd e) <-> In a (dkeys (p_nodes p)))
                                 /\ names_once p
                                 /\ (p_edges p <> [] -> forall a, In a (map snd e) ->
                                      exists b ls, In ((a, b), ls) (p_edges p) \/ In ((b, a), ls) (p_edges p))
                | EdgeUse u v l => In (u, v, l) (d_edges g)
                | VertexUse n l => In l (node_names (d_nodes g) n)
                end) as Hfrom.
    { intros x Hx. specialize (C3 _ (in_map e_use _ _ Hx)). specialize (Ht x Hx). unfold tagged in Ht.
      destruct (e_use x) as [p e|u v l|n l]; [|exact C3|exact C3].
      destruct Ht as (i & r & T1 & T2 & ->). destruct C3 as (r' & R1 & R2 & R3).
      pose proof (nth_error_In _ _ T2) as Hin.
      pose proof (ad_rows _ _ Ha) as Hok. rewrite Forall_forall in Hok. destruct (Hok r' R1) as [_ Ho].
      rewrite Forall_forall in Ho. specialize (Ho e R3). rewrite <- R2 in Ho.
      destruct (ad_dict _ _ Ha r' e R1 R3) as (D1 & _ & D3). rewrite <- R2 in D3.
      assert (forall a, In a (map snd e) <-> In a (dkeys (p_nodes (r_pattern r)))) as D.
      { intros a. split; [|apply D3]. intros Hia. apply in_map_iff in Hia as ([n a'] & <- & Hia).
        exact (oc_known _ _ _ Ho n a' Hia). }
      exists i, r. repeat (split; [solve [assumption | reflexivity | apply (ad_names _ _ Ha), Hin]|]).
      intros Hp a Hia. apply (ad_incident _ _ Ha r a Hin Hp), D, Hia. }
    assert (forall x, In x log -> NoDup (map fst (use_nodes (e_use x))) /\ NoDup (map snd (use_nodes (e_use x)))) as Hkeys.
    { intros x Hx. specialize (Hfrom x Hx). destruct (e_use x) as [p e|u v l|n l]; cbn [use_nodes].
      - destruct Hfrom as (i & r & _ & _ & _ & _ & Ho & Hd & _). split; [exact Hd | apply (oc_nodes _ _ _ Ho)].
      - split; [|repeat constructor; simpl; intuition congruence]. cbn [map fst]. constructor; [|repeat constructor; intros []].
        intros [->|[]]. exact (ad_loops _ _ Ha _ _ Hfrom).
      - split; repeat constructor; intros []. }
    destruct (rewrite_represents row_name node_name (rd_nodes _ _ _ Hr) log) as [ids R].
    { rewrite Forall_forall. intros x Hx n. specialize (Hfrom x Hx). unfold use_node.
      destruct (e_use x) as [p e|u v l|n' l]; cbn [r_label].
      - apply (rd_row_node _ _ _ Hr).
      - exact (rd_edge _ _ _ Hr u v l n Hfrom).
      - exact (rd_vertex _ _ _ Hr n' l n Hfrom). }
    { rewrite Forall_forall. intros x Hx. apply (pi_nodup _ _ Hi x Hx), (Hkeys x Hx). }
    exists m', log, ids. split; [reflexivity|]. split; [exact Ec|]. split; [exact C4|].
    split; [exact C1| | exact Hfrom | exact R | | exact (pi_incl _ _ Hi) | exact Hkeys | exact (pi_single _ _ Hi)].
    { intros n l Hl. destruct (C2 n l Hl) as (u & Hu & Hc). apply in_map_iff in Hu as (x & <- & Hx). eauto. }
    intros i j x y n a b Hx Hy Hij Hna Hnb.
    pose proof (nth_error_In _ _ Hx) as Ix. pose proof (nth_error_In _ _ Hy) as Iy.
    destruct (e_use x) as [p e|u v l|n0 l] eqn:Ex.
    2, 3: rewrite (pi_single _ _ Hi x Ix), Ex; [exact Hna | rewrite Ex; intros []].
    cbn [use_nodes] in Hna.
    destruct (p_edges p) as [|pe pes] eqn:Epe.
    { rewrite (pi_single _ _ Hi x Ix), Ex; [exact Hna | rewrite Ex; intros F; apply F, Epe]. }
    assert (p_edges p <> []) as Hpe by (rewrite Epe; discriminate).
    pose proof (Hfrom x Ix) as Fx. rewrite Ex in Fx.
    destruct Fx as (ix & rx & _ & _ & _ & _ & Ho & Hd & _ & Hno & _).
    (* an edge at n covered by y *)
    assert (forall k, In k (d_edges g) -> (fst (fst k) = n \/ snd (fst k) = n) -> covers_edge k (e_use y) = true ->
              In (n, a) (e_ports x)) as Key.
    { intros k Hk Hinc Hcov. destruct (pi_inner _ _ Hi x p e Ix Ex Hpe n a Hna) as [Hp|[Hdeg _]]; [exact Hp|].
      exfalso. enough (covers_edge k (RowUse p e) = false) as F.
      { pose proof (degree_extra g p e n a k Ho Hno Hd Hna Hk Hinc F). lia. }
      destruct (covers_edge k (RowUse p e)) eqn:F; [|reflexivity]. exfalso.
      assert (2 <= length (filter (covers_edge k) (map e_use log))) as G.
      { apply (two_hits _ _ i j (e_use x) (e_use y)); [apply map_nth_error, Hx | apply map_nth_error, Hy | exact Hij | | exact Hcov].
        rewrite Ex. exact F. }
      rewrite (C1 k Hk) in G. lia. }
    pose proof (Hfrom y Iy) as Fy. destruct (e_use y) as [q f|u v l|n0 l] eqn:Ey; cbn [use_nodes] in Hnb.
    - destruct (p_edges q) as [|qe qes] eqn:Eqe.
      + apply (pi_label _ _ Hi x p e y Ix Ex Hpe Iy) with (b := b); [rewrite Ey; exact Eqe | exact Hna | rewrite Ey; exact Hnb].
      + destruct Fy as (iy & ry & _ & _ & _ & _ & Ho' & _ & _ & _ & Hinc).
        destruct (Hinc ltac:(congruence) b (in_map snd _ _ Hnb)) as (c & ls & Hc). rewrite <- Eqe in Hc.
        destruct Hc as [Hc|Hc]; pose proof (oc_named _ _ _ Ho' _ _ _ Hc) as Hne; destruct ls as [|l ls]; try contradiction;
          destruct (oc_ends _ _ _ Ho' _ _ _ Hc) as [O1 O2].
        * apply in_map_iff in O2 as ([w c'] & <- & O2). cbn [snd] in Hc.
          apply (Key (n, w, l)); [|left; reflexivity|].
          -- exact (oc_edges _ _ _ Ho' _ _ _ _ _ l Hc Hnb O2 (or_introl eq_refl)).
          -- cbn [covers_edge]. apply existsb_exists. eexists. split; [exact Hc|]. cbn [fst snd].
             rewrite !andb_true_iff, !mem_In. split; [auto | left; reflexivity].
        * apply in_map_iff in O1 as ([w c'] & <- & O1). cbn [snd] in Hc.
          apply (Key (w, n, l)); [|right; reflexivity|].
          -- exact (oc_edges _ _ _ Ho' _ _ _ _ _ l Hc O1 Hnb (or_introl eq_refl)).
          -- cbn [covers_edge]. apply existsb_exists. eexists. split; [exact Hc|]. cbn [fst snd].
             rewrite !andb_true_iff, !mem_In. split; [auto | left; reflexivity].
    - apply (Key (u, v, l) Fy); [|cbn [covers_edge]; apply eqd_refl].
      cbn [fst snd]. destruct Hnb as [F|[F|[]]]; injection F as <- _; auto.
    - apply (pi_label _ _ Hi x p e y Ix Ex Hpe Iy) with (b := b); [rewrite Ey; exact I | exact Hna | rewrite Ey; exact Hnb].
  Qed.

  (* two pattern nodes of two uses are the same data node iff they point to
     the same port *)
  Lemma run_same g rows log ids r : (forall n m, node_name n = node_name m -> n = m) -> run g rows log ids r ->
    forall i j x y p q n m a b,
    nth_error log i = Some x -> nth_error log j = Some y -> nth_error ids i = Some p -> nth_error ids j = Some q ->
    In (n, a) (use_nodes (e_use x)) -> In (m, b) (use_nodes (e_use y)) ->
    (n = m <-> (i = j /\ a = b) \/ exists t, In ((p, t), a) (r_edges r) /\ In ((q, t), b) (r_edges r)).
  Proof.
    intros Hinj R i j x y p q n m a b Hx Hy Hp Hq Hna Hmb.
    pose proof (ru_repr _ _ _ _ _ R) as Rr. pose proof (nth_error_In _ _ Hx) as Ix. pose proof (nth_error_In _ _ Hy) as Iy.
    split.
    - intros <-. destruct (Nat.eq_dec i j) as [->|Hij].
      + left. split; [reflexivity|]. rewrite Hx in Hy. injection Hy as <-.
        exact (same_snd _ _ _ _ (proj1 (ru_keys _ _ _ _ _ R x Ix)) Hna Hmb).
      + right. pose proof (ru_shared _ _ _ _ _ R i j x y n a b Hx Hy Hij Hna Hmb) as P1.
        pose proof (ru_shared _ _ _ _ _ R j i y x n b a Hy Hx (not_eq_sym Hij) Hmb Hna) as P2.
        destruct (re_port _ _ _ _ _ Rr x n Ix (in_map fst _ _ P1)) as [t Ht].
        exists t. split; apply (re_edge _ _ _ _ _ Rr); [exists i, x, n | exists j, y, n]; auto.
    - assert (forall i x p n a, nth_error log i = Some x -> nth_error ids i = Some p -> In (n, a) (use_nodes (e_use x)) ->
        forall t, In ((p, t), a) (r_edges r) -> node_at r t = Some (port_node node_name n)) as A.
      { clear -R Rr. intros i x p n a Hx Hp Hna t Ht. apply (re_edge _ _ _ _ _ Rr) in Ht as (i' & x' & n' & Hx' & Hp' & Hv & Ht).
        assert (i' = i) as -> by exact (sorted_nth _ _ _ _ (re_sorted _ _ _ _ _ Rr) Hp' Hp).
        rewrite Hx in Hx'. injection Hx' as <-. pose proof (nth_error_In _ _ Hx) as Ix.
        apply (ru_ports _ _ _ _ _ R x Ix) in Hv.
        rewrite (same_fst _ _ _ _ (proj2 (ru_keys _ _ _ _ _ R x Ix)) Hna Hv). exact Ht. }
      intros [[-> <-]|(t & T1 & T2)].
      + rewrite Hx in Hy. injection Hy as <-. exact (same_fst _ _ _ _ (proj2 (ru_keys _ _ _ _ _ R x Ix)) Hna Hmb).
      + pose proof (A i x p n a Hx Hp Hna t T1) as A1. pose proof (A j y q m b Hy Hq Hmb t T2) as A2.
        rewrite A1 in A2. injection A2 as F. apply Hinj, F.
  Qed.

  Lemma sorted_ext (l : list nat) : forall l', StronglySorted lt l -> StronglySorted lt l' ->
    (forall x, In x l <-> In x l') -> l = l'.
  Proof.
    induction l as [|a l IH]; intros [|b l'] S S' E.
    - reflexivity.
    - destruct (proj2 (E b) (or_introl eq_refl)).
    - destruct (proj1 (E a) (or_introl eq_refl)).
    - inversion S as [|? ? S1 F1]; inversion S' as [|? ? S2 F2]; subst. rewrite Forall_forall in F1, F2.
      assert (a = b) as ->.
      { destruct (proj1 (E a) (or_introl eq_refl)) as [|Ha]; [congruence|].
        destruct (proj2 (E b) (or_introl eq_refl)) as [|Hb]; [congruence|].
        specialize (F1 b Hb). specialize (F2 a Ha). lia. }
      f_equal. apply IH; [exact S1 | exact S2|]. intros x. split; intros Hx.
      + destruct (proj1 (E x) (or_intror Hx)) as [<-|]; [specialize (F1 b Hx); lia | assumption].
      + destruct (proj2 (E x) (or_intror Hx)) as [<-|]; [specialize (F2 b Hx); lia | assumption].
  Qed.
  Lemma ids_patterns log ids r : represents row_name node_name log ids r ->
    forall q, In q ids <-> exists z, node_at r q = Some z /\ is_pattern z = true.
  Proof.
    intros R q. split.
    - intros Hq. destruct (represents_ids _ _ _ _ _ q R Hq) as (x & _ & Hx). exists (use_node row_name x).
      split; [exact Hx | apply use_node_pattern].
    - intros (z & Hz & Hp). destruct (re_node _ _ _ _ _ R q z Hz) as [Hi|(n & x & -> & _)]; [exact Hi | discriminate].
  Qed.
  Lemma nth_both {A B} (l : list A) (l' : list B) i x : length l = length l' -> nth_error l i = Some x ->
    exists y, nth_error l' i = Some y.
  Proof.
    intros El E. destruct (nth_error l' i) as [y|] eqn:F; [eauto|]. apply nth_error_None in F.
    assert (i < length l) by (apply nth_error_Some; congruence). lia.
  Qed.

  (* the uses at the same place of two runs with the same rewritten graph *)
  Definition alike (x x' : use L) : Prop :=
    match x, x' with
    | RowUse p _, RowUse p' _ => p = p'
    | EdgeUse _ _ l, EdgeUse _ _ l' => l = l'
    | VertexUse _ l, VertexUse _ l' => l = l'
    | _, _ => False
    end.
  Lemma runs_alike g rows log g' rows' log' ids r :
    (forall i j, row_name i = row_name j -> i = j) ->
    map r_pattern rows = map r_pattern rows' ->
    run g rows log ids r -> run g' rows' log' ids r ->
    forall i x x', nth_error log i = Some x -> nth_error log' i = Some x' -> alike (e_use x) (e_use x').
  Proof.
    intros Hrow Erows R R' i x x' Hx Hx'.
    pose proof (ru_repr _ _ _ _ _ R) as Rr. pose proof (ru_repr _ _ _ _ _ R') as Rr'.
    destruct (nth_both log ids i x (eq_sym (re_length _ _ _ _ _ Rr)) Hx) as [q Hq].
    pose proof (re_use _ _ _ _ _ Rr i x q Hx Hq) as E. rewrite (re_use _ _ _ _ _ Rr' i x' q Hx' Hq) in E.
    injection E as E. pose proof (nth_error_In _ _ Hx) as Ix. pose proof (nth_error_In _ _ Hx') as Ix'.
    pose proof (ru_from _ _ _ _ _ R x Ix) as F. pose proof (ru_from _ _ _ _ _ R' x' Ix') as F'.
    (* the number 2 is a port of the edge singletons only *)
    assert (forall g rows log x, run g rows log ids r -> nth_error log i = Some x -> ~ edged_row (e_use x) ->
              forall v, In v (map snd (use_nodes (e_use x))) <-> exists t, In ((q, t), v) (r_edges r)) as Two.
    { clear -Hq. intros g rows log x R Hx He v. pose proof (ru_repr _ _ _ _ _ R) as Rr.
      pose proof (nth_error_In _ _ Hx) as Ix. rewrite <- (ru_single _ _ _ _ _ R x Ix He). split.
      - intros Hv. apply in_map_iff in Hv as ([n v'] & <- & Hv). cbn [snd].
        destruct (re_port _ _ _ _ _ Rr x n Ix (in_map fst _ _ Hv)) as [t Ht]. exists t.
        apply (re_edge _ _ _ _ _ Rr). exists i, x, n. auto.
      - intros [t Ht]. apply (re_edge _ _ _ _ _ Rr) in Ht as (i' & x' & n & Hx' & Hq' & Hv & _).
        assert (i' = i) as -> by exact (sorted_nth _ _ _ _ (re_sorted _ _ _ _ _ Rr) Hq' Hq).
        rewrite Hx in Hx'. injection Hx' as <-. exact (in_map snd _ _ Hv). }
    pose proof (Two _ _ _ _ R Hx) as T. pose proof (Two _ _ _ _ R' Hx') as T'. clear Two.
    unfold use_node in E. destruct (e_use x) as [p e|u v l|n l], (e_use x') as [p' e'|u' v' l'|n' l'];
      cbn [alike]; try discriminate E.
    - destruct F as (k & rk & K1 & K2 & -> & _). destruct F' as (k' & rk' & K1' & K2' & -> & _).
      rewrite K1, K1' in E. injection E as E. apply Hrow in E as ->.
      apply (map_nth_error r_pattern) in K2, K2'. rewrite Erows, K2' in K2. congruence.
    - injection E as ->. reflexivity.
    - exfalso. specialize (T (fun f => f) 2). specialize (T' (fun f => f) 2). cbn in T, T'.
      assert (1 = 2 \/ False) as [|[]]; [|discriminate]. apply T', T. auto.
    - exfalso. specialize (T (fun f => f) 2). specialize (T' (fun f => f) 2). cbn in T, T'.
      assert (1 = 2 \/ False) as [|[]]; [|discriminate]. apply T, T'. auto.
    - injection E as ->. reflexivity.
  Qed.

  Lemma runs_renumbering g rows log ids g' rows' log' ids' r :
    (forall i j, row_name i = row_name j -> i = j) ->
    (forall n m, node_name n = node_name m -> n = m) ->
    map r_pattern rows = map r_pattern rows' ->
    run g rows log ids r -> run g' rows' log' ids' r ->
    exists f, renumbering g g' f.
  Proof.
    intros Hrow Hnode Erows R R0.
    assert (ids' = ids) as ->.
    { apply sorted_ext; [apply (re_sorted _ _ _ _ _ (ru_repr _ _ _ _ _ R0)) | apply (re_sorted _ _ _ _ _ (ru_repr _ _ _ _ _ R))|].
      intros q. rewrite (ids_patterns _ _ _ (ru_repr _ _ _ _ _ R)), (ids_patterns _ _ _ (ru_repr _ _ _ _ _ R0)). reflexivity. }
    (* everything below is symmetric in the two runs *)
    set (corr := fun (log log' : list (entry L)) n n' => exists i x x' a, nth_error log i = Some x /\ nth_error log' i = Some x'
      /\ In (n, a) (use_nodes (e_use x)) /\ In (n', a) (use_nodes (e_use x'))).
    assert (forall log log' n n', corr log log' n n' -> corr log' log n' n) as Sym.
    { intros l1 l2 n n' (i & x & x' & a & A1 & A2 & A3 & A4). exists i, x', x, a. auto. }
    assert (Both : forall g rows log g' rows' log', map r_pattern rows = map r_pattern rows' ->
      run g rows log ids r -> run g' rows' log' ids r ->
      (forall n i x a, nth_error log i = Some x -> In (n, a) (use_nodes (e_use x)) ->
         exists n' x', nth_error log' i = Some x' /\ In (n', a) (use_nodes (e_use x')) /\ corr log log' n n')
      /\ (forall n a b, corr log log' n a -> corr log log' n b -> a = b)).
    { clear -Hrow Hnode. intros g rows log g' rows' log' Erows R R'.
      pose proof (ru_repr _ _ _ _ _ R) as Rr. pose proof (ru_repr _ _ _ _ _ R') as Rr'.
      assert (length log = length log') as Elen by (rewrite <- (re_length _ _ _ _ _ Rr); exact (re_length _ _ _ _ _ Rr')).
      split.
      - intros n i x a Hx Hna. destruct (nth_both log log' i x Elen Hx) as [x' Hx'].
        pose proof (runs_alike g rows log g' rows' log' ids r Hrow Erows R R' i x x' Hx Hx') as Al.
        assert (exists n', In (n', a) (use_nodes (e_use x'))) as [n' Hn'].
        { pose proof (ru_from _ _ _ _ _ R x (nth_error_In _ _ Hx)) as F.
          pose proof (ru_from _ _ _ _ _ R' x' (nth_error_In _ _ Hx')) as F'.
          destruct (e_use x) as [p e|u v l|m l], (e_use x') as [p' e'|u' v' l'|m' l'];
            cbn [alike] in Al; try contradiction; cbn [use_nodes] in *.
          - subst p'. destruct F as (_ & _ & _ & _ & _ & _ & _ & _ & D & _). destruct F' as (_ & _ & _ & _ & _ & _ & _ & _ & D' & _).
            assert (In a (map snd e')) as Hi by (apply D', D; exact (in_map snd _ _ Hna)).
            apply in_map_iff in Hi as ([n' a'] & <- & Hi). eauto.
          - destruct Hna as [F1|[F1|[]]]; injection F1 as _ <-; eexists; simpl; eauto.
          - destruct Hna as [F1|[]]; injection F1 as _ <-; eexists; simpl; eauto. }
        exists n', x'. split; [exact Hx'|]. split; [exact Hn'|]. exists i, x, x', a. auto.
      - intros n a b (i & x & x' & v & A1 & A2 & A3 & A4) (j & y & y' & w & B1 & B2 & B3 & B4).
        destruct (nth_both log ids i x (eq_sym (re_length _ _ _ _ _ Rr)) A1) as [p Hp].
        destruct (nth_both log ids j y (eq_sym (re_length _ _ _ _ _ Rr)) B1) as [q Hq].
        apply (run_same g' rows' log' ids r Hnode R' i j x' y' p q a b v w A2 B2 Hp Hq A4 B4).
        apply (run_same g rows log ids r Hnode R i j x y p q n n v w A1 B1 Hp Hq A3 B3). reflexivity. }
    assert (Edge : forall g rows log g' rows' log', map r_pattern rows = map r_pattern rows' ->
      run g rows log ids r -> run g' rows' log' ids r -> forall n m l n' m', In (n, m, l) (d_edges g) ->
      corr log log' n n' -> corr log log' m m' -> In (n', m', l) (d_edges g')).
    { clear -Both Hrow Hnode. intros g rows log g' rows' log' Erows R R' n m l n' m' Hk Cn Cm.
      destruct (Both g rows log g' rows' log' Erows R R') as [Tot Fun].
      assert (exists x, In x log /\ covers_edge (n, m, l) (e_use x) = true) as (x & Ix & Hc).
      { pose proof (ru_once _ _ _ _ _ R _ Hk) as O. destruct (filter _ (map e_use log)) as [|u us] eqn:E; [discriminate|].
        assert (In u (filter (covers_edge (n, m, l)) (map e_use log))) as Hu by (rewrite E; left; reflexivity).
        apply filter_In in Hu as [Hu Hc]. apply in_map_iff in Hu as (x & <- & Hx). eauto. }
      apply In_nth_error in Ix as [i Hx].
      assert (forall n n' a, In (n, a) (use_nodes (e_use x)) -> corr log log' n n' ->
        exists x', nth_error log' i = Some x' /\ In (n', a) (use_nodes (e_use x'))) as Img.
      { intros k k' a Hka Ck. destruct (Tot k i x a Hx Hka) as (k1 & x1 & E1 & I1 & C1).
        rewrite (Fun k k' k1 Ck C1). eauto. }
      destruct (nth_both log log' i x) as [x' Hx'].
      { rewrite <- (re_length _ _ _ _ _ (ru_repr _ _ _ _ _ R)). exact (re_length _ _ _ _ _ (ru_repr _ _ _ _ _ R')). }
      { exact Hx. }
      pose proof (runs_alike g rows log g' rows' log' ids r Hrow Erows R R' i x x' Hx Hx') as Al.
      pose proof (ru_from _ _ _ _ _ R' x' (nth_error_In _ _ Hx')) as F'.
      assert (forall n n' a, In (n, a) (use_nodes (e_use x)) -> corr log log' n n' -> In (n', a) (use_nodes (e_use x'))) as Im.
      { intros k k' a Hka Ck. destruct (Img k k' a Hka Ck) as (x1 & E1 & I1). rewrite Hx' in E1. injection E1 as <-. exact I1. }
      destruct (e_use x) as [p e|u v l0|k l0], (e_use x') as [p' e'|u' v' l'|k' l'];
            cbn [alike] in Al; try contradiction; cbn [use_nodes] in *; try discriminate Hc.
      - subst p'. cbn [covers_edge] in Hc. apply existsb_exists in Hc as ([[a b] ls] & Hpe & Hc). cbn [fst snd] in Hc.
        rewrite !andb_true_iff, !mem_In in Hc. destruct Hc as [[M1 M2] M3].
        destruct F' as (_ & _ & _ & _ & _ & _ & Ho & _).
        exact (oc_edges _ _ _ Ho a b ls n' m' l Hpe (Im n n' a M1 Cn) (Im m m' b M2 Cm) M3).
      - subst l'. cbn [covers_edge] in Hc. apply (proj1 (eqd_true _ _)) in Hc. injection Hc as -> -> ->.
        destruct (Im n n' 1 (or_introl eq_refl) Cn) as [F|[F|[]]]; [|discriminate F].
        destruct (Im m m' 2 (or_intror (or_introl eq_refl)) Cm) as [G|[G|[]]]; [discriminate G|].
        injection F as <-. injection G as <-. exact F'. }
    assert (Names : forall g rows log g' rows' log', map r_pattern rows = map r_pattern rows' ->
      run g rows log ids r -> run g' rows' log' ids r -> forall n l n', In l (node_names (d_nodes g) n) ->
      corr log log' n n' -> In l (node_names (d_nodes g') n')).
    { clear -Both Hrow Hnode. intros g rows log g' rows' log' Erows R R' n l n' Hl Cn.
      destruct (Both g rows log g' rows' log' Erows R R') as [Tot Fun].
      destruct (ru_vertex _ _ _ _ _ R n l Hl) as (x & Ix & Hc).
      apply In_nth_error in Ix as [i Hx].
      destruct (nth_both log log' i x) as [x' Hx'].
      { rewrite <- (re_length _ _ _ _ _ (ru_repr _ _ _ _ _ R)). exact (re_length _ _ _ _ _ (ru_repr _ _ _ _ _ R')). }
      { exact Hx. }
      pose proof (runs_alike g rows log g' rows' log' ids r Hrow Erows R R' i x x' Hx Hx') as Al.
      pose proof (ru_from _ _ _ _ _ R' x' (nth_error_In _ _ Hx')) as F'.
      assert (forall n n' a, In (n, a) (use_nodes (e_use x)) -> corr log log' n n' -> In (n', a) (use_nodes (e_use x'))) as Im.
      { intros k k' a Hka Ck. destruct (Tot k i x a Hx Hka) as (k1 & x1 & E1 & I1 & C1).
        rewrite Hx' in E1. injection E1 as <-. rewrite (Fun k k' k1 Ck C1). exact I1. }
      destruct (e_use x) as [p e|u v l0|k l0], (e_use x') as [p' e'|u' v' l'|k' l'];
            cbn [alike] in Al; try contradiction; cbn [use_nodes] in *; try discriminate Hc.
      - subst p'. cbn [covers_vertex] in Hc. apply existsb_exists in Hc as ([k a] & Hka & Hc). cbn [fst snd] in Hc.
        apply andb_true_iff in Hc as [Hk Hm]. apply Nat.eqb_eq in Hk. subst k. apply mem_In in Hm.
        destruct F' as (_ & _ & _ & _ & _ & _ & Ho & _). pose proof (Im n n' a Hka Cn) as Hn'.
        unfold node_names in Hm. destruct (dget (p_nodes p) a) as [[lab|]|] eqn:Ea; [|destruct Hm|destruct Hm].
        destruct (oc_labels _ _ _ Ho n' a lab Hn' Ea) as (_ & dl & Hdl & Hin). unfold node_names. rewrite Hdl. apply Hin, Hm.
      - subst l'. cbn [covers_vertex] in Hc. apply (proj1 (eqd_true _ _)) in Hc. injection Hc as -> ->.
        destruct (Im n n' 1 (or_introl eq_refl) Cn) as [F|[]]. injection F as <-. exact F'. }
    assert (Vis : forall g rows log, run g rows log ids r -> forall n, visible g n ->
      exists i x a, nth_error log i = Some x /\ In (n, a) (use_nodes (e_use x))).
    { clear. intros g rows log R n [(l & Hl)|(m & l & Hk)].
      - destruct (ru_vertex _ _ _ _ _ R n l Hl) as (x & Ix & Hc). apply In_nth_error in Ix as [i Hx].
        destruct (e_use x) as [p e|u v l0|k l0] eqn:Ex; cbn [covers_vertex] in Hc; [|discriminate|].
        + apply existsb_exists in Hc as ([k a] & Hka & Hc). cbn [fst snd] in Hc. apply andb_true_iff in Hc as [Hk _].
          apply Nat.eqb_eq in Hk. subst k. exists i, x, a. rewrite Ex. auto.
        + apply (proj1 (eqd_true _ _)) in Hc. injection Hc as -> ->. exists i, x, 1. rewrite Ex. split; [exact Hx | left; reflexivity].
      - assert (forall k, In k (d_edges g) -> exists i x, nth_error log i = Some x /\
          (exists a, In (fst (fst k), a) (use_nodes (e_use x))) /\ exists b, In (snd (fst k), b) (use_nodes (e_use x))) as A.
        { clear -R. intros [[n m] l] Hk. pose proof (ru_once _ _ _ _ _ R _ Hk) as O.
          destruct (filter _ (map e_use log)) as [|u us] eqn:E; [discriminate|].
          assert (In u (filter (covers_edge (n, m, l)) (map e_use log))) as Hu by (rewrite E; left; reflexivity).
          apply filter_In in Hu as [Hu Hc]. apply in_map_iff in Hu as (x & <- & Ix). apply In_nth_error in Ix as [i Hx].
          exists i, x. split; [exact Hx|]. cbn [fst snd].
          destruct (e_use x) as [p e|u v l0|k l0] eqn:Ex; cbn [covers_edge use_nodes] in *; [| |discriminate].
          - apply existsb_exists in Hc as ([[a b] ls] & Hpe & Hc). cbn [fst snd] in Hc.
            rewrite !andb_true_iff, !mem_In in Hc. destruct Hc as [[M1 M2] M3]. eauto.
          - apply (proj1 (eqd_true _ _)) in Hc. injection Hc as -> -> ->. split; eexists; simpl; eauto. }
        destruct Hk as [Hk|Hk]; destruct (A _ Hk) as (i & x & Hx & (a & Ha) & (b & Hb)); cbn [fst snd] in *; eauto. }
    destruct (Both _ _ _ _ _ _ Erows R R0) as [Tot Fun].
    destruct (Both _ _ _ _ _ _ (eq_sym Erows) R0 R) as [Tot' Fun'].
    exists (corr log log'). split.
    - intros n Hn. destruct (Vis _ _ _ R n Hn) as (i & x & a & Hx & Hna).
      destruct (Tot n i x a Hx Hna) as (n' & _ & _ & _ & C). eauto.
    - intros n Hn. destruct (Vis _ _ _ R0 n Hn) as (i & x & a & Hx & Hna).
      destruct (Tot' n i x a Hx Hna) as (n' & _ & _ & _ & C). eauto.
    - exact Fun.
    - intros a b n' Ca Cb. exact (Fun' n' a b (Sym _ _ _ _ Ca) (Sym _ _ _ _ Cb)).
    - intros n n' m m' l Cn Cm. split; intros Hk.
      + exact (Edge _ _ _ _ _ _ Erows R R0 n m l n' m' Hk Cn Cm).
      + exact (Edge _ _ _ _ _ _ (eq_sym Erows) R0 R n' m' l n m Hk (Sym _ _ _ _ Cn) (Sym _ _ _ _ Cm)).
    - intros n n' l Cn. split; intros Hl.
      + exact (Names _ _ _ _ _ _ Erows R R0 n l n' Hl Cn).
      + exact (Names _ _ _ _ _ _ (eq_sym Erows) R0 R n' l n Hl (Sym _ _ _ _ Cn)).
  Qed.
End Proofs.

(* ------------------------------------------------------------- theorems *)
(* Covering and rewriting succeed, with the same uses as in C53.  The
   rewritten graph has one pattern node per use, in order, one other node per
   data node that is a port, and two pattern nodes of two uses are the same
   data node iff they point to a common node. *)
Theorem C76_rewritten_partial {L} `{EqDec L} (substr : L -> L -> bool) (set_order : list (nat * nat) -> list (nat * nat))
    (multi : bool) (row_name node_name : nat -> L) (g : data L) (rows : list (row L)) (m : marks L) :
  (forall l, substr l l = true) -> (forall l x, In x (set_order l) <-> In x l) ->
  admissible g rows -> readable row_name node_name g -> marks_ok m ->
  exists m' log ids, cover' substr set_order multi g rows m = Ret (m', log)
    /\ cover substr set_order multi g rows m = Ret (m', map e_use log)
    /\ (let r := rewrite row_name node_name log in
        StronglySorted lt ids /\ length ids = length log
        /\ (forall q, In q ids <-> exists z, node_at r q = Some z /\ is_pattern z = true)
        /\ (forall i x q, nth_error log i = Some x -> nth_error ids i = Some q ->
              node_at r q = Some (use_node row_name x))
        /\ (forall q z, node_at r q = Some z -> is_pattern z = false ->
              exists n, r_label z = node_name n /\ forall q' z', node_at r q' = Some z' -> r_label z' = node_name n -> q' = q)
        /\ (forall i j x y p q n n' a b, nth_error log i = Some x -> nth_error log j = Some y ->
              nth_error ids i = Some p -> nth_error ids j = Some q ->
              In (n, a) (use_nodes (e_use x)) -> In (n', b) (use_nodes (e_use y)) ->
              (n = n' <-> (i = j /\ a = b) \/ exists t, In ((p, t), a) (r_edges r) /\ In ((q, t), b) (r_edges r)))).
Proof.
  intros Hs Ho Ha Hr Hm.
  destruct (run_exists substr set_order multi Hs Ho row_name node_name g rows m Ha Hr Hm) as (m' & log & ids & E & Ec & _ & R).
  pose proof (ru_repr _ _ _ _ _ _ _ R) as Rr.
  exists m', log, ids. split; [exact E|]. split; [exact Ec|]. cbv zeta.
  split; [apply (re_sorted _ _ _ _ _ Rr)|]. split; [apply (re_length _ _ _ _ _ Rr)|].
  split; [exact (ids_patterns row_name node_name _ _ _ Rr)|]. split; [exact (re_use _ _ _ _ _ Rr)|]. split.
  - intros q z Hq Hz. destruct (re_node _ _ _ _ _ Rr q z Hq) as [Hi|(n & x & -> & _)].
    + apply (ids_patterns row_name node_name _ _ _ Rr) in Hi as (z' & Hz' & Hp). congruence.
    + exists n. split; [reflexivity|]. intros q' z' Hq' Hl.
      destruct (re_node _ _ _ _ _ Rr q' z' Hq') as [Hi|(n' & x' & -> & _)].
      * exfalso. destruct (represents_ids _ _ _ _ _ q' Rr Hi) as (y & Iy & Hy). rewrite Hq' in Hy. injection Hy as ->.
        pose proof (ru_from _ _ _ _ _ _ _ R y Iy) as F. unfold use_node in Hl.
        destruct (e_use y) as [p e|u v l|k l]; cbn [r_label] in Hl.
        -- exact (rd_row_node _ _ _ Hr _ _ Hl).
        -- exact (rd_edge _ _ _ Hr u v l n F Hl).
        -- exact (rd_vertex _ _ _ Hr k l n F Hl).
      * cbn [port_node r_label] in Hl. apply (rd_nodes _ _ _ Hr) in Hl as ->. exact (re_once _ _ _ _ _ Rr q' q n Hq' Hq).
  - exact (run_same row_name node_name g rows log ids _ (rd_nodes _ _ _ Hr) R).
Qed.

(* Two data graphs covered with tables of the same patterns: when the
   rewritten graphs are equal, the data graphs are the same up to the numbers
   of their nodes (and isolated nodes without name). *)
Theorem C76_lossless_partial {L} `{EqDec L} (substr : L -> L -> bool) (set_order : list (nat * nat) -> list (nat * nat))
    (multi : bool) (row_name node_name : nat -> L) (g g' : data L) (rows rows' : list (row L)) (m m' : marks L) :
  (forall l, substr l l = true) -> (forall l x, In x (set_order l) <-> In x l) ->
  admissible g rows -> admissible g' rows' -> map r_pattern rows = map r_pattern rows' ->
  readable row_name node_name g -> readable row_name node_name g' -> marks_ok m -> marks_ok m' ->
  forall s s', cover' substr set_order multi g rows m = Ret s -> cover' substr set_order multi g' rows' m' = Ret s' ->
  rewrite row_name node_name (snd s) = rewrite row_name node_name (snd s') ->
  exists f, renumbering g g' f.
Proof.
  intros Hs Ho Ha Ha' Er Hr Hr' Hm Hm' s s' E E' Erw.
  destruct (run_exists substr set_order multi Hs Ho row_name node_name g rows m Ha Hr Hm) as (m1 & log & ids & E1 & _ & _ & R).
  destruct (run_exists substr set_order multi Hs Ho row_name node_name g' rows' m' Ha' Hr' Hm') as (m1' & log' & ids' & E1' & _ & _ & R').
  rewrite E1 in E. injection E as <-. rewrite E1' in E'. injection E' as <-. cbn [snd] in Erw.
  rewrite <- Erw in R'.
  exact (runs_renumbering row_name node_name g rows log ids g' rows' log' ids' _ (rd_rows _ _ _ Hr) (rd_nodes _ _ _ Hr) Er R R').
Qed.

(* ---- non-trivial cases *)
Ltac cases_tac :=
  repeat match goal with
  | H : _ \/ _ |- _ => destruct H
  | H : False |- _ => destruct H
  | H : (_, _) = (_, _) |- _ => injection H; clear H; intros; subst
  | H : Some _ = Some _ |- _ => injection H; clear H; intros; subst
  | H : {| r_pattern := _; r_embeddings := _ |} = _ |- _ => subst
  end.
Ltac nodup_tac := repeat constructor; simpl; intuition congruence.
Ltac fin_tac := intros; simpl in *; cases_tac; subst; simpl in *; cases_tac; subst; try discriminate; try tauto; intuition congruence.
Ltac occurrence_tac :=
  split; cbn [map snd fst p_nodes p_edges r_pattern r_embeddings];
  [ nodup_tac | fin_tac | fin_tac | fin_tac | fin_tac
  | intros; simpl in *; cases_tac; subst; try discriminate; simpl in *; cases_tac; try discriminate;
    (split; [exact I|]; eexists; split; [reflexivity|]; intros ? ?; simpl in *; tauto)
  | intros; simpl in *; try discriminate; cases_tac; eexists; reflexivity ].
Ltac rows_tac H := repeat (destruct H as [H|H]; [subst|]); try contradiction.
Ltac tidy_tac :=
  split;
  [ nodup_tac
  | repeat (apply Forall_cons; [split; [nodup_tac | repeat (apply Forall_cons; [occurrence_tac|]); apply Forall_nil]|]);
    apply Forall_nil
  | intros r Hr; simpl in Hr; rows_tac Hr; (split; [nodup_tac | intros; simpl in *; cases_tac; nodup_tac])
  | intros r e Hr He; simpl in Hr; rows_tac Hr; simpl in He; cases_tac; subst;
    (split; [nodup_tac | split; fin_tac])
  | intros r a Hr Hp Ha; simpl in Hr; rows_tac Hr; simpl in Hp, Ha; try congruence; cases_tac; subst;
    do 2 eexists; simpl; eauto 10 ].
Definition demo_rows : list (row nat) :=
  [demo_row; {| r_pattern := {| p_nodes := [(1, Some (Name 11))]; p_edges := [] |}; r_embeddings := [[(3, 1)]] |}].
Definition row_no (i : nat) : nat := 2 * i + 101.
Definition node_no (n : nat) : nat := 2 * n + 100.

Lemma readable_small g : (forall u v l, In (u, v, l) (d_edges g) -> l < 100) ->
  (forall u l, In l (node_names (d_nodes g) u) -> l < 100) -> readable row_no node_no g.
Proof.
  intros A B. split; unfold row_no, node_no; intros; try lia.
  - pose proof (A u v l H). lia.
  - pose proof (B u l H). lia.
Qed.
Lemma names_small (ns : list (nat * option (label nat))) :
  Forall (fun v => Forall (fun l => l < 100) (names_of (snd v))) ns -> forall u l, In l (node_names ns u) -> l < 100.
Proof.
  intros F u l Hl. unfold node_names in Hl. destruct (dget ns u) as [o|] eqn:E; [|destruct Hl].
  apply dget_In in E. rewrite Forall_forall in F. specialize (F _ E). rewrite Forall_forall in F. apply F, Hl.
Qed.

Lemma demo_admissible : admissible demo_graph demo_rows.
Proof.
  split.
  - unfold demo_rows, demo_row, demo_graph. tidy_tac.
  - intros u l. simpl. intuition congruence.
  - exists [demo_row], (tl demo_rows). split; [reflexivity|]. split; repeat constructor; discriminate.
Qed.
Lemma demo_readable : readable row_no node_no demo_graph.
Proof.
  apply readable_small.
  - intros u v l. simpl. intuition (try congruence); repeat match goal with H : (_, _) = (_, _) |- _ => injection H; clear H; intros; subst end; lia.
  - apply names_small. repeat constructor.
Qed.

(* four uses; every node of the data graph is a port of some use *)
Example C76_case :
  admissible demo_graph demo_rows /\ readable row_no node_no demo_graph
  /\ (let p := r_pattern demo_row in
      exists m' log, cover' eqd (fun l => rev l) false demo_graph demo_rows
        {| marker := 3; edge_mark := [((1, 2, 7), 3)]; node_mark := [((1, 10), 2)] |} = Ret (m', log)
      /\ map e_use log = [RowUse p [(1, 1); (2, 2); (3, 3)]; RowUse p [(3, 1); (2, 2); (4, 3)];
                          RowUse (r_pattern (nth 1 demo_rows demo_row)) [(3, 1)]; EdgeUse 4 1 9]
      /\ map e_ports log = [[(1, 1); (2, 2); (3, 3)]; [(3, 1); (2, 2); (4, 3)]; [(3, 1)]; [(4, 1); (1, 2)]]
      /\ map r_label (r_nodes (rewrite row_no node_no log)) =
           [row_no 0; node_no 1; node_no 2; node_no 3; row_no 0; node_no 4; row_no 1; 9]
      /\ r_edges (rewrite row_no node_no log) =
           [((1, 2), 1); ((1, 3), 2); ((1, 4), 3); ((5, 4), 1); ((5, 3), 2); ((5, 6), 3); ((7, 4), 1); ((8, 6), 1); ((8, 2), 2)]).
Proof.
  split; [exact demo_admissible|]. split; [exact demo_readable|].
  eexists. eexists. split; [vm_compute; reflexivity|]. repeat split.
Qed.

(* two different numberings with the same rewritten graph: nodes that are not
   ports are not in it *)
Definition chain (a b : nat) : data nat :=
  {| d_nodes := [(a, Some (Name 10)); (b, None); (3, None); (4, Some (Name 11))];
     d_edges := [(a, b, 7); (b, 3, 8); (3, 4, 9)] |}.
Definition chain_rows (a b : nat) : list (row nat) :=
  [{| r_pattern := {| p_nodes := [(1, Some (Name 10)); (2, None); (3, None)]; p_edges := [((1, 2), [7]); ((2, 3), [8])] |};
      r_embeddings := [[(a, 1); (b, 2); (3, 3)]] |}].
Example C76_lossless_case :
  admissible (chain 1 2) (chain_rows 1 2) /\ admissible (chain 6 5) (chain_rows 6 5)
  /\ map r_pattern (chain_rows 1 2) = map r_pattern (chain_rows 6 5)
  /\ readable row_no node_no (chain 1 2) /\ readable row_no node_no (chain 6 5)
  /\ (let m := {| marker := 0; edge_mark := []; node_mark := [] |} in
      marks_ok m /\ exists s s',
        cover' eqd (fun l => l) false (chain 1 2) (chain_rows 1 2) m = Ret s
        /\ cover' eqd (fun l => l) false (chain 6 5) (chain_rows 6 5) m = Ret s'
        /\ rewrite row_no node_no (snd s) = rewrite row_no node_no (snd s')
        /\ r_edges (rewrite row_no node_no (snd s)) = [((1, 2), 3); ((3, 2), 1); ((3, 4), 2); ((5, 4), 1)]).
Proof.
  assert (forall a b, readable row_no node_no (chain a b)) as Rd.
  { intros a b. apply readable_small.
    - intros u v l. simpl. intuition (try congruence); repeat match goal with H : (_, _) = (_, _) |- _ => injection H; clear H; intros; subst end; lia.
    - apply names_small. repeat constructor. }
  assert (forall a b, bare_last (chain_rows a b)) as Bl.
  { intros a b. exists (chain_rows a b), []. split; [rewrite app_nil_r; reflexivity|]. split; repeat constructor; discriminate. }
  split; [split; [unfold chain, chain_rows; tidy_tac | intros u l; simpl; intuition congruence | apply Bl]|].
  split; [split; [unfold chain, chain_rows; tidy_tac | intros u l; simpl; intuition congruence | apply Bl]|].
  split; [reflexivity|]. split; [apply Rd|]. split; [apply Rd|]. cbv zeta.
  split; [split; intros k c; discriminate|].
  eexists. eexists. split; [vm_compute; reflexivity|]. split; [vm_compute; reflexivity|]. split; reflexivity.
Qed.

(* A row without edges that comes first marks all names of a node; a later
   use of a row with edges then takes the node for its own: it is no port and
   the rewritten graph no longer says that the two uses share it. *)
Definition hide (n : nat) : data nat :=
  if n =? 1 then {| d_nodes := [(1, Some (Names [10; 11])); (2, None)]; d_edges := [(1, 2, 7)] |}
  else {| d_nodes := [(1, Some (Names [10; 11])); (2, Some (Name 10)); (3, None)]; d_edges := [(2, 3, 7)] |}.
Definition hide_rows (n : nat) : list (row nat) :=
  [{| r_pattern := {| p_nodes := [(1, Some (Names [10; 11]))]; p_edges := [] |}; r_embeddings := [[(1, 1)]] |};
   {| r_pattern := {| p_nodes := [(1, Some (Name 10)); (2, None)]; p_edges := [((1, 2), [7])] |};
      r_embeddings := [[(n, 1); (S n, 2)]] |}].
Theorem C76_order_refuted :
  exists (g g' : data nat) (rows rows' : list (row nat)) (m : marks nat) s s',
    tidy g rows /\ tidy g' rows' /\ map r_pattern rows = map r_pattern rows'
    /\ (forall u l, ~ In (u, u, l) (d_edges g)) /\ (forall u l, ~ In (u, u, l) (d_edges g'))
    /\ readable row_no node_no g /\ readable row_no node_no g' /\ marks_ok m
    /\ cover' eqd (fun l => l) false g rows m = Ret s /\ cover' eqd (fun l => l) false g' rows' m = Ret s'
    /\ rewrite row_no node_no (snd s) = rewrite row_no node_no (snd s')
    /\ ~ exists f, renumbering g g' f.
Proof.
  exists (hide 1), (hide 2), (hide_rows 1), (hide_rows 2), {| marker := 0; edge_mark := []; node_mark := [] |}.
  eexists. eexists.
  split; [unfold hide, hide_rows; cbn [Nat.eqb]; tidy_tac|].
  split; [unfold hide, hide_rows; cbn [Nat.eqb]; tidy_tac|].
  split; [reflexivity|]. split; [intros u l; simpl; intuition congruence|]. split; [intros u l; simpl; intuition congruence|].
  split; [apply readable_small; [intros u v l; simpl; intros [E|[]]; injection E as <- <- <-; lia | apply names_small; repeat constructor]|].
  split; [apply readable_small; [intros u v l; simpl; intros [E|[]]; injection E as <- <- <-; lia | apply names_small; repeat constructor]|].
  split; [split; intros k c; discriminate|].
  split; [vm_compute; reflexivity|]. split; [vm_compute; reflexivity|]. split; [reflexivity|].
  intros [f R].
  destruct (rn_total _ _ _ R 1) as [n' Hn]; [left; exists 10; simpl; tauto|].
  destruct (rn_total _ _ _ R 2) as [m' Hm]; [right; exists 1, 7; right; simpl; tauto|].
  assert (In (n', m', 7) (d_edges (hide 2))) as He by (apply (rn_edges _ _ _ R 1 n' 2 m' 7 Hn Hm); simpl; tauto).
  simpl in He. destruct He as [E|[]]. injection E as <- <-.
  assert (In 11 (node_names (d_nodes (hide 2)) 2)) as Hl by (apply (rn_names _ _ _ R 1 2 11 Hn); simpl; tauto).
  simpl in Hl. intuition discriminate.
Qed.

(* The two ends of a loop fall on the same port: only the second is drawn. *)
Theorem C76_loop_refuted :
  exists (g : data nat) (m : marks nat) s, tidy g [] /\ readable row_no node_no g /\ marks_ok m
    /\ cover' eqd (fun l => l) false g [] m = Ret s
    /\ map e_use (snd s) = [EdgeUse 1 1 7] /\ r_edges (rewrite row_no node_no (snd s)) = [((1, 2), 2)].
Proof.
  exists {| d_nodes := [(1, None)]; d_edges := [(1, 1, 7)] |}, {| marker := 0; edge_mark := []; node_mark := [] |}. eexists.
  split; [split; [nodup_tac | constructor | intros r [] | intros r e [] | intros r a []]|].
  split; [apply readable_small; [intros u v l; simpl; intros [E|[]]; injection E as <- <- <-; lia | apply names_small; repeat constructor]|].
  split; [split; intros k c; discriminate|]. split; [vm_compute; reflexivity|]. split; reflexivity.
Qed.

(* A node whose name reads like the number of another node: the port of the
   other node is drawn to a pattern node. *)
Theorem C76_clash_refuted :
  exists (g : data nat) (m : marks nat) s z, admissible g [] /\ marks_ok m
    /\ cover' eqd (fun l => l) false g [] m = Ret s
    /\ In (VertexUse 2 10) (map e_use (snd s))
    /\ In ((3, 1), 1) (r_edges (rewrite row_no node_no (snd s)))
    /\ node_at (rewrite row_no node_no (snd s)) 1 = Some z /\ is_pattern z = true.
Proof.
  exists {| d_nodes := [(1, Some (Name (node_no 2))); (2, Some (Name 10))]; d_edges := [] |},
         {| marker := 0; edge_mark := []; node_mark := [] |}. eexists. eexists.
  split.
  { split; [split; [nodup_tac | constructor | intros r [] | intros r e [] | intros r a []] | intros u l [] |].
    exists [], []. repeat constructor. }
  split; [split; intros k c; discriminate|]. split; [vm_compute; reflexivity|].
  split; [right; left; reflexivity|]. split; [right; left; reflexivity|]. split; reflexivity.
Qed.

Print Assumptions C76_rewritten_partial.
Print Assumptions C76_lossless_partial.
Print Assumptions C76_order_refuted.
Print Assumptions C76_loop_refuted.
Print Assumptions C76_clash_refuted.
