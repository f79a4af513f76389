(* C114: the data ports of a code table. *)
From Verif Require Import Prelude CheckModel LCMModel VerticalProofs GraphUtilModel PropGraphUtil
  GraphCoverModel PropGraphCover MergeModel PropMerge RewriteModel RewriteProofs PropRewrite DataPortModel DataPortProofs.

Section Proofs.
  Context {L : Type} `{EqDec L}.
  Variable substr : L -> L -> bool.
  Variable set_order : list (nat * nat) -> list (nat * nat).
  Variable multi : bool.
  Hypothesis substr_refl : forall l, substr l l = true.
  Hypothesis set_order_In : forall l x, In x (set_order l) <-> In x l.
  Variable g : data L.

  Lemma In_marks (log : list (entry L)) n : In n (port_marks log) <-> exists x a, In x log /\ In (n, a) (e_ports x).
  Proof.
    unfold port_marks. rewrite in_flat_map. split.
    - intros (x & Hx & Hn). apply in_map_iff in Hn. destruct Hn as ([m a] & <- & Hp). exists x, a. auto.
    - intros (x & a & Hx & Hp). exists x. split; [exact Hx|]. apply (in_map fst) in Hp. exact Hp.
  Qed.
  Lemma covers_ports : forall tables m ported m' ported', covers substr set_order multi g tables (m, ported) = Ret (m', ported') ->
    forall n, In n ported' <-> In n ported \/ exists i rows mi po mi' log x a, nth_error tables i = Some rows /\
      covers substr set_order multi g (firstn i tables) (m, ported) = Ret (mi, po) /\
      cover' substr set_order multi g rows mi = Ret (mi', log) /\ In x log /\ In (n, a) (e_ports x).
  Proof.
    induction tables as [|t tables IH]; intros m ported m' ported' E n; cbn [covers fold_out] in E.
    - injection E as <- <-. split; [auto|]. intros [Hn|(i & rows & mi & po & mi' & log & x & a & Hi & _)]; [exact Hn | destruct i; discriminate].
    - unfold cover_ports at 1 in E. cbn [fst snd] in E. destruct (cover' substr set_order multi g t m) as [[m1 log1]|e|] eqn:E1; [|discriminate|discriminate]. cbn [bind fst snd] in E.
      rewrite (IH _ _ _ _ E n), in_app_iff, In_marks. split.
      + intros [[Hn|(x & a & Hx & Hp)]|(i & rows & mi & po & mi' & log & x & a & Hi & Hc & Hr & Hx & Hp)].
        * left. exact Hn.
        * right. exists 0, t, m, ported, m1, log1, x, a. repeat split; assumption.
        * right. exists (S i), rows, mi, po, mi', log, x, a. split; [exact Hi|]. split; [|auto]. cbn [firstn covers fold_out]. unfold cover_ports at 1. cbn [fst snd]. rewrite E1. exact Hc.
      + intros [Hn|(i & rows & mi & po & mi' & log & x & a & Hi & Hc & Hr & Hx & Hp)]; [auto|]. destruct i as [|i].
        * cbn [nth_error firstn covers fold_out] in Hi, Hc. injection Hi as <-. injection Hc as <- <-. rewrite E1 in Hr. injection Hr as <- <-. left. right. exists x, a. auto.
        * right. cbn [nth_error firstn covers fold_out] in Hi, Hc. unfold cover_ports at 1 in Hc. cbn [fst snd] in Hc. rewrite E1 in Hc. exists i, rows, mi, po, mi', log, x, a. auto.
  Qed.

  (* After any number of covers of a graph the data ports are, once each and in the order of the graph, the nodes that were
     a port of a use in one of these covers. *)
  Theorem C114_history : forall tables m m' ported, NoDup (dkeys (d_nodes g)) -> covers substr set_order multi g tables (m, []) = Ret (m', ported) ->
    NoDup (data_port g ported) /\ (exists p, data_port g ported = filter p (dkeys (d_nodes g))) /\
    forall n, In n (data_port g ported) <-> In n (dkeys (d_nodes g)) /\ exists i rows mi po mi' log x a, nth_error tables i = Some rows /\
      covers substr set_order multi g (firstn i tables) (m, []) = Ret (mi, po) /\
      cover' substr set_order multi g rows mi = Ret (mi', log) /\ In x log /\ In (n, a) (e_ports x).
  Proof using Type.
    intros tables m m' ported Hn E. split; [apply NoDup_filter, Hn|]. split; [eexists; reflexivity|]. intros n. unfold data_port.
    rewrite filter_In, mem_In, (covers_ports _ _ _ _ _ E n). cbn [In]. tauto.
  Qed.

  (* Covering always succeeds, and after the first cover of a graph the data ports are the ports of its uses: each belongs
     to a use; a node is one when it belongs to two uses, or to the use of an edge or label or of a pattern without edges. *)
  Theorem C114_first_partial : forall (row_name node_name : nat -> L) rows m, (forall u v l, In (u, v, l) (d_edges g) -> In u (dkeys (d_nodes g)) /\ In v (dkeys (d_nodes g))) ->
    admissible g rows -> readable row_name node_name g -> marks_ok m ->
    exists m' ported log, covers substr set_order multi g [rows] (m, []) = Ret (m', ported) /\
      cover substr set_order multi g rows m = Ret (m', map e_use log) /\
      (forall n, In n (data_port g ported) <-> exists x a, In x log /\ In (n, a) (e_ports x)) /\
      (forall n, In n (data_port g ported) -> exists x a, In x log /\ In (n, a) (use_nodes (e_use x))) /\
      (forall i j x y n a b, nth_error log i = Some x -> nth_error log j = Some y -> i <> j ->
         In (n, a) (use_nodes (e_use x)) -> In (n, b) (use_nodes (e_use y)) -> In n (data_port g ported)) /\
      (forall x n a, In x log -> ~ edged_row (e_use x) -> In (n, a) (use_nodes (e_use x)) -> In n (data_port g ported)).
  Proof.
    intros row_name node_name rows m He Ha Hr Hm.
    destruct (run_exists substr set_order multi substr_refl set_order_In row_name node_name g rows m Ha Hr Hm) as (m' & log & ids & E & Ec & _ & R).
    assert (Hk : forall x n a, In x log -> In (n, a) (use_nodes (e_use x)) -> In n (dkeys (d_nodes g))).
    { intros x n a Hx Hu. pose proof (ru_from _ _ _ _ _ _ _ R x Hx) as Hf. destruct (e_use x) as [p e|u v l|k l] eqn:Ex; cbn [use_nodes] in Hu.
      - pose proof (ru_keys _ _ _ _ _ _ _ R x Hx) as _. destruct (C53_cover_partial substr set_order multi substr_refl set_order_In g rows m (ad_nodes _ _ Ha) Hm (ad_rows _ _ Ha)) as (m0 & log0 & E0 & _ & _ & C3 & _).
        rewrite Ec in E0. injection E0 as <- <-. specialize (C3 (e_use x) (in_map e_use _ _ Hx)). rewrite Ex in C3. destruct C3 as (r & Hrow & -> & Hemb).
        destruct (ad_dict _ _ Ha r e Hrow Hemb) as (_ & D & _). exact (D n a Hu).
      - destruct Hu as [Eu|[Eu|[]]]; injection Eu as <- <-; [apply (He u v l Hf) | apply (He u v l Hf)].
      - destruct Hu as [Eu|[]]. injection Eu as <- <-. unfold node_names in Hf. destruct (dget (d_nodes g) k) eqn:Ek; [|destruct Hf]. apply dget_Some_key. eauto. }
    assert (Hp : forall n, In n (data_port g ([] ++ port_marks log)) <-> exists x a, In x log /\ In (n, a) (e_ports x)).
    { intros n. unfold data_port. rewrite filter_In, mem_In. cbn [app]. rewrite In_marks. split; [tauto|]. intros (x & a & Hx & Hin). split; [|eauto].
      apply (Hk x n a Hx), (ru_ports _ _ _ _ _ _ _ R x Hx), Hin. }
    exists m', ([] ++ port_marks log), log. split; [|split; [exact Ec|split; [exact Hp|split; [|split]]]].
    - cbn [covers fold_out]. unfold cover_ports. cbn [fst snd]. rewrite E. reflexivity.
    - intros n Hn. apply Hp in Hn. destruct Hn as (x & a & Hx & Hin). exists x, a. split; [exact Hx | apply (ru_ports _ _ _ _ _ _ _ R x Hx), Hin].
    - intros i j x y n a b Hi Hj Hij Hx Hy. apply Hp. exists x, a. split; [apply nth_error_In in Hi; exact Hi | apply (ru_shared _ _ _ _ _ _ _ R i j x y n a b); assumption].
    - intros x n a Hx Hs Hu. apply Hp. exists x, a. split; [exact Hx|]. rewrite (ru_single _ _ _ _ _ _ _ R x Hx Hs). exact Hu.
  Qed.

  (* No edge being listed twice, the data ports after the first cover are exactly the nodes that belong to two uses, or to the
     use of an edge or label or of a pattern without edges. *)
  Theorem C114_exact : forall (row_name node_name : nat -> L) rows m, (forall u v l, In (u, v, l) (d_edges g) -> In u (dkeys (d_nodes g)) /\ In v (dkeys (d_nodes g))) ->
    NoDup (d_edges g) -> admissible g rows -> readable row_name node_name g -> marks_ok m ->
    exists m' ported uses, covers substr set_order multi g [rows] (m, []) = Ret (m', ported) /\
      cover substr set_order multi g rows m = Ret (m', uses) /\
      forall n, In n (data_port g ported) <->
        (exists i j x y, i <> j /\ nth_error uses i = Some x /\ nth_error uses j = Some y /\ In n (map fst (use_nodes x)) /\ In n (map fst (use_nodes y))) \/
        (exists x, In x uses /\ ~ edged_row x /\ In n (map fst (use_nodes x))).
  Proof.
    intros row_name node_name rows m He Hd Ha Hr Hm.
    destruct (run_exists substr set_order multi substr_refl set_order_In row_name node_name g rows m Ha Hr Hm) as (m1 & log1 & ids & E & Ec & _ & R).
    destruct (C114_first_partial row_name node_name rows m He Ha Hr Hm) as (m' & ported & log & Ep & Ec' & P1 & P2 & P3 & P4).
    rewrite Ec in Ec'. injection Ec' as <- Elog.
    assert (ported = port_marks log1) as Epo.
    { cbn [covers fold_out] in Ep. unfold cover_ports in Ep. cbn [fst snd] in Ep. rewrite E in Ep. cbn [bind fst snd app] in Ep. injection Ep as <-. reflexivity. }
    pose proof (cover_why substr set_order multi substr_refl set_order_In g rows m _ (ad_rows _ _ Ha) (ad_incident _ _ Ha) E) as Hw.
    cbn [snd] in Hw. rewrite Forall_forall in Hw.
    exists m1, ported, (map e_use log). split; [exact Ep|]. split; [rewrite Ec, Elog; reflexivity|].
    assert (Hnth : forall i u, nth_error (map e_use log) i = Some u -> exists x, nth_error log i = Some x /\ e_use x = u).
    { intros i u Hi. rewrite nth_error_map in Hi. destruct (nth_error log i) as [x|]; [|discriminate]. injection Hi as <-. eauto. }
    intros n. split.
    - intros Hn. unfold data_port in Hn. apply filter_In in Hn. destruct Hn as [_ Hn]. apply mem_In in Hn. rewrite Epo in Hn. apply In_marks in Hn.
      destruct Hn as (x & a & Hx & Hna). rewrite <- Elog. apply In_nth_error in Hx as Hi. destruct Hi as [i Hi].
      pose proof (ru_ports _ _ _ _ _ _ _ R x Hx (n, a) Hna) as Hu. pose proof (in_map fst _ _ Hu) as Hu'. cbn [fst] in Hu'.
      assert (Dec : edged_row (e_use x) \/ ~ edged_row (e_use x)).
      { destruct (e_use x) as [p e|u v l|k l]; cbn [edged_row]; [|right; intros []|right; intros []].
        destruct (p_edges p); [right; intros F; apply F; reflexivity | left; discriminate]. }
      destruct Dec as [Hed|Hed]; [left | right; exists (e_use x); split; [apply in_map, Hx | auto]].
      assert (Hother : forall y, In y log1 -> In n (map fst (use_nodes (e_use y))) -> e_use y <> e_use x ->
        exists i j x y, i <> j /\ nth_error (map e_use log1) i = Some x /\ nth_error (map e_use log1) j = Some y /\ In n (map fst (use_nodes x)) /\ In n (map fst (use_nodes y))).
      { intros y Hy Hny Hne. apply In_nth_error in Hy. destruct Hy as [j Hj]. exists i, j, (e_use x), (e_use y).
        split; [intros ->; rewrite Hi in Hj; injection Hj as <-; apply Hne; reflexivity|].
        repeat split; try (apply map_nth_error; assumption); assumption. }
      pose proof (ru_from _ _ _ _ _ _ _ R x Hx) as Hf. specialize (Hw x Hx). unfold why in Hw.
      destruct (e_use x) as [p e|u v l|k l] eqn:Ex; [|destruct Hed|destruct Hed]. cbn [edged_row] in Hed.
      destruct Hf as (ix & rx & _ & _ & _ & _ & Ho & Hfst & _ & Hno & _). cbn [use_nodes] in Hu.
      destruct (Hw p e eq_refl Hed n a Hna) as [Hdeg|(l & Hl & Hcv)].
      + destruct (existsb (fun k => ((fst (fst k) =? n) || (snd (fst k) =? n)) && negb (covers_edge k (RowUse p e))) (d_edges g)) eqn:Eex.
        * apply existsb_exists in Eex. destruct Eex as (k & Hk & Eex). apply andb_true_iff in Eex. destruct Eex as [Ek Ecv].
          apply negb_true_iff in Ecv. rewrite orb_true_iff, !Nat.eqb_eq in Ek.
          pose proof (ru_once _ _ _ _ _ _ _ R k Hk) as Hone. destruct (filter (covers_edge k) (map e_use log1)) as [|w ws] eqn:Ef; [discriminate|].
          assert (Hin : In w (filter (covers_edge k) (map e_use log1))) by (rewrite Ef; left; reflexivity).
          apply filter_In in Hin. destruct Hin as [Hin Hcw]. apply in_map_iff in Hin. destruct Hin as (y & <- & Hy).
          apply (Hother y Hy); [|intros F; rewrite F in Hcw; congruence].
          destruct k as [[u v] l]. cbn [fst snd] in Ek. destruct (e_use y) as [q f|u' v' l'|k l']; cbn [covers_edge use_nodes] in Hcw |- *; [| |discriminate].
          -- apply existsb_exists in Hcw. destruct Hcw as (pe & _ & Hcw). rewrite !andb_true_iff, !mem_In in Hcw. destruct Hcw as [[U V] _].
             apply (in_map fst) in U, V. cbn [fst] in U, V. destruct Ek as [<-|<-]; assumption.
          -- apply (proj1 (eqd_true _ _)) in Hcw. injection Hcw as -> -> ->. cbn [map fst In]. destruct Ek as [<-|<-]; auto.
        * exfalso. apply Hdeg. apply (degree_same g p e n a Ho Hno Hfst Hd Hu). intros k Hk Hinc.
          destruct (covers_edge k (RowUse p e)) eqn:Ecv; [reflexivity|]. rewrite <- Eex. apply existsb_exists. exists k. split; [exact Hk|].
          rewrite Ecv, andb_true_r, orb_true_iff, !Nat.eqb_eq. exact Hinc.
      + destruct (ru_vertex _ _ _ _ _ _ _ R n l Hl) as (y & Hy & Hcy). apply (Hother y Hy); [|intros F; rewrite F in Hcy; congruence].
        destruct (e_use y) as [q f|u' v' l'|k l']; cbn [covers_vertex use_nodes] in Hcy |- *; [|discriminate|].
        * apply existsb_exists in Hcy. destruct Hcy as ([n' a'] & Hin & Hcy). apply andb_true_iff in Hcy. destruct Hcy as [En _].
          apply Nat.eqb_eq in En. cbn [fst] in En. subst n'. apply (in_map fst) in Hin. exact Hin.
        * apply (proj1 (eqd_true _ _)) in Hcy. injection Hcy as -> _. left. reflexivity.
    - intros [(i & j & x & y & Hij & Hi & Hj & Hx & Hy)|(x & Hx & Hed & Hn)].
      + apply Hnth in Hi, Hj. destruct Hi as (x' & Hi & <-). destruct Hj as (y' & Hj & <-).
        apply in_map_iff in Hx, Hy. destruct Hx as ([n1 a] & E1 & Hx). destruct Hy as ([n2 b] & E2 & Hy). cbn [fst] in E1, E2. subst n1 n2.
        exact (P3 i j x' y' n a b Hi Hj Hij Hx Hy).
      + apply in_map_iff in Hx. destruct Hx as (x' & <- & Hx). apply in_map_iff in Hn. destruct Hn as ([n1 a] & E1 & Hn). cbn [fst] in E1. subst n1.
        exact (P4 x' n a Hx Hed Hn).
  Qed.
End Proofs.
Print Assumptions C114_history.
Print Assumptions C114_first_partial.
Print Assumptions C114_exact.

(* The attribute is never taken away: after a second cover, in which one pattern covers the whole graph and has no port, the
   ports of the first cover are still listed. *)
Theorem C114_stale_refuted : exists (g : data nat) t1 t2 s1 s2 log,
  let run := covers eqd (fun l => l) false g in let start := ({| marker := 0; edge_mark := []; node_mark := [] |}, []) in
  run [t1] start = Ret s1 /\ run [t1; t2] start = Ret s2 /\
  cover' eqd (fun l => l) false g t2 (fst s1) = Ret (fst s2, log) /\ (forall x, In x log -> e_ports x = []) /\ data_port g (snd s2) = [1; 2].
Proof.
  exists {| d_nodes := [(1, Some (Name 10)); (2, None)]; d_edges := [(1, 2, 7)] |}, [],
    [{| r_pattern := {| p_nodes := [(1, Some (Name 10)); (2, None)]; p_edges := [((1, 2), [7])] |}; r_embeddings := [[(1, 1); (2, 2)]] |}].
  eexists. eexists. eexists. cbv zeta. split; [vm_compute; reflexivity|]. split; [vm_compute; reflexivity|]. split; [vm_compute; reflexivity|].
  split; [|vm_compute; reflexivity]. intros x [<-|[]]. reflexivity.
Qed.
Print Assumptions C114_stale_refuted.

(* a pattern of three nodes is used once; only its last node, where the other edge starts, and the end of that edge are ports *)
Example C114_case : admissible (chain 1 2) (chain_rows 1 2) /\ readable row_no node_no (chain 1 2) /\ NoDup (d_edges (chain 1 2)) /\
  exists m' ported, covers eqd (fun l => l) false (chain 1 2) [chain_rows 1 2] ({| marker := 0; edge_mark := []; node_mark := [] |}, []) = Ret (m', ported) /\
  data_port (chain 1 2) ported = [3; 4].
Proof.
  pose proof C76_lossless_case as (A1 & _ & _ & R1 & _). split; [exact A1|]. split; [exact R1|].
  split; [cbn; repeat constructor; cbn; intuition congruence|]. eexists. eexists. split; vm_compute; reflexivity.
Qed.
