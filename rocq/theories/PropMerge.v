(* C75: the merge of two patterns at their ports. *)
From Verif Require Import Prelude CheckModel LCMModel VerticalProofs GraphUtilModel PropGraphUtil
  GraphCoverModel PropGraphCover MergeModel.

(* ------------------------------------------------------- specification *)
Section Spec.
  Context {L : Type} `{EqDec L}.
  Definition node_list (p : net L) : list nat := map fst (n_nodes p).
  (* the names written on a node *)
  Definition names_at (p : net L) (n : nat) : list L := node_names (n_nodes p) n.
  (* nodes numbered from 1, edges between nodes *)
  Definition numbered (p : net L) : Prop :=
    Permutation (node_list p) (seq 1 (length (node_list p))).
  Definition closed (p : net L) : Prop :=
    forall a b l, In (a, b, l) (n_edges p) -> In a (node_list p) /\ In b (node_list p).
  (* a one-to-one correspondence between nodes of the two patterns *)
  Definition port_list (p1 p2 : net L) (ports : list (nat * nat)) : Prop :=
    NoDup (map fst ports) /\ NoDup (map snd ports)
    /\ forall a b, In (a, b) ports -> In a (node_list p1) /\ In b (node_list p2).
  (* a DiGraph has one edge from a node to another *)
  Definition simple (p : net L) : Prop := NoDup (map fst (n_edges p)).
  (* no edge of the second pattern lies on an edge of the first *)
  Definition no_common_edge (p1 p2 : net L) (ports : list (nat * nat)) : Prop :=
    forall a b l x y l', In (a, b, l) (n_edges p2) -> In (x, a) ports -> In (y, b) ports ->
      ~ In (x, y, l') (n_edges p1).
  (* loops of the second pattern are on ports *)
  Definition loops_on_ports (p2 : net L) (ports : list (nat * nat)) : Prop :=
    forall a l, In (a, a, l) (n_edges p2) -> In a (map snd ports).
End Spec.

(* --------------------------------------------------------------- proofs *)
Section Proofs.
  Context {L : Type} `{EqDec L}.
  Context (multi : bool).

  Lemma dset_fresh {K V} `{EqDec K} (d : list (K * V)) k v :
    ~ In k (map fst d) -> dset d k v = d ++ [(k, v)].
  Proof.
    induction d as [|[k' v'] d IH]; intros Hk; [reflexivity|]. simpl in *.
    destruct (eq_dec k k') as [->|_]; [tauto|]. rewrite IH; [reflexivity | tauto].
  Qed.
  Lemma dget_snoc {K V} `{EqDec K} (d : list (K * V)) k v k' :
    ~ In k (map fst d) -> dget (d ++ [(k, v)]) k' = if eq_dec k' k then Some v else dget d k'.
  Proof. intros Hk. rewrite <- (dset_fresh d k v Hk). apply dget_dset. Qed.

  Lemma relabel_fresh es u v (l : L) : ~ In (u, v) (map fst es) -> relabel es u v l = es ++ [(u, v, l)].
  Proof.
    induction es as [|[[a b] c] es IH]; intros Hk; [reflexivity|]. cbn [relabel fst map In] in *.
    rewrite (proj2 (eqd_false (a, b) (u, v))) by tauto. rewrite IH by tauto. reflexivity.
  Qed.
  Lemma add_node_old (g : net L) n : In n (node_list g) -> add_node g n None = g.
  Proof.
    intros Hn. unfold add_node. destruct (proj1 (dget_Some_key _ _) Hn) as [v ->].
    destruct g; reflexivity.
  Qed.
  Lemma add_node_new (g : net L) n lab : ~ In n (node_list g) ->
    add_node g n lab = {| n_nodes := n_nodes g ++ [(n, lab)]; n_edges := n_edges g |}.
  Proof.
    intros Hn. unfold add_node. rewrite (proj2 (dget_None _ _) Hn), dset_fresh by exact Hn. reflexivity.
  Qed.
  Lemma add_edge_ok (g : net L) u v l : In u (node_list g) -> In v (node_list g) ->
    multi = true \/ ~ In (u, v) (map fst (n_edges g)) ->
    add_edge multi g u v l = {| n_nodes := n_nodes g; n_edges := n_edges g ++ [(u, v, l)] |}.
  Proof.
    intros Hu Hv Hm. unfold add_edge. rewrite (add_node_old g u Hu), (add_node_old g v Hv).
    destruct multi; [reflexivity|]. destruct Hm as [E|Hm]; [discriminate|].
    rewrite relabel_fresh by exact Hm. reflexivity.
  Qed.

  Lemma add_nodes_fresh (nds : list (nat * option (label L))) : forall g : net L,
    NoDup (map fst (n_nodes g ++ nds)) ->
    fold_left (fun g nd => add_node g (fst nd) (snd nd)) nds g =
    {| n_nodes := n_nodes g ++ nds; n_edges := n_edges g |}.
  Proof.
    induction nds as [|[n lab] nds IH]; intros g Hd; cbn [fold_left fst snd].
    - rewrite app_nil_r. destruct g; reflexivity.
    - rewrite add_node_new.
      + rewrite IH; cbn [n_nodes n_edges]; rewrite <- app_assoc; [reflexivity | exact Hd].
      + rewrite map_app in Hd. intros Hn. cbn [map fst] in Hd.
        apply NoDup_remove_2 in Hd. apply Hd, in_or_app. left. exact Hn.
  Qed.
  Lemma add_edges_fresh (es : list (nat * nat * L)) : forall g : net L,
    (forall a b l, In (a, b, l) es -> In a (node_list g) /\ In b (node_list g)) ->
    multi = true \/ NoDup (map fst (n_edges g ++ es)) ->
    fold_left (fun g e => add_edge multi g (fst (fst e)) (snd (fst e)) (snd e)) es g =
    {| n_nodes := n_nodes g; n_edges := n_edges g ++ es |}.
  Proof.
    induction es as [|[[a b] l] es IH]; intros g Hc Hd; cbn [fold_left fst snd].
    - rewrite app_nil_r. destruct g; reflexivity.
    - destruct (Hc a b l (or_introl eq_refl)) as [Ha Hb].
      rewrite add_edge_ok; [|exact Ha|exact Hb|].
      + rewrite IH; cbn [n_nodes n_edges]; [rewrite <- app_assoc; reflexivity | |].
        * intros x y z Hi. apply (Hc x y z). right. exact Hi.
        * destruct Hd as [Hd|Hd]; [left; exact Hd | right]. rewrite <- app_assoc. exact Hd.
      + destruct Hd as [Hd|Hd]; [left; exact Hd | right].
        rewrite map_app in Hd. cbn [map fst] in Hd. apply NoDup_remove_2 in Hd.
        intros Hi. apply Hd, in_or_app. left. exact Hi.
  Qed.
  Lemma first_part_copy (p : net L) : NoDup (node_list p) -> closed p ->
    multi = true \/ simple p -> first_part multi p empty = p.
  Proof.
    intros Hn Hc Hm. unfold first_part. rewrite add_nodes_fresh by exact Hn.
    cbn [n_nodes n_edges empty app]. rewrite add_edges_fresh; [destruct p; reflexivity | exact Hc | exact Hm].
  Qed.

  Lemma same_snd {A B} (l : list (A * B)) : forall x y y',
    NoDup (map fst l) -> In (x, y) l -> In (x, y') l -> y = y'.
  Proof.
    induction l as [|[u w] l IH]; intros x y y' Hn; [intros []|]. cbn [map fst] in Hn.
    inversion_clear Hn as [|? ? Hx Hl]. intros [E1|H1] [E2|H2]; try congruence.
    - injection E1 as -> ->. destruct Hx. apply (in_map fst) in H2. exact H2.
    - injection E2 as -> ->. destruct Hx. apply (in_map fst) in H1. exact H1.
    - exact (IH x y y' Hl H1 H2).
  Qed.
  Lemma same_fst {A B} (l : list (A * B)) : forall x x' y,
    NoDup (map snd l) -> In (x, y) l -> In (x', y) l -> x = x'.
  Proof.
    induction l as [|[u w] l IH]; intros x x' y Hn; [intros []|]. cbn [map snd] in Hn.
    inversion_clear Hn as [|? ? Hx Hl]. intros [E1|H1] [E2|H2]; try congruence.
    - injection E1 as -> ->. destruct Hx. apply (in_map snd) in H2. exact H2.
    - injection E2 as -> ->. destruct Hx. apply (in_map snd) in H1. exact H1.
    - exact (IH x x' y Hl H1 H2).
  Qed.

  (* ---- labels *)
  Lemma add_names_In new : forall have (l : L), In l (add_names have new) <-> In l have \/ In l new.
  Proof.
    unfold add_names. induction new as [|x new IH]; intros have l; cbn [fold_left In]; [tauto|].
    rewrite IH. destruct (mem_spec x have) as [Hx|Hx].
    - split; [tauto|]. intros [|[<-|]]; tauto.
    - rewrite in_app_iff. simpl. tauto.
  Qed.
  Lemma new_label_names (f s : label L) l :
    In l (names_of (Some (get_new_label f s))) <-> In l (names_of (Some f)) \/ In l (names_of (Some s)).
  Proof.
    destruct s as [s|ss|ss], f as [f|fs|fs]; cbn [get_new_label names_of].
    1: { unfold eqd. destruct (eq_dec f s) as [->|Ne]; cbn [names_of In]; tauto. }
    all: try (rewrite add_names_In; cbn [In]; tauto).
    all: destruct (mem_spec f ss) as [Hf|Hf]; [|rewrite in_app_iff]; cbn [In];
         split; try tauto; intros [[<-|[]]|]; tauto.
  Qed.

  (* ---- ports *)
  Section Ports.
    Context (ports : list (nat * nat)).
    Context (Hp2 : NoDup (map snd ports)).
    Lemma port_of_In a b : port_of ports b = Some a <-> In (a, b) ports.
    Proof.
      unfold port_of. induction ports as [|[x y] ps IH]; [simpl; split; [discriminate|tauto]|].
      cbn [find snd map] in *. inversion_clear Hp2 as [|? ? Hy Hn].
      destruct (Nat.eqb_spec y b) as [->|Ne].
      - cbn [fst]. split; [intros [= ->]; left; reflexivity|].
        intros [[= ->]|Hi]; [reflexivity|]. destruct Hy. apply (in_map snd) in Hi. exact Hi.
      - rewrite (IH Hn). simpl. split; [tauto|]. intros [[= ]|]; [congruence | assumption].
    Qed.
    Lemma port_of_None b : port_of ports b = None <-> ~ In b (map snd ports).
    Proof.
      split.
      - intros E Hi. apply in_map_iff in Hi as ([a b'] & <- & Hi). apply port_of_In in Hi. cbn in *. congruence.
      - intros Hb. destruct (port_of ports b) as [a|] eqn:E; [|reflexivity].
        apply port_of_In in E. destruct Hb. apply (in_map snd) in E. exact E.
    Qed.
    Lemma mapping_ports mapping b :
      dget (fold_left (fun m ab => dset m (snd ab) (fst ab)) ports mapping) b =
      match port_of ports b with Some a => Some a | None => dget mapping b end.
    Proof.
      unfold port_of. revert mapping. induction ports as [|[x y] ps IH]; intros mapping; [reflexivity|].
      cbn [fold_left find fst snd map] in *. inversion_clear Hp2 as [|? ? Hy Hn]. rewrite (IH Hn).
      rewrite dget_dset. destruct (Nat.eqb_spec y b) as [->|Ne].
      - cbn [fst]. destruct (find (fun ab => snd ab =? b) ps) as [[u w]|] eqn:E.
        + apply find_some in E as [Hi E]. apply Nat.eqb_eq in E. cbn in E. subst w.
          destruct Hy. apply (in_map snd) in Hi. exact Hi.
        + destruct (eq_dec b b); congruence.
      - destruct (find _ ps) as [[u w]|]; [reflexivity|]. destruct (eq_dec b y); congruence.
    Qed.
  End Ports.

  Context (p1 p2 : net L) (ports : list (nat * nat)).
  Context (Num : numbered p1) (Nod2 : NoDup (node_list p2)) (Cl1 : closed p1) (Cl2 : closed p2).
  Context (Hport : port_list p1 p2 ports).
  Notation n1 := (length (n_nodes p1)).
  Notation nonport := (fun b => match port_of ports b with None => true | Some _ => false end).

  Definition image (mapping : list (nat * nat)) (b : nat) : option nat :=
    match port_of ports b with Some a => Some a | None => dget mapping b end.

  (* after the nodes [done] of the second pattern *)
  Record nodes_inv (done : list nat) (g : net L) (mapping : list (nat * nat)) : Prop := {
    ni_edges : n_edges g = n_edges p1;
    ni_num : Permutation (node_list g) (seq 1 (length (n_nodes g)));
    ni_keys : map fst mapping = filter nonport done;
    ni_values : map snd mapping = seq (S n1) (length mapping);
    ni_length : length (n_nodes g) = n1 + length mapping;
    ni_names : forall n l, In l (names_at g n) <->
      In l (names_at p1 n) \/ exists b, In b done /\ image mapping b = Some n /\ In l (names_at p2 b)
  }.

  Lemma num_In (g : net L) n : Permutation (node_list g) (seq 1 (length (n_nodes g))) ->
    In n (node_list g) <-> 1 <= n <= length (n_nodes g).
  Proof.
    intros Hg. split.
    - intros Hn. eapply Permutation_in in Hn; [|exact Hg]. apply in_seq in Hn. lia.
    - intros Hn. eapply Permutation_in; [apply Permutation_sym, Hg|]. apply in_seq. lia.
  Qed.
  Lemma names_at_absent (g : net L) n : ~ In n (node_list g) -> names_at g n = [].
  Proof. intros Hn. unfold names_at, node_names. rewrite (proj2 (dget_None _ _) Hn). reflexivity. Qed.

  Lemma image_values done g mapping : nodes_inv done g mapping -> forall b x, In b done ->
    image mapping b = Some x -> In x (node_list g).
  Proof.
    intros Hi b x Hb Hx. apply (num_In g x (ni_num _ _ _ Hi)). unfold image in Hx.
    rewrite (ni_length _ _ _ Hi). destruct (port_of ports b) as [a|] eqn:E.
    - injection Hx as <-. destruct Hport as (_ & Hp2 & Hp). apply (port_of_In ports Hp2) in E.
      destruct (Hp a b E) as [Ha _]. apply (num_In p1) in Ha; [|].
      2: { unfold numbered, node_list in *. rewrite map_length in Num. exact Num. }
      lia.
    - apply dget_In, (in_map snd) in Hx. cbn [snd] in Hx. rewrite (ni_values _ _ _ Hi) in Hx.
      apply in_seq in Hx. lia.
  Qed.

  Lemma node_step_ok done b lab g mapping : NoDup (done ++ [b]) ->
    In (b, lab) (n_nodes p2) -> nodes_inv done g mapping ->
    exists g' mapping', node_step ports (g, mapping) (b, lab) = inl (g', mapping')
      /\ nodes_inv (done ++ [b]) g' mapping'.
  Proof.
    intros Hd Hb Hi. pose proof Hport as (Hp1 & Hp2 & Hp).
    assert (names_at p2 b = names_of lab) as Nb.
    { unfold names_at, node_names. rewrite (In_dget _ _ _ Nod2 Hb). reflexivity. }
    assert (~ In b done) as Hbd.
    { apply NoDup_remove_2 in Hd. rewrite app_nil_r in Hd. exact Hd. }
    unfold node_step. cbn [fst snd]. destruct (port_of ports b) as [a|] eqn:E.
    - pose proof (proj1 (port_of_In ports Hp2 a b) E) as Hab. destruct (Hp a b Hab) as [Ha _].
      assert (In a (node_list g)) as Hag.
      { apply (num_In g a (ni_num _ _ _ Hi)). rewrite (ni_length _ _ _ Hi).
        eapply Permutation_in in Ha; [|exact Num]. apply in_seq in Ha. unfold node_list in Ha.
        rewrite map_length in Ha. lia. }
      assert (filter nonport (done ++ [b]) = filter nonport done) as Ef.
      { rewrite filter_app. cbn [filter]. rewrite E, app_nil_r. reflexivity. }
      assert (forall old, dget (n_nodes g) a = Some old -> forall new,
        (forall l, In l (names_of (Some new)) <-> In l (names_of old) \/ In l (names_of lab)) ->
        nodes_inv (done ++ [b]) (set_label g a new) mapping) as Step.
      { intros old Eo new Hnew. destruct Hi as [I1 I2 I3 I4 I5 I6].
        assert (map fst (dset (n_nodes g) a (Some new)) = map fst (n_nodes g)) as Ek.
        { pose proof (dkeys_dset (n_nodes g) a (Some new)) as Ek. unfold dkeys in Ek. rewrite Ek.
          rewrite (proj2 (mem_In _ _) Hag). reflexivity. }
        assert (length (n_nodes (set_label g a new)) = length (n_nodes g)) as El.
        { cbn [set_label n_nodes]. rewrite <- !(map_length fst), Ek. reflexivity. }
        split; try assumption.
        - rewrite El. unfold node_list. cbn [set_label n_nodes]. rewrite Ek. exact I2.
        - rewrite Ef. exact I3.
        - rewrite El. exact I5.
        - intros n l. unfold names_at at 1, node_names. cbn [set_label n_nodes]. rewrite dget_dset.
          specialize (I6 n l). unfold names_at at 1, node_names in I6.
          destruct (eq_dec n a) as [->|Na].
          + rewrite Hnew. rewrite Eo in I6. rewrite I6. split.
            * intros [[Hl|(b' & B1 & B2 & B3)]|Hl]; [left; exact Hl | right | right].
              -- exists b'. rewrite in_app_iff. auto.
              -- exists b. rewrite in_app_iff, Nb. unfold image. rewrite E. simpl. auto.
            * intros [Hl|(b' & B1 & B2 & B3)]; [tauto|]. rewrite in_app_iff in B1.
              destruct B1 as [B1|[<-|[]]]; [left; right; exists b'; auto | right; rewrite <- Nb; exact B3].
          + rewrite I6. split; (intros [Hl|(b' & B1 & B2 & B3)]; [left; exact Hl | right; exists b']).
            * rewrite in_app_iff. auto.
            * rewrite in_app_iff in B1. destruct B1 as [B1|[<-|[]]]; [auto|].
              unfold image in B2. rewrite E in B2. congruence. }
      destruct lab as [lab|].
      + destruct (proj1 (dget_Some_key _ _) Hag) as [old Eo]. rewrite Eo.
        destruct old as [old|]; (eexists; eexists; split; [reflexivity|]).
        * apply (Step (Some old) Eo). intros l. rewrite new_label_names. tauto.
        * apply (Step None Eo). intros l. cbn [names_of In]. tauto.
      + exists g, mapping. split; [reflexivity|]. destruct Hi as [I1 I2 I3 I4 I5 I6].
        split; try assumption; [rewrite Ef; exact I3|]. intros n l. rewrite I6.
        split; (intros [Hl|(b' & B1 & B2 & B3)]; [left; exact Hl | right; exists b']).
        * rewrite in_app_iff. auto.
        * rewrite in_app_iff in B1. destruct B1 as [B1|[<-|[]]]; [auto|]. rewrite Nb in B3. destruct B3.
    - pose proof (image_values done g mapping Hi) as IV. destruct Hi as [I1 I2 I3 I4 I5 I6].
      set (fresh := length (n_nodes g) + 1).
      assert (~ In fresh (node_list g)) as Hfr.
      { intros Hf. apply (num_In g fresh I2) in Hf. unfold fresh in Hf. lia. }
      assert (~ In b (map fst mapping)) as Hbm.
      { rewrite I3. intros Hx. apply filter_In in Hx. tauto. }
      rewrite (add_node_new g fresh lab Hfr), (dset_fresh mapping b fresh Hbm).
      eexists; eexists. split; [reflexivity|].
      assert (forall b', In b' done -> image (mapping ++ [(b, fresh)]) b' = image mapping b') as Eim.
      { intros b' Hb'. unfold image. destruct (port_of ports b'); [reflexivity|].
        rewrite (dget_snoc mapping b fresh b' Hbm). destruct (eq_dec b' b); [congruence | reflexivity]. }
      assert (image (mapping ++ [(b, fresh)]) b = Some fresh) as Eib.
      { unfold image. rewrite E, (dget_snoc mapping b fresh b Hbm). destruct (eq_dec b b); congruence. }
      split; cbn [n_nodes n_edges].
      + exact I1.
      + unfold node_list. cbn [n_nodes]. rewrite map_app, app_length. cbn [map fst length].
        rewrite seq_app. cbn [seq]. apply Permutation_app; [exact I2|].
        unfold fresh. rewrite Nat.add_comm. apply Permutation_refl.
      + rewrite map_app, filter_app. cbn [map fst filter]. rewrite E, I3. reflexivity.
      + rewrite map_app, app_length. cbn [map snd length]. rewrite seq_app, I4. cbn [seq].
        unfold fresh. rewrite I5. do 2 f_equal. lia.
      + rewrite !app_length. cbn [length]. lia.
      + intros n l. specialize (I6 n l). unfold names_at at 1, node_names in I6. unfold names_at at 1, node_names. cbn [n_nodes].
        rewrite (dget_snoc _ fresh lab n Hfr). destruct (eq_dec n fresh) as [->|Nf].
        * assert (names_at p1 fresh = []) as E1.
          { apply names_at_absent. intros Hf. eapply Permutation_in in Hf; [|exact Num].
            apply in_seq in Hf. unfold node_list in Hf. rewrite map_length in Hf. unfold fresh in Hf. lia. }
          rewrite E1. split.
          -- intros Hl. right. exists b. rewrite in_app_iff, Nb. simpl. auto.
          -- intros [[]|(b' & B1 & B2 & B3)]. rewrite in_app_iff in B1.
             destruct B1 as [B1|[<-|[]]]; [|rewrite <- Nb; exact B3].
             rewrite (Eim b' B1) in B2. destruct Hfr.
             exact (IV b' fresh B1 B2).
        * rewrite I6. split; (intros [Hl|(b' & B1 & B2 & B3)]; [left; exact Hl | right; exists b']).
          -- rewrite in_app_iff, (Eim b' B1). auto.
          -- rewrite in_app_iff in B1. destruct B1 as [B1|[<-|[]]]; [rewrite (Eim b' B1) in B2; auto|].
             rewrite Eib in B2. congruence.
  Qed.

  Lemma node_loop_ok : forall nds done g mapping, NoDup (done ++ map fst nds) -> incl nds (n_nodes p2) ->
    nodes_inv done g mapping ->
    exists g' mapping', node_loop ports nds (g, mapping) = inl (g', mapping')
      /\ nodes_inv (done ++ map fst nds) g' mapping'.
  Proof.
    induction nds as [|[b lab] nds IH]; intros done g mapping Hd Hin Hi.
    - exists g, mapping. rewrite app_nil_r. auto.
    - change (map fst ((b, lab) :: nds)) with ([b] ++ map fst nds) in *.
      rewrite app_assoc in Hd |- *.
      destruct (node_step_ok done b lab g mapping) as (g1 & m1 & E & I1).
      + apply NoDup_app_elim in Hd. tauto.
      + apply Hin. left. reflexivity.
      + exact Hi.
      + cbn [node_loop]. rewrite E. apply IH; [exact Hd | | exact I1]. intros x Hx. apply Hin. right. exact Hx.
  Qed.

  Lemma nodes_start : nodes_inv [] p1 [].
  Proof.
    split; try reflexivity.
    - unfold numbered, node_list in *. rewrite map_length in Num. exact Num.
    - cbn [length]. lia.
    - intros n l. split; [tauto|]. intros [|(b & [] & _)]; assumption.
  Qed.

  Context (Hloop : loops_on_ports p2 ports).
  Context (Hm : multi = true \/ (simple p1 /\ simple p2 /\ no_common_edge p1 p2 ports)).

  Definition moved (f : nat -> nat) (e : nat * nat * L) : nat * nat * L :=
    (f (fst (fst e)), f (snd (fst e)), snd e).

  (* the edges, for a mapping that sends the nodes of the second pattern to
     distinct nodes of the graph and ports to ports *)
  Lemma edge_loop_ok mapping f :
    (forall b, In b (node_list p2) -> dget mapping b = Some (f b)) ->
    (forall a b, In (a, b) ports -> f b = a) ->
    (forall b b', In b (node_list p2) -> In b' (node_list p2) -> f b = f b' -> b = b') ->
    (forall b, In b (node_list p2) -> In (f b) (node_list p1) -> In (f b, b) ports) ->
    forall todo done, n_edges p2 = done ++ todo -> forall bound g,
    (forall b, In b (node_list p2) -> In (f b) (node_list g)) ->
    n_edges g = n_edges p1 ++ map (moved f) done ->
    exists g', edge_loop multi ports mapping todo bound g = Ok g'
      /\ n_nodes g' = n_nodes g /\ n_edges g' = n_edges p1 ++ map (moved f) (done ++ todo).
  Proof.
    intros Hmap Hpf Hinj Hback. pose proof Hport as (Hp1 & Hp2 & Hp).
    induction todo as [|[[a b] l] todo IH]; intros done Hs bound g Hin He.
    - exists g. rewrite app_nil_r. auto.
    - assert (In (a, b, l) (n_edges p2)) as Hab by (rewrite Hs; apply in_elt).
      destruct (Cl2 a b l Hab) as [Ha Hb].
      assert (multi = true \/ ~ In (f a, f b) (map fst (n_edges g))) as Hfresh.
      { destruct Hm as [|(S1 & S2 & Hno)]; [left; assumption|]. right. rewrite He, map_app, in_app_iff.
        intros [Hi|Hi]; apply in_map_iff in Hi as ([[x y] l'] & E & Hi); cbn [fst] in E.
        - injection E as -> ->. destruct (Cl1 (f a) (f b) l' Hi) as [C1 C2].
          exact (Hno a b l (f a) (f b) l' Hab (Hback a Ha C1) (Hback b Hb C2) Hi).
        - apply in_map_iff in Hi as ([[x' y'] l2] & E2 & Hi). cbn in E2. injection E2 as <- <- <-.
          injection E as E3 E4.
          assert (In (x', y', l2) (n_edges p2)) as Hx by (rewrite Hs; apply in_or_app; left; exact Hi).
          destruct (Cl2 x' y' l2 Hx) as [C1 C2].
          apply Hinj in E3; [|assumption|assumption]. apply Hinj in E4; [|assumption|assumption]. subst x' y'.
          unfold simple in S2. rewrite Hs, map_app in S2. cbn [map fst] in S2.
          apply NoDup_remove_2 in S2. apply S2, in_or_app. left.
          change (a, b) with (fst (a, b, l2)). apply in_map. exact Hi. }
      assert (exists bound', edge_loop multi ports mapping ((a, b, l) :: todo) bound g =
                edge_loop multi ports mapping todo bound' (add_edge multi g (f a) (f b) l)) as [bound' Estep].
      { cbn [edge_loop]. destruct (port_of ports a) as [x|] eqn:Ea.
        - rewrite (Hmap b Hb). apply (port_of_In ports Hp2) in Ea. rewrite (Hpf x a Ea). exists true. reflexivity.
        - destruct (port_of ports b) as [y|] eqn:Eb.
          + rewrite (Hmap a Ha). apply (port_of_In ports Hp2) in Eb. rewrite (Hpf y b Eb). exists true. reflexivity.
          + destruct (Nat.eqb_spec a b) as [->|_].
            * exfalso. apply (port_of_None ports Hp2) in Eb. apply Eb, (Hloop b l Hab).
            * rewrite (Hmap a Ha), (Hmap b Hb). exists bound. reflexivity. }
      rewrite Estep, add_edge_ok; [|apply Hin, Ha|apply Hin, Hb|exact Hfresh].
      destruct (IH (done ++ [(a, b, l)]) ltac:(rewrite <- app_assoc; exact Hs) bound'
        {| n_nodes := n_nodes g; n_edges := n_edges g ++ [(f a, f b, l)] |}) as (g' & E & N & D).
      + exact Hin.
      + cbn [n_edges]. rewrite He, map_app, app_assoc. reflexivity.
      + exists g'. split; [exact E|]. split; [exact N|]. rewrite <- app_assoc in D. exact D.
  Qed.

  Lemma merge_ok : exists g f,
    merge multi p1 p2 ports = Ok g
    /\ Permutation (node_list g) (seq 1 (length (node_list p1) + length (node_list p2) - length ports))
    /\ (forall b b', In b (node_list p2) -> In b' (node_list p2) -> f b = f b' -> b = b')
    /\ (forall a b, In b (node_list p2) -> (f b = a /\ In a (node_list p1)) <-> In (a, b) ports)
    /\ (forall n, In n (node_list g) <-> In n (node_list p1) \/ exists b, In b (node_list p2) /\ f b = n)
    /\ (forall n l, In l (names_at g n) <->
          In l (names_at p1 n) \/ exists b, In b (node_list p2) /\ f b = n /\ In l (names_at p2 b))
    /\ n_edges g = n_edges p1 ++ map (moved f) (n_edges p2).
  Proof.
    pose proof Hport as (Hp1 & Hp2 & Hp).
    assert (Num' : Permutation (node_list p1) (seq 1 n1)).
    { unfold numbered, node_list in *. rewrite map_length in Num. exact Num. }
    unfold merge. rewrite (first_part_copy p1); [| |exact Cl1|destruct Hm as [|[? _]]; tauto].
    2: { eapply Permutation_NoDup; [apply Permutation_sym, Num | apply seq_NoDup]. }
    unfold second_part.
    destruct (node_loop_ok (n_nodes p2) [] p1 [] Nod2 (fun x Hx => Hx) nodes_start) as (g1 & mp & E & Hi).
    cbn [app] in Hi. change (map fst (n_nodes p2)) with (node_list p2) in Hi. rewrite E.
    set (mapping := fold_left (fun m ab => dset m (snd ab) (fst ab)) ports mp).
    assert (forall b, dget mapping b = image mp b) as Emap by (intros b; apply mapping_ports, Hp2).
    pose (f := fun b => match image mp b with Some x => x | None => 0 end).
    assert (NoDup (map snd mp)) as Hvals by (rewrite (ni_values _ _ _ Hi); apply seq_NoDup).
    assert (forall b, In b (node_list p2) -> image mp b = Some (f b)) as Ef.
    { intros b Hb. unfold f. destruct (image mp b) eqn:Eb; [reflexivity|]. exfalso.
      unfold image in Eb. destruct (port_of ports b) eqn:Ep; [discriminate|].
      apply dget_None in Eb. apply Eb. unfold dkeys. rewrite (ni_keys _ _ _ Hi).
      apply filter_In. rewrite Ep. auto. }
    assert (forall a b, In (a, b) ports -> f b = a) as Hpf.
    { intros a b Hab. apply (port_of_In ports Hp2) in Hab. unfold f, image. rewrite Hab. reflexivity. }
    assert (forall b, port_of ports b = None -> In b (node_list p2) -> In (b, f b) mp) as Hnp.
    { intros b Hb Hin. specialize (Ef b Hin). unfold image in Ef. rewrite Hb in Ef. apply dget_In, Ef. }
    assert (forall b, port_of ports b = None -> In b (node_list p2) -> ~ In (f b) (node_list p1)) as Hnew.
    { intros b Hb Hin H1. eapply Permutation_in in H1; [|exact Num']. apply in_seq in H1.
      apply Hnp, (in_map snd) in Hb; [|exact Hin]. cbn [snd] in Hb.
      rewrite (ni_values _ _ _ Hi) in Hb. apply in_seq in Hb. lia. }
    assert (forall b, In b (node_list p2) -> In (f b) (node_list p1) -> In (f b, b) ports) as Hback.
    { intros b Hb H1. destruct (port_of ports b) as [a|] eqn:Ep.
      - apply (port_of_In ports Hp2) in Ep. rewrite (Hpf a b Ep). exact Ep.
      - destruct (Hnew b Ep Hb H1). }
    assert (forall b b', In b (node_list p2) -> In b' (node_list p2) -> f b = f b' -> b = b') as Hinj.
    { intros b b' Hb Hb' Eb. destruct (port_of ports b) as [a|] eqn:Ep.
      - apply (port_of_In ports Hp2) in Ep. pose proof (Hpf a b Ep) as Fa.
        assert (In (f b', b') ports) as Hb2.
        { apply Hback; [exact Hb'|]. rewrite <- Eb, Fa. apply (Hp a b Ep). }
        rewrite <- Eb, Fa in Hb2. exact (same_snd ports a b b' Hp1 Ep Hb2).
      - destruct (port_of ports b') as [a'|] eqn:Ep'.
        + apply (port_of_In ports Hp2) in Ep'. destruct (Hnew b Ep Hb). rewrite Eb, (Hpf a' b' Ep').
          apply (Hp a' b' Ep').
        + pose proof (Hnp b Ep Hb) as M1. pose proof (Hnp b' Ep' Hb') as M2. rewrite <- Eb in M2.
          exact (same_fst mp b b' (f b) Hvals M1 M2). }
    assert (forall b, In b (node_list p2) -> In (f b) (node_list g1)) as Hin.
    { intros b Hb. exact (image_values _ _ _ Hi b (f b) Hb (Ef b Hb)). }
    destruct (edge_loop_ok mapping f) with (todo := n_edges p2) (done := @nil (nat * nat * L))
      (bound := false) (g := g1) as (g & Eg & Ng & Dg); try assumption.
    { intros b Hb. rewrite Emap. apply Ef, Hb. }
    { reflexivity. }
    { cbn [map]. rewrite app_nil_r. exact (ni_edges _ _ _ Hi). }
    assert (node_list g = node_list g1) as Enl by (unfold node_list; rewrite Ng; reflexivity).
    exists g, f. split; [exact Eg|]. split; [|split; [exact Hinj|split; [|split; [|split]]]].
    - rewrite Enl. eapply Permutation_trans; [exact (ni_num _ _ _ Hi)|].
      rewrite (ni_length _ _ _ Hi).
      replace (length mp) with (length (node_list p2) - length ports).
      + assert (length ports <= length (node_list p2)).
        { rewrite <- (map_length snd ports). apply NoDup_incl_length; [exact Hp2|].
          intros b Hb. apply in_map_iff in Hb as ([a b'] & <- & Hab). apply (Hp a b' Hab). }
        assert (length (node_list p1) = n1) as El by (unfold node_list; apply map_length).
        rewrite El. rewrite Nat.add_sub_assoc by assumption. apply Permutation_refl.
      + rewrite <- (map_length fst mp), (ni_keys _ _ _ Hi).
        assert (length (filter (fun b => negb (nonport b)) (node_list p2)) = length ports) as Ec.
        { rewrite <- (map_length snd ports). apply Permutation_length, NoDup_Permutation.
          - apply NoDup_filter, Nod2.
          - exact Hp2.
          - intros b. rewrite filter_In. split.
            + intros [Hb Hn]. destruct (port_of ports b) as [a|] eqn:Ep; [|discriminate].
              apply (port_of_In ports Hp2) in Ep. apply (in_map snd) in Ep. exact Ep.
            + intros Hb. apply in_map_iff in Hb as ([a b'] & <- & Hab). cbn [snd].
              split; [apply (Hp a b' Hab)|]. apply (port_of_In ports Hp2) in Hab. rewrite Hab. reflexivity. }
        assert (length (filter nonport (node_list p2)) + length (filter (fun b => negb (nonport b)) (node_list p2))
                = length (node_list p2)) as Es.
        { clear. induction (node_list p2) as [|b l IH]; [reflexivity|].
          cbn [filter length]. destruct (port_of ports b); cbn [negb length]; lia. }
        lia.
    - intros a b Hb. split; [intros [<- Ha]; apply Hback; assumption|].
      intros Hab. split; [apply Hpf, Hab | apply (Hp a b Hab)].
    - intros n. rewrite Enl, (num_In g1 n (ni_num _ _ _ Hi)), (ni_length _ _ _ Hi). split.
      + intros Hn. destruct (Nat.le_gt_cases n n1) as [Hle|Hgt].
        * left. eapply Permutation_in; [apply Permutation_sym, Num'|]. apply in_seq. lia.
        * right. assert (In n (map snd mp)) as Hs by (rewrite (ni_values _ _ _ Hi); apply in_seq; lia).
          apply in_map_iff in Hs as ([b n'] & <- & Hs). exists b.
          assert (In b (filter nonport (node_list p2))) as Hf.
          { rewrite <- (ni_keys _ _ _ Hi). apply (in_map fst) in Hs. exact Hs. }
          apply filter_In in Hf as [Hb Hf]. split; [exact Hb|]. cbn [snd].
          unfold f, image. destruct (port_of ports b); [discriminate|].
          rewrite (In_dget mp b n'); [reflexivity| |exact Hs].
          unfold dkeys. rewrite (ni_keys _ _ _ Hi). apply NoDup_filter, Nod2.
      + intros [Hn|(b & Hb & <-)].
        * eapply Permutation_in in Hn; [|exact Num']. apply in_seq in Hn. lia.
        * specialize (Hin b Hb). apply (num_In g1 _ (ni_num _ _ _ Hi)) in Hin.
          rewrite (ni_length _ _ _ Hi) in Hin. exact Hin.
    - intros n l. unfold names_at at 1. rewrite Ng. rewrite (ni_names _ _ _ Hi n l).
      split; (intros [Hl|(b & B1 & B2 & B3)]; [left; exact Hl | right; exists b]).
      + rewrite (Ef b B1) in B2. injection B2 as B2. auto.
      + rewrite (Ef b B1), B2. auto.
    - exact Dg.
  Qed.
End Proofs.

(* ------------------------------------------------------------- theorems *)
(* Merging two patterns at their ports gives a pattern that contains both and
   nothing else: its nodes are those of the first pattern and one more for
   every node of the second that is not a port; ports are identified as the
   candidate says and no other nodes are; the names on a node and the edges
   are exactly those coming from the two patterns.  The result is numbered
   from 1 again, so it can be merged further. *)
Theorem C75_merge_partial {L} `{EqDec L} (multi : bool) (p1 p2 : net L) (ports : list (nat * nat)) :
  numbered p1 -> NoDup (node_list p2) -> closed p1 -> closed p2 -> port_list p1 p2 ports ->
  loops_on_ports p2 ports ->
  multi = true \/ (simple p1 /\ simple p2 /\ no_common_edge p1 p2 ports) ->
  exists g f, merge multi p1 p2 ports = Ok g
    /\ (forall b b', In b (node_list p2) -> In b' (node_list p2) -> f b = f b' -> b = b')
    /\ (forall a b, In b (node_list p2) -> (f b = a /\ In a (node_list p1)) <-> In (a, b) ports)
    /\ (forall n, In n (node_list g) <-> In n (node_list p1) \/ exists b, In b (node_list p2) /\ f b = n)
    /\ (forall n l, In l (names_at g n) <->
          In l (names_at p1 n) \/ exists b, In b (node_list p2) /\ f b = n /\ In l (names_at p2 b))
    /\ n_edges g = n_edges p1 ++ map (fun e => (f (fst (fst e)), f (snd (fst e)), snd e)) (n_edges p2)
    /\ numbered g /\ length (node_list g) = length (node_list p1) + length (node_list p2) - length ports
    /\ closed g /\ (multi = false -> simple g).
Proof.
  intros Hn N2 C1 C2 Hp Hl Hm.
  destruct (merge_ok multi p1 p2 ports Hn N2 C1 C2 Hp Hl Hm) as (g & f & E & A & B & C & D & F & G).
  exists g, f. split; [exact E|]. split; [exact B|]. split; [exact C|]. split; [exact D|].
  split; [exact F|]. split; [exact G|].
  assert (length (node_list g) = length (node_list p1) + length (node_list p2) - length ports) as El.
  { apply Permutation_length in A. rewrite seq_length in A. exact A. }
  split; [unfold numbered; rewrite El; exact A|]. split; [exact El|]. split.
  - intros a b l Hi. rewrite G in Hi. apply in_app_or in Hi as [Hi|Hi].
    + destruct (C1 a b l Hi). split; apply D; left; assumption.
    + apply in_map_iff in Hi as ([[x y] l'] & Ee & Hi). injection Ee as <- <- <-.
      destruct (C2 x y l' Hi). split; apply D; right; eauto.
  - intros ->. destruct Hm as [|(S1 & S2 & Hno)]; [discriminate|].
    unfold simple. rewrite G, map_app. apply NoDup_app_intro; [exact S1| |].
    + rewrite map_map. unfold moved. cbn [fst].
      clear -B C2 S2. unfold simple in S2. unfold closed in C2. revert C2 S2.
      induction (n_edges p2) as [|[[x y] l] es IH]; intros C2 S2; [constructor|].
      cbn [map fst snd] in *. inversion_clear S2 as [|? ? Hx Hs]. constructor.
      * intros Hi. apply in_map_iff in Hi as ([[x' y'] l'] & Ee & Hi). injection Ee as E1 E2.
        destruct (C2 x y l (or_introl eq_refl)) as [A1 A2]. destruct (C2 x' y' l' (or_intror Hi)) as [A3 A4].
        apply B in E1; [|assumption|assumption]. apply B in E2; [|assumption|assumption]. subst.
        apply Hx. change (x, y) with (fst (x, y, l')). apply in_map, Hi.
      * apply IH; [|exact Hs]. intros a b c Hi. apply (C2 a b c). right. exact Hi.
    + intros [u v] H1 H2. apply in_map_iff in H1 as ([[u' v'] l'] & Ee & H1). cbn in Ee. injection Ee as -> ->.
      apply in_map_iff in H2 as ([[u' v'] l2] & Ee & H2). cbn in Ee. injection Ee as -> ->.
      apply in_map_iff in H2 as ([[x y] l] & Ee & H2). cbn in Ee. injection Ee as <- <- <-.
      destruct (C2 x y l H2) as [A1 A2]. destruct (C1 _ _ _ H1) as [A3 A4].
      apply (Hno x y l (f x) (f y) l' H2); [apply C; auto | apply C; auto | exact H1].
Qed.

(* The patterns the search starts from are numbered from 1, closed and simple,
   so every pattern it ever merges is. *)
Theorem C75_singletons {L} `{EqDec L} (multi : bool) (l : L) :
  (numbered (edge_singleton multi l) /\ closed (edge_singleton multi l) /\ simple (edge_singleton multi l)
   /\ n_edges (edge_singleton multi l) = [(1, 2, l)] /\ n_nodes (edge_singleton multi l) = [(1, None); (2, None)])
  /\ (numbered (vertex_singleton l) /\ closed (vertex_singleton l) /\ simple (vertex_singleton l)
   /\ n_edges (vertex_singleton l) = [] /\ names_at (vertex_singleton l) 1 = [l]).
Proof.
  split.
  - assert (edge_singleton multi l = {| n_nodes := [(1, None); (2, None)]; n_edges := [(1, 2, l)] |}) as ->
      by (destruct multi; reflexivity).
    split; [apply Permutation_refl|]. split; [|split; [|split; reflexivity]].
    + intros a b c. simpl. intuition congruence.
    + repeat constructor. intros [].
  - split; [apply Permutation_refl|]. split; [|split; [constructor|split; reflexivity]].
    intros a b c [].
Qed.

(* ---- a non-trivial case: a -> b -> c merged with b -> d at b, with names
   on both sides *)
Example C75_case :
  let p1 := {| n_nodes := [(1, Some (Name 10)); (2, Some (Name 11)); (3, None)];
               n_edges := [(1, 2, 7); (2, 3, 8)] |} in
  let p2 := {| n_nodes := [(1, Some (Name 12)); (2, Some (Name 13))];
               n_edges := [(1, 2, 9); (1, 1, 6)] |} in
  (numbered p1 /\ NoDup (node_list p2) /\ closed p1 /\ closed p2 /\ port_list p1 p2 [(2, 1)]
   /\ loops_on_ports p2 [(2, 1)]
   /\ simple p1 /\ simple p2 /\ no_common_edge p1 p2 [(2, 1)])
  /\ merge false p1 p2 [(2, 1)] =
     Ok {| n_nodes := [(1, Some (Name 10)); (2, Some (Names [12; 11])); (3, None); (4, Some (Name 13))];
           n_edges := [(1, 2, 7); (2, 3, 8); (2, 4, 9); (2, 2, 6)] |}.
Proof.
  cbv zeta. split; [|reflexivity].
  split; [apply Permutation_refl|]. split; [repeat constructor; simpl; intuition congruence|].
  split; [intros a b l; simpl; intuition congruence|].
  split; [intros a b l; simpl; intuition congruence|].
  split; [split; [|split]; [repeat constructor; simpl; tauto | repeat constructor; simpl; tauto |
          intros a b; simpl; intuition congruence]|].
  split; [intros a l; simpl; intuition congruence|].
  split; [repeat constructor; simpl; intuition congruence|].
  split; [repeat constructor; simpl; intuition congruence|].
  intros a b l x y l'; simpl; intuition congruence.
Qed.

(* A loop of the second pattern on a node that is not a port: the merge
   raises, whichever edge comes first. *)
Theorem C75_loop_refuted :
  exists (p1 p2 : net nat) (ports : list (nat * nat)),
    numbered p1 /\ numbered p2 /\ closed p1 /\ closed p2 /\ port_list p1 p2 ports
    /\ merge true p1 p2 ports = Fails (Raises TypeError)
    /\ merge true p1 {| n_nodes := n_nodes p2; n_edges := rev (n_edges p2) |} ports = Fails UnboundLocalError.
Proof.
  exists {| n_nodes := [(1, Some (Name 10))]; n_edges := [] |}.
  exists {| n_nodes := [(1, None); (2, None)]; n_edges := [(1, 2, 7); (2, 2, 8)] |}.
  exists [(1, 1)].
  split; [apply Permutation_refl|]. split; [apply Permutation_refl|].
  split; [intros a b l []|]. split; [intros a b l; simpl; intuition congruence|].
  split; [|split; reflexivity].
  split; [repeat constructor; simpl; tauto|]. split; [repeat constructor; simpl; tauto|].
  intros a b; simpl; intuition congruence.
Qed.

(* A third name on a node turns its label into a list, and the number of
   labels of the merged pattern cannot be computed any more (C58_list_error):
   the search raises TypeError when it adds the row. *)
Definition as_graph {L} (p : net L) : graph L :=
  {| nodes := n_nodes p; edges := map (fun e => (fst e, Some (Name (snd e)))) (n_edges p) |}.
Theorem C75_three_names_refuted :
  forall a b c : nat, a <> b -> exists ab abc,
    merge false (vertex_singleton a) (vertex_singleton b) [(1, 1)] = Ok ab
    /\ merge false ab (vertex_singleton c) [(1, 1)] = Ok abc
    /\ get_total_label (as_graph ab) = Ret 2
    /\ get_total_label (as_graph abc) = Exn TypeError.
Proof.
  intros a b c Nab.
  exists {| n_nodes := [(1, Some (Names [b; a]))]; n_edges := [] |}.
  exists {| n_nodes := [(1, Some (NameList (if mem c [b; a] then [b; a] else [b; a] ++ [c])))]; n_edges := [] |}.
  split; [|split; [reflexivity|split; [|reflexivity]]].
  - cbn -[eqd]. rewrite (proj2 (eqd_false b a)) by congruence. reflexivity.
  - unfold get_total_label, count_vertex_label, count_edge_label, as_graph, counter. cbn -[eq_dec].
    destruct (eq_dec a b) as [->|]; [congruence|]. cbn -[eq_dec]. destruct (eq_dec a b) as [->|]; [congruence | reflexivity].
Qed.

(* In a DiGraph, an edge of the second pattern between two ports that lies on
   an edge of the first takes its place: the name of the first is lost. *)
Theorem C75_common_edge_refuted :
  exists (p1 p2 : net nat) (ports : list (nat * nat)) g,
    numbered p1 /\ numbered p2 /\ closed p1 /\ closed p2 /\ port_list p1 p2 ports
    /\ simple p1 /\ simple p2 /\ merge false p1 p2 ports = Ok g
    /\ In (1, 2, 7) (n_edges p1) /\ ~ In 7 (map snd (n_edges g)).
Proof.
  exists {| n_nodes := [(1, None); (2, None)]; n_edges := [(1, 2, 7)] |}.
  exists {| n_nodes := [(1, None); (2, None)]; n_edges := [(1, 2, 8)] |}.
  exists [(1, 1); (2, 2)]. eexists.
  split; [apply Permutation_refl|]. split; [apply Permutation_refl|].
  split; [intros a b l; simpl; intuition congruence|]. split; [intros a b l; simpl; intuition congruence|].
  split; [split; [|split]; [repeat constructor; simpl; intuition congruence |
          repeat constructor; simpl; intuition congruence | intros a b; simpl; intuition congruence]|].
  split; [repeat constructor; simpl; tauto|]. split; [repeat constructor; simpl; tauto|].
  split; [reflexivity|]. simpl. split; [tauto | intuition congruence].
Qed.

Print Assumptions C75_merge_partial.
Print Assumptions C75_singletons.
Print Assumptions C75_loop_refuted.
Print Assumptions C75_three_names_refuted.
Print Assumptions C75_common_edge_refuted.
