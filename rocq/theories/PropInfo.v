(* C104: what the reports say about a rewritten graph. *)
From Verif Require Import Prelude CheckModel LCMModel VerticalProofs GraphUtilModel GraphCoverModel PropGraphCover
  MergeModel PropMerge RewriteModel RewriteProofs PropRewrite InfoModel.

Section C104.
  Context {L : Type} `{EqDec L}.
  Context (row_name node_name : nat -> L).
  Context (node_inj : forall n m, node_name n = node_name m -> n = m).

  (* ------------------------------------------------------- specification *)
  (* the name of a use: P0, P1, ... or the name of the singleton *)
  Definition name (x : entry L) : L := r_label (use_node row_name x).
  Definition singleton_use (x : entry L) : bool := match e_use x with RowUse _ _ => false | _ => true end.
  (* no use has the number of a data node for name, and its ports are different data nodes *)
  Definition clear_log (log : list (entry L)) : Prop :=
    forall x, In x log -> (forall n, name x <> node_name n) /\ NoDup (map fst (e_ports x)).
  Definition ports_of (x : entry L) : list nat := map snd (e_ports x).
  Definition at_port (n : nat) (x : entry L) : bool := mem n (map fst (e_ports x)).
  Definition uses_at (n : nat) (log : list (entry L)) : list (L * nat) :=
    flat_map (fun x => map (fun p => (name x, snd p)) (filter (fun p => fst p =? n) (e_ports x))) log.
  Definition named (l : L) (log : list (entry L)) : list (entry L) := filter (fun x => eqd (name x) l) log.
  Definition is_ports (i : info) : bool := negb (is_mark i).

  (* -------------------------------------------------------------- proofs *)
  Notation port_node := (port_node node_name).
  Notation use_node := (use_node row_name).
  Notation create := (create_rewrite_edge node_name).
  Fixpoint fresh (seen : list nat) (ps : list (nat * nat)) : list nat :=
    match ps with [] => [] | p :: t => if mem (fst p) seen then fresh seen t else fst p :: fresh (seen ++ [fst p]) t end.
  Fixpoint nodes_of (seen : list nat) (log : list (entry L)) : list (rnode L) :=
    match log with [] => [] | x :: t => use_node x :: map port_node (fresh seen (e_ports x)) ++ nodes_of (seen ++ fresh seen (e_ports x)) t end.
  Fixpoint places (k : nat) (seen : list nat) (log : list (entry L)) : list (nat * entry L) :=
    match log with [] => [] | x :: t => (k, x) :: places (k + 1 + length (fresh seen (e_ports x))) (seen ++ fresh seen (e_ports x)) t end.
  Definition num (ns : list (rnode L)) (n : nat) : nat := match labelled ns 1 (node_name n) with Some q => q | None => 0 end.
  Definition arcs (ns : list (rnode L)) (q : nat) (ps : list (nat * nat)) : list ((nat * nat) * nat) := map (fun p => ((q, num ns (fst p)), snd p)) ps.
  Definition knows (ns : list (rnode L)) (seen : list nat) : Prop := forall n, In (node_name n) (map r_label ns) <-> In n seen.

  Lemma dset_append {K V} `{EqDec K} (d : dict K V) k v : ~ In k (dkeys d) -> dset d k v = d ++ [(k, v)].
  Proof.
    induction d as [|[a b] d IH]; intros N; [reflexivity|]. cbn [dset]. cbn [dkeys map fst] in N. destruct (eq_dec k a) as [->|D]; [elim N; left; reflexivity|].
    cbn [app]. f_equal. apply IH. intros I. apply N. right. exact I.
  Qed.
  Lemma labelled_app ns ns' l : forall i, labelled (ns ++ ns') i l = match labelled ns i l with Some q => Some q | None => labelled ns' (i + length ns) l end.
  Proof.
    induction ns as [|z ns IH]; intros i; cbn [app labelled length]; [rewrite Nat.add_0_r; reflexivity|]. destruct (eqd (r_label z) l); [reflexivity|].
    rewrite IH. replace (S i + length ns) with (i + S (length ns)) by lia. reflexivity.
  Qed.
  Lemma labelled_known ns l : (exists q, labelled ns 1 l = Some q) <-> In l (map r_label ns).
  Proof.
    pose proof (labelled_spec ns l 1) as S. split.
    - intros (q & E). rewrite E in S. destruct S as (j & z & _ & E' & <-). apply in_map, nth_error_In with j, E'.
    - intros I. destruct (labelled ns 1 l) as [q|]; [eauto|]. apply in_map_iff in I. destruct I as (z & <- & I). elim (S z I). reflexivity.
  Qed.
  Lemma num_label ns n : In (node_name n) (map r_label ns) -> exists z, num ns n = S (Nat.pred (num ns n)) /\ nth_error ns (Nat.pred (num ns n)) = Some z /\ r_label z = node_name n.
  Proof.
    intros I. apply labelled_known in I. destruct I as (q & E). unfold num. rewrite E. pose proof (labelled_spec ns (node_name n) 1) as S. rewrite E in S.
    destruct S as (j & z & -> & E' & El). exists z. cbn. auto.
  Qed.
  Lemma num_inj ns n m : In (node_name n) (map r_label ns) -> In (node_name m) (map r_label ns) -> num ns n = num ns m -> n = m.
  Proof.
    intros I J E. destruct (num_label ns n I) as (z & _ & E1 & L1), (num_label ns m J) as (w & _ & E2 & L2). rewrite E, E2 in E1. injection E1 as ->. apply node_inj. congruence.
  Qed.
  Lemma num_app ns ns' n : In (node_name n) (map r_label ns) -> num (ns ++ ns') n = num ns n.
  Proof. intros I. apply labelled_known in I. destruct I as (q & E). unfold num. rewrite labelled_app, E. reflexivity. Qed.
  Lemma arcs_app ns ns' q ps : (forall p, In p ps -> In (node_name (fst p)) (map r_label ns)) -> arcs (ns ++ ns') q ps = arcs ns q ps.
  Proof. intros I. unfold arcs. apply map_ext_in. intros p J. rewrite num_app; [reflexivity | apply I, J]. Qed.

  Lemma ports_fold id : forall todo r seen E0 don, knows (r_nodes r) seen -> (forall e, In e E0 -> fst (fst e) <> id) ->
    NoDup (map fst (don ++ todo)) -> incl (map fst don) seen -> r_edges r = E0 ++ arcs (r_nodes r) id don ->
    let r' := fold_left (fun r p => create r id p) todo r in
    r_nodes r' = r_nodes r ++ map port_node (fresh seen todo) /\ knows (r_nodes r') (seen ++ fresh seen todo) /\
    incl (map fst (don ++ todo)) (seen ++ fresh seen todo) /\ r_edges r' = E0 ++ arcs (r_nodes r') id (don ++ todo).
  Proof.
    induction todo as [|[n v] todo IH]; intros r seen E0 don K S N I E; cbn [fold_left fresh].
    - cbn [map]. rewrite !app_nil_r. auto.
    - cbn [fst].
      assert (Hn : ~ In n (map fst don)).
      { intros X. rewrite map_app in N. apply NoDup_app_elim in N. destruct N as (_ & _ & N). apply (N n X). left. reflexivity. }
      assert (Key : forall y, (forall p, In p don -> num (r_nodes r) (fst p) <> y) -> ~ In (id, y) (dkeys (r_edges r))).
      { intros y Hy X. rewrite E in X. unfold dkeys in X. rewrite map_app, in_app_iff in X. destruct X as [X|X]; apply in_map_iff in X; destruct X as (e & Ee & X).
        - apply (S e X). rewrite Ee. reflexivity.
        - unfold arcs in X. apply in_map_iff in X. destruct X as (p & <- & X). cbn in Ee. injection Ee as Ee. exact (Hy p X Ee). }
      assert (Lbl : forall p, In p don -> In (node_name (fst p)) (map r_label (r_nodes r))) by (intros p X; apply K, I, in_map, X).
      assert (Shape : don ++ (n, v) :: todo = (don ++ [(n, v)]) ++ todo) by (rewrite <- app_assoc; reflexivity).
      pose proof (labelled_known (r_nodes r) (node_name n)) as LK.
      destruct (labelled (r_nodes r) 1 (node_name n)) as [y|] eqn:Ey.
      + assert (In_n : In (node_name n) (map r_label (r_nodes r))) by (apply LK; eauto).
        assert (En : num (r_nodes r) n = y) by (unfold num; rewrite Ey; reflexivity).
        assert (Cr : create r id (n, v) = add_redge r id y v) by (unfold create_rewrite_edge; cbn [fst snd]; rewrite Ey; reflexivity). rewrite Cr.
        assert (mem n seen = true) as -> by (apply mem_In, K, In_n). rewrite Shape in *.
        apply (IH (add_redge r id y v) seen E0 (don ++ [(n, v)])); [exact K | exact S | exact N | |].
        * rewrite map_app. cbn [map fst]. intros x X. apply in_app_or in X. destruct X as [X|[<-|[]]]; [exact (I x X) | apply K, In_n].
        * cbn [add_redge r_nodes r_edges]. rewrite dset_append.
          -- rewrite E. unfold arcs. rewrite map_app, <- app_assoc. cbn [map fst snd]. rewrite En. reflexivity.
          -- apply Key. intros p X Ep. rewrite <- En in Ep. apply num_inj in Ep; [|apply Lbl, X | exact In_n]. apply Hn. rewrite <- Ep. apply in_map, X.
      + assert (Nn : ~ In (node_name n) (map r_label (r_nodes r))) by (intros X; apply LK in X; destruct X; discriminate).
        assert (Cr : create r id (n, v) = add_redge (add_rnode r (port_node n)) id (length (r_nodes r) + 1) v) by (unfold create_rewrite_edge; cbn [fst snd]; rewrite Ey; reflexivity). rewrite Cr.
        assert (mem n seen = false) as -> by (apply not_true_is_false; intros X; apply mem_In in X; apply Nn, K, X). rewrite Shape in *. cbn [map].
        set (r1 := add_redge (add_rnode r (port_node n)) id (length (r_nodes r) + 1) v).
        assert (K1 : knows (r_nodes r1) (seen ++ [n])).
        { intros m. cbn [r1 add_redge add_rnode r_nodes]. rewrite map_app, !in_app_iff. cbn [map In r_label RewriteProofs.port_node]. rewrite (K m).
          split; (intros [X|[X|[]]]; [left; exact X | right; left]); [apply node_inj, X | congruence]. }
        assert (En : num (r_nodes r1) n = length (r_nodes r) + 1).
        { unfold num. cbn [r1 add_redge add_rnode r_nodes]. rewrite labelled_app, Ey. cbn [labelled r_label RewriteProofs.port_node]. rewrite eqd_refl. lia. }
        destruct (IH r1 (seen ++ [n]) E0 (don ++ [(n, v)])) as (A & B & C & D); [exact K1 | exact S | exact N | | |].
        * rewrite map_app. cbn [map fst]. intros x X. apply in_app_or in X. apply in_or_app. destruct X as [X|X]; [left; exact (I x X) | right; exact X].
        * unfold arcs. rewrite map_app, app_assoc. cbn [map fst snd]. rewrite En. fold (arcs (r_nodes r1) id don). cbn [r1 add_redge add_rnode r_nodes r_edges].
          rewrite arcs_app by exact Lbl. rewrite <- E. apply dset_append, Key. intros p X Ep. destruct (num_label _ _ (Lbl p X)) as (w & _ & Ew & _).
          rewrite Ep in Ew. replace (Nat.pred (length (r_nodes r) + 1)) with (length (r_nodes r)) in Ew by lia.
          assert (nth_error (r_nodes r) (length (r_nodes r)) = None) by (apply nth_error_None; lia). congruence.
        * cbn [r1 add_redge add_rnode r_nodes] in A. rewrite <- !app_assoc in *. cbn [app] in *. auto.
  Qed.
  Lemma uses_fold : forall log r seen, clear_log log -> knows (r_nodes r) seen -> (forall e, In e (r_edges r) -> fst (fst e) <= length (r_nodes r)) ->
    let r' := fold_left (rewrite_use row_name node_name) log r in
    r_nodes r' = r_nodes r ++ nodes_of seen log /\ 
    (exists seen', knows (r_nodes r') (seen ++ seen') /\ forall x, In x log -> incl (map fst (e_ports x)) (seen ++ seen')) /\
    r_edges r' = r_edges r ++ flat_map (fun qx => arcs (r_nodes r') (fst qx) (e_ports (snd qx))) (places (length (r_nodes r) + 1) seen log).
  Proof.
    induction log as [|x log IH]; intros r seen C K B; cbn [fold_left nodes_of places].
    - cbn [flat_map]. rewrite !app_nil_r. split; [reflexivity|]. split; [|reflexivity]. exists []. rewrite app_nil_r. split; [exact K | intros x []].
    - destruct (C x (or_introl eq_refl)) as (Nm & Nd). set (id := length (r_nodes r) + 1). set (r1 := rewrite_use row_name node_name r x).
      destruct (ports_fold id (e_ports x) (add_rnode r (use_node x)) seen (r_edges r) []) as (N1 & K1 & I1 & E1).
      + intros n. cbn [add_rnode r_nodes]. rewrite map_app, in_app_iff. cbn [map In]. rewrite (K n). split; [|auto]. intros [X|[X|[]]]; [exact X | elim (Nm n X)].
      + intros e X. apply B in X. unfold id. lia.
      + exact Nd.
      + intros n [].
      + cbn [arcs map add_rnode r_edges]. rewrite app_nil_r. reflexivity.
      + change (fold_left (fun r p => create r id p) (e_ports x) (add_rnode r (use_node x))) with r1 in *. cbn [add_rnode r_nodes app] in *.
        set (f := fresh seen (e_ports x)) in *. rewrite <- app_assoc in N1. cbn [app] in N1.
        assert (Len : length (r_nodes r1) = length (r_nodes r) + 1 + length f) by (rewrite N1, app_length; cbn [length]; rewrite map_length; lia).
        destruct (IH r1 (seen ++ f)) as (N2 & (seen' & K2 & I2) & E2).
        * intros y Iy. apply C. right. exact Iy.
        * exact K1.
        * intros e X. rewrite E1 in X. apply in_app_or in X. destruct X as [X|X]; [apply B in X; lia|]. unfold arcs in X. apply in_map_iff in X. destruct X as (p & <- & _).
          cbn [fst]. unfold id. lia.
        * set (r2 := fold_left (rewrite_use row_name node_name) log r1) in *. split; [|split].
          -- rewrite N2, N1, <- app_assoc. reflexivity.
          -- exists (f ++ seen'). rewrite <- app_assoc in K2, I2. split; [exact K2|]. intros y [<-|Iy]; [|exact (I2 y Iy)]. intros n X. apply I1 in X.
             rewrite app_assoc. apply in_or_app. left. exact X.
          -- rewrite E2. cbn [flat_map fst snd]. rewrite app_assoc. f_equal; [|f_equal; f_equal; unfold id; lia]. rewrite E1. f_equal.
             rewrite N2. symmetry. apply arcs_app. intros p Ip. apply K1, I1, in_map, Ip.
  Qed.
  Lemma rewrite_layout log : clear_log log -> let r := rewrite row_name node_name log in
    r_nodes r = nodes_of [] log /\ (forall x n, In x log -> In n (map fst (e_ports x)) -> In (node_name n) (map r_label (r_nodes r))) /\
    r_edges r = flat_map (fun qx => arcs (r_nodes r) (fst qx) (e_ports (snd qx))) (places 1 [] log).
  Proof.
    intros C. destruct (uses_fold log {| r_nodes := []; r_edges := [] |} [] C) as (N & (seen & K & I) & E).
    - intros n. cbn. tauto.
    - intros e [].
    - split; [exact N|]. split; [|exact E]. intros x n Ix In_. apply K, (I x Ix), In_.
  Qed.
  Lemma places_map : forall log k seen, map snd (places k seen log) = log.
  Proof. induction log as [|x log IH]; intros k seen; cbn [places map snd]; [reflexivity | rewrite IH; reflexivity]. Qed.
  Lemma places_ge : forall log k seen qx, In qx (places k seen log) -> k <= fst qx.
  Proof.
    induction log as [|x log IH]; intros k seen qx; cbn [places]; [intros []|]. intros [<-|I]; [cbn; lia|]. apply IH in I. lia.
  Qed.
  Lemma places_node : forall log k seen q x, In (q, x) (places k seen log) -> nth_error (nodes_of seen log) (q - k) = Some (use_node x).
  Proof.
    induction log as [|y log IH]; intros k seen q x; cbn [places nodes_of]; [intros []|]. intros [E|I].
    - injection E as <- <-. rewrite Nat.sub_diag. reflexivity.
    - pose proof (places_ge _ _ _ _ I) as G. cbn [fst] in G. apply IH in I. replace (q - k) with (S (q - k - 1)) by lia. cbn [nth_error].
      rewrite nth_error_app2; rewrite map_length; [|lia]. rewrite <- I. f_equal. lia.
  Qed.
  Lemma out_edges_place log q x : clear_log log -> In (q, x) (places 1 [] log) ->
    out_edges (rewrite row_name node_name log) q = arcs (r_nodes (rewrite row_name node_name log)) q (e_ports x).
  Proof.
    intros C I. unfold out_edges. destruct (rewrite_layout log C) as (_ & _ & E). rewrite E. set (ns := r_nodes (rewrite row_name node_name log)). clearbody ns. clear E C.
    assert (Same : forall q ps, filter (fun e => fst (fst e) =? q) (arcs ns q ps) = arcs ns q ps).
    { intros q' ps. unfold arcs. induction ps as [|p ps IH]; cbn [map filter]; [reflexivity|]. cbn [fst]. rewrite Nat.eqb_refl, IH. reflexivity. }
    assert (Other : forall q q' ps, q' <> q -> filter (fun e => fst (fst e) =? q) (arcs ns q' ps) = []).
    { intros q0 q' ps D. unfold arcs. induction ps as [|p ps IH]; cbn [map filter]; [reflexivity|]. cbn [fst]. rewrite (proj2 (Nat.eqb_neq q' q0) D). exact IH. }
    assert (Far : forall log k seen q, q < k -> filter (fun e => fst (fst e) =? q) (flat_map (fun qx => arcs ns (fst qx) (e_ports (snd qx))) (places k seen log)) = []).
    { induction log0 as [|y l IH]; intros k seen q0 Hq; cbn [places flat_map]; [reflexivity|]. rewrite filter_app. cbn [fst snd]. rewrite Other by lia. apply IH. lia. }
    revert I. generalize 1, (@nil nat). induction log as [|y l IH]; intros k seen; cbn [places flat_map]; [intros []|]. rewrite filter_app. cbn [fst snd]. intros [Ey|I].
    - injection Ey as <- <-. rewrite Same, Far by lia. apply app_nil_r.
    - pose proof (places_ge _ _ _ _ I) as G. cbn [fst] in G. rewrite Other by lia. exact (IH _ _ I).
  Qed.
  Fixpoint firsts (seen : list nat) (log : list (entry L)) : list nat :=
    match log with [] => [] | x :: t => fresh seen (e_ports x) ++ firsts (seen ++ fresh seen (e_ports x)) t end.
  Lemma fresh_In : forall ps seen n, In n (fresh seen ps) <-> In n (map fst ps) /\ ~ In n seen.
  Proof.
    induction ps as [|p ps IH]; intros seen n; cbn [fresh map]; [cbn; tauto|]. destruct (mem (fst p) seen) eqn:M.
    - apply mem_In in M. rewrite IH. cbn [In]. split; [tauto|]. intros ([<-|X] & Y); [contradiction | tauto].
    - assert (N : ~ In (fst p) seen) by (intros X; apply mem_In in X; congruence). cbn [In]. rewrite IH, in_app_iff. cbn [In]. split.
      + intros [<-|(X & Y)]; [tauto|]. split; [tauto|]. tauto.
      + intros ([X|X] & Y); [tauto|]. destruct (Nat.eq_dec (fst p) n) as [E|E]; [tauto|]. right. split; [exact X|]. intros [Z|[Z|[]]]; tauto.
  Qed.
  Lemma fresh_NoDup : forall ps seen, NoDup (fresh seen ps).
  Proof.
    induction ps as [|p ps IH]; intros seen; cbn [fresh]; [constructor|]. destruct (mem (fst p) seen); [apply IH|]. constructor; [|apply IH].
    intros X. apply fresh_In in X. destruct X as (_ & X). apply X, in_or_app. right. left. reflexivity.
  Qed.
  Lemma firsts_In : forall log seen n, In n (firsts seen log) <-> (exists x, In x log /\ In n (map fst (e_ports x))) /\ ~ In n seen.
  Proof.
    induction log as [|x log IH]; intros seen n; cbn [firsts].
    - split; [intros [] | intros ((x & [] & _) & _)].
    - rewrite in_app_iff, IH, fresh_In, in_app_iff, fresh_In. split.
      + intros [(X & Y)|((y & Iy & X) & Y)]; (split; [|tauto]); [exists x | exists y]; cbn; tauto.
      + intros ((y & [<-|Iy] & X) & Y); [tauto|]. destruct (in_dec Nat.eq_dec n (map fst (e_ports x))); [tauto|]. right. split; [eauto | tauto].
  Qed.
  Lemma firsts_NoDup : forall log seen, NoDup (firsts seen log).
  Proof.
    induction log as [|x log IH]; intros seen; cbn [firsts]; [constructor|]. apply NoDup_app_intro; [apply fresh_NoDup | apply IH|].
    intros n X Y. apply firsts_In in Y. destruct Y as (_ & Y). apply Y, in_or_app. right. exact X.
  Qed.
  Lemma use_pattern x : is_pattern (use_node x) = true.
  Proof. unfold RewriteModel.use_node. destruct (e_use x); reflexivity. Qed.
  Lemma use_single x : is_singleton (use_node x) = singleton_use x.
  Proof. unfold RewriteModel.use_node, singleton_use. destruct (e_use x); reflexivity. Qed.
  Lemma port_filter : forall log seen, filter (fun z => negb (is_pattern z)) (nodes_of seen log) = map port_node (firsts seen log).
  Proof.
    induction log as [|x log IH]; intros seen; cbn [nodes_of firsts filter]; [reflexivity|]. rewrite use_pattern. cbn [negb]. rewrite filter_app, map_app, IH. f_equal.
    generalize (fresh seen (e_ports x)). induction l as [|n l IHl]; cbn [map filter is_pattern RewriteProofs.port_node negb]; [reflexivity | rewrite IHl; reflexivity].
  Qed.
  Lemma count_filter : forall (ns : list (rnode L)) k a,
    fold_left (fun n qz => if is_pattern (snd qz) then n else n + 1) (combine (seq k (length ns)) ns) a = a + length (filter (fun z => negb (is_pattern z)) ns).
  Proof.
    induction ns as [|z ns IH]; intros k a; cbn [length seq combine fold_left filter snd]; [lia|]. rewrite IH. destruct (is_pattern z); cbn [negb length]; lia.
  Qed.
  (* the number of ports is the number of different data nodes at which the uses meet *)
  Theorem C104_count log : clear_log log ->
    count_port_node (rewrite row_name node_name log) = length (nodup eq_dec (flat_map (fun x => map fst (e_ports x)) log)).
  Proof.
    intros C. unfold count_port_node, numbered. rewrite count_filter. destruct (rewrite_layout log C) as (N & _). rewrite N, port_filter, map_length. cbn [Nat.add].
    apply Permutation_length, NoDup_Permutation; [apply firsts_NoDup | apply NoDup_nodup|]. intros n. rewrite firsts_In, nodup_In, in_flat_map. cbn. tauto.
  Qed.
  Print Assumptions C104_count.

  (* --- patterns *)
  Definition listed (d : dict L (list info)) (log : list (entry L)) : Prop :=
    (forall l, (forall n, l <> node_name n) ->
       match dget d l with
       | None => named l log = []
       | Some is => named l log <> [] /\ filter is_ports is = map (fun x => Ports (ports_of x)) (named l log) /\
                    length (filter is_mark is) = if existsb singleton_use (named l log) then 1 else 0
       end) /\
    (forall n, dget d (node_name n) = option_map (fun x => [Ports (ports_of x)]) (find (at_port n) log)).
  Lemma dget_pushed d l i l' : dget (pushed d l i) l' = if eq_dec l' l then Some (match dget d l with Some is => is | None => [] end ++ [i]) else dget d l'.
  Proof. unfold pushed. destruct (dget d l) eqn:E; rewrite VerticalProofs.dget_dset; destruct (eq_dec l' l) as [->|]; reflexivity. Qed.
  Lemma existsb_marks is : existsb is_mark is = negb (length (filter is_mark is) =? 0).
  Proof. induction is as [|[vs|] is IH]; cbn [existsb filter is_mark length orb negb]; [reflexivity | exact IH | reflexivity]. Qed.
  Lemma named_snoc l log x : named l (log ++ [x]) = named l log ++ (if eqd (name x) l then [x] else []).
  Proof. unfold named. rewrite filter_app. cbn [filter]. destruct (eqd (name x) l); reflexivity. Qed.
  Lemma find_snoc {A} (f : A -> bool) l x : find f (l ++ [x]) = match find f l with Some y => Some y | None => if f x then Some x else None end.
  Proof. induction l as [|a l IH]; cbn [app find]; [reflexivity|]. destruct (f a); [reflexivity | exact IH]. Qed.

  Section Turns.
  Context (r : rgraph L).
  (* the turn at a use: all but the entries of its new ports *)
  Lemma use_turn d res log0 q x : (forall n, name x <> node_name n) -> map snd (out_edges r q) = ports_of x -> listed d log0 ->
    exists d1, info_turn r (d, res) (q, use_node x) = Ret (d1, Some (ports_of x)) /\
      (forall l, l <> name x -> dget d1 l = dget d l) /\
      (exists is, dget d1 (name x) = Some is /\ filter is_ports is = map (fun x => Ports (ports_of x)) (named (name x) (log0 ++ [x])) /\
         length (filter is_mark is) = if existsb singleton_use (named (name x) (log0 ++ [x])) then 1 else 0).
  Proof.
    intros Nm E (A & _). unfold info_turn. rewrite use_pattern, use_single, E. cbn [fst]. change (r_label (use_node x)) with (name x).
    specialize (A (name x) Nm). rewrite named_snoc, eqd_refl, map_app, existsb_app. cbn [map existsb]. rewrite orb_false_r.
    set (old := match dget d (name x) with Some is => is | None => [] end).
    assert (Old : filter is_ports old = map (fun x => Ports (ports_of x)) (named (name x) log0) /\
                  length (filter is_mark old) = if existsb singleton_use (named (name x) log0) then 1 else 0).
    { unfold old. destruct (dget d (name x)) as [is|]; [tauto|]. rewrite A. auto. }
    destruct Old as (O1 & O2). pose proof (dget_pushed d (name x) (Ports (ports_of x)) (name x)) as G. destruct (eq_dec (name x) (name x)) as [_|D]; [|congruence]. fold old in G.
    assert (Oth : forall l, l <> name x -> dget (pushed d (name x) (Ports (ports_of x))) l = dget d l).
    { intros l D. rewrite dget_pushed. destruct (eq_dec l (name x)); [contradiction | reflexivity]. }
    destruct (singleton_use x) eqn:Sx.
    - rewrite G, existsb_marks, filter_app, app_length. cbn [filter is_mark length]. rewrite Nat.add_0_r, O2. rewrite orb_true_r.
      destruct (existsb singleton_use (named (name x) log0)); cbn [Nat.eqb negb].
      + eexists. split; [reflexivity|]. split; [exact Oth|]. eexists. split; [exact G|]. rewrite !filter_app, O1, app_length, O2. cbn. auto.
      + eexists. split; [reflexivity|]. split.
        * intros l D. rewrite dget_pushed. destruct (eq_dec l (name x)); [contradiction | apply Oth, D].
        * eexists. split; [rewrite dget_pushed; destruct (eq_dec (name x) (name x)) as [_|D]; [|congruence]; rewrite G; reflexivity|].
          rewrite !filter_app, O1, !app_length, O2. cbn. rewrite app_nil_r. auto.
    - eexists. split; [reflexivity|]. split; [exact Oth|]. eexists. split; [exact G|]. rewrite !filter_app, O1, app_length, O2, orb_false_r. cbn.
      rewrite Nat.add_0_r. auto.
  Qed.
  Lemma ports_turns vs : forall fs d k, NoDup fs -> (forall n, In n fs -> dget d (node_name n) = None) ->
    exists d', fold_out (info_turn r) (combine (seq k (length fs)) (map port_node fs)) (d, Some vs) = Ret (d', Some vs) /\
      (forall l, (forall n, In n fs -> l <> node_name n) -> dget d' l = dget d l) /\ (forall n, In n fs -> dget d' (node_name n) = Some [Ports vs]).
  Proof.
    induction fs as [|n fs IH]; intros d k N F; cbn [length seq combine map fold_out].
    - exists d. split; [reflexivity|]. split; [auto | intros n []].
    - inversion N as [|? ? Nn N']; subst. unfold info_turn at 1. cbn [is_pattern is_singleton r_label RewriteProofs.port_node fst snd bind].
      pose proof (dget_pushed d (node_name n) (Ports vs)) as G. rewrite (F n (or_introl eq_refl)) in G. cbn [app] in G.
      destruct (IH (pushed d (node_name n) (Ports vs)) (S k) N') as (d' & E & O & I).
      { intros m Im. rewrite G. destruct (eq_dec (node_name m) (node_name n)) as [X|X]; [apply node_inj in X; subst; contradiction | apply F; right; exact Im]. }
      exists d'. split; [exact E|]. split.
      + intros l Hl. rewrite O by (intros m Im; apply Hl; right; exact Im). rewrite G. destruct (eq_dec l (node_name n)) as [X|X]; [elim (Hl n (or_introl eq_refl) X) | reflexivity].
      + intros m [<-|Im]; [|exact (I m Im)]. rewrite O; [rewrite G; destruct (eq_dec (node_name n) (node_name n)); congruence|].
        intros m Im X. apply node_inj in X. subst. contradiction.
  Qed.
  Lemma combine_seq_app {A} : forall (a b : list A) k, combine (seq k (length (a ++ b))) (a ++ b) = combine (seq k (length a)) a ++ combine (seq (k + length a) (length b)) b.
  Proof.
    induction a as [|x a IH]; intros b k; cbn [app length seq combine]; [rewrite Nat.add_0_r; reflexivity|]. rewrite IH. replace (S k + length a) with (k + S (length a)) by lia. reflexivity.
  Qed.
  Lemma info_fold : forall log seen d res log0 k, clear_log log ->
    (forall q x, In (q, x) (places k seen log) -> map snd (out_edges r q) = ports_of x) ->
    (forall n, In n seen <-> find (at_port n) log0 <> None) -> listed d log0 ->
    exists d' res', fold_out (info_turn r) (combine (seq k (length (nodes_of seen log))) (nodes_of seen log)) (d, res) = Ret (d', res') /\ listed d' (log0 ++ log).
  Proof.
    induction log as [|x log IH]; intros seen d res log0 k C Out Sn Ld; cbn [nodes_of].
    - exists d, res. rewrite app_nil_r. auto.
    - destruct (C x (or_introl eq_refl)) as (Nm & Nd). cbn [length seq combine fold_out]. cbn [places] in Out.
      destruct (use_turn d res log0 k x Nm (Out k x (or_introl eq_refl)) Ld) as (d1 & E1 & O1 & is & G1 & P1 & M1). rewrite E1. cbn [bind].
      rewrite combine_seq_app, fold_out_app, map_length. set (fs := fresh seen (e_ports x)) in *.
      destruct (ports_turns (ports_of x) fs d1 (S k)) as (d2 & E2 & O2 & I2); [apply fresh_NoDup | |].
      { intros n In_. rewrite O1 by (intros X; exact (Nm n (eq_sym X))). rewrite (proj2 Ld n). apply fresh_In in In_. destruct In_ as (_ & In_). rewrite Sn in In_.
        destruct (find (at_port n) log0); [elim In_; discriminate | reflexivity]. }
      rewrite E2. cbn [bind].
      replace (log0 ++ x :: log) with ((log0 ++ [x]) ++ log) by (rewrite <- app_assoc; reflexivity).
      replace (S k + length fs) with (k + 1 + length fs) by lia. apply IH.
      + intros y Iy. apply C. right. exact Iy.
      + intros q y I. apply Out. right. exact I.
      + intros n. rewrite in_app_iff, find_snoc, Sn. unfold fs. rewrite fresh_In. unfold at_port at 3. destruct (find (at_port n) log0) eqn:F.
        * split; [intros _; discriminate | intros _; left; discriminate].
        * destruct (mem n (map fst (e_ports x))) eqn:M; [apply mem_In in M | assert (M' : ~ In n (map fst (e_ports x))) by (intros X; apply mem_In in X; congruence)].
          -- split; [intros _; discriminate|]. intros _. right. split; [exact M|]. rewrite Sn, F. tauto.
          -- split; [intros [X|(X & _)]; tauto | tauto].
      + split.
        * intros l Hl. rewrite O2 by (intros n _; apply Hl). destruct (eq_dec l (name x)) as [->|D].
          -- rewrite G1. split; [|auto]. rewrite named_snoc, eqd_refl. destruct (named (name x) log0); discriminate.
          -- rewrite O1 by exact D. rewrite named_snoc. assert (eqd (name x) l = false) as -> by (apply eqd_false; congruence). rewrite app_nil_r. apply (proj1 Ld l Hl).
        * intros n. rewrite find_snoc. destruct (in_dec Nat.eq_dec n fs) as [I|I].
          -- rewrite (I2 n I). apply fresh_In in I. destruct I as (I & Ns). rewrite Sn in Ns. destruct (find (at_port n) log0); [elim Ns; discriminate|].
             unfold at_port. apply mem_In in I. rewrite I. reflexivity.
          -- rewrite O2 by (intros m Im X; apply node_inj in X; subst; contradiction). rewrite O1 by (intros X; exact (Nm n (eq_sym X))). rewrite (proj2 Ld n).
             destruct (find (at_port n) log0) as [y|] eqn:F; [reflexivity|]. destruct (at_port n x) eqn:P; [|reflexivity]. elim I. apply fresh_In. split; [apply mem_In, P|].
             rewrite Sn, F. tauto.
  Qed.
  End Turns.
  (* the report on patterns: for a name it lists, in the order of the uses with that name, the port labels
     of each, with one mark when one of them is a singleton.  But it also has an entry for every port, under
     the number of the data node, with the port labels of the first use that has this port *)
  Theorem C104_patterns log : clear_log log -> exists d, get_pattern_node_infos (rewrite row_name node_name log) = Ret d /\
    (forall l, (forall n, l <> node_name n) ->
       match dget d l with
       | None => named l log = []
       | Some is => named l log <> [] /\ filter is_ports is = map (fun x => Ports (ports_of x)) (named l log) /\
                    length (filter is_mark is) = if existsb singleton_use (named l log) then 1 else 0
       end) /\
    (forall n, dget d (node_name n) = option_map (fun x => [Ports (ports_of x)]) (find (at_port n) log)).
  Proof.
    intros C. unfold get_pattern_node_infos, numbered. destruct (rewrite_layout log C) as (N & _).
    destruct (info_fold (rewrite row_name node_name log) log [] [] None [] 1 C) as (d & res & E & Ld).
    - intros q x I. rewrite (out_edges_place log q x C I). unfold arcs, ports_of. rewrite map_map. reflexivity.
    - intros n. cbn. tauto.
    - split; [intros l _; reflexivity | intros n; reflexivity].
    - exists d. split; [|exact Ld]. rewrite N. unfold dict in *. rewrite E. reflexivity.
  Qed.
  Print Assumptions C104_patterns.

  (* the ports of one use *)
  Theorem C104_use log i x : clear_log log -> nth_error log i = Some x -> exists q, node_at (rewrite row_name node_name log) q = Some (use_node x) /\
    NoDup (get_port_node (rewrite row_name node_name log) q) /\ forall v, In v (get_port_node (rewrite row_name node_name log) q) <-> In v (ports_of x).
  Proof.
    intros C E. assert (I : exists q, In (q, x) (places 1 [] log)).
    { apply nth_error_In in E. rewrite <- (places_map log 1 []) in E. apply in_map_iff in E. destruct E as ([q y] & <- & E). eauto. }
    destruct I as (q & I). exists q. destruct (rewrite_layout log C) as (N & _). split; [|split].
    - apply places_ge in I as G. cbn [fst] in G. apply places_node in I. unfold node_at. destruct q as [|q]; [lia|]. rewrite N. cbn in I. rewrite Nat.sub_0_r in I. exact I.
    - apply NoDup_nodup.
    - intros v. unfold get_port_node. rewrite nodup_In, (out_edges_place log q x C I). unfold arcs, ports_of. rewrite map_map. tauto.
  Qed.
  Print Assumptions C104_use.

  (* --- ports *)
  Lemma node_port log q n : clear_log log -> node_at (rewrite row_name node_name log) q = Some (port_node n) ->
    num (r_nodes (rewrite row_name node_name log)) n = q /\ exists x, In x log /\ In n (map fst (e_ports x)).
  Proof.
    intros C E. destruct (rewrite_represents row_name node_name node_inj log) as (ids & R).
    { apply Forall_forall. intros x I. exact (proj1 (C x I)). }
    { apply Forall_forall. intros x I. exact (proj2 (C x I)). }
    destruct (re_node _ _ _ _ _ R q _ E) as [I|(m & x & Em & Ix & Im)].
    - exfalso. destruct (represents_ids _ _ _ _ _ q R I) as (x & _ & X). rewrite E in X. injection X as X. pose proof (use_pattern x) as P. rewrite <- X in P. discriminate.
    - assert (m = n) as -> by (injection Em as Em; apply node_inj; congruence). split; [|eauto]. destruct (rewrite_layout log C) as (_ & K & _).
      destruct (num_label _ n (K x n Ix Im)) as (z & E1 & E2 & E3). apply (re_once _ _ _ _ _ R _ _ n); [|exact E].
      rewrite E1. cbn [node_at]. rewrite E2. f_equal. assert (X : node_at (rewrite row_name node_name log) (S (Nat.pred (num (r_nodes (rewrite row_name node_name log)) n))) = Some z) by exact E2.
      destruct (re_node _ _ _ _ _ R _ z X) as [I'|(m & y & -> & _)].
      + exfalso. destruct (represents_ids _ _ _ _ _ _ R I') as (y & Iy & Y). rewrite X in Y. injection Y as ->. elim (proj1 (C y Iy) n). exact E3.
      + cbn [r_label RewriteProofs.port_node] in E3. apply node_inj in E3. subst. reflexivity.
  Qed.
  Lemma in_edges_port log q n : clear_log log -> node_at (rewrite row_name node_name log) q = Some (port_node n) ->
    in_edges (rewrite row_name node_name log) q =
    flat_map (fun qx => map (fun p => ((fst qx, q), snd p)) (filter (fun p => fst p =? n) (e_ports (snd qx)))) (places 1 [] log).
  Proof.
    intros C E. destruct (node_port log q n C E) as (En & x0 & Ix0 & In0). destruct (rewrite_layout log C) as (_ & K & Ed). unfold in_edges. rewrite Ed.
    set (ns := r_nodes (rewrite row_name node_name log)) in *.
    assert (W : forall pl, incl (map snd pl) log -> filter (fun e => snd (fst e) =? q) (flat_map (fun qx => arcs ns (fst qx) (e_ports (snd qx))) pl) =
      flat_map (fun qx => map (fun p => ((fst qx, q), snd p)) (filter (fun p => fst p =? n) (e_ports (snd qx)))) pl).
    { induction pl as [|[k x] pl IH]; intros I; cbn [flat_map]; [reflexivity|]. rewrite filter_app, IH by (intros y Iy; apply I; right; exact Iy). f_equal. cbn [fst snd].
      assert (Ix : In x log) by (apply I; left; reflexivity). assert (Kx : forall p, In p (e_ports x) -> In (node_name (fst p)) (map r_label ns)) by (intros p Ip; apply (K x); [exact Ix | apply in_map, Ip]).
      revert Kx. generalize (e_ports x). induction l as [|p l IHl]; intros Kx; cbn [arcs map filter]; [reflexivity|]. fold (arcs ns k l). cbn [fst snd].
      rewrite IHl by (intros p' Ip; apply Kx; right; exact Ip). destruct (Nat.eqb_spec (fst p) n) as [D|D].
      - rewrite D, En, Nat.eqb_refl. reflexivity.
      - assert (num ns (fst p) =? q = false) as ->; [|reflexivity]. apply Nat.eqb_neq. intros X. apply D. rewrite <- En in X.
        apply (num_inj ns); [apply Kx; left; reflexivity | exact (K x0 n Ix0 In0) | exact X]. }
    apply W. rewrite places_map. intros y Iy. exact Iy.
  Qed.
  Section Fold.
  Context (r : rgraph L).
  Definition reads (e : (nat * nat) * nat) (i : L * nat) : Prop := label_of r (fst (fst e)) = Ret (fst i) /\ snd e = snd i.
  Lemma port_turns q : forall es is d, Forall2 reads es is ->
    exists d', fold_out (port_turn r q) es d = Ret d' /\ (forall q', q' <> q -> dget d' q' = dget d q') /\
      dget d' q = match es with [] => dget d q | _ => Some (match dget d q with Some l => l | None => [] end ++ is) end.
  Proof.
    intros es is d F. revert d. induction F as [|e [l v] es is (El & Ev) F IH]; intros d; cbn [fold_out].
    - exists d. auto.
    - cbn [fst snd] in El, Ev. unfold port_turn at 1. rewrite El. cbn [bind]. rewrite Ev.
      set (d1 := match dget d q with Some is => dset d q (is ++ [(l, v)]) | None => dset d q [(l, v)] end).
      assert (G : forall q', dget d1 q' = if eq_dec q' q then Some (match dget d q with Some l => l | None => [] end ++ [(l, v)]) else dget d q').
      { intros q'. unfold d1. destruct (dget d q); rewrite VerticalProofs.dget_dset; destruct (eq_dec q' q); reflexivity. }
      destruct (IH d1) as (d' & E & O & X). exists d'. split; [exact E|]. split.
      + intros q' D. rewrite (O q' D), G. destruct (eq_dec q' q); [contradiction | reflexivity].
      + rewrite X, G. destruct (eq_dec q q) as [_|D]; [|congruence]. destruct es; [|rewrite <- app_assoc; reflexivity]. inversion F. reflexivity.
  Qed.
  Lemma port_fold (f : nat -> list (L * nat)) : forall (nodes : list (nat * rnode L)) d, NoDup (map fst nodes) ->
    (forall q z, In (q, z) nodes -> is_pattern z = false -> Forall2 reads (in_edges r q) (f q) /\ in_edges r q <> [] /\ dget d q = None) ->
    exists d', fold_out (fun d qz => if is_pattern (snd qz) then Ret d else fold_out (port_turn r (fst qz)) (in_edges r (fst qz)) d) nodes d = Ret d' /\
      (forall q z, In (q, z) nodes -> is_pattern z = false -> dget d' q = Some (f q)) /\
      (forall q, (forall z, In (q, z) nodes -> is_pattern z = true) -> dget d' q = dget d q).
  Proof.
    induction nodes as [|[q z] nodes IH]; intros d N F; cbn [fold_out].
    - exists d. split; [reflexivity|]. split; [intros q z [] | auto].
    - cbn [map fst] in N. inversion N as [|? ? Nq N']; subst. cbn [fst snd].
      assert (Oth : forall q' z', In (q', z') nodes -> q' <> q) by (intros q' z' I ->; apply Nq; apply (in_map fst) in I; exact I).
      destruct (is_pattern z) eqn:P; cbn [bind].
      + destruct (IH d N') as (d' & E & A & B); [intros q' z' I; apply F; right; exact I|]. exists d'. split; [exact E|]. split.
        * intros q' z' [X|I] P'; [injection X as <- <-; congruence | exact (A q' z' I P')].
        * intros q' X. apply B. intros z' I. apply X. right. exact I.
      + destruct (F q z (or_introl eq_refl) P) as (F1 & F2 & F3). destruct (port_turns q (in_edges r q) (f q) d F1) as (d1 & E1 & O1 & G1). rewrite E1. cbn [bind].
        rewrite F3 in G1. cbn [app] in G1. assert (G : dget d1 q = Some (f q)) by (destruct (in_edges r q); [congruence | exact G1]).
        destruct (IH d1 N') as (d' & E & A & B).
        { intros q' z' I P'. destruct (F q' z' (or_intror I) P') as (X & Y & Z). rewrite O1 by exact (Oth q' z' I). auto. }
        exists d'. split; [exact E|]. split.
        * intros q' z' [X|I] P'; [injection X as <- <- | exact (A q' z' I P')]. rewrite B; [exact G|]. intros z' I. exfalso. exact (Oth q z' I eq_refl).
        * intros q' X. assert (q' <> q) by (intros ->; specialize (X z (or_introl eq_refl)); congruence). rewrite B by (intros z' I; apply X; right; exact I). apply O1. assumption.
  Qed.
  End Fold.
  (* the report on ports: one entry for every port, listing in the order of the uses the name of each use
     with this port and the label of the port in it *)
  Theorem C104_ports log : clear_log log -> exists d, get_port_node_infos (rewrite row_name node_name log) = Ret d /\
    (forall q is, dget d q = Some is <-> exists n, node_at (rewrite row_name node_name log) q = Some (port_node n) /\ is = uses_at n log) /\
    (forall n, (exists x, In x log /\ In n (map fst (e_ports x))) <-> exists q, node_at (rewrite row_name node_name log) q = Some (port_node n)).
  Proof.
    intros C. destruct (rewrite_layout log C) as (N & K & _). set (r := rewrite row_name node_name log) in *.
    assert (Num : forall q z, In (q, z) (numbered r) <-> node_at r q = Some z).
    { unfold numbered. intros q z. assert (W : forall (ns : list (rnode L)) k, In (q, z) (combine (seq k (length ns)) ns) <-> k <= q /\ nth_error ns (q - k) = Some z).
      { induction ns as [|y ns IH]; intros k; cbn [length seq combine In].
        - split; [intros [] | intros (_ & X); destruct (q - k); discriminate].
        - rewrite IH. split.
          + intros [X|(X & Y)]; [injection X as -> ->; rewrite Nat.sub_diag; split; [lia | reflexivity]|]. split; [lia|]. replace (q - k) with (S (q - S k)) by lia. exact Y.
          + intros (X & Y). destruct (q - k) as [|m] eqn:D; [left; cbn in Y; injection Y as ->; f_equal; lia|]. right. split; [lia|]. replace (q - S k) with m by lia. exact Y. }
      rewrite W. unfold node_at. destruct q as [|q]; [split; [lia | discriminate]|]. replace (S q - 1) with q by lia. split; [tauto|]. intros X. split; [lia | exact X]. }
    assert (Ports : forall q z, node_at r q = Some z -> is_pattern z = false -> exists n, z = port_node n /\ exists x, In x log /\ In n (map fst (e_ports x))).
    { intros q z E P. assert (I : In z (filter (fun z => negb (is_pattern z)) (r_nodes r))).
      { apply filter_In. split; [destruct q; [discriminate | exact (nth_error_In _ _ E)] | rewrite P; reflexivity]. }
      rewrite N, port_filter in I. apply in_map_iff in I. destruct I as (n & <- & I). apply firsts_In in I. exists n. split; [reflexivity | apply I]. }
    assert (Inv : exists f, forall q n, node_at r q = Some (port_node n) -> f q = uses_at n log).
    { (* the data node of a port *)
      exists (fun q => match find (fun n => num (r_nodes r) n =? q) (firsts [] log) with Some n => uses_at n log | None => [] end).
      intros q n E. destruct (node_port log q n C E) as (En & Ex). assert (In_n : In n (firsts [] log)) by (apply firsts_In; split; [exact Ex | intros []]).
      destruct (find (fun n => num (r_nodes r) n =? q) (firsts [] log)) as [m|] eqn:F.
      - apply find_some in F. destruct F as (Im & Em). apply Nat.eqb_eq in Em. apply firsts_In in Im. destruct Im as ((y & Iy & Im) & _), Ex as (x & Ix & Inx).
        f_equal. apply (num_inj (r_nodes r)); [exact (K y m Iy Im) | exact (K x n Ix Inx) | fold r in En; congruence].
      - pose proof (find_none _ _ F n In_n) as X. cbn beta in X. fold r in En. rewrite En, Nat.eqb_refl in X. discriminate. }
    destruct Inv as (f & Hf). unfold get_port_node_infos.
    destruct (port_fold r f (numbered r) []) as (d & E & A & B).
    - unfold numbered. assert (W : forall (ns : list (rnode L)) k, map fst (combine (seq k (length ns)) ns) = seq k (length ns)).
      { induction ns as [|z ns IH]; intros k; cbn [length seq combine map fst]; [reflexivity | rewrite IH; reflexivity]. }
      rewrite W. apply seq_NoDup.
    - intros q z I P. apply Num in I. destruct (Ports q z I P) as (n & -> & x0 & Ix0 & In0). rewrite (Hf q n I). unfold r at 2 3. rewrite (in_edges_port log q n C I).
      split; [|split; [|reflexivity]].
      + unfold uses_at. rewrite <- (places_map log 1 []) at 2. assert (W : forall pl, (forall k x, In (k, x) pl -> In (k, x) (places 1 [] log)) ->
          Forall2 (reads r) (flat_map (fun qx => map (fun p => ((fst qx, q), snd p)) (filter (fun p => fst p =? n) (e_ports (snd qx)))) pl)
            (flat_map (fun x => map (fun p => (name x, snd p)) (filter (fun p => fst p =? n) (e_ports x))) (map snd pl))).
        { induction pl as [|[k x] pl IH]; intros Hp; cbn [flat_map map snd fst]; [constructor|]. apply Forall2_app; [|apply IH; intros k' x' I'; apply Hp; right; exact I'].
          assert (Lk : label_of r k = Ret (name x)).
          { specialize (Hp k x (or_introl eq_refl)). apply places_ge in Hp as G. cbn [fst] in G. apply places_node in Hp. unfold label_of. destruct k as [|k]; [lia|]. rewrite N.
            replace (S k - 1) with k in Hp by lia. rewrite Hp. reflexivity. }
          generalize (filter (fun p => fst p =? n) (e_ports x)). induction l as [|p l IHl]; cbn [map]; constructor; [|exact IHl]. split; [exact Lk | reflexivity]. }
        apply W. auto.
      + rewrite <- (places_map log 1 []) in Ix0. apply in_map_iff in Ix0. destruct Ix0 as ([k y] & <- & Ix). cbn [snd] in In0. apply in_map_iff in In0. destruct In0 as (p & Ep & Ip). intros X.
        assert (Y : In ((k, q), snd p) []).
        { rewrite <- X. apply in_flat_map. exists (k, y). split; [exact Ix|]. cbn [fst snd]. apply (in_map (fun p => ((k, q), snd p))), filter_In. split; [exact Ip | apply Nat.eqb_eq, Ep]. }
        destruct Y.
    - exists d. split; [exact E|]. split.
      + intros q is. split.
        * intros G. destruct (node_at r q) as [z|] eqn:Z.
          -- destruct (is_pattern z) eqn:P.
             ++ rewrite B in G; [discriminate|]. intros z' I. apply Num in I. congruence.
             ++ destruct (Ports q z Z P) as (n & -> & _). exists n. split; [reflexivity|]. rewrite (A q _ (proj2 (Num q _) Z) P), (Hf q n Z) in G. congruence.
          -- rewrite B in G; [discriminate|]. intros z' I. apply Num in I. congruence.
        * intros (n & Z & ->). rewrite (A q _ (proj2 (Num q _) Z) eq_refl). f_equal. exact (Hf q n Z).
      + intros n. split.
        * intros Ex. assert (I : In (port_node n) (r_nodes r)).
          { rewrite N. assert (J : In (port_node n) (map port_node (firsts [] log))) by (apply in_map, firsts_In; split; [exact Ex | intros []]). rewrite <- port_filter in J.
            apply filter_In in J. apply J. }
          apply In_nth_error in I. destruct I as (i & I). exists (S i). exact I.
        * intros (q & Z). apply (node_port log q n C Z).
  Qed.
  Print Assumptions C104_ports.
End C104.

(* a cover with an admissible table meets the hypotheses *)
Theorem C104_cover {L} `{EqDec L} (substr : L -> L -> bool) (set_order : list (nat * nat) -> list (nat * nat))
    (multi : bool) (row_name node_name : nat -> L) (g : data L) (rows : list (row L)) (m : marks L) :
  (forall l, substr l l = true) -> (forall l x, In x (set_order l) <-> In x l) ->
  admissible g rows -> readable row_name node_name g -> marks_ok m ->
  exists m' log, cover' substr set_order multi g rows m = Ret (m', log) /\ clear_log row_name node_name log.
Proof.
  intros Hs Ho Ha Hr Hm. destruct (run_exists substr set_order multi Hs Ho row_name node_name g rows m Ha Hr Hm) as (m1 & log & ids & E & _ & _ & R).
  exists m1, log. split; [exact E|]. intros x Ix. split.
  - intros n. pose proof (ru_from _ _ _ _ _ _ _ R x Ix) as F. unfold name, use_node. destruct (e_use x) as [p e|u v l|n' l]; cbn [r_label].
    + apply (rd_row_node _ _ _ Hr).
    + exact (rd_edge _ _ _ Hr u v l n F).
    + exact (rd_vertex _ _ _ Hr n' l n F).
  - pose proof (cover_inv substr set_order multi g rows m _ (ad_nodes _ _ Ha) (ad_rows _ _ Ha) (ad_bare _ _ Ha) E) as Hi.
    apply (pi_nodup _ _ Hi x Ix), (ru_keys _ _ _ _ _ _ _ R x Ix).
Qed.
Print Assumptions C104_cover.

(* the report on patterns has entries for names that no use has: those of the ports *)
Theorem C104_names_refuted : exists (g : data nat) rows m m' log d l is, admissible g rows /\ readable row_no node_no g /\ marks_ok m /\
  cover' eqd (fun l => l) false g rows m = Ret (m', log) /\ get_pattern_node_infos (rewrite row_no node_no log) = Ret d /\
  dget d l = Some is /\ forall x, In x log -> name row_no x <> l.
Proof.
  exists demo_graph, demo_rows, {| marker := 0; edge_mark := []; node_mark := [] |}. do 3 eexists. exists (node_no 4). eexists.
  split; [exact demo_admissible|]. split; [exact demo_readable|]. split; [split; intros k c; discriminate|].
  split; [vm_compute; reflexivity|]. split; [vm_compute; reflexivity|]. split; [reflexivity|]. intros x Ix.
  repeat (destruct Ix as [<-|Ix]; [vm_compute; discriminate|]). destruct Ix.
Qed.
Print Assumptions C104_names_refuted.

(* the example of C76: two uses of P0, one of P1 and one singleton, meeting at the data nodes 1, 2, 3, 4 *)
Example C104_case : exists m' log, cover' eqd (fun l => rev l) false demo_graph demo_rows
    {| marker := 3; edge_mark := [((1, 2, 7), 3)]; node_mark := [((1, 10), 2)] |} = Ret (m', log) /\
  count_port_node (rewrite row_no node_no log) = 4 /\
  get_pattern_node_infos (rewrite row_no node_no log) =
    Ret [(row_no 0, [Ports [1; 2; 3]; Ports [1; 2; 3]]); (node_no 1, [Ports [1; 2; 3]]); (node_no 2, [Ports [1; 2; 3]]); (node_no 3, [Ports [1; 2; 3]]);
         (node_no 4, [Ports [1; 2; 3]]); (row_no 1, [Ports [1]]); (9, [Ports [1; 2]; Singleton])] /\
  get_port_node_infos (rewrite row_no node_no log) =
    Ret [(2, [(row_no 0, 1); (9, 2)]); (3, [(row_no 0, 2); (row_no 0, 2)]); (4, [(row_no 0, 3); (row_no 0, 1); (row_no 1, 1)]); (6, [(row_no 0, 3); (9, 1)])] /\
  get_port_node (rewrite row_no node_no log) 8 = [1; 2].
Proof. eexists. eexists. split; [vm_compute; reflexivity|]. repeat split; vm_compute; reflexivity. Qed.
