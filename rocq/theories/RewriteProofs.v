(* Proofs about RewriteModel. *)
From Verif Require Import Prelude CheckModel LCMModel VerticalProofs GraphUtilModel PropGraphUtil
  GraphCoverModel PropGraphCover MergeModel PropMerge RewriteModel.

Definition omap {A B} (f : A -> B) (o : outcome A) : outcome B :=
  match o with Ret a => Ret (f a) | Exn e => Exn e | NoFuel => NoFuel end.
Lemma omap_fold {S T A} (h : S -> T) (f : S -> A -> outcome S) (f' : T -> A -> outcome T) (l : list A) :
  (forall s a, In a l -> omap h (f s a) = f' (h s) a) ->
  forall s, omap h (fold_out f l s) = fold_out f' l (h s).
Proof.
  induction l as [|a l IH]; intros Hf s; [reflexivity|]. cbn [fold_out].
  rewrite <- (Hf s a (or_introl eq_refl)). destruct (f s a); cbn [bind omap]; [|reflexivity|reflexivity].
  apply IH. intros; apply Hf; right; assumption.
Qed.
Lemma bind_Ret {A B} (o : outcome A) (f : A -> outcome B) b : bind o f = Ret b ->
  exists a, o = Ret a /\ f a = Ret b.
Proof. destruct o; cbn; intros E; [eauto | discriminate | discriminate]. Qed.
Lemma fold_out_rel {S A} (f : S -> A -> outcome S) (R : S -> S -> Prop) :
  (forall s, R s s) -> (forall a b c, R a b -> R b c -> R a c) ->
  (forall s a s', f s a = Ret s' -> R s s') ->
  forall l s s', fold_out f l s = Ret s' -> R s s'.
Proof.
  intros Hr Ht Hf. induction l as [|a l IH]; intros s s' E; cbn [fold_out] in E.
  - injection E as <-. apply Hr.
  - apply bind_Ret in E as (t & E1 & E2). eapply Ht; [eapply Hf, E1 | eapply IH, E2].
Qed.
(* an invariant of the states that are reached *)
Lemma fold_out_reach {S A} (f : S -> A -> outcome S) (I : S -> Prop) : forall l,
  (forall s a s', In a l -> I s -> f s a = Ret s' -> I s') ->
  forall s s', I s -> fold_out f l s = Ret s' -> I s'.
Proof.
  induction l as [|a l IH]; intros Hf s s' Hs E; cbn [fold_out] in E.
  - injection E as <-. exact Hs.
  - apply bind_Ret in E as (t & E1 & E2). eapply IH; [|eapply Hf; eauto; left; reflexivity|exact E2].
    intros; eapply Hf; eauto; right; assumption.
Qed.

Lemma fold_out_total {S A} (f : S -> A -> outcome S) : forall l,
  (forall s a, In a l -> exists s', f s a = Ret s') -> forall s, exists s', fold_out f l s = Ret s'.
Proof.
  induction l as [|a l IH]; intros Hf s; [eexists; reflexivity|]. cbn [fold_out].
  destruct (Hf s a (or_introl eq_refl)) as [t ->]. cbn [bind]. apply IH. intros; apply Hf; right; assumption.
Qed.

Section Cover.
  Context {L : Type} `{EqDec L}.
  Context (substr : L -> L -> bool) (set_order : list (nat * nat) -> list (nat * nat)) (multi : bool).
  Context (g : data L).

  (* ---- marks only grow *)
  Definition grows (m m' : marks L) : Prop :=
    forall n l, node_is_marked m n l = true -> node_is_marked m' n l = true.
  Lemma grows_refl m : grows m m. Proof. intros n l; auto. Qed.
  Lemma grows_trans a b c : grows a b -> grows b c -> grows a c. Proof. intros A B n l Hn; apply B, A, Hn. Qed.
  Lemma grows_mark_node m n lab m' : mark_node substr g m n lab = Ret m' -> grows m m'.
  Proof.
    assert (forall m l, grows m (set_node m n l)) as S.
    { intros m0 l a b Hm. rewrite node_is_marked_set, Hm, orb_true_r. reflexivity. }
    destruct lab as [l|ls|ls]; cbn [mark_node]; intros E; [injection E as <-; apply S | | discriminate].
    eapply fold_out_rel with (R := grows); [apply grows_refl | apply grows_trans | | exact E].
    intros s l s' Es. apply bind_Ret in Es as (b & _ & Es). injection Es as <-.
    destruct b; [apply S | apply grows_refl].
  Qed.
  Lemma grows_mark_edge m u v l m' : mark_edge substr multi g m u v l = Ret m' -> grows m m'.
  Proof.
    unfold mark_edge. intros E.
    assert (m' = set_edge m u v l) as ->.
    { destruct (negb (has_edge g u v)); [discriminate|]. destruct multi.
      - destruct (mem (u, v, l) (d_edges g)); [congruence | discriminate].
      - destruct (existsb _ (d_edges g)); [congruence | discriminate]. }
    intros n x Hm. exact Hm.
  Qed.
  Lemma grows_mark_embedding m e p m' : mark_embedding substr set_order multi g m e p = Ret m' -> grows m m'.
  Proof.
    assert (forall m p a n m', mark_pattern_node substr g m p a n = Ret m' -> grows m m') as P.
    { intros m0 q a n m1. unfold mark_pattern_node. destruct (dget (p_nodes q) a) as [[lab|]|]; intros E.
      - eapply grows_mark_node, E.
      - injection E as <-. apply grows_refl.
      - discriminate. }
    unfold mark_embedding. intros E.
    eapply fold_out_rel with (R := grows); [apply grows_refl | apply grows_trans | | exact E].
    intros s pq s' Es. apply bind_Ret in Es as (ls & _ & Es). apply bind_Ret in Es as (u & _ & Es).
    apply bind_Ret in Es as (v & _ & Es). apply bind_Ret in Es as (s1 & E1 & Es).
    apply bind_Ret in Es as (s2 & E2 & Es).
    apply grows_trans with s1; [|apply grows_trans with s2; [eapply P, E2 | eapply P, Es]].
    destruct (has_edge g u v).
    - eapply fold_out_rel with (R := grows); [apply grows_refl | apply grows_trans | | exact E1].
      intros x l x' Ex. exact (grows_mark_edge _ _ _ _ _ Ex).
    - destruct (has_edge g v u); [discriminate|]. injection E1 as <-. apply grows_refl.
  Qed.

  (* ---- ports *)
  Lemma fold_all_marked m n ls : forall b0, fold_out (fun b l => bind (is_node_marked substr g m n l)
      (fun c => Ret (b && c))) ls b0 = Ret true ->
    b0 = true /\ forall l, In l ls -> node_is_marked m n l = true.
  Proof.
    induction ls as [|x ls IH]; intros b0 E; cbn [fold_out] in E.
    - injection E as ->. split; [reflexivity | intros l []].
    - apply bind_Ret in E as (c0 & E1 & E2). apply bind_Ret in E1 as (c & Ec & E1). injection E1 as <-.
      destruct (IH _ E2) as [Hc Hl]. apply andb_true_iff in Hc as [-> ->]. split; [reflexivity|].
      intros l [<-|Hi]; [|apply Hl, Hi]. unfold is_node_marked in Ec.
      apply bind_Ret in Ec as (d & _ & Ec). destruct d; [congruence | discriminate].
  Qed.
  Lemma all_marked_spec m n : is_node_all_labels_marked substr g m n = Ret true ->
    forall l, In l (node_names (d_nodes g) n) -> node_is_marked m n l = true.
  Proof.
    unfold is_node_all_labels_marked, node_names. intros E l Hl.
    destruct (dget (d_nodes g) n) as [[[x|ls|ls]|]|]; cbn [names_of] in Hl; try contradiction.
    - destruct Hl as [<-|[]]. unfold is_node_marked in E. apply bind_Ret in E as (c & _ & E).
      destruct c; [congruence | discriminate].
    - exact (proj2 (fold_all_marked m n ls true E) l Hl).
    - exact (proj2 (fold_all_marked m n ls true E) l Hl).
  Qed.

  Lemma search_port_spec m p e ports : search_port substr g m p e = Ret ports ->
    incl ports e /\ (NoDup (map snd e) -> NoDup (map snd ports)) /\ (NoDup (map fst e) -> NoDup (map fst ports))
    /\ forall n a, In (n, a) e ->
      In (n, a) ports \/
      (degree (d_edges g) n = degree (pattern_edges p) a
       /\ forall l, In l (node_names (d_nodes g) n) -> node_is_marked m n l = true).
  Proof.
    unfold search_port. intros E.
    set (ok := fun acc (kv : nat * nat) => In kv acc \/
       (degree (d_edges g) (fst kv) = degree (pattern_edges p) (snd kv)
        /\ forall l, In l (node_names (d_nodes g) (fst kv)) -> node_is_marked m (fst kv) l = true)).
    assert (forall e done acc, incl acc done ->
      (NoDup (map snd done) -> NoDup (map snd acc)) -> (NoDup (map fst done) -> NoDup (map fst acc)) ->
      (forall kv, In kv done -> ok acc kv) ->
      fold_out (fun res kv => bind (is_port substr g m p (fst kv) (snd kv)) (fun b =>
                Ret (if b then res ++ [kv] else res))) e acc = Ret ports ->
      incl ports (done ++ e) /\ (NoDup (map snd (done ++ e)) -> NoDup (map snd ports))
      /\ (NoDup (map fst (done ++ e)) -> NoDup (map fst ports))
      /\ forall kv, In kv (done ++ e) -> ok ports kv) as A.
    { clear E e. induction e as [|kv e IH]; intros done acc Hi H2 H1 Hok E; cbn [fold_out] in E.
      - injection E as <-. rewrite app_nil_r. auto.
      - apply bind_Ret in E as (acc' & E1 & E2). apply bind_Ret in E1 as (b & Eb & E1). injection E1 as <-.
        replace (done ++ kv :: e) with ((done ++ [kv]) ++ e) by (rewrite <- app_assoc; reflexivity).
        eapply IH; [| | | |exact E2].
        + destruct b; [apply incl_app_app; [exact Hi | apply incl_refl] | apply incl_appl, Hi].
        + rewrite map_app. intros Hn. apply NoDup_app_elim in Hn as (N1 & N2 & N3).
          destruct b; [|apply H2, N1]. rewrite map_app. apply NoDup_app_intro; [apply H2, N1 | exact N2 |].
          intros x Hx Hy. apply (N3 x); [|exact Hy]. apply in_map_iff in Hx as (y & <- & Hx). apply in_map, Hi, Hx.
        + rewrite map_app. intros Hn. apply NoDup_app_elim in Hn as (N1 & N2 & N3).
          destruct b; [|apply H1, N1]. rewrite map_app. apply NoDup_app_intro; [apply H1, N1 | exact N2 |].
          intros x Hx Hy. apply (N3 x); [|exact Hy]. apply in_map_iff in Hx as (y & <- & Hx). apply in_map, Hi, Hx.
        + intros x Hx. apply in_app_or in Hx as [Hx|[<-|[]]].
          * destruct (Hok x Hx) as [Ho|Ho]; [left | right; exact Ho].
            destruct b; [apply in_or_app; left; exact Ho | exact Ho].
          * destruct b; [left; apply in_or_app; right; left; reflexivity|]. right.
            unfold is_port in Eb. apply bind_Ret in Eb as (c & Ec & Eb).
            destruct c; cbn [negb] in Eb; [|discriminate]. apply bind_Ret in Eb as (d & Ed & Eb).
            destruct d; [|discriminate]. split; [|apply all_marked_spec, Ed].
            unfold is_node_edges_marked in Ec. destruct (mem _ _ && mem _ _); [|discriminate].
            injection Ec as Ec. apply Nat.eqb_eq, Ec. }
    destruct (A e [] []) as (A1 & A2 & A3 & A4); try exact E; cbn; auto.
    - apply incl_refl.
    - intros kv [].
    - split; [exact A1|]. split; [exact A2|]. split; [exact A3|]. intros n a Hi. exact (A4 (n, a) Hi).
  Qed.

  (* the search succeeds on nodes of the graph and of the pattern *)
  Lemma search_port_total (substr_refl : forall l, substr l l = true) m p e :
    (forall n a, In (n, a) e -> In n (dkeys (d_nodes g)) /\ In a (dkeys (p_nodes p))) ->
    exists ports, search_port substr g m p e = Ret ports.
  Proof.
    intros He. unfold search_port. apply fold_out_total. intros s [n a] Hi. destruct (He n a Hi) as [Hn Ha].
    cbn [fst snd]. unfold is_port, is_node_edges_marked.
    rewrite (proj2 (mem_In _ _) Hn), (proj2 (mem_In _ _) Ha). cbn [andb bind].
    destruct (negb _); [eexists; reflexivity|].
    unfold dkeys in Hn. apply in_map_iff in Hn as ([n' o'] & En & Hn). cbn [fst] in En. subst n'.
    assert (exists b, is_node_all_labels_marked substr g m n = Ret b) as [b ->]; [|eexists; reflexivity].
    unfold is_node_all_labels_marked.
    destruct (dget (d_nodes g) n) as [o|] eqn:Ho; [|exfalso; apply (proj1 (dget_None _ _) Ho), (in_map fst _ _ Hn)].
    assert (forall dl l, o = Some dl -> In l (names_of (Some dl)) -> exists b, is_node_marked substr g m n l = Ret b) as A.
    { intros dl l -> Hl. unfold is_node_marked. rewrite (in_label_ok substr substr_refl g n dl l Ho Hl).
      eexists; reflexivity. }
    destruct o as [[l|ls|ls]|].
    - apply (A _ l eq_refl). left; reflexivity.
    - apply fold_out_total. intros b l Hl. destruct (A _ l eq_refl Hl) as [c ->]. eexists; reflexivity.
    - apply fold_out_total. intros b l Hl. destruct (A _ l eq_refl Hl) as [c ->]. eexists; reflexivity.
    - eexists; reflexivity.
  Qed.

  (* ---- the uses are those of GraphCoverModel *)
  Definition proj (s : marks L * list (entry L)) : marks L * list (use L) := (fst s, map e_use (snd s)).
  Definition searchable (p : pattern L) (e : list (nat * nat)) : Prop :=
    forall m, exists ports, search_port substr g m p e = Ret ports.

  Lemma edge_turn_proj i p e s : searchable p e ->
    omap proj (edge_pattern_turn' substr set_order multi g i p s e) =
    edge_pattern_turn substr set_order multi g p (proj s) e.
  Proof.
    intros Hs. unfold edge_pattern_turn', edge_pattern_turn. cbn [proj fst snd].
    destruct (is_embedding_marked set_order multi g (fst s) e p) as [[|]|x|]; try reflexivity. cbn [bind].
    destruct (mark_embedding substr set_order multi g (fst s) e p) as [m|x|]; try reflexivity. cbn [bind].
    destruct (Hs m) as [ports ->]. cbn [bind omap]. unfold proj. cbn [fst snd]. rewrite map_app. reflexivity.
  Qed.
  Lemma node_turn_proj i p e s : searchable p e ->
    omap proj (node_pattern_turn' substr g i p s e) = node_pattern_turn substr g p (proj s) e.
  Proof.
    intros Hs. unfold node_pattern_turn', node_pattern_turn.
    apply (omap_fold proj). intros t kv _. destruct (dget (p_nodes p) (snd kv)) as [[lab|]|]; try reflexivity.
    cbn [proj fst snd]. destruct (is_node_labels_marked substr g (fst t) (fst kv) lab) as [[|]|x|]; try reflexivity.
    cbn [bind]. destruct (Hs (fst t)) as [ports ->]. cbn [bind].
    destruct (mark_node substr g (fst t) (fst kv) lab) as [m|x|]; try reflexivity.
    cbn [bind omap]. unfold proj. cbn [fst snd]. rewrite map_app. reflexivity.
  Qed.
  Lemma row_proj i r s : (forall e, In e (r_embeddings r) -> searchable (r_pattern r) e) ->
    omap proj (row_cover' substr set_order multi g s (i, r)) = row_cover substr set_order multi g (proj s) r.
  Proof.
    intros Hs. unfold row_cover', row_cover. destruct (p_edges (r_pattern r)).
    - apply (omap_fold proj). intros t e He. apply node_turn_proj, Hs, He.
    - apply (omap_fold proj). intros t e He. apply edge_turn_proj, Hs, He.
  Qed.
  Lemma vertex_turn_proj n s l :
    omap proj (vertex_singleton_turn' substr g n s l) = vertex_singleton_turn substr g n (proj s) l.
  Proof.
    unfold vertex_singleton_turn', vertex_singleton_turn. cbn [proj fst snd].
    destruct (is_node_marked substr g (fst s) n l) as [[|]|x|]; try reflexivity.
    cbn [bind mark_node omap]. unfold proj. cbn [fst snd]. rewrite map_app. reflexivity.
  Qed.
  Lemma singletons_proj s :
    omap proj (singleton_cover' substr multi g s) = singleton_cover substr multi g (proj s).
  Proof.
    unfold singleton_cover', singleton_cover.
    rewrite <- (omap_fold proj (edge_singleton_turn' substr multi g)).
    - destruct (fold_out (edge_singleton_turn' substr multi g) (d_edges g) s) as [t|x|]; try reflexivity.
      cbn [bind omap]. apply (omap_fold proj). clear. intros t [n o] _. unfold node_singleton_turn', node_singleton_turn.
      cbn [fst snd]. destruct o as [[l|ls|ls]|]; [apply vertex_turn_proj | | |reflexivity];
        (apply (omap_fold proj); intros; apply vertex_turn_proj).
    - clear. intros t [[u v] l] _. unfold edge_singleton_turn', edge_singleton_turn. cbn [proj fst snd].
      destruct (is_edge_marked multi g (fst t) u v l) as [[|]|x|]; try reflexivity. cbn [bind].
      destruct (mark_edge substr multi g (fst t) u v l) as [m|x|]; try reflexivity.
      cbn [bind omap]. unfold proj. cbn [fst snd]. rewrite map_app. reflexivity.
  Qed.
  Lemma rows_proj : forall rows k s,
    (forall r e, In r rows -> In e (r_embeddings r) -> searchable (r_pattern r) e) ->
    omap proj (fold_out (row_cover' substr set_order multi g) (combine (seq k (length rows)) rows) s) =
    fold_out (row_cover substr set_order multi g) rows (proj s).
  Proof.
    induction rows as [|r rows IH]; intros k s Hs; [reflexivity|]. cbn [length seq combine fold_out].
    rewrite <- (row_proj k r s) by (intros e He; apply Hs; [left; reflexivity | exact He]).
    destruct (row_cover' substr set_order multi g s (k, r)) as [t|x|]; try reflexivity.
    cbn [bind omap]. apply IH. intros; apply Hs; [right|]; assumption.
  Qed.
  Lemma cover_proj rows m :
    (forall r e, In r rows -> In e (r_embeddings r) -> searchable (r_pattern r) e) ->
    omap proj (cover' substr set_order multi g rows m) = cover substr set_order multi g rows m.
  Proof.
    intros Hs. unfold cover', cover.
    set (m0 := {| marker := S (marker m); edge_mark := edge_mark m; node_mark := node_mark m |}).
    change (m0, @nil (use L)) with (proj (m0, [])). rewrite <- (rows_proj rows 0 (m0, []) Hs).
    destruct (fold_out _ _ (m0, [])) as [t|x|]; try reflexivity. cbn [bind omap]. apply singletons_proj.
  Qed.

  (* ---- what the ports of the uses are *)
  Definition use_nodes (x : use L) : list (nat * nat) :=
    match x with RowUse _ e => e | EdgeUse u v _ => [(u, 1); (v, 2)] | VertexUse n _ => [(n, 1)] end.
  (* uses that cover no edge *)
  Definition label_use (x : use L) : Prop :=
    match x with RowUse p _ => p_edges p = [] | EdgeUse _ _ _ => False | VertexUse _ _ => True end.
  Definition edged_row (x : use L) : Prop :=
    match x with RowUse p _ => p_edges p <> [] | _ => False end.
  Record port_inv (s : marks L * list (entry L)) : Prop := {
    pi_incl : forall x, In x (snd s) -> incl (e_ports x) (use_nodes (e_use x));
    pi_nodup : forall x, In x (snd s) ->
      (NoDup (map snd (use_nodes (e_use x))) -> NoDup (map snd (e_ports x)))
      /\ (NoDup (map fst (use_nodes (e_use x))) -> NoDup (map fst (e_ports x)));
    pi_single : forall x, In x (snd s) -> ~ edged_row (e_use x) -> e_ports x = use_nodes (e_use x);
    (* a node of a use of a row that is not a port of it *)
    pi_inner : forall x p e, In x (snd s) -> e_use x = RowUse p e -> p_edges p <> [] ->
      forall n a, In (n, a) e -> In (n, a) (e_ports x) \/
        (degree (d_edges g) n = degree (pattern_edges p) a
         /\ forall l, In l (node_names (d_nodes g) n) -> node_is_marked (fst s) n l = true);
    pi_label : forall x p e y, In x (snd s) -> e_use x = RowUse p e -> p_edges p <> [] ->
      In y (snd s) -> label_use (e_use y) ->
      forall n a b, In (n, a) e -> In (n, b) (use_nodes (e_use y)) -> In (n, a) (e_ports x)
  }.
  Lemma port_inv_snoc m m' log x : port_inv (m, log) -> grows m m' ->
    incl (e_ports x) (use_nodes (e_use x)) ->
    ((NoDup (map snd (use_nodes (e_use x))) -> NoDup (map snd (e_ports x)))
      /\ (NoDup (map fst (use_nodes (e_use x))) -> NoDup (map fst (e_ports x)))) ->
    (~ edged_row (e_use x) -> e_ports x = use_nodes (e_use x)) ->
    (forall p e, e_use x = RowUse p e -> p_edges p <> [] ->
      (forall n a, In (n, a) e -> In (n, a) (e_ports x) \/
        (degree (d_edges g) n = degree (pattern_edges p) a
         /\ forall l, In l (node_names (d_nodes g) n) -> node_is_marked m' n l = true))
      /\ forall y, In y log -> ~ label_use (e_use y)) ->
    (label_use (e_use x) -> forall n b, In (n, b) (use_nodes (e_use x)) ->
      exists l, In l (node_names (d_nodes g) n) /\ node_is_marked m n l = false) ->
    port_inv (m', log ++ [x]).
  Proof.
    intros [P1 P2 P3 P4 P5] Hg Hi Hn Hs Hr Hv. cbn [fst snd] in *. split; cbn [fst snd].
    - intros y Hy. apply in_app_or in Hy as [Hy|[<-|[]]]; auto.
    - intros y Hy. apply in_app_or in Hy as [Hy|[<-|[]]]; auto.
    - intros y Hy. apply in_app_or in Hy as [Hy|[<-|[]]]; [apply P3, Hy | exact Hs].
    - intros y p e Hy Ey Hp n a Hna. apply in_app_or in Hy as [Hy|[<-|[]]].
      + destruct (P4 y p e Hy Ey Hp n a Hna) as [|[D1 D2]]; [left; assumption | right].
        split; [exact D1|]. intros l Hl. apply Hg, D2, Hl.
      + exact (proj1 (Hr p e Ey Hp) n a Hna).
    - intros y p e z Hy Ey Hp Hz Ez n a b Hna Hnb. apply in_app_or in Hy as [Hy|[<-|[]]].
      + apply in_app_or in Hz as [Hz|[<-|[]]]; [exact (P5 y p e z Hy Ey Hp Hz Ez n a b Hna Hnb)|].
        destruct (P4 y p e Hy Ey Hp n a Hna) as [|[_ D2]]; [assumption|].
        destruct (Hv Ez n b Hnb) as (l & V1 & V2). rewrite (D2 l V1) in V2. discriminate.
      + apply in_app_or in Hz as [Hz|[<-|[]]]; [|rewrite Ey in Ez; contradiction].
        destruct (proj2 (Hr p e Ey Hp) z Hz Ez).
  Qed.

  Definition no_label_use (s : marks L * list (entry L)) : Prop :=
    forall y, In y (snd s) -> ~ label_use (e_use y).
  Lemma edge_turn_inv i p e s s' : p_edges p <> [] -> port_inv s /\ no_label_use s ->
    edge_pattern_turn' substr set_order multi g i p s e = Ret s' -> port_inv s' /\ no_label_use s'.
  Proof.
    intros Hp [Hi Hv] E. unfold edge_pattern_turn' in E. apply bind_Ret in E as (b & _ & E).
    destruct b; [injection E as <-; split; assumption|].
    apply bind_Ret in E as (m & Em & E). apply bind_Ret in E as (ports & Ep & E). injection E as <-.
    destruct (search_port_spec m p e ports Ep) as (S1 & S2 & S3 & S4). destruct s as [m0 log]. cbn [fst snd] in *.
    split.
    - apply port_inv_snoc with (m := m0); cbn [e_use e_ports use_nodes edged_row label_use]; auto.
      + eapply grows_mark_embedding, Em.
      + tauto.
      + intros q f [= <- <-] _. split; [exact S4 | exact Hv].
      + tauto.
    - intros y Hy. cbn [snd] in Hy. apply in_app_or in Hy as [Hy|[<-|[]]]; [apply Hv, Hy | exact Hp].
  Qed.
  Lemma some_unmarked m n ls : fold_out (fun b l => bind (is_node_marked substr g m n l)
      (fun c => Ret (b && c))) ls true = Ret false -> exists l, In l ls /\ node_is_marked m n l = false.
  Proof.
    assert (forall b0, fold_out (fun b l => bind (is_node_marked substr g m n l)
      (fun c => Ret (b && c))) ls b0 = Ret false -> b0 = false \/ exists l, In l ls /\ node_is_marked m n l = false) as A.
    { induction ls as [|x ls IH]; intros b0 E; cbn [fold_out] in E.
      - injection E as ->. left; reflexivity.
      - apply bind_Ret in E as (c0 & E1 & E2). apply bind_Ret in E1 as (c & Ec & E1). injection E1 as <-.
        unfold is_node_marked in Ec. apply bind_Ret in Ec as (d & _ & Ec). destruct d; [|discriminate].
        injection Ec as Ec. destruct (IH _ E2) as [Hc|(l & Hl & Hm)].
        + apply andb_false_iff in Hc as [->| ->]; [left; reflexivity|]. right. exists x. split; [left; reflexivity | exact Ec].
        + right. exists l. split; [right; exact Hl | exact Hm]. }
    intros E. destruct (A true E) as [|R]; [discriminate | exact R].
  Qed.
  Lemma labels_unmarked m n lab : is_node_labels_marked substr g m n lab = Ret false ->
    exists l, In l (names_of (Some lab)) /\ node_is_marked m n l = false.
  Proof.
    destruct lab as [l|ls|ls]; cbn [is_node_labels_marked names_of]; intros E.
    - exists l. split; [left; reflexivity|]. unfold is_node_marked in E. apply bind_Ret in E as (d & _ & E).
      destruct d; [congruence | discriminate].
    - apply some_unmarked, E.
    - discriminate.
  Qed.
  (* patterns without edges have one node *)
  Lemma node_turn_inv i p e s s' : p_edges p = [] -> length e = 1 -> occurrence g p e -> port_inv s ->
    node_pattern_turn' substr g i p s e = Ret s' -> port_inv s'.
  Proof.
    intros Hp He Ho Hs E. destruct e as [|[n a] [|]]; try discriminate. unfold node_pattern_turn' in E.
    cbn [fold_out fst snd] in E. apply bind_Ret in E as (s1 & E & F). injection F as <-.
    destruct (dget (p_nodes p) a) as [[lab|]|] eqn:Ea; try discriminate.
    apply bind_Ret in E as (b & Eb & E). destruct b; [injection E as <-; assumption|].
    apply bind_Ret in E as (ports & Ep & E). apply bind_Ret in E as (m & Em & E). injection E as <-.
    destruct (search_port_spec _ p _ ports Ep) as (S1 & S2 & S3 & S4). destruct s as [m0 log]. cbn [fst snd] in *.
    assert (exists l, In l (node_names (d_nodes g) n) /\ node_is_marked m0 n l = false) as (l & Hl & Hu).
    { destruct (labels_unmarked _ _ _ Eb) as (l & Hl & Hu). exists l. split; [|exact Hu].
      destruct (oc_labels _ _ _ Ho n a lab (or_introl eq_refl) Ea) as (_ & dl & Hdl & Hin).
      unfold node_names. rewrite Hdl. apply Hin, Hl. }
    assert (ports = [(n, a)]) as ->.
    { unfold search_port in Ep. cbn [fold_out fst snd app] in Ep. apply bind_Ret in Ep as (t & Ep & F).
      injection F as <-. apply bind_Ret in Ep as (b & Eb' & F). injection F as <-.
      destruct b; [reflexivity|]. exfalso. destruct (S4 n a (or_introl eq_refl)) as [[]|[_ D]].
      rewrite (D l Hl) in Hu. discriminate. }
    apply port_inv_snoc with (m := m0); cbn [e_use e_ports use_nodes edged_row label_use]; auto.
    - eapply grows_mark_node, Em.
    - intros q f [= <- <-] Hne. contradiction.
    - intros _ n' b [F|[]]. injection F as <- <-. exists l. auto.
  Qed.
  Lemma edge_singleton_inv s e s' : port_inv s ->
    edge_singleton_turn' substr multi g s e = Ret s' -> port_inv s'.
  Proof.
    destruct e as [[u v] l]. intros Hi E. unfold edge_singleton_turn' in E. apply bind_Ret in E as (b & _ & E).
    destruct b; [injection E as <-; assumption|].
    apply bind_Ret in E as (m & Em & E). injection E as <-. destruct s as [m0 log]. cbn [fst snd] in *.
    apply port_inv_snoc with (m := m0); cbn [e_use e_ports use_nodes label_use]; auto.
    + eapply grows_mark_edge, Em.
    + apply incl_refl.
    + discriminate.
    + intros [].
  Qed.
  Lemma vertex_turn_inv n s l s' : In l (node_names (d_nodes g) n) -> port_inv s ->
    vertex_singleton_turn' substr g n s l = Ret s' -> port_inv s'.
  Proof.
    intros Hl Hi E. unfold vertex_singleton_turn' in E. apply bind_Ret in E as (b & Eb & E).
    destruct b; [injection E as <-; assumption|]. cbn [mark_node bind] in E. injection E as <-.
    destruct s as [m0 log]. cbn [fst snd] in *.
    apply port_inv_snoc with (m := m0); cbn [e_use e_ports use_nodes]; auto.
    - intros a x Hm. rewrite node_is_marked_set, Hm, orb_true_r. reflexivity.
    - apply incl_refl.
    - discriminate.
    - intros _ a b [F|[]]. injection F as <- <-. exists l. split; [exact Hl|]. unfold is_node_marked in Eb.
      apply bind_Ret in Eb as (c & _ & Eb). destruct c; [congruence | discriminate].
  Qed.
  (* rows with edges first, then rows whose pattern is one node *)
  Definition bare_last (rows : list (row L)) : Prop :=
    exists rows1 rows2, rows = rows1 ++ rows2
      /\ Forall (fun r => p_edges (r_pattern r) <> []) rows1
      /\ Forall (fun r => p_edges (r_pattern r) = [] /\ Forall (fun e => length e = 1) (r_embeddings r)) rows2.
  Lemma fold_out_app {S A} (f : S -> A -> outcome S) l l' s :
    fold_out f (l ++ l') s = bind (fold_out f l s) (fold_out f l').
  Proof. revert s. induction l as [|a l IH]; intros s; [reflexivity|]. cbn [app fold_out]. destruct (f s a); [apply IH | reflexivity | reflexivity]. Qed.
  Lemma cover_inv rows m s : NoDup (dkeys (d_nodes g)) -> Forall (row_ok g) rows -> bare_last rows ->
    cover' substr set_order multi g rows m = Ret s -> port_inv s.
  Proof.
    intros Hn Hok (rows1 & rows2 & -> & R1 & R2) E. unfold cover' in E. apply bind_Ret in E as (s1 & E1 & E).
    rewrite app_length, seq_app in E1.
    assert (forall (l1 l2 : list nat) (r1 r2 : list (row L)), length l1 = length r1 ->
      combine (l1 ++ l2) (r1 ++ r2) = combine l1 r1 ++ combine l2 r2) as Hc.
    { induction l1 as [|a l1 IH]; intros l2 [|b r1] r2 Hl; try discriminate; [reflexivity|].
      cbn [app combine]. rewrite IH by (injection Hl; auto). reflexivity. }
    rewrite Hc, fold_out_app in E1 by apply seq_length. clear Hc. apply bind_Ret in E1 as (s0 & E0 & E1).
    rewrite Forall_forall in *.
    assert (port_inv s0) as H0.
    { refine (proj1 (fold_out_reach _ (fun s => port_inv s /\ no_label_use s) _ _ _ s0 _ E0)).
      - intros t [i r] t' Hi Ht Et. apply in_combine_r in Hi. specialize (R1 r Hi). unfold row_cover' in Et.
        destruct (p_edges (r_pattern r)) eqn:Ep; [contradiction|].
        refine (fold_out_reach _ (fun s => port_inv s /\ no_label_use s) _ _ t t' Ht Et).
        intros u e u' _ Hu Eu. refine (edge_turn_inv i _ e u u' _ Hu Eu). rewrite Ep. discriminate.
      - split; [|intros y []]. split; cbn [snd In]; intros; contradiction. }
    assert (port_inv s1) as H1.
    { refine (fold_out_reach _ port_inv _ _ s0 s1 H0 E1).
      intros t [i r] t' Hi Ht Et. apply in_combine_r in Hi. destruct (R2 r Hi) as [Ep Hlen]. unfold row_cover' in Et.
      rewrite Ep in Et. rewrite Forall_forall in Hlen.
      refine (fold_out_reach _ port_inv _ _ t t' Ht Et). intros u e u' He Hu Eu.
      refine (node_turn_inv i _ e u u' Ep (Hlen e He) _ Hu Eu).
      destruct (Hok r) as [_ Hoc]; [apply in_or_app; right; exact Hi|]. rewrite Forall_forall in Hoc. apply Hoc, He. }
    unfold singleton_cover' in E. apply bind_Ret in E as (s2 & E2 & E).
    assert (port_inv s2) as H2.
    { refine (fold_out_reach _ port_inv _ _ s1 s2 H1 E2).
      intros t e t' _ Ht Et. exact (edge_singleton_inv t e t' Ht Et). }
    refine (fold_out_reach _ port_inv _ _ s2 s H2 E). clear -Hn.
    intros t [n o] t' Hi Ht Et. pose proof (In_dget _ _ _ Hn Hi) as Hg.
    assert (forall ls, incl ls (names_of o) -> forall t t', port_inv t ->
      fold_out (vertex_singleton_turn' substr g n) ls t = Ret t' -> port_inv t') as A.
    { intros ls Hls u u' Hu Eu. refine (fold_out_reach _ port_inv ls _ u u' Hu Eu).
      intros w l w' Hl Hw Ew. apply (vertex_turn_inv n w l w'); [|exact Hw|exact Ew].
      unfold node_names. rewrite Hg. apply Hls, Hl. }
    unfold node_singleton_turn' in Et. cbn [fst snd] in Et. destruct o as [[l|ls|ls]|].
    - apply (A [l] (incl_refl _) t t' Ht). cbn [fold_out]. rewrite Et. reflexivity.
    - exact (A ls (incl_refl _) t t' Ht Et).
    - exact (A ls (incl_refl _) t t' Ht Et).
    - injection Et as <-. exact Ht.
  Qed.
End Cover.

(* ---- a node that is not a port belongs to no other use *)
Lemma two_hits {A} (f : A -> bool) l i j x y : nth_error l i = Some x -> nth_error l j = Some y -> i <> j ->
  f x = true -> f y = true -> 2 <= length (filter f l).
Proof.
  revert i j. induction l as [|a l IH]; intros i j Hx Hy Hij Fx Fy; [destruct i; discriminate|].
  assert (forall i x, nth_error l i = Some x -> f x = true -> 1 <= length (filter f l)) as One.
  { clear. intros i x Hx Fx. apply nth_error_In in Hx.
    assert (In x (filter f l)) by (apply filter_In; auto). destruct (filter f l); [contradiction | simpl; lia]. }
  destruct i as [|i], j as [|j]; cbn [nth_error] in *; cbn [filter].
  - congruence.
  - injection Hx as ->. rewrite Fx. cbn [length]. specialize (One j y Hy Fy). lia.
  - injection Hy as ->. rewrite Fy. cbn [length]. specialize (One i x Hx Fx). lia.
  - specialize (IH i j Hx Hy ltac:(congruence) Fx Fy). destruct (f a); cbn [length]; lia.
Qed.

Section Degree.
  Context {L : Type} `{EqDec L}.
  (* every name of an edge of the pattern is listed once *)
  Definition names_once (p : pattern L) : Prop :=
    NoDup (dkeys (p_edges p)) /\ forall a b ls, In ((a, b), ls) (p_edges p) -> NoDup ls.
  Lemma pattern_edges_In (p : pattern L) a b l : In (a, b, l) (pattern_edges p) <->
    exists ls, In ((a, b), ls) (p_edges p) /\ In l ls.
  Proof.
    unfold pattern_edges. rewrite in_flat_map. split.
    - intros ([[a' b'] ls] & Hi & Hm). apply in_map_iff in Hm as (l' & El & Hl). injection El as <- <- <-. eauto.
    - intros (ls & Hi & Hl). exists ((a, b), ls). split; [exact Hi|]. apply in_map_iff. exists l. auto.
  Qed.
  Lemma pattern_edges_nodup (p : pattern L) : names_once p -> NoDup (pattern_edges p).
  Proof.
    intros [Hk Hl]. unfold pattern_edges, dkeys in *. induction (p_edges p) as [|[[a b] ls] es IH]; [constructor|].
    cbn [flat_map map fst snd] in *. apply NoDup_cons_iff in Hk as [Hk Hk'].
    apply NoDup_app_intro.
    - specialize (Hl a b ls (or_introl eq_refl)). clear -Hl. induction Hl as [|x ls Hx Hn IH]; [constructor|].
      cbn [map]. constructor; [|exact IH]. intros Hi. apply in_map_iff in Hi as (y & [= ->] & Hy). contradiction.
    - apply IH; [exact Hk'|]. intros a' b' ls' Hi. apply (Hl a' b'). right; exact Hi.
    - intros e H1 H2. apply in_map_iff in H1 as (l & <- & _). apply in_flat_map in H2 as ([k ls'] & Hi & H2).
      apply in_map_iff in H2 as (l' & [= -> _] & _). apply Hk. exact (in_map fst _ _ Hi).
  Qed.

  Variable g : data L.
  (* an extra edge at [n] makes its degree larger than that of [a] *)
  Lemma degree_extra p e n a k : occurrence g p e -> names_once p -> NoDup (map fst e) -> In (n, a) e ->
    In k (d_edges g) -> (fst (fst k) = n \/ snd (fst k) = n) -> covers_edge k (RowUse p e) = false ->
    degree (pattern_edges p) a < degree (d_edges g) n.
  Proof.
    intros Ho Hp Hf Hna Hk Hinc Hc.
    set (key := fun b => match find (fun kv => snd kv =? b) e with Some kv => fst kv | None => 0 end).
    assert (forall m b, In (m, b) e -> key b = m) as Hkey.
    { intros m b Hi. unfold key. destruct (find (fun kv => snd kv =? b) e) as [[m' b']|] eqn:F.
      - apply find_some in F as [Fi Fb]. cbn [snd] in Fb. apply Nat.eqb_eq in Fb. subst b'. cbn [fst].
        exact (same_fst e _ _ _ (oc_nodes _ _ _ Ho) Fi Hi).
      - pose proof (find_none _ _ F _ Hi) as N. cbn [snd] in N. rewrite Nat.eqb_refl in N. discriminate. }
    assert (forall b, In b (map snd e) -> In (key b, b) e) as Hin.
    { intros b Hb. apply in_map_iff in Hb as ([m b'] & <- & Hb). cbn [snd] in *. rewrite (Hkey m b' Hb). exact Hb. }
    set (phi := fun pe : nat * nat * L => (key (fst (fst pe)), key (snd (fst pe)), snd pe)).
    assert (forall b c l, In (b, c, l) (pattern_edges p) -> In b (map snd e) /\ In c (map snd e)
              /\ In (phi (b, c, l)) (d_edges g) /\ covers_edge (phi (b, c, l)) (RowUse p e) = true) as Hphi.
    { intros b c l Hi. apply pattern_edges_In in Hi as (ls & Hi & Hl).
      destruct (oc_ends _ _ _ Ho b c ls Hi) as [Hb Hc']. repeat split; try assumption.
      - exact (oc_edges _ _ _ Ho b c ls _ _ l Hi (Hin b Hb) (Hin c Hc') Hl).
      - cbn [covers_edge phi fst snd]. apply existsb_exists. exists ((b, c), ls). split; [exact Hi|]. cbn [fst snd].
        rewrite !andb_true_iff, !mem_In. auto. }
    assert (forall b c, In b (map snd e) -> In c (map snd e) -> key b = key c -> b = c) as Hinj.
    { intros b c Hb Hc' E. apply Hin in Hb, Hc'. rewrite E in Hb. exact (same_snd e _ _ _ Hf Hb Hc'). }
    assert (forall fl : nat * nat * L -> bool, NoDup (map phi (filter fl (pattern_edges p)))) as Hnd.
    { intros fl. pose proof (NoDup_filter fl _ (pattern_edges_nodup p Hp)) as N.
      assert (forall x, In x (filter fl (pattern_edges p)) -> In x (pattern_edges p)) as S
        by (intros x Hx; apply filter_In in Hx; tauto).
      induction N as [|[[b c] l] es Hx N IH]; [constructor|]. cbn [map]. constructor.
      - intros Hm. apply in_map_iff in Hm as ([[b' c'] l'] & Em & Hm). apply Hx.
        destruct (Hphi b c l (S _ (or_introl eq_refl))) as (B1 & B2 & _).
        destruct (Hphi b' c' l' (S _ (or_intror Hm))) as (B3 & B4 & _).
        unfold phi in Em. cbn [fst snd] in Em. injection Em as E1 E2 E3. apply Hinj in E1, E2; try assumption.
        subst. exact Hm.
      - apply IH. intros x Hi. apply S. right; exact Hi. }
    assert (forall sel : nat * nat * L -> nat, (forall pe, In pe (pattern_edges p) -> sel (phi pe) = key (sel pe)) ->
      incl (map phi (filter (fun pe => sel pe =? a) (pattern_edges p)))
           (filter (fun de => sel de =? n) (d_edges g))) as Hincl.
    { intros sel Hs x Hx. apply in_map_iff in Hx as ([[b c] l] & <- & Hx). apply filter_In in Hx as [Hx Ex].
      apply filter_In. split; [apply (Hphi b c l Hx)|]. rewrite (Hs _ Hx). apply Nat.eqb_eq in Ex. rewrite Ex.
      apply Nat.eqb_eq, Hkey, Hna. }
    assert (forall fl, ~ In k (map phi (filter fl (pattern_edges p)))) as Hnk.
    { intros fl Hi. apply in_map_iff in Hi as ([[b c] l] & E & Hi). apply filter_In in Hi as [Hi _].
      destruct (Hphi b c l Hi) as (_ & _ & _ & C). rewrite E, Hc in C. discriminate. }
    pose proof (Hincl (fun e => fst (fst e)) (fun _ _ => eq_refl)) as I1.
    pose proof (Hincl (fun e => snd (fst e)) (fun _ _ => eq_refl)) as I2.
    pose proof (NoDup_incl_length (Hnd _) I1) as L1. pose proof (NoDup_incl_length (Hnd _) I2) as L2.
    rewrite !map_length in L1, L2. unfold degree.
    destruct Hinc as [Hs|Hs].
    - assert (length (k :: map phi (filter (fun pe => fst (fst pe) =? a) (pattern_edges p))) <=
              length (filter (fun de => fst (fst de) =? n) (d_edges g))) as G.
      { apply NoDup_incl_length; [constructor; [apply Hnk | apply Hnd]|].
        intros x [<-|Hx]; [apply filter_In; split; [exact Hk | apply Nat.eqb_eq, Hs] | apply I1, Hx]. }
      cbn [length] in G. rewrite map_length in G. lia.
    - assert (length (k :: map phi (filter (fun pe => snd (fst pe) =? a) (pattern_edges p))) <=
              length (filter (fun de => snd (fst de) =? n) (d_edges g))) as G.
      { apply NoDup_incl_length; [constructor; [apply Hnk | apply Hnd]|].
        intros x [<-|Hx]; [apply filter_In; split; [exact Hk | apply Nat.eqb_eq, Hs] | apply I2, Hx]. }
      cbn [length] in G. rewrite map_length in G. lia.
  Qed.
End Degree.

(* ---- the rewritten graph *)
Section Rewritten.
  Context {L : Type} `{EqDec L}.
  Variables row_name node_name : nat -> L.
  Hypothesis node_inj : forall n m, node_name n = node_name m -> n = m.
  Definition node_at (r : rgraph L) (q : nat) : option (rnode L) :=
    match q with 0 => None | S i => nth_error (r_nodes r) i end.
  Definition port_node (n : nat) : rnode L :=
    {| r_label := node_name n; is_pattern := false; is_singleton := false |}.
  Definition with_ports (x : entry L) (ps : list (nat * nat)) : entry L :=
    {| e_use := e_use x; e_row := e_row x; e_ports := ps |}.

  Record represents (log : list (entry L)) (ids : list nat) (r : rgraph L) : Prop := {
    re_length : length ids = length log;
    re_sorted : StronglySorted lt ids;
    re_use : forall i x q, nth_error log i = Some x -> nth_error ids i = Some q ->
               node_at r q = Some (use_node row_name x);
    re_node : forall q z, node_at r q = Some z ->
               In q ids \/ exists n x, z = port_node n /\ In x log /\ In n (map fst (e_ports x));
    re_port : forall x n, In x log -> In n (map fst (e_ports x)) -> exists q, node_at r q = Some (port_node n);
    re_once : forall q q' n, node_at r q = Some (port_node n) -> node_at r q' = Some (port_node n) -> q = q';
    re_edge : forall p q v, In ((p, q), v) (r_edges r) <->
               exists i x n, nth_error log i = Some x /\ nth_error ids i = Some p
                 /\ In (n, v) (e_ports x) /\ node_at r q = Some (port_node n)
  }.

  Lemma node_at_snoc r z q : node_at (add_rnode r z) q =
    if q =? length (r_nodes r) + 1 then Some z else node_at r q.
  Proof.
    destruct q as [|i]; cbn [node_at add_rnode r_nodes].
    - destruct (0 =? _) eqn:E; [apply Nat.eqb_eq in E; lia | reflexivity].
    - destruct (S i =? length (r_nodes r) + 1) eqn:E.
      + apply Nat.eqb_eq in E. rewrite nth_error_app2 by lia. replace (i - length (r_nodes r)) with 0 by lia. reflexivity.
      + apply Nat.eqb_neq in E. destruct (Nat.lt_ge_cases i (length (r_nodes r))) as [Hl|Hl].
        * apply nth_error_app1, Hl.
        * rewrite nth_error_app2 by exact Hl. rewrite (proj2 (nth_error_None (r_nodes r) i)) by exact Hl.
          destruct (i - length (r_nodes r)) as [|j] eqn:D; [lia|]. destruct j; reflexivity.
  Qed.
  Lemma node_at_bound r q z : node_at r q = Some z -> 1 <= q <= length (r_nodes r).
  Proof.
    destruct q as [|i]; cbn [node_at]; [discriminate|]. intros E.
    assert (i < length (r_nodes r)) by (apply nth_error_Some; congruence). lia.
  Qed.
  Lemma labelled_spec ns l : forall i,
    match labelled ns i l with
    | Some y => exists j z, y = i + j /\ nth_error ns j = Some z /\ r_label z = l
    | None => forall z, In z ns -> r_label z <> l
    end.
  Proof.
    induction ns as [|z ns IH]; intros i; cbn [labelled]; [intros z []|].
    destruct (eqd (r_label z) l) eqn:E.
    - apply (proj1 (eqd_true _ _)) in E. exists 0, z. split; [lia | auto].
    - apply (proj1 (eqd_false _ _)) in E. specialize (IH (S i)). destruct (labelled ns (S i) l).
      + destruct IH as (j & w & -> & Hj & Hl). exists (S j), w. split; [lia | auto].
      + intros w [<-|Hw]; [exact E | apply IH, Hw].
  Qed.
  Lemma labelled_node r l :
    match labelled (r_nodes r) 1 l with
    | Some y => exists z, node_at r y = Some z /\ r_label z = l
    | None => forall q z, node_at r q = Some z -> r_label z <> l
    end.
  Proof.
    pose proof (labelled_spec (r_nodes r) l 1) as S. destruct (labelled (r_nodes r) 1 l).
    - destruct S as (j & z & -> & Hj & Hl). exists z. auto.
    - intros [|i] z Hq; [discriminate|]. apply S. exact (nth_error_In _ _ Hq).
  Qed.

  Definition no_clash (x : entry L) : Prop := forall n, r_label (use_node row_name x) <> node_name n.

  Lemma use_node_pattern x : is_pattern (use_node row_name x) = true.
  Proof. unfold use_node. destruct (e_use x); reflexivity. Qed.
  Lemma use_node_ports x ps : use_node row_name (with_ports x ps) = use_node row_name x.
  Proof. reflexivity. Qed.

  Lemma sorted_snoc l (a : nat) : StronglySorted lt l -> (forall x, In x l -> x < a) -> StronglySorted lt (l ++ [a]).
  Proof.
    induction 1 as [|b l Hs IH Hf]; intros Hl; cbn [app]; [repeat constructor|]. constructor.
    - apply IH. intros x Hx. apply Hl. right; exact Hx.
    - apply Forall_app. split; [exact Hf|]. constructor; [apply Hl; left; reflexivity | constructor].
  Qed.
  Lemma sorted_nth l i j (a : nat) : StronglySorted lt l -> nth_error l i = Some a -> nth_error l j = Some a -> i = j.
  Proof.
    intros Hs. revert i j. induction Hs as [|b l Hs IH Hf]; intros [|i] [|j] E1 E2; cbn [nth_error] in *;
      try discriminate; [reflexivity | | |f_equal; apply IH; assumption]; rewrite Forall_forall in Hf.
    - injection E1 as ->. apply nth_error_In in E2. specialize (Hf a E2). lia.
    - injection E2 as ->. apply nth_error_In in E1. specialize (Hf a E1). lia.
  Qed.
  Lemma nth_snoc {A} (l : list A) a i x : nth_error (l ++ [a]) i = Some x ->
    nth_error l i = Some x \/ (i = length l /\ x = a).
  Proof.
    intros E. destruct (Nat.lt_ge_cases i (length l)) as [Hl|Hl].
    - left. rewrite nth_error_app1 in E by exact Hl. exact E.
    - right. rewrite nth_error_app2 in E by exact Hl. destruct (i - length l) as [|j] eqn:D; [|destruct j; discriminate].
      cbn in E. split; [lia | congruence].
  Qed.
  Lemma nth_here {A} (l : list A) a : nth_error (l ++ [a]) (length l) = Some a.
  Proof. rewrite nth_error_app2, Nat.sub_diag by lia. reflexivity. Qed.
  Lemma nth_old {A} (l : list A) a i x : nth_error l i = Some x -> nth_error (l ++ [a]) i = Some x.
  Proof. intros E. rewrite nth_error_app1; [exact E|]. apply nth_error_Some. congruence. Qed.

  Lemma represents_ids log ids r q : represents log ids r -> In q ids ->
    exists x, In x log /\ node_at r q = Some (use_node row_name x).
  Proof.
    intros R Hq. apply In_nth_error in Hq as [i Hi].
    destruct (nth_error log i) as [x|] eqn:E.
    - exists x. split; [exact (nth_error_In _ _ E) | exact (re_use _ _ _ R i x q E Hi)].
    - apply nth_error_None in E. rewrite <- (re_length _ _ _ R) in E.
      assert (i < length ids) by (apply nth_error_Some; congruence). lia.
  Qed.

  Lemma add_use log ids r x : represents log ids r ->
    represents (log ++ [with_ports x []]) (ids ++ [length (r_nodes r) + 1]) (add_rnode r (use_node row_name x)).
  Proof.
    intros R.
    assert (forall q z, node_at r q = Some z -> node_at (add_rnode r (use_node row_name x)) q = Some z) as Old.
    { intros q z Hq. rewrite node_at_snoc. pose proof (node_at_bound _ _ _ Hq).
      rewrite (proj2 (Nat.eqb_neq q _)) by lia. exact Hq. }
    assert (forall q n, node_at (add_rnode r (use_node row_name x)) q = Some (port_node n) ->
                        node_at r q = Some (port_node n)) as Back.
    { intros q n Hq. rewrite node_at_snoc in Hq. destruct (q =? _); [|exact Hq].
      injection Hq as F. pose proof (use_node_pattern x) as P. rewrite F in P. discriminate. }
    split.
    - rewrite !app_length, (re_length _ _ _ R). reflexivity.
    - apply sorted_snoc; [apply (re_sorted _ _ _ R)|]. intros q Hq.
      destruct (represents_ids _ _ _ q R Hq) as (y & _ & Hy). apply node_at_bound in Hy. lia.
    - intros i y q Hy Hq. apply nth_snoc in Hy as [Hy|[-> ->]].
      + assert (i < length log) by (apply nth_error_Some; congruence).
        rewrite nth_error_app1 in Hq by (rewrite (re_length _ _ _ R); assumption).
        apply Old, (re_use _ _ _ R i y q Hy Hq).
      + rewrite <- (re_length _ _ _ R), nth_here in Hq. injection Hq as <-.
        rewrite node_at_snoc, Nat.eqb_refl, use_node_ports. reflexivity.
    - intros q z Hq. rewrite node_at_snoc in Hq. destruct (q =? _) eqn:E.
      + apply Nat.eqb_eq in E as ->. left. apply in_or_app. right; left; reflexivity.
      + destruct (re_node _ _ _ R q z Hq) as [Hi|(n & y & -> & Hy & Hn)].
        * left. apply in_or_app; left; exact Hi.
        * right. exists n, y. split; [reflexivity|]. split; [apply in_or_app; left; exact Hy | exact Hn].
    - intros y n Hy Hn. apply in_app_or in Hy as [Hy|[<-|[]]]; [|destruct Hn].
      destruct (re_port _ _ _ R y n Hy Hn) as [q Hq]. exists q. apply Old, Hq.
    - intros q q' n Hq Hq'. exact (re_once _ _ _ R q q' n (Back _ _ Hq) (Back _ _ Hq')).
    - intros p q v. cbn [add_rnode r_edges]. rewrite (re_edge _ _ _ R). split.
      + intros (i & y & n & Hy & Hp & Hv & Hq). exists i, y, n.
        split; [apply nth_old, Hy|]. split; [apply nth_old, Hp|]. split; [exact Hv | apply Old, Hq].
      + intros (i & y & n & Hy & Hp & Hv & Hq). apply nth_snoc in Hy as [Hy|[-> ->]]; [|destruct Hv].
        assert (i < length log) by (apply nth_error_Some; congruence).
        rewrite nth_error_app1 in Hp by (rewrite (re_length _ _ _ R); assumption).
        exists i, y, n. split; [exact Hy|]. split; [exact Hp|]. split; [exact Hv | apply Back, Hq].
  Qed.

  Lemma add_port log ids id r x ps n v : Forall no_clash log -> no_clash x -> ~ In n (map fst ps) ->
    represents (log ++ [with_ports x ps]) (ids ++ [id]) r ->
    represents (log ++ [with_ports x (ps ++ [(n, v)])]) (ids ++ [id]) (create_rewrite_edge node_name r id (n, v)).
  Proof.
    intros Hc Hx Hn R.
    assert (length ids = length log) as Hlen.
    { pose proof (re_length _ _ _ R) as E. rewrite !app_length in E. cbn [length] in E. lia. }
    (* the graph after the search for the port node *)
    assert (exists r' y, create_rewrite_edge node_name r id (n, v) = add_redge r' id y v
      /\ r_edges r' = r_edges r /\ node_at r' y = Some (port_node n)
      /\ (forall q z, node_at r q = Some z -> node_at r' q = Some z)
      /\ (forall q z, node_at r' q = Some z -> node_at r q = Some z \/ z = port_node n)
      /\ (forall q, node_at r' q = Some (port_node n) -> q = y)
      /\ (forall q m, m <> n -> node_at r' q = Some (port_node m) -> node_at r q = Some (port_node m)))
      as (r' & y & -> & Er & Ny & Old & Back & Uniq & Other).
    { unfold create_rewrite_edge. cbn [fst snd]. pose proof (labelled_node r (node_name n)) as S.
      destruct (labelled (r_nodes r) 1 (node_name n)) as [y|].
      - destruct S as (z & Hz & Hl). exists r, y. split; [reflexivity|]. split; [reflexivity|].
        assert (node_at r y = Some (port_node n)) as Hy.
        { destruct (re_node _ _ _ R y z Hz) as [Hi|(m & w & -> & _)].
          - exfalso. destruct (represents_ids _ _ _ y R Hi) as (w & Hw & Hz'). rewrite Hz in Hz'. injection Hz' as ->.
            apply in_app_or in Hw as [Hw|[<-|[]]].
            + rewrite Forall_forall in Hc. exact (Hc w Hw n Hl).
            + exact (Hx n Hl).
          - cbn [port_node r_label] in Hl. apply node_inj in Hl as ->. exact Hz. }
        split; [exact Hy|]. split; [auto|]. split; [auto|]. split; [|auto].
        intros q Hq. exact (re_once _ _ _ R q y n Hq Hy).
      - exists (add_rnode r (port_node n)), (length (r_nodes r) + 1). split; [reflexivity|]. split; [reflexivity|].
        split; [rewrite node_at_snoc, Nat.eqb_refl; reflexivity|]. split; [|split; [|split]].
        + intros q z Hq. rewrite node_at_snoc. pose proof (node_at_bound _ _ _ Hq).
          rewrite (proj2 (Nat.eqb_neq q _)) by lia. exact Hq.
        + intros q z Hq. rewrite node_at_snoc in Hq. destruct (q =? _); [right; congruence | left; exact Hq].
        + intros q Hq. rewrite node_at_snoc in Hq. destruct (q =? _) eqn:E; [apply Nat.eqb_eq, E|].
          exfalso. exact (S q _ Hq eq_refl).
        + intros q m Hm Hq. rewrite node_at_snoc in Hq. destruct (q =? _); [|exact Hq].
          injection Hq as F. symmetry in F. apply node_inj in F. contradiction. }
    assert (forall q, node_at (add_redge r' id y v) q = node_at r' q) as Same by reflexivity.
    assert (forall i w, nth_error (log ++ [with_ports x ps]) i = Some w ->
      exists w', nth_error (log ++ [with_ports x (ps ++ [(n, v)])]) i = Some w'
        /\ use_node row_name w' = use_node row_name w /\ incl (e_ports w) (e_ports w')) as Fwd.
    { intros i w Hw. apply nth_snoc in Hw as [Hw|[-> ->]].
      - exists w. split; [apply nth_old, Hw|]. split; [reflexivity | apply incl_refl].
      - eexists. split; [apply nth_here|]. split; [reflexivity|]. apply incl_appl, incl_refl. }
    assert (forall i w, nth_error (log ++ [with_ports x (ps ++ [(n, v)])]) i = Some w ->
      exists w', nth_error (log ++ [with_ports x ps]) i = Some w'
        /\ use_node row_name w' = use_node row_name w
        /\ forall m u, In (m, u) (e_ports w) -> In (m, u) (e_ports w') \/ (i = length log /\ m = n /\ u = v)) as Bwd.
    { intros i w Hw. apply nth_snoc in Hw as [Hw|[-> ->]].
      - exists w. split; [apply nth_old, Hw|]. split; [reflexivity | auto].
      - eexists. split; [apply nth_here|]. split; [reflexivity|]. cbn [with_ports e_ports]. intros m u Hi.
        apply in_app_or in Hi as [Hi|[F|[]]]; [left; exact Hi | injection F as <- <-; auto]. }
    assert (~ In (id, y) (map fst (r_edges r'))) as Fresh.
    { rewrite Er. intros Hi. apply in_map_iff in Hi as ([[p q] u] & F & Hi). injection F as -> ->.
      apply (re_edge _ _ _ R) in Hi as (i & w & m & Hw & Hp & Hu & Hq).
      assert (i = length log) as ->.
      { apply (sorted_nth _ _ _ id (re_sorted _ _ _ R) Hp). rewrite <- Hlen. apply nth_here. }
      rewrite nth_here in Hw. injection Hw as <-. cbn [with_ports e_ports] in Hu.
      apply Old in Hq. rewrite Ny in Hq. injection Hq as F. apply node_inj in F as <-.
      apply Hn. exact (in_map fst _ _ Hu). }
    split.
    - rewrite !app_length in *. cbn [length]. lia.
    - apply (re_sorted _ _ _ R).
    - intros i w q Hw Hq. rewrite Same. destruct (Bwd i w Hw) as (w' & Hw' & <- & _).
      apply Old, (re_use _ _ _ R i w' q Hw' Hq).
    - intros q z Hq. rewrite Same in Hq. apply Back in Hq as [Hq| ->].
      + destruct (re_node _ _ _ R q z Hq) as [Hi|(m & w & -> & Hw & Hm)]; [left; exact Hi|]. right.
        apply In_nth_error in Hw as [i Hw]. destruct (Fwd i w Hw) as (w' & Hw' & _ & Hp).
        exists m, w'. split; [reflexivity|]. split; [exact (nth_error_In _ _ Hw')|].
        apply in_map_iff in Hm as (kv & <- & Hm). apply in_map, Hp, Hm.
      + right. exists n, (with_ports x (ps ++ [(n, v)])). split; [reflexivity|].
        split; [apply in_or_app; right; left; reflexivity|]. cbn [with_ports e_ports].
        rewrite map_app. apply in_or_app. right; left; reflexivity.
    - intros w m Hw Hm. apply In_nth_error in Hw as [i Hw]. destruct (Bwd i w Hw) as (w' & Hw' & _ & Hp).
      apply in_map_iff in Hm as ([m' u] & <- & Hm). cbn [fst]. destruct (Hp m' u Hm) as [Hi|(_ & -> & _)].
      + destruct (re_port _ _ _ R w' m' (nth_error_In _ _ Hw') (in_map fst _ _ Hi)) as [q Hq].
        exists q. rewrite Same. apply Old, Hq.
      + exists y. rewrite Same. exact Ny.
    - intros q q' m Hq Hq'. rewrite Same in Hq, Hq'. destruct (Nat.eq_dec m n) as [->|Hm].
      + rewrite (Uniq q Hq), (Uniq q' Hq'). reflexivity.
      + exact (re_once _ _ _ R q q' m (Other q m Hm Hq) (Other q' m Hm Hq')).
    - intros p q u. cbn [add_redge r_edges]. rewrite (dset_fresh _ _ _ Fresh), in_app_iff, Er, (re_edge _ _ _ R).
      split.
      + intros [(i & w & m & Hw & Hp & Hu & Hq)|[F|[]]].
        * destruct (Fwd i w Hw) as (w' & Hw' & _ & Hi). exists i, w', m.
          split; [exact Hw'|]. split; [exact Hp|]. split; [apply Hi, Hu | rewrite Same; apply Old, Hq].
        * injection F as <- <- <-. exists (length log), (with_ports x (ps ++ [(n, v)])), n.
          split; [apply nth_here|]. split; [rewrite <- Hlen; apply nth_here|].
          split; [apply in_or_app; right; left; reflexivity | rewrite Same; exact Ny].
      + intros (i & w & m & Hw & Hp & Hu & Hq). rewrite Same in Hq.
        destruct (Bwd i w Hw) as (w' & Hw' & _ & Hi). destruct (Hi m u Hu) as [Hi'|(-> & -> & ->)].
        * left. exists i, w', m. split; [exact Hw'|]. split; [exact Hp|]. split; [exact Hi'|].
          destruct (Nat.eq_dec m n) as [->|Hm]; [|apply Other; assumption].
          destruct (re_port _ _ _ R w' n (nth_error_In _ _ Hw') (in_map fst _ _ Hi')) as [q' Hq'].
          rewrite (Uniq q Hq), <- (Uniq q' (Old _ _ Hq')). exact Hq'.
        * right. left. rewrite <- Hlen, nth_here in Hp. injection Hp as <-. rewrite (Uniq q Hq). reflexivity.
  Qed.

  Lemma add_ports log ids id x : forall todo ps r, Forall no_clash log -> no_clash x -> NoDup (map fst (ps ++ todo)) ->
    represents (log ++ [with_ports x ps]) (ids ++ [id]) r ->
    represents (log ++ [with_ports x (ps ++ todo)]) (ids ++ [id])
      (fold_left (fun r port => create_rewrite_edge node_name r id port) todo r).
  Proof.
    induction todo as [|[n v] todo IH]; intros ps r Hc Hx Hn R; cbn [fold_left]; [rewrite app_nil_r; exact R|].
    assert (ps ++ (n, v) :: todo = (ps ++ [(n, v)]) ++ todo) as E by (rewrite <- app_assoc; reflexivity).
    rewrite E in *. apply IH; [exact Hc | exact Hx | exact Hn|]. apply add_port; [exact Hc | exact Hx | | exact R].
    rewrite map_app in Hn. apply NoDup_app_elim in Hn as (Hn & _). rewrite map_app in Hn.
    apply NoDup_app_elim in Hn as (_ & _ & Hd). intros Hi. apply (Hd n Hi). left; reflexivity.
  Qed.

  Theorem rewrite_represents log : Forall no_clash log ->
    Forall (fun x => NoDup (map fst (e_ports x))) log ->
    exists ids, represents log ids (rewrite row_name node_name log).
  Proof.
    induction log as [|x log IH] using rev_ind; intros Hc Hn.
    - exists []. split.
      + reflexivity.
      + constructor.
      + intros [|i] x q E; discriminate.
      + intros [|[|q]] y E; discriminate.
      + intros x n [].
      + intros [|[|q]] q' n E; discriminate.
      + intros p q v. split; [intros [] | intros ([|i] & x & n & Hx & _); discriminate].
    - apply Forall_app in Hc as [Hc Hx]. apply Forall_app in Hn as [Hn Hp].
      destruct (IH Hc Hn) as [ids R]. unfold rewrite. rewrite fold_left_app. cbn [fold_left].
      fold (rewrite row_name node_name log). set (r := rewrite row_name node_name log) in *.
      exists (ids ++ [length (r_nodes r) + 1]). unfold rewrite_use.
      replace [x] with [with_ports x ([] ++ e_ports x)] by (destruct x; reflexivity).
      apply add_ports; [exact Hc | inversion Hx; assumption | inversion Hp; assumption | apply add_use, R].
  Qed.
End Rewritten.
