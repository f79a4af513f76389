(* C53: the cover of a data graph by a code table. *)
From Verif Require Import Prelude CheckModel LCMModel VerticalProofs GraphUtilModel PropGraphUtil GraphCoverModel.

Section C53.
  Context {L : Type} `{EqDec L}.

  (* ------------------------------------------------------- specification *)
  (* the names of the label attribute of a node, [] without label *)
  Definition node_names (ns : list (nat * option (label L))) (n : nat) : list L :=
    match dget ns n with Some o => names_of o | None => [] end.

  (* Does this use cover the edge from u to v named l?  A row use does when
     its embedding sends a pattern edge with that name onto it. *)
  Definition covers_edge (k : nat * nat * L) (x : use L) : bool :=
    let '(u, v, l) := k in
    match x with
    | RowUse p e =>
        existsb (fun pe => mem (u, fst (fst pe)) e && mem (v, snd (fst pe)) e && mem l (snd pe))
                (p_edges p)
    | EdgeUse a b c => eqd (a, b, c) k
    | VertexUse _ _ => false
    end.
  (* Does this use cover the name l of node n? *)
  Definition covers_vertex (n : nat) (l : L) (x : use L) : bool :=
    match x with
    | RowUse p e => existsb (fun kv => (fst kv =? n) && mem l (node_names (p_nodes p) (snd kv))) e
    | EdgeUse _ _ _ => false
    | VertexUse a b => eqd (a, b) (n, l)
    end.

  (* [e] is an occurrence of [p] in [g]: one data node per pattern node, edges
     on edges with the same name, label names among the label names. *)
  Record occurrence (g : data L) (p : pattern L) (e : list (nat * nat)) : Prop := {
    oc_nodes : NoDup (map snd e);
    oc_known : forall n a, In (n, a) e -> In a (dkeys (p_nodes p));
    oc_ends : forall a b ls, In ((a, b), ls) (p_edges p) -> In a (map snd e) /\ In b (map snd e);
    oc_edges : forall a b ls u v l, In ((a, b), ls) (p_edges p) -> In (u, a) e -> In (v, b) e ->
                 In l ls -> In (u, v, l) (d_edges g);
    oc_named : forall a b ls, In ((a, b), ls) (p_edges p) -> ls <> [];
    oc_labels : forall n a lab, In (n, a) e -> dget (p_nodes p) a = Some (Some lab) ->
                 hashable (Some lab) /\
                 exists dl, dget (d_nodes g) n = Some (Some dl)
                            /\ incl (names_of (Some lab)) (names_of (Some dl));
    oc_bare : p_edges p = [] -> forall n a, In (n, a) e -> exists lab, dget (p_nodes p) a = Some (Some lab)
  }.
  Definition row_ok (g : data L) (r : row L) : Prop :=
    NoDup (dkeys (p_edges (r_pattern r)))
    /\ Forall (occurrence g (r_pattern r)) (r_embeddings r).
  (* no mark is newer than the cover marker: what earlier covers leave *)
  Definition marks_ok (m : marks L) : Prop :=
    (forall k c, dget (edge_mark m) k = Some c -> c <= marker m)
    /\ (forall k c, dget (node_mark m) k = Some c -> c <= marker m).

  (* ------------------------------------------------------------- proofs *)
  Context (substr : L -> L -> bool) (set_order : list (nat * nat) -> list (nat * nat)) (multi : bool).
  Context (substr_refl : forall l, substr l l = true)
          (set_order_In : forall l x, In x (set_order l) <-> In x l).
  Context (g : data L).

  Lemma fold_out_inv {S A} (f : S -> A -> outcome S) (I : S -> Prop) : forall l,
    (forall s a, In a l -> I s -> exists s', f s a = Ret s' /\ I s') ->
    forall s, I s -> exists s', fold_out f l s = Ret s' /\ I s'.
  Proof.
    induction l as [|a l IH]; intros Hf s Hs; [exists s; auto|].
    destruct (Hf s a (or_introl eq_refl) Hs) as [s1 [E1 H1]].
    simpl. rewrite E1. apply IH; [|exact H1]. intros; apply Hf; [right|]; assumption.
  Qed.

  Lemma has_edge_In u v l : In (u, v, l) (d_edges g) -> has_edge g u v = true.
  Proof.
    intros Hi. unfold has_edge. apply existsb_exists. exists (u, v, l). split; [exact Hi|].
    apply eqd_refl.
  Qed.

  Lemma edge_is_marked_set m u v l k :
    edge_is_marked (set_edge m u v l) (fst (fst k)) (snd (fst k)) (snd k) =
    eqd k (u, v, l) || edge_is_marked m (fst (fst k)) (snd (fst k)) (snd k).
  Proof.
    destruct k as [[a b] c]. unfold edge_is_marked, set_edge. cbn [edge_mark marker fst snd].
    rewrite dget_dset. unfold eqd.
    destruct (eq_dec (a, b, c) (u, v, l)); [rewrite Nat.eqb_refl|]; reflexivity.
  Qed.
  Lemma node_is_marked_set m n l a b :
    node_is_marked (set_node m n l) a b = eqd (a, b) (n, l) || node_is_marked m a b.
  Proof.
    unfold node_is_marked, set_node. cbn [node_mark marker]. rewrite dget_dset. unfold eqd.
    destruct (eq_dec (a, b) (n, l)); [rewrite Nat.eqb_refl|]; reflexivity.
  Qed.
  Lemma marks_ok_edge m u v l : marks_ok m -> marks_ok (set_edge m u v l).
  Proof.
    intros [He Hn]. split; cbn [edge_mark node_mark marker set_edge]; [|exact Hn].
    intros k c. rewrite dget_dset. destruct (eq_dec k (u, v, l)); [intros [= <-]; lia | apply He].
  Qed.
  Lemma marks_ok_node m n l : marks_ok m -> marks_ok (set_node m n l).
  Proof.
    intros [He Hn]. split; cbn [edge_mark node_mark marker set_node]; [exact He|].
    intros k c. rewrite dget_dset. destruct (eq_dec k (n, l)); [intros [= <-]; lia | apply Hn].
  Qed.

  Notation is_marked m k := (edge_is_marked m (fst (fst k)) (snd (fst k)) (snd k)).

  Lemma is_edge_marked_ok m u v l : In (u, v, l) (d_edges g) ->
    is_edge_marked multi g m u v l = Ret (edge_is_marked m u v l).
  Proof.
    intros Hi. unfold is_edge_marked. rewrite (has_edge_In u v l Hi). cbn [negb].
    rewrite (proj2 (mem_In _ _) Hi), andb_false_r. reflexivity.
  Qed.
  Lemma mark_edge_ok m u v l : In (u, v, l) (d_edges g) ->
    mark_edge substr multi g m u v l = Ret (set_edge m u v l).
  Proof.
    intros Hi. unfold mark_edge. rewrite (has_edge_In u v l Hi). cbn [negb].
    rewrite (proj2 (mem_In _ _) Hi). destruct multi; [reflexivity|].
    rewrite (proj2 (existsb_exists _ _)); [reflexivity|].
    exists (u, v, l). split; [exact Hi|]. cbn [fst snd]. rewrite eqd_refl, substr_refl. reflexivity.
  Qed.

  Lemma in_label_ok n dl l : dget (d_nodes g) n = Some (Some dl) -> In l (names_of (Some dl)) ->
    in_label substr g n l = Ret true.
  Proof.
    intros Hg Hl. unfold in_label. rewrite Hg. destruct dl as [s|ls|ls]; simpl in Hl.
    - destruct Hl as [->|[]]. rewrite substr_refl. reflexivity.
    - rewrite (proj2 (mem_In _ _) Hl). reflexivity.
    - rewrite (proj2 (mem_In _ _) Hl). reflexivity.
  Qed.

  (* ---- marking the label of a node *)
  Lemma mark_node_ok m n lab dl : hashable (Some lab) ->
    dget (d_nodes g) n = Some (Some dl) -> incl (names_of (Some lab)) (names_of (Some dl)) ->
    exists m', mark_node substr g m n lab = Ret m'
      /\ marker m' = marker m /\ edge_mark m' = edge_mark m
      /\ (marks_ok m -> marks_ok m')
      /\ (forall a b, node_is_marked m' a b = (a =? n) && mem b (names_of (Some lab)) || node_is_marked m a b).
  Proof.
    intros Hh Hg Hi. destruct lab as [l|ls|ls]; [| |destruct Hh].
    - exists (set_node m n l). split; [reflexivity|]. split; [reflexivity|]. split; [reflexivity|].
      split; [apply marks_ok_node|]. intros a b. rewrite node_is_marked_set. f_equal.
      unfold eqd, mem. simpl. unfold eqd. destruct (Nat.eqb_spec a n) as [->|Na].
      + destruct (eq_dec b l) as [->|Nb], (eq_dec (n, _) (n, _)) as [E|E]; try reflexivity; congruence.
      + destruct (eq_dec (a, b) (n, l)); [congruence | reflexivity].
    - cbn [names_of] in *. unfold mark_node. clear Hh. revert m.
      induction ls as [|l ls IH]; intros m.
      + exists m. split; [reflexivity|]. split; [reflexivity|]. split; [reflexivity|]. split; [auto|].
        intros a b. cbn [mem existsb]. rewrite andb_false_r. reflexivity.
      + cbn [fold_out]. rewrite (in_label_ok n dl l Hg) by (apply Hi; left; reflexivity).
        cbn [bind].
        destruct (IH ltac:(intros x Hx; apply Hi; right; exact Hx) (set_node m n l))
          as (m' & E & M1 & M2 & M3 & M4).
        exists m'. split; [exact E|]. split; [exact M1|]. split; [exact M2|].
        split; [intros Hm; apply M3, marks_ok_node, Hm|].
        intros a b. rewrite M4, node_is_marked_set.
        unfold mem. cbn [existsb]. fold (mem b ls).
        rewrite orb_assoc. f_equal. unfold eqd.
        destruct (Nat.eqb_spec a n) as [->|Na]; cbn [andb].
        * destruct (eq_dec b l) as [->|Nb]; destruct (eq_dec (n, _) (n, _)) as [E'|E'];
            rewrite ?orb_true_r, ?orb_false_r; try reflexivity; congruence.
        * destruct (eq_dec (a, b) (n, l)); [congruence | reflexivity].
  Qed.

  (* ---- one embedding *)
  Section Embedding.
    Context (p : pattern L) (e : list (nat * nat)) (Hp : NoDup (dkeys (p_edges p)))
            (Ho : occurrence g p e).

    Lemma key_of_ok a : In a (map snd e) ->
      exists u, key_of e a = Ret u /\ In (u, a) e /\ forall w, In (w, a) e -> w = u.
    Proof.
      intros Ha. pose proof (oc_nodes _ _ _ Ho) as Hn.
      apply in_map_iff in Ha. destruct Ha as [[u a'] [E Hu]]. cbn [snd] in E. subst a'.
      assert (forall w, In (w, a) e -> w = u) as Huniq.
      { intros w Hw. clear - Hn Hu Hw. induction e as [|[x y] r IH]; [destruct Hu|].
        inversion Hn as [|? ? Hna Hnr]; subst. destruct Hu as [E1|E1], Hw as [E2|E2].
        - congruence.
        - injection E1 as -> ->. exfalso. apply Hna. apply (in_map snd) in E2. exact E2.
        - injection E2 as -> ->. exfalso. apply Hna. apply (in_map snd) in E1. exact E1.
        - apply IH; assumption. }
      exists u. split; [|split; assumption]. unfold key_of.
      destruct (filter (fun kv => snd kv =? a) e) as [|[w b] r] eqn:F.
      - assert (In (u, a) []) as []. rewrite <- F. apply filter_In. split; [exact Hu|].
        cbn [snd]. apply Nat.eqb_refl.
      - assert (In (w, b) ((w, b) :: r)) as Hi by (left; reflexivity).
        rewrite <- F in Hi. apply filter_In in Hi. destruct Hi as [Hi Eb]. cbn [snd] in Eb.
        apply Nat.eqb_eq in Eb. subst b. cbn [fst]. rewrite (Huniq w Hi). reflexivity.
    Qed.

    Lemma value_pairs_In vs a b : In a vs -> In b vs -> In (a, b) (value_pairs vs).
    Proof.
      induction vs as [|v r IH]; intros Ha Hb; [destruct Ha|].
      cbn [value_pairs]. apply in_or_app.
      destruct Ha as [Ea|Ha].
      - subst v. left. apply in_flat_map. exists b. split; [exact Hb | left; reflexivity].
      - destruct Hb as [Eb|Hb].
        + subst v. left. apply in_flat_map. exists a. split; [right; exact Ha | right; left; reflexivity].
        + right. apply IH; assumption.
    Qed.

    Lemma edges_in_spec pq : In pq (edges_in set_order e p) <-> In pq (dkeys (p_edges p)).
    Proof.
      unfold edges_in. rewrite set_order_In, nodup_In, filter_In, mem_In. split; [tauto|].
      intros Hi. split; [|exact Hi]. destruct pq as [a b].
      unfold dkeys in Hi. apply in_map_iff in Hi. destruct Hi as [[pq ls] [E Hi]].
      cbn [fst] in E. subst pq. destruct (oc_ends _ _ _ Ho a b ls Hi). apply value_pairs_In; assumption.
    Qed.

    (* data edges under a pattern edge *)
    Definition under (pq : nat * nat) (k : nat * nat * L) : bool :=
      let '(u, v, l) := k in
      mem (u, fst pq) e && mem (v, snd pq) e &&
      mem l (match dget (p_edges p) pq with Some ls => ls | None => [] end).

    Lemma pattern_edge pq : In pq (dkeys (p_edges p)) ->
      exists ls u v, dget (p_edges p) pq = Some ls /\ ls <> []
        /\ labels_of p pq = Ret ls
        /\ key_of e (fst pq) = Ret u /\ key_of e (snd pq) = Ret v
        /\ In (u, fst pq) e /\ In (v, snd pq) e
        /\ (forall l, In l ls -> In (u, v, l) (d_edges g))
        /\ (forall k, under pq k = true <-> exists l, In l ls /\ k = (u, v, l)).
    Proof.
      intros Hi. destruct pq as [a b]. cbn [fst snd].
      destruct (dget (p_edges p) (a, b)) as [ls|] eqn:E.
      2:{ apply dget_None in E. elim (E Hi). }
      pose proof (dget_In _ _ _ E) as Hin.
      destruct (oc_ends _ _ _ Ho a b ls Hin) as [Ha Hb].
      destruct (key_of_ok a Ha) as (u & Eu & Iu & Uu). destruct (key_of_ok b Hb) as (v & Ev & Iv & Uv).
      exists ls, u, v. split; [reflexivity|].
      split; [exact (oc_named _ _ _ Ho a b ls Hin)|].
      split; [unfold labels_of; rewrite E; reflexivity|].
      split; [exact Eu|]. split; [exact Ev|]. split; [exact Iu|]. split; [exact Iv|].
      split; [intros l Hl; exact (oc_edges _ _ _ Ho a b ls u v l Hin Iu Iv Hl)|].
      intros [[x y] l]. unfold under. rewrite E. cbn [fst snd].
      rewrite !andb_true_iff, !mem_In. split.
      - intros [[Hx Hy] Hl]. exists l. split; [exact Hl|]. rewrite (Uu x Hx), (Uv y Hy). reflexivity.
      - intros [l' [Hl El]]. injection El as -> -> ->. auto.
    Qed.

    Lemma covers_under k : covers_edge k (RowUse p e) =
      existsb (fun pq => under pq k) (edges_in set_order e p).
    Proof.
      destruct k as [[u v] l]. unfold covers_edge. apply Bool.eq_iff_eq_true.
      rewrite !existsb_exists. split.
      - intros [[pq ls] [Hi Hc]]. cbn [fst snd] in Hc. exists pq. split.
        + apply edges_in_spec. apply (in_map fst) in Hi. exact Hi.
        + unfold under. rewrite (In_dget _ _ _ Hp Hi). exact Hc.
      - intros [pq [Hi Hc]]. apply edges_in_spec in Hi.
        unfold under in Hc. destruct (dget (p_edges p) pq) as [ls|] eqn:E.
        + exists (pq, ls). split; [apply dget_In; exact E | exact Hc].
        + apply dget_None in E. elim (E Hi).
    Qed.

    Lemma fold_marked m u v ls : (forall l, In l ls -> In (u, v, l) (d_edges g)) -> forall b,
      fold_out (fun b l => bind (is_edge_marked multi g m u v l) (fun c => Ret (b || c))) ls b
      = Ret (b || existsb (fun l => edge_is_marked m u v l) ls).
    Proof.
      induction ls as [|l ls IH]; intros Hl b; cbn [fold_out existsb].
      - rewrite orb_false_r. reflexivity.
      - rewrite is_edge_marked_ok by (apply Hl; left; reflexivity). cbn [bind].
        rewrite IH by (intros; apply Hl; right; assumption). rewrite orb_assoc. reflexivity.
    Qed.

    (* an embedding is not marked when none of the data edges under it is *)
    Lemma embedding_marked m : p_edges p <> [] ->
      exists b, is_embedding_marked set_order multi g m e p = Ret b
        /\ (b = false -> forall k, covers_edge k (RowUse p e) = true -> is_marked m k = false).
    Proof.
      intros Hne. unfold is_embedding_marked.
      destruct (edges_in set_order e p) as [|pq0 es0] eqn:Ees.
      { exists true. split; [reflexivity | discriminate]. }
      set (es := pq0 :: es0) in *.
      assert (forall pq, In pq es -> In pq (dkeys (p_edges p))) as Hes.
      { intros pq Hi. apply edges_in_spec. rewrite Ees. exact Hi. }
      assert (forall b, exists b',
        fold_out (fun b pq =>
          bind (labels_of p pq) (fun ls =>
          bind (key_of e (fst pq)) (fun u =>
          bind (key_of e (snd pq)) (fun v =>
            if has_edge g u v
            then fold_out (fun b l => bind (is_edge_marked multi g m u v l) (fun c => Ret (b || c))) ls b
            else if has_edge g v u then Exn KeyError
            else Ret b)))) es b = Ret b'
        /\ (b' = false -> b = false /\
              forall k, existsb (fun pq => under pq k) es = true -> is_marked m k = false)) as Hf.
      { clear Ees. clearbody es. induction es as [|pq es IH]; intros b.
        - exists b. split; [reflexivity|]. intros ->. split; [reflexivity | discriminate].
        - destruct (pattern_edge pq (Hes pq (or_introl eq_refl)))
            as (ls & u & v & _ & Hls & E1 & E2 & E3 & _ & _ & Hd & Hu).
          cbn [fold_out]. rewrite E1, E2, E3. cbn [bind].
          destruct ls as [|l0 ls0]; [congruence|]. set (ls := l0 :: ls0) in *.
          rewrite (has_edge_In u v l0) by (apply Hd; left; reflexivity).
          rewrite fold_marked by exact Hd. cbn [bind].
          destruct (IH ltac:(intros; apply Hes; right; assumption)
                      (b || existsb (fun l => edge_is_marked m u v l) ls)) as [b' [E Hb']].
          exists b'. split; [exact E|]. intros Ef. destruct (Hb' Ef) as [Eb Hk].
          apply orb_false_iff in Eb. destruct Eb as [Eb El]. split; [exact Eb|].
          intros k. cbn [existsb]. rewrite orb_true_iff. intros [Hc|Hc]; [|apply Hk; exact Hc].
          apply Hu in Hc. destruct Hc as [l [Hl ->]]. cbn [fst snd].
          destruct (edge_is_marked m u v l) eqn:M; [|reflexivity].
          exfalso. assert (existsb (fun l => edge_is_marked m u v l) ls = true) as F.
          { apply existsb_exists. exists l. auto. }
          congruence. }
      destruct (Hf false) as [b [E Hb]]. exists b. split; [exact E|].
      intros Ef k Hc. rewrite covers_under, Ees in Hc. exact (proj2 (Hb Ef) k Hc).
    Qed.

    Lemma fold_mark_edges u v ls : (forall l, In l ls -> In (u, v, l) (d_edges g)) -> forall m,
      exists m', fold_out (fun m l => mark_edge substr multi g m u v l) ls m = Ret m'
        /\ marker m' = marker m /\ node_mark m' = node_mark m
        /\ (marks_ok m -> marks_ok m')
        /\ forall k, is_marked m' k = true <-> (exists l, In l ls /\ k = (u, v, l)) \/ is_marked m k = true.
    Proof.
      induction ls as [|l ls IH]; intros Hl m; cbn [fold_out].
      - exists m. split; [reflexivity|]. split; [reflexivity|]. split; [reflexivity|]. split; [auto|].
        intros k. split; [auto | intros [[l [[] _]]|Hm]; exact Hm].
      - rewrite mark_edge_ok by (apply Hl; left; reflexivity). cbn [bind].
        destruct (IH ltac:(intros; apply Hl; right; assumption) (set_edge m u v l))
          as (m' & E & M1 & M2 & M3 & M4).
        exists m'. split; [exact E|]. split; [exact M1|]. split; [exact M2|].
        split; [intros Hm; apply M3, marks_ok_edge, Hm|].
        intros k. rewrite M4, edge_is_marked_set, orb_true_iff, eqd_true. split.
        + intros [[x [Hx Ex]]|[Ek|Hm]].
          * left. exists x. split; [right; exact Hx | exact Ex].
          * left. exists l. split; [left; reflexivity | exact Ek].
          * right. exact Hm.
        + intros [[x [[Hx|Hx] Ex]]|Hm].
          * right; left. congruence.
          * left. exists x. auto.
          * right; right. exact Hm.
    Qed.

    Lemma mark_pattern_node_ok m a n : In (n, a) e ->
      exists m', mark_pattern_node substr g m p a n = Ret m'
        /\ marker m' = marker m /\ edge_mark m' = edge_mark m
        /\ (marks_ok m -> marks_ok m')
        /\ (forall x l, node_is_marked m' x l = true ->
              node_is_marked m x l = true \/ covers_vertex x l (RowUse p e) = true).
    Proof.
      intros Hi. unfold mark_pattern_node.
      destruct (dget (p_nodes p) a) as [[lab|]|] eqn:E.
      - destruct (oc_labels _ _ _ Ho n a lab Hi E) as [Hh [dl [Hd Hincl]]].
        destruct (mark_node_ok m n lab dl Hh Hd Hincl) as (m' & E' & M1 & M2 & M3 & M4).
        exists m'. split; [exact E'|]. split; [exact M1|]. split; [exact M2|]. split; [exact M3|].
        intros x l Hm. rewrite M4, orb_true_iff, andb_true_iff in Hm.
        destruct Hm as [[Hx Hl]|Hm]; [right | left; exact Hm].
        unfold covers_vertex. apply existsb_exists. exists (n, a). split; [exact Hi|].
        cbn [fst snd]. unfold node_names. rewrite E.
        apply Nat.eqb_eq in Hx. subst x. rewrite Nat.eqb_refl, Hl. reflexivity.
      - exists m. split; [reflexivity|]. split; [reflexivity|]. split; [reflexivity|].
        split; [auto|]. auto.
      - apply dget_None in E. elim E. exact (oc_known _ _ _ Ho n a Hi).
    Qed.

    Lemma embedding_mark m :
      exists m', mark_embedding substr set_order multi g m e p = Ret m'
        /\ marker m' = marker m /\ (marks_ok m -> marks_ok m')
        /\ (forall k, is_marked m' k = covers_edge k (RowUse p e) || is_marked m k)
        /\ (forall x l, node_is_marked m' x l = true ->
              node_is_marked m x l = true \/ covers_vertex x l (RowUse p e) = true).
    Proof.
      unfold mark_embedding.
      assert (forall k, covers_edge k (RowUse p e) =
                existsb (fun pq => under pq k) (edges_in set_order e p)) as Hcov by apply covers_under.
      assert (forall pq, In pq (edges_in set_order e p) -> In pq (dkeys (p_edges p))) as Hes.
      { intros pq. apply edges_in_spec. }
      enough (exists m',
        fold_out (fun m pq =>
          bind (labels_of p pq) (fun ls =>
          bind (key_of e (fst pq)) (fun u =>
          bind (key_of e (snd pq)) (fun v =>
          bind (if has_edge g u v then fold_out (fun m l => mark_edge substr multi g m u v l) ls m
                else if has_edge g v u then Exn KeyError
                else Ret m) (fun m =>
          bind (mark_pattern_node substr g m p (fst pq) u) (fun m =>
          mark_pattern_node substr g m p (snd pq) v)))))) (edges_in set_order e p) m = Ret m'
        /\ marker m' = marker m /\ (marks_ok m -> marks_ok m')
        /\ (forall k, is_marked m' k = existsb (fun pq => under pq k) (edges_in set_order e p)
                                       || is_marked m k)
        /\ (forall x l, node_is_marked m' x l = true ->
              node_is_marked m x l = true \/ covers_vertex x l (RowUse p e) = true))
        as (m' & E & M1 & M2 & M3 & M4).
      { exists m'. split; [exact E|]. split; [exact M1|]. split; [exact M2|].
        split; [intros k; rewrite Hcov; apply M3 | exact M4]. }
      clear Hcov. revert m. induction (edges_in set_order e p) as [|pq es IH]; intros m.
      - exists m. split; [reflexivity|]. split; [reflexivity|]. split; [auto|]. split; auto.
      - destruct (pattern_edge pq (Hes pq (or_introl eq_refl)))
          as (ls & u & v & _ & Hls & E1 & E2 & E3 & Iu & Iv & Hd & Hu).
        cbn [fold_out]. rewrite E1, E2, E3. cbn [bind].
        destruct ls as [|l0 ls0]; [congruence|]. set (ls := l0 :: ls0) in *.
        rewrite (has_edge_In u v l0) by (apply Hd; left; reflexivity).
        destruct (fold_mark_edges u v ls Hd m) as (m1 & F1 & A1 & A2 & A3 & A4). rewrite F1. cbn [bind].
        destruct (mark_pattern_node_ok m1 (fst pq) u Iu) as (m2 & F2 & B1 & B2 & B3 & B4).
        rewrite F2. cbn [bind].
        destruct (mark_pattern_node_ok m2 (snd pq) v Iv) as (m3 & F3 & C1 & C2 & C3 & C4).
        rewrite F3. cbn [bind].
        destruct (IH ltac:(intros; apply Hes; right; assumption) m3) as (m' & E & M1 & M2 & M3 & M4).
        exists m'. split; [exact E|].
        split; [congruence|]. split; [auto|]. split.
        + intros k. rewrite M3. cbn [existsb].
          assert (is_marked m3 k = is_marked m1 k) as E31.
          { unfold edge_is_marked. rewrite C2, B2, C1, B1. reflexivity. }
          rewrite E31.
          rewrite (orb_comm (under pq k)), <- orb_assoc. f_equal.
          apply Bool.eq_iff_eq_true. rewrite A4, orb_true_iff, Hu. tauto.
        + intros x l Hm. destruct (M4 x l Hm) as [G|G]; [|right; exact G].
          destruct (C4 x l G) as [G'|G']; [|right; exact G'].
          destruct (B4 x l G') as [G''|G'']; [|right; exact G''].
          left. unfold node_is_marked in *. rewrite A2, A1 in G''. exact G''.
    Qed.
  End Embedding.

  (* ---- the invariant of the cover *)
  Definition Inv (s : marks L * list (use L)) : Prop :=
    marks_ok (fst s)
    /\ (forall k, In k (d_edges g) ->
          length (filter (covers_edge k) (snd s)) = if is_marked (fst s) k then 1 else 0)
    /\ (forall n l, node_is_marked (fst s) n l = true ->
          exists x, In x (snd s) /\ covers_vertex n l x = true).

  Lemma filter_snoc {A} (f : A -> bool) l a :
    length (filter f (l ++ [a])) = length (filter f l) + (if f a then 1 else 0).
  Proof. rewrite filter_app, app_length. simpl. destruct (f a); reflexivity. Qed.

  Lemma edge_pattern_turn_ok p e s : NoDup (dkeys (p_edges p)) -> occurrence g p e ->
    p_edges p <> [] -> Inv s ->
    exists s', edge_pattern_turn substr set_order multi g p s e = Ret s' /\ Inv s'
      /\ (forall x, In x (snd s') -> In x (snd s) \/ x = RowUse p e).
  Proof.
    intros Hp Ho Hne (I1 & I2 & I3). unfold edge_pattern_turn.
    destruct (embedding_marked p e Hp Ho (fst s) Hne) as [b [E Hb]]. rewrite E. cbn [bind].
    destruct b.
    - exists s. split; [reflexivity|]. split; [split; [exact I1 | split; assumption] | auto].
    - destruct (embedding_mark p e Hp Ho (fst s)) as (m' & Em & M1 & M2 & M3 & M4).
      rewrite Em. cbn [bind]. eexists; split; [reflexivity|]. cbn [fst snd]. split.
      + split; [auto|]. split.
        * intros k Hk. cbn [fst snd]. rewrite filter_snoc, (I2 k Hk), M3.
          destruct (covers_edge k (RowUse p e)) eqn:C; cbn [orb].
          -- rewrite (Hb eq_refl k C). reflexivity.
          -- lia.
        * intros n l Hm. cbn [fst snd]. destruct (M4 n l Hm) as [G|G].
          -- destruct (I3 n l G) as [x [Hx Hc]]. exists x. split; [apply in_or_app; left; exact Hx | exact Hc].
          -- exists (RowUse p e). split; [apply in_or_app; right; left; reflexivity | exact G].
      + intros x Hx. apply in_app_or in Hx. destruct Hx as [Hx|[Hx|[]]]; auto.
  Qed.

  Lemma node_labels_ok m n lab dl : hashable (Some lab) ->
    dget (d_nodes g) n = Some (Some dl) -> incl (names_of (Some lab)) (names_of (Some dl)) ->
    exists b, is_node_labels_marked substr g m n lab = Ret b.
  Proof.
    intros Hh Hg Hi. destruct lab as [l|ls|ls]; [| |destruct Hh]; cbn [is_node_labels_marked names_of] in *.
    - unfold is_node_marked. rewrite (in_label_ok n dl l Hg) by (apply Hi; left; reflexivity).
      cbn [bind]. eauto.
    - assert (forall b, exists b', fold_out (fun b l => bind (is_node_marked substr g m n l)
                                         (fun c => Ret (b && c))) ls b = Ret b') as E; [|apply E].
      clear Hh. induction ls as [|l ls IH]; intros b; cbn [fold_out]; [eauto|].
      unfold is_node_marked at 1. rewrite (in_label_ok n dl l Hg) by (apply Hi; left; reflexivity).
      cbn [bind]. apply IH. intros x Hx. apply Hi. right; exact Hx.
  Qed.

  Lemma node_pattern_turn_ok p e s : occurrence g p e -> p_edges p = [] -> Inv s ->
    exists s', node_pattern_turn substr g p s e = Ret s' /\ Inv s'
      /\ (forall x, In x (snd s') -> In x (snd s) \/ x = RowUse p e).
  Proof.
    intros Ho Hne HI. unfold node_pattern_turn.
    destruct (fold_out_inv
      (fun s kv =>
        match dget (p_nodes p) (snd kv) with
        | Some (Some lab) =>
            bind (is_node_labels_marked substr g (fst s) (fst kv) lab) (fun b =>
              if b then Ret s
              else bind (mark_node substr g (fst s) (fst kv) lab) (fun m =>
                   Ret (m, snd s ++ [RowUse p e])))
        | _ => Exn KeyError
        end)
      (fun t => Inv t /\ (forall x, In x (snd t) -> In x (snd s) \/ x = RowUse p e)) e) with (s := s)
      as (s' & E & HI' & Hx).
    - intros [m log] [n a] Hi [(I1 & I2 & I3) Hlog]. cbn [fst snd] in *.
      destruct (oc_bare _ _ _ Ho Hne n a Hi) as [lab Hlab]. rewrite Hlab.
      destruct (oc_labels _ _ _ Ho n a lab Hi Hlab) as [Hh [dl [Hd Hincl]]].
      destruct (node_labels_ok m n lab dl Hh Hd Hincl) as [b Eb]. rewrite Eb. cbn [bind].
      destruct b.
      + exists (m, log). split; [reflexivity|]. split; [split; [exact I1 | split; assumption] | exact Hlog].
      + destruct (mark_node_ok m n lab dl Hh Hd Hincl) as (m' & Em & M1 & M2 & M3 & M4).
        rewrite Em. cbn [bind]. eexists; split; [reflexivity|]. cbn [fst snd]. split.
        * split; [auto|]. split.
          -- intros k Hk. cbn [fst snd]. rewrite filter_snoc, (I2 k Hk).
             assert (covers_edge k (RowUse p e) = false) as ->.
             { destruct k as [[u v] l]. unfold covers_edge. rewrite Hne. reflexivity. }
             assert (is_marked m' k = is_marked m k) as ->.
             { unfold edge_is_marked. rewrite M1, M2. reflexivity. }
             lia.
          -- intros x l Hm. cbn [fst snd]. rewrite M4, orb_true_iff, andb_true_iff in Hm.
             destruct Hm as [[Hx Hl]|Hm].
             ++ exists (RowUse p e). split; [apply in_or_app; right; left; reflexivity|].
                unfold covers_vertex. apply existsb_exists. exists (n, a). split; [exact Hi|].
                cbn [fst snd]. unfold node_names. rewrite Hlab.
                apply Nat.eqb_eq in Hx. subst x. rewrite Nat.eqb_refl, Hl. reflexivity.
             ++ destruct (I3 x l Hm) as [y [Hy Hc]]. exists y.
                split; [apply in_or_app; left; exact Hy | exact Hc].
        * intros x Hx. apply in_app_or in Hx. destruct Hx as [Hx|[Hx|[]]]; auto.
    - split; [exact HI | auto].
    - exists s'. auto.
  Qed.

  (* a use comes from the rows *)
  Definition from_rows (rows : list (row L)) (x : use L) : Prop :=
    exists r e, In r rows /\ In e (r_embeddings r) /\ x = RowUse (r_pattern r) e.

  Lemma row_cover_ok rows r s : In r rows -> row_ok g r -> Inv s -> Forall (from_rows rows) (snd s) ->
    exists s', row_cover substr set_order multi g s r = Ret s' /\ Inv s' /\ Forall (from_rows rows) (snd s').
  Proof.
    intros Hr [Hp Hall] HI HF. unfold row_cover. rewrite Forall_forall in Hall.
    destruct (p_edges (r_pattern r)) as [|pe pes] eqn:Ep.
    - apply (fold_out_inv _ (fun s => Inv s /\ Forall (from_rows rows) (snd s))); [|split; assumption].
      intros t e He [HIt HFt].
      destruct (node_pattern_turn_ok (r_pattern r) e t (Hall e He) Ep HIt) as (s' & E & HI' & Hx).
      exists s'. split; [exact E|]. split; [exact HI'|]. rewrite Forall_forall in *.
      intros x Hi. destruct (Hx x Hi) as [G| ->]; [apply HFt; exact G|].
      exists r, e. auto.
    - rewrite <- Ep in Hp.
      apply (fold_out_inv _ (fun s => Inv s /\ Forall (from_rows rows) (snd s))); [|split; assumption].
      intros t e He [HIt HFt].
      destruct (edge_pattern_turn_ok (r_pattern r) e t) as (s' & E & HI' & Hx);
        [rewrite Ep in *; assumption | apply Hall; exact He | rewrite Ep; discriminate | exact HIt |].
      exists s'. split; [exact E|]. split; [exact HI'|]. rewrite Forall_forall in *.
      intros x Hi. destruct (Hx x Hi) as [G| ->]; [apply HFt; exact G|].
      exists r, e. auto.
  Qed.

  (* ---- singletons *)
  Definition from_table (rows : list (row L)) (x : use L) : Prop :=
    match x with
    | RowUse _ _ => from_rows rows x
    | EdgeUse u v l => In (u, v, l) (d_edges g)
    | VertexUse n l => In l (node_names (d_nodes g) n)
    end.

  Lemma edge_singletons es : forall s, (forall k, In k es -> In k (d_edges g)) -> Inv s ->
    exists s', fold_out (edge_singleton_turn substr multi g) es s = Ret s' /\ Inv s'
      /\ (forall k, In k es -> is_marked (fst s') k = true)
      /\ (forall k, is_marked (fst s) k = true -> is_marked (fst s') k = true)
      /\ (forall rows, Forall (from_table rows) (snd s) -> Forall (from_table rows) (snd s')).
  Proof.
    induction es as [|[[u v] l] es IH]; intros s Hes HI.
    - exists s. split; [reflexivity|]. split; [exact HI|]. split; [intros k []|]. split; auto.
    - cbn [fold_out edge_singleton_turn].
      pose proof (Hes (u, v, l) (or_introl eq_refl)) as Hi.
      rewrite is_edge_marked_ok by exact Hi. cbn [bind].
      destruct (edge_is_marked (fst s) u v l) eqn:M.
      + destruct (IH s ltac:(intros; apply Hes; right; assumption) HI) as (s' & E & A & B & C & D).
        exists s'. split; [exact E|]. split; [exact A|]. split; [|split; [exact C | exact D]].
        intros k [<-|Hk]; [apply C; exact M | apply B; exact Hk].
      + rewrite mark_edge_ok by exact Hi. cbn [bind].
        destruct (IH (set_edge (fst s) u v l, snd s ++ [EdgeUse u v l])
                    ltac:(intros; apply Hes; right; assumption)) as (s' & E & A & B & C & D).
        * destruct HI as (I1 & I2 & I3). split; [apply marks_ok_edge; exact I1|]. split.
          -- intros k Hk. cbn [fst snd]. rewrite filter_snoc, (I2 k Hk), edge_is_marked_set.
             assert (covers_edge k (EdgeUse u v l) = eqd (u, v, l) k) as ->.
             { destruct k as [[a b] c]. reflexivity. }
             unfold eqd. destruct (eq_dec (u, v, l) k) as [<-|Ne].
             ++ cbn [fst snd]. rewrite M. destruct (eq_dec (u, v, l) (u, v, l)); [reflexivity | congruence].
             ++ destruct (eq_dec k (u, v, l)); [congruence|]. cbn [orb]. lia.
          -- intros n x Hm. cbn [fst snd] in *. destruct (I3 n x Hm) as [y [Hy Hc]].
             exists y. split; [apply in_or_app; left; exact Hy | exact Hc].
        * cbn [fst snd] in *. exists s'. split; [exact E|]. split; [exact A|]. split; [|split].
          -- intros k [<-|Hk]; [|apply B; exact Hk]. apply C.
             rewrite edge_is_marked_set, eqd_refl. reflexivity.
          -- intros k Hk. apply C. rewrite edge_is_marked_set, Hk, orb_true_r. reflexivity.
          -- intros rows HF. apply D. apply Forall_app. split; [exact HF|].
             constructor; [exact Hi | constructor].
  Qed.

  Lemma vertex_singletons n dl ls : dget (d_nodes g) n = Some (Some dl) ->
    incl ls (names_of (Some dl)) -> forall s, Inv s ->
    exists s', fold_out (vertex_singleton_turn substr g n) ls s = Ret s' /\ Inv s'
      /\ (forall k, is_marked (fst s') k = is_marked (fst s) k)
      /\ (forall l, In l ls -> node_is_marked (fst s') n l = true)
      /\ (forall a l, node_is_marked (fst s) a l = true -> node_is_marked (fst s') a l = true)
      /\ (forall rows, Forall (from_table rows) (snd s) -> Forall (from_table rows) (snd s')).
  Proof.
    intros Hg. induction ls as [|l ls IH]; intros Hi s HI.
    - exists s. split; [reflexivity|]. split; [exact HI|]. split; [reflexivity|].
      split; [intros l []|]. split; auto.
    - cbn [fold_out]. unfold vertex_singleton_turn at 1. unfold is_node_marked.
      rewrite (in_label_ok n dl l Hg) by (apply Hi; left; reflexivity). cbn [bind].
      destruct (node_is_marked (fst s) n l) eqn:M.
      + destruct (IH ltac:(intros x Hx; apply Hi; right; exact Hx) s HI) as (s' & E & A & B & C & D & F).
        exists s'. split; [exact E|]. split; [exact A|]. split; [exact B|]. split; [|split; assumption].
        intros x [<-|Hx]; [apply D; exact M | apply C; exact Hx].
      + cbn [bind mark_node].
        destruct (IH ltac:(intros x Hx; apply Hi; right; exact Hx)
                    (set_node (fst s) n l, snd s ++ [VertexUse n l])) as (s' & E & A & B & C & D & F).
        * destruct HI as (I1 & I2 & I3). split; [apply marks_ok_node; exact I1|]. split.
          -- intros k Hk. cbn [fst snd]. rewrite filter_snoc, (I2 k Hk).
             assert (covers_edge k (VertexUse n l) = false) as ->.
             { destruct k as [[a b] c]. reflexivity. }
             unfold edge_is_marked. cbn [set_node edge_mark marker]. lia.
          -- intros a x Hm. cbn [fst snd] in *. rewrite node_is_marked_set, orb_true_iff, eqd_true in Hm.
             destruct Hm as [Ek|Hm].
             ++ injection Ek as -> ->. exists (VertexUse n l).
                split; [apply in_or_app; right; left; reflexivity|]. apply eqd_refl.
             ++ destruct (I3 a x Hm) as [y [Hy Hc]]. exists y.
                split; [apply in_or_app; left; exact Hy | exact Hc].
        * cbn [fst snd] in *. exists s'. split; [exact E|]. split; [exact A|].
          split; [intros k; rewrite B; reflexivity|]. split; [|split].
          -- intros x [<-|Hx]; [|apply C; exact Hx]. apply D.
             rewrite node_is_marked_set, eqd_refl. reflexivity.
          -- intros a x Hx. apply D. rewrite node_is_marked_set, Hx, orb_true_r. reflexivity.
          -- intros rows HF. apply F. apply Forall_app. split; [exact HF|].
             constructor; [|constructor]. simpl. unfold node_names. rewrite Hg.
             apply Hi. left; reflexivity.
  Qed.

  Lemma node_singletons ns : forall s, NoDup (dkeys (d_nodes g)) ->
    (forall v, In v ns -> In v (d_nodes g)) -> Inv s ->
    exists s', fold_out (node_singleton_turn substr g) ns s = Ret s' /\ Inv s'
      /\ (forall k, is_marked (fst s') k = is_marked (fst s) k)
      /\ (forall v l, In v ns -> In l (names_of (snd v)) -> node_is_marked (fst s') (fst v) l = true)
      /\ (forall a l, node_is_marked (fst s) a l = true -> node_is_marked (fst s') a l = true)
      /\ (forall rows, Forall (from_table rows) (snd s) -> Forall (from_table rows) (snd s')).
  Proof.
    induction ns as [|[n o] ns IH]; intros s Hn Hns HI.
    - exists s. split; [reflexivity|]. split; [exact HI|]. split; [reflexivity|].
      split; [intros v l []|]. split; auto.
    - assert (exists s1, node_singleton_turn substr g s (n, o) = Ret s1 /\ Inv s1
        /\ (forall k, is_marked (fst s1) k = is_marked (fst s) k)
        /\ (forall l, In l (names_of o) -> node_is_marked (fst s1) n l = true)
        /\ (forall a l, node_is_marked (fst s) a l = true -> node_is_marked (fst s1) a l = true)
        /\ (forall rows, Forall (from_table rows) (snd s) -> Forall (from_table rows) (snd s1)))
        as (s1 & E1 & A1 & B1 & C1 & D1 & F1).
      { pose proof (In_dget _ _ _ Hn (Hns (n, o) (or_introl eq_refl))) as Hg.
        unfold node_singleton_turn. cbn [fst snd]. destruct o as [[l|ls|ls]|].
        - destruct (vertex_singletons n (Name l) [l] Hg (fun x Hx => Hx) s HI) as (s1 & E & R).
          exists s1. split; [|exact R]. cbn [fold_out] in E.
          destruct (vertex_singleton_turn substr g n s l); cbn [bind] in E; congruence.
        - exact (vertex_singletons n (Names ls) ls Hg (fun x Hx => Hx) s HI).
        - exact (vertex_singletons n (NameList ls) ls Hg (fun x Hx => Hx) s HI).
        - exists s. split; [reflexivity|]. split; [exact HI|]. split; [reflexivity|].
          split; [intros l []|]. split; auto. }
      cbn [fold_out]. rewrite E1. cbn [bind].
      destruct (IH s1 Hn ltac:(intros; apply Hns; right; assumption) A1) as (s' & E & A & B & C & D & F).
      exists s'. split; [exact E|]. split; [exact A|]. split; [intros k; rewrite B; apply B1|].
      split; [|split; [intros a l Hl; apply D, D1, Hl | intros rows HF; apply F, F1, HF]].
      intros v l [<-|Hv] Hl; [apply D, C1; exact Hl | apply C; assumption].
  Qed.

  (* Covering succeeds, every edge of the graph is covered by exactly one use
     of a row or singleton, every label name of a node by at least one, and
     every use is an embedding of a row of the table, an edge of the graph or
     a label name of a node. *)
  Theorem C53_cover_partial (rows : list (row L)) (m : marks L) :
    NoDup (dkeys (d_nodes g)) -> marks_ok m -> Forall (row_ok g) rows ->
    exists m' log, cover substr set_order multi g rows m = Ret (m', log)
      /\ (forall k, In k (d_edges g) -> length (filter (covers_edge k) log) = 1)
      /\ (forall n l, In l (node_names (d_nodes g) n) -> exists x, In x log /\ covers_vertex n l x = true)
      /\ (forall x, In x log ->
            match x with
            | RowUse p e => exists r, In r rows /\ p = r_pattern r /\ In e (r_embeddings r)
            | EdgeUse u v l => In (u, v, l) (d_edges g)
            | VertexUse n l => In l (node_names (d_nodes g) n)
            end)
      /\ marks_ok m'.
  Proof.
    intros Hn Hm Hrows. unfold cover. rewrite Forall_forall in Hrows.
    set (m0 := {| marker := S (marker m); edge_mark := edge_mark m; node_mark := node_mark m |}).
    assert (Inv (m0, [])) as HI0.
    { destruct Hm as [He Hnm]. split.
      - split; intros k c Hk; [apply He in Hk | apply Hnm in Hk]; simpl; lia.
      - split.
        + intros k _. cbn [fst snd filter length]. unfold edge_is_marked. cbn [m0 edge_mark marker].
          destruct (dget (edge_mark m) _) as [c|] eqn:E; [|reflexivity].
          apply He in E. rewrite (proj2 (Nat.eqb_neq c (S (marker m)))) by lia. reflexivity.
        + intros n l F. exfalso. cbn [fst] in F. unfold node_is_marked in F. cbn [m0 node_mark marker] in F.
          destruct (dget (node_mark m) _) as [c|] eqn:E; [|discriminate].
          apply Hnm in E. rewrite (proj2 (Nat.eqb_neq c (S (marker m)))) in F by lia. discriminate. }
    destruct (fold_out_inv (row_cover substr set_order multi g)
                (fun s => Inv s /\ Forall (from_rows rows) (snd s)) rows) with (s := (m0, @nil (use L)))
      as (s1 & E1 & HI1 & HF1).
    { intros s r Hr [HI HF]. destruct (row_cover_ok rows r s Hr (Hrows r Hr) HI HF) as (s' & E & A & B).
      exists s'. auto. }
    { split; [exact HI0 | constructor]. }
    rewrite E1. cbn [bind]. unfold singleton_cover.
    destruct (edge_singletons (d_edges g) s1 (fun k Hk => Hk) HI1) as (s2 & E2 & A2 & B2 & C2 & D2).
    rewrite E2. cbn [bind].
    destruct (node_singletons (d_nodes g) s2 Hn (fun v Hv => Hv) A2) as (s3 & E3 & A3 & B3 & C3 & D3 & F3).
    rewrite E3. destruct s3 as [m' log]. exists m', log. split; [reflexivity|].
    destruct A3 as (I1 & I2 & I3). cbn [fst snd] in *. split; [|split; [|split]].
    - intros k Hk. rewrite (I2 k Hk), B3, (B2 k Hk). reflexivity.
    - intros n l Hl. apply I3. unfold node_names in Hl.
      destruct (dget (d_nodes g) n) as [o|] eqn:Eo; [|destruct Hl].
      exact (C3 (n, o) l (dget_In _ _ _ Eo) Hl).
    - assert (Forall (from_table rows) log) as HF.
      { apply F3, D2. rewrite Forall_forall in *. intros x Hx. destruct (HF1 x Hx) as (r & e & Hr).
        destruct Hr as (Hr & He & ->). exists r, e. auto. }
      rewrite Forall_forall in HF. intros x Hx. specialize (HF x Hx).
      destruct x; simpl in HF; auto. destruct HF as (r & e' & Hr & He & Ex).
      injection Ex as -> ->. exists r. auto.
    - exact I1.
  Qed.
End C53.

(* In a DiGraph there is one edge from a node to another, so each edge is
   covered exactly once. *)
Theorem C53_digraph {L} `{EqDec L} (substr : L -> L -> bool) (set_order : list (nat * nat) -> list (nat * nat))
    (g : data L) (rows : list (row L)) (m : marks L) :
  (forall l, substr l l = true) -> (forall l x, In x (set_order l) <-> In x l) ->
  NoDup (map fst (d_edges g)) ->
  NoDup (dkeys (d_nodes g)) -> marks_ok m -> Forall (row_ok g) rows ->
  exists m' log, cover substr set_order false g rows m = Ret (m', log)
    /\ (forall k, In k (d_edges g) ->
          length (filter (covers_edge k) log) = count_occ eq_dec (d_edges g) k
          /\ count_occ eq_dec (d_edges g) k = 1)
    /\ (forall n l, In l (node_names (d_nodes g) n) -> exists x, In x log /\ covers_vertex n l x = true).
Proof.
  intros Hs Ho Hd Hn Hm Hr.
  destruct (C53_cover_partial substr set_order false Hs Ho g rows m Hn Hm Hr)
    as (m' & log & E & A & B & _ & _).
  exists m', log. split; [exact E|]. split; [|exact B].
  intros k Hk. rewrite (A k Hk).
  assert (count_occ eq_dec (d_edges g) k = 1) as ->; [|split; reflexivity].
  apply NoDup_count_occ'; [|exact Hk]. apply (NoDup_map_inv fst). exact Hd.
Qed.

(* ---- a non-trivial case: a row with two embeddings that overlap *)
Definition demo_graph : data nat :=
  {| d_nodes := [(1, Some (Name 10)); (2, None); (3, Some (Names [10; 11])); (4, None)];
     d_edges := [(1, 2, 7); (2, 3, 8); (3, 2, 7); (2, 4, 8); (4, 1, 9)] |}.
Definition demo_row : row nat :=
  {| r_pattern := {| p_nodes := [(1, Some (Name 10)); (2, None); (3, None)];
                     p_edges := [((1, 2), [7]); ((2, 3), [8])] |};
     r_embeddings := [[(1, 1); (2, 2); (3, 3)]; [(1, 1); (2, 2); (4, 3)]; [(3, 1); (2, 2); (4, 3)]] |}.

Example C53_case :
  NoDup (map fst (d_edges demo_graph)) /\ NoDup (dkeys (d_nodes demo_graph))
  /\ Forall (row_ok demo_graph) [demo_row]
  /\ marks_ok {| marker := 3; edge_mark := [((1, 2, 7), 3)]; node_mark := [((1, 10), 2)] |}
  /\ (let p := r_pattern demo_row in
      exists m', cover eqd (fun l => rev l) false demo_graph [demo_row]
        {| marker := 3; edge_mark := [((1, 2, 7), 3)]; node_mark := [((1, 10), 2)] |}
      = Ret (m', [RowUse p [(1, 1); (2, 2); (3, 3)]; RowUse p [(3, 1); (2, 2); (4, 3)];
                  EdgeUse 4 1 9; VertexUse 3 11])).
Proof.
  split; [repeat constructor; simpl; intuition congruence|].
  split; [repeat constructor; simpl; intuition congruence|].
  split; [|split; [|eexists; vm_compute; reflexivity]].
  - constructor; [|constructor]. split; [repeat constructor; simpl; intuition congruence|].
    repeat (apply Forall_cons; [constructor|]); try apply Forall_nil.
    all: cbn [r_pattern demo_row p_nodes p_edges map snd].
    all: try match goal with |- NoDup _ => repeat constructor; simpl; intuition congruence end.
    all: try discriminate.
    all: intros; simpl in *; repeat match goal with
         | H : _ \/ _ |- _ => destruct H
         | H : False |- _ => destruct H
         | H : (_, _) = (_, _) |- _ => injection H; clear H; intros; subst
         end; simpl in *; try discriminate; auto 10.
    all: try (intuition congruence).
    all: match goal with H : Some _ = Some _ |- _ => injection H; intros; subst end;
         (split; [exact I|]; eexists; split; [reflexivity|]; intros x Hx; simpl in *; tauto).
  - split; intros k c; simpl;
      match goal with |- context [eq_dec ?a ?b] => destruct (eq_dec a b) end; intros [= <-]; lia.
Qed.

(* Two parallel edges with the same name: only one of them is ever covered. *)
Theorem C53_parallel_refuted :
  exists (g : data nat) (m' : marks nat) (log : list (use nat)) (k : nat * nat * nat),
    NoDup (dkeys (d_nodes g))
    /\ cover eqd (fun l => l) true g [] {| marker := 0; edge_mark := []; node_mark := [] |} = Ret (m', log)
    /\ count_occ eq_dec (d_edges g) k = 2
    /\ length (filter (covers_edge k) log) = 1.
Proof.
  exists {| d_nodes := [(1, None); (2, None)]; d_edges := [(1, 2, 7); (1, 2, 7)] |}.
  eexists; eexists. exists (1, 2, 7).
  split; [repeat constructor; simpl; intuition congruence|].
  split; [vm_compute; reflexivity|]. split; reflexivity.
Qed.

Print Assumptions C53_cover_partial.
Print Assumptions C53_digraph.
Print Assumptions C53_parallel_refuted.
