(* C89: the occurrences of a pattern in a data graph, and the cover with them. *)
From Verif Require Import Prelude CheckModel LCMModel VerticalProofs GraphUtilModel PropGraphUtil GraphCoverModel PropGraphCover
  MergeModel PropMerge RewriteModel RewriteProofs PropRewrite GenerateModel PropGenerate MatchModel.

Section C89.
  Context {L : Type} `{EqDec L}.

  (* ------------------------------------------------------- specification *)
  (* an embedding places the nodes of the pattern, one after the other, on different nodes of the data;
     every named edge of the pattern is an edge with that name between the places of its ends, and a
     data node has all the names of its pattern node *)
  Record placed (g : data L) (p : pattern L) (e : list (nat * nat)) : Prop := {
    pl_nodes : map snd e = dkeys (p_nodes p);
    pl_distinct : NoDup (map fst e);
    pl_data : incl (map fst e) (dkeys (d_nodes g));
    pl_edges : forall a b ls u v l, In ((a, b), ls) (p_edges p) -> In (u, a) e -> In (v, b) e -> In l ls -> In (u, v, l) (d_edges g);
    pl_labels : forall n a, In (n, a) e -> incl (node_names (p_nodes p) a) (node_names (d_nodes g) n) }.
  (* a label of a pattern: a string, or a tuple of two or more names *)
  Definition proper (o : option (label L)) : Prop :=
    match o with None => True | Some (Name _) => True | Some (Names ls) => 2 <= length (nodup eq_dec ls) | Some (NameList _) => False end.
  Record good_pattern (p : pattern L) : Prop := {
    gp_nodes : NoDup (dkeys (p_nodes p));
    gp_edges : NoDup (dkeys (p_edges p));
    gp_ends : forall a b ls, In ((a, b), ls) (p_edges p) -> In a (dkeys (p_nodes p)) /\ In b (dkeys (p_nodes p));
    gp_named : forall ab ls, In (ab, ls) (p_edges p) -> ls <> [];
    gp_labels : forall a o, In (a, o) (p_nodes p) -> proper o;
    gp_bare : p_edges p = [] -> forall a o, In (a, o) (p_nodes p) -> o <> None }.
  (* edges with one name, as in a DiGraph *)
  Definition simple_data (g : data L) : Prop := NoDup (map fst (d_edges g)).
  Definition simple_pattern (p : pattern L) : Prop := forall ab ls, In (ab, ls) (p_edges p) -> length ls = 1.

  (* ------------------------------------------------------------- proofs *)
  Lemma eqd_eq {X} `{EqDec X} (x y : X) : eqd x y = true -> x = y.
  Proof. apply eqd_true. Qed.
  Lemma NoDup_rem (n : nat) ds : NoDup ds -> NoDup (remove eq_dec n ds).
  Proof.
    induction 1 as [|x l Hx N IH]; cbn [remove]; [constructor|]. destruct (eq_dec n x); [exact IH|]. constructor; [|exact IH].
    intros I. apply in_remove in I. tauto.
  Qed.
  Lemma maps_spec : forall ps ds e, NoDup ds -> (In e (maps ps ds) <-> map snd e = ps /\ NoDup (map fst e) /\ incl (map fst e) ds).
  Proof.
    induction ps as [|a ps IH]; intros ds e Hd; cbn [maps].
    - split; [intros [<-|[]]; cbn; split; [reflexivity|]; split; [constructor | intros x []]|]. intros (E & _). destruct e; [left; reflexivity | discriminate].
    - rewrite in_flat_map. split.
      + intros (n & In_ & I). apply in_map_iff in I. destruct I as (e' & <- & I). assert (Hr : NoDup (remove eq_dec n ds)) by (apply NoDup_rem; exact Hd).
        apply (IH _ _ Hr) in I. destruct I as (E & N & Hi). cbn [map fst snd]. split; [rewrite E; reflexivity|]. split.
        * constructor; [|exact N]. intros X. apply Hi in X. exact (remove_In _ _ _ X).
        * intros x [<-|X]; [exact In_|]. apply Hi in X. apply in_remove in X. apply X.
      + intros (E & N & Hi). destruct e as [|[n a'] e]; [discriminate|]. cbn [map fst snd] in *. injection E as -> E. inversion N as [|? ? Hn N']; subst.
        exists n. split; [apply Hi; left; reflexivity|]. apply in_map. apply IH; [apply NoDup_rem; exact Hd|]. split; [reflexivity|]. split; [exact N'|].
        intros x X. apply in_in_remove; [intros ->; contradiction | apply Hi; right; exact X].
  Qed.
  Lemma maps_NoDup : forall ps ds, NoDup ds -> NoDup (maps ps ds).
  Proof.
    induction ps as [|a ps IH]; intros ds Hd; cbn [maps]; [repeat constructor; intros []|].
    assert (G : forall f : nat -> list (list (nat * nat)), (forall n, NoDup (f n)) -> NoDup (flat_map (fun n => map (cons (n, a)) (f n)) ds)).
    { intros f Hf. induction Hd as [|n l Hn Hd IHd]; cbn [flat_map]; [constructor|]. apply NoDup_app_intro; [|exact IHd|].
      - apply FinFun.Injective_map_NoDup; [intros x y E; injection E; auto | apply Hf].
      - intros x I J. apply in_map_iff in I. destruct I as (y & <- & _). apply in_flat_map in J. destruct J as (n' & I' & J). apply in_map_iff in J.
        destruct J as (z & E & _). injection E as -> _. contradiction. }
    apply G. intros n. apply IH, NoDup_rem, Hd.
  Qed.

  Lemma node_match_spec (dl pl : option (label L)) : proper pl -> node_match dl pl = true <-> incl (names_of pl) (names_of dl).
  Proof.
    assert (Two : forall (x : L) ys, 2 <= length (nodup eq_dec ys) -> ~ incl ys [x]).
    { intros x ys H2 Hi. assert (Hi' : incl (nodup eq_dec ys) [x]) by (intros z Hz; apply Hi; apply nodup_In in Hz; exact Hz).
      pose proof (NoDup_incl_length (NoDup_nodup eq_dec ys) Hi'). cbn [length] in *. lia. }
    assert (All : forall xs ys : list L, forallb (fun i => mem i xs) ys = true <-> incl ys xs).
    { intros xs ys. rewrite forallb_forall. split; intros X i Hi; [apply mem_In, X, Hi | apply mem_In, X, Hi]. }
    destruct pl as [[y|ys|ys]|]; cbn [proper names_of]; intros Hp; try contradiction.
    - destruct dl as [[x|xs|xs]|]; cbn [node_match names_of].
      + rewrite eqd_true. split; [intros -> z Hz; exact Hz | intros X; specialize (X y (or_introl eq_refl)); destruct X as [X|[]]; exact X].
      + rewrite mem_In. split; [intros X z [<-|[]]; exact X | intros X; apply X; left; reflexivity].
      + rewrite mem_In. split; [intros X z [<-|[]]; exact X | intros X; apply X; left; reflexivity].
      + split; [discriminate | intros X; destruct (X y (or_introl eq_refl))].
    - destruct dl as [[x|xs|xs]|]; cbn [node_match names_of]; try apply All.
      + split; [discriminate | intros X; destruct (Two x ys Hp X)].
      + split; [discriminate|]. intros X. destruct ys as [|y ys]; [cbn in Hp; lia|]. destruct (X y (or_introl eq_refl)).
    - split; [intros _ z [] | intros _; destruct dl as [[x|xs|xs]|]; reflexivity].
  Qed.
  Lemma node_match_some (dl : option (label L)) lab : node_match dl (Some lab) = true -> exists d, dl = Some d.
  Proof. destruct dl; [eauto | cbn; destruct lab; discriminate]. Qed.

  Lemma image_spec e a u : NoDup (map snd e) -> image e a = Some u <-> In (u, a) e.
  Proof.
    intros N. unfold image. split.
    - destruct (filter (fun kv => snd kv =? a) e) as [|kv l] eqn:F; [discriminate|]. intros [= <-].
      assert (I : In kv (filter (fun kv => snd kv =? a) e)) by (rewrite F; left; reflexivity). apply filter_In in I. destruct I as [I E].
      apply Nat.eqb_eq in E. destruct kv as [n b]. cbn in *. subst b. exact I.
    - intros I. assert (I' : In (u, a) (filter (fun kv => snd kv =? a) e)) by (apply filter_In; split; [exact I | apply Nat.eqb_refl]).
      destruct (filter (fun kv => snd kv =? a) e) as [|[n b] l] eqn:F; [destruct I'|].
      assert (J : In (n, b) (filter (fun kv => snd kv =? a) e)) by (rewrite F; left; reflexivity). apply filter_In in J. destruct J as [J E].
      apply Nat.eqb_eq in E. cbn [snd fst] in *. subst b. f_equal. clear -N I J. induction e as [|[n' a'] e IH]; [destruct I|]. cbn [map snd] in N.
      inversion N as [|? ? Hn N']; subst. destruct I as [I|I], J as [J|J].
      + congruence.
      + injection I as <- <-. elim Hn. apply (in_map snd) in J. exact J.
      + injection J as <- <-. elim Hn. apply (in_map snd) in I. exact I.
      + apply IH; assumption.
  Qed.
  Lemma between_spec (g : data L) u v l : In l (between g u v) <-> In (u, v, l) (d_edges g).
  Proof.
    unfold between. rewrite in_map_iff. split.
    - intros ([[a b] c] & <- & I). apply filter_In in I. destruct I as [I E]. apply eqd_eq in E. cbn [fst snd] in *. inversion E; subst. exact I.
    - intros I. exists (u, v, l). split; [reflexivity|]. apply filter_In. split; [exact I | apply eqd_refl].
  Qed.
  Lemma between_one (g : data L) u v : simple_data g -> length (between g u v) <= 1.
  Proof.
    unfold simple_data, between. rewrite map_length. induction (d_edges g) as [|e es IH]; intros N; [cbn; lia|]. cbn [map] in N.
    inversion N as [|? ? Hn N']; subst. cbn [filter]. unfold eqd at 1. destruct (eq_dec (fst e) (u, v)) as [E|E]; [|apply IH; exact N'].
    cbn [length]. assert (F : filter (fun e => eqd (fst e) (u, v)) es = []); [|rewrite F; cbn; lia].
    destruct (filter (fun e => eqd (fst e) (u, v)) es) as [|e' l] eqn:F; [reflexivity|].
    assert (I : In e' (filter (fun e => eqd (fst e) (u, v)) es)) by (rewrite F; left; reflexivity). apply filter_In in I. destruct I as [I E'].
    apply eqd_eq in E'. elim Hn. rewrite E, <- E'. apply in_map. exact I.
  Qed.
  (* ------------------------------------------------ the embeddings found *)
  Context (order : list (list (nat * nat)) -> list (list (nat * nat))) (order_perm : forall l, Permutation (order l) l).
  Context (multi : bool) (g : data L).
  Context (data_nodes : NoDup (dkeys (d_nodes g))).
  Notation found p := (get_embeddings multi order p g).

  Lemma found_spec p e : In e (found p) <->
    map snd e = dkeys (p_nodes p) /\ NoDup (map fst e) /\ incl (map fst e) (dkeys (d_nodes g)) /\ matches multi g p e = true.
  Proof.
    unfold get_embeddings. split.
    - intros I. apply (Permutation_in _ (order_perm _)) in I. apply filter_In in I. destruct I as [I M]. apply maps_spec in I; [|exact data_nodes]. tauto.
    - intros (A & B & C & D). apply (Permutation_in _ (Permutation_sym (order_perm _))). apply filter_In. split; [|exact D]. apply maps_spec; [exact data_nodes | tauto].
  Qed.
  Lemma found_NoDup p : NoDup (found p).
  Proof.
    unfold get_embeddings. apply (Permutation_NoDup (Permutation_sym (order_perm _))). apply NoDup_filter, maps_NoDup, data_nodes.
  Qed.

  Lemma names_label_at ns n : node_names ns n = names_of (label_at (L := L) ns n).
  Proof. unfold node_names, label_at. destruct (dget ns n); reflexivity. Qed.
  Lemma label_at_proper p a : good_pattern p -> proper (label_at (p_nodes p) a).
  Proof.
    intros G. unfold label_at. destruct (dget (p_nodes p) a) as [o|] eqn:E; [|exact I]. exact (gp_labels p G a o (VerticalProofs.dget_In _ _ _ E)).
  Qed.
  Lemma labels_match p e : good_pattern p ->
    forallb (fun kv => node_match (label_at (d_nodes g) (fst kv)) (label_at (p_nodes p) (snd kv))) e = true <->
    forall n a, In (n, a) e -> incl (node_names (p_nodes p) a) (node_names (d_nodes g) n).
  Proof.
    intros G. rewrite forallb_forall. split.
    - intros X n a I. rewrite !names_label_at. apply node_match_spec; [apply label_at_proper, G | exact (X (n, a) I)].
    - intros X [n a] I. cbn [fst snd]. apply node_match_spec; [apply label_at_proper, G|]. rewrite <- !names_label_at. exact (X n a I).
  Qed.
  Lemma image_in (p : pattern L) e a : map snd e = dkeys (p_nodes p) -> NoDup (map snd e) -> In a (dkeys (p_nodes p)) -> exists u, image e a = Some u /\ In (u, a) e.
  Proof.
    intros E N I. rewrite <- E in I. apply in_map_iff in I. destruct I as ([u b] & <- & I). exists u. split; [apply image_spec|]; assumption.
  Qed.

  (* what the search looks at on the edges *)
  Definition first_of (ls : list L) : option L := hd_error ls.
  Definition near (p : pattern L) (e : list (nat * nat)) : Prop :=
    forall a b ls u v, In ((a, b), ls) (p_edges p) -> In (u, a) e -> In (v, b) e ->
      length ls <= length (between g u v) /\ first_of (between g u v) = first_of ls.
  Lemma edges_found p e : good_pattern p -> map snd e = dkeys (p_nodes p) ->
    forallb (fun pe => match image e (fst (fst pe)), image e (snd (fst pe)) with
                       | Some u, Some v =>
                           let ls := between g u v in
                           negb (length ls =? 0) && (length (snd pe) <=? length ls) && edges_match multi ls (snd pe)
                       | _, _ => false
                       end) (p_edges p) = true <-> near p e.
  Proof.
    intros G E. assert (N : NoDup (map snd e)) by (rewrite E; apply (gp_nodes p G)). rewrite forallb_forall. split.
    - intros X a b ls u v I Iu Iv. specialize (X _ I). cbn [fst snd] in X. rewrite (proj2 (image_spec e a u N) Iu), (proj2 (image_spec e b v N) Iv) in X.
      cbn zeta in X. apply andb_prop in X. destruct X as [X M]. apply andb_prop in X. destruct X as [Z Le]. apply Nat.leb_le in Le.
      split; [exact Le|]. apply negb_true_iff, Nat.eqb_neq in Z. pose proof (gp_named p G _ _ I) as Nl.
      destruct (between g u v) as [|x xs]; [cbn in Z; lia|]. destruct ls as [|y ys]; [congruence|]. cbn [first_of hd_error]. f_equal.
      unfold edges_match in M. destruct multi; cbn in M; [|apply eqd_eq in M; exact M].
      rewrite orb_false_r in M. apply eqd_eq in M. congruence.
    - intros X [[a b] ls] I. cbn [fst snd]. destruct (gp_ends p G _ _ _ I) as [Ia Ib].
      destruct (image_in p e a E N Ia) as (u & Eu & Iu). destruct (image_in p e b E N Ib) as (v & Ev & Iv). rewrite Eu, Ev.
      destruct (X _ _ _ _ _ I Iu Iv) as [Le Ef]. pose proof (gp_named p G _ _ I) as Nl. cbn zeta.
      destruct ls as [|y ys]; [congruence|]. destruct (between g u v) as [|x xs]; [cbn in Ef; discriminate|]. cbn [first_of hd_error] in Ef. injection Ef as ->.
      apply andb_true_intro. split; [apply andb_true_intro; split; [reflexivity | apply Nat.leb_le; exact Le]|].
      unfold edges_match. destruct multi; cbn; unfold eqd; destruct (eq_dec y y); [reflexivity | congruence | reflexivity | congruence].
  Qed.

  (* The search returns each placement once.  With parallel edges it compares the number of parallel edges and the first name only. *)
  Theorem C89_search p : good_pattern p -> NoDup (found p) /\ forall e, In e (found p) <->
    map snd e = dkeys (p_nodes p) /\ NoDup (map fst e) /\ incl (map fst e) (dkeys (d_nodes g)) /\
    (forall n a, In (n, a) e -> incl (node_names (p_nodes p) a) (node_names (d_nodes g) n)) /\ near p e.
  Proof.
    intros G. split; [apply found_NoDup|]. intros e. rewrite found_spec. unfold matches. rewrite andb_true_iff.
    split; intros (A & B & C & D).
    - destruct D as [D1 D2]. rewrite labels_match in D1 by exact G. rewrite (edges_found p e G A) in D2. tauto.
    - destruct D as [D1 D2]. rewrite labels_match by exact G. rewrite (edges_found p e G A). tauto.
  Qed.

  (* In a DiGraph the embeddings are exactly the placements. *)
  Theorem C89_embeddings p : good_pattern p -> simple_data g -> simple_pattern p ->
    NoDup (found p) /\ forall e, In e (found p) <-> placed g p e.
  Proof.
    intros G Sd Sp. destruct (C89_search p G) as [N X]. split; [exact N|]. intros e. rewrite X. clear X. split.
    - intros (A & B & C & D & Nr). constructor; [exact A | exact B | exact C | | exact D].
      intros a b ls u v l I Iu Iv Il. destruct (Nr _ _ _ _ _ I Iu Iv) as [_ Ef]. pose proof (Sp _ _ I) as E1.
      destruct ls as [|y [|? ?]]; [discriminate | | discriminate]. destruct Il as [<-|[]]. apply between_spec.
      destruct (between g u v) as [|x xs]; [discriminate|]. injection Ef as ->. left. reflexivity.
    - intros Pl. split; [apply Pl|]. split; [apply Pl|]. split; [apply Pl|]. split; [apply Pl|].
      intros a b ls u v I Iu Iv. pose proof (Sp _ _ I) as E1. destruct ls as [|y [|? ?]]; [discriminate | | discriminate].
      assert (Iy : In (u, v, y) (d_edges g)) by (apply (pl_edges _ _ _ Pl a b [y] u v y I Iu Iv); left; reflexivity).
      apply between_spec in Iy. pose proof (between_one g u v Sd). destruct (between g u v) as [|x [|? ?]]; [destruct Iy | | cbn in *; lia].
      destruct Iy as [->|[]]. split; [cbn; lia | reflexivity].
  Qed.
  (* ------------------------------------------------ the cover with them *)
  Context (substr : L -> L -> bool) (set_order : list (nat * nat) -> list (nat * nat)).
  Context (substr_refl : forall l, substr l l = true) (set_order_In : forall l x, In x (set_order l) <-> In x l).
  (* the row of a pattern, code_table.py 54-60, [add_row] *)
  Definition row_for (p : pattern L) : row L := {| r_pattern := p; r_embeddings := found p |}.

  Definition whole (p : pattern L) (e : list (nat * nat)) : bool :=
    forallb (fun pe => match image e (fst (fst pe)), image e (snd (fst pe)) with
                       | Some u, Some v => forallb (fun l => mem (u, v, l) (d_edges g)) (snd pe)
                       | _, _ => false
                       end) (p_edges p).
  Lemma whole_placed p e : good_pattern p -> In e (found p) -> whole p e = true <-> placed g p e.
  Proof.
    intros G I. destruct (C89_search p G) as [_ X]. apply X in I. clear X. destruct I as (A & B & C & D & _).
    assert (N : NoDup (map snd e)) by (rewrite A; apply (gp_nodes p G)). unfold whole. rewrite forallb_forall. split.
    - intros W. constructor; [exact A | exact B | exact C | | exact D]. intros a b ls u v l I Iu Iv Il. specialize (W _ I). cbn [fst snd] in W.
      rewrite (proj2 (image_spec e a u N) Iu), (proj2 (image_spec e b v N) Iv) in W. rewrite forallb_forall in W. apply mem_In. exact (W l Il).
    - intros Pl [[a b] ls] I. cbn [fst snd]. destruct (gp_ends p G _ _ _ I) as [Ia Ib].
      destruct (image_in p e a A N Ia) as (u & Eu & Iu). destruct (image_in p e b A N Ib) as (v & Ev & Iv). rewrite Eu, Ev.
      apply forallb_forall. intros l Il. apply mem_In. exact (pl_edges _ _ _ Pl a b ls u v l I Iu Iv Il).
  Qed.
  Lemma placed_occurrence p e : good_pattern p -> In e (found p) -> placed g p e -> occurrence g p e.
  Proof.
    intros G I Pl. pose proof (pl_nodes _ _ _ Pl) as A. assert (N : NoDup (map snd e)) by (rewrite A; apply (gp_nodes p G)).
    assert (Kn : forall n a, In (n, a) e -> In a (dkeys (p_nodes p))) by (intros n a J; rewrite <- A; apply (in_map snd) in J; exact J).
    constructor.
    - exact N.
    - exact Kn.
    - intros a b ls J. rewrite A. exact (gp_ends p G a b ls J).
    - exact (pl_edges _ _ _ Pl).
    - intros a b ls J. exact (gp_named p G _ _ J).
    - intros n a lab J E. assert (Hp : proper (Some lab)) by exact (gp_labels p G a _ (VerticalProofs.dget_In _ _ _ E)).
      split; [destruct lab; [exact Logic.I | exact Logic.I | destruct Hp]|]. apply found_spec in I. destruct I as (_ & _ & _ & M). unfold matches in M.
      apply andb_prop in M. destruct M as [M _]. rewrite forallb_forall in M. specialize (M _ J). cbn [fst snd] in M.
      assert (El : label_at (p_nodes p) a = Some lab) by (unfold label_at; rewrite E; reflexivity). rewrite El in M.
      destruct (node_match_some _ _ M) as (dl & Ed). exists dl. apply node_match_spec in M; [|exact Hp]. rewrite Ed in M. split; [|exact M].
      unfold label_at in Ed. destruct (dget (d_nodes g) n) as [o|] eqn:En; [|discriminate]. subst o. reflexivity.
    - intros Eb n a J. apply Kn in J. unfold dkeys in J. apply in_map_iff in J. destruct J as ([a' o] & Ea & J). cbn [fst] in Ea. subst a'.
      pose proof (gp_bare p G Eb a o J) as Ho. destruct o as [lab|]; [|congruence]. exists lab. apply VerticalProofs.In_dget; [apply (gp_nodes p G) | exact J].
  Qed.

  (* a pattern of a DiGraph or a MultiDiGraph *)
  Definition of_kind (p : pattern L) : Prop := multi = false -> simple_data g /\ simple_pattern p.

  Lemma key_image e a u : image e a = Some u -> key_of e a = Ret u.
  Proof. unfold image, key_of. destruct (filter _ e); [discriminate|]. intros [= <-]. reflexivity. Qed.
  Lemma near_edge u v (ls : list L) : ls <> [] -> first_of (between g u v) = first_of ls -> has_edge g u v = true.
  Proof.
    intros Nl Ef. destruct ls as [|y ys]; [congruence|]. destruct (between g u v) as [|x xs] eqn:E; [discriminate|].
    apply (has_edge_In g u v x). apply between_spec. rewrite E. left. reflexivity.
  Qed.
  Lemma fold_some m u v : multi = true -> has_edge g u v = true -> forall ls b,
    exists c, fold_out (fun b l => bind (is_edge_marked multi g m u v l) (fun c => Ret (b || c))) ls b = Ret c
      /\ (b = true -> c = true) /\ (forallb (fun l => mem (u, v, l) (d_edges g)) ls = false -> c = true).
  Proof.
    intros Em He. induction ls as [|l ls IH]; intros b; cbn [fold_out forallb]; [exists b; split; [reflexivity|]; split; [auto | discriminate]|].
    unfold is_edge_marked at 1. rewrite He, Em. cbn [negb andb]. destruct (mem (u, v, l) (d_edges g)) eqn:Ml; cbn [negb bind andb].
    - destruct (IH (b || edge_is_marked m u v l)) as (c & E & A & B). rewrite Em in E. rewrite E. exists c. split; [reflexivity|]. split; [|exact B].
      intros ->. apply A. reflexivity.
    - destruct (IH (b || true)) as (c & E & A & B). rewrite Em in E. rewrite E. exists c. split; [reflexivity|].
      rewrite orb_true_r in A. split; intros _; apply A; reflexivity.
  Qed.
  (* an embedding that is not a placement is skipped *)
  Lemma skipped p s e : multi = true -> good_pattern p -> In e (found p) -> whole p e = false -> edge_pattern_turn substr set_order multi g p s e = Ret s.
  Proof.
    intros Em G I W. destruct (C89_search p G) as [_ X]. apply X in I. clear X. destruct I as (A & B & C & D & Nr).
    assert (N : NoDup (map snd e)) by (rewrite A; apply (gp_nodes p G)). unfold edge_pattern_turn. enough (Ht : is_embedding_marked set_order multi g (fst s) e p = Ret true) by (rewrite Ht; reflexivity).
    assert (Es : forall pq, In pq (edges_in set_order e p) <-> In pq (dkeys (p_edges p))).
    { intros pq. unfold edges_in. rewrite set_order_In, nodup_In, filter_In, mem_In. split; [tauto|]. intros Hi. split; [|exact Hi]. destruct pq as [a b].
      unfold dkeys in Hi. apply in_map_iff in Hi. destruct Hi as [[pq ls] [E Hi]]. cbn [fst] in E. subst pq. destruct (gp_ends p G a b ls Hi) as [Ia Ib].
      rewrite A. apply value_pairs_In; assumption. }
    assert (Bad : exists pe, In pe (p_edges p) /\ match image e (fst (fst pe)), image e (snd (fst pe)) with
                       | Some u, Some v => forallb (fun l => mem (u, v, l) (d_edges g)) (snd pe)
                       | _, _ => false
                       end = false).
    { unfold whole in W. clear -W. induction (p_edges p) as [|pe l IH]; [discriminate|]. cbn [forallb] in W. apply andb_false_iff in W. destruct W as [W|W].
      - exists pe. split; [left; reflexivity | exact W].
      - destruct (IH W) as (x & Hx & E). exists x. split; [right; exact Hx | exact E]. }
    unfold is_embedding_marked. destruct (edges_in set_order e p) as [|pq0 es0] eqn:Ees; [reflexivity|].
    set (es := pq0 :: es0) in *.
    assert (Fold : forall l b, incl l es -> exists c,
      fold_out (fun b pq =>
        bind (labels_of p pq) (fun ls =>
        bind (key_of e (fst pq)) (fun u =>
        bind (key_of e (snd pq)) (fun v =>
          if has_edge g u v
          then fold_out (fun b l => bind (is_edge_marked multi g (fst s) u v l) (fun c => Ret (b || c))) ls b
          else if has_edge g v u then Exn KeyError
          else Ret b)))) l b = Ret c /\ (b = true -> c = true)
      /\ ((exists pe, In (fst pe) l /\ In pe (p_edges p) /\ match image e (fst (fst pe)), image e (snd (fst pe)) with
                       | Some u, Some v => forallb (fun l => mem (u, v, l) (d_edges g)) (snd pe)
                       | _, _ => false
                       end = false) -> c = true)).
    { induction l as [|[a b] l IH]; intros b0 Hl; cbn [fold_out]; [exists b0; split; [reflexivity|]; split; [auto | intros (pe & [] & _)]|].
      assert (Hi : In (a, b) (dkeys (p_edges p))) by (apply Es; apply Hl; left; reflexivity). unfold dkeys in Hi. apply in_map_iff in Hi. destruct Hi as ([pq ls] & E & Hi).
      cbn [fst] in E. subst pq. unfold labels_of at 1. rewrite (VerticalProofs.In_dget _ _ _ (gp_edges p G) Hi). cbn [bind fst snd].
      destruct (gp_ends p G _ _ _ Hi) as [Ia Ib]. destruct (image_in p e a A N Ia) as (u & Eu & Iu). destruct (image_in p e b A N Ib) as (v & Ev & Iv).
      rewrite (key_image _ _ _ Eu), (key_image _ _ _ Ev). cbn [bind]. destruct (Nr _ _ _ _ _ Hi Iu Iv) as [_ Ef].
      pose proof (near_edge u v ls (gp_named p G _ _ Hi) Ef) as He. rewrite He. destruct (fold_some (fst s) u v Em He ls b0) as (c1 & E1 & A1 & B1). rewrite E1. cbn [bind].
      destruct (IH c1) as (c & E2 & A2 & B2); [intros x Hx; apply Hl; right; exact Hx|]. rewrite E2. exists c. split; [reflexivity|].
      split; [intros Hb; apply A2, A1, Hb|]. intros (pe & Hin & Hpe & Hb). destruct Hin as [Hin|Hin]; [|apply B2; exists pe; auto].
      assert (pe = ((a, b), ls)) as ->.
      { pose proof (VerticalProofs.In_dget _ _ _ (gp_edges p G) Hi) as D1. destruct pe as [k ls']. cbn [fst] in Hin. subst k.
        pose proof (VerticalProofs.In_dget _ _ _ (gp_edges p G) Hpe) as D2. congruence. }
      cbn [fst snd] in Hb. rewrite Eu, Ev in Hb. apply A2, B1, Hb. }
    destruct (Fold es false (incl_refl _)) as (c & E & _ & B'). rewrite E. f_equal. apply B'. destruct Bad as (pe & Ipe & Eb). exists pe.
    split; [|split; [exact Ipe | exact Eb]]. apply Es. apply in_map. exact Ipe.
  Qed.

  Definition whole_row (p : pattern L) : row L := {| r_pattern := p; r_embeddings := filter (whole p) (found p) |}.
  Lemma whole_digraph p e : multi = false -> good_pattern p -> of_kind p -> In e (found p) -> whole p e = true.
  Proof.
    intros Em G K I. destruct (K Em) as [Sd Sp]. apply (whole_placed p e G I). apply (C89_embeddings p G Sd Sp). exact I.
  Qed.
  Lemma fold_skip {S A} (f : S -> A -> outcome S) (t : A -> bool) : forall l s,
    (forall s a, In a l -> t a = false -> f s a = Ret s) -> fold_out f l s = fold_out f (filter t l) s.
  Proof.
    induction l as [|a l IH]; intros s Hs; [reflexivity|]. cbn [filter fold_out]. destruct (t a) eqn:Et.
    - cbn [fold_out]. destruct (f s a) as [s'| |]; cbn [bind]; try reflexivity. apply IH. intros; apply Hs; [right|]; assumption.
    - rewrite (Hs s a (or_introl eq_refl) Et). cbn [bind]. apply IH. intros; apply Hs; [right|]; assumption.
  Qed.
  Lemma row_cover_whole p s : good_pattern p -> of_kind p ->
    row_cover substr set_order multi g s (row_for p) = row_cover substr set_order multi g s (whole_row p).
  Proof.
    intros G K. unfold row_cover, row_for, whole_row. cbn [r_pattern r_embeddings].
    assert (Sk : multi = true \/ forall e, In e (found p) -> whole p e = true).
    { destruct multi eqn:Em; [left; reflexivity|]. right. intros e. rewrite <- Em. intros I. apply whole_digraph; [exact Em | exact G | exact K | exact I]. }
    destruct (p_edges p) as [|pe es] eqn:Ep.
    - apply fold_skip. intros s' e I W. exfalso. unfold whole in W. rewrite Ep in W. discriminate.
    - apply fold_skip. intros s' e I W. destruct Sk as [Em|Al]; [apply skipped; assumption|]. rewrite (Al e I) in W. discriminate.
  Qed.

  (* Every pattern of the table with the embeddings that the search finds: the cover succeeds, covers every edge once and every label name,
     and every use of a pattern is a placement of it. *)
  Theorem C89_cover (ps : list (pattern L)) (m : marks L) :
    marks_ok m -> Forall (fun p => good_pattern p /\ of_kind p) ps ->
    exists m' log, cover substr set_order multi g (map row_for ps) m = Ret (m', log)
      /\ (forall k, In k (d_edges g) -> length (filter (covers_edge k) log) = 1)
      /\ (forall n l, In l (node_names (d_nodes g) n) -> exists x, In x log /\ covers_vertex n l x = true)
      /\ (forall x, In x log ->
            match x with
            | RowUse p e => In p ps /\ placed g p e
            | EdgeUse u v l => In (u, v, l) (d_edges g)
            | VertexUse n l => In l (node_names (d_nodes g) n)
            end)
      /\ marks_ok m'.
  Proof.
    intros Hm Hp. rewrite Forall_forall in Hp.
    assert (Ok : Forall (row_ok g) (map whole_row ps)).
    { apply Forall_forall. intros r I. apply in_map_iff in I. destruct I as (p & <- & I). destruct (Hp p I) as [G K]. split; [apply (gp_edges p G)|].
      cbn [whole_row r_pattern r_embeddings]. apply Forall_forall. intros e J. apply filter_In in J. destruct J as [J W].
      apply placed_occurrence; [exact G | exact J | apply (whole_placed p e G J); exact W]. }
    destruct (C53_cover_partial substr set_order multi substr_refl set_order_In g (map whole_row ps) m data_nodes Hm Ok) as (m' & log & E & A & B & C & D).
    assert (Eq : cover substr set_order multi g (map row_for ps) m = cover substr set_order multi g (map whole_row ps) m).
    { unfold cover. f_equal. clear -Hp order_perm data_nodes set_order_In. generalize ({| marker := S (marker m); edge_mark := edge_mark m; node_mark := node_mark m |}, @nil (use L)).
      induction ps as [|p ps IH]; intros s; [reflexivity|]. cbn [map fold_out]. destruct (Hp p (or_introl eq_refl)) as [G K]. rewrite (row_cover_whole p s G K).
      destruct (row_cover substr set_order multi g s (whole_row p)); cbn [bind]; try reflexivity. apply IH. intros x Hx. apply Hp. right. exact Hx. }
    exists m', log. rewrite Eq. split; [exact E|]. split; [exact A|]. split; [exact B|]. split; [|exact D]. intros x Hx. specialize (C x Hx). destruct x as [p e| |]; [|exact C|exact C].
    destruct C as (r & Ir & -> & Ie). apply in_map_iff in Ir. destruct Ir as (q & <- & Iq). cbn [whole_row r_pattern r_embeddings] in *. apply filter_In in Ie. destruct Ie as [Ie W].
    split; [exact Iq|]. apply (whole_placed q e (proj1 (Hp q Iq)) Ie). exact W.
  Qed.
End C89.

(* ------------------------------------------------ C76 and C77 with the embeddings found, in a DiGraph *)
(* the patterns of a code table: good patterns with one name per edge; every node of a pattern with edges is on one; the patterns without
   edges come last and have one node *)
Record good_table {L} `{EqDec L} (ps : list (pattern L)) : Prop := {
  gt_good : Forall good_pattern ps;
  gt_simple : Forall simple_pattern ps;
  gt_incident : forall p a, In p ps -> p_edges p <> [] -> In a (dkeys (p_nodes p)) ->
    exists b ls, In ((a, b), ls) (p_edges p) \/ In ((b, a), ls) (p_edges p);
  gt_last : exists ps1 ps2, ps = ps1 ++ ps2 /\ Forall (fun p => p_edges p <> []) ps1
    /\ Forall (fun p => p_edges p = [] /\ length (p_nodes p) = 1) ps2 }.
(* a directed graph without loops and with at most one edge between two nodes *)
Record good_data {L} (g : data L) : Prop := {
  gd_nodes : NoDup (dkeys (d_nodes g));
  gd_simple : simple_data g;
  gd_loops : forall u l, ~ In (u, u, l) (d_edges g) }.

Lemma table_admissible {L} `{EqDec L} order (g : data L) ps : (forall l, Permutation (order l) l) -> good_data g -> good_table ps ->
  admissible g (map (row_for order false g) ps).
Proof.
  intros Ho Gd Gt. pose proof (gt_good _ Gt) as Gg. pose proof (gt_simple _ Gt) as Gs. rewrite Forall_forall in Gg, Gs.
  assert (Hin : forall r, In r (map (row_for order false g) ps) -> exists p, In p ps /\ r = row_for order false g p).
  { intros r I. apply in_map_iff in I. destruct I as (p & <- & I). exists p. split; [exact I | reflexivity]. }
  assert (Pl : forall p e, In p ps -> In e (get_embeddings false order p g) -> placed g p e).
  { intros p e I J. apply (C89_embeddings order Ho false g (gd_nodes g Gd) p (Gg p I) (gd_simple g Gd) (Gs p I)). exact J. }
  constructor; [constructor| |].
  - apply Gd.
  - apply Forall_forall. intros r I. destruct (Hin r I) as (p & J & ->). split; [apply (gp_edges p (Gg p J))|]. apply Forall_forall. intros e Ie.
    cbn [row_for r_pattern r_embeddings] in *. exact (placed_occurrence order Ho false g (gd_nodes g Gd) p e (Gg p J) Ie (Pl p e J Ie)).
  - intros r I. destruct (Hin r I) as (p & J & ->). cbn [row_for r_pattern]. split; [apply (gp_edges p (Gg p J))|]. intros a b ls K.
    pose proof (Gs p J _ _ K) as E1. destruct ls as [|y [|? ?]]; try discriminate. repeat constructor. intros [].
  - intros r e I Ie. destruct (Hin r I) as (p & J & ->). cbn [row_for r_pattern r_embeddings] in *. pose proof (Pl p e J Ie) as P. split; [apply P|]. split.
    + intros n a K. apply (pl_data _ _ _ P). apply (in_map fst) in K. exact K.
    + intros a K. rewrite (pl_nodes _ _ _ P). exact K.
  - intros r a I Ne Ia. destruct (Hin r I) as (p & J & ->). exact (gt_incident _ Gt p a J Ne Ia).
  - apply Gd.
  - destruct (gt_last _ Gt) as (ps1 & ps2 & E & F1 & F2). exists (map (row_for order false g) ps1), (map (row_for order false g) ps2).
    split; [rewrite E; apply map_app|]. split; [apply Forall_map; exact F1|]. apply Forall_map. rewrite Forall_forall in *. intros p I. destruct (F2 p I) as [A B].
    split; [exact A|]. apply Forall_forall. intros e Ie. cbn [row_for r_embeddings] in Ie. assert (J : In p ps) by (rewrite E; apply in_or_app; right; exact I).
    pose proof (pl_nodes _ _ _ (Pl p e J Ie)) as En. apply (f_equal (@length nat)) in En. unfold dkeys in En. rewrite !map_length in En. lia.
Qed.

(* Two data graphs covered with the same patterns, each with the embeddings the search finds in it: when the rewritten graphs are equal, the
   data graphs are the same up to the numbers of their nodes. *)
Theorem C89_lossless {L} `{EqDec L} substr set_order order (row_name node_name : nat -> L) (g g' : data L) (ps : list (pattern L)) (m m' : marks L) :
  (forall l, substr l l = true) -> (forall l x, In x (set_order l) <-> In x l) -> (forall l, Permutation (order l) l) ->
  good_data g -> good_data g' -> good_table ps -> readable row_name node_name g -> readable row_name node_name g' -> marks_ok m -> marks_ok m' ->
  exists s s', cover' substr set_order false g (map (row_for order false g) ps) m = Ret s
    /\ cover' substr set_order false g' (map (row_for order false g') ps) m' = Ret s'
    /\ (rewrite row_name node_name (snd s) = rewrite row_name node_name (snd s') -> exists f, renumbering g g' f).
Proof.
  intros Hs Ho Hp Gd Gd' Gt Hr Hr' Hm Hm'. pose proof (table_admissible order g ps Hp Gd Gt) as A. pose proof (table_admissible order g' ps Hp Gd' Gt) as A'.
  destruct (C76_rewritten_partial substr set_order false row_name node_name g _ m Hs Ho A Hr Hm) as (m1 & log & _ & E & _).
  destruct (C76_rewritten_partial substr set_order false row_name node_name g' _ m' Hs Ho A' Hr' Hm') as (m1' & log' & _ & E' & _).
  exists (m1, log), (m1', log'). split; [exact E|]. split; [exact E'|]. intros Eq.
  refine (C76_lossless_partial substr set_order false row_name node_name g g' _ _ m m' Hs Ho A A' _ Hr Hr' Hm Hm' _ _ E E' Eq).
  rewrite !map_map. apply map_ext. reflexivity.
Qed.

(* The candidates of the search are the joins of two uses with common nodes, and every one of them has an occurrence. *)
Theorem C89_candidates {L} `{EqDec L} substr set_order order pair_order port_order ltb row_index (row_name node_name : nat -> L)
    (g : data L) (ps : list (pattern L)) (m : marks L) :
  (forall l, substr l l = true) -> (forall l x, In x (set_order l) <-> In x l) -> (forall l, Permutation (order l) l) ->
  (forall l x, In x (pair_order l) <-> In x l) -> (forall l, Permutation (port_order l) l) ->
  good_data g -> good_table ps -> readable row_name node_name g -> joinable false row_name row_index g (map (row_for order false g) ps) -> marks_ok m ->
  exists m' log cs, cover' substr set_order false g (map (row_for order false g) ps) m = Ret (m', log)
    /\ generate_candidates ltb row_index pair_order port_order false (map net_of ps)
         (edge_names_of log) (vertex_names_of log) (rewrite row_name node_name log) = Ret cs
    /\ (forall i j x y, nth_error log i = Some x -> nth_error log j = Some y -> i <> j ->
          (exists a b, meet (e_use x) (e_use y) a b) ->
          exists c, In c cs /\ (joins false c (e_use x) (e_use y) \/ joins false c (e_use y) (e_use x)))
    /\ (forall c, In c cs -> exists p e,
          merge false (g_first c) (g_second c) (port (g_cand c)) = Ok p /\ occurs g p e).
Proof.
  intros Hs Ho Hp Hpair Hport Gd Gt Hr Hj Hm. pose proof (table_admissible order g ps Hp Gd Gt) as A.
  destruct (C77_candidates_partial substr set_order pair_order port_order ltb row_index false row_name node_name g _ m Hs Ho Hpair Hport A Hr Hj Hm)
    as (m' & log & cs & E & Ec & X & _ & Y & _).
  rewrite map_map in Ec. exists m', log, cs. split; [exact E|]. split; [exact Ec|]. split; [|exact Y].
  intros i j x y H1 H2 H3 H4. destruct (X i j x y H1 H2 H3 H4) as (c & Ic & J & _). exists c. split; assumption.
Qed.

(* ---- a non-trivial case: the graph and the pattern of C53 *)
Definition match_pattern : pattern nat := r_pattern demo_row.
Definition two_pattern : pattern nat := {| p_nodes := [(1, Some (Names [10; 11]))]; p_edges := [] |}.
Example C89_case :
  good_pattern match_pattern /\ good_pattern two_pattern /\ simple_data demo_graph /\ simple_pattern match_pattern /\ simple_pattern two_pattern
  /\ get_embeddings false (fun l => l) match_pattern demo_graph
     = [[(1, 1); (2, 2); (3, 3)]; [(1, 1); (2, 2); (4, 3)]; [(3, 1); (2, 2); (4, 3)]]
  /\ get_embeddings false (fun l => rev l) two_pattern demo_graph = [[(3, 1)]]
  /\ good_data demo_graph /\ good_table [match_pattern; {| p_nodes := [(1, Some (Name 10))]; p_edges := [] |}]
  /\ exists m', cover eqd (fun l => l) false demo_graph (map (row_for (fun l => rev l) false demo_graph) [two_pattern; match_pattern])
       {| marker := 0; edge_mark := []; node_mark := [] |}
     = Ret (m', [RowUse two_pattern [(3, 1)]; RowUse match_pattern [(3, 1); (2, 2); (4, 3)]; RowUse match_pattern [(1, 1); (2, 2); (3, 3)]; EdgeUse 4 1 9]).
Proof.
  assert (H : good_pattern match_pattern).
  { constructor; cbn.
    - repeat constructor; cbn; intuition congruence.
    - repeat constructor; cbn; intuition congruence.
    - intros a b ls [E|[E|[]]]; injection E as <- <- <-; tauto.
    - intros ab ls [E|[E|[]]]; injection E as <- <-; discriminate.
    - intros a o [E|[E|[E|[]]]]; injection E as <- <-; exact I.
    - discriminate. }
  assert (H2 : good_pattern two_pattern).
  { constructor; cbn.
    - repeat constructor; cbn; intuition congruence.
    - constructor.
    - intros a b ls [].
    - intros ab ls [].
    - intros a o [E|[]]; injection E as <- <-; cbn; lia.
    - intros _ a o [E|[]]; injection E as <- <-; discriminate. }
  split; [exact H|]. split; [exact H2|]. split; [repeat constructor; cbn; intuition congruence|].
  split; [intros ab ls [E|[E|[]]]; injection E as <- <-; reflexivity|]. split; [intros ab ls []|].
  split; [vm_compute; reflexivity|]. split; [vm_compute; reflexivity|].
  split; [constructor; [repeat constructor; cbn; intuition congruence | repeat constructor; cbn; intuition congruence | cbn; intros u l; intuition congruence]|].
  split; [|eexists; vm_compute; reflexivity].
  assert (H3 : good_pattern {| p_nodes := [(1, Some (Name 10))]; p_edges := [] |}).
  { constructor; cbn; try (intros; tauto); [repeat constructor; intros [] | constructor | | intros _]; intros a o [E|[]]; injection E as <- <-; [exact I | discriminate]. }
  constructor.
  - constructor; [exact H|]. constructor; [exact H3 | constructor].
  - constructor; [intros ab ls [E|[E|[]]]; injection E as <- <-; reflexivity|]. constructor; [intros ab ls [] | constructor].
  - intros p a [<-|[<-|[]]] Ne Ia; [|elim Ne; reflexivity]. cbn in Ia. destruct Ia as [<-|[<-|[<-|[]]]].
    + exists 2, [7]. left. left. reflexivity.
    + exists 3, [8]. left. right. left. reflexivity.
    + exists 2, [8]. right. right. left. reflexivity.
  - exists [match_pattern], [{| p_nodes := [(1, Some (Name 10))]; p_edges := [] |}]. split; [reflexivity|]. split; [constructor; [discriminate | constructor]|].
    constructor; [split; reflexivity | constructor].
Qed.

(* With parallel edges the search is neither sound nor complete: it looks at the first of the parallel edges only. *)
Definition par_graph : data nat := {| d_nodes := [(1, None); (2, None)]; d_edges := [(1, 2, 7); (1, 2, 8)] |}.
Definition par_pattern (ls : list nat) : pattern nat := {| p_nodes := [(1, None); (2, None)]; p_edges := [((1, 2), ls)] |}.
Lemma par_good ls : ls <> [] -> good_pattern (par_pattern ls).
Proof.
  intros Nl. constructor; cbn.
  - repeat constructor; cbn; intuition congruence.
  - repeat constructor; cbn; intuition congruence.
  - intros a b ls' [E|[]]; injection E as <- <- <-; tauto.
  - intros ab ls' [E|[]]; injection E as <- <-; exact Nl.
  - intros a o [E|[E|[]]]; injection E as <- <-; exact I.
  - discriminate.
Qed.
Theorem C89_parallel_refuted :
  (exists (g : data nat) (p : pattern nat) e, NoDup (dkeys (d_nodes g)) /\ good_pattern p
     /\ In e (get_embeddings true (fun l => l) p g) /\ ~ placed g p e)
  /\ (exists (g : data nat) (p : pattern nat) e, NoDup (dkeys (d_nodes g)) /\ good_pattern p
     /\ placed g p e /\ get_embeddings true (fun l => l) p g = []).
Proof.
  split.
  - exists par_graph, (par_pattern [7; 9]), [(1, 1); (2, 2)]. split; [repeat constructor; cbn; intuition congruence|]. split; [apply par_good; discriminate|].
    split; [left; vm_compute; reflexivity|]. intros Pl. assert (X : In (1, 2, 9) (d_edges par_graph)).
    { apply (pl_edges _ _ _ Pl 1 2 [7; 9] 1 2 9); cbn; tauto. }
    cbn in X. intuition congruence.
  - exists par_graph, (par_pattern [8]), [(1, 1); (2, 2)]. split; [repeat constructor; cbn; intuition congruence|]. split; [apply par_good; discriminate|].
    split; [|vm_compute; reflexivity]. constructor; cbn.
    + reflexivity.
    + repeat constructor; cbn; intuition congruence.
    + intros x X. exact X.
    + intros a b ls u v l [E|[]] Iu Iv Il. injection E as <- <- <-. destruct Il as [<-|[]]. destruct Iu as [E|[E|[]]]; injection E as <-; try discriminate.
      destruct Iv as [E|[E|[]]]; injection E as <-; try discriminate. right. left. reflexivity.
    + intros n a [E|[E|[]]]; injection E as <- <-; intros x [].
Qed.
(* A tuple of one name in a pattern is not found on a node whose label is that name. *)
Theorem C89_tuple_refuted :
  exists (g : data nat) (p : pattern nat), NoDup (dkeys (d_nodes g)) /\ simple_data g /\ simple_pattern p
    /\ placed g p [(1, 1)] /\ get_embeddings false (fun l => l) p g = [].
Proof.
  exists {| d_nodes := [(1, Some (Name 7))]; d_edges := [] |}, {| p_nodes := [(1, Some (Names [7]))]; p_edges := [] |}.
  split; [repeat constructor; cbn; tauto|]. split; [constructor|]. split; [intros ab ls []|]. split; [|vm_compute; reflexivity].
  constructor; cbn.
  - reflexivity.
  - repeat constructor; cbn; tauto.
  - intros x X. exact X.
  - intros a b ls u v l [].
  - intros n a [E|[]]. injection E as <- <-. cbn. intros x X. exact X.
Qed.

Print Assumptions C89_search.
Print Assumptions C89_embeddings.
Print Assumptions C89_cover.
Print Assumptions C89_lossless.
Print Assumptions C89_candidates.
Print Assumptions C89_parallel_refuted.
Print Assumptions C89_tuple_refuted.
