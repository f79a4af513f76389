(* C78, C79: label codes and description lengths of graph patterns.  Real
   numbers of the standard library. *)
From Coq Require Import Reals QArith Qreals Lra.
From Verif Require Import Prelude CheckModel LCMModel GraphUtilModel PrequentialModel GraphLengthModel.
From Verif Require Import VerticalProofs PropGraphUtil PropPrequential KraftProofs.
Open Scope nat_scope.

(* ---- specification *)
(* the share of the code space taken by a code word of length [x] *)
Definition share (x : R) : R := Rpower 2 (- x).
(* [rsum] is the sum of a list (KraftProofs) *)
(* the length of the code word of an event seen [n] times out of [t] *)
Definition optimal_length (n t : nat) : R := (- (ln (INR n / INR t) / ln 2))%R.

Lemma ln2_pos : (0 < ln 2)%R.
Proof. rewrite <- ln_1. apply ln_increasing; lra. Qed.
Lemma share_pos x : (0 < share x)%R.
Proof. unfold share, Rpower. apply exp_pos. Qed.
Lemma share_plus x y : share (x + y) = (share x * share y)%R.
Proof. unfold share. rewrite <- Rpower_plus. f_equal. ring. Qed.
Lemma share_0 : share 0 = 1%R.
Proof. unfold share. rewrite Ropp_0. apply Rpower_O. lra. Qed.
Lemma share_lg x : (0 < x)%R -> share (ln x / ln 2) = (/ x)%R.
Proof.
  intros Hx. pose proof ln2_pos. unfold share, Rpower.
  replace (- (ln x / ln 2) * ln 2)%R with (- ln x)%R by (field; lra).
  rewrite exp_Ropp, exp_ln by exact Hx. reflexivity.
Qed.
Lemma share_optimal n t : 0 < n -> 0 < t -> share (optimal_length n t) = (INR n / INR t)%R.
Proof.
  intros Hn Ht. pose proof ln2_pos. apply lt_INR in Hn, Ht. simpl in Hn, Ht.
  assert (0 < INR n / INR t)%R as Hp by (apply Rdiv_lt_0_compat; assumption).
  unfold share, optimal_length, Rpower.
  replace (- - (ln (INR n / INR t) / ln 2) * ln 2)%R with (ln (INR n / INR t))%R by (field; lra).
  apply exp_ln. exact Hp.
Qed.
Lemma optimal_nonneg n t : 0 < n -> n <= t -> (0 <= optimal_length n t)%R.
Proof.
  intros Hn Ht. pose proof ln2_pos as H2. unfold optimal_length.
  assert (0 < INR n)%R as Hn' by (apply lt_0_INR; exact Hn).
  assert (INR n <= INR t)%R as Ht' by (apply le_INR; exact Ht).
  assert (ln (INR n / INR t) <= ln 1)%R as Hl.
  { assert (INR n / INR t <= 1)%R as Hd.
    { apply Rmult_le_reg_r with (INR t); [lra|]. unfold Rdiv. rewrite Rmult_assoc, Rinv_l by lra. lra. }
    destruct Hd as [Hd|Hd]; [left; apply ln_increasing; [apply Rdiv_lt_0_compat; lra | exact Hd] | right; rewrite Hd; reflexivity]. }
  rewrite ln_1 in Hl.
  apply Ropp_le_cancel. rewrite Ropp_involutive, Ropp_0.
  unfold Rdiv. apply Rmult_le_reg_r with (ln 2); [exact H2|].
  rewrite Rmult_assoc, Rinv_l by lra. lra.
Qed.

Lemma float_sum_rsum l : float_sum l = rsum l.
Proof.
  unfold float_sum. enough (forall a, fold_left Rplus l a = a + rsum l)%R as E by (rewrite E; ring).
  induction l as [|x l IH]; intros a; simpl; [ring | rewrite IH; ring].
Qed.

(* ======================================================================= *)
(* C78: label codes                                                        *)
Section C78.
  Context {L : Type} `{EqDec L}.

  Lemma counter_In (ls : list L) l n : In (l, n) (counter ls) <-> 0 < n /\ n = count_occ eq_dec ls l.
  Proof.
    destruct (counter_total ls) as [N _]. pose proof (counter_spec ls l) as C. unfold occurs in C. split.
    - intros Hi. apply In_dget in Hi; [|exact N]. rewrite Hi in C.
      destruct (count_occ eq_dec ls l); [discriminate | injection C as ->; lia].
    - intros [Hp ->]. apply dget_In. rewrite C. destruct (count_occ eq_dec ls l); [lia | reflexivity].
  Qed.

  Lemma counts_ok (g : graph L) : plain g ->
    count_vertex_label g = Ret (counter (vertex_names g)) /\ count_edge_label g = Ret (counter (edge_names g)).
  Proof.
    intros [Hv He]. unfold count_vertex_label, count_edge_label.
    rewrite !label_names_ok by (rewrite Forall_map; assumption). cbn [bind].
    unfold vertex_names, edge_names. rewrite !(flat_map_concat_map names_of), !map_map, <- !flat_map_concat_map.
    split; reflexivity.
  Qed.

  Lemma code_all_In total (ls : list L) l c :
    In (l, c) (code_all total (counter ls)) <-> In l ls /\ c = optimal_length (count_occ eq_dec ls l) total.
  Proof.
    unfold code_all. rewrite in_map_iff. split.
    - intros [[l' n] [E Hi]]. cbn [fst snd] in E. injection E as <- <-. apply counter_In in Hi. destruct Hi as [Hp ->].
      split; [apply (count_occ_In eq_dec); exact Hp | reflexivity].
    - intros [Hl ->]. exists (l, count_occ eq_dec ls l). split; [reflexivity|]. apply counter_In.
      split; [apply (count_occ_In eq_dec); exact Hl | reflexivity].
  Qed.

  Lemma code_all_keys total (ls : list L) : NoDup (map fst (code_all total (counter ls))).
  Proof.
    unfold code_all. rewrite map_map. cbn [fst]. apply (proj1 (counter_total ls)).
  Qed.

  Lemma code_all_share total (ls : list L) : 0 < total ->
    rsum (map (fun lc => share (snd lc)) (code_all total (counter ls))) = (INR (length ls) / INR total)%R.
  Proof.
    intros Ht. rewrite <- (proj2 (counter_total ls)), INR_sum. unfold code_all. rewrite !map_map. cbn [snd].
    assert (forall n l, In (l, n) (counter ls) -> 0 < n) as Hp by (intros n l Hi; apply counter_In in Hi; tauto).
    induction (counter ls) as [|[l n] d IH].
    - simpl. unfold Rdiv. ring.
    - cbn [map rsum snd]. rewrite IH by (intros n' l' Hi; apply (Hp n' l'); right; exact Hi).
      change (log2 (INR n) (INR total)) with (optimal_length n total).
      rewrite share_optimal; [unfold Rdiv; ring | apply (Hp n l); left; reflexivity | exact Ht].
  Qed.

  (* For a graph in which no name labels both a vertex and an edge, the label
     codes are optimal for the frequencies of the names, no length is
     negative, and the lengths use up the code space exactly. *)
  Theorem C78_label_codes_partial (g : graph L) : plain g ->
    (forall l, In l (edge_names g) -> ~ In l (vertex_names g)) ->
    let total := length (edge_names g) + length (vertex_names g) in
    exists t, LabelCodes g = Ret t
      /\ NoDup (map fst (vertex_lc t)) /\ NoDup (map fst (edges_lc t))
      /\ (forall l c, In (l, c) (vertex_lc t) <->
            In l (vertex_names g) /\ c = optimal_length (count_occ eq_dec (vertex_names g) l) total)
      /\ (forall l c, In (l, c) (edges_lc t) <->
            In l (edge_names g) /\ c = optimal_length (count_occ eq_dec (edge_names g) l) total)
      /\ (forall l c, In (l, c) (vertex_lc t) \/ In (l, c) (edges_lc t) -> (0 <= c)%R)
      /\ (0 < total -> (rsum (map (fun lc => share (snd lc)) (vertex_lc t ++ edges_lc t)) = 1)%R).
  Proof.
    intros Hp Hd total. unfold LabelCodes. rewrite (C58_total_partial g Hp Hd). fold total.
    destruct (counts_ok g Hp) as [-> ->]. cbn [bind].
    eexists. split; [reflexivity|]. cbn [vertex_lc edges_lc].
    split; [apply code_all_keys|]. split; [apply code_all_keys|].
    split; [intros; apply code_all_In|]. split; [intros; apply code_all_In|]. split.
    - intros l c [Hc|Hc]; apply code_all_In in Hc; destruct Hc as [Hl ->]; apply optimal_nonneg.
      + apply (count_occ_In eq_dec); exact Hl.
      + pose proof (count_occ_bound eq_dec l (vertex_names g)). unfold total. lia.
      + apply (count_occ_In eq_dec); exact Hl.
      + pose proof (count_occ_bound eq_dec l (edge_names g)). unfold total. lia.
    - intros Ht. rewrite map_app, rsum_app, !code_all_share by exact Ht.
      unfold total. rewrite plus_INR.
      assert (0 < INR (length (edge_names g)) + INR (length (vertex_names g)))%R.
      { rewrite <- plus_INR. apply lt_0_INR. exact Ht. }
      field. lra.
  Qed.

  (* In general the codes are relative to the total of [get_total_label]. *)
  Theorem C78_label_codes (g : graph L) : plain g -> exists t total, LabelCodes g = Ret t /\ get_total_label g = Ret total
      /\ (forall l c, In (l, c) (vertex_lc t) <->
            In l (vertex_names g) /\ c = optimal_length (count_occ eq_dec (vertex_names g) l) total)
      /\ (forall l c, In (l, c) (edges_lc t) <->
            In l (edge_names g) /\ c = optimal_length (count_occ eq_dec (edge_names g) l) total).
  Proof.
    intros Hp. destruct (C58_total g Hp) as [total [Et _]]. unfold LabelCodes. rewrite Et.
    destruct (counts_ok g Hp) as [-> ->]. cbn [bind]. eexists. exists total. split; [reflexivity|]. split; [reflexivity|].
    split; intros; apply code_all_In.
  Qed.
End C78.

(* One vertex and two edges labelled 7: the code of the edge label has length -1. *)
Theorem C78_shared_name_refuted : exists (g : graph nat) t c, plain g /\ LabelCodes g = Ret t
  /\ In (7, c) (edges_lc t) /\ (c < 0)%R.
Proof.
  exists {| nodes := [(1, Some (Name 7)); (2, None); (3, None)]; edges := [(1, 2, Some (Name 7)); (2, 3, Some (Name 7))] |}.
  eexists. exists (optimal_length 2 1). split; [split; repeat constructor|]. split; [reflexivity|].
  split; [left; reflexivity|]. unfold optimal_length.
  replace (INR 2 / INR 1)%R with 2%R by (simpl; field).
  unfold Rdiv. rewrite Rinv_r; [lra|]. pose proof ln2_pos. lra.
Qed.

Example C78_case :
  let g := {| nodes := [(1, Some (Names [7; 8])); (2, None); (3, Some (Name 7))];
              edges := [(1, 2, Some (Name 4)); (2, 3, Some (Name 4))] |} in
  plain g /\ (forall l, In l (edge_names g) -> ~ In l (vertex_names g))
  /\ length (edge_names g) + length (vertex_names g) = 5.
Proof.
  split; [split; repeat constructor|]. split; [|reflexivity].
  intros l Hl Hv. simpl in Hl, Hv. intuition congruence.
Qed.

(* ======================================================================= *)
(* C79: description lengths of patterns                                    *)
Section C79.
  Context {L : Type} `{EqDec L}.

  (* which node carries which name, which pair of nodes is joined by which name *)
  Definition vertex_facts (p : graph L) : list (nat * L) :=
    flat_map (fun v => map (pair (fst v)) (names_of (snd v))) (nodes p).
  Definition edge_facts (p : graph L) : list (nat * nat * L) :=
    flat_map (fun e => map (pair (fst e)) (names_of (snd e))) (edges p).
  (* nodes numbered 1..n, ends of edges among them, no name twice at one place *)
  Record proper (p : graph L) : Prop := {
    pr_plain : plain p;
    pr_numbered : forall u, In u (map fst (nodes p)) -> 1 <= u <= length (nodes p);
    pr_ends : forall e, In e (edges p) -> In (fst (fst e)) (map fst (nodes p)) /\ In (snd (fst e)) (map fst (nodes p));
    pr_vertex : NoDup (vertex_facts p);
    pr_edge : NoDup (edge_facts p) }.
  (* two patterns that say the same *)
  Definition same_pattern (p q : graph L) : Prop :=
    length (nodes p) = length (nodes q)
    /\ (forall x, In x (vertex_facts p) <-> In x (vertex_facts q))
    /\ (forall x, In x (edge_facts p) <-> In x (edge_facts q)).
  (* all names of the pattern occur in the data, on the same side *)
  Definition known (g p : graph L) : Prop :=
    incl (vertex_names p) (vertex_names g) /\ incl (edge_names p) (edge_names g).

  (* ---- the pieces of [encode] *)
  Lemma vertex_names_facts p : vertex_names p = map snd (vertex_facts p).
  Proof.
    unfold vertex_names, vertex_facts. induction (nodes p) as [|v l IH]; [reflexivity|]. simpl.
    rewrite map_app, map_map, <- IH. simpl. rewrite map_id. reflexivity.
  Qed.
  Lemma edge_names_facts p : edge_names p = map snd (edge_facts p).
  Proof.
    unfold edge_names, edge_facts. induction (edges p) as [|v l IH]; [reflexivity|]. simpl.
    rewrite map_app, map_map, <- IH. simpl. rewrite map_id. reflexivity.
  Qed.

  (* the places, among [us], at which a name stands *)
  Definition places {U} `{EqDec U} (us : list U) (fs : list (U * L)) (l : L) : list bool :=
    map (fun u => mem (u, l) fs) us.

  Lemma places_count {U} `{EqDec U} (us : list U) (fs : list (U * L)) l :
    NoDup us -> NoDup fs -> (forall u l', In (u, l') fs -> In u us) ->
    count_occ bool_dec (places us fs l) true = count_occ eq_dec (map snd fs) l.
  Proof.
    intros Hu Hf Hi. unfold places.
    assert (count_occ bool_dec (map (fun u => mem (u, l) fs) us) true = length (filter (fun u => mem (u, l) fs) us)) as ->.
    { clear. induction us as [|u us IH]; [reflexivity|]. simpl. destruct (mem (u, l) fs); simpl; [f_equal; exact IH | exact IH]. }
    assert (count_occ eq_dec (map snd fs) l = length (map fst (filter (fun f => eqd (snd f) l) fs))) as ->.
    { rewrite map_length. clear. induction fs as [|[u m] fs IH]; [reflexivity|]. simpl. unfold eqd at 1.
      destruct (eq_dec m l); simpl; [f_equal; exact IH | exact IH]. }
    apply Permutation_length. apply NoDup_Permutation.
    - apply NoDup_filter; exact Hu.
    - assert (forall f f', In f (filter (fun f => eqd (snd f) l) fs) -> In f' (filter (fun f => eqd (snd f) l) fs) ->
                fst f = fst f' -> f = f') as Hinj.
      { intros [u m] [u' m'] F F' E. apply filter_In in F, F'. destruct F as [_ F], F' as [_ F'].
        apply (proj1 (eqd_true _ _)) in F. apply (proj1 (eqd_true _ _)) in F'. simpl in *. congruence. }
      apply (NoDup_filter (fun f => eqd (snd f) l)) in Hf. revert Hf Hinj.
      generalize (filter (fun f => eqd (snd f) l) fs). intros k Hk. induction Hk as [|f k Hn Hk IH]; intros Hinj; simpl; constructor.
      + intros F. apply in_map_iff in F. destruct F as [f' [E F]]. apply Hn.
        rewrite (Hinj f f'); [exact F | left; reflexivity | right; exact F | symmetry; exact E].
      + apply IH. intros a b Ha Hb. apply Hinj; right; assumption.
    - intros u. rewrite filter_In, mem_In, in_map_iff. split.
      + intros [_ Hm]. exists (u, l). split; [reflexivity|]. apply filter_In. split; [exact Hm | apply eqd_refl].
      + intros [[u' m] [E F]]. apply filter_In in F. destruct F as [F Em]. apply (proj1 (eqd_true _ _)) in Em.
        simpl in E, Em. subst u' m. split; [apply (Hi u l); exact F | exact F].
  Qed.

  Lemma integer_length_ok n : integer_length n = Ret (IZR (int_bits n)).
  Proof. unfold integer_length. rewrite (proj1 (int_bits_ok n)). reflexivity. Qed.

  Lemma log2_binomial_ok n k : k <= n ->
    log2_binomial n k = Ret (ln (INR (choose n k)) / ln 2)%R.
  Proof.
    intros Hk. unfold log2_binomial. destruct (C56_binomial n k (n + 2) Hk (le_n _)) as [q [-> Eq]]. cbn [bind].
    apply Qeq_eqR in Eq. rewrite Eq. replace (Q2R (inject_Z (Z.of_nat (choose n k)))) with (INR (choose n k)).
    - unfold math_log2. destruct (Rlt_dec 0 (INR (choose n k))) as [_|N]; [reflexivity|].
      elim N. apply lt_0_INR. apply choose_pos. exact Hk.
    - unfold Q2R, inject_Z. simpl. rewrite <- INR_IZR_INZ. field.
  Qed.

  Lemma map_out_ok {A B} (f : A -> outcome B) (h : A -> B) l : (forall a, In a l -> f a = Ret (h a)) ->
    map_out f l = Ret (map h l).
  Proof.
    induction l as [|a l IH]; intros Hf; [reflexivity|]. simpl. rewrite (Hf a (or_introl eq_refl)). cbn [bind].
    rewrite IH by (intros b Hb; apply Hf; right; exact Hb). reflexivity.
  Qed.

  Definition label_bits (lc : list (L * R)) (slots : nat) (uv : L * nat) : R :=
    ((match dget lc (fst uv) with Some c => c | None => 0 end) + IZR (int_bits (snd uv))
     + ln (INR (choose slots (snd uv))) / ln 2)%R.
  Lemma label_description_ok lc slots uv : In (fst uv) (map fst lc) -> snd uv <= slots ->
    label_description lc slots uv = Ret (label_bits lc slots uv).
  Proof.
    intros Hk Hs. unfold label_description, label_bits. destruct (dget lc (fst uv)) as [c|] eqn:E.
    - rewrite integer_length_ok. cbn [bind]. rewrite log2_binomial_ok by exact Hs. reflexivity.
    - apply dget_None in E. contradiction.
  Qed.

  Lemma counter_keys (ls : list L) l : In l (map fst (counter ls)) <-> In l ls.
  Proof.
    rewrite in_map_iff, (count_occ_In eq_dec). split.
    - intros [[l' n] [E Hi]]. simpl in E. subst l'. apply counter_In in Hi. lia.
    - intros Hc. exists (l, count_occ eq_dec ls l). split; [reflexivity|]. apply counter_In. lia.
  Qed.

  Definition pairs_upto (n : nat) : list (nat * nat) := list_prod (seq 1 n) (seq 1 n).
  Lemma pairs_upto_NoDup n : NoDup (pairs_upto n).
  Proof.
    unfold pairs_upto. generalize (seq_NoDup n 1). generalize (seq 1 n) at 1 2 as l.
    intros l Hl. induction Hl as [|x l Hx Hl IH]; simpl; [constructor|].
    apply NoDup_app_intro; [|exact IH|].
    - apply FinFun.Injective_map_NoDup; [intros a b E; congruence | apply seq_NoDup].
    - intros [a b] Ha Hb. apply in_map_iff in Ha. destruct Ha as [c [E _]]. injection E as -> _.
      apply in_prod_iff in Hb. tauto.
  Qed.
  Lemma pairs_upto_length n : length (pairs_upto n) = n * n.
  Proof. unfold pairs_upto. rewrite prod_length, seq_length. reflexivity. Qed.

  Lemma vertex_place p u l : proper p -> In (u, l) (vertex_facts p) -> In u (seq 1 (length (nodes p))).
  Proof.
    intros Hp Hi. unfold vertex_facts in Hi. apply in_flat_map in Hi. destruct Hi as [v [Hv Hl]].
    apply in_map_iff in Hl. destruct Hl as [l' [E _]]. injection E as <- <-.
    apply in_seq. pose proof (pr_numbered p Hp (fst v) (in_map fst _ _ Hv)). lia.
  Qed.
  Lemma edge_place p e l : proper p -> In (e, l) (edge_facts p) -> In e (pairs_upto (length (nodes p))).
  Proof.
    intros Hp Hi. unfold edge_facts in Hi. apply in_flat_map in Hi. destruct Hi as [v [Hv Hl]].
    apply in_map_iff in Hl. destruct Hl as [l' [E _]]. injection E as <- <-.
    destruct (pr_ends p Hp v Hv) as [H1 H2]. apply (pr_numbered p Hp) in H1, H2.
    destruct v as [[a b] o]. simpl in *. unfold pairs_upto. apply in_prod; apply in_seq; lia.
  Qed.

  Definition vertex_places (p : graph L) (l : L) : list bool := places (seq 1 (length (nodes p))) (vertex_facts p) l.
  Definition edge_places (p : graph L) (l : L) : list bool := places (pairs_upto (length (nodes p))) (edge_facts p) l.

  Lemma vertex_places_count p l : proper p -> count_occ bool_dec (vertex_places p l) true = count_occ eq_dec (vertex_names p) l.
  Proof.
    intros Hp. unfold vertex_places. rewrite vertex_names_facts. apply places_count.
    - apply seq_NoDup.
    - apply (pr_vertex p Hp).
    - intros u l'. apply vertex_place. exact Hp.
  Qed.
  Lemma edge_places_count p l : proper p -> count_occ bool_dec (edge_places p l) true = count_occ eq_dec (edge_names p) l.
  Proof.
    intros Hp. unfold edge_places. rewrite edge_names_facts. apply places_count.
    - apply pairs_upto_NoDup.
    - apply (pr_edge p Hp).
    - intros u l'. apply edge_place. exact Hp.
  Qed.
  Lemma vertex_places_length p l : length (vertex_places p l) = length (nodes p).
  Proof. unfold vertex_places, places. rewrite map_length, seq_length. reflexivity. Qed.
  Lemma edge_places_length p l : length (edge_places p l) = length (nodes p) * length (nodes p).
  Proof. unfold edge_places, places. rewrite map_length. apply pairs_upto_length. Qed.

  Definition encode_bits (p : graph L) (t : label_codes L) : R :=
    let n := length (nodes p) in
    (rsum (map (label_bits (vertex_lc t) n) (counter (vertex_names p)))
     + rsum (map (label_bits (edges_lc t) (n * n)) (counter (edge_names p)))
     + ln (INR (label_count t)) / ln 2 + IZR (int_bits n))%R.

  Lemma encode_ok p t : proper p -> 0 < label_count t ->
    incl (vertex_names p) (map fst (vertex_lc t)) -> incl (edge_names p) (map fst (edges_lc t)) ->
    encode p t = Ret (encode_bits p t).
  Proof.
    intros Hp Ht Hv He. unfold encode. destruct (counts_ok p (pr_plain p Hp)) as [-> ->]. cbn [bind].
    unfold math_log2. destruct (Rlt_dec 0 (INR (label_count t))) as [_|N]; [|elim N; apply lt_0_INR; exact Ht].
    cbn [bind]. rewrite integer_length_ok. cbn [bind].
    rewrite (map_out_ok _ (label_bits (vertex_lc t) (length (nodes p)))).
    - cbn [bind]. rewrite (map_out_ok _ (label_bits (edges_lc t) (length (nodes p) * length (nodes p)))).
      + cbn [bind]. rewrite !float_sum_rsum. reflexivity.
      + intros [l n] Hi. apply label_description_ok; cbn [fst snd].
        * apply He. apply counter_keys. apply (in_map fst) in Hi. exact Hi.
        * apply counter_In in Hi. destruct Hi as [_ ->]. rewrite <- edge_places_count, <- (edge_places_length p l) by exact Hp.
          apply ones_le.
    - intros [l n] Hi. apply label_description_ok; cbn [fst snd].
      + apply Hv. apply counter_keys. apply (in_map fst) in Hi. exact Hi.
      + apply counter_In in Hi. destruct Hi as [_ ->]. rewrite <- vertex_places_count by exact Hp.
        rewrite <- (vertex_places_length p l). apply ones_le.
  Qed.

  (* ---- a pattern as a sequence of names with the places they stand at *)
  Definition items (p : graph L) : list (bool * L * list bool) :=
    map (fun l => (true, l, vertex_places p l)) (map fst (counter (vertex_names p)))
    ++ map (fun l => (false, l, edge_places p l)) (map fst (counter (edge_names p))).
  Definition slots (n : nat) (s : bool) : nat := if s then n else n * n.
  Definition code_of (t : label_codes L) (sl : bool * L) : R :=
    match dget (if fst sl then vertex_lc t else edges_lc t) (snd sl) with Some c => c | None => 0%R end.
  Definition names_in (t : label_codes L) : list (bool * L) :=
    map (pair true) (map fst (vertex_lc t)) ++ map (pair false) (map fst (edges_lc t)).
  Definition item_weight (t : label_codes L) (n : nat) (x : bool * L * list bool) : R :=
    (share (code_of t (fst x)) *
     (Rpower 2 (- IZR (int_bits (count_occ bool_dec (snd x) true)))
      * / INR (choose (slots n (fst (fst x))) (count_occ bool_dec (snd x) true))))%R.

  Lemma share_bits lc m uv : In (fst uv) (map fst lc) -> snd uv <= m ->
    share (label_bits lc m uv)
    = (share (match dget lc (fst uv) with Some c => c | None => 0 end)
       * (Rpower 2 (- IZR (int_bits (snd uv))) * / INR (choose m (snd uv))))%R.
  Proof.
    intros _ Hm. unfold label_bits. rewrite !share_plus. rewrite share_lg by (apply lt_0_INR, choose_pos; exact Hm).
    unfold share at 2. ring.
  Qed.

  Lemma share_rsum {A} (f : A -> R) l : share (rsum (map f l)) = rprod (map (fun a => share (f a)) l).
  Proof. induction l as [|a l IH]; simpl; [apply share_0 | rewrite share_plus, IH; reflexivity]. Qed.

  Lemma share_encode p t : proper p -> 0 < label_count t ->
    incl (vertex_names p) (map fst (vertex_lc t)) -> incl (edge_names p) (map fst (edges_lc t)) ->
    share (encode_bits p t) = (Rpower 2 (- IZR (int_bits (length (nodes p))))
      * (/ INR (label_count t) * rprod (map (item_weight t (length (nodes p))) (items p))))%R.
  Proof.
    intros Hp Ht Hv He. unfold encode_bits. cbv zeta. rewrite !share_plus, !share_rsum.
    rewrite share_lg by (apply lt_0_INR; exact Ht). unfold items. rewrite map_app, rprod_app, !map_map.
    assert (map (fun uv => share (label_bits (vertex_lc t) (length (nodes p)) uv)) (counter (vertex_names p))
            = map (fun uv => item_weight t (length (nodes p)) (true, fst uv, vertex_places p (fst uv))) (counter (vertex_names p))) as ->.
    { apply map_ext_in. intros [l n] Hi. unfold item_weight. cbn [fst snd].
      pose proof (proj1 (counter_In _ _ _) Hi) as [_ ->]. rewrite vertex_places_count by exact Hp. cbn [slots].
      rewrite share_bits; cbn [fst snd]; [reflexivity | | ].
      - apply Hv, counter_keys. apply (in_map fst) in Hi. exact Hi.
      - rewrite <- vertex_places_count by exact Hp. rewrite <- (vertex_places_length p l). apply ones_le. }
    assert (map (fun uv => share (label_bits (edges_lc t) (length (nodes p) * length (nodes p)) uv)) (counter (edge_names p))
            = map (fun uv => item_weight t (length (nodes p)) (false, fst uv, edge_places p (fst uv))) (counter (edge_names p))) as ->.
    { apply map_ext_in. intros [l n] Hi. unfold item_weight. cbn [fst snd].
      pose proof (proj1 (counter_In _ _ _) Hi) as [_ ->]. rewrite edge_places_count by exact Hp. cbn [slots].
      rewrite share_bits; cbn [fst snd]; [reflexivity | | ].
      - apply He, counter_keys. apply (in_map fst) in Hi. exact Hi.
      - rewrite <- edge_places_count by exact Hp. rewrite <- (edge_places_length p l). apply ones_le. }
    unfold share at 1. ring.
  Qed.

  (* different patterns have different items *)
  Lemma map_eq_in {A B} (f h : A -> B) l : map f l = map h l -> forall x, In x l -> f x = h x.
  Proof.
    induction l as [|a l IH]; simpl; intros E x [].
    - subst. congruence.
    - apply IH; congruence.
  Qed.

  Lemma items_same p q : proper p -> proper q ->
    length (nodes p) = length (nodes q) -> items p = items q -> same_pattern p q.
  Proof.
    assert (forall p q, proper p -> length (nodes p) = length (nodes q) -> items p = items q ->
              (forall x, In x (vertex_facts p) -> In x (vertex_facts q))
              /\ (forall x, In x (edge_facts p) -> In x (edge_facts q))) as Hs.
    { intros p' q' Hp' El Ei. split.
      - intros [u l] Hx.
        assert (In (true, l, vertex_places p' l) (items p')) as Hi.
        { unfold items. apply in_app_iff. left. apply in_map_iff. exists l. split; [reflexivity|].
          apply counter_keys. rewrite vertex_names_facts. apply (in_map snd) in Hx. exact Hx. }
        rewrite Ei in Hi. unfold items in Hi. apply in_app_iff in Hi. destruct Hi as [Hi|Hi]; apply in_map_iff in Hi; destruct Hi as [l' [E _]]; [|discriminate].
        injection E as -> E. unfold vertex_places, places in E. rewrite El in E.
        pose proof (vertex_place p' u l Hp' Hx) as Hu. rewrite El in Hu.
        pose proof (map_eq_in _ _ _ E u Hu) as Hm. cbv beta in Hm.
        apply mem_In. rewrite Hm. apply mem_In. exact Hx.
      - intros [u l] Hx.
        assert (In (false, l, edge_places p' l) (items p')) as Hi.
        { unfold items. apply in_app_iff. right. apply in_map_iff. exists l. split; [reflexivity|].
          apply counter_keys. rewrite edge_names_facts. apply (in_map snd) in Hx. exact Hx. }
        rewrite Ei in Hi. unfold items in Hi. apply in_app_iff in Hi. destruct Hi as [Hi|Hi]; apply in_map_iff in Hi; destruct Hi as [l' [E _]]; [discriminate|].
        injection E as -> E. unfold edge_places, places in E. rewrite El in E.
        pose proof (edge_place p' u l Hp' Hx) as Hu. rewrite El in Hu.
        pose proof (map_eq_in _ _ _ E u Hu) as Hm. cbv beta in Hm.
        apply mem_In. rewrite Hm. apply mem_In. exact Hx. }
    intros Hp Hq El Ei. destruct (Hs p q Hp El Ei) as [A B]. destruct (Hs q p Hq (eq_sym El) (eq_sym Ei)) as [A' B'].
    split; [exact El|]. split; intros x; split; auto.
  Qed.

  (* ---- Kraft's inequality for patterns *)
  Lemma kraft_items t n : NoDup (map fst (vertex_lc t)) -> NoDup (map fst (edges_lc t)) ->
    (rsum (map (fun lc => share (snd lc)) (vertex_lc t ++ edges_lc t)) <= 1)%R ->
    kraft (fun x => In (fst x) (names_in t) /\ length (snd x) = slots n (fst (fst x))) (item_weight t n).
  Proof.
    intros Nv Ne Hs.
    assert (kraft (fun sl => In sl (names_in t)) (fun sl => share (code_of t sl))) as Kn.
    { apply kraft_finite; [intros; left; apply share_pos|].
      eapply Rle_trans; [|exact Hs]. right. unfold names_in. rewrite !map_app, !map_map, !rsum_app. f_equal; f_equal.
      - apply map_ext_in. intros [l c] Hi. unfold code_of. cbn [fst snd]. rewrite (In_dget _ l c Nv Hi). reflexivity.
      - apply map_ext_in. intros [l c] Hi. unfold code_of. cbn [fst snd]. rewrite (In_dget _ l c Ne Hi). reflexivity. }
    exact (kraft_pair _ (fun sl b => length b = slots n (fst sl)) _ _ Kn (fun sl _ => kraft_bits (slots n (fst sl)))).
  Qed.

  Lemma items_in p t : incl (vertex_names p) (map fst (vertex_lc t)) -> incl (edge_names p) (map fst (edges_lc t)) ->
    Forall (fun x => In (fst x) (names_in t) /\ length (snd x) = slots (length (nodes p)) (fst (fst x))) (items p).
  Proof.
    intros Hv He. apply Forall_forall. intros x Hx. unfold items in Hx. apply in_app_iff in Hx. unfold names_in.
    destruct Hx as [Hx|Hx]; apply in_map_iff in Hx; destruct Hx as [l [E Hl]]; subst x; apply (proj1 (counter_keys _ _)) in Hl; cbn [fst snd slots].
    - split; [apply in_app_iff; left; apply in_map, Hv, Hl | apply vertex_places_length].
    - split; [apply in_app_iff; right; apply in_map, He, Hl | apply edge_places_length].
  Qed.

  Lemma items_length p t : incl (vertex_names p) (map fst (vertex_lc t)) -> incl (edge_names p) (map fst (edges_lc t)) ->
    length (items p) <= label_count t.
  Proof.
    intros Hv He. unfold items, label_count. rewrite app_length, !map_length.
    apply Nat.add_le_mono.
    - rewrite <- (map_length fst (counter (vertex_names p))), <- (map_length fst (vertex_lc t)).
      apply NoDup_incl_length; [apply (proj1 (counter_total _))|]. intros l Hl. apply Hv, counter_keys, Hl.
    - rewrite <- (map_length fst (counter (edge_names p))), <- (map_length fst (edges_lc t)).
      apply NoDup_incl_length; [apply (proj1 (counter_total _))|]. intros l Hl. apply He, counter_keys, Hl.
  Qed.

  Lemma encode_bits_pos p t : proper p -> 0 < label_count t ->
    (forall l c, In (l, c) (vertex_lc t) \/ In (l, c) (edges_lc t) -> (0 <= c)%R) -> (0 < encode_bits p t)%R.
  Proof.
    intros Pp Ht Hc.
    assert (forall lc n uv, (forall l c, In (l, c) lc -> (0 <= c)%R) -> snd uv <= n -> (0 <= label_bits lc n uv)%R) as Hlb.
    { intros lc n uv Hlc Hn. unfold label_bits. destruct (int_bits_ok (snd uv)) as [_ Hi]. apply IZR_lt in Hi.
      assert (0 <= match dget lc (fst uv) with Some c => c | None => 0 end)%R as H1.
      { destruct (dget lc (fst uv)) as [c|] eqn:E; [|lra]. apply dget_In in E. apply (Hlc _ _ E). }
      assert (0 <= ln (INR (choose n (snd uv))) / ln 2)%R as H2.
      { pose proof ln2_pos. pose proof (choose_pos n (snd uv) Hn) as Hcp. apply le_INR in Hcp. simpl in Hcp.
        assert (ln 1 <= ln (INR (choose n (snd uv))))%R as Hl.
        { destruct Hcp as [Hcp|Hcp]; [left; apply ln_increasing; lra | right; rewrite <- Hcp; reflexivity]. }
        rewrite ln_1 in Hl. unfold Rdiv. apply Rmult_le_pos; [exact Hl|]. left. apply Rinv_0_lt_compat. lra. }
      lra. }
    unfold encode_bits. cbv zeta.
    assert (0 <= rsum (map (label_bits (vertex_lc t) (length (nodes p))) (counter (vertex_names p))))%R as A.
    { apply rsum_nonneg. rewrite Forall_map. apply Forall_forall. intros [l n] Hi. apply Hlb.
      - intros l' c Hl. apply (Hc l' c). left. exact Hl.
      - apply counter_In in Hi. destruct Hi as [_ ->]. cbn [snd]. rewrite <- vertex_places_count by exact Pp.
        rewrite <- (vertex_places_length p l). apply ones_le. }
    assert (0 <= rsum (map (label_bits (edges_lc t) (length (nodes p) * length (nodes p))) (counter (edge_names p))))%R as B.
    { apply rsum_nonneg. rewrite Forall_map. apply Forall_forall. intros [l n] Hi. apply Hlb.
      - intros l' c Hl. apply (Hc l' c). right. exact Hl.
      - apply counter_In in Hi. destruct Hi as [_ ->]. cbn [snd]. rewrite <- edge_places_count by exact Pp.
        rewrite <- (edge_places_length p l). apply ones_le. }
    assert (0 <= ln (INR (label_count t)) / ln 2)%R as C.
    { pose proof ln2_pos. apply le_INR in Ht. simpl in Ht.
      assert (ln 1 <= ln (INR (label_count t)))%R as Hl.
      { destruct Ht as [Ht|Ht]; [left; apply ln_increasing; lra | right; rewrite <- Ht; reflexivity]. }
      rewrite ln_1 in Hl. unfold Rdiv. apply Rmult_le_pos; [exact Hl|]. left. apply Rinv_0_lt_compat. lra. }
    destruct (int_bits_ok (length (nodes p))) as [_ Hi]. apply IZR_lt in Hi. lra.
  Qed.

  (* The description length of patterns is the length of a code: patterns that
     differ take disjoint shares of the code space.  [g] is the data graph the
     label codes are made from. *)
  Theorem C79_encode_kraft_partial (g : graph L) (t : label_codes L) (ps : list (graph L)) :
    plain g -> (forall l, In l (edge_names g) -> ~ In l (vertex_names g)) -> LabelCodes g = Ret t ->
    Forall (fun p => proper p /\ known g p /\ vertex_names p ++ edge_names p <> []) ps ->
    ForallOrdPairs (fun p q => ~ same_pattern p q) ps ->
    exists lens, map (fun p => encode p t) ps = map Ret lens
      /\ Forall (fun x => 0 < x)%R lens /\ (rsum (map share lens) <= 1)%R.
  Proof.
    intros Hg Hd Et Hf Hdiff.
    destruct (C78_label_codes_partial g Hg Hd) as (t' & Et' & Nv & Ne & Iv & Ie & Hc & Hs).
    rewrite Et in Et'. injection Et' as <-.
    assert (forall p, known g p -> incl (vertex_names p) (map fst (vertex_lc t)) /\ incl (edge_names p) (map fst (edges_lc t))) as Hk.
    { intros p [K1 K2]. split; intros l Hl.
      - apply K1 in Hl. eapply in_map_iff. eexists (l, _). split; [reflexivity|]. apply Iv. split; [exact Hl | reflexivity].
      - apply K2 in Hl. eapply in_map_iff. eexists (l, _). split; [reflexivity|]. apply Ie. split; [exact Hl | reflexivity]. }
    assert (forall p, known g p -> vertex_names p ++ edge_names p <> [] -> 0 < label_count t /\ 1 <= length (items p)
              /\ 0 < length (edge_names g) + length (vertex_names g)) as Hpos.
    { intros p Kp Hne. destruct (Hk p Kp) as [K1 K2].
      assert (1 <= length (items p)) as Hi.
      { unfold items. rewrite app_length, !map_length. destruct (vertex_names p) as [|l ls] eqn:Ev.
        - destruct (edge_names p) as [|l ls] eqn:Ee; [elim Hne; reflexivity|].
          assert (In l (map fst (counter (l :: ls)))) as Hl by (apply counter_keys; left; reflexivity).
          destruct (counter (l :: ls)); [destruct Hl | simpl; lia].
        - assert (In l (map fst (counter (l :: ls)))) as Hl by (apply counter_keys; left; reflexivity).
          destruct (counter (l :: ls)); [destruct Hl | simpl; lia]. }
      pose proof (items_length p t K1 K2). split; [lia|]. split; [exact Hi|].
      destruct Kp as [G1 G2]. destruct (vertex_names p) as [|l ls] eqn:Ev.
      - destruct (edge_names p) as [|l ls] eqn:Ee; [elim Hne; reflexivity|].
        pose proof (G2 l (or_introl eq_refl)) as Hl. destruct (edge_names g); [destruct Hl | simpl; lia].
      - pose proof (G1 l (or_introl eq_refl)) as Hl. destruct (vertex_names g); [destruct Hl | simpl; lia]. }
    exists (map (fun p => encode_bits p t) ps). rewrite Forall_forall in Hf. split; [|split].
    - rewrite map_map. apply map_ext_in. intros p Hp. destruct (Hf p Hp) as (Pp & Kp & Np).
      apply encode_ok; [exact Pp | apply (Hpos p Kp Np) | apply (Hk p Kp) | apply (Hk p Kp)].
    - rewrite Forall_map. apply Forall_forall. intros p Hp. destruct (Hf p Hp) as (Pp & Kp & Np).
      destruct (Hk p Kp) as [K1 K2]. destruct (Hpos p Kp Np) as [Ht _].
      apply encode_bits_pos; [exact Pp | exact Ht | exact Hc].
    - destruct ps as [|p0 ps']; [simpl; lra|].
      destruct (Hf p0 (or_introl eq_refl)) as (_ & Kp0 & Np0). destruct (Hpos p0 Kp0 Np0) as (Ht & _ & Htot).
      specialize (Hs Htot). set (ps := p0 :: ps') in *. clearbody ps.
      pose proof (kraft_pair (fun _ : nat => True)
        (fun n xs => 1 <= length xs <= label_count t
           /\ Forall (fun x => In (fst x) (names_in t) /\ length (snd x) = slots n (fst (fst x))) xs)
        (fun n => Rpower 2 (- IZR (int_bits n)))
        (fun n xs => (/ INR (label_count t) * rprod (map (item_weight t n) xs))%R) kraft_int
        (fun n _ => kraft_sized _ _ _ (kraft_items t n Nv Ne (Req_le _ _ Hs)) Ht)) as [_ K].
      rewrite map_map.
      replace (map (fun p => share (encode_bits p t)) ps) with
        (map (fun xy : nat * list (bool * L * list bool) =>
               (Rpower 2 (- IZR (int_bits (fst xy))) * (/ INR (label_count t) * rprod (map (item_weight t (fst xy)) (snd xy))))%R)
             (map (fun p => (length (nodes p), items p)) ps)).
      + apply K.
        * clear K Hs. induction Hdiff as [|p ps Hp Hps IH]; simpl; constructor.
          -- intros Hi. apply in_map_iff in Hi. destruct Hi as [q [E Hq]]. injection E as E1 E2.
             rewrite Forall_forall in Hp. apply (Hp q Hq).
             apply items_same; [apply Hf; left; reflexivity | apply Hf; right; exact Hq | congruence | congruence].
          -- apply IH. intros q Hq. apply Hf. right. exact Hq.
        * rewrite Forall_map. apply Forall_forall. intros p Hp. destruct (Hf p Hp) as (Pp & Kp & Np). cbn [fst snd].
          destruct (Hk p Kp) as [K1 K2]. destruct (Hpos p Kp Np) as (_ & H1 & _).
          split; [exact I|]. split; [split; [exact H1 | apply items_length; assumption] | apply items_in; assumption].
      + rewrite map_map. apply map_ext_in. intros p Hp. destruct (Hf p Hp) as (Pp & Kp & Np). cbn [fst snd].
        destruct (Hk p Kp) as [K1 K2]. symmetry. apply share_encode; assumption.
  Qed.

  (* A singleton is described like the pattern it stands for: one node with the
     name, or two nodes joined by an edge with the name. *)
  Theorem C79_singleton (blank : L -> bool) (t : label_codes L) (l : L) : blank l = false ->
    encode_singleton blank t 1 l = encode {| nodes := [(1, Some (Name l))]; edges := [] |} t
    /\ encode_singleton blank t 2 l = encode {| nodes := [(1, None); (2, None)]; edges := [(1, 2, Some (Name l))] |} t
    /\ (forall arity, arity <> 1 -> arity <> 2 -> encode_singleton blank t arity l = Exn ValueError).
  Proof.
    intros Hb. split; [|split; [|intros arity H1 H2; unfold encode_singleton; apply Nat.eqb_neq in H1, H2; rewrite H1, H2; reflexivity]]; unfold encode_singleton; cbn [Nat.eqb].
    - unfold encode_vertex_singleton. rewrite Hb. unfold encode, count_edge_label, count_vertex_label.
      cbn [nodes edges map snd label_names bind counter fold_left dget dset length Nat.mul Nat.add].
      destruct (math_log2 (INR (label_count t))) as [x|e|]; cbn [bind]; [|reflexivity|reflexivity].
      destruct (integer_length 1) as [y|e|] eqn:Ei; cbn [bind]; [|reflexivity|reflexivity]. cbn [map_out].
      destruct (label_description (vertex_lc t) 1 (l, 1)) as [z|e|]; cbn [bind]; [|reflexivity|reflexivity].
      f_equal. unfold float_sum. simpl. ring.
    - unfold encode_edge_singleton. rewrite Hb. unfold encode, count_edge_label, count_vertex_label.
      cbn [nodes edges map snd label_names bind counter fold_left dget dset length Nat.mul Nat.add].
      destruct (math_log2 (INR (label_count t))) as [x|e|]; cbn [bind]; [|reflexivity|reflexivity].
      destruct (integer_length 2) as [y|e|] eqn:Ei; cbn [bind]; [|reflexivity|reflexivity]. cbn [map_out].
      destruct (label_description (edges_lc t) 4 (l, 1)) as [z|e|]; cbn [bind]; [|reflexivity|reflexivity].
      f_equal. unfold float_sum. simpl. ring.
  Qed.

  (* The length depends on the number of nodes and on how often each name
     occurs, not on the numbers of the nodes or the order of nodes and edges. *)
  Lemma map_out_perm {A B} (f : A -> outcome B) l l' : Permutation l l' -> forall r, map_out f l = Ret r ->
    exists r', map_out f l' = Ret r' /\ Permutation r r'.
  Proof.
    induction 1 as [|a l l' Hp IH|a b l|l1 l2 l3 H1 IH1 H2 IH2]; intros r Er.
    - exists r. split; [exact Er | reflexivity].
    - simpl in *. destruct (f a) as [b|e|]; try discriminate. cbn [bind] in *.
      destruct (map_out f l) as [r1|e|]; try discriminate. cbn [bind] in Er. injection Er as <-.
      destruct (IH r1 eq_refl) as [r' [E P]]. exists (b :: r'). rewrite E. split; [reflexivity | constructor; exact P].
    - simpl in *. destruct (f b) as [y|e|]; try discriminate. cbn [bind] in *.
      destruct (f a) as [x|e|]; try discriminate. cbn [bind] in *.
      destruct (map_out f l) as [r1|e|]; try discriminate. cbn [bind] in *. injection Er as <-.
      exists (x :: y :: r1). split; [reflexivity | constructor].
    - destruct (IH1 r Er) as [r1 [E1 P1]]. destruct (IH2 r1 E1) as [r2 [E2 P2]].
      exists r2. split; [exact E2 | etransitivity; eassumption].
  Qed.
  Lemma counter_perm (a b : list L) : Permutation a b -> Permutation (counter a) (counter b).
  Proof.
    intros Hp. apply NoDup_Permutation.
    - apply NoDup_map_inv with (f := fst). apply (proj1 (counter_total a)).
    - apply NoDup_map_inv with (f := fst). apply (proj1 (counter_total b)).
    - intros [l n]. rewrite !counter_In. rewrite (proj1 (Permutation_count_occ eq_dec a b) Hp l). reflexivity.
  Qed.
  Theorem C79_renumbering (p q : graph L) (t : label_codes L) x : plain p -> plain q ->
    length (nodes p) = length (nodes q) -> Permutation (vertex_names p) (vertex_names q) ->
    Permutation (edge_names p) (edge_names q) -> encode p t = Ret x -> encode q t = Ret x.
  Proof.
    intros Hp Hq El Pv Pe. unfold encode. destruct (counts_ok p Hp) as [-> ->], (counts_ok q Hq) as [-> ->]. cbn [bind].
    rewrite <- El. destruct (math_log2 (INR (label_count t))) as [a|e|]; try discriminate. cbn [bind].
    destruct (integer_length (length (nodes p))) as [b|e|]; try discriminate. cbn [bind].
    destruct (map_out _ (counter (vertex_names p))) as [c|e|] eqn:Ec; try discriminate. cbn [bind].
    destruct (map_out _ (counter (edge_names p))) as [d|e|] eqn:Ed; try discriminate. cbn [bind]. intros E. injection E as <-.
    destruct (map_out_perm _ _ _ (counter_perm _ _ Pv) _ Ec) as [c' [-> Pc]]. cbn [bind].
    destruct (map_out_perm _ _ _ (counter_perm _ _ Pe) _ Ed) as [d' [-> Pd]]. cbn [bind].
    rewrite !float_sum_rsum, (rsum_perm _ _ Pc), (rsum_perm _ _ Pd). reflexivity.
  Qed.

  (* A name the data does not have is an error. *)
  Theorem C79_unknown_name (g p : graph L) (t : label_codes L) : plain g -> proper p -> LabelCodes g = Ret t ->
    ~ known g p -> forall x, encode p t <> Ret x.
  Proof.
    intros Hg Hp Et Hn x Ex. apply Hn. clear Hn.
    destruct (C78_label_codes g Hg) as (t' & total & Et' & _ & Iv & Ie). rewrite Et in Et'. injection Et' as <-.
    unfold encode in Ex. destruct (counts_ok p (pr_plain p Hp)) as [Ev Ee]. rewrite Ev, Ee in Ex. cbn [bind] in Ex.
    destruct (math_log2 (INR (label_count t))) as [a|e|]; try discriminate. cbn [bind] in Ex.
    destruct (integer_length (length (nodes p))) as [b|e|]; try discriminate. cbn [bind] in Ex.
    destruct (map_out _ (counter (vertex_names p))) as [c|e|] eqn:Ec; try discriminate. cbn [bind] in Ex.
    destruct (map_out _ (counter (edge_names p))) as [d|e|] eqn:Ed; try discriminate. clear Ex.
    assert (forall lc n ls r, map_out (label_description lc n) (counter ls) = Ret r -> forall l, In l ls -> In l (map fst lc)) as Hm.
    { intros lc n ls r Er l Hl. apply (counter_keys ls) in Hl. revert r Er. induction (counter ls) as [|[k m] ks IH]; [destruct Hl|].
      intros r Er. simpl in Er. destruct (label_description lc n (k, m)) as [y|e|] eqn:Ek; try discriminate. cbn [bind] in Er.
      destruct (map_out (label_description lc n) ks) as [r1|e|] eqn:E1; try discriminate.
      destruct Hl as [Hl|Hl]; [|apply (IH Hl _ eq_refl)]. simpl in Hl. subst k.
      unfold label_description in Ek. cbn [fst] in Ek. destruct (dget lc l) as [v|] eqn:Eg; [|discriminate].
      apply dget_In in Eg. apply (in_map fst) in Eg. exact Eg. }
    split; intros l Hl.
    - apply (Hm _ _ _ _ Ec) in Hl. apply in_map_iff in Hl. destruct Hl as [[l' v] [E Hi]]. simpl in E. subst l'. apply Iv in Hi. tauto.
    - apply (Hm _ _ _ _ Ed) in Hl. apply in_map_iff in Hl. destruct Hl as [[l' v] [E Hi]]. simpl in E. subst l'. apply Ie in Hi. tauto.
  Qed.
  Lemma map_out_or {A B} (f : A -> outcome B) e l : (forall a, In a l -> (exists b, f a = Ret b) \/ f a = Exn e) ->
    (exists r, map_out f l = Ret r) \/ map_out f l = Exn e.
  Proof.
    induction l as [|a l IH]; intros Hf; [left; exists []; reflexivity|]. simpl. destruct (Hf a (or_introl eq_refl)) as [[b ->]| ->]; [|right; reflexivity].
    cbn [bind]. destruct (IH (fun x Hx => Hf x (or_intror Hx))) as [[r ->]| ->]; [left; eexists; reflexivity | right; reflexivity].
  Qed.
  (* The error is KeyError; ValueError when the data has no name at all. *)
  Theorem C79_unknown_error (g p : graph L) (t : label_codes L) : plain g -> proper p -> LabelCodes g = Ret t -> ~ known g p ->
    encode p t = Exn (match vertex_names g ++ edge_names g with [] => ValueError | _ => KeyError end).
  Proof.
    intros Hg Hp Et Hn. pose proof (C79_unknown_name g p t Hg Hp Et Hn) as Hno.
    destruct (C78_label_codes g Hg) as (t' & total & Et' & _ & Iv & Ie). rewrite Et in Et'. injection Et' as <-.
    destruct (vertex_names g ++ edge_names g) as [|a names] eqn:En.
    - apply app_eq_nil in En. destruct En as [E1 E2]. rewrite E1 in Iv. rewrite E2 in Ie. unfold encode.
      destruct (counts_ok p (pr_plain p Hp)) as [-> ->]. cbn [bind]. unfold label_count.
      destruct (vertex_lc t) as [|[l c] vs]; [|destruct (proj1 (proj1 (Iv l c) (or_introl eq_refl)))].
      destruct (edges_lc t) as [|[l c] es]; [|destruct (proj1 (proj1 (Ie l c) (or_introl eq_refl)))].
      unfold math_log2. simpl. destruct (Rlt_dec 0 0) as [N|_]; [exfalso; apply (Rlt_irrefl _ N) | reflexivity].
    - assert (Hc : 0 < label_count t).
      { assert (Ha : In a (vertex_names g ++ edge_names g)) by (rewrite En; left; reflexivity). unfold label_count. apply in_app_or in Ha. destruct Ha as [Ha|Ha].
        - pose proof (proj2 (Iv a _) (conj Ha eq_refl)) as Hi. destruct (vertex_lc t); [destruct Hi | simpl; lia].
        - pose proof (proj2 (Ie a _) (conj Ha eq_refl)) as Hi. destruct (edges_lc t); [destruct Hi | simpl; lia]. }
      assert (Hd : forall lc slots uv, snd uv <= slots -> (exists b, label_description lc slots uv = Ret b) \/ label_description lc slots uv = Exn KeyError).
      { intros lc slots uv Hs. unfold label_description. destruct (dget lc (fst uv)); [left | right; reflexivity].
        rewrite integer_length_ok. cbn [bind]. rewrite log2_binomial_ok by exact Hs. eexists. reflexivity. }
      revert Hno. unfold encode. destruct (counts_ok p (pr_plain p Hp)) as [-> ->]. cbn [bind].
      unfold math_log2. destruct (Rlt_dec 0 (INR (label_count t))) as [_|N]; [|elim N; apply lt_0_INR; exact Hc].
      cbn [bind]. rewrite integer_length_ok. cbn [bind].
      destruct (map_out_or (label_description (vertex_lc t) (length (nodes p))) KeyError (counter (vertex_names p))) as [[r ->]| ->]; [|cbn [bind]|reflexivity].
      { intros [l n] Hi. apply Hd. cbn [snd]. apply counter_In in Hi. destruct Hi as [_ ->]. rewrite <- vertex_places_count by exact Hp.
        rewrite <- (vertex_places_length p l). apply ones_le. }
      destruct (map_out_or (label_description (edges_lc t) (length (nodes p) * length (nodes p))) KeyError (counter (edge_names p))) as [[r' ->]| ->]; [| |reflexivity].
      { intros [l n] Hi. apply Hd. cbn [snd]. apply counter_In in Hi. destruct Hi as [_ ->]. rewrite <- edge_places_count, <- (edge_places_length p l) by exact Hp. apply ones_le. }
      cbn [bind]. intros Hno. exfalso. eapply Hno. reflexivity.
  Qed.
End C79.

(* Two parallel loops with the same name, in a multigraph: no length. *)
Theorem C79_parallel_refuted : exists (g p : graph nat) t, plain g /\ plain p /\ known g p
  /\ (forall l, In l (edge_names g) -> ~ In l (vertex_names g)) /\ LabelCodes g = Ret t
  /\ encode p t = Exn ValueError.
Proof.
  exists {| nodes := [(1, None)]; edges := [(1, 1, Some (Name 4)); (1, 1, Some (Name 4))] |},
         {| nodes := [(1, None)]; edges := [(1, 1, Some (Name 4)); (1, 1, Some (Name 4))] |}. eexists.
  split; [split; repeat constructor|]. split; [split; repeat constructor|]. split; [split; intros l Hl; exact Hl|].
  split; [intros l _ []|]. split; [reflexivity|].
  unfold encode. cbn. unfold math_log2. destruct (Rlt_dec 0 1) as [_|N]; [|elim N; lra]. reflexivity.
Qed.

(* a data graph and three different patterns *)
Definition small_data : graph nat :=
  {| nodes := [(1, Some (Names [7; 8])); (2, None); (3, Some (Name 7))];
     edges := [(1, 2, Some (Name 4)); (2, 3, Some (Name 4))] |}.
Definition small_patterns : list (graph nat) :=
  [{| nodes := [(1, Some (Name 7)); (2, None)]; edges := [(1, 2, Some (Name 4))] |};
   {| nodes := [(1, None); (2, Some (Name 7))]; edges := [(1, 2, Some (Name 4))] |};
   {| nodes := [(1, Some (Names [7; 8]))]; edges := [] |}].
Example C79_case : plain small_data
  /\ (forall l, In l (edge_names small_data) -> ~ In l (vertex_names small_data))
  /\ Forall (fun p => proper p /\ known small_data p /\ vertex_names p ++ edge_names p <> []) small_patterns
  /\ ForallOrdPairs (fun p q => ~ same_pattern p q) small_patterns.
Proof.
  split; [split; repeat constructor|]. split; [intros l Hl Hv; simpl in Hl, Hv; intuition congruence|]. split.
  - repeat (apply Forall_cons; [split; [split; [split; repeat constructor | simpl; lia | | |] | split; [split; intros l; simpl; tauto | discriminate]]|]);
      try apply Forall_nil; try (intros e; simpl; intros Hi; repeat destruct Hi as [<-|Hi]; simpl; tauto);
      cbn; repeat constructor; simpl; intuition congruence.
  - repeat constructor; intros (E & Hv & He); try discriminate.
    pose proof (proj1 (Hv (1, 7)) (or_introl eq_refl)) as F. simpl in F. destruct F as [F|[]]. discriminate.
Qed.

(* a pattern with a name that the data does not have *)
Definition strange : graph nat := {| nodes := [(1, Some (Name 7)); (2, Some (Name 99))]; edges := [] |}.
Example C79_unknown_case : plain small_data /\ proper strange /\ ~ known small_data strange /\ exists t, LabelCodes small_data = Ret t /\ encode strange t = Exn KeyError.
Proof.
  assert (Hg : plain small_data) by (split; repeat constructor).
  assert (Hp : proper strange).
  { split; [split; repeat constructor | simpl; lia | | |]; try (intros e; simpl; intros Hi; repeat destruct Hi as [<-|Hi]; simpl; tauto);
      cbn; repeat constructor; simpl; intuition congruence. }
  assert (Hn : ~ known small_data strange) by (intros [Hv _]; specialize (Hv 99 (or_intror (or_introl eq_refl))); simpl in Hv; intuition congruence).
  split; [exact Hg|]. split; [exact Hp|]. split; [exact Hn|]. destruct (C78_label_codes small_data Hg) as (t & total & Et & _).
  exists t. split; [exact Et|]. exact (C79_unknown_error small_data strange t Hg Hp Et Hn).
Qed.

Print Assumptions C78_label_codes_partial.
Print Assumptions C78_label_codes.
Print Assumptions C78_shared_name_refuted.
Print Assumptions C79_encode_kraft_partial.
Print Assumptions C79_singleton.
Print Assumptions C79_renumbering.
Print Assumptions C79_unknown_name.
Print Assumptions C79_unknown_error.
Print Assumptions C79_parallel_refuted.
