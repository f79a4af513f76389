(* LCM results stated on [lcm], [lcm_max] and [lcm_file] (fit followed by transform). *)
From Verif Require Import Prelude FilterModel FilterProofs CheckModel LCMModel LCMProofs
  ItemsetSpec VerticalProofs LCMLift TextModel TextProofs LCMFileModel.
From Coq Require Import QArith.
Local Open Scope nat_scope.

(* the threshold reached by a support of k among n transactions *)
Definition meets (ms : minsupp) (n k : nat) : Prop :=
  match ms with
  | Abs m => (m <= Z.of_nat k)%Z
  | Rel q => (q * inject_Z (Z.of_nat n) <= inject_Z (Z.of_nat k))%Q
  end.
Lemma meets_reaches ms n k : meets ms n k <-> reaches ms n k = true.
Proof.
  destruct ms as [m|q]; simpl; [rewrite Z.leb_le; tauto | rewrite Qle_bool_iff; tauto].
Qed.
(* the thresholds fit accepts *)
Definition accepted (ms : minsupp) : Prop :=
  match ms with Abs m => (1 <= m)%Z | Rel q => (0 <= q <= 1)%Q end.

Section Final.
  Context {A : Type} `{EqDec A} (leA : A -> A -> bool).

  (* every root job runs exactly once, in any order; there is one job per item
     that reaches the threshold *)
  Definition all_jobs (ms : minsupp) (D : list (list A)) (sched : list nat) : Prop :=
    Permutation sched (seq 0 (length (fit_table ms D))).

  Lemma fit_accepted ms (D : list (list A)) : accepted ms <-> fit ms D = Some (fit_table ms D).
  Proof.
    unfold fit; destruct ms as [m|q]; simpl.
    - unfold check_int; simpl; destruct (Z.ltb_spec m 1); split; intros; try discriminate; auto; lia.
    - destruct (Qle_bool (inject_Z 0) q) eqn:E0; destruct (Qle_bool q (inject_Z 1)) eqn:E1; simpl;
        (split; [intros [? ?] | intros]); try reflexivity; try discriminate.
      + apply Qle_bool_iff in E0; apply Qle_bool_iff in E1; split; assumption.
      + exfalso; assert (Qle_bool q (inject_Z 1) = true) by (apply Qle_bool_iff; assumption); congruence.
      + exfalso; assert (Qle_bool (inject_Z 0) q = true) by (apply Qle_bool_iff; assumption); congruence.
      + exfalso; assert (Qle_bool q (inject_Z 1) = true) by (apply Qle_bool_iff; assumption); congruence.
  Qed.
  Lemma fit_rejected ms (D : list (list A)) : ~ accepted ms -> fit ms D = None.
  Proof.
    intros Hn; destruct (fit ms D) as [t|] eqn:E; [|reflexivity]; exfalso; apply Hn.
    apply (fit_accepted ms D); unfold fit in *.
    destruct (check_min_supp (minsupp_val ms) true); [discriminate | reflexivity].
  Qed.

  Lemma lcm_inv ms D lexico ml sched rows : lcm leA ms D lexico ml sched = Some rows ->
    accepted ms /\ rows = transform leA ms (length D) (fit_table ms D) lexico ml sched.
  Proof.
    unfold lcm; intros E.
    destruct (fit ms D) as [t|] eqn:F; [|discriminate]; injection E as <-.
    assert (t = fit_table ms D).
    { unfold fit in F; destruct (check_min_supp (minsupp_val ms) true); [discriminate|]; congruence. }
    subst t; split; [apply (fit_accepted ms D), F | reflexivity].
  Qed.
  Lemma lcm_max_inv ms D lexico ml sched rows : lcm_max leA ms D lexico ml sched = Some rows ->
    accepted ms /\ rows = transform_max leA ms (length D) (fit_table ms D) lexico ml sched.
  Proof.
    unfold lcm_max; intros E.
    destruct (fit ms D) as [t|] eqn:F; [|discriminate]; injection E as <-.
    assert (t = fit_table ms D).
    { unfold fit in F; destruct (check_min_supp (minsupp_val ms) true); [discriminate|]; congruence. }
    subst t; split; [apply (fit_accepted ms D), F | reflexivity].
  Qed.
  Lemma lcm_run ms D lexico ml sched : accepted ms ->
    lcm leA ms D lexico ml sched
    = Some (transform leA ms (length D) (fit_table ms D) lexico ml sched).
  Proof. intros Ha; unfold lcm; rewrite (proj1 (fit_accepted ms D) Ha); reflexivity. Qed.

  Lemma lcm_final_sound ms D lexico ml sched rows :
    all_jobs ms D sched -> lcm leA ms D lexico ml sched = Some rows ->
    forall r, In r rows ->
      NoDup (r_items r) /\ r_items r <> [] /\ r_supp r = support D (r_items r)
      /\ r_tids r = tidset D (r_items r) /\ meets ms (length D) (support D (r_items r))
      /\ closed_in D (r_items r).
  Proof.
    intros Hs E r Hr; apply lcm_inv in E; destruct E as [_ ->].
    destruct (lcm_sound leA ms D lexico ml sched r Hs Hr) as [H1 [H2 [H3 [H4 [H5 H6]]]]].
    rewrite meets_reaches, <- H3; tauto.
  Qed.
  Lemma lcm_final_complete ms D lexico sched rows :
    all_jobs ms D sched -> lcm leA ms D lexico (-1) sched = Some rows ->
    forall X, X <> [] -> closed_in D X -> meets ms (length D) (support D X) ->
      exists r, In r rows /\ same_items (r_items r) X.
  Proof.
    intros Hs E X Hne Hc Hm; apply lcm_inv in E; destruct E as [_ ->].
    apply meets_reaches in Hm; exact (lcm_complete leA ms D lexico sched X Hs Hne Hc Hm).
  Qed.
  Lemma lcm_final_unique ms D lexico ml sched rows :
    all_jobs ms D sched -> lcm leA ms D lexico ml sched = Some rows ->
    forall i j r r', i <> j -> nth_error rows i = Some r -> nth_error rows j = Some r' ->
      ~ same_items (r_items r) (r_items r').
  Proof.
    intros Hs E i j r r' Hij Hi Hj; apply lcm_inv in E; destruct E as [_ ->].
    pose proof (lcm_unique leA ms D lexico ml sched Hs) as Hu.
    revert Hi Hj; generalize (transform leA ms (length D) (fit_table ms D) lexico ml sched) Hu.
    intros l Hl Hi Hj [S1 S2].
    destruct (Nat.lt_total i j) as [L|[L|L]]; [| congruence |].
    - eapply (FOP_nth _ l Hl i j); eauto; split; assumption.
    - eapply (FOP_nth _ l Hl j i); eauto; split; assumption.
  Qed.

  (* a row survives max_length=ml *)
  Definition short (ml : Z) (r : row A) : bool :=
    if (ml =? -1)%Z then true else (Z.of_nat (length (r_items r)) <=? ml)%Z.
  Lemma short_ok ml r : length_ok ml (r_items r) = short ml r.
  Proof.
    unfold length_ok, short; destruct (ml =? -1)%Z; [apply orb_true_r | apply orb_false_r].
  Qed.
  Lemma lcm_final_max_length ms D lexico ml sched rows rows0 :
    all_jobs ms D sched ->
    lcm leA ms D lexico ml sched = Some rows -> lcm leA ms D lexico (-1) sched = Some rows0 ->
    rows = filter (short ml) rows0.
  Proof.
    intros Hs E E0; apply lcm_inv in E; destruct E as [_ ->]; apply lcm_inv in E0; destruct E0 as [_ ->].
    rewrite lcm_max_length by exact Hs; apply filter_ext; intros r; apply short_ok.
  Qed.

  Lemma lcm_final_schedule ms D lexico ml sched1 sched2 :
    all_jobs ms D sched1 -> all_jobs ms D sched2 ->
    lcm leA ms D lexico ml sched1 = lcm leA ms D lexico ml sched2.
  Proof.
    intros H1 H2; unfold lcm; destruct (fit ms D) as [t|] eqn:F; [|reflexivity].
    assert (t = fit_table ms D).
    { unfold fit in F; destruct (check_min_supp (minsupp_val ms) true); [discriminate|]; congruence. }
    subst t; rewrite !transform_eq; auto.
  Qed.

  (* ---------------------------------------- order of the transactions *)
  (* D2 holds the same transactions as D1, up to their order and up to the order
     and multiplicity of the items in each of them *)
  Definition same_db (D1 D2 : list (list A)) : Prop :=
    exists D, Permutation D1 D /\ Forall2 same_items D D2.

  Lemma same_items_sym (X Y : list A) : same_items X Y -> same_items Y X.
  Proof. unfold same_items; tauto. Qed.
  Lemma perm_Forall2 (R : list A -> list A -> Prop) l1 l2 : Permutation l1 l2 ->
    forall l2', Forall2 R l2 l2' -> exists l1', Forall2 R l1 l1' /\ Permutation l1' l2'.
  Proof.
    induction 1 as [|x l l' _ IH|x y l|l l' l'' _ IH1 _ IH2]; intros m Hm.
    - exists m; split; [exact Hm | reflexivity].
    - inversion Hm as [|? y ? m' Hxy Hm']; subst; destruct (IH m' Hm') as [k [Hk1 Hk2]].
      exists (y :: k); split; [constructor; assumption | apply perm_skip, Hk2].
    - inversion Hm as [|? a ? m' Ha Hm']; subst; inversion Hm' as [|? b ? m'' Hb Hm'']; subst.
      exists (b :: a :: m''); split; [repeat constructor; assumption | apply perm_swap].
    - destruct (IH2 m Hm) as [k [Hk1 Hk2]]; destruct (IH1 k Hk1) as [j [Hj1 Hj2]].
      exists j; split; [exact Hj1 | eapply perm_trans; eassumption].
  Qed.
  Lemma Forall2_same_sym (l l' : list (list A)) : Forall2 same_items l l' -> Forall2 same_items l' l.
  Proof. induction 1; constructor; [apply same_items_sym|]; assumption. Qed.
  Lemma same_db_sym D1 D2 : same_db D1 D2 -> same_db D2 D1.
  Proof.
    intros [D [Hp Hf]]; destruct (perm_Forall2 same_items D1 D Hp D2 Hf) as [E [H1 H2]].
    exists E; split; [symmetry; exact H2 | apply Forall2_same_sym, H1].
  Qed.
  Lemma same_db_support D1 D2 X : same_db D1 D2 -> support D1 X = support D2 X.
  Proof.
    intros [D [Hp Hf]]; unfold support.
    rewrite (Permutation_length (Permutation_filter (fun t => subset X t) _ _ Hp)).
    induction Hf as [|t t' l l' Ht Hl IH] in Hp |- *; [reflexivity|]; simpl.
    clear Hp; replace (subset X t) with (subset X t'); [|apply eq_true_iff_eq; rewrite !subset_incl].
    2: { unfold same_items in Ht; split; intros Hi; eapply incl_tran; [exact Hi | apply Ht | exact Hi | apply Ht]. }
    assert (IH' : length (filter (fun t0 => subset X t0) l) = length (filter (fun t0 => subset X t0) l')).
    { clear IH; induction Hl as [|u u' m m' Hu Hm IH]; [reflexivity|]; simpl.
      replace (subset X u) with (subset X u'); [|apply eq_true_iff_eq; rewrite !subset_incl].
      2: { unfold same_items in Hu; split; intros Hi; eapply incl_tran; [exact Hi | apply Hu | exact Hi | apply Hu]. }
      destruct (subset X u'); simpl; congruence. }
    destruct (subset X t'); simpl; congruence.
  Qed.
  Lemma Forall2_In_r (R : list A -> list A -> Prop) l l' : Forall2 R l l' ->
    forall y, In y l' -> exists x, In x l /\ R x y.
  Proof.
    induction 1 as [|x y l l' Hxy _ IH]; intros z Hz; [destruct Hz|].
    destruct Hz as [<-|Hz]; [exists x; split; [left; reflexivity | exact Hxy]|].
    destruct (IH z Hz) as [w [Hw1 Hw2]]; exists w; split; [right; exact Hw1 | exact Hw2].
  Qed.
  Lemma Forall2_In_l (R : list A -> list A -> Prop) l l' : Forall2 R l l' ->
    forall x, In x l -> exists y, In y l' /\ R x y.
  Proof.
    induction 1 as [|x y l l' Hxy _ IH]; intros z Hz; [destruct Hz|].
    destruct Hz as [<-|Hz]; [exists y; split; [left; reflexivity | exact Hxy]|].
    destruct (IH z Hz) as [w [Hw1 Hw2]]; exists w; split; [right; exact Hw1 | exact Hw2].
  Qed.
  Lemma same_db_trans12 D1 D2 : same_db D1 D2 ->
    (forall t, In t D1 -> exists t', In t' D2 /\ same_items t t') /\
    (forall t', In t' D2 -> exists t, In t D1 /\ same_items t t').
  Proof.
    intros [D [Hp Hf]]; split; intros t Ht.
    - apply (Forall2_In_l _ _ _ Hf), (Permutation_in _ Hp), Ht.
    - destruct (Forall2_In_r _ _ _ Hf t Ht) as [u [Hu Hs]]; exists u; split; [|exact Hs].
      apply (Permutation_in _ (Permutation_sym Hp)), Hu.
  Qed.
  Lemma same_db_occurs D1 D2 x : same_db D1 D2 -> occurs D1 x <-> occurs D2 x.
  Proof.
    intros Hs; destruct (same_db_trans12 _ _ Hs) as [H1 H2]; split; intros [t [Ht Hx]].
    - destruct (H1 t Ht) as [t' [Ht' E]]; exists t'; split; [exact Ht' | apply E, Hx].
    - destruct (H2 t Ht) as [t' [Ht' E]]; exists t'; split; [exact Ht' | apply E, Hx].
  Qed.
  Lemma same_db_closed D1 D2 X : same_db D1 D2 -> closed_in D1 X -> closed_in D2 X.
  Proof.
    intros Hs [Ho Hc]; destruct (same_db_trans12 _ _ Hs) as [H1 H2]; split.
    - intros x Hx; apply (same_db_occurs D1 D2 x Hs), Ho, Hx.
    - intros x Hx Hall; apply Hc; [apply (same_db_occurs D1 D2 x Hs), Hx|].
      intros t Ht Hi; destruct (H1 t Ht) as [t' [Ht' E]]; apply E, Hall; [exact Ht'|].
      eapply incl_tran; [exact Hi | apply E].
  Qed.
  Lemma same_db_length D1 D2 : same_db D1 D2 -> length D1 = length D2.
  Proof.
    intros [D [Hp Hf]]; rewrite (Permutation_length Hp); clear Hp.
    induction Hf; simpl; congruence.
  Qed.
  Lemma lcm_final_db_order ms D1 D2 lexico sched1 sched2 rows1 rows2 :
    same_db D1 D2 -> all_jobs ms D1 sched1 -> all_jobs ms D2 sched2 ->
    lcm leA ms D1 lexico (-1) sched1 = Some rows1 -> lcm leA ms D2 lexico (-1) sched2 = Some rows2 ->
    forall r, In r rows1 -> exists r', In r' rows2 /\ same_items (r_items r) (r_items r') /\ r_supp r = r_supp r'.
  Proof.
    intros Hs J1 J2 E1 E2 r Hr.
    destruct (lcm_final_sound _ _ _ _ _ _ J1 E1 r Hr) as [_ [Hne [Hsu [_ [Hm Hc]]]]].
    destruct (lcm_final_complete _ _ _ _ _ J2 E2 (r_items r) Hne) as [r' [Hr' Hsame]].
    - eapply same_db_closed; eassumption.
    - rewrite <- (same_db_support D1 D2), <- (same_db_length D1 D2) by exact Hs; exact Hm.
    - exists r'; split; [exact Hr'|]; split; [apply same_items_sym, Hsame|].
      destruct (lcm_final_sound _ _ _ _ _ _ J2 E2 r' Hr') as [_ [_ [Hsu' _]]].
      rewrite Hsu, Hsu', (same_db_support D1 D2) by exact Hs.
      symmetry; apply (support_ext _ _ _ Hsame).
  Qed.

  (* -------------------------------------------------------------- LCMMax *)
  Lemma lcmmax_final_sound ms D lexico ml sched rows :
    all_jobs ms D sched -> lcm_max leA ms D lexico ml sched = Some rows ->
    forall r, In r rows ->
      NoDup (r_items r) /\ r_items r <> [] /\ r_supp r = support D (r_items r)
      /\ r_tids r = tidset D (r_items r)
      /\ maximal_such (fun X => meets ms (length D) (support D X)) D (r_items r)
      /\ (ml = (-1)%Z \/ (Z.of_nat (length (r_items r)) <= ml)%Z).
  Proof.
    intros Hs E r Hr; apply lcm_max_inv in E; destruct E as [_ ->].
    destruct (lcmmax_rows leA ms D lexico ml sched r Hs Hr) as [H1 [H2 [H3 [H4 [H5 H6]]]]].
    repeat match goal with |- _ /\ _ => split end; auto.
    destruct H5 as [M1 [M2 M3]]; split; [apply meets_reaches, M1 | split; [exact M2|]].
    intros Y HY Hi Hm; apply M3; auto; apply meets_reaches, Hm.
  Qed.
  Lemma lcmmax_final_complete ms D lexico ml sched rows :
    all_jobs ms D sched -> lcm_max leA ms D lexico ml sched = Some rows ->
    forall X, X <> [] -> NoDup X ->
      maximal_such (fun X => meets ms (length D) (support D X)) D X ->
      (ml = (-1)%Z \/ (Z.of_nat (length X) <= ml)%Z) ->
      exists r, In r rows /\ same_items (r_items r) X.
  Proof.
    intros Hs E X Hne Nx [M1 [M2 M3]] Hml; apply lcm_max_inv in E; destruct E as [_ ->].
    apply (lcmmax_complete leA ms D lexico ml sched X Hs Hne Nx); [|exact Hml].
    split; [apply meets_reaches, M1 | split; [exact M2|]].
    intros Y HY Hi Hm; apply M3; auto; apply meets_reaches, Hm.
  Qed.
  Lemma lcmmax_final_unique ms D lexico ml sched rows :
    all_jobs ms D sched -> lcm_max leA ms D lexico ml sched = Some rows ->
    forall i j r r', i <> j -> nth_error rows i = Some r -> nth_error rows j = Some r' ->
      ~ same_items (r_items r) (r_items r').
  Proof.
    intros Hs E i j r r' Hij Hi Hj; apply lcm_max_inv in E; destruct E as [_ ->].
    pose proof (lcmmax_unique leA ms D lexico ml sched Hs) as Hu.
    revert Hi Hj; generalize (transform_max leA ms (length D) (fit_table ms D) lexico ml sched) Hu.
    intros l Hl Hi Hj [S1 S2].
    destruct (Nat.lt_total i j) as [L|[L|L]]; [| congruence |].
    - eapply (FOP_nth _ l Hl i j); eauto; split; assumption.
    - eapply (FOP_nth _ l Hl j i); eauto; split; assumption.
  Qed.

  (* ----------------------------------------------------- file output *)
  Context (show : A -> text).
  Definition line_of (l : text) : text := l ++ [nl].

  Lemma concat_map_flat {B C} (f : B -> list C) l : concat (map f l) = flat_map f l.
  Proof. symmetry; apply flat_map_concat_map. Qed.
  Lemma write_df_lines rt rows :
    write_df show rt rows = concat (map line_of (flat_map (row_lines show rt) rows)).
  Proof.
    unfold write_df; induction rows as [|r l IH]; [reflexivity|].
    cbn [map concat flat_map]; rewrite map_app, concat_app, IH; reflexivity.
  Qed.
  Lemma copy_lines ls : Forall no_newline ls -> Forall (fun l => blank l = false) ls ->
    copy_nonblank (concat (map line_of ls)) = concat (map line_of ls).
  Proof.
    intros Hn Hb; unfold copy_nonblank; unfold line_of; rewrite read_lines_concat by exact Hn.
    f_equal; clear Hn; induction Hb as [|l t Hl Ht IH]; [reflexivity|].
    cbn [map filter]; replace (blank (l ++ [nl])) with false; [simpl; rewrite IH; reflexivity|].
    unfold blank in *; rewrite forallb_app, Hl; reflexivity.
  Qed.
  Lemma item_line_ok r : (forall x, no_newline (show x)) ->
    no_newline (item_line show r) /\ blank (item_line show r) = false.
  Proof.
    intros Hs; split; [|reflexivity].
    unfold item_line; rewrite !no_newline_app; repeat split;
      try (intros Hc; simpl in Hc; unfold lpar, rpar, sp, nl, cr in Hc; intuition discriminate).
    - apply digits_no_newline, dec_digits.
    - apply digits_no_newline, dec_digits.
    - apply join_no_newline; [split; intros [|[]]; discriminate|].
      apply Forall_forall; intros t Ht; apply in_map_iff in Ht; destruct Ht as [x [<- _]]; apply Hs.
    - apply join_no_newline; [split; intros [|[]]; discriminate|].
      apply Forall_forall; intros t Ht; apply in_map_iff in Ht; destruct Ht as [x [<- _]]; apply Hs.
  Qed.
  Lemma tids_line_ok (r : row A) : r_tids r <> [] ->
    no_newline (tids_line r) /\ blank (tids_line r) = false.
  Proof.
    intros Hne; split; unfold tids_line.
    - apply join_no_newline; [split; intros [|[]]; discriminate|].
      apply Forall_forall; intros t Ht; apply in_map_iff in Ht; destruct Ht as [x [<- _]].
      apply digits_no_newline, dec_digits.
    - destruct (r_tids r) as [|t l]; [congruence|]; cbn [map join].
      assert (Hd : forall rest, blank (dec t ++ rest) = false).
      { intros rest; pose proof (dec_digits t) as Hd; pose proof (dec_nonempty t).
        destruct (dec t) as [|c ds]; [congruence|]; inversion Hd; subst.
        simpl; rewrite digit_not_space by assumption; reflexivity. }
      destruct (map dec l); [rewrite <- (app_nil_r (dec t)) |]; apply Hd.
  Qed.
  Lemma lcm_final_file ms D lexico ml rt sched rows out :
    (forall x, no_newline (show x)) ->
    all_jobs ms D sched -> lcm leA ms D lexico ml sched = Some rows ->
    lcm_file leA show ms D lexico ml rt sched = Some out ->
    (rt = true -> forall r, In r rows -> r_tids r <> []) ->
    out = concat (map line_of (flat_map (row_lines show rt) rows)).
  Proof.
    intros Hshow Hs E F Ht; apply lcm_inv in E; destruct E as [Ha ->].
    unfold lcm_file in F; rewrite (proj1 (fit_accepted ms D) Ha) in F; injection F as <-.
    unfold transform_file.
    rewrite parallel_spec by (apply schedule_covers, Hs); rewrite map_map.
    unfold transform in *.
    rewrite gather_parallel by (apply schedule_covers, Hs).
    rewrite gather_parallel in Ht by (apply schedule_covers, Hs).
    induction (seq 0 (length (fit_table ms D))) as [|k ks IH]; [reflexivity|].
    cbn [map concat flat_map] in *; rewrite IH.
    2: { intros Hrt r Hr; apply Ht; [exact Hrt|]; apply in_or_app; right; exact Hr. }
    rewrite flat_map_app, map_app, concat_app; f_equal.
    rewrite write_df_lines; apply copy_lines.
    - apply Forall_forall; intros l Hl; apply in_flat_map in Hl; destruct Hl as [r [Hr Hl]].
      destruct Hl as [<-|Hl]; [apply item_line_ok, Hshow|].
      destruct rt; [|destruct Hl]; destruct Hl as [<-|[]].
      apply tids_line_ok, Ht; [reflexivity | apply in_or_app; left; exact Hr].
    - apply Forall_forall; intros l Hl; apply in_flat_map in Hl; destruct Hl as [r [Hr Hl]].
      destruct Hl as [<-|Hl]; [apply item_line_ok, Hshow|].
      destruct rt; [|destruct Hl]; destruct Hl as [<-|[]].
      apply tids_line_ok, Ht; [reflexivity | apply in_or_app; left; exact Hr].
  Qed.
  (* with a positive threshold, reported tids are never empty *)
  Lemma meets_pos ms (D : list (list A)) k : D <> [] ->
    match ms with Abs m => (1 <= m)%Z | Rel q => (0 < q)%Q end -> meets ms (length D) k -> 0 < k.
  Proof.
    intros HD; destruct ms as [m|q]; simpl; [lia|]; intros Hq Hm.
    destruct k as [|k]; [|lia]; exfalso.
    assert (Hn : (0 < inject_Z (Z.of_nat (length D)))%Q).
    { replace 0%Q with (inject_Z 0) by reflexivity; rewrite <- Zlt_Qlt.
      destruct D; [congruence | simpl; lia]. }
    apply (Qle_not_lt _ _ Hm); simpl.
    replace (inject_Z 0) with (0 * inject_Z (Z.of_nat (length D)))%Q by reflexivity.
    apply Qmult_lt_compat_r; assumption.
  Qed.
  Lemma closed_nonempty_D (D : list (list A)) (X : list A) : X <> [] -> closed_in D X -> D <> [].
  Proof.
    intros Hne [Ho _] ->; destruct X as [|x X]; [congruence|].
    destruct (Ho x (or_introl eq_refl)) as [t [[] _]].
  Qed.
  Lemma tids_nonempty ms D lexico ml sched rows :
    match ms with Abs m => (1 <= m)%Z | Rel q => (0 < q)%Q end ->
    all_jobs ms D sched -> lcm leA ms D lexico ml sched = Some rows ->
    forall r, In r rows -> 0 < r_supp r /\ r_tids r <> [].
  Proof.
    intros Hp Hs E r Hr.
    destruct (lcm_final_sound _ _ _ _ _ _ Hs E r Hr) as [_ [Hne [Hsu [Ht [Hm Hc]]]]].
    apply meets_pos in Hm; [| eapply closed_nonempty_D; eassumption | exact Hp].
    rewrite Hsu; split; [exact Hm|]; rewrite Ht; intros E0.
    rewrite <- length_tidset, E0 in Hm; simpl in Hm; lia.
  Qed.
End Final.
