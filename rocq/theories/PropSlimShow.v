(* C96: what SLIM.transform shows of the code table, in memory and in a file. *)
From Verif Require Import Prelude CheckModel LCMModel LCMProofs ItemsetSpec VerticalProofs LCMLift
  SlimModel SlimProofs SlimInv SlimRun SlimFit SlimUse PropSlim TextModel TextProofs SplitModel SplitProofs ShowModel PropShow SlimOutModel.

(* ------------------------------------------------------- specification *)
Section Spec.
  Context {A : Type} (leA : A -> A -> bool).
  (* how an itemset is written: sorted on demand *)
  Definition shows (lexico : bool) (k s : list A) : Prop :=
    if lexico then Permutation s k /\ StronglySorted (fun a b => leA a b = true) s else s = k.
  (* the rows are the entries of the table that the options ask for, in the
     order of the table *)
  Definition shown (singletons lexico drop_null : bool) (table rows : list (list A * list nat)) : Prop :=
    exists ps, StronglySorted lt ps
      /\ Forall2 (fun p row => exists k, nth_error table p = Some (k, snd row) /\ shows lexico k (fst row)) ps rows
      /\ forall p k u, nth_error table p = Some (k, u) ->
           (In p ps <-> (drop_null = true -> u <> []) /\ (singletons = false -> 2 <= length k)).
End Spec.

(* --------------------------------------------------------------- proofs *)
Section Rows.
  Context {A T : Type} `{EqDec A} (leA : A -> A -> bool).
  Context (leA_total : forall a b, leA a b = true \/ leA b a = true)
          (leA_trans : forall a b c, leA a b = true -> leA b c = true -> leA a c = true).

  Lemma rows_shown (singletons lexico drop_null : bool) : forall (c : list (list A * list nat)) k0,
    (forall s u, In (s, u) c -> s <> []) ->
    exists ps, StronglySorted lt ps /\ Forall (fun p : nat => k0 <= p) ps
      /\ Forall2 (fun p row => exists k, nth_error c (p - k0) = Some (k, snd row) /\ shows leA lexico k (fst row)) ps
           (map (fun p : list A * list nat => (if lexico then sort leA (fst p) else fst p, snd p))
              (filter (fun p : list A * list nat => ((if drop_null then 1 else 0) <=? length (snd p)) && ((if singletons then 0 else 1) <? length (fst p))) c))
      /\ forall p k u, nth_error c (p - k0) = Some (k, u) -> k0 <= p ->
           (In p ps <-> (drop_null = true -> u <> []) /\ (singletons = false -> 2 <= length k)).
  Proof.
    induction c as [|[s u] c IH]; intros k0 Hne.
    - exists []. split; [constructor|]. split; [constructor|]. split; [constructor|]. intros p k u E. destruct (p - k0); discriminate.
    - destruct (IH (S k0)) as (ps & P1 & P2 & P3 & P4); [intros s' u' Hi; apply (Hne s' u'); right; exact Hi|].
      rewrite Forall_forall in P2.
      assert (forall p, S k0 <= p -> nth_error ((s, u) :: c) (p - k0) = nth_error c (p - S k0)) as Sh
        by (intros p Hp; replace (p - k0) with (S (p - S k0)) by lia; reflexivity).
      assert (Forall2 (fun p row => exists k, nth_error ((s, u) :: c) (p - k0) = Some (k, snd row) /\ shows leA lexico k (fst row)) ps
               (map (fun p : list A * list nat => (if lexico then sort leA (fst p) else fst p, snd p))
                 (filter (fun p : list A * list nat => ((if drop_null then 1 else 0) <=? length (snd p)) && ((if singletons then 0 else 1) <? length (fst p))) c))) as P3'.
      { clear -P2 P3 Sh. induction P3 as [|p row ps rows (k & E & Hs) F IHF]; constructor.
        - exists k. rewrite Sh by (apply P2; left; reflexivity). auto.
        - apply IHF. intros q Hq. apply P2. right. exact Hq. }
      assert (forall p k w, nth_error ((s, u) :: c) (p - k0) = Some (k, w) -> k0 <= p -> p <> k0 ->
        (In p ps <-> (drop_null = true -> w <> []) /\ (singletons = false -> 2 <= length k))) as P4'.
      { intros p k w E Hp Hpk. rewrite Sh in E by lia. apply P4; [exact E | lia]. }
      assert (Keep : ((if drop_null then 1 else 0) <=? length u) && ((if singletons then 0 else 1) <? length s) = true
                <-> (drop_null = true -> u <> []) /\ (singletons = false -> 2 <= length s)).
      { pose proof (Hne s u (or_introl eq_refl)). rewrite andb_true_iff, Nat.leb_le, Nat.ltb_lt.
        destruct drop_null, singletons; destruct u, s; cbn [length]; split; intros [B1 B2]; split; intros;
          try discriminate; try congruence; try lia; try (specialize (B1 eq_refl); congruence); try (specialize (B2 eq_refl); lia). }
      cbn [filter fst snd]. destruct (_ && _) eqn:Ek.
      + exists (k0 :: ps). split; [constructor; [exact P1 | apply Forall_forall; intros p Hp; apply P2, Hp]|].
        split; [constructor; [lia | apply Forall_forall; intros p Hp; specialize (P2 p Hp); lia]|]. split.
        * cbn [map]. constructor; [|exact P3']. exists s. rewrite Nat.sub_diag. split; [reflexivity|].
          unfold shows. cbn [fst]. destruct lexico; [|reflexivity]. split; [apply sort_perm | apply sort_sorted; assumption].
        * intros p k w E Hp. destruct (Nat.eq_dec p k0) as [->|Hpk].
          -- rewrite Nat.sub_diag in E. injection E as <- <-. split; [intros _; apply Keep; reflexivity | left; reflexivity].
          -- rewrite <- (P4' p k w E Hp Hpk). cbn [In]. intuition congruence.
      + exists ps. split; [exact P1|]. split; [apply Forall_forall; intros p Hp; specialize (P2 p Hp); lia|]. split; [exact P3'|].
        intros p k w E Hp. destruct (Nat.eq_dec p k0) as [->|Hpk]; [|exact (P4' p k w E Hp Hpk)].
        rewrite Nat.sub_diag in E. injection E as <- <-. split.
        * intros Hi. specialize (P2 k0 Hi). lia.
        * intros Hk. apply Keep in Hk. congruence.
  Qed.

  Context (total : ktable A (list nat) -> T) (tlt : T -> T -> bool).
  Context (tlt_trans : forall t1 t2 t3, tlt t1 t2 = true -> tlt t2 t3 = true -> tlt t1 t3 = true).
  Context (ord : list A -> list A -> bool).
  Context (iter : list (list A) -> list (list A)) (iter_perm : forall l, Permutation (iter l) l).
  Context {G : Type} (gain : ktable A (list nat) -> list A -> list A -> G)
          (gpos : G -> bool) (gge : G -> G -> bool).
  Context (reorder : ktable A (list nat) -> ktable A (list nat)) (reorder_perm : forall c, Permutation (reorder c) c).

  (* transform shows the entries of the code table that its options ask for *)
  Theorem C96_shown : forall X items st singletons lexico drop_null, well_named X items ->
    reachable total tlt ord iter gain gpos gge reorder X items st ->
    shown leA singletons lexico drop_null (ct st) (slim_transform leA singletons lexico drop_null st).
  Proof.
    intros X items st singletons lexico drop_null Hw R.
    assert (inv st) as [_ Gd] by (refine (proj1 (reachable_inv total tlt _ ord iter _ gain gpos gge reorder _ X items st Hw R)); assumption).
    destruct (rows_shown singletons lexico drop_null (ct st) 0) as (ps & P1 & _ & P3 & P4).
    { intros s u Hi. apply (g_keys _ _ Gd s). exact (in_map fst _ _ Hi). }
    exists ps. split; [exact P1|]. split.
    - clear -P3. unfold slim_transform. induction P3 as [|p row ps rows (k & E & Hs) F IH]; constructor; [|exact IH].
      rewrite Nat.sub_0_r in E. eauto.
    - intros p k u E. apply P4; [rewrite Nat.sub_0_r; exact E | lia].
  Qed.

  Lemma shows_In lexico k s : shows leA lexico k s -> forall x, In x s <-> In x k.
  Proof.
    unfold shows. destruct lexico; [|intros ->; reflexivity]. intros [P _] x.
    split; [apply Permutation_in, P | apply Permutation_in, Permutation_sym, P].
  Qed.
  Lemma forall2_nth {B C} (P : B -> C -> Prop) l l' : Forall2 P l l' -> forall j c, nth_error l' j = Some c ->
    exists b, nth_error l j = Some b /\ P b c.
  Proof.
    induction 1 as [|b c l l' Hbc F IH]; intros [|j] z E; try discriminate.
    - injection E as <-. exists b. auto.
    - apply (IH j z E).
  Qed.
  Lemma sorted_lt_nth l : StronglySorted lt l -> forall i j x, nth_error l i = Some x -> nth_error l j = Some x -> i = j.
  Proof.
    induction 1 as [|a l Hl IH Ha]; intros [|i] [|j] x E E'; try discriminate; try reflexivity.
    - cbn [nth_error] in E, E'. injection E as ->. apply nth_error_In in E'. rewrite Forall_forall in Ha. specialize (Ha x E'). lia.
    - cbn [nth_error] in E, E'. injection E' as ->. apply nth_error_In in E. rewrite Forall_forall in Ha. specialize (Ha x E). lia.
    - f_equal. exact (IH i j x E E').
  Qed.

  (* with the single items, the rows describe the data exactly *)
  Theorem C96_lossless : forall X items st lexico drop_null, well_named X items ->
    reachable total tlt ord iter gain gpos gge reorder X items st ->
    exact_cover (has X) (slim_transform leA true lexico drop_null st)
    /\ (forall i j s u s' u', i <> j -> nth_error (slim_transform leA true lexico drop_null st) i = Some (s, u) ->
          nth_error (slim_transform leA true lexico drop_null st) j = Some (s', u') -> ~ same_items s s').
  Proof.
    intros X items st lexico drop_null Hw R.
    assert (inv st) as [_ Gd] by (refine (proj1 (reachable_inv total tlt _ ord iter _ gain gpos gge reorder _ X items st Hw R)); assumption).
    pose proof (C14_updates_lossless_partial total tlt tlt_trans ord iter iter_perm gain gpos gge reorder reorder_perm X items st Hw R) as [E1 E2].
    destruct (C96_shown X items st true lexico drop_null Hw R) as (ps & P1 & P2 & P3).
    set (rows := slim_transform leA true lexico drop_null st) in *.
    assert (Row : forall j s u, nth_error rows j = Some (s, u) -> exists p k, nth_error ps j = Some p /\ nth_error (ct st) p = Some (k, u) /\ shows leA lexico k s).
    { intros j s u E. destruct (forall2_nth _ _ _ P2 j _ E) as (p & Hp & k & Hk & Hs). eauto. }
    split; [split|].
    - intros t x. rewrite E1. split.
      + intros (s & (u & Hi & Ht) & Hx). apply In_nth_error in Hi as [p Hp].
        assert (In p ps) as Hpi by (apply (P3 p s u Hp); split; [intros _ ->; destruct Ht | discriminate]).
        destruct (In_nth_error _ _ Hpi) as [j Hj].
        assert (exists row, nth_error rows j = Some row) as [[s' u'] Hr].
        { destruct (nth_error rows j) as [row|] eqn:E; [eauto|]. apply nth_error_None in E.
          assert (length ps = length rows) by (clear -P2; induction P2; cbn; congruence).
          assert (j < length ps) by (apply nth_error_Some; congruence). lia. }
        destruct (Row j s' u' Hr) as (p' & k & H1 & H2 & H3). assert (p' = p) by congruence. subst p'.
        rewrite Hp in H2. injection H2 as <- <-. exists s'. split; [exists u; split; [eapply nth_error_In, Hr | exact Ht]|].
        apply (shows_In _ _ _ H3), Hx.
      + intros (s & (u & Hi & Ht) & Hx). apply In_nth_error in Hi as [j Hj]. destruct (Row j s u Hj) as (p & k & _ & H2 & H3).
        exists k. split; [exists u; split; [eapply nth_error_In, H2 | exact Ht]|]. apply (shows_In _ _ _ H3), Hx.
    - intros t i j s u s' u' Hij Hi Hj Hu Hu' x Hx Hx'.
      destruct (Row i s u Hi) as (p & k & A1 & A2 & A3). destruct (Row j s' u' Hj) as (p' & k' & B1 & B2 & B3).
      assert (p <> p') as Hpp by (intros <-; exact (Hij (sorted_lt_nth _ P1 _ _ _ A1 B1))).
      apply (E2 t p p' k u k' u' Hpp A2 B2 Hu Hu' x); [apply (shows_In _ _ _ A3), Hx | apply (shows_In _ _ _ B3), Hx'].
    - intros i j s u s' u' Hij Hi Hj [Hs1 Hs2].
      destruct (Row i s u Hi) as (p & k & A1 & A2 & A3). destruct (Row j s' u' Hj) as (p' & k' & B1 & B2 & B3).
      assert (p <> p') as Hpp by (intros <-; exact (Hij (sorted_lt_nth _ P1 _ _ _ A1 B1))).
      assert (seteq k k' = true) as Hk.
      { apply seteq_spec. split; intros x Hx.
        - apply (shows_In _ _ _ B3), Hs1, (shows_In _ _ _ A3), Hx.
        - apply (shows_In _ _ _ A3), Hs2, (shows_In _ _ _ B3), Hx. }
      pose proof (g_distinct _ _ Gd) as Hd.
      assert (M1 : nth_error (map fst (ct st)) p = Some k) by (rewrite nth_error_map, A2; reflexivity).
      assert (M2 : nth_error (map fst (ct st)) p' = Some k') by (rewrite nth_error_map, B2; reflexivity).
      assert (forall l a b x y, distinct l -> a < b -> nth_error l a = Some x -> nth_error l b = Some y -> seteq x y = true -> False) as Dn.
      { clear. intros l. induction l as [|z l IH]; intros a b x y Hd Hab Ha Hb E; [destruct a; discriminate|].
        apply distinct_cons in Hd as [Hk Hd]. destruct b as [|b]; [lia|]. destruct a as [|a].
        - injection Ha as ->. cbn in Hb. rewrite kmem_false in Hk. rewrite (Hk y (nth_error_In _ _ Hb)) in E. discriminate.
        - apply (IH a b x y Hd); [lia | exact Ha | exact Hb | exact E]. }
      destruct (Nat.lt_gt_cases p p') as [Hc _]. destruct (Hc Hpp) as [Hlt|Hlt].
      + exact (Dn _ _ _ _ _ Hd Hlt M1 M2 Hk).
      + rewrite seteq_sym in Hk. exact (Dn _ _ _ _ _ Hd Hlt M2 M1 Hk).
  Qed.
End Rows.
Print Assumptions C96_shown.
Print Assumptions C96_lossless.

(* ------------------------------------------------------------- the file *)
Section File.
  Context {A : Type} (as_str : A -> option text).
  (* a word: what " ".join keeps apart *)
  Definition word (w : text) : Prop := ~ In sp w /\ no_newline w.
  Definition all_words (rows : list (list A * list nat)) : Prop :=
    forall s u x, In (s, u) rows -> In x s -> exists w, as_str x = Some w /\ word w.

  Lemma strs_ok l : (forall x, In x l -> exists w, as_str x = Some w /\ word w) ->
    exists ws, strs as_str l = Some ws /\ Forall word ws /\ Forall2 (fun x w => as_str x = Some w) l ws.
  Proof.
    induction l as [|x l IH]; intros Hl; [exists []; repeat split; constructor|].
    destruct (Hl x (or_introl eq_refl)) as (w & Ew & Hw). destruct IH as (ws & E & F & F2); [intros y Hy; apply Hl; right; exact Hy|].
    exists (w :: ws). split; [cbn [strs]; rewrite Ew, E; reflexivity|]. split; constructor; assumption.
  Qed.
  Definition row_text (rt : bool) (row : list A * list nat) (ls : list text) : Prop := out_lines as_str rt row = Some ls.
  Lemma write_all rt : forall rows written, all_words rows ->
    exists lss, Forall2 (row_text rt) rows lss /\ slim_write as_str rt written rows = (written ++ concat (map (fun l => l ++ [nl]) (concat lss)), Ret tt).
  Proof.
    induction rows as [|[s u] rows IH]; intros written Hw.
    - exists []. split; [constructor|]. cbn. rewrite app_nil_r. reflexivity.
    - destruct (strs_ok s) as (ws & E & F & F2); [intros x Hx; apply (Hw s u x); [left; reflexivity | exact Hx]|].
      assert (exists ls, out_lines as_str rt (s, u) = Some ls) as [ls El] by (unfold out_lines; cbn [fst snd]; rewrite E; eauto).
      cbn [slim_write]. rewrite El.
      destruct (IH (written ++ concat (map (fun l => l ++ [nl]) ls))) as (lss & F' & E'); [intros s' u' x Hi; apply (Hw s' u' x); right; exact Hi|].
      exists (ls :: lss). split; [constructor; assumption|]. rewrite E'. cbn [concat]. rewrite map_app, concat_app, app_assoc. reflexivity.
  Qed.
  Lemma row_no_newline rt s u ls : (forall x, In x s -> exists w, as_str x = Some w /\ word w) ->
    out_lines as_str rt (s, u) = Some ls -> Forall no_newline ls.
  Proof.
    intros Hs E. destruct (strs_ok s Hs) as (ws & Es & F & _). unfold out_lines in E. cbn [fst snd] in E. rewrite Es in E. injection E as <-.
    assert (no_newline [sp]) as Hsp by (split; intros [Hc|[]]; discriminate).
    constructor.
    - change (no_newline ([lpar] ++ dec (length u) ++ [rpar; sp] ++ join [sp] ws)). apply no_newline_app. split; [split; intros [Hc|[]]; discriminate|].
      apply no_newline_app. split; [apply digits_no_newline, dec_digits|].
      apply no_newline_app. split; [split; intros [Hc|[Hc|[]]]; discriminate|].
      apply join_no_newline; [exact Hsp|]. eapply Forall_impl; [|exact F]. intros w Hw. apply Hw.
    - destruct rt; constructor; [|constructor]. apply join_no_newline; [exact Hsp|].
      apply Forall_forall. intros w Hw. apply in_map_iff in Hw as (n & <- & _). apply digits_no_newline, dec_digits.
  Qed.
  Lemma join_words ws ws' : Forall (fun w => ~ In sp w) ws -> Forall (fun w => ~ In sp w) ws' -> ws <> [] -> ws' <> [] ->
    join [sp] ws = join [sp] ws' -> ws = ws'.
  Proof.
    intros F F' N N' E.
    assert (split_str [sp] (join [sp] ws) = Ret ws) as E1 by (apply split_join; [exists sp, []; auto | exact N]).
    assert (split_str [sp] (join [sp] ws') = Ret ws') as E2 by (apply split_join; [exists sp, []; auto | exact N']).
    rewrite E in E1. congruence.
  Qed.
  Lemma dec_no_space n : ~ In sp (dec n).
  Proof. intros Hi. pose proof (dec_digits n) as D. rewrite Forall_forall in D. specialize (D sp Hi). unfold is_digit, sp in D. lia. Qed.
  Lemma join_decs : forall us us', join [sp] (map dec us) = join [sp] (map dec us') -> us = us'.
  Proof.
    assert (forall us, us <> [] -> join [sp] (map dec us) <> []) as Ne.
    { intros [|u us] Hn; [congruence|]. cbn [map join]. destruct (map dec us) as [|d l].
      - apply dec_nonempty.
      - intros E. apply app_eq_nil in E as [E _]. exact (dec_nonempty u E). }
    intros us us' E. destruct us as [|u us], us' as [|u' us'].
    - reflexivity.
    - exfalso. apply (Ne (u' :: us')); [discriminate|]. rewrite <- E. reflexivity.
    - exfalso. apply (Ne (u :: us)); [discriminate|]. rewrite E. reflexivity.
    - assert (forall l, Forall (fun w => ~ In sp w) (map dec l)) as Fl
        by (intros l; apply Forall_forall; intros w Hw; apply in_map_iff in Hw as (n & <- & _); apply dec_no_space).
      apply join_words in E; [|apply Fl | apply Fl | discriminate | discriminate].
      revert E. generalize (u :: us), (u' :: us'). clear. induction l as [|a l IH]; intros [|b l'] E; try discriminate; [reflexivity|].
      cbn [map] in E. injection E as E1 E2. rewrite (dec_end _ _ E1), (IH _ E2). reflexivity.
  Qed.

  Context (as_str_inj : forall x y w, as_str x = Some w -> as_str y = Some w -> x = y).
  Lemma row_read rt s u s' u' ls : (forall x, In x s -> exists w, as_str x = Some w /\ word w) -> (forall x, In x s' -> exists w, as_str x = Some w /\ word w) ->
    s <> [] -> s' <> [] -> out_lines as_str rt (s, u) = Some ls -> out_lines as_str rt (s', u') = Some ls ->
    s = s' /\ length u = length u' /\ (rt = true -> u = u').
  Proof.
    intros Hs Hs' N N' E E'. destruct (strs_ok s Hs) as (ws & Es & F & F2). destruct (strs_ok s' Hs') as (ws' & Es' & F' & F2').
    unfold out_lines in E, E'. cbn [fst snd] in E, E'. rewrite Es in E. rewrite Es' in E'. rewrite <- E' in E. clear E'.
    assert ([lpar] ++ dec (length u) ++ [rpar; sp] ++ join [sp] ws = [lpar] ++ dec (length u') ++ [rpar; sp] ++ join [sp] ws') as E1 by congruence.
    assert (rt = true -> join [sp] (map dec u) = join [sp] (map dec u')) as E2 by (intros ->; congruence).
    cbn [app] in E1. injection E1 as E1. apply dec_cut in E1 as (E1 & _ & E3); [|unfold nondigit, is_digit, rpar; lia..].
    injection E3 as E3. split; [|split; [exact E1 | intros Hrt; apply join_decs, E2, Hrt]].
    apply join_words in E3.
    - subst ws'. clear -F2 F2' as_str_inj. revert s' F2'. induction F2 as [|x w s ws Hx F IH]; intros s' F2'; inversion F2' as [|y w' s'' ws' Hy F']; subst; [reflexivity|].
      rewrite (as_str_inj x y w Hx Hy), (IH _ F'). reflexivity.
    - eapply Forall_impl; [|exact F]. intros w Hw. apply Hw.
    - eapply Forall_impl; [|exact F']. intros w Hw. apply Hw.
    - intros ->. inversion F2; subst; congruence.
    - intros ->. inversion F2'; subst; congruence.
  Qed.

  (* The file of a table whose items are words determines the rows: the
     itemsets, how often each is used, and with return_tids where. *)
  Theorem C96_file_partial : forall rt rows rows', all_words rows -> all_words rows' ->
    (forall s u, In (s, u) rows -> s <> []) -> (forall s u, In (s, u) rows' -> s <> []) ->
    snd (slim_write as_str rt [] rows) = Ret tt
    /\ (slim_write as_str rt [] rows = slim_write as_str rt [] rows' ->
        map (fun r => (fst r, length (snd r))) rows = map (fun r => (fst r, length (snd r))) rows'
        /\ (rt = true -> rows = rows')).
  Proof.
    intros rt rows rows' W W' N N'. destruct (write_all rt rows [] W) as (lss & F & E). destruct (write_all rt rows' [] W') as (lss' & F' & E').
    split; [rewrite E; reflexivity|]. rewrite E, E'. cbn [app]. intros Eq.
    assert (concat (map (fun l => l ++ [nl]) (concat lss)) = concat (map (fun l => l ++ [nl]) (concat lss'))) as Eq' by congruence. clear Eq.
    assert (forall rows lss, all_words rows -> Forall2 (row_text rt) rows lss -> Forall no_newline (concat lss)) as Nn.
    { clear. intros rows lss W F. induction F as [|[s u] ls rows lss Hr F IH]; cbn [concat]; [constructor|].
      apply Forall_app. split; [apply (row_no_newline rt s u ls); [intros x Hx; apply (W s u x); [left; reflexivity | exact Hx] | exact Hr]|].
      apply IH. intros s' u' x Hi. apply (W s' u' x). right. exact Hi. }
    assert (concat lss = concat lss') as Ec.
    { pose proof (read_lines_concat _ (Nn _ _ W F)) as R1. pose proof (read_lines_concat _ (Nn _ _ W' F')) as R2.
      rewrite Eq', R2 in R1. clear -R1. revert R1. generalize (concat lss), (concat lss').
      induction l as [|a l IH]; intros [|b l'] E; try discriminate; [reflexivity|]. cbn [map] in E. injection E as E1 E2.
      apply app_inj_tail in E1 as [-> _]. rewrite (IH l'); [reflexivity | congruence]. }
    clear E E' Eq' Nn. revert rows' lss' W' N' F' Ec. induction F as [|[s u] ls rows lss Hr F IH]; intros rows' lss' W' N' F' Ec.
    - destruct F' as [|[s u] ls rows' lss' Hr F']; [auto|]. unfold row_text, out_lines in Hr. destruct (strs as_str (fst (s, u))); [|discriminate].
      injection Hr as <-. discriminate.
    - destruct F' as [|[s' u'] ls' rows' lss' Hr' F'].
      { unfold row_text, out_lines in Hr. destruct (strs as_str (fst (s, u))); [|discriminate]. injection Hr as <-. discriminate. }
      assert (ls = ls' /\ concat lss = concat lss') as [Els Ec'].
      { assert (length ls = length ls') as El.
        { unfold row_text, out_lines in Hr, Hr'. destruct (strs as_str (fst (s, u))); [|discriminate]. destruct (strs as_str (fst (s', u'))); [|discriminate].
          injection Hr as <-. injection Hr' as <-. destruct rt; reflexivity. }
        cbn [concat] in Ec. clear -El Ec. revert ls' El Ec. induction ls as [|a ls IH]; intros [|b ls'] El Ec; try discriminate; [auto|].
        injection Ec as -> Ec. destruct (IH ls') as [-> ->]; [cbn in El; lia | exact Ec | auto]. }
      subst ls'.
      destruct (row_read rt s u s' u' ls) as (-> & Eu & Et); [| | | |exact Hr | exact Hr'|].
      + intros x Hx. apply (W s u x); [left; reflexivity | exact Hx].
      + intros x Hx. apply (W' s' u' x); [left; reflexivity | exact Hx].
      + apply (N s u). left. reflexivity.
      + apply (N' s' u'). left. reflexivity.
      + destruct (IH) with (rows' := rows') (lss' := lss') as [I1 I2].
        * intros s0 u0 x Hi. apply (W s0 u0 x). right. exact Hi.
        * intros s0 u0 Hi. apply (N s0 u0). right. exact Hi.
        * intros s0 u0 x Hi. apply (W' s0 u0 x). right. exact Hi.
        * intros s0 u0 Hi. apply (N' s0 u0). right. exact Hi.
        * exact F'.
        * exact Ec'.
        * split; [cbn [map fst snd]; rewrite I1, Eu; reflexivity | intros Hrt; rewrite (I2 Hrt), (Et Hrt); reflexivity].
  Qed.

  (* A row with an item that is not a text stops the call: the file is left
     with the rows before it, written as if they were all. *)
  Theorem C96_stopped : forall rt before s u after x, all_words before -> In x s -> as_str x = None ->
    slim_write as_str rt [] (before ++ (s, u) :: after) = (fst (slim_write as_str rt [] before), Exn TypeError).
  Proof.
    intros rt before s u after x W Hx Ex.
    assert (strs as_str s = None) as Es.
    { clear -Hx Ex. induction s as [|y s IH]; [destruct Hx|]. destruct Hx as [->|Hx]; cbn [strs]; [rewrite Ex; reflexivity|].
      rewrite (IH Hx). destruct (as_str y); reflexivity. }
    enough (forall written, slim_write as_str rt written (before ++ (s, u) :: after) = (fst (slim_write as_str rt written before), Exn TypeError))
      as Hall by apply Hall.
    induction before as [|[s' u'] before IH]; intros written.
    - cbn [app slim_write]. unfold out_lines. cbn [fst snd]. rewrite Es. reflexivity.
    - destruct (strs_ok s') as (ws & E & _); [intros z Hz; apply (W s' u' z); [left; reflexivity | exact Hz]|].
      cbn [app slim_write]. unfold out_lines. cbn [fst snd]. rewrite E. apply IH.
      intros s0 u0 z Hi. apply (W s0 u0 z). right. exact Hi.
  Qed.
End File.
Print Assumptions C96_file_partial.
Print Assumptions C96_stopped.

(* four entries of the table of C13_case are used; one of them has two items *)
Example C96_case : exists st, toy_fit 20 true [9] toy_db = Ret st
  /\ slim_transform Nat.leb true true true st = [([1; 2], [0; 1; 2; 5]); ([3], [0; 3; 5]); ([4], [2; 3; 5])]
  /\ slim_transform Nat.leb false true false st = [([1; 2], [0; 1; 2; 5])]
  /\ length (slim_transform Nat.leb true false false st) = 6.
Proof. eexists. split; [vm_compute; reflexivity|]. repeat split. Qed.
(* "(2) a b" and "0 7", where a and b are the texts of the items 97 and 98 *)
Example C96_file_case :
  let as_str := fun n : nat => Some [N.of_nat n] in
  let rows := [([97; 98], [0; 7]); ([99], [])] in
  (forall x y w, as_str x = Some w -> as_str y = Some w -> x = y) /\ all_words as_str rows
  /\ slim_write as_str true [] rows = ([40; 50; 41; 32; 97; 32; 98; 10; 48; 32; 55; 10; 40; 48; 41; 32; 99; 10; 10]%N, Ret tt).
Proof.
  cbv zeta. split; [|split; [|vm_compute; reflexivity]].
  - intros x y w E E'. assert (N.of_nat x = N.of_nat y) by congruence. lia.
  - intros s u x [E|[E|[]]] Hx; injection E as <- <-; cbn in Hx; destruct Hx as [<-|Hx]; try destruct Hx as [<-|[]]; try destruct Hx;
      (eexists; split; [reflexivity|]; split; [|split]; intros [Hc|[]]; discriminate).
Qed.

(* Items that are not texts cannot be written: the call raises and leaves an
   empty file. *)
Theorem C96_not_text_refuted : exists st, toy_fit 20 true [] toy_db = Ret st
  /\ slim_write (fun _ : nat => None) false [] (slim_transform Nat.leb true true true st) = ([], Exn TypeError).
Proof. eexists. split; vm_compute; reflexivity. Qed.
Print Assumptions C96_not_text_refuted.
