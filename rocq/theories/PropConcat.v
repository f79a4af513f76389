(* Concatenating candidates (prepare_candidate_concats) and nesting them (prepare_candidate_nested): the
   events of the result, whatever the corrections of the parts and however many children they have. *)
From Verif Require Import Prelude CheckModel LCMModel TextModel SplitModel ArrayModel PropArray PeriodModel TreeModel TreeProofs PropTree TreeBlock NestModel NestProofs PropNest.
Local Open Scope Z_scope.

Section ConcatEvents.
  Context {A : Type}.
  (* a candidate as the pool holds it: its pattern can be expanded and has as many leaves as there
     are occurrences.  Whether the corrections lead to the occurrences is not asked *)
  Record shaped (c : ccand A) : Prop := {
    sh_wf : wf (tree_of c);
    sh_node : exists n r p ch, tree_of c = Node n r p ch;
    sh_nb : length (cc_O c) = nb_occs (tree_of c) }.
  Lemma sound_shaped c : sound c -> shaped c.
  Proof. intros [H1 H2 H3 _ _]. split; assumption. Qed.

  (* one correction for every occurrence but the first *)
  Definition full (c : ccand A) : Prop := length (cc_E c) = (length (cc_O c) - 1)%nat.
  Lemma sound_full c : sound c -> full c.
  Proof. intros [_ _ H3 H4 _]. unfold full. congruence. Qed.

  (* the ids of the nodes below the root *)
  Definition kid_ids (c : ccand A) : list nat := match cc_P c with Simple _ _ => [1%nat] | Patt t => tl (node_ids t) end.

  Lemma renum_ids nm (t : tree A) : node_ids (renum nm t) = map nm (node_ids t).
  Proof.
    induction t as [n e|n r p ch IH] using tree_ind'; [reflexivity|]. cbn [renum node_ids map]. f_equal. rewrite map_map, concat_map, map_map. f_equal.
    apply map_ext_in. intros cd I. cbn [fst]. rewrite Forall_forall in IH. apply IH, I.
  Qed.
  Lemma shaped_nonempty (c : ccand A) : shaped c -> cc_O c <> [].
  Proof. intros H E. pose proof (nb_pos _ (sh_wf c H)). pose proof (sh_nb c H) as H1. rewrite E in H1. simpl in H1. lia. Qed.

  Lemma concat_sound_events : forall nms (l : list (ccand A * nat)) p0 r0, l <> [] -> (1 <= r0)%nat ->
    (forall cf, In cf l -> sound (fst cf) /\ (snd cf + r0 <= reps_of (fst cf))%nat) ->
    exists c ch, prepare_concats nms (map fst l) p0 r0 (map snd l) = Ret c /\ cc_P c = Patt (Node 0 r0 p0 ch) /\ concat_kids nms 0 None l = Ret ch /\ shaped c /\
      dated c = concat (map (fun ri => concat (map (fun cf => repetition (fst cf) (snd cf + ri)) l)) (List.seq 0 r0)).
  Proof.
    intros nms l p0 r0 Hne Hr0 Hl.
    assert (Hl' : forall cf, In cf l -> sound (fst cf) /\ (snd cf < reps_of (fst cf))%nat) by (intros cf H; destruct (Hl cf H); split; [assumption | lia]).
    destruct (concat_kids_ok nms l Hl' 0 None (or_introl eq_refl)) as (P & F & Ek & Hfst).
    destruct (Hfst eq_refl Hne) as (c0 & k0 & Ech). clear Hfst. set (ch := concat (map fst P)) in *.
    assert (Ecomb : combine (map fst l) (map snd l) = l). { clear. induction l as [|[x y] l IH]; [reflexivity|]. cbn [map fst snd combine]. rewrite IH. reflexivity. }
    assert (HP : forall j cf, nth_error l j = Some cf -> exists cr, nth_error P j = Some cr /\ part_ok cf cr) by (intros j cf E; apply (Forall2_nth _ _ _ F j cf E)).
    assert (Hrow : forall cf cr ri, In cf l -> part_ok cf cr -> (ri < r0)%nat -> nth_error (snd cr) ri = Some (nth ri (snd cr) [])).
    { intros cf cr ri Hin Hp Hri. apply nth_error_nth'. rewrite (pa_rows _ _ Hp). pose proof (proj2 (Hl cf Hin)). lia. }
    set (row := fun ri => concat (map (fun cr => nth ri (snd cr) []) P)). 
    assert (Hfitr : forall ri, (ri < r0)%nat -> Forall2 (fun cd k => fitk (fst cd) k) ch (row ri)).
    { intros ri Hri. unfold ch, row. apply Forall2_concat. clear -F Hri Hrow. assert (Hrow' : forall cf cr, In cf l -> part_ok cf cr -> nth_error (snd cr) ri = Some (nth ri (snd cr) [])) by (intros; eapply Hrow; eauto).
      clear Hrow. induction F as [|cf cr l P Hp F IH]; [constructor|]. cbn [map]. constructor; [|apply IH; intros; eapply Hrow'; eauto; right; assumption].
      pose proof (pa_fit _ _ Hp) as Hf. rewrite Forall_forall in Hf. apply Hf, (nth_error_In _ ri). eapply Hrow'; [left; reflexivity | exact Hp]. }
    set (T := Node 0 r0 p0 ch). 
    assert (HwT : wf T).
    { constructor; [exact Hr0 | rewrite Ech; eauto|]. unfold ch. clear -F. induction F as [|cf cr l P Hp F IH]; [constructor|]. cbn [map concat]. apply Forall_app. split; [apply (pa_wf _ _ Hp) | exact IH]. }
    set (rows := map row (List.seq 0 r0)).
    assert (Hfit : fits T (rowsO rows) (tl (rowsE p0 None (map snd ch) rows))).
    { apply fits_rows; [exact HwT | unfold rows; rewrite map_length, seq_length; reflexivity|]. apply Forall_forall. intros x Hx. apply in_map_iff in Hx.
      destruct Hx as (ri & <- & Hri). apply in_seq in Hri. apply Hfitr. lia. }
    assert (Hstart : forall ri cf0 cr0, (ri < r0)%nat -> nth_error l 0 = Some cf0 -> nth_error P 0 = Some cr0 -> start (row ri) = start (nth ri (snd cr0) [])).
    { intros ri cf0 cr0 Hri E1 E2. unfold row. destruct P as [|cr P]; [discriminate|]. injection E2 as ->. cbn [map concat].
      destruct (HP 0%nat cf0 E1) as (cr' & E3 & Hp). injection E3 as <-. pose proof (pa_fit _ _ Hp) as Hf. rewrite Forall_forall in Hf.
      specialize (Hf _ (nth_error_In _ ri (Hrow cf0 cr0 ri (nth_error_In _ _ E1) Hp Hri))). pose proof (pa_ne _ _ Hp). inversion Hf; subst; [congruence | reflexivity]. }
    set (Pos := map (fun cf => blocks_O (fst cf) (snd cf)) l). set (Pes := map (fun cf => blocks_E (fst cf) (snd cf)) l).
    assert (LP : length Pos = length P) by (unfold Pos; rewrite map_length; apply (Forall2_len _ _ _ F)).
    (* the occurrences *)
    assert (HOs : map_out (fun ri => map_out (fun ei => bind (nth_out Pos ei) (fun po => nth_out po ri)) (List.seq 0 (length Pos))) (List.seq 0 r0) =
                  Ret (map (fun ri => map (fun cr => rowO (nth ri (snd cr) [])) P) (List.seq 0 r0))).
    { apply map_out_ret. intros ri Hri. apply in_seq in Hri. rewrite LP.
      rewrite (map_out_seq _ (fun _ cr => rowO (nth ri (snd cr) [])) P 0); [rewrite mapi_const; reflexivity|]. intros k cr Ecr. simpl (0 + k)%nat.
      destruct (Forall2_nth_r _ _ _ F k cr Ecr) as (cf & Ecf & Hp). unfold Pos, nth_out at 1. rewrite nth_error_map, Ecf. cbn [option_map bind].
      rewrite (pa_O _ _ Hp). unfold nth_out. rewrite nth_error_map, (Hrow cf cr ri (nth_error_In _ _ Ecf) Hp) by lia. reflexivity. }
    (* the corrections *)
    set (turn := fun ri (e : nat) (cr : list (tree A * Z) * list (list blk)) =>
      match e with
      | O => match ri with O => [] | S ri' => [(start (nth ri (snd cr) []) - start (nth ri' (snd cr) [])) - p0] end
      | S e' => [start (nth ri (snd cr) []) - start (nth e' (map (fun cr => nth ri (snd cr) []) P) []) - nth e (map snd ch) 0]
      end ++ tl (rowE 0 (map snd (fst cr)) (nth ri (snd cr) []))).
    assert (Hds : forall e, (e < length P)%nat -> nth_error (map snd ch) e = Some (nth e (map snd ch) 0)).
    { intros e He. apply nth_error_nth'. rewrite map_length. unfold ch. apply (Nat.lt_le_trans _ _ _ He). clear -F. induction F as [|cf cr l P Hp F IH]; [simpl; lia|].
      cbn [map concat length]. rewrite app_length. pose proof (pa_ne _ _ Hp). destruct (fst cr); [contradiction | simpl; lia]. }
    assert (HEs : map_out (fun ri => map_out (concat_turn Pos Pes p0 (map snd ch) ri) (List.seq 0 (length Pos))) (List.seq 0 r0) =
                  Ret (map (fun ri => mapi (turn ri) 0 P) (List.seq 0 r0))).
    { apply map_out_ret. intros ri Hri. apply in_seq in Hri. rewrite LP. apply map_out_seq. intros e cr Ecr. simpl (0 + e)%nat.
      destruct (Forall2_nth_r _ _ _ F e cr Ecr) as (cf & Ecf & Hp). unfold concat_turn.
      unfold Pos at 1, Pes, nth_out at 1 2. rewrite !nth_error_map, Ecf. cbn [option_map bind].
      pose proof (Hrow cf cr ri (nth_error_In _ _ Ecf) Hp ltac:(lia)) as Er.
      rewrite (pa_E _ _ Hp). unfold nth_out at 1. rewrite nth_error_map, Er. cbn [option_map bind].
      destruct e as [|e].
      - destruct ri as [|ri]; [reflexivity|]. rewrite (part_head _ _ _ _ Hp Er). cbn [bind].
        rewrite (part_head _ _ _ _ Hp (Hrow cf cr ri (nth_error_In _ _ Ecf) Hp ltac:(lia))). reflexivity.
      - unfold nth_out at 1. unfold Pos. rewrite nth_error_map.
        destruct (nth_error l e) as [cf'|] eqn:Ecf'; [|apply nth_error_None in Ecf'; assert (S e < length l)%nat by (apply nth_error_Some; congruence); lia].
        cbn [option_map bind]. destruct (HP e cf' Ecf') as (cr' & Ecr' & Hp').
        rewrite (part_head _ _ _ _ Hp Er). cbn [bind]. rewrite (part_head _ _ _ _ Hp' (Hrow cf' cr' ri (nth_error_In _ _ Ecf') Hp' ltac:(lia))). cbn [bind].
        assert (He : (S e < length P)%nat) by (apply nth_error_Some; congruence).
        unfold nth_out. rewrite (Hds (S e) He). cbn [bind turn app]. do 3 f_equal. f_equal. f_equal.
        symmetry. apply nth_error_nth. rewrite nth_error_map, Ecr'. reflexivity. }
    set (c := {| cc_P := Patt T; cc_O := rowsO rows; cc_E := concat (map (@concat Z) (map (fun ri => mapi (turn ri) 0 P) (List.seq 0 r0))) |}).
    exists c, ch. split; [|split; [reflexivity|split; [exact Ek|split]]].
    - unfold prepare_concats. rewrite Ecomb, Ek. cbn [bind]. fold Pos Pes. rewrite HOs. cbn [bind]. rewrite HEs. cbn [bind]. unfold c, T. do 2 f_equal.
      unfold rowsO, rows. rewrite !map_map. f_equal. apply map_ext. intros ri. unfold row. rewrite concat_map, concat_concat'. rewrite !map_map. reflexivity.
    - split; cbn [tree_of cc_P cc_O cc_E c]; [exact HwT | unfold T; eauto | apply Hfit].
    - unfold dated. cbn [tree_of cc_P cc_O c]. unfold T. cbn [events_minor]. fold (evs ch). unfold rowsO, rows. rewrite map_map.
      assert (Hrep : forall ri, (ri < r0)%nat -> length (rowO (row ri)) = length (evs ch) /\
                combine (rowO (row ri)) (evs ch) = concat (map (fun cf => repetition (fst cf) (snd cf + ri)) l)).
      { intros ri Hri. split; [rewrite evs_length; apply (cov_row ch (row ri) (Hfitr ri Hri))|]. unfold row, ch.
        assert (Hrow' : forall cf cr, In cf l -> part_ok cf cr -> nth_error (snd cr) ri = Some (nth ri (snd cr) [])) by (intros; eapply Hrow; eauto).
        clear -F Hrow'. induction F as [|cf cr l P Hp F IH]; [reflexivity|]. cbn [map concat]. unfold rowO, evs. rewrite !map_app, !concat_app.
        pose proof (Hrow' cf cr (or_introl eq_refl) Hp) as Er. pose proof (pa_fit _ _ Hp) as Hf. rewrite Forall_forall in Hf. specialize (Hf _ (nth_error_In _ _ Er)).
        rewrite combine_app. 2: { fold (evs (fst cr)). rewrite evs_length. apply (cov_row _ _ Hf). }
        f_equal; [symmetry; apply (pa_rep _ _ Hp ri _ Er)|]. apply IH. intros; eapply Hrow'; eauto. right; assumption. }
      assert (G : forall r i0, (i0 + r <= r0)%nat -> combine (concat (map (fun ri => concat (map fst (row ri))) (List.seq i0 r))) (concat (repeat (evs ch) r)) =
        concat (map (fun ri => concat (map (fun cf => repetition (fst cf) (snd cf + ri)) l)) (List.seq i0 r))).
      { induction r as [|r IH]; intros i0 Hi; [reflexivity|]. cbn [List.seq map concat repeat]. destruct (Hrep i0 ltac:(lia)) as [H1 H2].
        rewrite combine_app by exact H1. fold (rowO (row i0)). rewrite H2. f_equal. apply IH. lia. }
      apply (G r0 0%nat). lia.
  Qed.

  (* the corrections of the parts only matter for the corrections of the result *)
  Definition same_events (c c' : ccand A) : Prop := cc_P c = cc_P c' /\ cc_O c = cc_O c'.
  Lemma blocks_O_same c c' f : same_events c c' -> blocks_O c f = blocks_O c' f.
  Proof. intros [H1 H2]. unfold blocks_O, major_r. rewrite H1, H2. reflexivity. Qed.
  Lemma blocks_E_same c c' f : same_events c c' -> length (blocks_E c f) = length (blocks_E c' f).
  Proof. intros [H1 H2]. unfold blocks_E, major_r. rewrite !map_length, !seq_length, H1, H2. reflexivity. Qed.
  Lemma kids_same nms cs cs' fs : Forall2 same_events cs cs' -> forall ci prev, concat_kids nms ci prev (combine cs fs) = concat_kids nms ci prev (combine cs' fs).
  Proof.
    intros F. revert fs. induction F as [|c c' cs cs' H F IH]; intros fs ci prev; [reflexivity|]. destruct fs as [|f fs]; [reflexivity|]. cbn [combine concat_kids].
    rewrite (blocks_O_same c c' f H), IH. unfold top_kids. rewrite (proj1 H). reflexivity.
  Qed.
  Lemma map_out_succ {B C D} (f : B -> outcome C) (g : B -> outcome D) l : (forall x, In x l -> (exists y, f x = Ret y) -> exists y, g x = Ret y) ->
    forall ys, map_out f l = Ret ys -> exists zs, map_out g l = Ret zs.
  Proof.
    induction l as [|x l IH]; intros H ys E; [exists []; reflexivity|]. cbn [map_out] in *. destruct (f x) as [y| |] eqn:Ef; try discriminate. cbn [bind] in E.
    destruct (H x (or_introl eq_refl) ltac:(eauto)) as [z Ez]. destruct (map_out f l) as [ys'| |]; try discriminate.
    destruct (IH (fun x' I => H x' (or_intror I)) ys' eq_refl) as [zs Ezs]. rewrite Ez, Ezs. cbn [bind]. eauto.
  Qed.
  Lemma nth_len {B} (l l' : list B) i : length l = length l' -> (exists y, nth_out l i = Ret y) -> exists y, nth_out l' i = Ret y.
  Proof.
    unfold nth_out. intros H [y E]. destruct (nth_error l i) eqn:En; [|discriminate]. destruct (nth_error l' i) eqn:En'; [eauto|].
    apply nth_error_None in En'. assert (i < length l)%nat by (apply nth_error_Some; congruence). lia.
  Qed.
  Lemma turn_same Pos Pes Pes' p0 ds ri ei : Forall2 (fun a b : list (list Z) => length a = length b) Pes Pes' ->
    (exists y, concat_turn Pos Pes p0 ds ri ei = Ret y) -> exists y, concat_turn Pos Pes' p0 ds ri ei = Ret y.
  Proof.
    intros F [y E]. unfold concat_turn in *. destruct (nth_out Pos ei) as [po| |]; try discriminate. cbn [bind] in *.
    destruct (nth_out Pes ei) as [pe| |] eqn:E1; try discriminate. cbn [bind] in E.
    unfold nth_out in E1. destruct (nth_error Pes ei) as [pe0|] eqn:E2; [|discriminate]. injection E1 as ->.
    destruct (Forall2_nth _ _ _ F ei pe E2) as (pe' & E3 & L). unfold nth_out at 1. rewrite E3. cbn [bind].
    destruct (nth_out pe ri) as [be| |] eqn:E4; try discriminate. cbn [bind] in E.
    destruct (nth_len pe pe' ri L ltac:(eauto)) as [be' E5]. rewrite E5. cbn [bind]. destruct ei as [|ei].
    - destruct ri as [|ri]; [eauto|]. destruct (head_at po (S ri)); try discriminate. cbn [bind] in *. destruct (head_at po ri); try discriminate. cbn [bind]. eauto.
    - destruct (nth_out Pos ei); try discriminate. cbn [bind] in *. destruct (head_at po ri); try discriminate. cbn [bind] in *.
      destruct (head_at _ ri); try discriminate. cbn [bind] in *. destruct (nth_out ds (S ei)); try discriminate. cbn [bind]. eauto.
  Qed.
  Lemma concats_same nms cs cs' p0 r0 fs c' : Forall2 same_events cs cs' -> prepare_concats nms cs' p0 r0 fs = Ret c' ->
    exists c, prepare_concats nms cs p0 r0 fs = Ret c /\ same_events c c'.
  Proof.
    intros F. unfold prepare_concats. rewrite <- (kids_same nms cs cs' fs F 0 None). destruct (concat_kids nms 0 None (combine cs fs)) as [ch| |]; try discriminate. cbn [bind].
    set (Pos := map (fun cf => blocks_O (fst cf) (snd cf)) (combine cs fs)).
    assert (EP : map (fun cf => blocks_O (fst cf) (snd cf)) (combine cs' fs) = Pos).
    { unfold Pos. clear -F. revert fs. induction F as [|c c' cs cs' H F IH]; intros [|f fs]; try reflexivity. cbn [combine map fst snd]. rewrite IH, (blocks_O_same c c' f H). reflexivity. }
    rewrite EP. set (Pes := map (fun cf => blocks_E (fst cf) (snd cf)) (combine cs fs)). set (Pes' := map (fun cf => blocks_E (fst cf) (snd cf)) (combine cs' fs)).
    assert (FP : Forall2 (fun a b : list (list Z) => length a = length b) Pes' Pes).
    { unfold Pes, Pes'. clear -F. revert fs. induction F as [|c c' cs cs' H F IH]; intros [|f fs]; try constructor; cbn [fst snd]; [symmetry; apply blocks_E_same, H | apply IH]. }
    destruct (map_out _ (List.seq 0 r0)) as [Os| |]; try discriminate. cbn [bind].
    destruct (map_out (fun ri => map_out (concat_turn Pos Pes' p0 (map snd ch) ri) _) (List.seq 0 r0)) as [Es| |] eqn:EE; try discriminate. cbn [bind]. intros E. injection E as <-.
    assert (EX : exists Es', map_out (fun ri => map_out (concat_turn Pos Pes p0 (map snd ch) ri) (List.seq 0 (length Pos))) (List.seq 0 r0) = Ret Es').
    { refine (map_out_succ _ _ _ _ _ EE). intros ri _ [ys Ey]. refine (map_out_succ _ _ _ _ _ Ey). intros ei _. apply turn_same, FP. }
    destruct EX as [Es' EE'].
    rewrite EE'. cbn [bind]. eexists. split; [reflexivity|]. split; reflexivity.
  Qed.
  Lemma repairable (c : ccand A) : shaped c -> exists c', same_events c c' /\ sound c'.
  Proof.
    intros [H1 H2 H3]. destruct (C39_times (tree_of c) (cc_O c) H1 H3) as (E & _ & E2 & E3).
    exists {| cc_P := cc_P c; cc_O := cc_O c; cc_E := E |}. split; [split; reflexivity|]. split; cbn [cc_O cc_E]; assumption.
  Qed.
  Lemma same_dated c c' : same_events c c' -> dated c = dated c'.
  Proof. intros [H1 H2]. unfold dated, tree_of. rewrite H1, H2. reflexivity. Qed.
  Lemma same_repetition c c' k : same_events c c' -> repetition c k = repetition c' k.
  Proof. intros H. unfold repetition. rewrite (same_dated c c' H). destruct H as [H1 H2]. unfold reps_of, tree_of. rewrite H1, H2. reflexivity. Qed.
  Lemma same_shaped c c' : same_events c c' -> shaped c' -> shaped c.
  Proof. intros [H1 H2] [A1 A2 A3]. unfold tree_of in *. split; unfold tree_of; rewrite H1, H2; assumption. Qed.
  Lemma shaped_same c c' : same_events c c' -> shaped c -> shaped c'.
  Proof. intros [H1 H2] [A1 A2 A3]. unfold tree_of in *. split; unfold tree_of; rewrite <- H1, <- H2; assumption. Qed.

  (* the number of corrections *)
  Lemma shaped_reps (c : ccand A) : shaped c -> major_r c = reps_of c.
  Proof.
    intros Ss. destruct (repairable c Ss) as (c' & [H1 H2] & Sd). pose proof (major_reps c' Sd) as E. unfold major_r, reps_of, tree_of in *. rewrite H1, H2. exact E.
  Qed.
  Lemma shaped_block (c : ccand A) : shaped c -> exists m, (1 <= m)%nat /\ (1 <= reps_of c)%nat /\ length (cc_O c) = (reps_of c * m)%nat.
  Proof.
    intros [W (n & r & p & ch & Et) Hn]. exists (list_sum (map (fun cd => nb_occs (fst cd)) ch)). rewrite Hn. unfold reps_of. rewrite Et. cbn [nb_occs].
    pose proof (nb_pos _ W) as Hp. rewrite Et in Hp. cbn [nb_occs] in Hp. split; [|split; [|reflexivity]]; [destruct (list_sum _); [rewrite Nat.mul_0_r in Hp; lia | lia] | destruct r; lia].
  Qed.
  Lemma blocks_lengths (c : ccand A) f : shaped c -> full c -> exists m, (1 <= m)%nat /\
    (forall i b, nth_error (blocks_O c f) i = Some b -> length b = m) /\ (forall i b, nth_error (blocks_E c f) i = Some b -> S (length b) = m).
  Proof.
    intros Ss Hf. destruct (shaped_block c Ss) as (m & Hm & Hr & HO). exists m. split; [exact Hm|].
    assert (Em : (length (cc_O c) / reps_of c)%nat = m) by (rewrite HO, Nat.mul_comm; apply Nat.div_mul; lia).
    assert (Hi : forall B (g : nat -> B) i b, nth_error (map g (List.seq f (reps_of c - f))) i = Some b -> (f + i < reps_of c)%nat /\ b = g (f + i)%nat).
    { intros B g i b E. rewrite nth_error_map in E. destruct (nth_error (List.seq f (reps_of c - f)) i) as [k|] eqn:Ek; [|discriminate]. injection E as <-.
      assert (Hlt : (i < length (List.seq f (reps_of c - f)))%nat) by (apply nth_error_Some; congruence). rewrite seq_length in Hlt.
      rewrite (nth_error_nth' _ O) in Ek by (rewrite seq_length; exact Hlt). rewrite seq_nth in Ek by exact Hlt. injection Ek as <-. split; [lia | reflexivity]. }
    unfold blocks_O, blocks_E. rewrite (shaped_reps c Ss), Em. unfold cut. split; intros i b E; apply Hi in E; destruct E as [L ->]; rewrite firstn_length, skipn_length.
    - rewrite HO. nia.
    - unfold full in Hf. cbn [length]. rewrite Hf, HO. nia.
  Qed.
  Lemma map_out_each {B C} (f : B -> outcome C) l ys : map_out f l = Ret ys -> Forall2 (fun x y => f x = Ret y) l ys.
  Proof.
    revert ys. induction l as [|x l IH]; intros ys E; cbn [map_out] in E; [injection E as <-; constructor|]. destruct (f x) as [y| |] eqn:Ef; try discriminate. cbn [bind] in E.
    destruct (map_out f l) as [ys'| |]; try discriminate. cbn [bind] in E. injection E as <-. constructor; [exact Ef | apply IH; reflexivity].
  Qed.
  Lemma concat_lengths {B C D} (R1 : B -> list C -> Prop) (R2 : B -> list D -> Prop) (d : B -> nat) l ys zs : Forall2 R1 l ys -> Forall2 R2 l zs ->
    (forall x y z, In x l -> R1 x y -> R2 x z -> (length z + d x)%nat = length y) -> (length (concat zs) + list_sum (map d l))%nat = length (concat ys).
  Proof.
    intros F1. revert zs. induction F1 as [|x y l ys H1 F1 IH]; intros zs F2 H; inversion F2 as [|? z ? zs' H2 F2']; subst; [reflexivity|].
    cbn [concat map list_sum fold_right]. rewrite !app_length. specialize (IH zs' F2' (fun x' y' z' I => H x' y' z' (or_intror I))). pose proof (H x y z (or_introl eq_refl) H1 H2). unfold list_sum in IH. lia.
  Qed.
  Lemma sum_first n : (1 <= n)%nat -> list_sum (map (fun i => if (i =? 0)%nat then 1%nat else 0%nat) (List.seq 0 n)) = 1%nat.
  Proof.
    intros H. destruct n as [|n]; [lia|]. cbn [List.seq map]. cbn [Nat.eqb list_sum fold_right]. assert (G : forall k, list_sum (map (fun i => if (i =? 0)%nat then 1%nat else 0%nat) (List.seq (S k) n)) = 0%nat).
    { clear. induction n as [|n IH]; intros k; [reflexivity|]. cbn [List.seq map Nat.eqb list_sum fold_right]. apply (IH (S k)). }
    specialize (G 0%nat). unfold list_sum in G. rewrite G. reflexivity.
  Qed.
  Lemma concats_full nms (l : list (ccand A * nat)) p0 r0 c : l <> [] -> (1 <= r0)%nat -> (forall cf, In cf l -> shaped (fst cf) /\ full (fst cf)) ->
    prepare_concats nms (map fst l) p0 r0 (map snd l) = Ret c -> full c.
  Proof.
    intros Hne Hr Hl E. unfold prepare_concats in E.
    assert (Cm : forall m : list (ccand A * nat), combine (map fst m) (map snd m) = m) by (clear; intros m; induction m as [|[x y] m IH]; [reflexivity|]; cbn [map combine fst snd]; rewrite IH; reflexivity).
    rewrite Cm in E. destruct (concat_kids nms 0 None l) as [ch| |]; try discriminate. cbn [bind] in E.
    set (Pos := map (fun cf => blocks_O (fst cf) (snd cf)) l) in *. set (Pes := map (fun cf => blocks_E (fst cf) (snd cf)) l) in *.
    destruct (map_out (fun ri => map_out (fun ei => bind (nth_out Pos ei) (fun po => nth_out po ri)) (List.seq 0 (length Pos))) (List.seq 0 r0)) as [Os| |] eqn:EO; try discriminate. cbn [bind] in E.
    destruct (map_out (fun ri => map_out (concat_turn Pos Pes p0 (map snd ch) ri) (List.seq 0 (length Pos))) (List.seq 0 r0)) as [Es| |] eqn:EE; try discriminate. cbn [bind] in E. injection E as <-.
    unfold full. cbn [cc_E cc_O]. apply map_out_each in EO, EE.
    assert (Hn : (1 <= length Pos)%nat) by (unfold Pos; rewrite map_length; destruct l; [contradiction | cbn; lia]).
    assert (Hm : forall ei po pe, nth_error Pos ei = Some po -> nth_error Pes ei = Some pe -> exists m, (forall i b, nth_error po i = Some b -> length b = m) /\ (forall i b, nth_error pe i = Some b -> S (length b) = m)).
    { intros ei po pe E1 E2. unfold Pos, Pes in E1, E2. rewrite nth_error_map in E1, E2. destruct (nth_error l ei) as [cf|] eqn:Ec; [|discriminate]. injection E1 as <-. injection E2 as <-.
      destruct (Hl cf (nth_error_In _ _ Ec)) as [Ss Hf]. destruct (blocks_lengths (fst cf) (snd cf) Ss Hf) as (m & _ & H1 & H2). exists m. auto. }
    assert (G : (length (concat (map (@concat Z) Es)) + list_sum (map (fun i => if (i =? 0)%nat then 1%nat else 0%nat) (List.seq 0 r0)))%nat = length (concat (map (@concat Z) Os))).
    { apply (concat_lengths (fun ri y => exists rows, map_out (fun ei => bind (nth_out Pos ei) (fun po => nth_out po ri)) (List.seq 0 (length Pos)) = Ret rows /\ y = concat rows)
        (fun ri z => exists rows, map_out (concat_turn Pos Pes p0 (map snd ch) ri) (List.seq 0 (length Pos)) = Ret rows /\ z = concat rows)).
      - clear -EO. induction EO as [|x y q w H F IH]; cbn [map]; constructor; [eauto | exact IH].
      - clear -EE. induction EE as [|x y q w H F IH]; cbn [map]; constructor; [eauto | exact IH].
      - intros ri y z _ (ro & E1 & ->) (re & E2 & ->). apply map_out_each in E1, E2.
        replace (if (ri =? 0)%nat then 1%nat else 0%nat) with (list_sum (map (fun ei => if (ri =? 0)%nat then (if (ei =? 0)%nat then 1%nat else 0%nat) else 0%nat) (List.seq 0 (length Pos)))).
        2: { destruct (ri =? 0)%nat; [apply sum_first, Hn|]. clear. induction (List.seq 0 (length Pos)) as [|x q IH]; [reflexivity | exact IH]. }
        apply (concat_lengths _ _ _ _ _ _ E1 E2). intros ei b e _ B1 B2. unfold nth_out in B1 at 1. destruct (nth_error Pos ei) as [po|] eqn:Epo; [|discriminate]. cbn [bind] in B1.
        unfold nth_out in B1. destruct (nth_error po ri) as [b'|] eqn:Eb; [|discriminate]. injection B1 as ->.
        unfold concat_turn in B2. unfold nth_out at 1 in B2. rewrite Epo in B2. cbn [bind] in B2. unfold nth_out at 1 in B2. destruct (nth_error Pes ei) as [pe|] eqn:Epe; [|discriminate]. cbn [bind] in B2.
        unfold nth_out at 1 in B2. destruct (nth_error pe ri) as [be|] eqn:Ebe; [|discriminate]. cbn [bind] in B2.
        destruct (Hm ei po pe Epo Epe) as (m & M1 & M2). rewrite (M1 ri b Eb). specialize (M2 ri be Ebe).
        destruct ei as [|ei]; cbn [Nat.eqb].
        + destruct ri as [|ri]; cbn [Nat.eqb]; [injection B2 as <-; lia|]. destruct (head_at po (S ri)); try discriminate. cbn [bind] in B2. destruct (head_at po ri); try discriminate. cbn [bind] in B2. injection B2 as <-. cbn [length]. lia.
        + destruct (nth_out Pos ei); try discriminate. cbn [bind] in B2. destruct (head_at po ri); try discriminate. cbn [bind] in B2.
          destruct (head_at _ ri); try discriminate. cbn [bind] in B2. destruct (nth_out (map snd ch) (S ei)); try discriminate. cbn [bind] in B2. injection B2 as <-. cbn [length]. destruct (ri =? 0)%nat; lia. }
    rewrite (sum_first r0 Hr) in G. lia.
  Qed.
  Lemma nested_full nm (cs : list (ccand A)) c0 prds lens c : hd_error cs = Some c0 -> (forall c, In c cs -> shaped c /\ full c) ->
    length cs = length (reps (firstn (length lens - depth c0) lens)) -> prepare_nested nm cs prds lens = Ret c -> full c.
  Proof.
    intros H0 Hcs Hlen E. unfold prepare_nested in E. destruct cs as [|x cs]; [discriminate|]. cbn in H0. injection H0 as ->. unfold nth_out at 1 in E. cbn [nth_error bind] in E.
    set (cl := c0 :: cs) in *. set (lr := reps (firstn (length lens - depth c0) lens)) in *.
    destruct (map_out _ _) as [Es| |] eqn:EE; try discriminate. cbn [bind] in E. destruct (nested_tree nm c0 prds lens); try discriminate. cbn [bind] in E. injection E as <-. unfold full. cbn [cc_E cc_O].
    apply map_out_each in EE.
    assert (G : forall n (ls : list (list nat)) (ps : list (ccand A)) Es, (forall k, nth_error cl (n + k) = nth_error ps k) -> length ls = length ps -> (forall c, In c ps -> shaped c /\ full c) ->
      Forall2 (fun x y => nest_turn cl prds lr (fst x) (snd x) = Ret y) (combine (List.seq n (length ls)) ls) Es ->
      (length (concat Es) + (if (n =? 0)%nat then match ls with [] => 0%nat | _ => 1%nat end else 0%nat))%nat = length (concat (map cc_O ps))).
    { clear. intros n ls. revert n. induction ls as [|pp ls IH]; intros n ps Es Hn Hl Hc F; (destruct ps as [|p ps]; [|try discriminate]); try discriminate.
      - inversion F; subst. destruct (n =? 0)%nat; reflexivity.
      - cbn [length List.seq combine] in F. inversion F as [|? y ? ys Hy F']; subst. cbn [fst snd] in Hy. cbn [map concat]. rewrite !app_length.
        specialize (IH (S n) ps ys). rewrite <- IH; [|intros k; specialize (Hn (S k)); rewrite <- Nat.add_succ_comm in Hn; exact Hn | cbn in Hl; lia | intros c I; apply Hc; right; exact I | exact F'].
        destruct (Hc p (or_introl eq_refl)) as [Ss Hf]. pose proof (shaped_nonempty p Ss) as Hne.
        unfold nest_turn in Hy. unfold nth_out at 1 in Hy. specialize (Hn 0%nat). rewrite Nat.add_0_r in Hn. cbn [nth_error] in Hn. rewrite Hn in Hy. cbn [bind] in Hy. destruct (get_t0 p); try discriminate. cbn [bind] in Hy.
        unfold full in Hf. assert (1 <= length (cc_O p))%nat by (destruct (cc_O p); [contradiction | cbn; lia]). cbn [Nat.eqb].
        destruct n as [|n]; [injection Hy as <-; cbn [Nat.eqb]; lia|]. cbn [Nat.eqb]. destruct (last_nz pp); try discriminate. destruct (nth_out cl _); try discriminate. cbn [bind] in Hy.
        destruct (get_t0 _); try discriminate. cbn [bind] in Hy. destruct (nth_out prds _); try discriminate. cbn [bind] in Hy. injection Hy as <-. cbn [length]. lia. }
    specialize (G 0%nat lr cl Es (fun k => eq_refl) (eq_sym Hlen) Hcs EE). cbn [Nat.eqb] in G. destruct lr as [|pp lr]; [discriminate|]. unfold cl in G. cbn [map concat] in G. lia.
  Qed.

  (* Concatenating candidates never fails, even if the corrections of the parts are wrong and
     whatever the number of their top-level children, and the result claims the events of the
     parts: repetition after repetition, from the one each part is to start at. *)
  Theorem C44_concat_events : forall nms (l : list (ccand A * nat)) p0 r0, l <> [] -> (1 <= r0)%nat ->
    (forall cf, In cf l -> shaped (fst cf) /\ (snd cf + r0 <= reps_of (fst cf))%nat) ->
    exists c ch, prepare_concats nms (map fst l) p0 r0 (map snd l) = Ret c /\ cc_P c = Patt (Node 0 r0 p0 ch) /\ concat_kids nms 0 None l = Ret ch /\ shaped c /\
      dated c = concat (map (fun ri => concat (map (fun cf => repetition (fst cf) (snd cf + ri)) l)) (List.seq 0 r0)) /\
      ((forall cf, In cf l -> full (fst cf)) -> full c).
  Proof.
    intros nms l p0 r0 Hne Hr Hl.
    assert (G : exists l', Forall2 (fun cf cf' => same_events (fst cf) (fst cf') /\ snd cf = snd cf') l l' /\ (forall cf, In cf l' -> sound (fst cf) /\ (snd cf + r0 <= reps_of (fst cf))%nat)).
    { clear Hne. induction l as [|[c f] l IH]; [exists []; split; [constructor | intros cf []]|].
      destruct (Hl (c, f) (or_introl eq_refl)) as [Hs Ho]. cbn [fst snd] in *. destruct (repairable c Hs) as (c' & Hc & Hc'). destruct IH as (l' & F & H); [intros cf I; apply Hl; right; exact I|].
      exists ((c', f) :: l'). split; [constructor; [split; [exact Hc | reflexivity] | exact F]|]. intros cf [<-|I]; [|apply H, I]. cbn [fst snd]. split; [exact Hc'|].
      destruct Hc as [H1 H2]. unfold reps_of, tree_of in *. rewrite <- H1, <- H2. exact Ho. }
    destruct G as (l' & F & Hl'). destruct (concat_sound_events nms l' p0 r0) as (c' & ch & E & EP & EK & Hs & Hd); [intros ->; inversion F; subst; contradiction | exact Hr | exact Hl'|].
    assert (F1 : Forall2 same_events (map fst l) (map fst l')) by (clear -F; induction F as [|x y l l' [H _] F IH]; constructor; assumption).
    assert (F2 : map snd l = map snd l') by (clear -F; induction F as [|x y l l' [_ H] F IH]; [reflexivity|]; cbn [map]; rewrite H, IH; reflexivity).
    assert (Cm : forall m : list (ccand A * nat), combine (map fst m) (map snd m) = m) by (clear; intros m; induction m as [|[x y] m IH]; [reflexivity|]; cbn [map combine fst snd]; rewrite IH; reflexivity).
    rewrite <- F2 in E. destruct (concats_same nms _ _ p0 r0 (map snd l) c' F1 E) as (c & Ec & Sc).
    exists c, ch. split; [exact Ec|]. split; [rewrite (proj1 Sc); exact EP|]. split.
    - rewrite <- (Cm l), (kids_same nms _ _ (map snd l) F1 0 None), F2, Cm. exact EK.
    - split; [apply (same_shaped c c' Sc), Hs|]. split; [|intros Hf; apply (concats_full nms l p0 r0 c Hne Hr); [intros cf I; split; [apply Hl, I | apply Hf, I] | exact Ec]].
      rewrite (same_dated c c' Sc), Hd. f_equal. apply map_ext. intros ri. f_equal. clear -F.
      induction F as [|x y l l' [H1 H2] F IH]; [reflexivity|]. cbn [map]. rewrite IH, H2, (same_repetition _ _ _ H1). reflexivity.
  Qed.

  (* nesting, the same way *)
  Lemma turn_same_nest cs cs' prds lr pi pp : Forall2 same_events cs cs' ->
    (exists y, nest_turn cs' prds lr pi pp = Ret y) -> exists y, nest_turn cs prds lr pi pp = Ret y.
  Proof.
    intros F [y E]. unfold nest_turn in *.
    assert (G : forall i c', nth_out cs' i = Ret c' -> exists c, nth_out cs i = Ret c /\ get_t0 c = get_t0 c').
    { intros i c' Ei. unfold nth_out in *. destruct (nth_error cs' i) as [x|] eqn:Ex; [|discriminate]. injection Ei as ->. destruct (Forall2_nth_r _ _ _ F i c' Ex) as (c & Ec & Hc).
      rewrite Ec. exists c. split; [reflexivity|]. unfold get_t0. rewrite (proj2 Hc). reflexivity. }
    destruct (nth_out cs' pi) as [c'| |] eqn:E1; try discriminate. destruct (G pi c' E1) as (c & E2 & E3). rewrite E2. cbn [bind] in *. rewrite E3. destruct (get_t0 c'); try discriminate. cbn [bind] in *.
    destruct pi as [|pi]; [eauto|]. destruct (last_nz pp) as [i|]; [|discriminate]. destruct (nth_out cs' (first_index (dec_at pp i) lr)) as [d'| |] eqn:E4; try discriminate.
    destruct (G _ d' E4) as (d & E5 & E6). rewrite E5. cbn [bind] in *. rewrite E6. destruct (get_t0 d'); try discriminate. cbn [bind] in *. destruct (nth_out prds i); try discriminate. cbn [bind]. eauto.
  Qed.
  Lemma nested_same nm cs cs' prds lens c' : Forall2 same_events cs cs' -> prepare_nested nm cs' prds lens = Ret c' ->
    exists c, prepare_nested nm cs prds lens = Ret c /\ same_events c c'.
  Proof.
    intros F. unfold prepare_nested. destruct F as [|c0 c0' cs cs' H0 F]; [discriminate|]. unfold nth_out. cbn [nth_error bind].
    assert (Ed : depth c0 = depth c0') by (unfold depth; rewrite (proj1 H0); reflexivity). assert (Et : nested_tree nm c0 prds lens = nested_tree nm c0' prds lens) by (unfold nested_tree; rewrite Ed, (proj1 H0); reflexivity).
    rewrite Ed, Et. set (lr := reps _). assert (F' : Forall2 same_events (c0 :: cs) (c0' :: cs')) by (constructor; assumption).
    destruct (map_out (fun x => nest_turn (c0' :: cs') prds lr (fst x) (snd x)) _) as [Es| |] eqn:E; try discriminate. cbn [bind].
    destruct (map_out_succ (fun x => nest_turn (c0' :: cs') prds lr (fst x) (snd x)) (fun x => nest_turn (c0 :: cs) prds lr (fst x) (snd x)) _ (fun x _ => turn_same_nest (c0 :: cs) (c0' :: cs') prds lr (fst x) (snd x) F') _ E) as (Es' & E').
    rewrite E'. cbn [bind]. destruct (nested_tree nm c0' prds lens) as [t| |]; try discriminate. cbn [bind]. intros [= <-]. eexists. split; [reflexivity|]. split; [reflexivity|]. cbn [cc_O].
    assert (E0 : forall l m, Forall2 same_events l m -> map cc_O l = map cc_O m) by (clear; induction 1 as [|x y l m [_ H] F IH]; cbn [map]; [reflexivity|]; rewrite H, IH; reflexivity).
    exact (f_equal (@concat Z) (E0 _ _ F')).
  Qed.
  (* Nesting copies of a pattern never fails, whatever their corrections, and the result claims their
     events, in turn.  If the corrections of all copies are right, so are its own. *)
  Theorem C45_nested_events : forall nm (cs : list (ccand A)) c0 (outer : list (Z * nat)),
    hd_error cs = Some c0 -> (forall c, In c cs -> shaped c /\ erase (tree_of c) = erase (tree_of c0)) ->
    Forall (fun pr => 1 <= snd pr)%nat outer -> length cs = product (map snd outer) ->
    exists c, prepare_nested nm cs (map fst outer ++ cycle_ps (tree_of c0)) (map snd outer ++ cycle_rs (tree_of c0)) = Ret c /\
      shaped c /\ dated c = concat (map dated cs) /\ ((forall c', In c' cs -> sound c') -> sound c) /\ ((forall c', In c' cs -> full c') -> full c).
  Proof.
    intros nm cs c0 outer H0 Hcs Hout Hlen.
    assert (G : exists cs', Forall2 same_events cs cs' /\ forall c, In c cs' -> sound c /\ erase (tree_of c) = erase (tree_of c0)).
    { clear H0 Hlen. induction cs as [|c l IH]; [exists []; split; [constructor | intros c []]|]. destruct (Hcs c (or_introl eq_refl)) as [Hs He]. destruct (repairable c Hs) as (c' & Sc & Hc').
      destruct IH as (l' & F & H); [intros x I; apply Hcs; right; exact I|]. exists (c' :: l'). split; [constructor; assumption|]. intros x [<-|I]; [|apply H, I]. split; [exact Hc'|].
      rewrite <- He. unfold tree_of. rewrite (proj1 Sc), (proj2 Sc). reflexivity. }
    destruct G as (cs' & F & Hcs'). destruct F as [|x x' l l' Hx F]; [discriminate|]. cbn in H0. injection H0 as ->.
    assert (Et : tree_of x' = tree_of c0) by (unfold tree_of; rewrite (proj1 Hx), (proj2 Hx); reflexivity).
    destruct (C45_nested nm (x' :: l') x' outer eq_refl) as (c' & Ec & Sc & Dc & _).
    - intros c I. rewrite Et. apply Hcs', I.
    - exact Hout.
    - rewrite <- Hlen. cbn [length]. f_equal. clear -F. induction F as [|a b l m H F IH]; cbn [length]; congruence.
    - rewrite Et in Ec. destruct (nested_same nm (c0 :: l) (x' :: l') _ _ c' ltac:(constructor; assumption) Ec) as (c & E & Sm). exists c. split; [exact E|].
      split; [apply (same_shaped c c' Sm), sound_shaped, Sc|]. split; [|split].
      + rewrite (same_dated c c' Sm), Dc. f_equal. cbn [map]. f_equal; [symmetry; apply same_dated, Hx|]. clear -F. induction F as [|a b l m H F IH]; cbn [map]; [reflexivity|]. rewrite IH, (same_dated a b H). reflexivity.
      + intros Hs. destruct (C45_nested nm (c0 :: l) c0 outer eq_refl) as (c'' & Ec'' & S'' & _); [intros y I; split; [apply Hs, I | apply Hcs, I] | exact Hout | exact Hlen|].
        rewrite E in Ec''. injection Ec'' as <-. exact S''.
      + intros Hf. apply (nested_full nm (c0 :: l) c0 _ _ c eq_refl) in E; [exact E | intros y I; split; [apply Hcs, I | apply Hf, I]|].
        rewrite Hlen, <- reps_length. do 2 f_equal. rewrite app_length, map_length. replace (length outer + length (cycle_rs (tree_of c0)) - depth c0)%nat with (length (map snd outer)).
        * rewrite firstn_app, Nat.sub_diag, firstn_all, app_nil_r. reflexivity.
        * rewrite map_length. assert (Ed : depth c0 = length (cycle_rs (tree_of c0))); [|lia]. unfold depth, tree_of. destruct (cc_P c0) as [e p|t]; [reflexivity|].
          clear. induction t as [n e|n r p ch IH] using tree_ind'; [reflexivity|]. cbn [cycle_ps cycle_rs length]. f_equal. induction IH as [|cd ch H F IHch]; [reflexivity|]. cbn [map concat]. rewrite !app_length, H, IHch. reflexivity.
  Qed.
End ConcatEvents.
Print Assumptions C44_concat_events.
Print Assumptions C45_nested_events.
(* a part with two children and wrong corrections *)
Example C44_concat_events_case :
  let ab := {| cc_P := Patt (Node 0 2 10 [(Leaf 1 0%nat, 0); (Leaf 2 1%nat, 3)]); cc_O := [0; 3; 11; 14]; cc_E := [7] |} in
  let c := {| cc_P := Simple 2%nat 10; cc_O := [5; 15; 26]; cc_E := [0; 1] |} in
  shaped ab /\ shaped c /\ show_res (prepare_concats shift_ids [ab; c] 10 2 [0; 1]%nat) =
    Some ([(0, 0%nat); (3, 1%nat); (15, 2%nat); (11, 0%nat); (14, 1%nat); (26, 2%nat)], [7; 12; 1; 12]).
Proof.
  split; [|split]; [split; [|do 4 eexists; reflexivity | reflexivity] .. |].
  - cbn. constructor; [lia | eauto | repeat constructor].
  - cbn. constructor; [lia | eauto | repeat constructor].
  - vm_compute. reflexivity.
Qed.

(* three copies with wrong corrections *)
Example C45_nested_events_case :
  let ab := fun t => {| cc_P := Patt (Node 0 2 10 [(Leaf 1 0%nat, 0); (Leaf 2 1%nat, 3)]); cc_O := [t; t + 3; t + 11; t + 14]; cc_E := [7] |} in
  (forall t, shaped (ab t)) /\ show_res (prepare_nested (fun n => n) [ab 0; ab 100; ab 201] [100; 10] [3; 2]%nat) =
    Some ([(0, 0%nat); (3, 1%nat); (11, 0%nat); (14, 1%nat); (100, 0%nat); (103, 1%nat); (111, 0%nat); (114, 1%nat); (201, 0%nat); (204, 1%nat); (212, 0%nat); (215, 1%nat)], [7; 0; 7; 1; 7]).
Proof.
  split; [|vm_compute; reflexivity]. intros t. split; [|do 4 eexists; reflexivity | reflexivity]. cbn. constructor; [lia | eauto | repeat constructor].
Qed.
