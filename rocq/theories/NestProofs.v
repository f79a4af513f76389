(* Occurrences and corrections of a pattern, block by block. *)
From Verif Require Import Prelude CheckModel LCMModel TextModel SplitModel ArrayModel PropArray PeriodModel TreeModel TreeProofs PropTree TreeBlock NestModel.
Local Open Scope Z_scope.

Section Fits.
  Context {A : Type}.
  Implicit Types t : tree A.
  (* the corrections [E] make [t] produce the times [O], in order *)
  Definition fits t (O E : list Z) : Prop :=
    length O = nb_occs t /\ length E = (nb_occs t - 1)%nat /\ get_cov_seq t (hd 0 O) E = Some (combine O (events_minor t true)).
  Lemma fits_exists t O : wf t -> length O = nb_occs t -> exists E, fits t O E.
  Proof. intros Hw Hl. destruct (C39_times t O Hw Hl) as (E & _ & H1 & H2). exists E. split; [exact Hl | split; [exact H1 | exact H2]]. Qed.
  Lemma combine_inj {B C} (a : list B) : forall b (c : list C), length a = length c -> length b = length c -> combine a c = combine b c -> a = b.
  Proof.
    induction a as [|x a IH]; intros [|y b] [|z c] H1 H2 E; simpl in *; try lia; [reflexivity|].
    injection E as -> E. f_equal. eapply IH; eauto.
  Qed.
  Lemma fits_unique t O E E' : wf t -> fits t O E -> fits t O E' -> E = E'.
  Proof.
    intros Hw (H1 & H2 & H3) (_ & H2' & H3').
    destruct (C39_corrections t (hd 0 O) E Hw H2) as (o & A1 & A2 & _ & A4).
    destruct (C39_corrections t (hd 0 O) E' Hw H2') as (o' & B1 & B2 & _ & B4).
    rewrite H3 in A1. rewrite H3' in B1. injection A1 as A1. injection B1 as B1.
    apply combine_inj in A1; [|rewrite events_length; exact H1 | rewrite events_length; exact A2].
    apply combine_inj in B1; [|rewrite events_length; exact H1 | rewrite events_length; exact B2].
    subst o o'. congruence.
  Qed.

  (* other ids *)
  Definition shape t : tree A := renum (fun _ => O) t.
  Lemma shape_renum nm t : shape (renum nm t) = shape t.
  Proof.
    unfold shape. induction t as [n e|n r p ch IH] using tree_ind'; [reflexivity|]. cbn [renum]. f_equal. rewrite map_map.
    apply map_ext_in. intros cd Hcd. cbn [fst snd]. f_equal. rewrite Forall_forall in IH. apply (IH cd Hcd).
  Qed.
  Lemma nb_renum nm t : nb_occs (renum nm t) = nb_occs t.
  Proof.
    induction t as [n e|n r p ch IH] using tree_ind'; [reflexivity|]. cbn [renum nb_occs]. do 2 f_equal. rewrite map_map.
    apply map_ext_in. intros cd Hcd. rewrite Forall_forall in IH. apply (IH cd Hcd).
  Qed.
  Lemma ps_renum nm t : cycle_ps (renum nm t) = cycle_ps t.
  Proof.
    induction t as [n e|n r p ch IH] using tree_ind'; [reflexivity|]. cbn [renum cycle_ps]. do 2 f_equal. rewrite map_map.
    apply map_ext_in. intros cd Hcd. rewrite Forall_forall in IH. apply (IH cd Hcd).
  Qed.
  Lemma events_renum nm t : forall b, events_minor (renum nm t) b = events_minor t b.
  Proof.
    induction t as [n e|n r p ch IH] using tree_ind'; intros b; [reflexivity|]. cbn [renum events_minor]. rewrite map_map.
    assert (E : map (fun x => events_minor (fst (renum nm (fst x), snd x)) true) ch = map (fun cd => events_minor (fst cd) true) ch).
    { apply map_ext_in. intros cd Hcd. rewrite Forall_forall in IH. apply (IH cd Hcd). }
    rewrite E. reflexivity.
  Qed.
  Lemma wf_renum nm t : wf (renum nm t) <-> wf t.
  Proof.
    induction t as [n e|n r p ch IH] using tree_ind'; [split; constructor|]. cbn [renum].
    rewrite Forall_forall in IH. split; intros H; inversion H as [|? ? ? ? Hr [c [l Ech]] Hch]; subst; constructor; auto.
    - destruct ch as [|[c' d'] ch']; [discriminate|]. simpl in Ech. injection Ech as _ E _. subst d'. eauto.
    - apply Forall_forall. intros cd Hcd. apply (IH cd Hcd). rewrite Forall_forall in Hch. apply (Hch (renum nm (fst cd), snd cd)). apply in_map_iff. exists cd. split; [reflexivity | exact Hcd].
    - simpl. eauto.
    - apply Forall_forall. intros x Hx. apply in_map_iff in Hx. destruct Hx as (cd & <- & Hcd). cbn [fst]. apply (IH cd Hcd).
      rewrite Forall_forall in Hch. apply (Hch cd Hcd).
  Qed.
  Lemma first_renum nm t : first (renum nm t) = first t.
  Proof.
    induction t as [n e|n r p ch IH] using tree_ind'; [reflexivity|]. destruct ch as [|[c d] ch]; [reflexivity|]. cbn [renum map first fst]. f_equal.
    inversion IH as [|? ? Hc _]; subst. exact Hc.
  Qed.
  Lemma leafs_renum nm t : leafs (renum nm t) = map (fun qx => (fst qx, (nm (fst (snd qx)), snd (snd qx)))) (leafs t).
  Proof.
    induction t as [n e|n r p ch IH] using tree_ind'; [reflexivity|]. cbn [renum leafs].
    rewrite concat_map, map_map. f_equal. apply map_ext. intros i. rewrite concat_map, map_mapi. f_equal.
    generalize 0%nat. induction IH as [|cd l Hc Hl IHl]; intros k; [reflexivity|]. cbn [map]. rewrite !mapi_cons. f_equal; [|apply IHl].
    cbn [fst]. rewrite Hc, !map_map. reflexivity.
  Qed.
  Lemma leaves_renum nm t : leaves (renum nm t) = leaves t.
  Proof. unfold leaves. rewrite leafs_renum, map_map. reflexivity. Qed.
  Lemma cum_renum nm ch c : cum (map (fun cd : tree A * Z => (renum nm (fst cd), snd cd)) ch) c = cum ch c.
  Proof. unfold cum. rewrite firstn_map, map_map. reflexivity. Qed.
  Lemma off_renum nm q : forall t, off q (renum nm t) = off q t.
  Proof.
    induction q as [|[c i] q IH]; intros t; [destruct t; reflexivity|]. destruct t as [|n r p ch]; [reflexivity|]. cbn [renum off].
    rewrite cum_renum, nth_error_map. destruct (nth_error ch c) as [[t' d]|]; cbn [option_map]; [|reflexivity]. cbn [fst snd]. rewrite IH. reflexivity.
  Qed.
  Lemma Ssum_renum nm q : forall t F, Ssum F q (renum nm t) = Ssum F q t.
  Proof.
    induction q as [|[c i] q IH]; intros t F; [destruct t; reflexivity|]. destruct t as [|n r p ch]; [reflexivity|]. cbn [renum Ssum].
    rewrite nth_error_map. f_equal; [destruct (nth_error ch c) as [[t' d]|]; cbn [option_map fst snd]; [apply IH | reflexivity]|]. f_equal.
    - rewrite firstn_map. f_equal. generalize 0%nat. induction (firstn c ch) as [|x l IHl]; intros k; [reflexivity|].
      cbn [map]. rewrite !mapi_cons. cbn [fst]. rewrite first_renum. f_equal. apply IHl.
    - f_equal. apply map_ext. intros i'. destruct ch as [|[c0 d0] ch]; [reflexivity|]. cbn [map fst]. rewrite first_renum. reflexivity.
  Qed.
  Lemma cov_renum nm t (t0 : Z) E : wf t -> length E = (nb_occs t - 1)%nat -> get_cov_seq (renum nm t) t0 E = get_cov_seq t t0 E.
  Proof.
    intros Hw Hl. pose proof (nb_pos t Hw).
    destruct (choose_Z (leaves t) (leaves_NoDup t) (0 :: E)) as [F HF]; [rewrite leaves_length; simpl; lia|].
    rewrite (cov_spec t t0 E F Hw HF), (cov_spec (renum nm t) t0 E F); [|apply wf_renum; exact Hw | rewrite leaves_renum; exact HF].
    rewrite leafs_renum, map_map. f_equal. apply map_ext. intros qx. cbn [fst snd]. unfold W. rewrite off_renum, Ssum_renum. reflexivity.
  Qed.
  Lemma fits_renum nm t O E : wf t -> fits (renum nm t) O E <-> fits t O E.
  Proof.
    intros Hw. unfold fits. rewrite nb_renum, events_renum. split; intros (H1 & H2 & H3); (split; [exact H1|]); (split; [exact H2|]).
    - rewrite <- (cov_renum nm) by assumption. exact H3.
    - rewrite (cov_renum nm) by assumption. exact H3.
  Qed.
  Lemma fits_shape t t' O E : shape t = shape t' -> wf t -> fits t O E -> wf t' /\ fits t' O E.
  Proof.
    intros Es Hw Hf. apply (wf_renum (fun _ => 0%nat)) in Hw as Hw'. fold (shape t) in Hw'. rewrite Es in Hw'.
    apply wf_renum in Hw'. split; [exact Hw'|]. apply (fits_renum (fun _ => 0%nat)); [exact Hw'|].
    fold (shape t'). rewrite <- Es. apply fits_renum; assumption.
  Qed.
End Fits.

(* ------------------------------------------------------------------ rows of blocks *)
Section Rows.
  Context {A : Type}.
  Definition blk := (list Z * list Z)%type.                   (* times and corrections of a block *)
  Definition bt (k : blk) : Z := hd 0 (fst k).
  Definition fitk (c : tree A) (k : blk) := fits c (fst k) (snd k).
  Fixpoint restE (prev : Z) (ds : list Z) (ks : list blk) : list Z :=
    match ds, ks with d :: ds', k :: ks' => (bt k - prev - d) :: snd k ++ restE (bt k) ds' ks' | _, _ => [] end.
  Definition rowE (e0 : Z) (ds : list Z) (ks : list blk) : list Z :=
    match ds, ks with _ :: ds', k :: ks' => e0 :: snd k ++ restE (bt k) ds' ks' | _, _ => [] end.
  Definition start (ks : list blk) : Z := match ks with k :: _ => bt k | [] => 0 end.
  Fixpoint rowsE (p : Z) (prev : option Z) (ds : list Z) (rows : list (list blk)) : list Z :=
    match rows with
    | [] => []
    | ks :: rows' => rowE (match prev with None => 0 | Some t => start ks - t - p end) ds ks ++ rowsE p (Some (start ks)) ds rows'
    end.
  Definition rowsO (rows : list (list blk)) : list Z := concat (map (fun ks => concat (map fst ks)) rows).

  Lemma Forall2_nth {B C} (P : B -> C -> Prop) l m : Forall2 P l m -> forall i x, nth_error l i = Some x -> exists y, nth_error m i = Some y /\ P x y.
  Proof. induction 1 as [|a b l m Hab H IH]; intros [|i] x E; try discriminate; simpl in *; [injection E as <-; eauto | eauto]. Qed.
  Lemma Forall2_len {B C} (P : B -> C -> Prop) l m : Forall2 P l m -> length l = length m.
  Proof. induction 1; simpl; congruence. Qed.
  Lemma combine_app {B C} (a1 a2 : list B) (b1 b2 : list C) : length a1 = length b1 -> combine (a1 ++ a2) (b1 ++ b2) = combine a1 b1 ++ combine a2 b2.
  Proof. revert b1. induction a1 as [|x a1 IH]; intros [|y b1] Hl; try discriminate; [reflexivity|]. simpl. f_equal. apply IH. simpl in Hl; lia. Qed.
  Lemma cov_row (ch : list (tree A * Z)) ks : Forall2 (fun cd k => fitk (fst cd) k) ch ks ->
    combine (concat (map fst ks)) (concat (map (fun cd => events_minor (fst cd) true) ch)) =
    concat (map (fun ck => combine (fst (snd ck)) (events_minor (fst (fst ck)) true)) (combine ch ks)) /\
    length (concat (map fst ks)) = list_sum (map (fun cd => nb_occs (fst cd)) ch).
  Proof.
    induction 1 as [|cd k ch ks Hk H IH]; [split; reflexivity|]. cbn [map concat combine list_sum fst snd].
    destruct Hk as (H1 & _ & _). destruct IH as [IH1 IH2]. split.
    - rewrite combine_app by (rewrite events_length; exact H1). f_equal. exact IH1.
    - rewrite app_length, H1, IH2. reflexivity.
  Qed.
  Lemma mapi_combine {B C D} (f : nat -> B -> D) (g : B * C -> D) (l : list B) (m : list C) : forall n, length l = length m ->
    (forall k x y, nth_error l k = Some x -> nth_error m k = Some y -> f (n + k)%nat x = g (x, y)) -> mapi f n l = map g (combine l m).
  Proof.
    revert m. induction l as [|x l IH]; intros [|y m] n Hl Hf; try discriminate; [reflexivity|]. rewrite mapi_cons. cbn [combine map]. f_equal.
    - rewrite <- (Hf 0%nat x y eq_refl eq_refl). f_equal. lia.
    - apply IH; [simpl in Hl; lia|]. intros k x' y' E1 E2. rewrite <- (Hf (S k) x' y' E1 E2). f_equal. lia.
  Qed.
  Lemma restE_mapi (ch : list (tree A * Z)) (ks : list blk) (f : nat -> tree A * Z -> list Z) : forall n prev, length ch = length ks ->
    (forall k cd y, nth_error ch k = Some cd -> nth_error ks k = Some y ->
       f (n + k)%nat cd = (bt y - match k with O => prev | S k' => match nth_error ks k' with Some z => bt z | None => 0 end end - snd cd) :: snd y) ->
    concat (mapi f n ch) = restE prev (map snd ch) ks.
  Proof.
    revert ks. induction ch as [|cd ch IH]; intros [|k ks] n prev Hl Hf; try discriminate; [reflexivity|]. rewrite mapi_cons. cbn [concat map restE].
    pose proof (Hf 0%nat cd k eq_refl eq_refl) as H0. rewrite Nat.add_0_r in H0. rewrite H0. cbn [app]. do 2 f_equal.
    apply IH; [simpl in Hl; lia|]. intros j cd' y' E1 E2. replace (S n + j)%nat with (n + S j)%nat by lia. rewrite (Hf (S j) cd' y' E1 E2). destruct j; reflexivity.
  Qed.

  Theorem fits_rows n r p (ch : list (tree A * Z)) rows : wf (Node n r p ch) -> length rows = r ->
    Forall (Forall2 (fun cd k => fitk (fst cd) k) ch) rows ->
    fits (Node n r p ch) (rowsO rows) (tl (rowsE p None (map snd ch) rows)).
  Proof.
    intros Hw Hr Hf. rewrite Forall_forall in Hf.
    assert (Hrow : forall i, (i < r)%nat -> exists row, nth_error rows i = Some row /\ Forall2 (fun cd k => fitk (fst cd) k) ch row).
    { intros i Hi. destruct (nth_error rows i) as [row|] eqn:E; [|apply nth_error_None in E; lia]. exists row. split; [reflexivity|]. apply Hf, (nth_error_In _ _ E). }
    set (d0 := ([], []) : blk). set (B := fun i ni => nth ni (nth i rows []) d0).
    assert (HB : forall i ni cd, (i < r)%nat -> nth_error ch ni = Some cd -> fitk (fst cd) (B i ni)).
    { intros i ni cd Hi Ec. destruct (Hrow i Hi) as (row & E1 & F). destruct (Forall2_nth _ _ _ F ni cd Ec) as (k & E2 & Hk).
      unfold B. rewrite (nth_error_nth _ _ _ E1), (nth_error_nth _ _ _ E2). exact Hk. }
    set (t0 := fun i ni => bt (B i ni)). set (Es := fun i ni => snd (B i ni)).
    assert (Hlen : forall i ni cd, (i < r)%nat -> nth_error ch ni = Some cd -> length (Es i ni) = (nb_occs (fst cd) - 1)%nat).
    { intros i ni cd Hi Ec. apply (HB i ni cd Hi Ec). }
    set (covs := fun i ni => match nth_error ch ni with Some cd => combine (fst (B i ni)) (events_minor (fst cd) true) | None => [] end).
    pose proof (cov_node n r p ch Hw t0 Es Hlen covs) as Hcov.
    assert (Hall : all_E r p ch t0 Es = rowsE p None (map snd ch) rows).
    { unfold all_E.
      assert (G : forall m i, (i + m = r)%nat -> concat (map (fun i => concat (mapi (fun ni cd => err p t0 i ni (snd cd) :: Es i ni) 0 ch)) (List.seq i m)) =
        rowsE p (match i with O => None | S i' => Some (start (nth i' rows [])) end) (map snd ch) (skipn i rows)).
      { induction m as [|m IH]; intros i Him.
        - rewrite skipn_all2 by lia. reflexivity.
        - destruct (Hrow i ltac:(lia)) as (row & E1 & F). cbn [List.seq map concat]. rewrite (IH (S i)) by lia.
          assert (Es1 : skipn i rows = row :: skipn (S i) rows).
          { clear -E1. revert i E1. induction rows as [|x rows IH]; intros [|i] E1; try discriminate; simpl in *; [congruence | apply IH, E1]. }
          rewrite Es1. cbn [rowsE]. rewrite (nth_error_nth _ _ _ E1). f_equal.
          assert (Hni : forall ni k, nth_error row ni = Some k -> B i ni = k).
          { intros ni k E2. unfold B. rewrite (nth_error_nth _ _ _ E1), (nth_error_nth _ _ _ E2). reflexivity. }
          destruct F as [|cd k ch' row' Hk F]; [reflexivity|]. rewrite mapi_cons. cbn [concat map rowE snd start].
          assert (E0 : err p t0 i 0 (snd cd) = match match i with O => None | S i' => Some (start (nth i' rows [])) end with None => 0 | Some t => bt k - t - p end).
          { destruct i as [|i']; [reflexivity|]. cbn [err]. unfold t0. rewrite (Hni 0%nat k eq_refl). do 2 f_equal.
            destruct (Hrow i' ltac:(lia)) as (row2 & E2 & F2). unfold B. rewrite (nth_error_nth _ _ _ E2). inversion F2; subst. reflexivity. }
          cbn [app]. rewrite E0. unfold Es at 1. rewrite (Hni 0%nat k eq_refl). do 2 f_equal.
          apply restE_mapi; [apply (Forall2_len _ _ _ F)|]. intros j cd' y E2 E3. cbn [Nat.add err].
          unfold t0, Es. rewrite (Hni (S j) y E3). do 3 f_equal.
          destruct j as [|j]; [rewrite (Hni 0%nat k eq_refl); reflexivity|].
          destruct (nth_error row' j) as [z|] eqn:E4; [rewrite (Hni (S j) z E4); reflexivity|].
          apply nth_error_None in E4. assert (S j < length row')%nat by (apply nth_error_Some; congruence). lia. }
      apply (G r O). reflexivity. }
    assert (Hrl : Forall (fun row => length (concat (map fst row)) = list_sum (map (fun cd => nb_occs (fst cd)) ch)) rows).
    { apply Forall_forall. intros row Hrow'. apply (cov_row ch row (Hf row Hrow')). }
    assert (HlenO : length (rowsO rows) = nb_occs (Node n r p ch)).
    { cbn [nb_occs]. rewrite <- Hr. unfold rowsO. clear -Hrl. induction Hrl as [|row rows H1 H2 IH]; [reflexivity|]. cbn [map concat length].
      rewrite app_length, H1, IH. reflexivity. }
    assert (Hhd : hd 0 (rowsO rows) = t0 O O).
    { inversion Hw as [|? ? ? ? Hr1 [c0 [l Ech]] Hch]; subst. destruct (Hrow O ltac:(lia)) as (row & E1 & F).
      unfold t0, B. rewrite (nth_error_nth _ _ _ E1). destruct rows as [|row0 rows']; [discriminate|]. simpl in E1. injection E1 as ->.
      unfold rowsO. cbn [map concat]. inversion F as [|cd k ch' row' Hk F']; subst. cbn [map concat nth].
      unfold bt. assert (Hk1 : (1 <= length (fst k))%nat).
      { destruct Hk as (E & _ & _). rewrite E. apply nb_pos. inversion Hch; subst; assumption. }
      destruct (fst k); [simpl in Hk1; lia | reflexivity]. }
    assert (HlenE : S (length (tl (rowsE p None (map snd ch) rows))) = nb_occs (Node n r p ch)).
    { assert (H1 : length (rowsE p None (map snd ch) rows) = nb_occs (Node n r p ch)).
      { assert (Hre : forall ch ks, Forall2 (fun (cd : tree A * Z) k => fitk (fst cd) k) ch ks -> Forall (fun cd => wf (fst cd)) ch -> forall prev,
            length (restE prev (map snd ch) ks) = list_sum (map (fun cd => nb_occs (fst cd)) ch)).
        { induction 1 as [|cd k ch' ks Hk F IH]; intros Hc prev; [reflexivity|]. inversion Hc as [|? ? Hc1 Hc2]; subst. cbn [map restE length list_sum fold_right].
          rewrite app_length. unfold list_sum in IH. rewrite IH by assumption. destruct Hk as (_ & E & _). rewrite E. pose proof (nb_pos _ Hc1). simpl. lia. }
        assert (Hch : Forall (fun cd => wf (fst cd)) ch) by (inversion Hw; assumption).
        assert (Hro : forall row e0, Forall2 (fun (cd : tree A * Z) k => fitk (fst cd) k) ch row -> length (rowE e0 (map snd ch) row) = list_sum (map (fun cd => nb_occs (fst cd)) ch)).
        { intros row e0 F. destruct F as [|cd k ch' ks Hk F]; [reflexivity|]. inversion Hch as [|? ? Hc1 Hc2]; subst. cbn [map rowE length].
          rewrite app_length, (Hre _ _ F Hc2). destruct Hk as (_ & E & _). rewrite E. pose proof (nb_pos _ Hc1). unfold list_sum. simpl. lia. }
        cbn [nb_occs]. rewrite <- Hr. generalize (@None Z). clear -Hf Hro. induction rows as [|row rows IH]; intros prev; [reflexivity|]. cbn [rowsE length].
        rewrite app_length, Hro by (apply Hf; left; reflexivity). rewrite IH; [reflexivity|]. intros x Hx; apply Hf; right; exact Hx. }
      rewrite <- H1. pose proof (nb_pos _ Hw) as H2. destruct (rowsE p None (map snd ch) rows); simpl in *; lia. }
    split; [exact HlenO|]. split; [lia|]. rewrite Hhd, <- Hall, Hcov.
    2: { intros i ni cd Hi Ec. unfold covs. rewrite Ec. apply (HB i ni cd Hi Ec). }
    f_equal. cbn [events_minor]. rewrite <- Hr. unfold rowsO.
    assert (Hm : forall m i, (i + m = r)%nat -> concat (map (fun i => concat (mapi (fun ni _ => covs i ni) 0 ch)) (List.seq i m)) =
       combine (concat (map (fun ks => concat (map fst ks)) (skipn i rows))) (concat (repeat (concat (map (fun cd => events_minor (fst cd) true) ch)) m))).
    { induction m as [|m IH]; intros i Him.
      - rewrite skipn_all2 by lia. reflexivity.
      - destruct (Hrow i ltac:(lia)) as (row & E1 & F). cbn [List.seq map concat repeat]. rewrite (IH (S i)) by lia.
        assert (Es1 : skipn i rows = row :: skipn (S i) rows).
        { clear -E1. revert i E1. induction rows as [|x rows IH]; intros [|i] E1; try discriminate; simpl in *; [congruence | apply IH, E1]. }
        rewrite Es1. cbn [map concat]. destruct (cov_row ch row F) as [C1 C2]. rewrite combine_app, C1.
        + f_equal. f_equal. apply mapi_combine; [apply (Forall2_len _ _ _ F)|]. intros k x y E2 E3. cbn [Nat.add fst snd]. unfold covs. rewrite E2.
          unfold B. rewrite (nth_error_nth _ _ _ E1), (nth_error_nth _ _ _ E3). reflexivity.
        + rewrite C2. clear. induction ch as [|cd ch IH]; [reflexivity|]. cbn [map concat list_sum fold_right]. unfold list_sum in IH.
          rewrite app_length, <- IH, events_length. reflexivity. }
    rewrite Hr. apply (Hm r O). reflexivity.
  Qed.

  (* conversely the occurrences of a pattern split into rows of blocks *)
  Lemma split_row (ch : list (tree A * Z)) : Forall (fun cd => wf (fst cd)) ch -> forall O, length O = list_sum (map (fun cd => nb_occs (fst cd)) ch) ->
    exists ks, Forall2 (fun cd k => fitk (fst cd) k) ch ks /\ concat (map fst ks) = O.
  Proof.
    induction 1 as [|cd ch Hc Hch IH]; intros O Hl.
    - exists []. split; [constructor|]. destruct O; [reflexivity | discriminate].
    - cbn [map list_sum fold_right] in Hl. destruct (IH (skipn (nb_occs (fst cd)) O)) as (ks & F & E); [rewrite skipn_length; unfold list_sum; lia|].
      destruct (fits_exists (fst cd) (firstn (nb_occs (fst cd)) O) Hc) as (Ek & Hk); [rewrite firstn_length; lia|].
      exists ((firstn (nb_occs (fst cd)) O, Ek) :: ks). split; [constructor; [exact Hk | exact F]|]. cbn [map concat fst]. rewrite E. apply firstn_skipn.
  Qed.
  Lemma split_rows (ch : list (tree A * Z)) r : Forall (fun cd => wf (fst cd)) ch -> forall O, length O = (r * list_sum (map (fun cd => nb_occs (fst cd)) ch))%nat ->
    exists rows, length rows = r /\ Forall (Forall2 (fun cd k => fitk (fst cd) k) ch) rows /\ rowsO rows = O.
  Proof.
    intros Hch. induction r as [|r IH]; intros O Hl.
    - exists []. split; [reflexivity|]. split; [constructor|]. destruct O; [reflexivity | discriminate].
    - set (m := list_sum (map (fun cd => nb_occs (fst cd)) ch)) in *. simpl in Hl.
      destruct (split_row ch Hch (firstn m O)) as (ks & F & E); [rewrite firstn_length; fold m; lia|].
      destruct (IH (skipn m O)) as (rows & L & G & E'); [rewrite skipn_length; lia|].
      exists (ks :: rows). split; [simpl; lia|]. split; [constructor; assumption|]. unfold rowsO in *. cbn [map concat]. rewrite E, E'. apply firstn_skipn.
  Qed.
  Theorem fits_inv n r p (ch : list (tree A * Z)) O E : wf (Node n r p ch) -> fits (Node n r p ch) O E ->
    exists rows, length rows = r /\ Forall (Forall2 (fun cd k => fitk (fst cd) k) ch) rows /\ O = rowsO rows /\ E = tl (rowsE p None (map snd ch) rows).
  Proof.
    intros Hw Hf. inversion Hw as [|? ? ? ? Hr1 _ Hch]; subst.
    destruct (split_rows ch r Hch O) as (rows & L & F & EO); [apply Hf|]. exists rows. repeat (split; [auto|]).
    apply (fits_unique (Node n r p ch) O E _ Hw Hf). rewrite <- EO. apply fits_rows; assumption.
  Qed.
End Rows.
