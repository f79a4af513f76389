(* C91: what a PeriodicPatternMiner answers after any history of calls. *)
From Coq Require Import String Ascii NArith.
From Verif Require Import Prelude CheckModel LCMModel VerticalProofs TextModel SplitModel ArrayModel PeriodModel TreeModel NestModel CyclesModel PropCycles ExportModel PropExport
  TreeProofs ShowModel HistoryModel.
Local Open Scope Z_scope.

(* --------------------------------------------------------- specification *)
Section Spec.
  Context {A : Type}.
  (* calls that only ask *)
  Definition question (c : call A) : Prop :=
    match c with SetAuto _ | Fit _ _ | Import _ => False | _ => True end.
  (* questions about the table that was shown last *)
  Definition about_table (c : call A) : Prop := match c with Export | Draw _ => True | _ => False end.
  (* nothing is drawn before the table was asked for *)
  Fixpoint table_first (qs : list (call A)) : Prop :=
    match qs with
    | [] | Transform _ _ :: _ | Export :: _ => True
    | Draw _ :: _ => False
    | _ :: qs' => table_first qs'
    end.
  (* a tree whose events are named and whose times are multiplied, but for the distance of a first child *)
  Inductive drawn_as (names : list A) (k : Z) : tree nat -> tree A -> Prop :=
  | Drawn_leaf n e a : nth_error names e = Some a -> drawn_as names k (Leaf n e) (Leaf n a)
  | Drawn_node n r p ch ch' : children_as names k true ch ch' -> drawn_as names k (Node n r p ch) (Node n r (p * k) ch')
  with children_as (names : list A) (k : Z) : bool -> list (tree nat * Z) -> list (tree A * Z) -> Prop :=
  | No_child first : children_as names k first [] []
  | First_child c d c' l l' : drawn_as names k c c' -> children_as names k false l l' -> children_as names k true ((c, d) :: l) ((c', d) :: l')
  | Next_child c d c' l l' : drawn_as names k c c' -> children_as names k false l l' -> children_as names k false ((c, d) :: l) ((c', d * k) :: l').
  (* patterns are cycles, not bare events *)
  Definition cyclic (p : patt) : Prop := exists n r k ch, fst (fst p) = Node n r k ch.
End Spec.

(* ---------------------------------------------------------------- proofs *)
Section History.
  Context {A : Type} `{EqDec A} (leA : A -> A -> bool) (comparable : list A -> bool) (mine : @dataseq A -> outcome (list patt)).
  Context (name : A -> text) (span : Z -> text) (sort_time sort_event : frame A -> frame A) (sort_t0 : table -> table).
  Notation step := (step leA comparable mine name span sort_time sort_event sort_t0).
  Notation run := (run leA comparable mine name span sort_time sort_event sort_t0).
  Notation do_transform := (do_transform name span sort_t0).
  Notation do_export := (do_export name span sort_t0).

  (* two miners with the same attributes, but for the table *)
  Definition alike (a b : pstate A) : Prop :=
    p_auto a = p_auto b /\ p_n a = p_n b /\ p_div a = p_div b /\ p_dt a = p_dt b /\ p_groups a = p_groups b /\ p_ds a = p_ds b /\ p_patts a = p_patts b.
  Lemma alike_refl a : alike a a. Proof. repeat split. Qed.
  Lemma alike_set a b t : alike a b -> set_cycles a t = set_cycles b t.
  Proof. intros (E1 & E2 & E3 & E4 & E5 & E6 & E7). unfold set_cycles. rewrite E1, E2, E3, E4, E5, E6, E7. reflexivity. Qed.
  Lemma set_alike a t : alike a (set_cycles a t). Proof. repeat split. Qed.
  Lemma alike_trans a b c : alike a b -> alike b c -> alike a c.
  Proof. unfold alike. intuition congruence. Qed.
  Lemma alike_sym a b : alike a b -> alike b a.
  Proof. unfold alike. intuition congruence. Qed.
  Lemma rows_some (f : patt -> outcome shown) p l : map_out f (p :: l) <> Ret [].
  Proof. cbn [map_out]. destruct (f p); cbn [bind]; try discriminate. destruct (map_out f l); discriminate. Qed.
  Lemma rows_ok name' auto dt n d b ps : Forall cyclic ps -> exists rows, map_out (shown_row name' span auto dt n d b) ps = Ret rows /\ (ps <> [] -> rows <> []).
  Proof.
    induction 1 as [|p ps (i & r & k & ch & Ep) Hps (rows & E & _)]; [exists []; split; [reflexivity | congruence]|].
    destruct p as [[t t0] C]. cbn [fst] in Ep. subst t. cbn [map_out shown_row bind]. rewrite E. cbn [bind]. eexists. split; [reflexivity | discriminate].
  Qed.

  (* a question leaves the attributes alone, but for the table *)
  Lemma transform_alike st b c r st' : do_transform st b c = (r, st') -> alike st st'.
  Proof.
    unfold HistoryModel.do_transform. destruct (p_patts st), (p_ds st), (p_n st), (p_div st), (p_dt st); intros E; try (injection E as _ <-; apply alike_refl).
    destruct (map_out _ _) as [[|x rows]| |]; injection E as _ <-; try apply alike_refl. apply set_alike.
  Qed.
  Lemma export_alike st r st' : do_export st = (r, st') -> alike st st'.
  Proof.
    unfold HistoryModel.do_export. destruct (do_transform st true true) as [r0 s0] eqn:E. apply transform_alike in E. destruct r0; intros X; try (injection X as _ <-; exact E).
    destruct (p_cycles s0), (p_groups s0), (p_n s0), (p_div s0), (p_dt s0); injection X as _ <-; exact E.
  Qed.
  Lemma question_alike st q r st' : question q -> step st q = (r, st') -> alike st st'.
  Proof.
    destruct q; intros Q E; try contradiction; cbn [HistoryModel.step] in E; try (injection E as _ <-; apply alike_refl).
    - destruct (do_transform st dE_sum chronological) as [r0 s0] eqn:E0. apply transform_alike in E0. injection E as _ <-. exact E0.
    - exact (export_alike _ _ _ E).
  Qed.

  (* questions that are not about the table *)
  Lemma transform_same a b x y : alike a b -> fst (do_transform a x y) = fst (do_transform b x y) /\ alike (snd (do_transform a x y)) (snd (do_transform b x y)) /\
    (p_patts a <> Some [] -> (forall ps, p_patts a = Some ps -> Forall cyclic ps) -> (exists t, fst (do_transform a x y) = Ret t) -> snd (do_transform a x y) = snd (do_transform b x y)).
  Proof.
    intros Al. pose proof Al as (E1 & E2 & E3 & E4 & E5 & E6 & E7). unfold HistoryModel.do_transform. rewrite <- E1, <- E2, <- E3, <- E4, <- E6, <- E7.
    destruct (p_patts a) as [ps|] eqn:Ep, (p_ds a), (p_n a), (p_div a), (p_dt a); try (split; [reflexivity|]; split; [exact Al|]; intros _ _ (t & X); discriminate).
    destruct (map_out _ ps) as [[|row rows]| |] eqn:Er; try (split; [reflexivity|]; split; [exact Al|]; intros _ _ (t & X); discriminate).
    - split; [reflexivity|]. split; [exact Al|]. intros Ne _ _. exfalso. destruct ps as [|p ps]; [congruence | exact (rows_some _ p ps Er)].
    - cbn [fst snd]. split; [reflexivity|]. rewrite (alike_set a b _ Al). split; [apply alike_refl | reflexivity].
  Qed.
  Lemma read_same a b : alike a b -> read a = read b.
  Proof. intros (E1 & E2 & E3 & E4 & E5 & E6 & E7). unfold read. rewrite E1, E2, E3, E4, E6, E7. reflexivity. Qed.
  Lemma plain_same a b q : alike a b -> question q -> ~ about_table q -> fst (step a q) = fst (step b q) /\ alike (snd (step a q)) (snd (step b q)).
  Proof.
    intros Al Q N. destruct q; try contradiction; cbn [HistoryModel.step].
    - destruct (transform_same a b dE_sum chronological Al) as (F & S0 & _). destruct (do_transform a _ _), (do_transform b _ _). cbn [fst snd] in *. subst. split; [reflexivity | exact S0].
    - cbn [fst snd]. split; [|exact Al]. unfold do_reconstruct. rewrite (read_same a b Al). reflexivity.
    - cbn [fst snd]. split; [|exact Al]. unfold do_residuals. rewrite (read_same a b Al). destruct Al as (-> & _). reflexivity.
  Qed.
  Lemma plain_run qs : forall a b, alike a b -> (forall q, In q qs -> question q /\ ~ about_table q) -> fst (run a qs) = fst (run b qs).
  Proof.
    induction qs as [|q qs IH]; intros a b Al Hq; [reflexivity|]. cbn [HistoryModel.run].
    destruct (Hq q (or_introl eq_refl)) as [Q N]. destruct (plain_same a b q Al Q N) as [F S0]. destruct (step a q) as [r a'], (step b q) as [r' b']. cbn [fst snd] in *. subst r'.
    specialize (IH a' b' S0 (fun q' I => Hq q' (or_intror I))). destruct (run a' qs), (run b' qs). cbn [fst] in *. congruence.
  Qed.
  Lemma full_run qs : forall a b, alike a b -> (forall q, In q qs -> question q) -> table_first qs ->
    (exists p ps ds n d dt, p_patts a = Some (p :: ps) /\ Forall cyclic (p :: ps) /\ p_ds a = Some ds /\ p_n a = Some n /\ p_div a = Some d /\ p_dt a = Some dt) -> fst (run a qs) = fst (run b qs).
  Proof.
    induction qs as [|q qs IH]; intros a b Al Hq T Ha; [reflexivity|].
    assert (Plain : ~ about_table q -> table_first qs -> fst (run a (q :: qs)) = fst (run b (q :: qs))).
    { intros N T'. cbn [HistoryModel.run]. pose proof (Hq q (or_introl eq_refl)) as Q. destruct (plain_same a b q Al Q N) as [F S0].
      destruct (step a q) as [r a'] eqn:Ea, (step b q) as [r' b']. cbn [fst snd] in *. subst r'. apply question_alike in Ea; [|exact Q].
      assert (X : fst (run a' qs) = fst (run b' qs)).
      { apply IH; [exact S0 | intros q' I; exact (Hq q' (or_intror I)) | exact T'|]. destruct Ha as (p & ps & ds & n & d & dt & H1 & H2 & H3 & H4 & H5 & H6). destruct Ea as (F1 & F2 & F3 & F4 & F5 & F6 & F7).
        exists p, ps, ds, n, d, dt. repeat split; congruence. }
      destruct (run a' qs), (run b' qs). cbn [fst] in *. congruence. }
    assert (Tab : forall x y, exists t st', do_transform a x y = (Ret t, st') /\ do_transform b x y = (Ret t, st')).
    { intros x y. destruct Ha as (p & ps & ds & n & d & dt & H1 & H2 & H3 & H4 & H5 & H6).
      assert (Ex : exists t, fst (do_transform a x y) = Ret t).
      { unfold HistoryModel.do_transform. rewrite H1, H3, H4, H5, H6. destruct (rows_ok (event_name name ds) (p_auto a) dt n d x (p :: ps) H2) as (rows & E & Ne). rewrite E.
        destruct rows; [exfalso; apply Ne; [discriminate | reflexivity]|]. eexists. reflexivity. }
      destruct (transform_same a b x y Al) as (F & _ & Eq). specialize (Eq ltac:(rewrite H1; discriminate) ltac:(intros ps' X; rewrite H1 in X; injection X as <-; exact H2) Ex).
      destruct Ex as (t & Et). exists t, (snd (do_transform a x y)). destruct (do_transform a x y), (do_transform b x y). cbn [fst snd] in *. subst. split; reflexivity. }
    destruct q; try (exfalso; exact (Hq _ (or_introl eq_refl))); try (apply Plain; [exact (fun X => X) | exact T]).
    - cbn [HistoryModel.run HistoryModel.step]. destruct (Tab dE_sum chronological) as (t & st' & Ea & Eb). rewrite Ea, Eb. reflexivity.
    - cbn [HistoryModel.run HistoryModel.step]. unfold HistoryModel.do_export. destruct (Tab true true) as (t & st' & Ea & Eb). rewrite Ea, Eb. reflexivity.
    - exfalso. exact T.
  Qed.

  (* a successful fit sets everything but the table *)
  Lemma fit_alike st dt log st' : step st (Fit dt log) = (Ret Done, st') -> p_auto st = true ->
    let st0 := snd (step (new_miner true) (Fit dt log)) in fst (step (new_miner true) (Fit dt log)) = Ret Done /\ alike st' st0.
  Proof.
    cbn [HistoryModel.step]. unfold do_fit. destruct (length log <? 2)%nat; [discriminate|]. intros E Au. rewrite Au in E. cbn [p_auto new_miner].
    destruct (autoscale _) as [[[conv n] res] d]. destruct (bind (sequence leA comparable _) _) as [[ds ps]| |]; try discriminate. injection E as <-.
    cbn [fst snd]. split; [reflexivity|]. repeat split.
  Qed.

  (* After a successful fit (with automatic time scaling), whatever was called before, tables,
     reconstructions and residuals are those of a new miner fitted on that log.  So are exported files and
     drawings if the fit found patterns and the table is asked for before a drawing. *)
  Theorem C91_last_fit : forall st dt log st', p_auto st = true -> step st (Fit dt log) = (Ret Done, st') ->
    let st0 := snd (step (new_miner true) (Fit dt log)) in
    (forall qs, (forall q, In q qs -> question q /\ ~ about_table q) -> fst (run st' qs) = fst (run st0 qs)) /\
    (forall qs ps, (forall q, In q qs -> question q) -> table_first qs -> p_patts st' = Some ps -> ps <> [] -> Forall cyclic ps -> fst (run st' qs) = fst (run st0 qs)).
  Proof.
    intros st dt log st' Au E st0. destruct (fit_alike st dt log st' E Au) as [_ Al]. fold st0 in Al. split.
    - intros qs Hq. apply plain_run; assumption.
    - intros qs ps Hq T Ep Ne C. apply full_run; try assumption. destruct ps as [|p ps]; [congruence|].
      cbn [HistoryModel.step] in E. unfold do_fit in E. destruct (length log <? 2)%nat; [discriminate|]. rewrite Au in E. destruct (autoscale _) as [[[conv n] res] d].
      destruct (bind (sequence leA comparable _) _) as [[ds ps']| |]; try discriminate. injection E as <-. cbn [p_patts p_ds p_n p_div p_dt] in *.
      exists p, ps, ds, n, d, dt. repeat split; try reflexivity; assumption.
  Qed.

  (* With or without automatic time scaling, after a successful fit the reconstruction and the residuals
     are those of the fit alone (CyclesModel), whatever was called before and whatever is asked between. *)
  Theorem C91_reads : forall st dt log st', step st (Fit dt log) = (Ret Done, st') ->
    exists m ps, mine (m_ds m) = Ret ps /\ fit leA (p_auto st) log (fun _ => ps) = Ret m /\
      forall qs r st'', (forall q, In q qs -> question q) -> run st' qs = (r, st'') ->
        (forall ids s b, step st'' (Reconstruct ids s b) = (bind (reconstruct sort_time sort_event m ids s b) (fun f => Ret (Frame dt f)), st'')) /\
        (forall ids s, step st'' (Residuals ids s) = (bind (get_residuals sort_time sort_event m ids s) (fun f => Ret (Frame (p_auto st && dt) f)), st'')).
  Proof.
    intros st dt log st' E. cbn [HistoryModel.step] in E. unfold do_fit in E. destruct (length log <? 2)%nat; [discriminate|].
    assert (Keep : forall qs a r b, (forall q, In q qs -> question q) -> run a qs = (r, b) -> alike a b).
    { induction qs as [|q qs IH]; intros a r b Hq X; cbn [HistoryModel.run] in X; [injection X as _ <-; apply alike_refl|].
      destruct (step a q) as [r1 a1] eqn:E1. destruct (run a1 qs) as [r2 a2] eqn:E2. injection X as _ <-.
      apply alike_trans with a1; [exact (question_alike _ _ _ _ (Hq q (or_introl eq_refl)) E1) | exact (IH _ _ _ (fun q' I => Hq q' (or_intror I)) E2)]. }
    unfold fit. destruct (p_auto st) eqn:Au.
    - destruct (autoscale _) as [[[conv n] res] d]. unfold sequence in E. destruct (comparable _); [|discriminate]. destruct (dataseq_of_dict leA _) as [ds| |] eqn:Ed; try discriminate.
      cbn [bind] in E. destruct (mine ds) as [ps| |] eqn:Em; try discriminate. cbn [bind] in E. injection E as <-.
      eexists. exists ps. split; [|split; [cbn [bind]; reflexivity|]]; [exact Em|]. intros qs r st'' Hq X. apply Keep in X; [|exact Hq]. apply alike_sym in X.
      split; intros; cbn [HistoryModel.step]; f_equal; [unfold do_reconstruct | unfold do_residuals]; rewrite (read_same _ _ X); [reflexivity|].
      destruct X as (-> & _). reflexivity.
    - unfold sequence in E. destruct (comparable _); [|discriminate]. destruct (dataseq_of_dict leA _) as [ds| |] eqn:Ed; try discriminate.
      cbn [bind] in E. destruct (mine ds) as [ps| |] eqn:Em; try discriminate. cbn [bind] in E. injection E as <-.
      eexists. exists ps. split; [|split; [cbn [bind]; reflexivity|]]; [exact Em|]. intros qs r st'' Hq X. apply Keep in X; [|exact Hq]. apply alike_sym in X.
      split; intros; cbn [HistoryModel.step]; f_equal; [unfold do_reconstruct | unfold do_residuals]; rewrite (read_same _ _ X); [reflexivity|].
      destruct X as (-> & _). reflexivity.
  Qed.

  (* After a successful import, tables, reconstructions and residuals are those of a new miner that
     imports the file. *)
  Theorem C91_last_import : forall st f st', step st (Import f) = (Ret Done, st') ->
    forall qs, (forall q, In q qs -> question q /\ ~ about_table q) ->
    fst (run st' qs) = fst (run (snd (step (new_miner (p_auto st)) (Import f))) qs).
  Proof.
    intros st f st' E qs Hq. cbn [HistoryModel.step] in *. unfold do_import in *. destruct (sequence leA comparable (f_groups f)) as [ds| |]; try discriminate. injection E as <-. cbn [snd].
    set (b := {| p_auto := p_auto st; p_n := Some (f_n f); p_div := Some (f_div f); p_dt := Some (f_dt f); p_groups := p_groups st; p_ds := Some ds; p_patts := Some (f_patts f); p_cycles := None |}).
    transitivity (fst (run b qs)); [apply plain_run; [repeat split | exact Hq]|].
    (* alpha_groups_ is read by export_patterns only *)
    set (c := {| p_auto := p_auto (new_miner (p_auto st)); p_n := Some (f_n f); p_div := Some (f_div f); p_dt := Some (f_dt f); p_groups := p_groups (new_miner (p_auto st)); p_ds := Some ds;
                 p_patts := Some (f_patts f); p_cycles := p_cycles (new_miner (p_auto st)) |}).
    assert (Same : forall qs a b, (forall q, In q qs -> question q /\ ~ about_table q) -> p_auto a = p_auto b -> p_n a = p_n b -> p_div a = p_div b -> p_dt a = p_dt b -> p_ds a = p_ds b ->
      p_patts a = p_patts b -> fst (run a qs) = fst (run b qs)).
    2:{ apply Same; try reflexivity. exact Hq. }
    clear. induction qs as [|q qs IH]; intros a b Hq E1 E2 E3 E4 E5 E6; [reflexivity|]. cbn [HistoryModel.run]. destruct (Hq q (or_introl eq_refl)) as [Q N].
    assert (X : fst (step a q) = fst (step b q)).
    { destruct q; try contradiction; try (exfalso; apply N; exact I); cbn [HistoryModel.step fst].
      - unfold HistoryModel.do_transform. rewrite E1, E2, E3, E4, E5, E6. destruct (p_patts b), (p_ds b), (p_n b), (p_div b), (p_dt b); try reflexivity. destruct (map_out _ _) as [[|x l0]| |]; reflexivity.
      - unfold do_reconstruct, read. rewrite E1, E2, E3, E4, E5, E6. reflexivity.
      - unfold do_residuals, read. rewrite E1, E2, E3, E4, E5, E6. reflexivity. }
    destruct (step a q) as [r a'] eqn:Ea, (step b q) as [r' b'] eqn:Eb. cbn [fst] in X. subst r'. apply question_alike in Ea; [|exact Q]. apply question_alike in Eb; [|exact Q].
    destruct Ea as (A1 & A2 & A3 & A4 & A5 & A6 & A7), Eb as (B1 & B2 & B3 & B4 & B5 & B6 & B7).
    assert (Y : fst (run a' qs) = fst (run b' qs)) by (apply IH; try congruence; intros q' I; exact (Hq q' (or_intror I))).
    destruct (run a' qs), (run b' qs). cbn [fst] in *. congruence.
  Qed.

  (* Asking, also in vain, does not change what is answered later, but for exported files and drawings. *)
  Theorem C91_asking : forall st q qs, question q -> (forall q', In q' qs -> question q' /\ ~ about_table q') -> fst (run (snd (step st q)) qs) = fst (run st qs).
  Proof.
    intros st q qs Q Hq. destruct (step st q) as [r st'] eqn:E. apply question_alike in E; [|exact Q]. symmetry. apply plain_run; assumption.
  Qed.

  (* set_params changes nothing but auto_time_scale *)
  (* a miner that was never fitted and never imported anything answers nothing *)
  Theorem C91_new : forall b b' q, question q ->
    step (snd (step (new_miner b) (SetAuto b'))) q = (Exn AttributeError, new_miner b') /\ step (new_miner b) q = (Exn AttributeError, new_miner b).
  Proof. intros b b' [| | | | | | |] Hq; try destruct Hq; split; reflexivity. Qed.
  Theorem C91_set_params : forall st b, step st (SetAuto b) = (Ret Done, snd (step st (SetAuto b))) /\ snd (run st [SetAuto b; SetAuto (p_auto st)]) = st.
  Proof. intros [] b. split; reflexivity. Qed.

  Lemma drawn_spec (ds : @dataseq A) k t : forall t', drawn ds k t = Ret t' <-> drawn_as (ds_events ds) k t t'.
  Proof.
    induction t as [n e|n r p ch IH] using tree_ind'; intros t'; cbn [drawn].
    - destruct (nth_error (ds_events ds) e) as [a|] eqn:E.
      + split; [intros X; injection X as <-; constructor; exact E | intros X; inversion X; subst; congruence].
      + split; [discriminate | intros X; inversion X; subst; congruence].
    - set (go := fix go (first : bool) (l : list (tree nat * Z)) : outcome (list (tree A * Z)) :=
         match l with
         | [] => Ret []
         | (c, d) :: l' => bind (drawn ds k c) (fun c' => bind (go false l') (fun l'' => Ret ((c', if first then d else d * k) :: l'')))
         end).
      assert (G : forall first l', go first ch = Ret l' <-> children_as (ds_events ds) k first ch l').
      { clear t'. induction IH as [|[c d] l Hc Hl IHl]; intros first l'; cbn [go].
        - split; [intros X; injection X as <-; constructor | intros X; inversion X; reflexivity].
        - cbn [fst] in Hc. split.
          + destruct (drawn ds k c) as [c'| |] eqn:Ec; try discriminate. cbn [bind]. destruct (go false l) as [l''| |] eqn:El; try discriminate. cbn [bind].
            intros X. injection X as <-. apply IHl in El. pose proof (proj1 (Hc c') eq_refl) as Dc. destruct first; constructor; assumption.
          + intros X. inversion X as [|? ? ? ? ? H1 H2|? ? ? ? ? H1 H2]; subst; apply Hc in H1; apply IHl in H2; rewrite H1; cbn [bind]; rewrite H2; reflexivity. }
      split.
      + destruct (go true ch) as [ch'| |] eqn:E; try discriminate. cbn [bind]. intros X. injection X as <-. constructor. apply G, E.
      + intros X. inversion X as [|? ? ? ? ? H1]; subst. apply G in H1. rewrite H1. reflexivity.
  Qed.
  Lemma drawn_fails (ds : @dataseq A) k t e : drawn ds k t = Exn e -> e = IndexError.
  Proof.
    induction t as [n x|n r p ch IH] using tree_ind'; cbn [drawn]; [destruct (nth_error _ _); congruence|].
    set (go := fix go (first : bool) (l : list (tree nat * Z)) : outcome (list (tree A * Z)) :=
         match l with
         | [] => Ret []
         | (c, d) :: l' => bind (drawn ds k c) (fun c' => bind (go false l') (fun l'' => Ret ((c', if first then d else d * k) :: l'')))
         end).
    assert (G : forall first, go first ch = Exn e -> e = IndexError).
    { induction IH as [|[c d] l Hc Hl IHl]; intros first; cbn [go]; [discriminate|]. cbn [fst] in Hc. destruct (drawn ds k c); cbn [bind]; try discriminate; [|intros X; injection X as ->; apply Hc; reflexivity].
      destruct (go false l) eqn:El; cbn [bind]; try discriminate. intros X. injection X as ->. exact (IHl false El). }
    destruct (go true ch) eqn:E; cbn [bind]; try discriminate. intros X. injection X as ->. exact (G true E).
  Qed.
  Lemma drawn_ends (ds : @dataseq A) k t : drawn ds k t <> NoFuel.
  Proof.
    induction t as [n x|n r p ch IH] using tree_ind'; cbn [drawn]; [destruct (nth_error _ _); discriminate|].
    set (go := fix go (first : bool) (l : list (tree nat * Z)) : outcome (list (tree A * Z)) :=
         match l with
         | [] => Ret []
         | (c, d) :: l' => bind (drawn ds k c) (fun c' => bind (go false l') (fun l'' => Ret ((c', if first then d else d * k) :: l'')))
         end).
    assert (G : forall first, go first ch <> NoFuel).
    { induction IH as [|[c d] l Hc Hl IHl]; intros first; cbn [go]; [discriminate|]. cbn [fst] in Hc. destruct (drawn ds k c); cbn [bind]; try discriminate; [|congruence].
      specialize (IHl false). destruct (go false l); cbn [bind]; congruence. }
    specialize (G true). destruct (go true ch); cbn [bind]; congruence.
  Qed.

  Lemma label_In {B} (l : list B) i x : In (i, x) (label l) <-> nth_error l i = Some x.
  Proof.
    unfold label. assert (X : forall s, In (i, x) (combine (List.seq s (length l)) l) <-> (s <= i)%nat /\ nth_error l (i - s) = Some x).
    { induction l as [|y l IH]; intros s; cbn [length List.seq combine].
      - split; [intros [] | intros [_ E]; destruct (i - s)%nat; discriminate].
      - cbn [In]. rewrite IH. split.
        + intros [E|[Hs E]]; [injection E as -> ->; split; [lia|]; rewrite Nat.sub_diag; reflexivity|].
          split; [lia|]. replace (i - s)%nat with (S (i - S s)) by lia. exact E.
        + intros [Hs E]. destruct (Nat.eq_dec i s) as [->|N].
          * rewrite Nat.sub_diag in E. injection E as ->. left. reflexivity.
          * right. split; [lia|]. replace (i - s)%nat with (S (i - S s)) in E by lia. exact E. }
    rewrite X, Nat.sub_0_r. split; [intros [_ E]; exact E | intros E; split; [lia | exact E]].
  Qed.
  Lemma label_keys {B} (l : list B) : NoDup (dkeys (label l)).
  Proof.
    unfold dkeys, label. assert (X : forall s, map fst (combine (List.seq s (length l)) l) = List.seq s (length l)).
    { induction l as [|y l IH]; intros s; [reflexivity|]. cbn [length List.seq combine map fst]. rewrite IH. reflexivity. }
    rewrite X. apply seq_NoDup.
  Qed.
  Lemma shown_each (f : patt -> outcome shown) ps : forall rows, map_out f ps = Ret rows ->
    length rows = length ps /\ forall i w, nth_error rows i = Some w -> exists p, nth_error ps i = Some p /\ f p = Ret w.
  Proof.
    induction ps as [|p ps IH]; intros rows; cbn [map_out].
    - intros X. injection X as <-. split; [reflexivity | intros [|i]; discriminate].
    - destruct (f p) as [w0| |] eqn:Ep; try discriminate. cbn [bind]. destruct (map_out f ps) as [rows'| |]; try discriminate. cbn [bind]. intros X. injection X as <-.
      destruct (IH _ eq_refl) as [L I]. split; [cbn [length]; rewrite L; reflexivity|]. intros [|i] w; cbn [nth_error]; [|apply I].
      intros X. injection X as <-. exists p. auto.
  Qed.
  Lemma combine_nth {X Y} (a : list X) (b : list Y) i x y : nth_error a i = Some x -> nth_error b i = Some y -> nth_error (combine a b) i = Some (x, y).
  Proof. revert b i. induction a as [|x' a IH]; intros [|y' b] [|i]; cbn; try discriminate; [intros E1 E2; injection E1 as ->; injection E2 as ->; reflexivity | apply IH]. Qed.
  Lemma combine_nth' {X Y} (a : list X) (b : list Y) i x y : nth_error (combine a b) i = Some (x, y) -> nth_error a i = Some x /\ nth_error b i = Some y.
  Proof. revert b i. induction a as [|x' a IH]; intros [|y' b] [|i]; cbn; try discriminate; [intros E1; injection E1 as -> ->; auto | apply IH]. Qed.
  Lemma combine_snd {X Y} (a : list X) : forall b : list Y, length a = length b -> map snd (combine a b) = b.
  Proof. induction a as [|x a IH]; intros [|y b]; cbn; try discriminate; [reflexivity|]. intros E. injection E as E. rewrite IH by exact E. reflexivity. Qed.

  (* what the table keeps beside what it shows *)
  Lemma table_kept (Hsort : forall t, Permutation (sort_t0 t) t) st b c rows st' : do_transform st b c = (Ret rows, st') -> rows <> [] ->
    exists ps ds n d dt t, p_patts st = Some ps /\ p_ds st = Some ds /\ p_n st = Some n /\ p_div st = Some d /\ p_dt st = Some dt
    /\ st' = set_cycles st t /\ rows = map (fun r => (fst r, fst (snd r))) t /\ NoDup (dkeys t) /\ Permutation (map (fun r => snd (snd r)) t) ps
    /\ forall i w p, In (i, (w, p)) t <-> nth_error ps i = Some p /\ shown_row (event_name name ds) span (p_auto st) dt n d b p = Ret w.
  Proof.
    unfold HistoryModel.do_transform. intros E Ne. destruct (p_patts st) as [ps|], (p_ds st) as [ds|], (p_n st) as [n|], (p_div st) as [d|], (p_dt st) as [dt|]; try discriminate.
    destruct (map_out _ ps) as [[|x rs]| |] eqn:Em; try discriminate; [injection E as <- _; elim Ne; reflexivity|].
    set (t := if c then sort_t0 (label (combine (x :: rs) ps)) else label (combine (x :: rs) ps)) in *. injection E as <- <-.
    assert (P : Permutation t (label (combine (x :: rs) ps))) by (unfold t; destruct c; [apply Hsort | apply Permutation_refl]).
    apply shown_each in Em as [L I]. exists ps, ds, n, d, dt, t. do 7 (split; [reflexivity|]). split; [|split].
    - unfold dkeys. apply (Permutation_NoDup (l := map fst (label (combine (x :: rs) ps)))); [apply Permutation_sym, Permutation_map, P | apply label_keys].
    - rewrite (Permutation_map (fun r => snd (snd r)) P). unfold label.
      assert (X : forall (l : list (shown * patt)) s, map (fun r => snd (snd r)) (combine (List.seq s (length l)) l) = map snd l).
      { induction l as [|y l IHl]; intros s; [reflexivity|]. cbn [length List.seq combine map snd]. rewrite IHl. reflexivity. }
      rewrite X, combine_snd by exact L. apply Permutation_refl.
    - intros i w p. split.
      + intros Hin. apply (Permutation_in _ P) in Hin. apply label_In in Hin. apply combine_nth' in Hin as [H1 H2]. split; [exact H2|].
        destruct (I i w H1) as (p' & Ep & Ew). rewrite H2 in Ep. injection Ep as <-. exact Ew.
      + intros [H1 H2]. apply (Permutation_in _ (Permutation_sym P)). apply label_In. apply combine_nth; [|exact H1].
        destruct (nth_error (x :: rs) i) as [w'|] eqn:Ew.
        * destruct (I i w' Ew) as (p' & Ep & Ew'). rewrite H1 in Ep. injection Ep as <-. congruence.
        * apply nth_error_None in Ew. rewrite L in Ew. apply nth_error_None in Ew. congruence.
  Qed.

  (* What is drawn after the table is the pattern its row shows, at the times of the log. *)
  Theorem C91_drawn : (forall t, Permutation (sort_t0 t) t) -> forall st b c rows st', step st (Transform b c) = (Ret (Table rows), st') -> rows <> [] ->
    exists ps ds n d dt, p_patts st = Some ps /\ p_ds st = Some ds /\ p_n st = Some n /\ p_div st = Some d /\ p_dt st = Some dt
    /\ (forall id, ~ In id (map fst rows) -> step st' (Draw id) = (Exn KeyError, st'))
    /\ forall id w, In (id, w) rows -> exists t t0 E, nth_error ps id = Some (t, t0, E)
       /\ shown_row (event_name name ds) span (p_auto st) dt n d b (t, t0, E) = Ret w
       /\ let k := if p_auto st then 10 ^ Z.of_nat n * d else 1 in
          (forall t' t0', step st' (Draw id) = (Ret (Drawing t' t0'), st') <-> drawn_as (ds_events ds) k t t' /\ t0' = t0 * k)
          /\ ((forall t', ~ drawn_as (ds_events ds) k t t') -> step st' (Draw id) = (Exn IndexError, st')).
  Proof.
    intros Hsort st b c rows st' E Ne. cbn [HistoryModel.step] in E. destruct (do_transform st b c) as [r st1] eqn:Et. destruct r as [rows0| |]; try discriminate.
    cbn [bind] in E. injection E as -> ->. destruct (table_kept Hsort _ _ _ _ _ Et Ne) as (ps & ds & n & d & dt & t & E1 & E2 & E3 & E4 & E5 & -> & -> & Nd & _ & It).
    exists ps, ds, n, d, dt. do 5 (split; [assumption|]). split.
    - intros id Hid. cbn [HistoryModel.step]. unfold do_draw. cbn [p_cycles set_cycles]. rewrite (proj2 (dget_None t id)); [reflexivity|].
      intros F. apply Hid. rewrite map_map. cbn [fst]. exact F.
    - intros id w Hin. apply in_map_iff in Hin as ([id' [w' [[tr t0] Ec]]] & X & Hin). cbn [fst snd] in X. injection X as -> ->.
      pose proof Hin as Hin'. apply It in Hin' as [Hn Hw]. exists tr, t0, Ec. split; [exact Hn|]. split; [exact Hw|]. cbv zeta.
      assert (D : step (set_cycles st t) (Draw id) = (bind (drawn ds (if p_auto st then 10 ^ Z.of_nat n * d else 1) tr)
        (fun t' => Ret (Drawing t' (t0 * (if p_auto st then 10 ^ Z.of_nat n * d else 1)))), set_cycles st t)).
      { cbn [HistoryModel.step]. unfold do_draw. cbn [p_cycles p_ds p_auto p_n p_div set_cycles]. rewrite (In_dget t id _ Nd Hin), E2, E3, E4.
        destruct (p_auto st); [reflexivity|]. rewrite Z.mul_1_r. reflexivity. }
      rewrite D. set (k := if p_auto st then _ else _). split.
      + intros t' t0'. rewrite <- drawn_spec. destruct (drawn ds k tr) as [t''| |]; cbn [bind]; split; try discriminate; try (intros [X _]; discriminate).
        * intros X. injection X as <- <-. auto.
        * intros [X ->]. injection X as ->. reflexivity.
      + intros No. destruct (drawn ds k tr) as [t''|e|] eqn:Ed; [elim (No t''); apply drawn_spec, Ed | rewrite (drawn_fails _ _ _ _ Ed); reflexivity | elim (drawn_ends _ _ _ Ed)].
  Qed.

  (* An export writes the patterns of the miner, unless there are none, with the attributes of the miner. *)
  Theorem C91_exported : (forall t, Permutation (sort_t0 t) t) -> forall st f st' ps, step st Export = (Ret (File f), st') -> p_patts st = Some ps -> ps <> [] ->
    p_n st = Some (f_n f) /\ p_div st = Some (f_div f) /\ p_dt st = Some (f_dt f) /\ p_groups st = Some (f_groups f) /\ Permutation (f_patts f) ps.
  Proof.
    intros Hsort st f st' ps E Ep Ne. cbn [HistoryModel.step] in E. unfold HistoryModel.do_export in E. destruct (do_transform st true true) as [[rows| |] st1] eqn:Et; try discriminate.
    assert (rows <> []) as Nr.
    { intros ->. unfold HistoryModel.do_transform in Et. rewrite Ep in Et. destruct (p_ds st), (p_n st), (p_div st), (p_dt st); try discriminate.
      destruct ps as [|p ps]; [elim Ne; reflexivity|]. destruct (map_out _ (p :: ps)) as [[|x rs]| |] eqn:Em; try discriminate; [exact (rows_some _ _ _ Em)|].
      apply (f_equal fst) in Et. cbn [fst] in Et.
      assert (X : forall t : table, Permutation t (label (combine (x :: rs) (p :: ps))) -> Ret (map (fun r => (fst r, fst (snd r))) t) = Ret [] -> False).
      { intros t P X. destruct t as [|y t]; [apply Permutation_nil in P; discriminate | discriminate]. }
      refine (X _ _ Et). apply Hsort. }
    destruct (table_kept Hsort _ _ _ _ _ Et Nr) as (ps' & ds & n & d & dt & t & E1 & E2 & E3 & E4 & E5 & -> & -> & Nd & Pt & _).
    rewrite Ep in E1. injection E1 as <-. cbn [p_cycles p_groups p_n p_div p_dt set_cycles] in E. rewrite E3, E4, E5 in E |- *.
    destruct (p_groups st) as [gs|]; [|discriminate]. apply (f_equal fst) in E. cbn [fst] in E. injection E as <-. cbn [f_n f_div f_dt f_groups f_patts].
    do 4 (split; [reflexivity|]). exact Pt.
  Qed.
End History.
Print Assumptions C91_set_params.
Print Assumptions C91_new.
Print Assumptions C91_drawn.
Print Assumptions C91_exported.
Print Assumptions C91_last_fit.
Print Assumptions C91_reads.
Print Assumptions C91_last_import.
Print Assumptions C91_asking.

(* ---- the claim without its provisos is false *)
Definition demo_comparable (l : list evname) : bool :=
  forallb (fun e => match e with EStr _ => true | EInt _ => false end) l || forallb (fun e => match e with EInt _ => true | EStr _ => false end) l.
Definition demo_text (e : evname) : text := match e with EStr s => s | EInt z => str_z z end.
Definition demo_span (z : Z) : text := str_z z ++ lit "ns".
Definition demo_order (t : table) : table := sort (fun a b => w_t0 (fst (snd a)) <=? w_t0 (fst (snd b))) t.
(* a search that finds cycles of three equidistant occurrences of one event at the start of the log *)
Definition demo_search (ds : @dataseq evname) : outcome (list patt) :=
  Ret match ds_seql ds with
      | (a, e) :: (b, e') :: (c, e'') :: _ =>
          if (e =? e')%nat && (e =? e'')%nat && (b - a =? c - b) then [(Node 0 3 (b - a) [(Leaf 1 e, 0)], a, [0; 0])] else []
      | _ => []
      end.
Notation demo_run := (run ev_leb demo_comparable demo_search demo_text demo_span demo_sort demo_sort demo_order).
Definition at_times (e : evname) (ts : list Z) : list (Z * evname) := map (fun t => (t, e)) ts.
Definition log_a := at_times ev_a [1000; 3000; 5000].          (* a cycle *)
Definition log_b := at_times ev_b [20; 40; 60].                (* another *)
Definition log_c := at_times ev_b [7; 19; 20].                 (* no cycle *)
Definition log_mixed := at_times ev_a [20; 40] ++ at_times (EInt 1) [60].
Definition cycle (t0 p : Z) : patt := (Node 0 3 p [(Leaf 1 0%nat, 0)], t0, [0; 0]).

(* after a second fit the drawing is still that of the first, with the names and the unit of the second *)
Theorem C91_draw_refuted : exists st,
  demo_run (new_miner true) [Fit false log_a; Transform true true; Fit false log_b; Draw 0] =
    ([Ret Done; Ret (Table [(0%nat, {| w_t0 := 1000; w_text := lit "(a)[r=3 p=2]"; w_rep := 3; w_period := 2000; w_E := SumE 0 |})]); Ret Done;
      Ret (Drawing (Node 0 3 20 [(Leaf 1 ev_b, 0)]) 10)], st) /\
  fst (demo_run (new_miner true) [Fit false log_b; Draw 0]) = [Ret Done; Exn AttributeError].
Proof. eexists. split; vm_compute; reflexivity. Qed.
(* a fit that finds nothing exports the patterns of the fit before, with the data of its own log *)
Theorem C91_export_refuted : exists st,
  demo_run (new_miner true) [Fit false log_a; Transform true true; Fit false log_c; Export] =
    ([Ret Done; Ret (Table [(0%nat, {| w_t0 := 1000; w_text := lit "(a)[r=3 p=2]"; w_rep := 3; w_period := 2000; w_E := SumE 0 |})]); Ret Done;
      Ret (File {| f_n := 0; f_div := 1; f_dt := false; f_groups := [(ev_b, [7; 19; 20])]; f_patts := [cycle 1 2] |})], st) /\
  fst (demo_run (new_miner true) [Fit false log_c; Export]) = [Ret Done; Exn AttributeError].
Proof. eexists. split; vm_compute; reflexivity. Qed.
(* imported patterns are exported with the data of an earlier fit *)
Theorem C91_import_refuted : exists st,
  let f := {| f_n := 1; f_div := 1; f_dt := false; f_groups := [(ev_b, [2; 4; 6])]; f_patts := [cycle 2 2] |} in
  demo_run (new_miner true) [Fit false log_a; Import f; Export] =
    ([Ret Done; Ret Done; Ret (File {| f_n := 1; f_div := 1; f_dt := false; f_groups := [(ev_a, [1; 3; 5])]; f_patts := [cycle 2 2] |})], st) /\
  fst (demo_run (new_miner true) [Import f; Export]) = [Ret Done; Exn AttributeError].
Proof. eexists. split; vm_compute; reflexivity. Qed.
(* a fit that raises leaves the patterns of the one before with the unit of the new log *)
Theorem C91_failed_refuted : exists st,
  demo_run (new_miner true) [Fit false log_a; Reconstruct None ByTime true; Fit false log_mixed; Reconstruct None ByTime true] =
    ([Ret Done; Ret (Frame false [(0%nat, (1000, ev_a)); (1%nat, (3000, ev_a)); (2%nat, (5000, ev_a))]); Exn TypeError;
      Ret (Frame false [(0%nat, (10, ev_a)); (1%nat, (30, ev_a)); (2%nat, (50, ev_a))])], st).
Proof. eexists. vm_compute. reflexivity. Qed.
(* without automatic time scaling the table needs an earlier fit, and shows the times of its pattern in the unit of that *)
Theorem C91_unscaled_refuted : exists st,
  demo_run (new_miner true) [Fit true log_a; SetAuto false; Fit true log_b; Transform true true] =
    ([Ret Done; Ret Done; Ret Done; Ret (Table [(0%nat, {| w_t0 := 20; w_text := lit "(b)[r=3 p=20000ns]"; w_rep := 3; w_period := 20; w_E := SumE 0 |})])], st) /\
  fst (demo_run (new_miner false) [Fit true log_b; Transform true true]) = [Ret Done; Exn AttributeError].
Proof. eexists. split; vm_compute; reflexivity. Qed.
Print Assumptions C91_draw_refuted.
Print Assumptions C91_export_refuted.
Print Assumptions C91_import_refuted.
Print Assumptions C91_failed_refuted.
Print Assumptions C91_unscaled_refuted.

(* ---- a miner with a past that is fitted on a log with a cycle *)
Example C91_case : exists st st' ps,
  snd (demo_run (new_miner true) [Fit true log_a; Transform true false; Fit false log_mixed; Export]) = st /\ p_auto st = true /\
  step ev_leb demo_comparable demo_search demo_text demo_span demo_sort demo_sort demo_order st (Fit false (at_times ev_b [20; 40; 60; 70])) = (Ret Done, st') /\
  p_patts st' = Some ps /\ ps <> [] /\ Forall cyclic ps /\
  let qs := [Reconstruct None ByTime true; Export; Residuals None ByTime; Draw 0] in
  (forall q, In q qs -> question q) /\ table_first qs /\
  fst (demo_run st' qs) =
    [Ret (Frame false [(0%nat, (20, ev_b)); (1%nat, (40, ev_b)); (2%nat, (60, ev_b))]);
     Ret (File {| f_n := 1; f_div := 1; f_dt := false; f_groups := [(ev_b, [2; 4; 6; 7])]; f_patts := [cycle 2 2] |});
     Ret (Frame false [(0%nat, (70, ev_b))]); Ret (Drawing (Node 0 3 20 [(Leaf 1 ev_b, 0)]) 20)].
Proof.
  do 3 eexists. split; [vm_compute; reflexivity|]. split; [reflexivity|]. split; [vm_compute; reflexivity|]. split; [reflexivity|]. split; [discriminate|].
  split; [constructor; [do 4 eexists; reflexivity | constructor]|]. split; [intros q [<-|[<-|[<-|[<-|[]]]]]; exact I|]. split; [exact I|]. vm_compute. reflexivity.
Qed.
(* the order of the demonstration only permutes the table, and there are tables with a row *)
Example C91_table_case : (forall t, Permutation (demo_order t) t) /\ exists st rows st' ps,
  snd (demo_run (new_miner true) [Fit false log_a]) = st /\ p_patts st = Some ps /\ ps <> [] /\
  step ev_leb demo_comparable demo_search demo_text demo_span demo_sort demo_sort demo_order st (Transform true true) = (Ret (Table rows), st') /\ rows <> [].
Proof.
  split; [intros t; apply sort_perm|]. do 4 eexists. split; [vm_compute; reflexivity|]. split; [reflexivity|]. split; [discriminate|].
  split; [vm_compute; reflexivity | discriminate].
Qed.
Print Assumptions C91_table_case.
