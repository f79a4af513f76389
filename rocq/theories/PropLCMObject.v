(* C70: lexicographic_order.  C71: what transform depends on, over the life of an object. *)
From Verif Require Import Prelude FilterModel CheckModel LCMModel ItemsetSpec TextModel TextProofs
  LCMFileModel LCMFinal LCMObjectModel.
From Coq Require Import QArith.
Local Open Scope nat_scope.

(* two rows that differ by the order of the items only *)
Definition same_row {A} (r r' : row A) : Prop :=
  Permutation (r_items r) (r_items r') /\ r_supp r = r_supp r' /\ r_tids r = r_tids r'.
Definition total_order {A} (leA : A -> A -> bool) : Prop :=
  (forall x y, leA x y = true \/ leA y x = true) /\
  (forall x y z, leA x y = true -> leA y z = true -> leA x z = true).

Section Lexico.
  Context {A : Type} `{EqDec A} (leA : A -> A -> bool).

  Lemma gather_forall2 {R} (P : R -> R -> Prop) sched n (f g : nat -> list R) :
    (forall i, Forall2 P (f i) (g i)) ->
    Forall2 P (gather (parallel sched n f)) (gather (parallel sched n g)).
  Proof.
    intros Hfg; unfold parallel, gather.
    assert (Hs : forall s1 s2 : slots (list R),
      (forall i, match s1 i, s2 i with
                 | Some a, Some b => Forall2 P a b | None, None => True | _, _ => False end) ->
      forall i, match fold_left (run_job f) sched s1 i, fold_left (run_job g) sched s2 i with
                | Some a, Some b => Forall2 P a b | None, None => True | _, _ => False end).
    { induction sched as [|k t IH]; intros s1 s2 Hi; [exact Hi|].
      cbn [fold_left]; apply IH; intros i; unfold run_job; destruct (i =? k); [apply Hfg | apply Hi]. }
    specialize (Hs (fun _ => None) (fun _ => None) (fun _ => I)).
    induction (seq 0 n) as [|i l IH]; [constructor|]; cbn [map flat_map].
    specialize (Hs i); destruct (fold_left (run_job f) sched (fun _ => None) i),
      (fold_left (run_job g) sched (fun _ => None) i); try contradiction.
    - apply Forall2_app; assumption.
    - exact IH.
  Qed.

  Lemma rows_same ms n tbl ml item :
    Forall2 same_row (root_rows leA ms n tbl true ml item) (root_rows leA ms n tbl false ml item).
  Proof.
    unfold root_rows; induction (explore (reaches ms n) (map snd tbl) item) as [|e l IH]; [constructor|].
    cbn [map filter].
    assert (E : length_ok ml (r_items (mk_row leA tbl true e)) = length_ok ml (r_items (mk_row leA tbl false e))).
    { unfold length_ok, mk_row; cbn [r_items out_items]; rewrite (length_sort leA); reflexivity. }
    rewrite E; clear E; destruct (length_ok _ _); [|exact IH].
    constructor; [|exact IH]; split; [apply sort_perm | split; reflexivity].
  Qed.

  Lemma lexico_same maxi ms D ml sched rows1 rows0 :
    (if maxi : bool then lcm_max leA ms D true ml sched else lcm leA ms D true ml sched) = Some rows1 ->
    (if maxi then lcm_max leA ms D false ml sched else lcm leA ms D false ml sched) = Some rows0 ->
    Forall2 same_row rows1 rows0.
  Proof.
    destruct maxi; unfold lcm, lcm_max; destruct (fit ms D) as [tbl|]; try discriminate;
      intros E1 E0; injection E1 as <-; injection E0 as <-.
    - unfold transform_max.
      match goal with |- Forall2 _ (map _ ?l0) _ => induction l0 as [|r l IH]; [constructor|] end.
      cbn [map]; constructor; [|exact IH]; split; [apply sort_perm | split; reflexivity].
    - apply gather_forall2; intros i; apply rows_same.
  Qed.

  Lemma lexico_sorted maxi ms D ml sched rows :
    total_order leA ->
    (if maxi : bool then lcm_max leA ms D true ml sched else lcm leA ms D true ml sched) = Some rows ->
    forall r, In r rows -> StronglySorted (fun x y => leA x y = true) (r_items r).
  Proof.
    intros [Ht Htr] E r Hr.
    assert (exists l, r_items r = sort leA l) as [l ->]; [|apply sort_sorted; assumption].
    destruct maxi; unfold lcm, lcm_max in E; destruct (fit ms D) as [tbl|]; try discriminate;
      injection E as <-.
    - unfold transform_max in Hr; apply in_map_iff in Hr; destruct Hr as [r0 [<- _]].
      exists (r_items r0); reflexivity.
    - unfold transform, gather in Hr; apply in_flat_map in Hr; destruct Hr as [o [Ho Hr]].
      destruct o as [l|]; [|destruct Hr].
      unfold parallel in Ho; apply in_map_iff in Ho; destruct Ho as [i [Ho _]].
      assert (Hg : forall s : slots (list (row A)),
        (forall i l, s i = Some l -> exists k, l = root_rows leA ms (length D) tbl true ml k) ->
        forall i l, fold_left (run_job (root_rows leA ms (length D) tbl true ml)) sched s i = Some l ->
          exists k, l = root_rows leA ms (length D) tbl true ml k).
      { clear; induction sched as [|k t IH]; intros s Hs; [exact Hs|].
        cbn [fold_left]; apply IH; intros i l; unfold run_job.
        destruct (i =? k); [intros E; injection E as <-; exists k; reflexivity | apply Hs]. }
      destruct (Hg (fun _ => None) ltac:(discriminate) i l Ho) as [k ->].
      apply filter_In in Hr; destruct Hr as [Hr _].
      apply in_map_iff in Hr; destruct Hr as [e4 [<- _]]; eexists; reflexivity.
  Qed.
End Lexico.

(* C70, for LCM (maxi = false) and LCMMax (maxi = true) *)
Theorem C70_lexicographic_order :
  forall (A : Type) (HA : EqDec A) (leA : A -> A -> bool) (maxi : bool) ms (D : list (list A)) ml sched
         rows rows0,
  total_order leA ->
  (if maxi : bool then lcm_max leA ms D true ml sched else lcm leA ms D true ml sched) = Some rows ->
  (if maxi then lcm_max leA ms D false ml sched else lcm leA ms D false ml sched) = Some rows0 ->
  (forall r, In r rows -> StronglySorted (fun x y => leA x y = true) (r_items r)) /\
  Forall2 same_row rows rows0.
Proof.
  intros A HA leA maxi ms D ml sched rows rows0 Ho E E0; split.
  - eapply lexico_sorted; eassumption.
  - eapply lexico_same; eassumption.
Qed.
Print Assumptions C70_lexicographic_order.
Example C70_case : total_order Nat.leb /\
  option_map (map r_items) (lcm Nat.leb (Abs 1) [[2;1];[2;3;1]] true (-1) [0;1;2]) = Some [[1;2];[1;2;3]] /\
  option_map (map r_items) (lcm Nat.leb (Abs 1) [[2;1];[2;3;1]] false (-1) [0;1;2]) = Some [[2;1];[1;2;3]].
Proof.
  split; [|split; vm_compute; reflexivity]; split.
  - intros x y; rewrite !Nat.leb_le; lia.
  - intros x y z; rewrite !Nat.leb_le; lia.
Qed.

(* ------------------------------------------------------------------------ C71 *)
Section History.
  Context {A : Type} `{EqDec A}.
  (* fit succeeds on at least one transaction with a documented threshold *)
  Definition good_fit (ms : minsupp) (d : data A) : Prop :=
    rows_of d <> [] /\ match ms with Abs m => (1 <= m)%Z | Rel q => (0 <= q <= 1)%Q end.
  (* [last_fit h ms l]: after the calls [h], the parameter is [ms] and the last successful
     fit, if any, was on [l]: threshold and data *)
  Inductive last_fit (ms0 : minsupp) : list (call A) -> minsupp -> option (minsupp * data A) -> Prop :=
  | lf_new : last_fit ms0 [] ms0 None
  | lf_set h ms l ms' : last_fit ms0 h ms l -> last_fit ms0 (h ++ [SetMinSupp ms']) ms' l
  | lf_transform h ms l d x m s : last_fit ms0 h ms l -> last_fit ms0 (h ++ [Transform d x m s]) ms l
  | lf_fit h ms l d : last_fit ms0 h ms l -> good_fit ms d -> last_fit ms0 (h ++ [Fit d]) ms (Some (ms, d))
  | lf_bad h ms l d : last_fit ms0 h ms l -> ~ good_fit ms d -> last_fit ms0 (h ++ [Fit d]) ms l.
  (* the inputs that transform takes for data fitted on [d0]: a Series with as many
     transactions, a list whose last transaction has as many items, and across the kinds *)
  Definition compatible (d d0 : data A) : Prop :=
    match d, d0 with
    | AsSeries D, AsSeries D0 => length D = length D0
    | AsSeries D, AsList D0 => length D = length (last D0 [])
    | AsList D, AsSeries D0 => D <> [] /\ length (last D []) = length D0
    | AsList D, AsList D0 => D <> [] /\ length (last D []) = length (last D0 [])
    end.

  Context (leA : A -> A -> bool).
  Lemma run_app e h c : run leA e (h ++ [c]) = fst (step leA (run leA e h) c).
  Proof.
    revert e; induction h as [|x t IH]; intros e; cbn [app run]; [reflexivity|]; apply IH.
  Qed.

  Lemma check_good ms : check_min_supp (minsupp_val ms) true = None <-> accepted ms.
  Proof.
    rewrite (fit_accepted ms ([] : list (list A))); unfold fit.
    destruct (check_min_supp (minsupp_val ms) true); split; congruence.
  Qed.
  Lemma width_some (d : data A) : rows_of d <> [] -> exists w, width d = Ret w.
  Proof.
    destruct d as [D|D]; cbn [rows_of width]; intros Hd; [|eexists; reflexivity].
    destruct (rev D) as [|t l] eqn:E; [|eexists; reflexivity].
    exfalso; apply Hd; rewrite <- (rev_involutive D), E; reflexivity.
  Qed.
  Lemma width_last (D : list (list A)) :
    width (AsList D) = match D with [] => Exn IndexError | _ => Ret (length (last D [])) end.
  Proof.
    destruct D as [|x D']; [reflexivity|].
    destruct (exists_last (l := x :: D')) as [l [t E]]; [discriminate|].
    cbn [width]; rewrite E, rev_unit, last_last; destruct l; reflexivity.
  Qed.
  Lemma width_compatible d d0 w0 : rows_of d0 <> [] -> width d0 = Ret w0 ->
    match width d with
    | Ret w => w = w0 <-> compatible d d0
    | _ => ~ compatible d d0
    end.
  Proof.
    intros H0 E0.
    assert (W0 : w0 = match d0 with AsSeries D0 => length D0 | AsList D0 => length (last D0 []) end).
    { destruct d0 as [D0|D0]; [|injection E0 as <-; reflexivity].
      rewrite width_last in E0; destruct D0; [discriminate | injection E0 as <-; reflexivity]. }
    destruct d as [D|D].
    - rewrite width_last; destruct D as [|t D].
      + destruct d0; intros [F _]; apply F; reflexivity.
      + subst w0; destruct d0; (split; [intros E; split; [discriminate | exact E] | intros [_ E]; exact E]).
    - subst w0; cbn [width]; destruct d0; reflexivity.
  Qed.

  (* what the state is after a history *)
  Definition matches (e : est) (maxi : bool) (ms : minsupp) (l : option (minsupp * data A)) : Prop :=
    e_max e = maxi /\ e_ms e = ms /\
    match l, e_fit e with
    | None, None => True
    | Some (ms1, d), Some f =>
        good_fit ms1 d /\ f_ms f = ms1 /\ f_n f = length (rows_of d)
        /\ f_tbl f = fit_table ms1 (rows_of d) /\ width d = Ret (f_width f)
    | _, _ => False
    end.
  Lemma run_matches maxi ms0 h ms l : last_fit ms0 h ms l ->
    matches (run leA (create maxi ms0) h) maxi ms l.
  Proof.
    induction 1 as [|h ms l ms' Hl IH|h ms l d x m s Hl IH|h ms l d Hl IH Hg|h ms l d Hl IH Hg].
    - repeat split.
    - rewrite run_app; destruct IH as [H1 [H2 H3]]; split; [exact H1|]; split; [reflexivity | exact H3].
    - rewrite run_app; exact IH.
    - rewrite run_app; destruct IH as [H1 [H2 H3]].
      set (e := run leA (create maxi ms0) h) in *; clearbody e; cbn [step]; unfold do_fit.
      destruct (width_some d (proj1 Hg)) as [w Hw].
      pose proof (proj2 (check_good ms) (proj2 Hg)) as Hc; rewrite H2, Hc, Hw.
      destruct (rows_of d) as [|t D] eqn:Ed; [destruct (proj1 Hg Ed)|].
      cbn [fst]; unfold matches; cbn [e_max e_ms e_fit f_ms f_n f_tbl f_width].
      rewrite Ed; repeat split; try assumption; try apply Hg.
    - rewrite run_app; destruct IH as [H1 [H2 H3]].
      set (e := run leA (create maxi ms0) h) in *; clearbody e; cbn [step]; unfold do_fit.
      rewrite H2; destruct (rows_of d) as [|t D] eqn:Ed; [repeat split; assumption|].
      destruct (check_min_supp (minsupp_val ms) true) as [x|] eqn:Hc; [repeat split; assumption|].
      exfalso; apply Hg; split; [congruence | apply check_good, Hc].
  Qed.
  Lemma last_fit_exists ms0 h : exists ms l, last_fit ms0 h ms l.
  Proof.
    induction h as [|c h [ms [l IH]]] using rev_ind; [eexists; eexists; constructor|].
    destruct c as [ms'|d|d x m s].
    - exists ms', l; constructor 2 with ms; exact IH.
    - destruct (check_min_supp (minsupp_val ms) true) as [e4|] eqn:Hc.
      + exists ms, l; constructor; [exact IH|]; intros [_ G]; apply check_good in G; congruence.
      + destruct (rows_of d) as [|t D] eqn:Ed.
        * exists ms, l; constructor; [exact IH|]; intros [G _]; apply G, Ed.
        * exists ms, (Some (ms, d)); apply lf_fit with l; [exact IH|].
          split; [congruence | apply check_good, Hc].
    - exists ms, l; constructor; exact IH.
  Qed.
End History.

(* C71: every history of a new object determines a last successful fit (or none), and what
   transform returns is what a fresh object fitted there would return *)
Theorem C71_transform_depends_on_last_fit :
  forall (A : Type) (HA : EqDec A) (leA : A -> A -> bool) (maxi : bool) ms0 (h : list (call A)),
  (exists ms l, last_fit ms0 h ms l) /\
  forall ms l, last_fit ms0 h ms l ->
  forall d lexico ml sched,
  let answer := snd (step leA (run leA (create maxi ms0) h) (Transform d lexico ml sched)) in
  match l with
  | None => answer = Exn ValueError
  | Some (ms1, d0) =>
      (compatible d d0 -> exists rows,
         (if maxi then lcm_max leA ms1 (rows_of d0) lexico ml sched
          else lcm leA ms1 (rows_of d0) lexico ml sched) = Some rows
         /\ answer = Ret (Some rows)) /\
      (~ compatible d d0 -> answer = Exn (match d with AsList [] => IndexError | _ => ValueError end))
  end.
Proof.
  intros A HA leA maxi ms0 h; split; [apply last_fit_exists; exact leA|].
  intros ms l Hl d lexico ml sched; cbn zeta.
  pose proof (run_matches leA maxi ms0 h ms l Hl) as [H1 [_ H3]].
  set (e4 := run leA (create maxi ms0) h) in *; clearbody e4; cbn [step snd]; unfold do_transform.
  destruct l as [[ms1 d0]|]; destruct (e_fit e4) as [f|]; try contradiction; [|reflexivity].
  destruct H3 as [Hg [F1 [F2 [F3 F4]]]].
  pose proof (width_compatible d d0 (f_width f) (proj1 Hg) F4) as W.
  assert (Hf : fit ms1 (rows_of d0) = Some (fit_table ms1 (rows_of d0))) by (apply fit_accepted, Hg).
  destruct (width d) as [w|x|] eqn:HW; cbn [bind].
  - destruct (Nat.eqb_spec w (f_width f)) as [E|E]; cbn [negb].
    + split; [|intros N; exfalso; apply N, W, E].
      intros _; eexists; split; [|reflexivity].
      rewrite F1, F2, F3, H1; unfold lcm, lcm_max; rewrite Hf; destruct maxi; reflexivity.
    + split; [intros C; exfalso; apply E, W, C | intros _; destruct d as [[|t D]|D]; [discriminate HW | reflexivity | reflexivity]].
  - split; [intros C; destruct (W C) | intros _; destruct d as [D|D]; [rewrite width_last in HW; destruct D; [|discriminate]|discriminate]; congruence].
  - exfalso; destruct d as [D|D]; [rewrite width_last in HW; destruct D|]; discriminate.
Qed.
Print Assumptions C71_transform_depends_on_last_fit.
(* a refit with a refused threshold, a changed parameter and an earlier transform leave
   the second fit in force *)
Definition h71 : list (call nat) :=
  [Fit (AsList [[7]]); SetMinSupp (Abs 2); Fit (AsList [[2;1];[2;3]]);
   Transform (AsList [[9]]) true (-1) [0]; SetMinSupp (Abs 0); Fit (AsList [[5]]); SetMinSupp (Abs 9)].
Example C71_case :
  last_fit (Abs 1) h71 (Abs 9) (Some (Abs 2, AsList [[2;1];[2;3]])) /\
  compatible (AsList [[0;0]]) (AsList [[2;1];[2;3]]) /\
  snd (step Nat.leb (run Nat.leb (create false (Abs 1)) h71) (Transform (AsList [[0;0]]) true (-1) [0]))
  = Ret (Some [{| r_items := [2]; r_supp := 2; r_tids := [0;1] |}]).
Proof.
  split; [|split; [split; [discriminate | reflexivity] | vm_compute; reflexivity]].
  unfold h71.
  apply (lf_set (Abs 1) [Fit _; SetMinSupp _; Fit _; Transform _ _ _ _; SetMinSupp _; Fit _] (Abs 0)).
  apply (lf_bad (Abs 1) [Fit _; SetMinSupp _; Fit _; Transform _ _ _ _; SetMinSupp _]);
    [|intros [_ F]; cbn in F; lia].
  apply (lf_set (Abs 1) [Fit _; SetMinSupp _; Fit _; Transform _ _ _ _] (Abs 2)).
  apply (lf_transform (Abs 1) [Fit _; SetMinSupp _; Fit _]).
  apply (lf_fit (Abs 1) [Fit _; SetMinSupp _] (Abs 2) (Some (Abs 1, AsList [[7]])));
    [|split; [discriminate | cbn; lia]].
  apply (lf_set (Abs 1) [Fit _] (Abs 1)).
  apply (lf_fit (Abs 1) [] (Abs 1) None); [constructor | split; [discriminate | cbn; lia]].
Qed.
