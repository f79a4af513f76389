(* The fit loop: candidates are fresh, the invariant is kept, totals strictly
   decrease, and the search stops. *)
From Verif Require Import Prelude CheckModel LCMModel LCMProofs ItemsetSpec VerticalProofs LCMLift
  SlimModel SlimProofs SlimInv SlimRun.

Section Fit.
  Context {A : Type} `{EqDec A}.
  Context {T : Type} (total : ktable A (list nat) -> T) (tlt : T -> T -> bool).
  Context (ord : list A -> list A -> bool).
  Context (iter : list (list A) -> list (list A)).
  Context (iter_perm : forall l, Permutation (iter l) l).
  Context (tlt_trans : forall t1 t2 t3, tlt t1 t2 = true -> tlt t2 t3 = true -> tlt t1 t3 = true).
  Context {G : Type} (gain : ktable A (list nat) -> list A -> list A -> G)
          (gpos : G -> bool) (gge : G -> G -> bool).
  Context (reorder : ktable A (list nat) -> ktable A (list nat)).
  Context (reorder_perm : forall c, Permutation (reorder c) c).
  Implicit Types (std : dict A (list nat)) (c : ktable A (list nat)).

  Lemma gen_y_spec c x xu ys : forall stack l stack', gen_y gain gpos c x xu ys stack = (l, stack') ->
    (forall k, kmem stack k = true -> kmem stack' k = true)
    /\ (forall p, In p l -> kmem stack (fst p) = false /\
          exists y yu t, In (y, yu) ys /\ fst p = union x y /\ In t xu /\ In t yu).
  Proof.
    induction ys as [|[y yu] ys IH]; intros stack l stack'; cbn [gen_y].
    - intros E; injection E as <- <-; split; [auto | intros p []].
    - destruct (kmem stack (union x y)) eqn:Ek.
      { intros E; apply IH in E; destruct E as [E1 E2]; split; [exact E1|].
        intros p Hp; destruct (E2 p Hp) as [F [y' [yu' [t [Hi Hr]]]]]; split; [exact F|].
        exists y', yu', t; split; [right; exact Hi | exact Hr]. }
      destruct (length yu =? 0).
      { intros E; apply IH in E; destruct E as [E1 E2]; split; [exact E1|].
        intros p Hp; destruct (E2 p Hp) as [F [y' [yu' [t [Hi Hr]]]]]; split; [exact F|].
        exists y', yu', t; split; [right; exact Hi | exact Hr]. }
      destruct (inter yu xu) as [|t0 ts] eqn:Ei; simpl (length _ =? 0).
      { intros E; apply IH in E; destruct E as [E1 E2]; split; [exact E1|].
        intros p Hp; destruct (E2 p Hp) as [F [y' [yu' [t [Hi Hr]]]]]; split; [exact F|].
        exists y', yu', t; split; [right; exact Hi | exact Hr]. }
      destruct (gen_y gain gpos c x xu ys (union x y :: stack)) as [l' s'] eqn:Eg.
      intros E; injection E as <- <-; apply IH in Eg; destruct Eg as [E1 E2]; split.
      + intros k Hk; apply E1; simpl; rewrite Hk; apply orb_true_r.
      + intros p Hp; apply in_app_iff in Hp; destruct Hp as [Hp|Hp].
        * destruct (gpos (gain c x y)); [|destruct Hp]; destruct Hp as [<-|[]]; simpl; split; [exact Ek|].
          assert (Ht : In t0 (inter yu xu)) by (rewrite Ei; left; reflexivity).
          apply In_inter in Ht; exists y, yu, t0; simpl; tauto.
        * destruct (E2 p Hp) as [F [y' [yu' [t [Hi Hr]]]]]; split.
          -- simpl in F; apply orb_false_iff in F; apply F.
          -- exists y', yu', t; split; [right; exact Hi | exact Hr].
  Qed.
  Lemma gen_x_spec c es : forall stack p, In p (gen_x gain gpos c es stack) ->
    kmem stack (fst p) = false /\
    exists x xu y yu t, In (x, xu) es /\ In (y, yu) es /\ fst p = union x y /\ In t xu /\ In t yu.
  Proof.
    induction es as [|[x xu] es IH]; intros stack p; cbn [gen_x]; [intros []|].
    assert (Hw : forall stk, In p (gen_x gain gpos c es stk) -> kmem stk (fst p) = false ->
      exists x0 xu0 y yu t, In (x0, xu0) ((x, xu) :: es) /\ In (y, yu) ((x, xu) :: es) /\
        fst p = union x0 y /\ In t xu0 /\ In t yu).
    { intros stk Hp _; destruct (IH stk p Hp) as [_ [x' [xu' [y [yu [t [H1 [H2 Hr]]]]]]]].
      exists x', xu', y, yu, t; split; [right; exact H1|]; split; [right; exact H2 | exact Hr]. }
    destruct (length xu =? 0).
    - intros Hp; destruct (IH stack p Hp) as [F _]; split; [exact F | apply (Hw stack Hp F)].
    - destruct (gen_y gain gpos c x xu es stack) as [l stack'] eqn:Eg; apply gen_y_spec in Eg; destruct Eg as [E1 E2].
      intros Hp; apply in_app_iff in Hp; destruct Hp as [Hp|Hp].
      + destruct (E2 p Hp) as [F [y [yu [t [Hi Hr]]]]]; split; [exact F|].
        exists x, xu, y, yu, t; split; [left; reflexivity|]; split; [right; exact Hi | exact Hr].
      + destruct (IH stack' p Hp) as [F _]; split; [|apply (Hw stack' Hp F)].
        destruct (kmem stack (fst p)) eqn:Es; [|reflexivity]; apply E1 in Es; congruence.
  Qed.

  Lemma NoDup_union (a b : list A) : NoDup a -> NoDup b -> NoDup (union a b).
  Proof.
    intros Ha Hb; unfold union; apply NoDup_app_intro; [exact Ha | apply NoDup_diff, Hb|].
    intros x Hx Hd; apply In_diff in Hd; tauto.
  Qed.

  Lemma candidates_ok (st : slim A T) p : inv st ->
    In p (generate_candidates gain gpos gge reorder st) ->
    key_ok (sct st) (fst p) /\ fresh st (fst p) /\ occupied (sct st).
  Proof.
    intros [Hn Gd] Hp; apply In_sort in Hp.
    apply gen_x_spec in Hp; destruct Hp as [F [x [xu [y [yu [t [Hx [Hy [E [Hxt Hyt]]]]]]]]]].
    apply (Permutation_in _ (reorder_perm (ct st))) in Hx; apply (Permutation_in _ (reorder_perm (ct st))) in Hy.
    pose proof (g_keys _ _ Gd x (in_map fst _ _ Hx)) as [Hx1 [Hx2 Hx3]].
    pose proof (g_keys _ _ Gd y (in_map fst _ _ Hy)) as [Hy1 [Hy2 Hy3]].
    split; [|split].
    - rewrite E; split; [apply NoDup_union; assumption|]; split.
      + destruct x; [congruence | discriminate].
      + intros z Hz; apply In_union in Hz; destruct Hz; auto.
    - exact F.
    - destruct x as [|a x]; [congruence|]; exists a, t.
      apply (ex_sound _ _ (g_exact _ _ Gd) _ Hx t a Hxt); left; reflexivity.
  Qed.

  Lemma try_candidates_spec pruning st (cands : list (list A * G)) : inv st ->
    (forall p, In p cands -> key_ok (sct st) (fst p) /\ fresh st (fst p) /\ occupied (sct st)) ->
    exists o, try_candidates total tlt ord iter pruning st cands = Ret o
      /\ match o with
         | None => True
         | Some st' => inv st' /\ sct st' = sct st /\ tlt (sz st') (sz st) = true
                       /\ sized total (sct st) (ct st') (sz st')
         end.
  Proof.
    intros I; induction cands as [|[c g] cands IH]; intros Hc; cbn [try_candidates].
    - exists None; auto.
    - destruct (Hc (c, g) (or_introl eq_refl)) as [Hk [Hf Ho]]; simpl in Hk, Hf.
      destruct (evaluate_spec total tlt ord iter iter_perm tlt_trans pruning st c I Hk Hf Ho) as [t [us [E [Gu [Ht _]]]]].
      rewrite E; cbn [bind fst snd]; destruct (tlt t (sz st)) eqn:Et.
      + exists (Some (update_with ord st t us)); split; [reflexivity|].
        destruct (update_with_spec ord st t us I Gu) as [I' Hg]; split; [exact I'|].
        split; [reflexivity|]; split; [exact Et|].
        apply (sized_ext total (sct st) us); [apply (g_distinct _ _ Gu) | apply (g_distinct _ _ (proj2 I')) | | exact Ht].
        intros k; symmetry; apply Hg.
      + apply IH; intros p Hp; apply Hc; right; exact Hp.
  Qed.
  Lemma round_spec pruning st : inv st ->
    exists o, round total tlt ord iter gain gpos gge reorder pruning st = Ret o
      /\ match o with
         | None => True
         | Some st' => inv st' /\ sct st' = sct st /\ tlt (sz st') (sz st) = true
                       /\ sized total (sct st) (ct st') (sz st')
         end.
  Proof. intros I; apply try_candidates_spec; [exact I|]; intros p; apply candidates_ok, I. Qed.

  Context (late : nat -> bool).
  Definition reached (st0 st : slim A T) : Prop :=
    inv st /\ sct st = sct st0 /\
    (st = st0 \/ tlt (sz st) (sz st0) = true /\ sized total (sct st0) (ct st) (sz st)).

  Lemma reached_step st0 st st' : reached st0 st -> inv st' -> sct st' = sct st ->
    tlt (sz st') (sz st) = true -> sized total (sct st) (ct st') (sz st') -> reached st0 st'.
  Proof.
    intros [I [E R]] I' E' Hlt Hs; split; [exact I'|]; split; [congruence|]; right.
    split; [|rewrite <- E; exact Hs].
    destruct R as [->|[R _]]; [exact Hlt | eapply tlt_trans; eassumption].
  Qed.

  Lemma fit_loop_sound pruning : forall fuel n st0 st, reached st0 st ->
    match fit_loop total tlt ord iter gain gpos gge reorder late fuel n pruning st with
    | Ret st' => reached st0 st'
    | Exn _ => False
    | NoFuel => True
    end.
  Proof.
    induction fuel as [|fuel IH]; intros n st0 st R; cbn [fit_loop]; [exact I|].
    destruct (round_spec pruning st (proj1 R)) as [o [E Ho]]; rewrite E; cbn [bind].
    destruct o as [st'|]; [|exact R]; destruct Ho as [I' [E' [Hlt Hs]]].
    assert (R' : reached st0 st') by (eapply reached_step; eassumption).
    destruct (late n); [exact R' | apply IH, R'].
  Qed.

  (* ------------------------------------------------------------- termination *)
  Fixpoint lists {B} (n : nat) (al : list B) : list (list B) :=
    match n with
    | 0 => [[]]
    | S n => [] :: flat_map (fun x => map (cons x) (lists n al)) al
    end.
  Lemma In_lists {B} (al : list B) : forall n l, length l <= n -> incl l al -> In l (lists n al).
  Proof.
    induction n as [|n IH]; intros l Hl Hi; destruct l as [|x l]; simpl in *; try lia; auto.
    right; apply in_flat_map; exists x; split; [apply Hi; left; reflexivity|].
    apply in_map, IH; [lia | intros y Hy; apply Hi; right; exact Hy].
  Qed.

  Definition all_entries std : list (list A * list nat) :=
    let U := concat (map snd std) in
    list_prod (lists (length (dkeys std)) (dkeys std)) (lists (length U) U).
  Definition all_totals std : list T :=
    map total (lists (length (all_entries std)) (all_entries std)).

  Lemma In_all_entries std c e : good std c -> In e c -> In e (all_entries std).
  Proof.
    intros Gd He; destruct e as [k v]; apply in_prod.
    - destruct (g_keys _ _ Gd k (in_map fst _ _ He)) as [K1 [K2 K3]].
      apply In_lists; [apply NoDup_incl_length; assumption | exact K3].
    - assert (Hin : incl v (concat (map snd std))).
      { intros t Ht; destruct (g_keys _ _ Gd k (in_map fst _ _ He)) as [K1 [K2 K3]].
        destruct k as [|x k]; [congruence|].
        pose proof (ex_sound _ _ (g_exact _ _ Gd) _ He t x Ht (or_introl eq_refl)) as Hx.
        unfold tids in Hx; destruct (dget std x) as [w|] eqn:E; [|destruct Hx].
        apply in_concat; exists w; split; [|exact Hx]; apply in_map_iff; exists (x, w); split; [reflexivity | apply dget_In, E]. }
      apply In_lists; [|exact Hin]; apply NoDup_incl_length; [|exact Hin].
      apply (g_nodup _ _ Gd (k, v) He).
  Qed.
  Lemma In_all_totals std c t : sized total std c t -> In t (all_totals std).
  Proof.
    intros [c0 [Gd [-> _]]]; apply in_map, In_lists.
    - apply NoDup_incl_length.
      + apply NoDup_filter, (NoDup_map_inv fst), distinct_NoDup, (g_distinct _ _ Gd).
      + intros e He; apply filter_In in He; eapply In_all_entries; [exact Gd | apply He].
    - intros e He; apply filter_In in He; eapply In_all_entries; [exact Gd | apply He].
  Qed.

  Context (tlt_irrefl : forall t, tlt t t = false).

  Lemma fit_loop_stops pruning st0 : forall fuel n st chain, reached st0 st ->
    NoDup chain -> incl chain (sz st0 :: all_totals (sct st0)) ->
    (forall w, In w chain -> tlt (sz st) w = true) ->
    S (length (all_totals (sct st0))) - length chain < fuel ->
    exists st', fit_loop total tlt ord iter gain gpos gge reorder late fuel n pruning st = Ret st'.
  Proof.
    induction fuel as [|fuel IH]; intros n st chain R Hd Hi Hc Hf; [lia|].
    cbn [fit_loop]; destruct (round_spec pruning st (proj1 R)) as [o [E Ho]]; rewrite E; cbn [bind].
    destruct o as [st'|]; [|eauto]; destruct Ho as [I' [E' [Hlt Hs]]].
    assert (R' : reached st0 st') by (eapply reached_step; eassumption).
    destruct (late n); [eauto|].
    assert (Hnin : ~ In (sz st) chain).
    { intros Hin; apply Hc in Hin; rewrite tlt_irrefl in Hin; discriminate. }
    assert (Hi2 : incl (sz st :: chain) (sz st0 :: all_totals (sct st0))).
    { intros w [<-|Hw]; [|apply Hi, Hw].
      destruct R as [_ [_ [->|[_ R]]]]; [left; reflexivity | right; eapply In_all_totals, R]. }
    assert (Hd2 : NoDup (sz st :: chain)) by (constructor; assumption).
    pose proof (NoDup_incl_length Hd2 Hi2) as Hlen; simpl in Hlen.
    apply (IH (S n) st' (sz st :: chain) R' Hd2 Hi2); [|simpl; lia].
    intros w [<-|Hw]; [exact Hlt | eapply tlt_trans; [exact Hlt | apply Hc, Hw]].
  Qed.
End Fit.
