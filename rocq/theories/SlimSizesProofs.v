From Coq Require Import Reals Lra.
From Verif Require Import Prelude CheckModel LCMModel LCMProofs ItemsetSpec VerticalProofs LCMLift
  SlimModel SlimProofs SlimInv SlimRun SlimFit SlimSizesModel.
Local Open Scope R_scope.

Section Sums.
  Context {B : Type}.
  Implicit Types (f g : B -> R) (l : list B).
  Lemma Rsum_app f l l' : Rsum f (l ++ l') = Rsum f l + Rsum f l'.
  Proof. induction l as [|x l IH]; simpl; [ring|]; rewrite IH; ring. Qed.
  Lemma Rsum_perm f l l' : Permutation l l' -> Rsum f l = Rsum f l'.
  Proof. induction 1; simpl; [reflexivity | rewrite IHPermutation; reflexivity | ring | congruence]. Qed.
  Lemma Rsum_ext f g l : (forall x, In x l -> f x = g x) -> Rsum f l = Rsum g l.
  Proof.
    induction l as [|x l IH]; intros Hx; simpl; [reflexivity|].
    rewrite (Hx x (or_introl eq_refl)), IH; [reflexivity|]; intros y Hy; apply Hx; right; exact Hy.
  Qed.
  Lemma Rsum_plus f g l : Rsum (fun x => f x + g x) l = Rsum f l + Rsum g l.
  Proof. induction l as [|x l IH]; simpl; [ring|]; rewrite IH; ring. Qed.
  Lemma Rsum_zero f l : (forall x, In x l -> f x = 0) -> Rsum f l = 0.
  Proof.
    induction l as [|x l IH]; intros Hx; simpl; [reflexivity|].
    rewrite (Hx x (or_introl eq_refl)), IH; [ring|]; intros y Hy; apply Hx; right; exact Hy.
  Qed.
  Lemma Rsum_mult f a l : Rsum (fun x => f x * a) l = Rsum f l * a.
  Proof. induction l as [|x l IH]; simpl; [ring|]; rewrite IH; ring. Qed.
  Lemma Rsum_filter f (p : B -> bool) l : (forall x, In x l -> p x = false -> f x = 0) ->
    Rsum f (filter p l) = Rsum f l.
  Proof.
    induction l as [|x l IH]; intros Hx; simpl; [reflexivity|].
    assert (Hl : forall y, In y l -> p y = false -> f y = 0) by (intros y Hy; apply Hx; right; exact Hy).
    destruct (p x) eqn:E; simpl; rewrite (IH Hl); [reflexivity|].
    rewrite (Hx x (or_introl eq_refl) E); ring.
  Qed.
  Lemma Rsum_nonneg f l : (forall x, In x l -> 0 <= f x) -> 0 <= Rsum f l.
  Proof.
    induction l as [|x l IH]; intros Hx; simpl; [lra|].
    assert (0 <= f x) by (apply Hx; left; reflexivity).
    assert (0 <= Rsum f l) by (apply IH; intros y Hy; apply Hx; right; exact Hy). lra.
  Qed.
  Lemma Rsum_pos f l x : (forall y, In y l -> 0 <= f y) -> In x l -> 0 < f x -> 0 < Rsum f l.
  Proof.
    induction l as [|y l IH]; intros Hx Hi Hp; simpl; [destruct Hi|].
    assert (0 <= f y) by (apply Hx; left; reflexivity).
    assert (Hl : forall z, In z l -> 0 <= f z) by (intros z Hz; apply Hx; right; exact Hz).
    destruct Hi as [->|Hi]; [pose proof (Rsum_nonneg f l Hl); lra|].
    pose proof (IH Hl Hi Hp); lra.
  Qed.
  Lemma Rsum_const l a : Rsum (fun _ => a) l = INR (length l) * a.
  Proof.
    induction l as [|x l IH]; [simpl; ring|].
    cbn [Rsum fold_right length] in *; fold (Rsum (fun _ : B => a) l); rewrite IH, S_INR; ring.
  Qed.
  Lemma INR_list_sum (h : B -> nat) l : INR (list_sum (map h l)) = Rsum (fun x => INR (h x)) l.
  Proof.
    induction l as [|x l IH]; [reflexivity|].
    change (list_sum (map h (x :: l))) with (h x + list_sum (map h l))%nat; rewrite plus_INR, IH; reflexivity.
  Qed.
End Sums.
Lemma Rsum_map {B C} (f : C -> R) (h : B -> C) l : Rsum f (map h l) = Rsum (fun x => f (h x)) l.
Proof. induction l as [|x l IH]; simpl; [reflexivity|]; rewrite IH; reflexivity. Qed.
Lemma Rsum_swap {B C} (f : B -> C -> R) l l' :
  Rsum (fun x => Rsum (fun y => f x y) l') l = Rsum (fun y => Rsum (fun x => f x y) l) l'.
Proof.
  induction l as [|x l IH]; simpl.
  - symmetry; apply Rsum_zero; reflexivity.
  - rewrite IH, <- Rsum_plus; reflexivity.
Qed.
Lemma Rsum_concat {B} (f : B -> R) ls : Rsum f (concat ls) = Rsum (fun l => Rsum f l) ls.
Proof. induction ls as [|l ls IH]; simpl; [reflexivity|]; rewrite Rsum_app, IH; reflexivity. Qed.

Section Keyed.
  Context {A : Type} `{EqDec A}.
  Implicit Types (c : ktable A (list nat)).

  Lemma kdel_absent c k : kmem (map fst c) k = false -> kdel c k = c.
  Proof.
    induction c as [|[q w] c IH]; simpl; intros E; [reflexivity|].
    apply orb_false_iff in E; destruct E as [E1 E2]; rewrite E1; simpl; rewrite IH by exact E2; reflexivity.
  Qed.
  Lemma sum_kdel f c : forall k k' v, kdistinct c -> In (k', v) c -> seteq k k' = true ->
    Rsum f c = f (k', v) + Rsum f (kdel c k).
  Proof.
    induction c as [|[q w] c IH]; intros k k' v Hd Hi Hs; [destruct Hi|].
    apply distinct_cons in Hd; destruct Hd as [Hq Hd]; simpl in Hq.
    simpl; destruct Hi as [E|Hi].
    - injection E as -> ->; rewrite Hs; simpl; rewrite kdel_absent; [reflexivity|].
      rewrite (kmem_ext _ _ _ Hs); exact Hq.
    - assert (E : seteq k q = false).
      { destruct (seteq k q) eqn:E; [|reflexivity]; exfalso.
        apply kmem_false with (k' := k') in Hq; [|apply (in_map fst) in Hi; exact Hi].
        rewrite seteq_sym in E; rewrite (seteq_trans q k k' E Hs) in Hq; discriminate. }
      rewrite E; simpl; rewrite (IH k k' v Hd Hi Hs); ring.
  Qed.
  (* sums over two tables that are the same mapping *)
  Lemma sum_same_map f c : forall c',
    (forall k k' v, In (k, v) c -> In (k', v) c' -> seteq k k' = true -> f (k, v) = f (k', v)) ->
    kdistinct c -> kdistinct c' -> (forall k, kget c k = kget c' k) -> Rsum f c = Rsum f c'.
  Proof.
    induction c as [|[k v] c IH]; intros c' Hf Hd Hd' Hg.
    - destruct c' as [|[q w] c']; [reflexivity|].
      specialize (Hg q); simpl in Hg; rewrite seteq_refl in Hg; discriminate.
    - apply distinct_cons in Hd; destruct Hd as [Hk Hd]; simpl in Hk.
      pose proof (Hg k) as Ek; simpl in Ek; rewrite seteq_refl in Ek; symmetry in Ek.
      apply kget_Some in Ek; destruct Ek as [k' [Hi Hs]].
      rewrite (sum_kdel f c' k k' v Hd' Hi Hs); simpl.
      rewrite (Hf k k' v (or_introl eq_refl) Hi Hs), (IH (kdel c' k)); [reflexivity | | exact Hd | |].
      + intros q q' w Hq Hq' E; apply Hf; [right; exact Hq | | exact E].
        apply filter_In in Hq'; apply Hq'.
      + apply kdel_distinct, Hd'.
      + intros q; rewrite kdel_get, <- Hg; simpl; rewrite (seteq_sym q k).
        destruct (seteq k q) eqn:E; [|reflexivity].
        apply kget_None; rewrite <- (kmem_ext _ _ _ E); exact Hk.
  Qed.
End Keyed.

Section Codes.
  Context {A : Type} `{EqDec A}.

  (* weighted sum over a Counter *)
  Lemma count_items_sum (f : A -> R) l :
    Rsum (fun p => f (fst p) * INR (snd p)) (count_items l) = Rsum f l.
  Proof.
    unfold count_items.
    assert (Hstep : forall (d : dict A nat) x, NoDup (dkeys d) ->
      Rsum (fun p => f (fst p) * INR (snd p)) (dset d x (S (match dget d x with Some n => n | None => 0%nat end)))
      = f x + Rsum (fun p => f (fst p) * INR (snd p)) d).
    { induction d as [|[k n] d IH]; intros x Hn; [simpl; ring|].
      inversion Hn as [|? ? Hk Hn']; subst; cbn [dset dget]; destruct (eq_dec x k) as [->|ne].
      - cbn [Rsum fold_right fst snd]; rewrite S_INR; ring.
      - cbn [Rsum fold_right fst snd] in *; fold (Rsum (fun p : A * nat => f (fst p) * INR (snd p))).
        specialize (IH x Hn'); unfold Rsum in IH; unfold Rsum; rewrite IH; ring. }
    assert (Hgen : forall d, NoDup (dkeys d) ->
      Rsum (fun p => f (fst p) * INR (snd p))
        (fold_left (fun d x => dset d x (S (match dget d x with Some n => n | None => 0%nat end))) l d)
      = Rsum (fun p => f (fst p) * INR (snd p)) d + Rsum f l).
    { induction l as [|x l IH]; intros d Hn; cbn [fold_left]; [simpl; ring|].
      rewrite IH by (apply NoDup_dset, Hn); rewrite Hstep by exact Hn.
      cbn [Rsum fold_right]; fold (Rsum f l); ring. }
    rewrite Hgen by constructor; simpl; ring.
  Qed.

  Lemma usage_sum_perm {K} (c c' : list (K * list nat)) : Permutation c c' -> usage_sum c = usage_sum c'.
  Proof.
    intros Hp; unfold usage_sum; apply (Permutation_map (fun e => length (snd e))) in Hp.
    induction Hp as [|x l l' Hp IH|x y l|]; cbn [list_sum fold_right] in *; unfold list_sum in *; cbn [fold_right]; lia.
  Qed.
  Lemma usage_sum_used (c : ktable A (list nat)) : usage_sum (used c) = usage_sum c.
  Proof.
    unfold usage_sum, used; induction c as [|e c IH]; [reflexivity|]; cbn [filter map].
    change (list_sum (length (snd e) :: map (fun e => length (snd e)) c))
      with (length (snd e) + list_sum (map (fun e => length (snd e)) c))%nat; rewrite <- IH.
    destruct (snd e) eqn:E; cbn [length Nat.ltb Nat.leb map]; [reflexivity|]; rewrite E; reflexivity.
  Qed.
End Codes.
