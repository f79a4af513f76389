(* Shared vocabulary: decidable equality, finite sets represented by lists,
   stable sorting as done by Python's [sorted], and [SortedList] insertion.

   Python [set], [frozenset] and pyroaring [BitMap] values are represented by
   lists; only membership and cardinality are observable.  The cardinality of
   the set denoted by a list is [card], which ignores repetitions. *)
From Coq Require Export List Arith Bool Lia ZArith Permutation Sorted.
Export ListNotations.

Class EqDec (A : Type) := eq_dec : forall x y : A, {x = y} + {x <> y}.
#[export] Instance EqDec_nat : EqDec nat := Nat.eq_dec.
#[export] Instance EqDec_Z : EqDec Z := Z.eq_dec.
#[export] Instance EqDec_bool : EqDec bool := Bool.bool_dec.
#[export] Instance EqDec_list {A} `{EqDec A} : EqDec (list A) := list_eq_dec eq_dec.
#[export] Instance EqDec_prod {A B} `{EqDec A} `{EqDec B} : EqDec (A * B).
Proof.
  intros [a b] [c d].
  destruct (eq_dec a c) as [->|n]; [destruct (eq_dec b d) as [->|n]|].
  - left; reflexivity.
  - right; congruence.
  - right; congruence.
Defined.
#[export] Instance EqDec_option {A} `{EqDec A} : EqDec (option A).
Proof.
  intros [a|] [b|].
  - destruct (eq_dec a b) as [->|n]; [left; reflexivity | right; congruence].
  - right; congruence.
  - right; congruence.
  - left; reflexivity.
Defined.

(* ---------------------------------------------------------------- sets *)
Section Sets.
  Context {A : Type} `{EqDec A}.

  Definition eqd (x y : A) : bool := if eq_dec x y then true else false.
  (* Python [x in l] *)
  Definition mem (x : A) (l : list A) : bool := existsb (eqd x) l.
  (* Python [a <= b], [a.issubset(b)] *)
  Definition subset (a b : list A) : bool := forallb (fun x => mem x b) a.
  (* Python [a < b] on sets *)
  Definition psubset (a b : list A) : bool := subset a b && negb (subset b a).
  (* Python [a == b] on sets *)
  Definition seteq (a b : list A) : bool := subset a b && subset b a.
  (* Python [a & b], [a - b], [a | b] *)
  Definition inter (a b : list A) : list A := filter (fun x => mem x b) a.
  Definition diff (a b : list A) : list A := filter (fun x => negb (mem x b)) a.
  Definition union (a b : list A) : list A := a ++ diff b a.
  (* Python [len(s)] *)
  Definition card (a : list A) : nat := length (nodup eq_dec a).

  Lemma eqd_true x y : eqd x y = true <-> x = y.
  Proof. unfold eqd; destruct (eq_dec x y); split; congruence. Qed.
  Lemma eqd_false x y : eqd x y = false <-> x <> y.
  Proof. unfold eqd; destruct (eq_dec x y); split; congruence. Qed.
  Lemma eqd_refl x : eqd x x = true.
  Proof. apply eqd_true; reflexivity. Qed.

  Lemma mem_In x l : mem x l = true <-> In x l.
  Proof.
    unfold mem; rewrite existsb_exists; split.
    - intros [y [Hy E]]; apply eqd_true in E; congruence.
    - intros Hx; exists x; split; [exact Hx | apply eqd_refl].
  Qed.
  Lemma mem_false x l : mem x l = false <-> ~ In x l.
  Proof. rewrite <- mem_In; destruct (mem x l); split; congruence. Qed.
  Lemma mem_spec x l : reflect (In x l) (mem x l).
  Proof. apply iff_reflect; symmetry; apply mem_In. Qed.

  Lemma mem_app x l1 l2 : mem x (l1 ++ l2) = mem x l1 || mem x l2.
  Proof. unfold mem; apply existsb_app. Qed.

  Lemma subset_incl a b : subset a b = true <-> incl a b.
  Proof.
    unfold subset; rewrite forallb_forall; unfold incl.
    split; intros Hs x Hx; apply mem_In; auto.
  Qed.
  Lemma subset_false a b : subset a b = false <-> ~ incl a b.
  Proof. rewrite <- subset_incl; destruct (subset a b); split; congruence. Qed.
  Lemma psubset_spec a b : psubset a b = true <-> incl a b /\ ~ incl b a.
  Proof.
    unfold psubset; rewrite andb_true_iff, negb_true_iff, subset_incl, subset_false; tauto.
  Qed.
  Lemma seteq_spec a b : seteq a b = true <-> incl a b /\ incl b a.
  Proof. unfold seteq; rewrite andb_true_iff, !subset_incl; tauto. Qed.

  Lemma In_inter x a b : In x (inter a b) <-> In x a /\ In x b.
  Proof. unfold inter; rewrite filter_In, mem_In; tauto. Qed.
  Lemma In_diff x a b : In x (diff a b) <-> In x a /\ ~ In x b.
  Proof. unfold diff; rewrite filter_In, negb_true_iff, mem_false; tauto. Qed.
  Lemma In_union x a b : In x (union a b) <-> In x a \/ In x b.
  Proof.
    unfold union; rewrite in_app_iff, In_diff.
    destruct (mem_spec x a); tauto.
  Qed.

  Lemma NoDup_filter (f : A -> bool) l : NoDup l -> NoDup (filter f l).
  Proof.
    induction 1 as [|x l Hx Hl IH]; simpl; [constructor|].
    destruct (f x); [constructor; [rewrite filter_In; tauto | exact IH] | exact IH].
  Qed.
  Lemma NoDup_inter a b : NoDup a -> NoDup (inter a b).
  Proof. apply NoDup_filter. Qed.
  Lemma NoDup_diff a b : NoDup a -> NoDup (diff a b).
  Proof. apply NoDup_filter. Qed.

  Lemma card_NoDup a : NoDup a -> card a = length a.
  Proof. intros Hn; unfold card; rewrite nodup_fixed_point; auto. Qed.

  Lemma card_incl a b : incl a b -> card a <= card b.
  Proof.
    intros Hi; unfold card; apply NoDup_incl_length; [apply NoDup_nodup|].
    intros x Hx; apply nodup_In; apply Hi; apply nodup_In in Hx; exact Hx.
  Qed.
  Lemma card_psub a b : incl a b -> ~ incl b a -> card a < card b.
  Proof.
    intros Hi Hn; destruct (Nat.lt_ge_cases (card a) (card b)) as [Hl|Hl]; [exact Hl|].
    exfalso; apply Hn.
    assert (Hr : incl (nodup eq_dec b) (nodup eq_dec a)).
    { apply NoDup_length_incl; [apply NoDup_nodup | exact Hl |].
      intros x Hx; apply nodup_In; apply Hi; apply nodup_In in Hx; exact Hx. }
    intros x Hx; apply (nodup_In eq_dec); apply Hr; apply nodup_In; exact Hx.
  Qed.
  Lemma card_seteq a b : incl a b -> incl b a -> card a = card b.
  Proof. intros H1 H2; apply card_incl in H1; apply card_incl in H2; lia. Qed.
  Lemma card_eq_incl a b : incl a b -> card b <= card a -> incl b a.
  Proof.
    intros Hi Hl; destruct (subset b a) eqn:E; [apply subset_incl; exact E|].
    apply subset_false in E; pose proof (card_psub a b Hi E); lia.
  Qed.
End Sets.

(* ------------------------------------------------------- stable sorting *)
(* Python [sorted]: stable.  [leb x y] stands for "key x <= key y" (or >= for
   [reverse=True], which Python also keeps stable). *)
Section Sorting.
  Context {A : Type} (leb : A -> A -> bool).

  Fixpoint insert_left (x : A) (l : list A) : list A :=
    match l with
    | [] => [x]
    | y :: t => if leb x y then x :: y :: t else y :: insert_left x t
    end.
  Definition sort (l : list A) : list A := fold_right insert_left [] l.

  (* sortedcontainers.SortedList.add: to the right of equal keys *)
  Fixpoint insert_right (x : A) (l : list A) : list A :=
    match l with
    | [] => [x]
    | y :: t => if leb y x then y :: insert_right x t else x :: y :: t
    end.

  Lemma insert_left_perm x l : Permutation (insert_left x l) (x :: l).
  Proof.
    induction l as [|y t IH]; simpl; [reflexivity|].
    destruct (leb x y); [reflexivity|].
    rewrite IH; apply perm_swap.
  Qed.
  Lemma insert_right_perm x l : Permutation (insert_right x l) (x :: l).
  Proof.
    induction l as [|y t IH]; simpl; [reflexivity|].
    destruct (leb y x); [|reflexivity].
    rewrite IH; apply perm_swap.
  Qed.
  Lemma sort_perm l : Permutation (sort l) l.
  Proof.
    induction l as [|x t IH]; simpl; [reflexivity|].
    rewrite insert_left_perm; constructor; exact IH.
  Qed.
  Lemma In_sort x l : In x (sort l) <-> In x l.
  Proof.
    split; apply Permutation_in; [|symmetry]; apply sort_perm.
  Qed.
  Lemma length_sort l : length (sort l) = length l.
  Proof. apply Permutation_length, sort_perm. Qed.
  Lemma NoDup_sort l : NoDup l -> NoDup (sort l).
  Proof. apply Permutation_NoDup; symmetry; apply sort_perm. Qed.

  Definition le_rel (x y : A) : Prop := leb x y = true.
  Context (leb_total : forall x y, leb x y = true \/ leb y x = true).
  Context (leb_trans : forall x y z, leb x y = true -> leb y z = true -> leb x z = true).

  Lemma insert_left_sorted x l :
    StronglySorted le_rel l -> StronglySorted le_rel (insert_left x l).
  Proof.
    induction 1 as [|y t Ht IH Hy]; simpl; [repeat constructor|].
    destruct (leb x y) eqn:E.
    - constructor; [constructor; assumption|].
      constructor; [exact E|].
      rewrite Forall_forall in *; intros z Hz; apply (leb_trans x y z); [exact E | apply Hy, Hz].
    - constructor; [exact IH|].
      rewrite Forall_forall in *; intros z Hz.
      apply (Permutation_in _ (insert_left_perm x t)) in Hz; destruct Hz as [<-|Hz].
      + destruct (leb_total x y) as [F|F]; [congruence | exact F].
      + apply Hy, Hz.
  Qed.
  Lemma insert_right_sorted x l :
    StronglySorted le_rel l -> StronglySorted le_rel (insert_right x l).
  Proof.
    induction 1 as [|y t Ht IH Hy]; simpl; [repeat constructor|].
    destruct (leb y x) eqn:E.
    - constructor; [exact IH|].
      rewrite Forall_forall in *; intros z Hz.
      apply (Permutation_in _ (insert_right_perm x t)) in Hz; destruct Hz as [<-|Hz];
        [exact E | apply Hy, Hz].
    - assert (F : leb x y = true) by (destruct (leb_total x y); congruence).
      constructor; [constructor; assumption|].
      constructor; [exact F|].
      rewrite Forall_forall in *; intros z Hz; apply (leb_trans x y z); [exact F | apply Hy, Hz].
  Qed.
  Lemma sort_sorted l : StronglySorted le_rel (sort l).
  Proof.
    induction l as [|x t IH]; simpl; [constructor|].
    apply insert_left_sorted; exact IH.
  Qed.
End Sorting.

Lemma existsb_false_iff {A} (f : A -> bool) l :
  existsb f l = false <-> forall x, In x l -> f x = false.
Proof.
  split.
  - intros He x Hx; destruct (f x) eqn:E; [|reflexivity].
    assert (existsb f l = true) by (apply existsb_exists; exists x; auto); congruence.
  - intros Hf; destruct (existsb f l) eqn:E; [|reflexivity].
    apply existsb_exists in E; destruct E as [x [Hx E]]; rewrite (Hf x Hx) in E; discriminate.
Qed.

Lemma filter_ext_In {A} (f g : A -> bool) l :
  (forall x, In x l -> f x = g x) -> filter f l = filter g l.
Proof.
  induction l as [|x t IH]; intros Hfg; simpl; [reflexivity|].
  rewrite (Hfg x (or_introl eq_refl)), IH; [reflexivity|].
  intros y Hy; apply Hfg; right; exact Hy.
Qed.

Lemma Permutation_filter {A} (f : A -> bool) l1 l2 :
  Permutation l1 l2 -> Permutation (filter f l1) (filter f l2).
Proof.
  induction 1 as [|x a b _ IH|x y a|a b c _ IH1 _ IH2]; simpl.
  - constructor.
  - destruct (f x); [constructor|]; exact IH.
  - destruct (f x), (f y); try reflexivity; apply perm_swap.
  - etransitivity; eassumption.
Qed.

Lemma NoDup_app_intro {A} (l1 l2 : list A) :
  NoDup l1 -> NoDup l2 -> (forall x, In x l1 -> In x l2 -> False) -> NoDup (l1 ++ l2).
Proof.
  induction 1 as [|x l Hx Hl IH]; intros H2 Hd; simpl; [exact H2|].
  constructor.
  - rewrite in_app_iff; intros [Hi|Hi]; [tauto|]; apply (Hd x); [left; reflexivity | exact Hi].
  - apply IH; [exact H2|]; intros y Hy; apply Hd; right; exact Hy.
Qed.

Lemma NoDup_app_elim {A} (l1 l2 : list A) :
  NoDup (l1 ++ l2) -> NoDup l1 /\ NoDup l2 /\ (forall x, In x l1 -> In x l2 -> False).
Proof.
  induction l1 as [|x l IH]; simpl; intros Hn.
  - repeat split; [constructor | exact Hn | intros x []].
  - inversion Hn as [|? ? Hx Hn']; subst.
    destruct (IH Hn') as [N1 [N2 Hd]].
    rewrite in_app_iff in Hx.
    repeat split; [constructor; tauto | exact N2 |].
    intros y [<-|Hy] Hy2; [tauto | exact (Hd y Hy Hy2)].
Qed.
