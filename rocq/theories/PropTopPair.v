(* C110: the two entries chosen among the most frequent ones. *)
From Coq Require Import Sorted.
From Verif Require Import Prelude TopPairModel.
Local Open Scope Z_scope.

(* ------------------------------------------------------------ specification *)
(* entry number i of the list is (c, p) *)
Definition entry (l : list (Z * Z)) (i : nat) (c p : Z) : Prop := nth_error l i = Some (c, p).
(* the entries that tie with entry 1 are those from 1 to n *)
Definition ties (l : list (Z * Z)) (n : nat) : Prop :=
  (1 <= n)%nat /\ exists c, (forall i, (1 <= i <= n)%nat -> exists p, entry l i c p) /\ (forall c' p, entry l (S n) c' p -> c' <> c).
(* the positions of the entries 1 to n go up, or go down *)
Definition one_way (l : list (Z * Z)) (n : nat) : Prop :=
  (forall i j c p c' p', (1 <= i <= j)%nat -> (j <= n)%nat -> entry l i c p -> entry l j c' p' -> p <= p') \/
  (forall i j c p c' p', (1 <= i <= j)%nat -> (j <= n)%nat -> entry l i c p -> entry l j c' p' -> p' <= p).

(* ------------------------------------------------------------------- proofs *)
Lemma run_end_spec : forall l x k, exists m, run_end (x :: l) k = (k + m)%nat /\ (m <= length l)%nat /\
  (forall i, (i <= m)%nat -> exists p, nth_error (x :: l) i = Some (fst x, p)) /\
  (forall c' p, nth_error (x :: l) (S m) = Some (c', p) -> c' <> fst x).
Proof.
  induction l as [|y l IH]; intros x k.
  - exists 0%nat. cbn. split; [lia|]. split; [lia|]. split.
    + intros i Hi. replace i with 0%nat by lia. exists (snd x). destruct x; reflexivity.
    + discriminate.
  - change (run_end (x :: y :: l) k) with (if fst x =? fst y then run_end (y :: l) (S k) else k).
    destruct (Z.eqb_spec (fst x) (fst y)) as [E|E].
    + destruct (IH y (S k)) as (m & E1 & E2 & E3 & E4). exists (S m). split; [rewrite E1; lia|]. split; [cbn; lia|]. rewrite E. split.
      * intros [|i] Hi; [exists (snd x); rewrite <- E; destruct x; reflexivity|]. apply E3. lia.
      * exact E4.
    + exists 0%nat. split; [lia|]. split; [lia|]. split.
      * intros i Hi. replace i with 0%nat by lia. exists (snd x). destruct x; reflexivity.
      * cbn. intros c' p [= ->]. cbn in E. congruence.
Qed.

(* the second entry of the answer is entry 1 or the last one that ties with it, whichever is farther from entry 0,
   and the third one is the other; without a tie the third one is -1 *)
Theorem C110_pair : forall l n c0 p0 c1 p1 cn pn, ties l n -> entry l 0 c0 p0 -> entry l 1 c1 p1 -> entry l n cn pn ->
  get_top_p l = if (n =? 1)%nat then (0, 1, -1)
                else if Z.abs (pn - p0) <=? Z.abs (p1 - p0) then (0, 1, Z.of_nat n) else (0, Z.of_nat n, 1).
Proof.
  intros l n c0 p0 c1 p1 cn pn (Hn & c & Ht & Hs) H0 H1 Hen. unfold entry in *.
  destruct l as [|x0 [|x1 l]]; try discriminate. cbn in H0, H1. injection H0 as ->. injection H1 as ->.
  assert (Ec : c1 = c) by (destruct (Ht 1%nat ltac:(lia)) as (p & Hp); cbn in Hp; congruence).
  destruct l as [|x2 l].
  - destruct n as [|[|n]]; [lia | reflexivity|]. destruct (Ht 2%nat ltac:(lia)) as (p & Hp). discriminate.
  - cbn [get_top_p fst snd]. destruct (Z.eqb_spec c1 (fst x2)) as [E|E].
    + destruct (run_end_spec l x2 2) as (m & E1 & E2 & E3 & E4). rewrite E1.
      assert (En : n = (2 + m)%nat).
      { destruct (Nat.lt_trichotomy n (2 + m)) as [Hlt|[Heq|Hgt]]; [exfalso | exact Heq | exfalso].
        - destruct n as [|n]; [lia|]. destruct (E3 n ltac:(lia)) as (p & Hp). apply (Hs (fst x2) p); [exact Hp | congruence].
        - destruct (Ht (3 + m)%nat ltac:(lia)) as (p & Hp). apply (E4 c p); [exact Hp | congruence]. }
      subst n. apply (nth_error_nth _ _ (c0, p0)) in Hen. rewrite Hen. cbn [Nat.eqb Nat.add snd].
      destruct (Z.leb_spec (Z.abs (pn - p0)) (Z.abs (p1 - p0))), (Z.ltb_spec (Z.abs (p0 - p1)) (Z.abs (p0 - pn))); try reflexivity; lia.
    + destruct n as [|[|n]]; [lia | reflexivity|]. destruct (Ht 2%nat ltac:(lia)) as (p & Hp). cbn in Hp. injection Hp as ->. cbn in E. congruence.
Qed.
Print Assumptions C110_pair.

(* a list with two entries or more has such ties; a shorter one is answered as if it had a second entry *)
Theorem C110_ties : forall l, (2 <= length l)%nat -> exists n, ties l n.
Proof.
  intros [|x0 [|x1 l]] Hl; cbn in Hl; try lia. destruct (run_end_spec l x1 1) as (m & _ & _ & E3 & E4). exists (S m). split; [lia|]. exists (fst x1). split.
  - intros [|i] Hi; [lia|]. apply E3. lia.
  - exact E4.
Qed.
Print Assumptions C110_ties.
Theorem C110_short : forall l, (length l < 2)%nat -> get_top_p l = (0, 1, -1).
Proof. intros [|x0 [|x1 l]] Hl; [reflexivity | reflexivity | cbn in Hl; lia]. Qed.
Print Assumptions C110_short.

(* when the positions of the ties go one way, no tie is farther from entry 0 than the one chosen *)
Theorem C110_farthest : forall l n c0 p0, ties l n -> one_way l n -> entry l 0 c0 p0 ->
  exists k cn r pk, get_top_p l = (0, Z.of_nat k, r) /\ (1 <= k <= n)%nat /\ entry l k cn pk /\
    forall i c p, (1 <= i <= n)%nat -> entry l i c p -> Z.abs (p - p0) <= Z.abs (pk - p0).
Proof.
  intros l n c0 p0 HT HW H0. pose proof HT as (Hn & c & Ht & _).
  destruct (Ht 1%nat ltac:(lia)) as (p1 & H1), (Ht n ltac:(lia)) as (pn & Hen).
  pose proof (C110_pair l n c0 p0 c p1 c pn HT H0 H1 Hen) as E.
  assert (B : forall i c' p, (1 <= i <= n)%nat -> entry l i c' p -> p1 <= p <= pn \/ pn <= p <= p1).
  { intros i c' p Hi Hp. destruct HW as [W|W]; [left | right].
    - split; [exact (W 1%nat i _ _ _ _ ltac:(lia) ltac:(lia) H1 Hp) | exact (W i n _ _ _ _ ltac:(lia) ltac:(lia) Hp Hen)].
    - split; [exact (W i n _ _ _ _ ltac:(lia) ltac:(lia) Hp Hen) | exact (W 1%nat i _ _ _ _ ltac:(lia) ltac:(lia) H1 Hp)]. }
  destruct (Nat.eqb_spec n 1) as [->|N1].
  - exists 1%nat, c, (-1), p1. split; [exact E|]. split; [lia|]. split; [exact H1|]. intros i c' p Hi Hp.
    unfold entry in *. assert (pn = p1) by congruence. specialize (B i c' p Hi Hp). lia.
  - destruct (Z.leb_spec (Z.abs (pn - p0)) (Z.abs (p1 - p0))).
    + exists 1%nat, c, (Z.of_nat n), p1. split; [exact E|]. split; [lia|]. split; [exact H1|]. intros i c' p Hi Hp. specialize (B i c' p Hi Hp). lia.
    + exists n, c, 1, pn. split; [exact E|]. split; [lia|]. split; [exact Hen|]. intros i c' p Hi Hp. specialize (B i c' p Hi Hp). lia.
Qed.
Print Assumptions C110_farthest.

(* otherwise a tie in the middle may be farther: 0, 5 and 1 with the first entry at 0 *)
Example C110_needs_order : exists l n k r, ties l n /\ get_top_p l = (0, Z.of_nat k, r) /\
  exists i c p ck pk, (1 <= i <= n)%nat /\ entry l i c p /\ entry l k ck pk /\ (forall c0 p0, entry l 0 c0 p0 -> Z.abs (pk - p0) < Z.abs (p - p0)).
Proof.
  exists [(9, 0); (4, 0); (4, 5); (4, 1)], 3%nat, 3%nat, 1. split.
  - split; [lia|]. exists 4. split; [|discriminate]. intros [|[|[|[|i]]]] Hi; try lia; eexists; reflexivity.
  - split; [reflexivity|]. exists 2%nat, 4, 5, 4, 1. split; [lia|]. split; [reflexivity|]. split; [reflexivity|]. intros c0 p0 [= <- <-]. reflexivity.
Qed.

(* the positions of the three ties go down; the first of them is the farthest *)
Example C110_case : get_top_p [(2, 5); (1, 10); (1, 7); (1, 3); (2, 8)] = (0, 1, 3) /\ ties [(2, 5); (1, 10); (1, 7); (1, 3); (2, 8)] 3 /\
  one_way [(2, 5); (1, 10); (1, 7); (1, 3); (2, 8)] 3 /\ get_top_p [(2, 5); (1, 10); (1, 7); (1, 11); (2, 8)] = (0, 3, 1).
Proof.
  split; [reflexivity|]. split; [|split; [|reflexivity]].
  - split; [lia|]. exists 1. split; [|intros c' p [= <- <-]; discriminate]. intros [|[|[|[|i]]]] Hi; try lia; eexists; reflexivity.
  - right. intros [|[|[|[|i]]]] [|[|[|[|j]]]] c p c' p' Hi Hj; try lia; intros [= <- <-] [= <- <-]; lia.
Qed.
