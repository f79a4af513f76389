(* C57: the prequential code. *)
From Coq Require Import Reals List Permutation Lia Lra.
Import ListNotations.
From Verif Require Import PrequentialModel.
Open Scope R_scope.

(* The plug-in probability of a word over [K] symbols: each symbol is emitted
   with the frequency observed so far, smoothed by [e]. *)
Definition seen (s : nat) (h : list nat) : R := INR (count_occ Nat.eq_dec h s).
Fixpoint plug_in (K : nat) (e : R) (h w : list nat) : R :=
  match w with
  | [] => 1
  | s :: r => (seen s h + e) / (INR (length h) + INR K * e) * plug_in K e (s :: h) r
  end.
(* the word in which symbol i appears as often as the i-th usage says *)
Fixpoint spell (i : nat) (seq : list nat) : list nat :=
  match seq with [] => [] | v :: r => repeat i v ++ spell (S i) r end.

Definition lg (x : R) : R := ln x / ln 2.

Lemma lg_div a b : 0 < a -> 0 < b -> lg (a / b) = lg a - lg b.
Proof.
  intros Ha Hb. unfold lg, Rdiv at 2. rewrite ln_mult, ln_Rinv; auto using Rinv_0_lt_compat.
  unfold Rdiv. ring.
Qed.
Lemma lg_mult a b : 0 < a -> 0 < b -> lg (a * b) = lg a + lg b.
Proof. intros Ha Hb. unfold lg, Rdiv. rewrite ln_mult by assumption. ring. Qed.
Lemma lg_1 : lg 1 = 0.
Proof. unfold lg, Rdiv. rewrite ln_1. ring. Qed.

(* sum of lg (x + i) for i < n *)
Fixpoint rise (x : R) (n : nat) : R :=
  match n with O => 0 | S m => lg x + rise (x + 1) m end.
Fixpoint sum_rise (e : R) (seq : list nat) : R :=
  match seq with [] => 0 | v :: r => rise e v + sum_rise e r end.

Lemma rise_add n : forall x m, rise x (n + m) = rise x n + rise (x + INR n) m.
Proof.
  induction n as [|n IH]; intros x m.
  - simpl. rewrite Rplus_0_r, Rplus_0_l. reflexivity.
  - cbn [plus rise]. rewrite IH, S_INR.
    replace (x + 1 + INR n) with (x + (INR n + 1)) by ring. ring.
Qed.

Lemma emit_spec v : forall code eps total, 0 < eps -> 0 < total ->
  emit v (code, eps, total) = (code + rise total v - rise eps v, eps + INR v, total + INR v).
Proof.
  induction v as [|v IH]; intros code eps total He Ht.
  - simpl. apply f_equal2; [apply f_equal2|]; ring.
  - cbn [emit rise]. rewrite IH by lra. rewrite S_INR. unfold log2.
    change (ln (eps / total) / ln 2) with (lg (eps / total)). rewrite lg_div by assumption.
    apply f_equal2; [apply f_equal2|]; ring.
Qed.

Lemma code_closed seq e : 0 < e ->
  prequential_code seq e = rise (INR (length seq) * e) (list_sum seq) - sum_rise e seq.
Proof.
  intros He. unfold prequential_code.
  destruct seq as [|v0 seq0]; [simpl; ring|]. set (seq := v0 :: seq0).
  assert (0 < INR (length seq) * e) as Ht.
  { apply Rmult_lt_0_compat; [|exact He]. apply lt_0_INR. simpl. lia. }
  generalize dependent (INR (length seq) * e). clearbody seq.
  assert (forall code total, 0 < total ->
    fold_left (fun st value =>
                 let '(code, total) := st in
                 let '(code', _, total') := emit value (code, e, total) in
                 (code', total')) seq (code, total)
    = (code + rise total (list_sum seq) - sum_rise e seq, total + INR (list_sum seq))) as Hf.
  { induction seq as [|v r IH]; intros code total Ht.
    - simpl. f_equal; ring.
    - cbn [fold_left]. rewrite emit_spec by assumption. rewrite IH.
      + change (list_sum (v :: r)) with (v + list_sum r)%nat.
        rewrite rise_add, plus_INR. cbn [sum_rise]. f_equal; ring.
      + pose proof (pos_INR v). lra. }
  intros t Ht. rewrite Hf by exact Ht. ring.
Qed.

Lemma plug_in_pos K e w : 0 < e -> (0 < K)%nat -> forall h, 0 < plug_in K e h w.
Proof.
  intros He HK. induction w as [|s w IH]; intros h; cbn [plug_in]; [lra|].
  apply Rmult_lt_0_compat; [|apply IH].
  apply Rmult_lt_0_compat.
  - unfold seen. pose proof (pos_INR (count_occ Nat.eq_dec h s)). lra.
  - apply Rinv_0_lt_compat. pose proof (pos_INR (length h)).
    pose proof (Rmult_lt_0_compat (INR K) e (lt_0_INR K HK) He). lra.
Qed.

Lemma plug_in_repeat K e s w : 0 < e -> (0 < K)%nat -> forall n h,
  lg (plug_in K e h (repeat s n ++ w)) =
  rise (seen s h + e) n - rise (INR (length h) + INR K * e) n
  + lg (plug_in K e (repeat s n ++ h) w).
Proof.
  intros He HK. induction n as [|n IH]; intros h.
  - simpl. ring.
  - cbn [repeat app plug_in rise].
    pose proof (pos_INR (count_occ Nat.eq_dec h s)).
    pose proof (pos_INR (length h)).
    pose proof (Rmult_lt_0_compat (INR K) e (lt_0_INR K HK) He).
    rewrite lg_mult, lg_div, IH.
    + replace (seen s (s :: h) + e) with (seen s h + e + 1).
      2:{ unfold seen. cbn [count_occ]. destruct (Nat.eq_dec s s); [|congruence].
          rewrite S_INR. ring. }
      replace (INR (length (s :: h)) + INR K * e) with (INR (length h) + INR K * e + 1).
      2:{ cbn [length]. rewrite S_INR. ring. }
      replace (repeat s n ++ s :: h) with (s :: repeat s n ++ h).
      2:{ clear. induction n; simpl; congruence. }
      ring.
    + unfold seen; lra.
    + lra.
    + apply Rdiv_lt_0_compat; unfold seen; lra.
    + apply plug_in_pos; assumption.
Qed.

Lemma plug_in_spell K e seq : 0 < e -> (0 < K)%nat -> forall i h,
  (forall s, In s h -> (s < i)%nat) ->
  lg (plug_in K e h (spell i seq)) =
  sum_rise e seq - rise (INR (length h) + INR K * e) (list_sum seq).
Proof.
  intros He HK. induction seq as [|v r IH]; intros i h Hh.
  - simpl. rewrite lg_1. ring.
  - cbn [spell]. rewrite plug_in_repeat by assumption. rewrite IH.
    + change (list_sum (v :: r)) with (v + list_sum r)%nat.
      rewrite rise_add. cbn [sum_rise]. rewrite app_length, repeat_length, plus_INR.
      replace (seen i h) with 0.
      2:{ unfold seen. rewrite (proj1 (count_occ_not_In Nat.eq_dec h i)); [reflexivity|].
          intros Hi. apply Hh in Hi. lia. }
      rewrite Rplus_0_l.
      replace (INR v + INR (length h) + INR K * e) with (INR (length h) + INR K * e + INR v) by ring.
      ring.
    + intros s Hs. apply in_app_or in Hs. destruct Hs as [Hs|Hs].
      * apply repeat_spec in Hs. lia.
      * apply Hh in Hs. lia.
Qed.

(* ---- the plug-in probability only depends on the number of occurrences *)
Lemma plug_in_hist K e w : forall h h', Permutation h h' -> plug_in K e h w = plug_in K e h' w.
Proof.
  induction w as [|s w IH]; intros h h' P; [reflexivity|]. cbn [plug_in].
  unfold seen. rewrite (Permutation_length P).
  rewrite (proj1 (Permutation_count_occ Nat.eq_dec h h') P s).
  rewrite (IH (s :: h) (s :: h')) by (constructor; exact P). reflexivity.
Qed.

Lemma plug_in_perm K e w w' : Permutation w w' -> forall h, 0 < e -> (0 < K)%nat ->
  plug_in K e h w = plug_in K e h w'.
Proof.
  induction 1 as [|x l l' P IH|x y l|l1 l2 l3 P1 IH1 P2 IH2]; intros h He HK.
  - reflexivity.
  - cbn [plug_in]. rewrite IH by assumption. reflexivity.
  - cbn [plug_in]. rewrite (plug_in_hist K e l (x :: y :: h) (y :: x :: h)) by constructor.
    unfold seen. cbn [count_occ length].
    destruct (Nat.eq_dec x y) as [N|N], (Nat.eq_dec y x) as [M|M]; try congruence.
    unfold Rdiv. ring.
  - rewrite IH1, IH2 by assumption. reflexivity.
Qed.

(* The code length is minus log2 of the plug-in probability of any word in
   which each symbol appears as often as its usage says. *)
Theorem C57_plug_in (seq w : list nat) (e : R) :
  0 < e -> seq <> [] -> Permutation w (spell 0 seq) ->
  prequential_code seq e = - (ln (plug_in (length seq) e [] w) / ln 2).
Proof.
  intros He Hne P.
  assert (0 < length seq)%nat as HK by (destruct seq; [congruence | simpl; lia]).
  rewrite (plug_in_perm _ e w (spell 0 seq) P) by assumption.
  change (ln ?a / ln 2) with (lg a).
  rewrite plug_in_spell by (try assumption; intros s []).
  rewrite code_closed by exact He. simpl length. simpl INR. rewrite Rplus_0_l. ring.
Qed.

Theorem C57_permutation (seq seq' : list nat) (e : R) :
  0 < e -> Permutation seq seq' -> prequential_code seq e = prequential_code seq' e.
Proof.
  intros He P. rewrite !code_closed by exact He.
  rewrite (Permutation_length P).
  assert (list_sum seq = list_sum seq') as ->.
  { clear He. induction P; simpl in *; lia. }
  assert (sum_rise e seq = sum_rise e seq') as ->; [|reflexivity].
  induction P; cbn [sum_rise]; lra.
Qed.

Theorem C57_empty e : prequential_code [] e = 0.
Proof. reflexivity. Qed.

Example C57_case :
  spell 0 [2; 0; 1]%nat = [0; 0; 2]%nat
  /\ prequential_code [2; 0; 1]%nat (1 / 2)
     = - (ln (plug_in 3 (1 / 2) [] [2; 0; 0]%nat) / ln 2)
  /\ plug_in 3 (1 / 2) [] [2; 0; 0]%nat = 1 / 35.
Proof.
  split; [reflexivity|]. split.
  - apply (C57_plug_in [2; 0; 1]%nat [2; 0; 0]%nat); [lra | discriminate |].
    simpl. apply (Permutation_cons_append [0; 0]%nat 2%nat).
  - unfold plug_in, seen. simpl. field.
Qed.

Print Assumptions C57_plug_in.
Print Assumptions C57_permutation.
Print Assumptions C57_empty.
