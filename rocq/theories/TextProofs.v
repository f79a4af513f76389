From Verif Require Import Prelude TextModel.
From Coq Require Import NArith.

Definition no_newline (l : text) : Prop := ~ In nl l /\ ~ In cr l.

Lemma no_newline_app a b : no_newline (a ++ b) <-> no_newline a /\ no_newline b.
Proof. unfold no_newline; rewrite !in_app_iff; tauto. Qed.

Definition is_digit (c : char) : Prop := (48 <= c <= 57)%N.
Lemma digit_is_digit n : n < 10 -> is_digit (digit n).
Proof. unfold is_digit, digit; lia. Qed.
Lemma dec_aux_app fuel : forall n acc, dec_aux fuel n acc = dec_aux fuel n [] ++ acc.
Proof.
  induction fuel as [|f IH]; intros n acc; cbn [dec_aux]; [reflexivity|].
  destruct (n <? 10); [reflexivity|]; rewrite IH, (IH _ [_]), <- app_assoc; reflexivity.
Qed.
Lemma dec_aux_digits fuel : forall n, Forall is_digit (dec_aux fuel n []).
Proof.
  induction fuel as [|f IH]; intros n; cbn [dec_aux]; [constructor|].
  destruct (n <? 10) eqn:E.
  - apply Nat.ltb_lt in E; constructor; [apply digit_is_digit, E | constructor].
  - rewrite dec_aux_app; apply Forall_app; split; [apply IH|].
    constructor; [apply digit_is_digit, Nat.mod_upper_bound; lia | constructor].
Qed.
Lemma dec_digits n : Forall is_digit (dec n).
Proof. apply dec_aux_digits. Qed.
Lemma dec_nonempty n : dec n <> [].
Proof.
  unfold dec; cbn [dec_aux]; destruct (n <? 10); [discriminate|].
  rewrite dec_aux_app; intros E; apply app_eq_nil in E; destruct E; discriminate.
Qed.
Lemma digit_not_space c : is_digit c -> is_space c = false.
Proof.
  unfold is_digit, is_space; intros H.
  repeat match goal with
  | |- context [(?a <=? ?b)%N] => destruct (N.leb_spec a b); try lia
  | |- context [(?a =? ?b)%N] => destruct (N.eqb_spec a b); try lia
  end; reflexivity.
Qed.
Lemma digits_no_newline l : Forall is_digit l -> no_newline l.
Proof.
  intros H; rewrite Forall_forall in H; split; intros Hc; apply H in Hc;
    unfold is_digit, nl, cr in Hc; lia.
Qed.
Lemma join_no_newline sep l : no_newline sep -> Forall no_newline l -> no_newline (join sep l).
Proof.
  intros Hs H; induction H as [|x t Hx Ht IH]; simpl; [split; intros []|].
  destruct t; [exact Hx|]; rewrite !no_newline_app; tauto.
Qed.

Lemma universal_id l : ~ In cr l -> universal l = l.
Proof.
  induction l as [|c t IH]; intros H; simpl; [reflexivity|].
  destruct (N.eqb_spec c cr) as [->|_]; [exfalso; apply H; left; reflexivity|].
  rewrite IH; [reflexivity|]; intros Hc; apply H; right; exact Hc.
Qed.
Lemma lines_from_line l : forall cur rest, ~ In nl l ->
  lines_from cur (l ++ nl :: rest) = (cur ++ l ++ [nl]) :: lines_from [] rest.
Proof.
  induction l as [|c t IH]; intros cur rest H; simpl; [reflexivity|].
  destruct (N.eqb_spec c nl) as [->|_]; [exfalso; apply H; left; reflexivity|].
  rewrite IH by (intros Hc; apply H; right; exact Hc).
  rewrite <- app_assoc; reflexivity.
Qed.
(* a file made of newline-terminated lines is read back line by line *)
Lemma read_lines_concat (ls : list text) : Forall no_newline ls ->
  read_lines (concat (map (fun l => l ++ [nl]) ls)) = map (fun l => l ++ [nl]) ls.
Proof.
  intros H; unfold read_lines; rewrite universal_id.
  - induction H as [|l t Hl Ht IH]; simpl; [reflexivity|].
    rewrite <- app_assoc; simpl; rewrite lines_from_line by apply Hl.
    rewrite IH; reflexivity.
  - intros Hc; apply in_concat in Hc; destruct Hc as [x [Hx Hc]].
    apply in_map_iff in Hx; destruct Hx as [l [<- Hl]].
    rewrite Forall_forall in H; apply H in Hl; apply in_app_iff in Hc.
    destruct Hc as [Hc|[Hc|[]]]; [apply Hl; exact Hc | discriminate].
Qed.
