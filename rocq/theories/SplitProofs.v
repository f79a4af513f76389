From Verif Require Import Prelude CheckModel TextModel TextProofs SplitModel.
From Coq Require Import NArith.

Lemma strip_prefix_app p s : strip_prefix p (p ++ s) = Some s.
Proof. induction p as [|c p IH]; simpl; [reflexivity|]; rewrite N.eqb_refl; exact IH. Qed.
Lemma split_aux_item c0 sep x : ~ In c0 x -> forall fuel cur s, length x <= fuel ->
  split_aux fuel (c0 :: sep) cur (x ++ s) = split_aux (fuel - length x) (c0 :: sep) (cur ++ x) s.
Proof.
  induction x as [|c x IH]; intros Hx fuel cur s Hf; simpl in *.
  - rewrite app_nil_r, Nat.sub_0_r; reflexivity.
  - destruct fuel as [|f]; [lia|]; cbn [split_aux]; simpl app; cbn [strip_prefix].
    destruct (N.eqb_spec c0 c) as [->|_]; [tauto|].
    rewrite IH by (tauto || lia); rewrite <- app_assoc; reflexivity.
Qed.
Lemma split_aux_join c0 sep : forall l, l <> [] -> Forall (fun x => ~ In c0 x) l -> forall fuel,
  length (join (c0 :: sep) l) < fuel -> split_aux fuel (c0 :: sep) [] (join (c0 :: sep) l) = l.
Proof.
  induction l as [|x l IH]; intros Hne Hf fuel Hl; [congruence|]; inversion Hf as [|? ? Hx Hf']; subst.
  destruct l as [|y l].
  - cbn [join] in *. rewrite <- (app_nil_r x) at 1. rewrite (split_aux_item c0 sep x Hx) by lia.
    destruct (fuel - length x) as [|k]; reflexivity.
  - change (join (c0 :: sep) (x :: y :: l)) with (x ++ (c0 :: sep) ++ join (c0 :: sep) (y :: l)) in *.
    rewrite !app_length in Hl; cbn [length] in Hl.
    rewrite (split_aux_item c0 sep x Hx) by lia.
    assert (Hk : exists k, fuel - length x = S k /\ length (join (c0 :: sep) (y :: l)) < k) by
      (exists (fuel - length x - 1); lia).
    destruct Hk as [k [-> Hk]]; cbn [split_aux app]. 
    change (c0 :: sep ++ join (c0 :: sep) (y :: l)) with ((c0 :: sep) ++ join (c0 :: sep) (y :: l)).
    rewrite strip_prefix_app; f_equal; apply IH; [discriminate | exact Hf' | exact Hk].
Qed.
(* joining pieces free of the first character of the separator and splitting again *)
Lemma split_join sep l : (exists c0 s, sep = c0 :: s /\ Forall (fun x => ~ In c0 x) l) -> l <> [] ->
  split_str sep (join sep l) = Ret l.
Proof.
  intros [c0 [s [-> Hf]]] Hne; unfold split_str; rewrite split_aux_join; auto.
Qed.

Lemma lstrip_id s : match s with [] => True | c :: _ => is_space c = false end -> lstrip s = s.
Proof. destruct s as [|c s]; simpl; [reflexivity | intros ->; reflexivity]. Qed.
Lemma rstrip_snoc s c : is_space c = false -> rstrip (s ++ [c]) = s ++ [c].
Proof. intros Hc; unfold rstrip; rewrite rev_app_distr; simpl; rewrite Hc; simpl; rewrite rev_involutive; reflexivity. Qed.
Lemma rstrip_id x : Forall (fun c => is_space c = false) x -> forall pre, x <> [] -> rstrip (pre ++ x) = pre ++ x.
Proof.
  intros Hf pre Hne; destruct (exists_last Hne) as [y [c ->]]; rewrite app_assoc; apply rstrip_snoc.
  rewrite Forall_forall in Hf; apply Hf, in_or_app; right; left; reflexivity.
Qed.
Lemma strip_id x : Forall (fun c => is_space c = false) x -> strip x = x.
Proof.
  intros Hf; unfold strip; rewrite lstrip_id by (destruct x; [exact I | inversion Hf; assumption]).
  destruct x as [|c x]; [reflexivity|]; apply (rstrip_id (c :: x) Hf []); discriminate.
Qed.
Lemma join_last_nonspace sep l : l <> [] -> Forall (fun x => x <> [] /\ Forall (fun c => is_space c = false) x) l ->
  rstrip (join sep l) = join sep l.
Proof.
  intros Hne Hf; assert (E : exists pre x, join sep l = pre ++ x /\ x <> [] /\ Forall (fun c => is_space c = false) x).
  { induction Hf as [|x l [H1 H2] Hf IH]; [congruence|]; destruct l as [|y l]; [exists [], x; auto|].
    destruct IH as [pre [z [E [H3 H4]]]]; [discriminate|].
    change (join sep (x :: y :: l)) with (x ++ sep ++ join sep (y :: l)).
    exists (x ++ sep ++ pre), z; rewrite E, <- !app_assoc; auto. }
  destruct E as [pre [x [-> [H1 H2]]]]; apply rstrip_id; assumption.
Qed.

Lemma splitlines_line l : forall cur rest, Forall (fun c => is_break c = false) l ->
  splitlines_from cur (l ++ nl :: rest) = (cur ++ l) :: splitlines_from [] rest.
Proof.
  induction l as [|c l IH]; intros cur rest Hf; simpl; [rewrite app_nil_r; reflexivity|].
  inversion Hf as [|? ? Hc Hf']; subst; rewrite Hc, IH by exact Hf'; rewrite <- app_assoc; reflexivity.
Qed.
Lemma splitlines_concat ls : Forall (fun l => Forall (fun c => is_break c = false) l) ls ->
  splitlines (universal (concat (map (fun l => l ++ [nl]) ls))) = ls.
Proof.
  intros Hf; rewrite universal_id.
  - unfold splitlines; induction Hf as [|l ls Hl Hls IH]; simpl; [reflexivity|].
    rewrite <- app_assoc; simpl; rewrite splitlines_line by exact Hl; rewrite IH; reflexivity.
  - intros Hc; apply in_concat in Hc; destruct Hc as [x [Hx Hc]]; apply in_map_iff in Hx; destruct Hx as [l [<- Hl]].
    rewrite Forall_forall in Hf; specialize (Hf l Hl); rewrite Forall_forall in Hf.
    apply in_app_iff in Hc; destruct Hc as [Hc|[Hc|[]]]; [|discriminate]; apply Hf in Hc; discriminate.
Qed.
(* a last line without line break is a line *)
Lemma splitlines_open ls l : Forall (fun l => Forall (fun c => is_break c = false) l) (ls ++ [l]) -> l <> [] ->
  splitlines (universal (concat (map (fun l => l ++ [nl]) ls) ++ l)) = ls ++ [l].
Proof.
  intros Hf Hne; rewrite universal_id.
  - unfold splitlines; induction ls as [|x ls IH]; simpl.
    + assert (Hl : forall cur k, Forall (fun c => is_break c = false) k -> cur ++ k <> [] -> splitlines_from cur k = [cur ++ k]).
      { intros cur k; revert cur; induction k as [|c k IHk]; intros cur Hk Hn; simpl.
        - rewrite app_nil_r in *; destruct cur; [congruence | reflexivity].
        - inversion Hk; subst; replace (is_break c) with false by congruence.
          rewrite IHk; rewrite <- ?app_assoc; auto. }
      inversion Hf; subst; apply (Hl [] l); assumption.
    + inversion Hf; subst; rewrite <- !app_assoc; simpl; rewrite splitlines_line by assumption; rewrite IH by assumption; reflexivity.
  - rewrite Forall_forall in Hf; intros Hc; apply in_app_iff in Hc; destruct Hc as [Hc|Hc].
    + apply in_concat in Hc; destruct Hc as [x [Hx Hc]]; apply in_map_iff in Hx; destruct Hx as [k [<- Hk]].
      specialize (Hf k ltac:(apply in_or_app; left; exact Hk)); rewrite Forall_forall in Hf.
      apply in_app_iff in Hc; destruct Hc as [Hc|[Hc|[]]]; [|discriminate]; apply Hf in Hc; discriminate.
    + specialize (Hf l ltac:(apply in_or_app; right; left; reflexivity)); rewrite Forall_forall in Hf; apply Hf in Hc; discriminate.
Qed.
Lemma break_is_space c : is_space c = false -> is_break c = false.
Proof.
  unfold is_space, is_break; intros Hs.
  repeat match type of Hs with
  | context [(?a <=? ?b)%N] => destruct (N.leb_spec a b)
  | context [(?a =? ?b)%N] => destruct (N.eqb_spec a b)
  end; try discriminate;
  repeat match goal with
  | |- context [(?a <=? ?b)%N] => destruct (N.leb_spec a b); try lia
  | |- context [(?a =? ?b)%N] => destruct (N.eqb_spec a b); try lia
  end; reflexivity.
Qed.

Lemma digits_value_app a b : forall acc,
  fold_left (fun a c => (10 * a + (Z.of_N c - 48))%Z) (a ++ b) acc =
  fold_left (fun a c => (10 * a + (Z.of_N c - 48))%Z) b (fold_left (fun a c => (10 * a + (Z.of_N c - 48))%Z) a acc).
Proof. intros acc; apply fold_left_app. Qed.
Lemma dec_aux_value fuel : forall n, n < fuel -> digits_value (dec_aux fuel n []) = Z.of_nat n.
Proof.
  induction fuel as [|f IH]; intros n Hn; [lia|]; cbn [dec_aux].
  destruct (Nat.ltb_spec n 10) as [Hlt|Hge].
  - unfold digits_value, digit; cbn [fold_left]; lia.
  - rewrite dec_aux_app; unfold digits_value; rewrite digits_value_app; fold (digits_value (dec_aux f (n / 10) [])).
    assert (Hd : n / 10 < f) by (pose proof (Nat.div_lt n 10); lia).
    rewrite (IH _ Hd); cbn [fold_left]; unfold digit.
    pose proof (Nat.div_mod n 10); lia.
Qed.
Lemma dec_value n : digits_value (dec n) = Z.of_nat n.
Proof. apply dec_aux_value; lia. Qed.
Lemma dec_digitb n : forallb is_digitb (dec n) = true.
Proof.
  apply forallb_forall; intros c Hc; pose proof (dec_digits n) as Hd; rewrite Forall_forall in Hd; apply Hd in Hc.
  unfold is_digit, is_digitb in *; apply andb_true_iff; split; apply N.leb_le; lia.
Qed.
Lemma parse_nat_dec n : parse_nat (dec n) = Some (Z.of_nat n).
Proof.
  unfold parse_nat; pose proof (dec_nonempty n); pose proof (dec_digitb n) as Hd; pose proof (dec_value n) as Hv.
  destruct (dec n); [congruence|]; rewrite Hd, Hv; reflexivity.
Qed.
Lemma dec_no_space n : Forall (fun c => is_space c = false) (dec n).
Proof. eapply Forall_impl; [|apply dec_digits]; intros c; apply digit_not_space. Qed.
Lemma str_z_no_space z : Forall (fun c => is_space c = false) (str_z z).
Proof. unfold str_z; destruct (z <? 0)%Z; [constructor; [reflexivity|]|]; apply dec_no_space. Qed.
Lemma str_z_nonempty z : str_z z <> [].
Proof. unfold str_z; destruct (z <? 0)%Z; [discriminate | apply dec_nonempty]. Qed.
(* int(str(z)) = z *)
Lemma parse_str_z z : parse_int (str_z z) = Some z.
Proof.
  unfold parse_int; rewrite strip_id by apply str_z_no_space; unfold str_z.
  destruct (Z.ltb_spec z 0) as [Hz|Hz].
  - cbn [N.eqb]; rewrite N.eqb_refl, parse_nat_dec; simpl; f_equal; lia.
  - pose proof (dec_nonempty (Z.to_nat z)) as Hne; pose proof (dec_digits (Z.to_nat z)) as Hd; pose proof (parse_nat_dec (Z.to_nat z)) as Hp.
    destruct (dec (Z.to_nat z)) as [|c t]; [congruence|]; inversion Hd as [|? ? Hc Hd']; subst; unfold is_digit in Hc.
    destruct (N.eqb_spec c minus_c) as [->|_]; [unfold minus_c in Hc; lia|].
    destruct (N.eqb_spec c plus_c) as [->|_]; [unfold plus_c in Hc; lia|].
    rewrite Hp; f_equal; lia.
Qed.
Lemma str_z_chars z c : In c (str_z z) -> is_digit c \/ c = minus_c.
Proof.
  unfold str_z; intros Hin; pose proof dec_digits as Hd; destruct (z <? 0)%Z; [destruct Hin as [<-|Hin]; [right; reflexivity|]|];
    left; [specialize (Hd (Z.to_nat (- z))) | specialize (Hd (Z.to_nat z))]; rewrite Forall_forall in Hd; apply Hd, Hin.
Qed.
Lemma map_opt_map {X Y} (f : X -> option Y) (g : Y -> X) l : (forall y, f (g y) = Some y) -> map_opt f (map g l) = Ret l.
Proof. intros Hfg; induction l as [|y l IH]; simpl; [reflexivity|]; rewrite Hfg, IH; reflexivity. Qed.
Lemma map_out_map {X Y} (f : X -> outcome Y) (g : Y -> X) l : (forall y, In y l -> f (g y) = Ret y) -> map_out f (map g l) = Ret l.
Proof.
  induction l as [|y l IH]; intros Hfg; simpl; [reflexivity|]; rewrite Hfg by (left; reflexivity); simpl.
  rewrite IH by (intros z Hz; apply Hfg; right; exact Hz); reflexivity.
Qed.
