(* C35 time auto-scaling, C36 occurrence keys, C37 merging sorted ids, C38 data sequences,
   C49 event frequencies. *)
From Verif Require Import Prelude CheckModel LCMModel TextModel TextProofs SplitModel SplitProofs ArrayModel PropArray PropDataset PeriodModel.
From Coq Require Import QArith NArith Lqa.
Local Open Scope Z_scope.

(* ============================================================== C35 auto-scaling *)
Lemma all_div_spec d ts : 0 < d -> all_div d ts = true <-> forall t, In t ts -> (d | t).
Proof.
  intros Hd; unfold all_div; rewrite forallb_forall; split; intros Hall t Ht; specialize (Hall t Ht).
  - apply Z.mod_divide; [lia|]; apply Z.eqb_eq, Hall.
  - apply Z.eqb_eq, Z.mod_divide; [lia | exact Hall].
Qed.
Lemma all_div_false d ts : 0 < d -> all_div d ts = false -> exists t, In t ts /\ ~ (d | t).
Proof.
  intros Hd; unfold all_div; induction ts as [|t ts IH]; simpl; [discriminate|].
  rewrite andb_false_iff; intros [E|E].
  - exists t; split; [auto|]; intros Hdv; apply Z.mod_divide in Hdv; [|lia]; rewrite Hdv in E; discriminate.
  - destruct (IH E) as [t' [H1 H2]]; exists t'; auto.
Qed.
Lemma shift_nano_spec : forall k ts n ts' n', shift_nano k ts n = (ts', n') ->
  (n <= n' <= n + k)%nat /\ map (fun t => t * 10 ^ Z.of_nat (n' - n)) ts' = ts /\
  ((n' < n + k)%nat -> exists t, In t ts' /\ ~ (10 | t)).
Proof.
  induction k as [|k IH]; intros ts n ts' n' E; simpl in E.
  - injection E as <- <-; split; [lia|]; split; [|lia].
    rewrite Nat.sub_diag; change (10 ^ Z.of_nat 0) with 1; rewrite <- (map_id ts) at 2; apply map_ext; intros t; lia.
  - destruct (all_div 10 ts) eqn:D.
    + apply IH in E; destruct E as [I1 [I2 I3]]; split; [lia|]; split; [|intros Hlt; apply I3; lia].
      rewrite (all_div_spec 10) in D by lia.
      replace (n' - n)%nat with (S (n' - S n)) by lia; rewrite Nat2Z.inj_succ, Z.pow_succ_r by lia.
      rewrite <- (map_id ts); transitivity (map (fun t => t * 10) (map (fun t => t / 10) ts)).
      * rewrite <- I2, !map_map; apply map_ext; intros t; ring.
      * rewrite map_map; apply map_ext_in; intros t Ht; destruct (D t Ht) as [q ->]; rewrite Z.div_mul by lia; lia.
    + injection E as <- <-; split; [lia|]; split; [|intros _; apply (all_div_false 10) in D; [exact D | lia]].
      rewrite Nat.sub_diag; change (10 ^ Z.of_nat 0) with 1; rewrite <- (map_id ts) at 2; apply map_ext; intros t; lia.
Qed.
(* the length of each unit, in seconds *)
Definition unit_seconds (r : resolution) : Z :=
  match r with UnderSecond => 1 | Second => 1 | Minute => 60 | Hour => 3600 | Day => 86400 end.
Theorem C35_lossless : forall ts conv n res d, autoscale ts = (conv, n, res, d) ->
  map (unscale n d) conv = ts /\
  (n <= 9)%nat /\ d = unit_seconds res /\ (res = UnderSecond <-> (n < 9)%nat) /\
  ((n < 9)%nat -> exists t, In t ts /\ ~ (10 ^ Z.of_nat (S n) | t)) /\
  (n = 9%nat -> forall r, unit_seconds res < unit_seconds r -> exists t, In t ts /\ ~ (unit_seconds r * 10 ^ 9 | t)).
Proof.
  unfold autoscale; intros ts conv n res d; destruct (shift_nano 9 ts 0) as [s m] eqn:Es; apply shift_nano_spec in Es.
  destruct Es as [Hm [Hs Hmax]]; rewrite Nat.sub_0_r in Hs.
  assert (Hin : forall c t, 0 < c -> In t s -> ~ (c | t) -> exists u, In u ts /\ ~ (c * 10 ^ Z.of_nat m | u)).
  { intros c t Hc Ht Hnd; exists (t * 10 ^ Z.of_nat m); split; [rewrite <- Hs; apply in_map_iff; exists t; auto|].
    intros Hdv; apply Z.mul_divide_cancel_r in Hdv; [auto | apply Z.pow_nonzero; lia]. }
  destruct (Nat.ltb_spec m 9) as [Hlt|Hge].
  - intros E; injection E as <- <- <- <-; split; [rewrite <- Hs; apply map_ext; intros t; unfold unscale; ring|].
    split; [lia|]; split; [reflexivity|]; split; [split; [intros _; exact Hlt | reflexivity]|].
    split; [|lia]; intros _; destruct (Hmax ltac:(lia)) as [t [Ht Hnd]]; destruct (Hin 10 t ltac:(lia) Ht Hnd) as [u Hu].
    exists u; rewrite Nat2Z.inj_succ, Z.pow_succ_r by lia; exact Hu.
  - assert (m = 9)%nat by lia; subst m; unfold shift_upper.
    change (Z.of_nat 9) with 9 in *.
    assert (Hany : existsb (fun t => negb (t mod 60 =? 0)) s = negb (all_div 60 s)).
    { unfold all_div; clear; induction s as [|t s IH]; simpl; [reflexivity|]; rewrite IH; destruct (t mod 60 =? 0); reflexivity. }
    rewrite Hany; change (24 * 3600) with 86400.
    assert (Hcase : forall d0, 0 < d0 -> all_div d0 s = true -> map (unscale 9 d0) (map (fun t => t / d0) s) = ts).
    { intros d0 Hd D; rewrite (all_div_spec d0) in D by exact Hd; rewrite <- Hs, map_map; apply map_ext_in; intros t Ht.
      destruct (D t Ht) as [q ->]; unfold unscale; rewrite Z.div_mul by lia; change (Z.of_nat 9) with 9; ring. }
    assert (Hno : forall c c', 0 < c -> (c | c') -> all_div c s = false -> exists t, In t ts /\ ~ (c' * 10 ^ 9 | t)).
    { intros c c' Hc Hcc D; apply (all_div_false c) in D; [|exact Hc]; destruct D as [t [Ht Hnd]].
      destruct (Hin c t Hc Ht Hnd) as [u [Hu Hnu]]; exists u; split; [exact Hu|]; intros Hdv; apply Hnu.
      eapply Z.divide_trans; [|exact Hdv]; apply Z.mul_divide_mono_r, Hcc. }
    destruct (all_div 60 s) eqn:D60; cbn [negb]; [destruct (all_div 86400 s) eqn:Dd; [|destruct (all_div 3600 s) eqn:Dh]|];
      intros E; injection E as <- <- <- <-; cbn [unit_seconds].
    + split; [apply Hcase; [lia | exact Dd]|]; split; [lia|]; split; [reflexivity|]; split; [split; [discriminate | lia]|]; split; [lia|].
      intros _ r Hr; destruct r; simpl in Hr; lia.
    + split; [apply Hcase; [lia | exact Dh]|]; split; [lia|]; split; [reflexivity|]; split; [split; [discriminate | lia]|]; split; [lia|].
      intros _ r Hr; destruct r; simpl in Hr; try lia; apply (Hno 86400); [lia | apply Z.divide_refl | exact Dd].
    + split; [apply Hcase; [lia | exact D60]|]; split; [lia|]; split; [reflexivity|]; split; [split; [discriminate | lia]|]; split; [lia|].
      intros _ r Hr; destruct r; simpl in Hr; try lia; [apply (Hno 3600) | apply (Hno 86400)]; try lia; try apply Z.divide_refl; assumption.
    + split; [apply Hcase; [lia|]; apply all_div_spec; [lia|]; intros t _; apply Z.divide_1_l|].
      split; [lia|]; split; [reflexivity|]; split; [split; [discriminate | lia]|]; split; [lia|].
      intros _ r Hr; destruct r; simpl in Hr; try lia; apply (Hno 60); try lia; try assumption; [exists 1 | exists 60 | exists 1440]; reflexivity.
Qed.
Example C35_case : autoscale [7200000000000; -3600000000000; 0] = ([2; -1; 0], 9%nat, Hour, 3600) /\
  autoscale [1500000000; 250000000] = ([150; 25], 7%nat, UnderSecond, 1).
Proof. split; reflexivity. Qed.
Print Assumptions C35_lossless.

(* ====================================================================== C36 keys *)
Theorem C36_round_trip : forall l : list (Z * Z), key_to_l (l_to_key l) = map (fun p => [fst p; snd p]) l.
Proof.
  intros [|p0 l0]; [reflexivity|]; remember (p0 :: l0) as l eqn:El.
  set (g := fun p : Z * Z => str_z (fst p) ++ comma ++ str_z (snd p)).
  assert (Hg : forall p, bind (split_str comma (g p)) (map_opt parse_int) = Ret [fst p; snd p]).
  { intros [a b]; unfold g; change (str_z (fst (a, b)) ++ comma ++ str_z (snd (a, b))) with (join comma (map str_z [a; b])).
    rewrite split_join; [| |discriminate].
    - cbn [bind]; apply map_opt_map, parse_str_z.
    - exists 44%N, []; split; [reflexivity|]; apply Forall_forall; intros x Hx; apply in_map_iff in Hx; destruct Hx as [z [<- _]].
      intros Hc; apply str_z_chars in Hc; unfold is_digit, minus_c in Hc; lia. }
  assert (Hm : forall m, map_out (fun b => bind (split_str comma b) (map_opt parse_int)) (map g m) = Ret (map (fun p => [fst p; snd p]) m)).
  { induction m as [|p m IH]; [reflexivity|]; cbn [map map_out]; rewrite Hg; cbn [bind]; rewrite IH; reflexivity. }
  unfold key_to_l, l_to_key; fold g; rewrite split_join.
  - cbn [bind]; rewrite Hm; reflexivity.
  - exists 59%N, []; split; [reflexivity|]; apply Forall_forall; intros x Hx; apply in_map_iff in Hx; destruct Hx as [p [<- _]].
    unfold g; intros Hc; rewrite !in_app_iff in Hc; destruct Hc as [Hc|[Hc|Hc]]; [| destruct Hc as [Hc|[]]; discriminate |];
      apply str_z_chars in Hc; unfold is_digit, minus_c in Hc; lia.
  - subst l; discriminate.
Qed.
Corollary C36_injective : forall l l' : list (Z * Z), l_to_key l = l_to_key l' -> l = l'.
Proof.
  intros l l' E; apply (f_equal key_to_l) in E; rewrite !C36_round_trip in E; revert l' E.
  induction l as [|[a b] l IH]; intros [|[a' b'] l'] E; try discriminate; [reflexivity|].
  simpl in E; injection E as -> -> E; f_equal; apply IH, E.
Qed.
Example C36_case : l_to_key [(0, 12); (3, 0)] = [48; 44; 49; 50; 59; 51; 44; 48]%N /\ key_to_l [48; 44; 49; 50; 59; 51; 44; 48]%N = [[0; 12]; [3; 0]].
Proof. split; vm_compute; reflexivity. Qed.
Print Assumptions C36_round_trip.
Print Assumptions C36_injective.

(* =================================================================== C37 merging *)
(* tuple comparison, written as a relation *)
Definition before (a b : prop3) : Prop :=
  let '(a1, a2, a3) := a in let '(b1, b2, b3) := b in
  a1 < b1 \/ a1 = b1 /\ (a2 < b2 \/ a2 = b2 /\ a3 < b3).
Definition not_after (a b : prop3) : Prop := a = b \/ before a b.
Lemma lex3_lt_spec a b : lex3_lt a b = true <-> before a b.
Proof.
  destruct a as [[a1 a2] a3], b as [[b1 b2] b3]; unfold lex3_lt, before.
  rewrite orb_true_iff, andb_true_iff, orb_true_iff, andb_true_iff, !Z.ltb_lt, !Z.eqb_eq; tauto.
Qed.
Lemma lex3_lt_false a b : lex3_lt b a = false <-> not_after a b.
Proof.
  rewrite <- not_true_iff_false, lex3_lt_spec; destruct a as [[a1 a2] a3], b as [[b1 b2] b3]; unfold not_after, before; split.
  - intros Hn; destruct (Z.lt_trichotomy a1 b1) as [?|[->|?]]; [right; lia | | lia].
    destruct (Z.lt_trichotomy a2 b2) as [?|[->|?]]; [right; lia | | lia].
    destruct (Z.lt_trichotomy a3 b3) as [?|[->|?]]; [right; lia | left; reflexivity | lia].
  - intros [E|Hb]; [injection E as -> -> ->; lia | lia].
Qed.
Lemma not_after_trans a b c : not_after a b -> not_after b c -> not_after a c.
Proof.
  destruct a as [[a1 a2] a3], b as [[b1 b2] b3], c as [[c1 c2] c3]; unfold not_after, before.
  intros [E|?] [F|?]; [injection E as -> -> ->; injection F as -> -> ->; left; reflexivity | | |];
    [injection E as -> -> ->; right; assumption | injection F as -> -> ->; right; assumption | right; lia].
Qed.
Lemma not_after_total a b : not_after a b \/ not_after b a.
Proof. destruct (lex3_lt b a) eqn:E; [right; right; apply lex3_lt_spec, E | left; apply lex3_lt_false, E]. Qed.
Definition ordered (props : nat -> prop3) (l : list nat) : Prop :=
  StronglySorted (fun a b => not_after (props a) (props b)) l.
Definition same_key (props : nat -> prop3) (k : prop3) (x : nat) : bool := negb (lex3_lt (props x) k) && negb (lex3_lt k (props x)).
Lemma merge_loop_spec props : forall fuel pre A B, (length A + length B <= fuel)%nat -> ordered props A -> ordered props B ->
  exists M, (let (A', B') := merge_loop fuel props pre A B in A' ++ B') = pre ++ M /\ Permutation M (A ++ B) /\ ordered props M /\
    forall k, filter (same_key props k) M = filter (same_key props k) A ++ filter (same_key props k) B.
Proof.
  induction fuel as [|f IH]; intros pre A B Hl HA HB.
  - destruct A, B; simpl in Hl; try lia; exists []; simpl; rewrite !app_nil_r; repeat split; constructor.
  - cbn [merge_loop]; destruct A as [|a A'].
    { exists B; rewrite app_nil_r; repeat split; try reflexivity; exact HB. }
    destruct B as [|b B'].
    { exists (a :: A'); rewrite !app_nil_r; repeat split; try reflexivity; [exact HA | intros k; simpl; rewrite app_nil_r; reflexivity]. }
    apply StronglySorted_inv in HA as HA'; apply StronglySorted_inv in HB as HB'; destruct HA' as [HA1 HA2], HB' as [HB1 HB2].
    rewrite Forall_forall in HA2, HB2; simpl in Hl.
    destruct (lex3_lt (props b) (props a)) eqn:E.
    + destruct (IH (pre ++ [b]) (a :: A') B') as [M [M1 [M2 [M3 M4]]]]; [simpl; lia | exact HA | exact HB1|].
      exists (b :: M); rewrite M1, <- app_assoc; split; [reflexivity|]; split; [|split].
      * rewrite M2; apply (Permutation_middle (a :: A') B' b).
      * constructor; [exact M3|]; apply Forall_forall; intros x Hx; apply (Permutation_in _ M2) in Hx.
        apply in_app_iff in Hx; destruct Hx as [[<-|Hx]|Hx]; [right; apply lex3_lt_spec, E | | apply HB2, Hx].
        eapply not_after_trans; [right; apply lex3_lt_spec, E | apply HA2, Hx].
      * intros k; cbn [filter]; rewrite M4; cbn [filter]; destruct (same_key props k b) eqn:Kb; [|reflexivity].
        assert (Hk : forall x, not_after (props a) (props x) -> same_key props k x = false).
        { intros x Hx; unfold same_key in *; apply andb_true_iff in Kb; destruct Kb as [K1 K2].
          apply negb_true_iff, lex3_lt_false in K1; apply negb_true_iff, lex3_lt_false in K2.
          apply andb_false_iff; right; apply negb_false_iff, lex3_lt_spec.
          destruct (lex3_lt k (props x)) eqn:F; [apply lex3_lt_spec, F|]; apply lex3_lt_false in F.
          assert (G : not_after (props a) (props b)) by (eapply not_after_trans; [exact Hx|]; eapply not_after_trans; [exact F | exact K1]).
          apply lex3_lt_false in G; congruence. }
        rewrite (Hk a) by (left; reflexivity).
        assert (Hf : filter (same_key props k) A' = []).
        { clear -Hk HA2; induction A' as [|x A' IH]; [reflexivity|]; cbn [filter]; rewrite (Hk x) by (apply HA2; left; reflexivity).
          apply IH; intros y Hy; apply HA2; right; exact Hy. }
        rewrite Hf; reflexivity.
    + destruct (IH (pre ++ [a]) A' (b :: B')) as [M [M1 [M2 [M3 M4]]]]; [simpl; lia | exact HA1 | exact HB|].
      apply lex3_lt_false in E.
      exists (a :: M); rewrite M1, <- app_assoc; split; [reflexivity|]; split; [|split].
      * rewrite M2; reflexivity.
      * constructor; [exact M3|]; apply Forall_forall; intros x Hx; apply (Permutation_in _ M2) in Hx.
        apply in_app_iff in Hx; destruct Hx as [Hx|[<-|Hx]]; [apply HA2, Hx | exact E | eapply not_after_trans; [exact E | apply HB2, Hx]].
      * intros k; simpl; rewrite M4; destruct (same_key props k a); reflexivity.
Qed.
(* pattern x has exactly the properties k *)
Definition has_key (props : nat -> prop3) (k : prop3) (x : nat) : bool :=
  let '(a, b, c) := props x in let '(a', b', c') := k in (a =? a') && (b =? b') && (c =? c').
Lemma has_key_same props k x : has_key props k x = same_key props k x.
Proof.
  unfold has_key, same_key; destruct (props x) as [[a b] c], k as [[a' b'] c']; unfold lex3_lt.
  destruct (Z.ltb_spec a a'), (Z.ltb_spec a' a), (Z.eqb_spec a a'), (Z.eqb_spec a' a); try lia; try reflexivity;
  destruct (Z.ltb_spec b b'), (Z.ltb_spec b' b), (Z.eqb_spec b b'), (Z.eqb_spec b' b); try lia; try reflexivity;
  destruct (Z.ltb_spec c c'), (Z.ltb_spec c' c), (Z.eqb_spec c c'); try lia; reflexivity.
Qed.
(* ids with equal properties keep their order, those of the first list first: with the two
   other facts this determines the result *)
Theorem C37_merge : forall props A B, ordered props A -> ordered props B ->
  ordered props (merge_sorted_pids props A B) /\ Permutation (merge_sorted_pids props A B) (A ++ B) /\
  forall k, filter (has_key props k) (merge_sorted_pids props A B) = filter (has_key props k) A ++ filter (has_key props k) B.
Proof.
  intros props A B HA HB; unfold merge_sorted_pids.
  destruct (merge_loop_spec props (length A + length B) [] A B (le_n _) HA HB) as [M [M1 [M2 [M3 M4]]]].
  destruct (merge_loop (length A + length B) props [] A B) as [A' B']; rewrite M1; simpl; split; [exact M3|]; split; [exact M2|].
  intros k; rewrite !(filter_ext (has_key props k) (same_key props k)) by (intros x; apply has_key_same); apply M4.
Qed.
Theorem C37_sort : forall props pids, ordered props (sort_pids props pids) /\ Permutation (sort_pids props pids) pids.
Proof.
  intros props pids; split; [|apply sort_perm]; unfold sort_pids, ordered.
  assert (Hs : StronglySorted (le_rel (fun a b => negb (lex3_lt (props b) (props a)))) (sort (fun a b => negb (lex3_lt (props b) (props a))) pids)).
  { apply sort_sorted.
    - intros x y; rewrite !negb_true_iff, !lex3_lt_false; apply not_after_total.
    - intros x y z; rewrite !negb_true_iff, !lex3_lt_false; apply not_after_trans. }
  induction Hs as [|x l Hl IH Hx]; constructor; [exact IH|].
  eapply Forall_impl; [|exact Hx]; intros y Hy; unfold le_rel in Hy; apply negb_true_iff, lex3_lt_false in Hy; exact Hy.
Qed.
Definition demo_props (i : nat) : prop3 := nth i [(5, 2, 3); (1, 2, 3); (1, 2, 2); (7, 0, 0); (1, 2, 3)] (0, 0, 0).
Example C37_case : sort_pids demo_props [0; 1; 2]%nat = [2; 1; 0]%nat /\ merge_sorted_pids demo_props [2; 1; 0]%nat [4; 3]%nat = [2; 1; 4; 0; 3]%nat.
Proof. split; reflexivity. Qed.
Print Assumptions C37_merge.
Print Assumptions C37_sort.

(* ============================================================ C38 data sequences *)
Section DataSequenceProofs.
  Context {A : Type} `{EqDec A} (leA : A -> A -> bool).
  Context (leA_total : forall x y, leA x y = true \/ leA y x = true).
  Context (leA_trans : forall x y z, leA x y = true -> leA y z = true -> leA x z = true).
  (* the times of event e, in the order of the log *)
  Definition times_of (e : A) (seq : list (Z * A)) : list Z := map fst (filter (fun p => eqd (snd p) e) seq).
  Definition flat (d : dict A (list Z)) : list (Z * A) := concat (map (fun p => map (fun t => (t, fst p)) (snd p)) d).

  Lemma dget_set (d : dict A (list Z)) k v k' : dget (dset d k v) k' = if eqd k' k then Some v else dget d k'.
  Proof.
    induction d as [|[k0 v0] d IH]; simpl; unfold eqd in *.
    - destruct (eq_dec k' k); reflexivity.
    - destruct (eq_dec k k0) as [E0|E0]; simpl.
      + subst k0; destruct (eq_dec k' k); reflexivity.
      + destruct (eq_dec k' k0) as [->|]; [|exact IH]; destruct (eq_dec k0 k); [congruence | reflexivity].
  Qed.
  Lemma dset_keys (d : dict A (list Z)) k v : forall x, In x (dkeys (dset d k v)) <-> x = k \/ In x (dkeys d).
  Proof.
    intros x; induction d as [|[k0 v0] d IH]; simpl; [intuition|].
    destruct (eq_dec k k0) as [E0|E0]; simpl; [subst; intuition | rewrite IH; intuition].
  Qed.
  Lemma dset_NoDup (d : dict A (list Z)) k v : NoDup (dkeys d) -> NoDup (dkeys (dset d k v)).
  Proof.
    induction d as [|[k0 v0] d IH]; simpl; intros Hn; [repeat constructor; intros []|].
    inversion Hn as [|? ? Hk Hn']; subst; destruct (eq_dec k k0) as [E0|E0]; simpl; [constructor; assumption|].
    constructor; [|apply IH, Hn']; intros Hin; apply dset_keys in Hin; destruct Hin; congruence.
  Qed.
  Lemma dget_keys (d : dict A (list Z)) k : dget d k = None <-> ~ In k (dkeys d).
  Proof.
    induction d as [|[k0 v0] d IH]; simpl; [tauto|]; destruct (eq_dec k k0) as [E0|E0].
    - subst; split; [discriminate | intros Hn; exfalso; apply Hn; auto].
    - rewrite IH; split; [intros Hn [->|Hin]; congruence | intros Hn Hin; apply Hn; auto].
  Qed.
  Lemma dget_In (d : dict A (list Z)) k v : NoDup (dkeys d) -> dget d k = Some v <-> In (k, v) d.
  Proof.
    induction d as [|[k0 v0] d IH]; simpl; intros Hn; [split; [discriminate | intros []]|].
    inversion Hn as [|? ? Hk Hn']; subst; destruct (eq_dec k k0) as [E0|E0].
    - subst; split; [intros E; injection E as ->; auto | intros [E|Hin]; [congruence|]].
      exfalso; apply Hk; apply (in_map fst) in Hin; exact Hin.
    - rewrite IH by exact Hn'; split; [auto | intros [E|Hin]; [congruence | exact Hin]].
  Qed.
  Lemma flat_set_new d k (v : list Z) : dget d k = None -> flat (dset d k v) = flat d ++ map (fun t => (t, k)) v.
  Proof.
    unfold flat; induction d as [|[k0 v0] d IH]; simpl; intros E; [rewrite app_nil_r; reflexivity|].
    destruct (eq_dec k k0); [discriminate|]; simpl; rewrite IH by exact E; rewrite <- app_assoc; reflexivity.
  Qed.
  Lemma flat_set_app d k (v : list Z) t : dget d k = Some v -> Permutation (flat (dset d k (v ++ [t]))) (flat d ++ [(t, k)]).
  Proof.
    unfold flat; induction d as [|[k0 v0] d IH]; simpl; intros E; [discriminate|].
    destruct (eq_dec k k0) as [E0|E0]; simpl.
    - subst k0; injection E as ->; rewrite map_app; simpl; rewrite <- !app_assoc; apply Permutation_app_head, Permutation_app_comm.
    - rewrite <- app_assoc; apply Permutation_app_head, IH, E.
  Qed.
  Lemma group_spec seq : NoDup (dkeys (group_occs seq)) /\ Permutation (flat (group_occs seq)) seq /\
    (forall e, dget (group_occs seq) e = match times_of e seq with [] => None | ts => Some ts end).
  Proof.
    unfold group_occs; rewrite <- (rev_involutive seq); rewrite <- (fold_left_rev_right (fun y x => add_occ x y)); rewrite rev_involutive.
    induction (rev seq) as [|[t e] r [I1 [I2 I3]]]; [simpl; split; [constructor|]; split; [constructor | reflexivity]|].
    cbn [fold_right rev]; set (d := fold_right (fun y x => add_occ x y) [] r) in *; unfold add_occ; cbn [fst snd].
    assert (Ht : forall e', times_of e' (rev r ++ [(t, e)]) = times_of e' (rev r) ++ if eqd e e' then [t] else []).
    { intros e'; unfold times_of; rewrite filter_app, map_app; simpl; destruct (eqd e e'); reflexivity. }
    destruct (dget d e) as [ts|] eqn:E.
    - split; [apply dset_NoDup, I1|]; split; [rewrite flat_set_app by exact E; apply Permutation_app_tail, I2|].
      intros e'; rewrite dget_set, Ht; unfold eqd; destruct (eq_dec e' e) as [->|Hne].
      + destruct (eq_dec e e) as [_|]; [|congruence]; rewrite I3 in E; destruct (times_of e (rev r)); [discriminate | injection E as <-; reflexivity].
      + destruct (eq_dec e e'); [congruence|]; rewrite app_nil_r; apply I3.
    - split; [apply dset_NoDup, I1|]; split; [rewrite flat_set_new by exact E; apply Permutation_app_tail, I2|].
      intros e'; rewrite dget_set, Ht; unfold eqd; destruct (eq_dec e' e) as [->|Hne].
      + destruct (eq_dec e e) as [_|]; [|congruence]; rewrite I3 in E; destruct (times_of e (rev r)); [reflexivity | discriminate].
      + destruct (eq_dec e e'); [congruence|]; rewrite app_nil_r; apply I3.
  Qed.
  Lemma In_times e seq t : In t (times_of e seq) <-> In (t, e) seq.
  Proof.
    unfold times_of; rewrite in_map_iff; split.
    - intros [[t' e'] [<- Hin]]; apply filter_In in Hin; destruct Hin as [Hin E]; apply (proj1 (eqd_true _ _)) in E; simpl in E; subst; exact Hin.
    - intros Hin; exists (t, e); split; [reflexivity|]; apply filter_In; split; [exact Hin | apply eqd_refl].
  Qed.
  Lemma pair_leb_total a b : pair_leb a b = true \/ pair_leb b a = true.
  Proof. destruct a, b; unfold pair_leb; simpl; rewrite !orb_true_iff, !andb_true_iff, !Z.ltb_lt, !Z.eqb_eq, !Nat.leb_le; lia. Qed.
  Lemma pair_leb_trans a b c : pair_leb a b = true -> pair_leb b c = true -> pair_leb a c = true.
  Proof. destruct a, b, c; unfold pair_leb; simpl; rewrite !orb_true_iff, !andb_true_iff, !Z.ltb_lt, !Z.eqb_eq, !Nat.leb_le; lia. Qed.
  Lemma zmin'_spec l : l <> [] -> In (zmin' l) l /\ forall t, In t l -> zmin' l <= t.
  Proof. destruct l as [|x l]; [congruence|]; intros _; apply fold_min_spec. Qed.
  Lemma zmax'_spec l : l <> [] -> In (zmax' l) l /\ forall t, In t l -> t <= zmax' l.
  Proof. destruct l as [|x l]; [congruence|]; intros _; apply fold_max_spec. Qed.
  Lemma total_flat (d : dict A (list Z)) f : total_occs (map (fun p => (f (fst p), Z.of_nat (length (snd p)))) d) = Z.of_nat (length (flat d)).
  Proof.
    unfold total_occs, flat; induction d as [|[k v] d IH]; simpl; [reflexivity|]; rewrite app_length, map_length, IH; lia.
  Qed.

  (* how a data sequence must relate to the log it was built from *)
  Record represents (seq : list (Z * A)) (s : dataseq) : Prop := {
    (* the events, numbered in sorted order *)
    rp_sorted : StronglySorted (fun x y => leA x y = true) (ds_events s);
    rp_distinct : NoDup (ds_events s);
    rp_events : forall e, In e (ds_events s) <-> exists t, In (t, e) seq;
    (* the log read back *)
    rp_log : Permutation (map (fun p => (fst p, nth_error (ds_events s) (snd p))) (ds_seql s)) (map (fun p => (fst p, Some (snd p))) seq);
    rp_log_sorted : StronglySorted (fun p q => fst p < fst q \/ fst p = fst q /\ (snd p <= snd q)%nat) (ds_seql s);
    rp_one : forall k e, nth_error (ds_events s) k = Some e -> get_sequence s (Some k) = inr (times_of e seq);
    rp_none : forall k, nth_error (ds_events s) k = None -> get_sequence s (Some k) = inr [];
    (* extent and counts *)
    rp_extent : forall t0 e0, In (t0, e0) seq -> (exists e, In (ds_start s, e) seq) /\ (exists e, In (ds_end s, e) seq) /\ ds_start s <= t0 <= ds_end s;
    rp_empty : seq = [] -> ds_start s = 0 /\ ds_end s = 0;
    rp_total : total_occs (ds_counts s) = Z.of_nat (length seq);
    rp_counts : forall k n, In (k, n) (ds_counts s) <-> exists e, nth_error (ds_events s) k = Some e /\ n = Z.of_nat (length (times_of e seq)) }.
  Theorem C38_sequence : forall seq, exists s, dataseq_of_list leA seq = Ret s /\ represents seq s.
  Proof.
    intros seq; destruct (group_spec seq) as [G1 [G2 G3]]; unfold dataseq_of_list; set (d := group_occs seq) in *.
    assert (Hd : forall e ts, In (e, ts) d <-> ts <> [] /\ ts = times_of e seq).
    { intros e ts; rewrite <- (dget_In d e ts G1), G3; destruct (times_of e seq) as [|x l]; split.
      - discriminate.
      - intros [Hne E]; congruence.
      - intros E; injection E as <-; split; [discriminate | reflexivity].
      - intros [_ ->]; reflexivity. }
    unfold dataseq_of_dict; set (evs := sort leA (dkeys d)).
    assert (Hevs : NoDup evs) by (apply NoDup_sort, G1).
    assert (Hev : forall e, In e evs <-> exists t, In (t, e) seq).
    { intros e; unfold evs; rewrite In_sort; unfold dkeys; rewrite in_map_iff; split.
      - intros [[e' ts] [<- Hin]]; apply Hd in Hin; destruct Hin as [Hne ->]; simpl.
        destruct (times_of e' seq) as [|t l] eqn:E; [congruence|]; exists t; apply In_times; rewrite E; left; reflexivity.
      - intros [t Ht]; apply In_times in Ht; exists (e, times_of e seq); split; [reflexivity|]; apply Hd; split; [|reflexivity].
        intros E; rewrite E in Ht; destruct Ht. }
    assert (Hfi : forall e, In e evs -> nth_error evs (first_index e evs) = Some e) by (intros e He; apply first_index_spec, He).
    assert (Hfi2 : forall k e, nth_error evs k = Some e -> first_index e evs = k).
    { intros k e E; assert (He : In e evs) by (eapply nth_error_In, E); assert (E2 := Hfi e He); rewrite <- E in E2.
      rewrite NoDup_nth_error in Hevs; apply Hevs in E2; [exact E2|]; apply nth_error_Some; rewrite Hfi by exact He; discriminate. }
    assert (Hdk : forall e ts, In (e, ts) d -> In e evs) by (intros e ts Hin; unfold evs; apply In_sort; apply (in_map fst) in Hin; exact Hin).
    set (seqd := map (fun p => (first_index (fst p) evs, snd p)) d).
    assert (Hsd : forall k ts, In (k, ts) seqd <-> exists e, nth_error evs k = Some e /\ ts = times_of e seq).
    { intros k ts; unfold seqd; rewrite in_map_iff; split.
      - intros [[e ts'] [E Hin]]; simpl in E; injection E as <- <-; exists e; split; [apply Hfi; eapply Hdk, Hin | apply Hd in Hin; apply Hin].
      - intros [e [E ->]]; exists (e, times_of e seq); simpl; rewrite (Hfi2 k e E); split; [reflexivity|]; apply Hd; split; [|reflexivity].
        apply nth_error_In, Hev in E; destruct E as [t Ht]; apply In_times in Ht; intros E; rewrite E in Ht; destruct Ht. }
    assert (Hne : forall k ts, In (k, ts) seqd -> ts <> []).
    { intros k ts Hin; unfold seqd in Hin; apply in_map_iff in Hin; destruct Hin as [[e ts'] [E Hin]]; apply Hd in Hin; simpl in E; injection E as _ <-; apply Hin. }
    destruct (existsb (fun p => match snd p with [] => true | _ => false end) seqd) eqn:Ex.
    { exfalso; apply existsb_exists in Ex; destruct Ex as [[k ts] [Hin E]]; apply Hne in Hin; simpl in E; destruct ts; congruence. }
    eexists; split; [reflexivity|].
    assert (Hnd : NoDup (map fst seqd)).
    { unfold seqd; rewrite map_map; simpl; clearbody evs; clear -G1 Hdk Hfi; unfold dkeys in G1; clearbody d; induction d as [|[e ts] d' IH]; simpl; [constructor|].
      inversion G1 as [|? ? He G1']; subst; constructor.
      - rewrite in_map_iff; intros [[e' ts'] [E Hin]]; simpl in E; apply He.
        assert (E1 := Hfi e ltac:(eapply Hdk; left; reflexivity)); assert (E2 := Hfi e' ltac:(eapply Hdk; right; exact Hin)).
        rewrite E, E1 in E2; injection E2 as ->; apply (in_map fst) in Hin; exact Hin.
      - apply IH; [exact G1'|]; intros e' ts' Hin; eapply Hdk; right; exact Hin. }
    assert (Hget : forall k ts, dget seqd k = Some ts <-> In (k, ts) seqd).
    { clear -Hnd; intros k ts; induction seqd as [|[k0 v0] l IH]; simpl in *; [split; [discriminate | intros []]|].
      inversion Hnd as [|? ? Hk Hn']; subst; destruct (eq_dec k k0) as [E0|E0].
      - subst; split; [intros E; injection E as ->; auto | intros [E|Hin]; [congruence|]].
        exfalso; apply Hk; apply (in_map fst) in Hin; exact Hin.
      - rewrite IH by exact Hn'; split; [auto | intros [E|Hin]; [congruence | exact Hin]]. }
    assert (Htot : total_occs (map (fun p => (fst p, Z.of_nat (length (snd p)))) seqd) = Z.of_nat (length seq)).
    { unfold seqd; rewrite map_map; cbn [fst snd]; rewrite (total_flat d (fun e => first_index e evs)), (Permutation_length G2); reflexivity. }
    assert (Hseqd : seq <> [] -> seqd <> []).
    { intros Hs E; rewrite E in Htot; destruct seq; [congruence|]; discriminate. }
    constructor; cbn [ds_events ds_seql ds_seqd ds_counts ds_start ds_end get_sequence].
    - apply sort_sorted; assumption.
    - exact Hevs.
    - exact Hev.
    - set (l0 := concat _); rewrite (sort_perm pair_leb l0).
      rewrite <- G2; unfold l0, seqd, flat; clear -Hdk Hfi; rewrite !concat_map, !map_map; apply Permutation_refl', f_equal, map_ext_in.
      intros [e ts] Hin; cbn [fst snd]; rewrite !map_map; apply map_ext; intros t; cbn [fst snd]; rewrite Hfi by (eapply Hdk, Hin); reflexivity.
    - set (l0 := concat _); assert (Hss := sort_sorted pair_leb pair_leb_total pair_leb_trans l0).
      induction Hss as [|x l Hl IH Hx]; constructor; [exact IH|]; eapply Forall_impl; [|exact Hx]; intros y Hy; unfold le_rel, pair_leb in Hy.
      rewrite orb_true_iff, andb_true_iff, Z.ltb_lt, Z.eqb_eq, Nat.leb_le in Hy; exact Hy.
    - intros k e E; f_equal; assert (Hin : In (k, times_of e seq) seqd) by (apply Hsd; exists e; auto); apply Hget in Hin; rewrite Hin; reflexivity.
    - intros k E; f_equal; destruct (dget seqd k) as [ts|] eqn:Eg; [|reflexivity]; apply Hget, Hsd in Eg; destruct Eg as [e [Ek _]]; congruence.
    - intros t0 e0 Hin; rewrite Htot; destruct (Z.ltb_spec 0 (Z.of_nat (length seq))) as [_|Hc]; [|destruct seq; [destruct Hin | simpl in Hc; lia]].
      assert (Hq : seqd <> []) by (apply Hseqd; intros ->; destruct Hin).
      destruct (zmin'_spec (map (fun p => zmin' (snd p)) seqd)) as [M1 M2]; [intros E; apply map_eq_nil in E; congruence|].
      destruct (zmax'_spec (map (fun p => zmax' (snd p)) seqd)) as [N1 N2]; [intros E; apply map_eq_nil in E; congruence|].
      assert (Hmem : In (first_index e0 evs, times_of e0 seq) seqd).
      { apply Hsd; exists e0; split; [apply Hfi, Hev; exists t0; exact Hin | reflexivity]. }
      assert (Ht0 : In t0 (times_of e0 seq)) by (apply In_times, Hin).
      split; [|split].
      + apply in_map_iff in M1; destruct M1 as [[k ts] [<- Hk]]; cbn [snd]; pose proof (Hne _ _ Hk) as Hts; apply Hsd in Hk; destruct Hk as [e [_ ->]].
        exists e; apply In_times, zmin'_spec, Hts.
      + apply in_map_iff in N1; destruct N1 as [[k ts] [<- Hk]]; cbn [snd]; pose proof (Hne _ _ Hk) as Hts; apply Hsd in Hk; destruct Hk as [e [_ ->]].
        exists e; apply In_times, zmax'_spec, Hts.
      + pose proof (Hne _ _ Hmem) as Hts; destruct (zmin'_spec _ Hts) as [_ P1]; destruct (zmax'_spec _ Hts) as [_ P2].
        specialize (P1 _ Ht0); specialize (P2 _ Ht0).
        specialize (M2 (zmin' (times_of e0 seq))); specialize (N2 (zmax' (times_of e0 seq))).
        rewrite in_map_iff in M2, N2; specialize (M2 ltac:(exists (first_index e0 evs, times_of e0 seq); auto)); specialize (N2 ltac:(exists (first_index e0 evs, times_of e0 seq); auto)); lia.
    - intros E; rewrite Htot, E; split; reflexivity.
    - exact Htot.
    - intros k n; rewrite in_map_iff; split.
      + intros [[k' ts] [E Hin]]; simpl in E; injection E as <- <-; apply Hsd in Hin; destruct Hin as [e [E1 ->]]; exists e; auto.
      + intros [e [E ->]]; exists (k, times_of e seq); split; [reflexivity|]; apply Hsd; exists e; auto.
  Qed.
End DataSequenceProofs.
Example C38_case : dataseq_of_list Nat.leb [(5, 30%nat); (1, 10%nat); (5, 10%nat); (2, 30%nat)] =
  Ret {| ds_events := [10; 30]%nat; ds_seqd := [(1%nat, [5; 2]); (0%nat, [1; 5])];
         ds_seql := [(1, 0%nat); (2, 1%nat); (5, 0%nat); (5, 1%nat)]; ds_counts := [(1%nat, 2); (0%nat, 2)]; ds_start := 1; ds_end := 5 |}.
Proof. reflexivity. Qed.
Print Assumptions C38_sequence.

(* ================================================================ C49 frequencies *)
Definition sumQ (l : list Q) : Q := fold_right Qplus 0%Q l.
Lemma sum_scaled (counts : list (nat * Z)) (c : Q) :
  (sumQ (map (fun p => inject_Z (snd p) * c) counts) == inject_Z (total_occs counts) * c)%Q.
Proof.
  unfold total_occs, sumQ; induction counts as [|[k n] l IH]; simpl; [unfold inject_Z; ring|].
  rewrite IH, inject_Z_plus; ring.
Qed.
Theorem C49_original : forall counts, 0 < total_occs counts ->
  map fst (org_freqs counts) = map fst counts /\ (sumQ (map snd (org_freqs counts)) == 1)%Q /\
  forall k f, In (k, f) (org_freqs counts) -> exists n, In (k, n) counts /\ (0 < n -> (0 < f)%Q) /\ (f * inject_Z (total_occs counts) == inject_Z n)%Q.
Proof.
  intros counts Ht; assert (Hp : (0 < inject_Z (total_occs counts))%Q) by (change 0%Q with (inject_Z 0); rewrite <- Zlt_Qlt; exact Ht).
  split; [unfold org_freqs; rewrite map_map; reflexivity|]; split.
  - unfold org_freqs; rewrite map_map; cbn [snd]; unfold Qdiv; rewrite sum_scaled; apply Qmult_inv_r; lra.
  - intros k f Hin; unfold org_freqs in Hin; apply in_map_iff in Hin; destruct Hin as [[k' n] [E Hin]]; cbn [fst snd] in E; injection E as <- <-.
    exists n; split; [exact Hin|]; split; [|field; lra].
    intros Hn; apply Qlt_shift_div_l; [exact Hp|]; rewrite Qmult_0_l; change 0%Q with (inject_Z 0); rewrite <- Zlt_Qlt; exact Hn.
Qed.
Theorem C49_adjusted : forall counts, 0 < total_occs counts ->
  map fst (adj_freqs counts) = map fst counts /\ (sumQ (delim_freqs ++ map snd (adj_freqs counts)) == 1)%Q /\
  (forall f, In f delim_freqs -> 0 < f)%Q /\
  forall k f, In (k, f) (adj_freqs counts) -> exists n, In (k, n) counts /\ (0 < n -> (0 < f)%Q) /\ (3 * f * inject_Z (total_occs counts) == inject_Z n)%Q.
Proof.
  intros counts Ht; assert (Hp : (0 < inject_Z (total_occs counts))%Q) by (change 0%Q with (inject_Z 0); rewrite <- Zlt_Qlt; exact Ht).
  split; [unfold adj_freqs; rewrite map_map; reflexivity|]; split; [|split].
  - unfold adj_freqs; rewrite map_map; cbn [snd]; unfold Qdiv.
    cut (sumQ (map (fun p => inject_Z (snd p) * / (3 * inject_Z (total_occs counts)))%Q counts) == 1 # 3)%Q.
    { unfold delim_freqs, sumQ; simpl; intros E; rewrite E; reflexivity. }
    rewrite sum_scaled; field; lra.
  - intros f [<-|[<-|[]]]; reflexivity.
  - intros k f Hin; unfold adj_freqs in Hin; apply in_map_iff in Hin; destruct Hin as [[k' n] [E Hin]]; cbn [fst snd] in E; injection E as <- <-.
    exists n; split; [exact Hin|]; split; [|field; lra].
    intros Hn; apply Qlt_shift_div_l; [lra|]; rewrite Qmult_0_l; change 0%Q with (inject_Z 0); rewrite <- Zlt_Qlt; exact Hn.
Qed.
(* the counts of a data sequence meet the hypotheses: they are positive and their total is the length of the log *)
Theorem C49_of_log : forall {A} `{EqDec A} (leA : A -> A -> bool) seq s,
  (forall x y, leA x y = true \/ leA y x = true) -> (forall x y z, leA x y = true -> leA y z = true -> leA x z = true) ->
  seq <> [] -> dataseq_of_list leA seq = Ret s ->
  0 < total_occs (ds_counts s) /\ forall k n, In (k, n) (ds_counts s) -> 0 < n.
Proof.
  intros A EA leA seq s Htot Htr Hne E; destruct (C38_sequence leA Htot Htr seq) as [s' [E' R]].
  rewrite E in E'; injection E' as <-; split.
  - rewrite (rp_total _ _ _ R); destruct seq; [congruence | simpl; lia].
  - intros k n Hin; apply (rp_counts _ _ _ R) in Hin; destruct Hin as [e [Ek ->]].
    apply nth_error_In, (rp_events _ _ _ R) in Ek; destruct Ek as [t Ht]; apply In_times in Ht.
    destruct (times_of e seq); [destruct Ht | simpl; lia].
Qed.
Example C49_case : org_freqs [(0%nat, 3); (1%nat, 1)] = [(0%nat, (3 # 4)%Q); (1%nat, (1 # 4)%Q)] /\ 0 < total_occs [(0%nat, 3); (1%nat, 1)].
Proof. split; reflexivity. Qed.
Print Assumptions C49_original.
Print Assumptions C49_adjusted.
Print Assumptions C49_of_log.
