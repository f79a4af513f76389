(* C85: the code lengths of patterns are those of a code.  Real numbers of the standard library. *)
From Coq Require Import Reals QArith Qreals Lra.
From Verif Require Import Prelude CheckModel LCMModel TextModel VerticalProofs SplitModel ArrayModel PropArray PeriodModel PropPeriod TreeModel TreeProofs PropTree CyclesModel CodeLengthModel.
From Verif Require Import GraphUtilModel PropGraphUtil KraftProofs PropGraphLength PropCodeLength PropTreeLength.
Local Open Scope Z_scope.

(* ------------------------------------------------------------ specification *)
(* a pattern without the numbers of its nodes *)
Fixpoint tmap (fr : nat -> nat) (fp fd : Z -> Z) (t : tree nat) : tree nat :=
  match t with
  | Leaf _ a => Leaf 0 a
  | Node _ r p ch => Node 0 (fr r) (fp p) (map (fun cd => (tmap fr fp fd (fst cd), fd (snd cd))) ch)
  end.
Definition strip : tree nat -> tree nat := tmap (fun r => r) (fun p => p) (fun x => x).
(* the events of a pattern *)
Fixpoint leaf_events (t : tree nat) : list nat :=
  match t with Leaf _ a => [a] | Node _ _ _ ch => flat_map (fun cd => leaf_events (fst cd)) ch end.
(* no block is repeated more often than each of its events occurs in the log *)
Inductive reps_ok (d : details) : tree nat -> Prop :=
| reps_leaf n a : reps_ok d (Leaf n a)
| reps_node n r p ch : (forall a, In a (leaf_events (Node n r p ch)) -> exists k, In (a, k) (d_counts d) /\ Z.of_nat r <= k) ->
    Forall (fun cd => reps_ok d (fst cd)) ch -> reps_ok d (Node n r p ch).

(* ------------------------------------------------------------ proofs *)
Definition kle {X} (c : R) (P : X -> Prop) (w : X -> R) : Prop :=
  (forall x, P x -> (0 <= w x)%R) /\ forall xs, NoDup xs -> Forall P xs -> (rsum (map w xs) <= c)%R.
Lemma kle_scale {X} (c : R) (P : X -> Prop) w : (0 < c)%R -> kraft P (fun x => (c * w x)%R) -> kle (/ c) P w.
Proof.
  intros Hc [K1 K2]. split.
  - intros x Px. specialize (K1 x Px). cbv beta in K1. apply Rmult_le_reg_l with c; lra.
  - intros xs Hn Hf. specialize (K2 xs Hn Hf). rewrite (map_ext _ (fun x => w x * c)%R) in K2 by (intros; ring). rewrite rsum_map_scale in K2.
    apply Rmult_le_reg_r with c; [exact Hc|]. rewrite Rinv_l by lra. exact K2.
Qed.
Lemma kraft_scale {X} (c : R) (P : X -> Prop) w : (0 < c)%R -> kle (/ c) P w -> kraft P (fun x => (c * w x)%R).
Proof.
  intros Hc [K1 K2]. split.
  - intros x Px. specialize (K1 x Px). apply Rmult_le_pos; lra.
  - intros xs Hn Hf. specialize (K2 xs Hn Hf). rewrite (map_ext _ (fun x => w x * c)%R) by (intros; ring). rewrite rsum_map_scale.
    apply Rmult_le_compat_r with (r := c) in K2; [|lra]. rewrite Rinv_l in K2 by lra. exact K2.
Qed.
Lemma kle_mono {X} (a b : R) (P Q : X -> Prop) w : kle a Q w -> (a <= b)%R -> (forall x, P x -> Q x) -> kle b P w.
Proof. intros [K1 K2] Hab HPQ. split; [auto|]. intros xs Hn Hf. specialize (K2 xs Hn (Forall_impl _ HPQ Hf)). lra. Qed.
Lemma kle_split {X} (f : X -> bool) (a b : R) (P : X -> Prop) w :
  kle a (fun x => P x /\ f x = true) w -> kle b (fun x => P x /\ f x = false) w -> kle (a + b) P w.
Proof.
  intros [A1 A2] [B1 B2]. split; [intros x Px; destruct (f x) eqn:E; auto|]. intros xs Hn Hf. rewrite Forall_forall in Hf.
  specialize (A2 (filter f xs) (NoDup_filter f _ Hn)). specialize (B2 (filter (fun x => negb (f x)) xs) (NoDup_filter _ _ Hn)).
  assert (E : rsum (map w xs) = (rsum (map w (filter f xs)) + rsum (map w (filter (fun x => negb (f x)) xs)))%R).
  { clear. induction xs as [|x xs IH]; cbn [map rsum filter]; [lra|]. rewrite IH. destruct (f x); cbn [negb map rsum]; lra. }
  rewrite E. apply Rplus_le_compat.
  - apply A2. rewrite Forall_forall. intros x I. apply filter_In in I. destruct I as [I F]. auto.
  - apply B2. rewrite Forall_forall. intros x I. apply filter_In in I. destruct I as [I F]. apply negb_true_iff in F. auto.
Qed.
Lemma kraft_forall2 {Sp X} `{EqDec X} (x0 : X) (P : Sp -> X -> Prop) (w : X -> R) ss : Forall (fun s => kraft (P s) w) ss -> kraft (Forall2 P ss) (fun xs => rprod (map w xs)).
Proof.
  induction 1 as [|s ss Ks _ IH].
  - apply (kraft_via (fun xs => tt) _ (fun _ => True) _ (fun _ => 1%R)).
    + split; [intros; lra|]. intros [|[] [|[] l]] Hn _; cbn; [lra | lra|]. inversion Hn as [|? ? Hx _]; subst. exfalso. apply Hx. left. reflexivity.
    + auto.
    + intros xs F. inversion F. reflexivity.
    + intros xs ys F G _. inversion F. inversion G. reflexivity.
  - apply (kraft_via (fun xs => (hd x0 xs, tl xs)) _ _ _ _ (kraft_pair (P s) (fun _ xs => Forall2 P ss xs) w (fun _ xs => rprod (map w xs)) Ks (fun _ _ => IH))).
    + intros xs F. inversion F; subst. auto.
    + intros xs F. inversion F; subst. reflexivity.
    + intros xs ys F G E. inversion F; inversion G; subst. cbn in E. congruence.
Qed.
Lemma kraft_one {X} (P : X -> Prop) : (forall x y, P x -> P y -> x = y) -> kraft P (fun _ => 1%R).
Proof.
  intros Hu. split; [intros; lra|]. intros [|x [|y l]] Hn Hf; cbn; [lra | lra|]. exfalso. inversion Hn as [|? ? Hx _]; subst. inversion Hf as [|? ? Px Hf']; subst. inversion Hf'; subst.
  apply Hx. left. apply Hu; assumption.
Qed.
Lemma kraft_interval' (lo N : Z) : kraft (fun z => lo <= z <= lo + N - 1) (fun _ => (/ IZR (if 1 <=? N then N else 1))%R).
Proof.
  destruct (Z.leb_spec 1 N) as [L|L].
  - pose proof (kraft_interval lo (lo + N - 1) ltac:(lia)) as K. replace (lo + N - 1 - lo + 1) with N in K by lia. exact K.
  - split; [intros x Hx; lia|]. intros [|x xs] _ F; [cbn; lra|]. inversion F; subst. lia.
Qed.

#[local] Instance EqDec_tree : EqDec (tree nat).
Proof.
  unfold EqDec. fix IH 1. intros [n a|n r p ch] [n' a'|n' r' p' ch']; [|right; discriminate | right; discriminate|].
  - destruct (Nat.eq_dec n n') as [->|Hn]; [|right; congruence]. destruct (Nat.eq_dec a a') as [->|Hn]; [left; reflexivity | right; congruence].
  - destruct (Nat.eq_dec n n') as [->|Hn]; [|right; congruence]. destruct (Nat.eq_dec r r') as [->|Hn]; [|right; congruence]. destruct (Z.eq_dec p p') as [->|Hn]; [|right; congruence].
    assert (D : {ch = ch'} + {ch <> ch'}).
    { revert ch'. induction ch as [|[c ds] l IHl]; intros [|[c' ds'] l']; [left; reflexivity | right; discriminate | right; discriminate|].
      destruct (IH c c') as [->|Hn]; [|right; congruence]. destruct (Z.eq_dec ds ds') as [->|Hn]; [|right; congruence]. destruct (IHl l') as [->|Hn]; [left; reflexivity | right; congruence]. }
    destruct D as [->|Hn]; [left; reflexivity | right; congruence].
Defined.

Definition shape : tree nat -> tree nat := tmap (fun r => r) (fun _ => 0) (fun _ => 0).
Definition skel : tree nat -> tree nat := tmap (fun _ => O) (fun _ => 0) (fun _ => 0).
Lemma tmap_tmap fr fp fd gr gp gd t : tmap fr fp fd (tmap gr gp gd t) = tmap (fun r => fr (gr r)) (fun p => fp (gp p)) (fun x => fd (gd x)) t.
Proof.
  induction t as [n a|n r p ch IH] using tree_ind'; cbn [tmap]; [reflexivity|]. f_equal. rewrite map_map. cbn [fst snd]. apply map_ext_in. intros cd I. rewrite Forall_forall in IH. rewrite (IH cd I). reflexivity.
Qed.
Lemma skel_shape t : skel (shape t) = skel t.
Proof. apply tmap_tmap. Qed.
Lemma shape_strip t : shape (strip t) = shape t.
Proof. apply tmap_tmap. Qed.
Lemma shape_shape t : shape (shape t) = shape t.
Proof. apply tmap_tmap. Qed.
Lemma skel_skel t : skel (skel t) = skel t.
Proof. apply tmap_tmap. Qed.
Lemma strip_strip t : strip (strip t) = strip t.
Proof. apply tmap_tmap. Qed.
Lemma first_tmap fr fp fd t : first (tmap fr fp fd t) = first t.
Proof.
  induction t as [n a|n r p ch IH] using tree_ind'; [reflexivity|]. destruct ch as [|[c ds] l]; [reflexivity|]. inversion IH; subst. cbn [tmap map fst first]. f_equal. assumption.
Qed.
Lemma nb_tmap fp fd t : nb_occs (tmap (fun r => r) fp fd t) = nb_occs t.
Proof.
  induction t as [n a|n r p ch IH] using tree_ind'; [reflexivity|]. cbn [tmap nb_occs]. do 2 f_equal. rewrite map_map. cbn [fst]. apply map_ext_in. intros cd I. rewrite Forall_forall in IH. apply IH, I.
Qed.
Lemma leaves_tmap fp fd t : leaves (tmap (fun r => r) fp fd t) = leaves t.
Proof.
  induction t as [n a|n r p ch IH] using tree_ind'; [reflexivity|]. cbn [tmap]. rewrite !leaves_node. f_equal. apply map_ext. intros i. f_equal. generalize 0%nat.
  induction ch as [|[c ds] l IHl]; intros k; [reflexivity|]. inversion IH as [|? ? Hc Hl]; subst. cbn [map mapi fst]. rewrite (IHl Hl). f_equal. cbn [fst] in Hc. rewrite Hc. reflexivity.
Qed.
Lemma lastq_tmap fp fd t : forall b, lastq (tmap (fun r => r) fp fd t) b = lastq t b.
Proof.
  induction t as [n a|n r p ch IH] using tree_ind'; intros b; [reflexivity|]. cbn [tmap]. rewrite !lastq_node. generalize 0%nat.
  induction ch as [|[c ds] l IHl]; intros k; [reflexivity|]. inversion IH as [|? ? Hc Hl]; subst. cbn [map lastk fst]. rewrite (IHl Hl). f_equal. cbn [fst] in Hc. rewrite Hc. destruct l; reflexivity.
Qed.
Lemma Ssum_tmap fr fp fd q : forall t F, Ssum F q (tmap fr fp fd t) = Ssum F q t.
Proof.
  induction q as [|[c i] q IH]; intros t F; [destruct t; reflexivity|]. destruct t as [n a|n r p ch]; [reflexivity|]. cbn [tmap Ssum].
  rewrite nth_error_map. f_equal; [|f_equal].
  - destruct (nth_error ch c) as [[t' ds]|]; cbn [option_map fst]; [apply IH | reflexivity].
  - rewrite firstn_map. f_equal. generalize 0%nat. induction (firstn c ch) as [|[c' ds'] l IHl]; intros k; [reflexivity|]. cbn [map mapi fst]. rewrite first_tmap, IHl. reflexivity.
  - destruct ch as [|[c0 d0] l]; [reflexivity|]. cbn [map fst]. rewrite first_tmap. reflexivity.
Qed.
Lemma F_tmap fp fd t E q : F_of (tmap (fun r => r) fp fd t) E q = F_of t E q.
Proof. unfold F_of. rewrite leaves_tmap. reflexivity. Qed.
Lemma corr_tmap fp fd t E q : corr (tmap (fun r => r) fp fd t) E q = corr t E q.
Proof.
  unfold corr. rewrite F_tmap, Ssum_tmap. f_equal. apply Ssum_ext. intros s. apply F_tmap.
Qed.
Lemma za_tmap fp fd t : za (tmap (fun r => r) fp fd t) = za t.
Proof. destruct t as [n a|n r p [|[c ds] l]]; [reflexivity | reflexivity|]. cbn [tmap map fst za]. rewrite first_tmap. reflexivity. Qed.
Lemma r_tmap fp fd t : root_r (tmap (fun r => r) fp fd t) = root_r t.
Proof. destruct t; reflexivity. Qed.
Lemma nested_tmap fr fp fd t : has_nested (tmap fr fp fd t) = has_nested t.
Proof. destruct t as [n a|n r p [|[[n' a'|n' r' p' ch'] ds] [|x l]]]; reflexivity. Qed.
Lemma off_strip q : forall t, off q (strip t) = off q t.
Proof.
  induction q as [|[c i] q IH]; intros t; [destruct t; reflexivity|]. destruct t as [n a|n r p ch]; [reflexivity|]. unfold strip. cbn [tmap off]. rewrite nth_error_map. f_equal; [f_equal|].
  - unfold cum. rewrite firstn_map, map_map. cbn [snd]. reflexivity.
  - destruct (nth_error ch c) as [[t' ds]|]; cbn [option_map fst]; [apply IH | reflexivity].
Qed.
Lemma takes_strip t T : takes (strip t) T <-> takes t T.
Proof. unfold takes. unfold strip at 1. rewrite leaves_tmap. split; intros H q I; specialize (H q I); rewrite off_strip in *; exact H. Qed.
Lemma wPD_strip t : forall T, wPD (strip t) T = wPD t T.
Proof.
  induction t as [n a|n r p ch IH] using tree_ind'; intros T; [reflexivity|]. unfold strip. cbn [tmap]. rewrite !wPD_node, map_length. do 2 f_equal. generalize 0 (T - Z.of_nat r + 1).
  induction ch as [|[c ds] l IHl]; intros cu T'; [reflexivity|]. inversion IH as [|? ? Hc Hl]; subst. cbn [map wkids fst snd] in *. rewrite (IHl Hl). f_equal. apply Hc.
Qed.
Lemma wkids_strip l : forall T cu, wkids T cu (map (fun cd => (strip (fst cd), snd cd)) l) = wkids T cu l.
Proof. induction l as [|[c ds] l IH]; intros T cu; [reflexivity|]. cbn [map wkids fst snd]. rewrite wPD_strip, IH. reflexivity. Qed.
Lemma wev_tmap d fr fp fd t : wev d (tmap fr fp fd t) = wev d t.
Proof.
  induction t as [n a|n r p ch IH] using tree_ind'; [reflexivity|]. cbn [tmap wev]. do 2 f_equal. rewrite map_map. cbn [fst]. apply map_ext_in. intros cd I. rewrite Forall_forall in IH. apply IH, I.
Qed.
Lemma min_count_tmap d fr fp fd t : min_count d (tmap fr fp fd t) = min_count d t.
Proof.
  induction t as [n a|n r p ch IH] using tree_ind'; [reflexivity|]. cbn [tmap min_count]. f_equal. rewrite map_map. cbn [fst]. apply map_ext_in. intros cd I. rewrite Forall_forall in IH. apply IH, I.
Qed.
Lemma wR_tmap d fr fp fd t : wR d (tmap fr fp fd t) = wR d t.
Proof.
  induction t as [n a|n r p ch IH] using tree_ind'; [reflexivity|]. cbn [wR tmap].
  change (Node 0 (fr r) (fp p) (map (fun cd => (tmap fr fp fd (fst cd), fd (snd cd))) ch)) with (tmap fr fp fd (Node n r p ch)). rewrite min_count_tmap. f_equal. f_equal.
  rewrite map_map. cbn [fst]. apply map_ext_in. intros cd I. rewrite Forall_forall in IH. apply IH, I.
Qed.
Lemma known_tmap d fr fp fd t : known d t -> known d (tmap fr fp fd t).
Proof.
  induction t as [n a|n r p ch IH] using tree_ind'; intros Hk; inversion Hk as [|? ? ? ? Hne Hch]; subst; cbn [tmap]; constructor; [assumption | destruct ch; [congruence | discriminate]|].
  rewrite Forall_map. cbn [fst]. rewrite Forall_forall in *. auto.
Qed.

(* ------------------------------------------------------------ the events *)
Lemma tmap_node_fix fr fp fd n r p ch : tmap fr fp fd (Node n r p ch) = Node n r p ch ->
  n = O /\ fr r = r /\ fp p = p /\ Forall (fun cd => tmap fr fp fd (fst cd) = fst cd /\ fd (snd cd) = snd cd) ch.
Proof.
  cbn [tmap]. intros E. injection E as E1 E2 E3 E4. split; [congruence|]. split; [exact E2|]. split; [exact E3|]. clear - E4.
  induction ch as [|[c ds] l IH]; [constructor|]. cbn [map fst snd] in E4. injection E4 as F1 F2 F3. constructor; [auto | apply IH, F3].
Qed.
Lemma zero_dist (ch : list (tree nat * Z)) : Forall (fun cd => snd cd = 0) ch -> ch = map (fun c => (c, 0)) (map fst ch).
Proof. induction 1 as [|[c ds] l H _ IH]; [reflexivity|]. cbn in *. subst ds. f_equal. exact IH. Qed.
Lemma same_kids (ch ch' : list (tree nat * Z)) : Forall (fun cd => snd cd = 0) ch -> Forall (fun cd => snd cd = 0) ch' -> map fst ch = map fst ch' -> ch = ch'.
Proof. intros H H' E. rewrite (zero_dist _ H), (zero_dist _ H'), E. reflexivity. Qed.
Fixpoint depth (t : tree nat) : nat := match t with Leaf _ _ => O | Node _ _ _ ch => S (list_max (map (fun cd => depth (fst cd)) ch)) end.
Definition isleaf (t : tree nat) : bool := match t with Leaf _ _ => true | _ => false end.
Lemma rprod_scale {X} c (w : X -> R) l : rprod (map (fun x => (c * w x)%R) l) = (c ^ length l * rprod (map w l))%R.
Proof. induction l as [|x l IH]; cbn [map rprod length pow]; [ring|]. rewrite IH. ring. Qed.
Lemma rprod_nonneg {X} (w : X -> R) l : (forall x, In x l -> (0 <= w x)%R) -> (0 <= rprod (map w l))%R.
Proof. induction l as [|x l IH]; intros H; cbn [map rprod]; [lra|]. apply Rmult_le_pos; [apply H; left; reflexivity | apply IH; intros y I; apply H; right; exact I]. Qed.

Section Code.
  Variable d : details.
  Hypothesis Hd : good_details d.
  Lemma leaf_kle : kle (/ 3) (fun s => (known d s /\ skel s = s) /\ isleaf s = true) (wev d).
  Proof.
    pose proof (total_pos d Hd) as Ht. apply IZR_lt in Ht. apply kle_scale; [lra|].
    assert (Hc : forall a n, In (a, n) (d_counts d) -> count d a = n) by (intros a n I; unfold count; rewrite (count_get d Hd a n I); reflexivity).
    assert (Ka : kraft (fun a => In a (map fst (d_counts d))) (fun a => (IZR (count d a) * / IZR (total d))%R)).
    { apply kraft_finite.
      - intros a I. destruct (count_In d Hd a I) as (k & _ & -> & Hk). apply IZR_lt in Hk. apply Rmult_le_pos; [lra | left; apply Rinv_0_lt_compat; lra].
      - rewrite map_map. rewrite (map_ext_in _ (fun an => IZR (snd an) * / IZR (total d))%R).
        + rewrite counts_sum. rewrite Rinv_r by lra. lra.
        + intros [a n] I. cbn [fst snd]. rewrite (Hc a n I). reflexivity. }
    apply (kraft_via (fun s => match s with Leaf _ a => a | _ => O end) _ _ _ _ Ka).
    - intros [n a|n r p ch] [[Hk _] Hl]; [|discriminate]. inversion Hk; subst. assumption.
    - intros [n a|n r p ch] [[Hk _] Hl]; [|discriminate]. cbn [wev]. field. lra.
    - intros [n a|n r p ch] [n' a'|n' r' p' ch'] [[_ S1] Hl] [[_ S2] Hl'] E; try discriminate. unfold skel in *. cbn [tmap] in *. congruence.
  Qed.
  Lemma skel_kle k : kle (/ 2) (fun s => (known d s /\ skel s = s) /\ (depth s <= k)%nat) (wev d).
  Proof.
    induction k as [|k IH].
    - apply (kle_mono (/ 3) (/ 2) _ _ _ leaf_kle); [lra|]. intros [n a|n r p ch] [H Hk]; [split; [exact H | reflexivity] | cbn [depth] in Hk; lia].
    - apply (kle_mono (/ 3 + / 9) (/ 2) _ (fun s => (known d s /\ skel s = s) /\ (depth s <= S k)%nat)); [|lra | auto]. apply (kle_split isleaf).
      + apply (kle_mono (/ 3) (/ 3) _ _ _ leaf_kle); [lra|]. tauto.
      + apply kle_scale; [lra|]. pose proof (kraft_scale 2 _ _ ltac:(lra) IH) as K2.
        apply (kraft_via (fun s => let cs := map fst (children s) in ((length cs - 1)%nat, cs)) _ _ _ _
          (kraft_pair (fun _ : nat => True) (fun j cs => length cs = S j /\ Forall (fun s => (known d s /\ skel s = s) /\ (depth s <= k)%nat) cs) _ _ (kraft_geometric (/ 2) ltac:(lra))
             (fun j _ => kraft_lists _ _ K2 (S j)))).
        * intros [n a|n r p ch] [[[Hk Hs] Hdp] Hl]; [discriminate|]. cbn [children fst snd]. inversion Hk as [|? ? ? ? Hne Hch]; subst. split; [exact I|]. rewrite map_length. split; [destruct ch; [congruence | cbn; lia]|].
          apply tmap_node_fix in Hs. destruct Hs as (_ & _ & _ & Hs). rewrite Forall_map. rewrite Forall_forall in *. intros cd J. destruct (Hs cd J) as [S1 _]. split; [split; [apply Hch, J | exact S1]|].
          cbn [depth] in Hdp. assert (HF : (list_max (map (fun cd => depth (fst cd)) ch) <= k)%nat) by lia. rewrite list_max_le, Forall_map, Forall_forall in HF. apply HF, J.
        * intros [n a|n r p ch] [[[Hk Hs] Hdp] Hl]; [discriminate|]. cbn [children fst snd wev]. rewrite rprod_scale, !map_length, map_map. inversion Hk as [|? ? ? ? Hne Hch]; subst.
          destruct ch as [|cd l]; [congruence|]. cbn [length]. rewrite Nat.sub_succ, Nat.sub_0_r. set (m := length l). set (P := rprod _).
          assert (E : ((/ 2) ^ m * 2 ^ m)%R = 1%R) by (rewrite <- Rpow_mult_distr, Rinv_l by lra; apply pow1). cbn [pow].
          replace ((1 - / 2) * (/ 2) ^ m * (2 * 2 ^ m * P))%R with (P * ((/ 2) ^ m * 2 ^ m))%R by lra. rewrite E. lra.
        * intros [n a|n r p ch] [n' a'|n' r' p' ch'] [[[_ S1] _] Hl] [[[_ S2] _] Hl'] E; try discriminate. cbn [children] in E. apply (f_equal snd) in E. cbn [snd] in E.
          apply tmap_node_fix in S1, S2. destruct S1 as (-> & <- & <- & F1), S2 as (-> & <- & <- & F2). f_equal. apply same_kids; [| |exact E].
          -- rewrite Forall_forall in *. intros cd J. destruct (F1 cd J) as [_ H]. congruence.
          -- rewrite Forall_forall in *. intros cd J. destruct (F2 cd J) as [_ H]. congruence.
  Qed.
  Lemma skel_kraft : kraft (fun s => known d s /\ skel s = s) (wev d).
  Proof.
    split.
    - intros s Hs. apply (proj1 (skel_kle (depth s))). auto.
    - intros xs Hn Hf. destruct (skel_kle (list_max (map depth xs))) as [_ K]. specialize (K xs Hn). enough (rsum (map (wev d) xs) <= / 2)%R by lra. apply K. rewrite Forall_forall in *. intros s I. split; [apply Hf, I|].
      assert (H : (list_max (map depth xs) <= list_max (map depth xs))%nat) by lia. rewrite list_max_le, Forall_map, Forall_forall in H. apply H, I.
  Qed.

  (* ---------------------------------------------------------- the repetitions *)
  Fixpoint rok (t : tree nat) : Prop :=
    match t with
    | Leaf _ _ => True
    | Node n r p ch => 1 <= Z.of_nat r <= min_count d t /\ fold_right and True (map (fun cd => rok (fst cd)) ch)
    end.
  Lemma rok_node n r p ch : rok (Node n r p ch) <-> 1 <= Z.of_nat r <= min_count d (Node n r p ch) /\ Forall (fun cd => rok (fst cd)) ch.
  Proof.
    cbn [rok]. set (m := min_count d _). clearbody m. enough (fold_right and True (map (fun cd => rok (fst cd)) ch) <-> Forall (fun cd => rok (fst cd)) ch) by tauto.
    induction ch as [|cd l IH]; cbn [map fold_right]; [split; auto|]. rewrite IH. split; [intros [A B]; constructor; assumption | intros H; inversion H; auto].
  Qed.
  Lemma R_kraft s : kraft (fun t => skel t = s /\ shape t = t /\ rok t) (wR d).
  Proof.
    induction s as [n a|n r p ch IH] using tree_ind'.
    - apply (kraft_via (fun t => t) _ (fun t => t = Leaf 0 a) _ (fun _ => 1%R)); [apply kraft_one; congruence | | | auto].
      + intros [n' a'|n' r' p' ch'] (S1 & S2 & _); [|discriminate]. unfold skel, shape in *. cbn [tmap] in *. congruence.
      + intros [n' a'|n' r' p' ch'] (S1 & S2 & _); [reflexivity | discriminate].
    - set (m := min_count d (Node n r p ch)).
      assert (Kr : kraft (fun r : nat => 1 <= Z.of_nat r <= 1 + m - 1) (fun _ => (/ IZR (if 1 <=? m then m else 1))%R)) by (apply (kraft_via Z.of_nat _ _ _ _ (kraft_interval' 1 m)); [auto | auto | intros x y _ _; lia]).
      assert (Kc : kraft (Forall2 (fun s t => skel t = s /\ shape t = t /\ rok t) (map fst ch)) (fun xs => rprod (map (wR d) xs))).
      { apply (kraft_forall2 (Leaf 0 0%nat)). rewrite Forall_map. exact IH. }
      apply (kraft_via (fun t => match t with Node _ r _ ch => (r, map fst ch) | _ => (O, []) end) _ _ _ _ (kraft_pair _ (fun _ => Forall2 (fun s t => skel t = s /\ shape t = t /\ rok t) (map fst ch)) _ (fun _ xs => rprod (map (wR d) xs)) Kr (fun _ _ => Kc))).
      + intros [n' a'|n' r' p' ch'] (S1 & S2 & S3); [discriminate|]. cbn [fst snd]. apply rok_node in S3. destruct S3 as [Hr Hch].
        assert (Em : min_count d (Node n' r' p' ch') = m) by (unfold m; rewrite <- S1; symmetry; apply min_count_tmap). split; [lia|].
        unfold skel in S1. cbn [tmap] in S1. injection S1 as _ _ _ S1. rewrite <- S1, map_map. cbn [fst]. apply tmap_node_fix in S2. destruct S2 as (_ & _ & _ & S2). clear - S2 Hch.
        induction ch' as [|cd l IHl]; cbn [map]; [constructor|]. inversion S2 as [|? ? [A _] B]; subst. inversion Hch; subst. constructor; [split; [reflexivity | split; assumption] | auto].
      + intros [n' a'|n' r' p' ch'] (S1 & S2 & S3); [discriminate|]. apply rok_node in S3. destruct S3 as [Hr Hch].
        assert (Em : min_count d (Node n' r' p' ch') = m) by (unfold m; rewrite <- S1; symmetry; apply min_count_tmap). cbn [fst snd wR]. rewrite map_map.
        change (min_of (map (fun cd => min_count d (fst cd)) ch')) with (min_count d (Node n' r' p' ch')). rewrite Em. rewrite (proj2 (Z.leb_le 1 m)) by lia. reflexivity.
      + intros [n1 a1|n1 r1 p1 ch1] [n2 a2|n2 r2 p2 ch2] (S1 & S2 & S3) (T1 & T2 & T3) E; try discriminate. apply tmap_node_fix in S2, T2. destruct S2 as (-> & _ & <- & F1), T2 as (-> & _ & <- & F2).
        injection E as -> E. f_equal. apply same_kids; [| |exact E]; rewrite Forall_forall in *; intros cd J; [destruct (F1 cd J) | destruct (F2 cd J)]; congruence.
  Qed.
  Lemma min_event t : known d t -> exists a, In a (leaf_events t) /\ min_count d t = count d a.
  Proof.
    induction t as [n a|n r p ch IH] using tree_ind'; intros Hk; [exists a; cbn; auto|]. inversion Hk as [|? ? ? ? Hne Hch]; subst. cbn [min_count leaf_events].
    destruct (min_of_spec (map (fun cd => min_count d (fst cd)) ch)) as [I _]; [destruct ch; [congruence | discriminate]|]. apply in_map_iff in I. destruct I as (cd & E & I). rewrite <- E.
    rewrite Forall_forall in IH, Hch. destruct (IH cd I (Hch cd I)) as (a & Ia & Ea). exists a. split; [apply in_flat_map; exists cd; auto | exact Ea].
  Qed.
  Lemma reps_rok t : known d t -> wf t -> reps_ok d t -> rok t.
  Proof.
    induction t as [n a|n r p ch IH] using tree_ind'; intros Hk Hw Hr; [exact I|]. destruct (min_event _ Hk) as (a & Ia & Ea). inversion Hk as [|? ? ? ? Hne Hch]; subst. inversion Hr as [|? ? ? ? Ha Hrc]; subst.
    inversion Hw; subst. apply rok_node. split.
    - destruct (Ha a Ia) as (k & Ik & Hk'). rewrite Ea. unfold count. rewrite (count_get d Hd a k Ik). lia.
    - rewrite Forall_forall in *. intros cd J. apply IH; auto.
  Qed.
  Lemma rok_tmap fp fd t : rok t -> rok (tmap (fun r => r) fp fd t).
  Proof.
    induction t as [n a|n r p ch IH] using tree_ind'; intros Hr; [exact I|]. rewrite rok_node in Hr. destruct Hr as [Hr Hc]. cbn [tmap]. apply rok_node. split.
    - rewrite <- (min_count_tmap d (fun r => r) fp fd (Node n r p ch)) in Hr. exact Hr.
    - rewrite Forall_map. cbn [fst]. rewrite Forall_forall in *. auto.
  Qed.

  (* ---------------------------------------------------------- the inner periods and distances *)
  Fixpoint budget (t : tree nat) (T : Z) : Prop :=
    match t with
    | Leaf _ _ => True
    | Node _ r p ch => 1 <= p <= T / (Z.of_nat r - 1) /\ (exists c l, ch = (c, 0) :: l) /\
        (fix kids (cu : Z) (l : list (tree nat * Z)) : Prop :=
           match l with [] => True | (c, ds) :: l' => 0 <= ds <= T - Z.of_nat r + 1 /\ budget c (T - Z.of_nat r + 1 - (cu + ds)) /\ kids (cu + ds) l' end) 0 ch
    end.
  Fixpoint bkids (T cu : Z) (l : list (tree nat * Z)) : Prop :=
    match l with [] => True | (c, ds) :: l' => 0 <= ds <= T /\ budget c (T - (cu + ds)) /\ bkids T (cu + ds) l' end.
  Lemma budget_node n r p ch T : budget (Node n r p ch) T <-> 1 <= p <= T / (Z.of_nat r - 1) /\ (exists c l, ch = (c, 0) :: l) /\ bkids (T - Z.of_nat r + 1) 0 ch.
  Proof.
    cbn [budget]. set (T' := T - Z.of_nat r + 1). clearbody T'. match goal with |- _ /\ _ /\ (?f 0 ch) <-> _ => enough (H : forall cu, f cu ch <-> bkids T' cu ch) by (specialize (H 0); tauto) end.
    induction ch as [|[c ds] l IH]; intros cu; cbn [bkids]; [tauto|]. rewrite IH. tauto.
  Qed.
  Definition kid_class (T cu : Z) (ss l : list (tree nat * Z)) : Prop :=
    map (fun cd => (shape (fst cd), 0)) l = ss /\ Forall (fun cd => strip (fst cd) = fst cd) l /\ bkids T cu l.
  Lemma kids_kraft T ss : Forall (fun cd => forall T, kraft (fun t => strip t = t /\ shape t = fst cd /\ budget t T) (fun t => wPD t T)) ss ->
    forall cu, kraft (kid_class T cu ss) (fun l => ((/ IZR (T + 1)) ^ length l * wkids T cu l)%R).
  Proof.
    induction 1 as [|[s x] ss Hs _ IH]; intros cu.
    - apply (kraft_via (fun l => l) _ (fun l => l = []) _ (fun _ => 1%R)); [apply kraft_one; congruence | | | auto].
      + intros l (E & _). apply map_eq_nil in E. exact E.
      + intros l (E & _). apply map_eq_nil in E. subst l. cbn. ring.
    - cbn [fst] in Hs. pose proof (kraft_interval' 0 (T + 1)) as K0.
      pose proof (kraft_pair _ (fun ds c => strip c = c /\ shape c = s /\ budget c (T - (cu + ds))) _ (fun ds c => wPD c (T - (cu + ds))) K0 (fun ds _ => Hs (T - (cu + ds)))) as K1. cbv beta in K1.
      pose proof (kraft_pair _ (fun dc l => kid_class T (cu + fst dc) ss l) _ (fun dc l => ((/ IZR (T + 1)) ^ length l * wkids T (cu + fst dc) l)%R) K1 (fun dc _ => IH (cu + fst dc))) as K2. cbv beta in K2.
      apply (kraft_via (fun l => match l with (c, ds) :: l' => ((ds, c), l') | [] => ((0, Leaf 0 0%nat), []) end) _ _ _ _ K2).
      + intros [|[c ds] l] (E & F & B); [discriminate|]. cbn [map fst] in E. injection E as E1 _ E2. inversion F as [|? ? F1 F2]; subst. destruct B as (B1 & B2 & B3). cbn [fst snd] in *.
        split; [split; [lia | split; [exact F1 | split; [reflexivity | exact B2]]] | split; [reflexivity | split; [exact F2 | exact B3]]].
      + intros [|[c ds] l] (E & F & B); [discriminate|]. destruct B as (B1 & _). cbn [fst snd length pow wkids]. rewrite (proj2 (Z.leb_le 1 (T + 1))) by lia. ring.
      + intros [|[c ds] l] [|[c' ds'] l'] (E & _) (E' & _) J; try discriminate. congruence.
  Qed.
  Lemma heads_kraft T ss : Forall (fun cd => forall T, kraft (fun t => strip t = t /\ shape t = fst cd /\ budget t T) (fun t => wPD t T)) ss ->
    kraft (fun l => kid_class T 0 ss l /\ (exists c l', l = (c, 0) :: l')) (fun l => ((/ IZR (T + 1)) ^ (length l - 1) * wkids T 0 l)%R).
  Proof.
    intros H. destruct ss as [|[s x] ss].
    - split; [intros l [(E & _) (c & l' & ->)]; discriminate|]. intros [|l xs] _ F; [cbn; lra|]. inversion F as [|? ? [(E & _) (c & l' & ->)] _]; subst. discriminate.
    - inversion H as [|? ? Hs Hss]; subst. cbn [fst] in Hs.
      pose proof (kraft_pair _ (fun (_ : tree nat) l => kid_class T 0 ss l) _ (fun _ l => ((/ IZR (T + 1)) ^ length l * wkids T 0 l)%R) (Hs T) (fun _ _ => kids_kraft T ss Hss 0)) as K. cbv beta in K.
      apply (kraft_via (fun l => match l with (c, ds) :: l' => (c, l') | [] => (Leaf 0 0%nat, []) end) _ _ _ _ K).
      + intros l [(E & F & B) (c & l' & ->)]. cbn [map fst] in E. injection E as E1 _ E2. inversion F as [|? ? F1 F2]; subst. destruct B as (B1 & B2 & B3). cbn [fst snd] in *. rewrite Z.add_0_r, Z.sub_0_r in *.
        split; [split; [exact F1 | split; [reflexivity | exact B2]] | split; [reflexivity | split; [exact F2 | exact B3]]].
      + intros l [(E & F & B) (c & l' & ->)]. cbn [fst snd length wkids]. rewrite Nat.sub_succ, Nat.sub_0_r. change (0 + 0) with 0. rewrite Z.sub_0_r. ring.
      + intros l1 l2 [_ (c & l' & ->)] [_ (c' & l'' & ->)] J. congruence.
  Qed.
  Lemma PD_kraft s : forall T, kraft (fun t => strip t = t /\ shape t = s /\ budget t T) (fun t => wPD t T).
  Proof.
    induction s as [n a|n r p ch IH] using tree_ind'; intros T.
    - apply (kraft_via (fun t => t) _ (fun t => t = Leaf 0 a) _ (fun _ => 1%R)); [apply kraft_one; congruence | | | auto].
      + intros [n' a'|n' r' p' ch'] (S1 & S2 & _); [|discriminate]. unfold strip, shape in *. cbn [tmap] in *. congruence.
      + intros [n' a'|n' r' p' ch'] (S1 & S2 & _); [reflexivity | discriminate].
    - pose proof (kraft_interval' 1 (T / (Z.of_nat r - 1))) as K0.
      pose proof (kraft_pair _ (fun (_ : Z) l => kid_class (T - Z.of_nat r + 1) 0 ch l /\ (exists c l', l = (c, 0) :: l')) _ (fun _ l => ((/ IZR (T - Z.of_nat r + 1 + 1)) ^ (length l - 1) * wkids (T - Z.of_nat r + 1)%Z 0%Z l)%R)
        K0 (fun _ _ => heads_kraft (T - Z.of_nat r + 1) ch IH)) as K. cbv beta in K.
      apply (kraft_via (fun t => match t with Node _ _ p l => (p, l) | _ => (0, []) end) _ _ _ _ K).
      + intros [n' a'|n' r' p' ch'] (S1 & S2 & S3); [discriminate|]. unfold shape in S2. cbn [tmap] in S2. injection S2 as _ S2 _ S3'. subst r'. apply budget_node in S3. destruct S3 as (B1 & B2 & B3). cbn [fst snd].
        apply tmap_node_fix in S1. destruct S1 as (_ & _ & _ & F). split; [lia|]. split; [|exact B2]. split; [exact S3'|]. split; [|exact B3]. rewrite Forall_forall in *. intros cd J. apply (F cd J).
      + intros [n' a'|n' r' p' ch'] (S1 & S2 & S3); [discriminate|]. unfold shape in S2. cbn [tmap] in S2. injection S2 as _ S2 _ S3'. subst r'. apply budget_node in S3. destruct S3 as (B1 & B2 & B3). cbn [fst snd].
        rewrite wPD_node, (proj2 (Z.leb_le 1 _)) by lia. reflexivity.
      + intros [n1 a1|n1 r1 p1 ch1] [n2 a2|n2 r2 p2 ch2] (S1 & S2 & _) (T1 & T2 & _) J; try discriminate. apply tmap_node_fix in S1, T1. destruct S1 as (-> & _), T1 as (-> & _).
        unfold shape in S2, T2. cbn [tmap] in S2, T2. congruence.
  Qed.
  Lemma bkids_of T l : forall cu, Forall (fun cd : tree nat * Z => 0 <= snd cd /\ forall T, takes (fst cd) T -> 0 <= T /\ budget (fst cd) T) l -> 0 <= cu ->
    (forall k c ds, nth_error l k = Some (c, ds) -> takes c (T - cu - cum l k)) -> bkids T cu l.
  Proof.
    induction l as [|[c ds] l IH]; intros cu F Hcu Ht; [exact I|]. inversion F as [|? ? [H1 H2] F']; subst. cbn [fst snd] in *. cbn [bkids].
    pose proof (Ht 0%nat c ds eq_refl) as H0. rewrite cum_0 in H0. destruct (H2 _ H0) as [P B]. split; [lia|]. split; [replace (T - (cu + ds)) with (T - cu - ds) by lia; exact B|].
    apply IH; [exact F' | lia|]. intros k c' ds' E. specialize (Ht (S k) c' ds' E). rewrite cum_cons in Ht. replace (T - (cu + ds) - cum l k) with (T - cu - (ds + cum l k)) by lia. exact Ht.
  Qed.
  Lemma takes_budget t : inner_ok d t -> forall T, takes t T -> 0 <= T /\ budget t T.
  Proof.
    induction t as [n a|n r p ch IH] using tree_ind'; intros Ho T Ht; destruct (inner_wf d _ Ho) as [Hw Hf]; (split; [apply (takes_nonneg _ _ Hw Hf Ht)|]); [exact I|].
    destruct (takes_bounds d n r p ch T Ho Ht) as (B1 & B2 & B3). inversion Ho as [|? ? ? ? Hn Hr Hp Hne Hch]; subst. apply budget_node. split; [split; [lia | apply Z.div_le_lower_bound; lia]|]. split; [exact Hne|].
    apply bkids_of; [|lia|].
    - rewrite Forall_forall in *. intros cd J. destruct (Hch cd J). split; [assumption | apply IH; assumption].
    - intros k c ds E. rewrite Z.sub_0_r. apply (B3 k c ds E).
  Qed.
  Lemma bkids_strip l : Forall (fun cd : tree nat * Z => forall T, budget (fst cd) T -> budget (strip (fst cd)) T) l -> forall T cu, bkids T cu l -> bkids T cu (map (fun cd => (strip (fst cd), snd cd)) l).
  Proof.
    induction 1 as [|[c ds] l Hc _ IH]; intros T cu B; [exact I|]. cbn [map bkids fst snd] in *. destruct B as (B1 & B2 & B3). auto.
  Qed.
  Lemma budget_strip t : forall T, budget t T -> budget (strip t) T.
  Proof.
    induction t as [n a|n r p ch IH] using tree_ind'; intros T B; [exact I|]. apply budget_node in B. destruct B as (B1 & (c & l & ->) & B3). unfold strip. cbn [tmap]. apply budget_node. split; [exact B1|].
    split; [eexists; eexists; reflexivity|]. apply (bkids_strip ((c, 0) :: l) IH _ _ B3).
  Qed.

  (* ---------------------------------------------------------- everything together *)
  Definition pid : Type := (tree nat * Z * list Z)%type.
  Definition weight (x : pid) : R :=
    let '(t, t0, E) := x in
    (wev d t * wR d t * / IZR (room_p d t E) * / IZR (room_t d t E (root_p t)) *
      (if has_nested t then wtop t (tail_span t) * / IZR (room_T d t E (root_p t) t0 + 1) else 1) * share (IZR (length_E E)))%R.
  Definition coded (x : pid) : Prop :=
    let '(t, t0, E) := x in
    strip t = t /\ known d t /\ rok t /\ length E = (nb_occs t - 1)%nat /\ 1 <= root_p t <= room_p d t E /\
    d_start d <= t0 <= d_start d + room_t d t E (root_p t) - 1 /\ 0 <= tail_span t <= room_T d t E (root_p t) t0 /\
    (exists c l, children t = (c, 0) :: l) /\ bkids (tail_span t) 0 (children t) /\ (has_nested t = false -> tail_span t = 0).
  Lemma top_kraft s p T : kraft (fun t => strip t = t /\ shape t = s /\ root_p t = p /\ (exists c l, children t = (c, 0) :: l) /\ bkids T 0 (children t)) (fun t => wtop t T).
  Proof.
    destruct s as [n a|n r p' ch].
    - split; [intros [n' a'|n' r' p'' ch'] (_ & S & _ & (c & l & E) & _); discriminate|]. intros [|t xs] _ F; [cbn; lra|]. inversion F as [|? ? (_ & S & _ & (c & l & E) & _) _]; subst. destruct t; discriminate.
    - assert (H : Forall (fun cd => forall T, kraft (fun t => strip t = t /\ shape t = fst cd /\ budget t T) (fun t => wPD t T)) ch) by (rewrite Forall_forall; intros cd _; apply PD_kraft).
      apply (kraft_via children _ _ _ _ (heads_kraft T ch H)).
      + intros [n' a'|n' r' p'' ch'] (S1 & S2 & _ & S3 & S4); [discriminate|]. cbn [children] in *. unfold shape in S2. cbn [tmap] in S2. injection S2 as _ _ _ S2. apply tmap_node_fix in S1. destruct S1 as (_ & _ & _ & F).
        split; [|exact S3]. split; [exact S2|]. split; [|exact S4]. rewrite Forall_forall in *. intros cd J. apply (F cd J).
      + reflexivity.
      + intros [n1 a1|n1 r1 p1 ch1] [n2 a2|n2 r2 p2 ch2] (S1 & S2 & P1 & _) (T1 & T2 & P2 & _) J; try discriminate. cbn [children root_p] in *. apply tmap_node_fix in S1, T1. destruct S1 as (-> & _), T1 as (-> & _).
        unfold shape in S2, T2. cbn [tmap] in S2, T2. congruence.
  Qed.
  Lemma span_kraft (b : bool) N : kraft (fun D => 0 <= D <= N /\ (b = false -> D = 0)) (fun _ => if b then (/ IZR (if (1 <=? N + 1)%Z then N + 1 else 1))%R else 1%R).
  Proof.
    destruct b.
    - apply (kraft_sub _ _ _ (kraft_interval' 0 (N + 1))). intros x [H _]. lia.
    - apply kraft_one. intros x y [_ Hx] [_ Hy]. rewrite Hx, Hy; reflexivity.
  Qed.
  Lemma coded_kraft : kraft coded weight.
  Proof.
    pose proof skel_kraft as K1.
    pose proof (kraft_pair _ (fun s t => skel t = s /\ shape t = t /\ rok t) _ (fun _ => wR d) K1 (fun s _ => R_kraft s)) as K2. cbv beta in K2.
    pose proof (kraft_pair _ (fun x E => length E = (nb_occs (snd x) - 1)%nat /\ Forall (fun _ : Z => True) E) _ (fun _ E => rprod (map (fun e => share (IZR (2 + Z.abs e))) E)) K2
      (fun x _ => kraft_lists _ _ kraft_correction (nb_occs (snd x) - 1)%nat)) as K3. cbv beta in K3.
    pose proof (kraft_pair _ (fun x p => 1 <= p <= 1 + room_p d (snd (fst x)) (snd x) - 1) _ _ K3 (fun x _ => kraft_interval' 1 (room_p d (snd (fst x)) (snd x)))) as K4. cbv beta in K4.
    pose proof (kraft_pair _ (fun x t0 => d_start d <= t0 <= d_start d + room_t d (snd (fst (fst x))) (snd (fst x)) (snd x) - 1) _ _ K4
      (fun x _ => kraft_interval' (d_start d) (room_t d (snd (fst (fst x))) (snd (fst x)) (snd x)))) as K5. cbv beta in K5.
    pose proof (kraft_pair _ (fun x D => 0 <= D <= room_T d (snd (fst (fst (fst x)))) (snd (fst (fst x))) (snd (fst x)) (snd x) /\ (has_nested (snd (fst (fst (fst x)))) = false -> D = 0)) _ _ K5
      (fun x _ => span_kraft (has_nested (snd (fst (fst (fst x))))) (room_T d (snd (fst (fst (fst x)))) (snd (fst (fst x))) (snd (fst x)) (snd x)))) as K6. cbv beta in K6.
    pose proof (kraft_pair _ (fun x t => strip t = t /\ shape t = snd (fst (fst (fst (fst x)))) /\ root_p t = snd (fst (fst x)) /\ (exists c l, children t = (c, 0) :: l) /\ bkids (snd x) 0 (children t)) _ (fun x t => wtop t (snd x)) K6
      (fun x _ => top_kraft (snd (fst (fst (fst (fst x))))) (snd (fst (fst x))) (snd x))) as K7. cbv beta in K7. clear K1 K2 K3 K4 K5 K6.
    apply (kraft_via (fun x : pid => let '(t, t0, E) := x in ((((((skel t, shape t), E), root_p t), t0), tail_span t), t)) _ _ _ _ K7).
    - intros [[t t0] E] (S1 & S2 & S3 & S4 & S5 & S6 & S7 & S8 & S9 & S10). cbn [fst snd].
      assert (Ep : room_p d (shape t) E = room_p d t E) by (unfold room_p, shape; rewrite za_tmap, corr_tmap, r_tmap; reflexivity).
      assert (Et : room_t d (shape t) E (root_p t) = room_t d t E (root_p t)) by (unfold room_t, shape; rewrite za_tmap, corr_tmap, r_tmap; reflexivity).
      assert (ET : room_T d (shape t) E (root_p t) t0 = room_T d t E (root_p t) t0).
      { unfold room_T, shape. rewrite r_tmap, lastq_tmap. do 2 f_equal. apply map_ext. intros q. apply corr_tmap. }
      rewrite Ep, Et, ET, (nb_tmap _ _ t : nb_occs (shape t) = _), (nested_tmap _ _ _ t : has_nested (shape t) = _).
      split; [split; [split; [split; [split; [split; [split|]|]|]|]|]|].
      + apply known_tmap, S2.
      + apply skel_skel.
      + split; [apply skel_shape|]. split; [apply shape_shape | apply rok_tmap, S3].
      + split; [exact S4 | apply Forall_forall; auto].
      + lia.
      + lia.
      + auto.
      + auto.
    - intros [[t t0] E] (S1 & S2 & S3 & S4 & S5 & S6 & S7 & S8 & S9 & S10). cbn [fst snd weight].
      assert (Ep : room_p d (shape t) E = room_p d t E) by (unfold room_p, shape; rewrite za_tmap, corr_tmap, r_tmap; reflexivity).
      assert (Et : room_t d (shape t) E (root_p t) = room_t d t E (root_p t)) by (unfold room_t, shape; rewrite za_tmap, corr_tmap, r_tmap; reflexivity).
      assert (ET : room_T d (shape t) E (root_p t) t0 = room_T d t E (root_p t) t0).
      { unfold room_T, shape. rewrite r_tmap, lastq_tmap. do 2 f_equal. apply map_ext. intros q. apply corr_tmap. }
      rewrite Ep, Et, ET, share_E. unfold skel. rewrite wev_tmap. unfold shape. rewrite wR_tmap, nested_tmap. rewrite !(proj2 (Z.leb_le 1 _)) by lia.
      destruct (has_nested t) eqn:En; [ring|]. rewrite (S10 eq_refl).
      enough (W : wtop t 0 = 1%R) by (rewrite W; ring). unfold wtop, has_nested in *. destruct S8 as (c & l & Ec). rewrite Ec in *. destruct c as [n a|n r p ch]; [|discriminate]. destruct l; [|discriminate]. cbn. ring.
    - intros [[t t0] E] [[t' t0'] E'] _ _ J. congruence.
  Qed.
  Lemma simple_span t : pattern_ok d t -> has_nested t = false -> tail_span t = 0.
  Proof.
    intros Hp Hn. destruct (za_leaf d t Hp) as [Iz Oz]. destruct Hp as (r & p & ch & -> & Hr & Hp & (c & l & ->) & Hch). unfold has_nested in Hn. cbn [children] in Hn. destruct c as [n a|]; [|discriminate]. destruct l; [|discriminate].
    set (t := Node 0 r p [(Leaf n a, 0)]) in *. cbn [root_p root_r] in *.
    assert (Hne : map (fun q => off q t) (leaves t) <> []) by (intros C; apply map_eq_nil in C; rewrite C in Iz; destruct Iz). destruct (max_of_spec _ Hne) as [M1 M2]. fold (span t) in M1, M2.
    unfold tail_span. pose proof (M2 _ (in_map (fun q => off q t) _ _ Iz)) as L. cbv beta in L. rewrite Oz in L. cbn [root_p root_r] in *. apply in_map_iff in M1. destruct M1 as (q & Eq & Iq).
    unfold leaves in Iq. apply in_map_iff in Iq. destruct Iq as ([q2 x] & E2 & I2). cbn [fst] in E2. subst q2. apply In_leafs_node in I2. destruct I2 as (k & i & c & ds & q3 & E3 & E4 & Hi & I3). subst q.
    set (sp := span t) in *. clearbody sp. unfold t in Eq. destruct k as [|k]; [|destruct k; discriminate]. injection E4 as <- <-. cbn [leafs] in I3. destruct I3 as [I3|[]]. injection I3 as <- _. cbn [off nth_error] in Eq. rewrite cum_0 in Eq.
    unfold t in L |- *. cbn [root_p root_r] in *. assert (p * Z.of_nat i <= p * (Z.of_nat r - 1)) by (apply Z.mul_le_mono_nonneg_l; lia). lia.
  Qed.
  Lemma pattern_coded t t0 E : pattern_ok d t -> reps_ok d t -> inside d t t0 E -> coded (strip t, t0, E) /\ weight (strip t, t0, E) = weight (t, t0, E).
  Proof.
    intros Hp Hr Hi. destruct (rooms d t t0 E Hp Hi) as (R1 & R2 & R3). destruct (pattern_wf d t Hp) as [Hw Hf]. pose proof (pattern_known d t Hp) as Hk. pose proof (reps_rok t Hk Hw Hr) as Ho.
    assert (Erp : root_p (strip t) = root_p t) by (destruct t; reflexivity).
    assert (Ep : room_p d (strip t) E = room_p d t E) by (unfold room_p, strip; rewrite za_tmap, corr_tmap, r_tmap; reflexivity).
    assert (Et : room_t d (strip t) E (root_p t) = room_t d t E (root_p t)) by (unfold room_t, strip; rewrite za_tmap, corr_tmap, r_tmap; reflexivity).
    assert (ET : room_T d (strip t) E (root_p t) t0 = room_T d t E (root_p t) t0).
    { unfold room_T, strip. rewrite r_tmap, lastq_tmap. do 2 f_equal. apply map_ext. intros q. apply corr_tmap. }
    assert (Es : tail_span (strip t) = tail_span t).
    { unfold tail_span, span. rewrite Erp. rewrite (leaves_tmap _ _ t : leaves (strip t) = _), (r_tmap _ _ t : root_r (strip t) = _). do 2 f_equal. apply map_ext. intros q. apply off_strip. }
    assert (Ec : children (strip t) = map (fun cd => (strip (fst cd), snd cd)) (children t)) by (destruct t; reflexivity).
    split.
    - unfold coded. rewrite Erp, Ep, Et, ET, Es, Ec. rewrite (nb_tmap _ _ t : nb_occs (strip t) = _), (nested_tmap _ _ _ t : has_nested (strip t) = _). split; [apply strip_strip|]. split; [apply known_tmap, Hk|]. split; [apply rok_tmap, Ho|].
      split; [apply (proj1 Hi)|]. split; [exact R1|]. split; [exact R2|]. split; [exact R3|].
      pose proof (top_takes d t Hp) as Ht. pose proof (simple_span t Hp) as Hs. destruct Hp as (r & p & ch & -> & Hr' & Hp' & (c & l & ->) & Hch). cbn [children] in *.
      split; [eexists; eexists; reflexivity|]. split; [|exact Hs]. apply bkids_strip; [rewrite Forall_forall; intros cd _; apply budget_strip|]. apply bkids_of; [|lia|].
      + rewrite Forall_forall in *. intros cd J. destruct (Hch cd J). split; [assumption | apply takes_budget; assumption].
      + intros k c' ds' E'. rewrite Z.sub_0_r. apply (Ht k c' ds' E').
    - unfold weight. rewrite Erp, Ep, Et, ET, Es. rewrite (wev_tmap d _ _ _ t : wev d (strip t) = _), (wR_tmap d _ _ _ t : wR d (strip t) = _), (nested_tmap _ _ _ t : has_nested (strip t) = _). unfold wtop. rewrite Ec, map_length, wkids_strip. reflexivity.
  Qed.
End Code.

(* ------------------------------------------------------------ theorems *)
(* C85: different patterns can be told apart with their code lengths: over every finite family of
   patterns inside the log, no block of which is repeated more often than its events occur, different
   up to the numbers of their nodes, the shares of the code space sum to at most one *)
Theorem C85_pattern_code : forall d, good_details d -> forall l : list (tree nat * Z * list Z * R),
  NoDup (map (fun x => let '(t, t0, E, _) := x in (strip t, t0, E)) l) ->
  Forall (fun x => let '(t, t0, E, L) := x in pattern_ok d t /\ reps_ok d t /\ inside d t t0 E /\ code_length d t t0 (Some E) = Ret L) l ->
  (rsum (map (fun x => share (snd x)) l) <= 1)%R.
Proof.
  intros d Hd l Hn Hf. destruct (coded_kraft d Hd) as [_ K]. specialize (K _ Hn). rewrite map_map in K.
  rewrite (map_ext_in _ (fun x => weight d (let '(t, t0, E, _) := x in (strip t, t0, E)))).
  - apply K. rewrite Forall_map. eapply Forall_impl; [|exact Hf]. intros [[[t t0] E] L] (Hp & Hr & Hi & _). apply (pattern_coded d Hd); assumption.
  - intros [[[t t0] E] L] I. rewrite Forall_forall in Hf. specialize (Hf _ I). destruct Hf as (Hp & Hr & Hi & HL). rewrite (proj2 (pattern_coded d Hd t t0 E Hp Hr Hi)). cbn [snd].
    destruct (tree_weighs d Hd t t0 E Hp Hi) as (L' & E1 & E2). rewrite HL in E1. injection E1 as <-. exact E2.
Qed.
Print Assumptions C85_pattern_code.

(* two patterns with the same events and different inner periods, the second with other node numbers *)
Definition C85_t' : tree nat := Node 0 2 50 [(Leaf 3 0%nat, 0); (Node 1 3 5 [(Leaf 2 1%nat, 0)], 2); (Leaf 9 0%nat, 5)].
Example C85_case : exists L L', 
  let l := [(C84_t, 3, [1; 0; -1; 2; 0; 0; 1; 0; 1], L); (C85_t', 3, [1; 0; -1; 2; 0; 0; 1; 0; 1], L')] in
  NoDup (map (fun x : tree nat * Z * list Z * R => let '(t, t0, E, _) := x in (strip t, t0, E)) l) /\
  Forall (fun x => let '(t, t0, E, L) := x in pattern_ok C84_d t /\ reps_ok C84_d t /\ inside C84_d t t0 E /\ code_length C84_d t t0 (Some E) = Ret L) l.
Proof.
  destruct C84_case as (Hd & Hp & Hi & _).
  assert (Hp' : pattern_ok C84_d C85_t').
  { exists 2%nat, 50, (children C85_t'). split; [reflexivity|]. split; [lia|]. split; [lia|]. split; [eexists; eexists; reflexivity|].
    cbn [children C85_t']. repeat first [apply Forall_nil | apply Forall_cons; [split; [cbn; lia | cbn [fst]]|] | apply inner_leaf; [lia | cbn; tauto]
      | apply inner_node; [lia | lia | lia | eexists; eexists; reflexivity|]]. }
  assert (Hi' : inside C84_d C85_t' 3 [1; 0; -1; 2; 0; 0; 1; 0; 1]).
  { split; [reflexivity|]. eexists. split; [vm_compute; reflexivity|]. repeat (constructor; [cbn; lia|]). constructor. }
  destruct (C84_defined _ _ _ _ Hd Hp Hi) as (L & HL). destruct (C84_defined _ _ _ _ Hd Hp' Hi') as (L' & HL'). exists L, L'. split.
  - constructor; [intros [E|[]]; discriminate E | constructor; [intros [] | constructor]].
  - assert (Hr : forall t, t = C84_t \/ t = C85_t' -> reps_ok C84_d t).
    { intros t [->| ->]; (constructor; [intros a [<-|[<-|[<-|[]]]]; cbn; eexists; (split; [auto|]); lia|]);
        (repeat (constructor; cbn [fst]; try (intros a [<-|[]]; cbn; eexists; (split; [auto|]); lia))). }
    constructor; [|constructor; [|constructor]]; split; auto.
Qed.

Definition lval (o : outcome R) : R := match o with Ret L => L | _ => 0%R end.
Lemma share_ge0 x : (0 <= share x)%R.
Proof. unfold share. left. apply exp_pos. Qed.
Lemma occs_kraft d : good_details d -> kraft (fun o : Z * nat => d_start d <= fst o <= d_end d /\ In (snd o) (map fst (d_counts d))) (fun o => share (lval (cost_one d (snd o)))).
Proof.
  intros Hd. destruct (C83_occurrences d Hd) as (Hv & Hk & _). split; [intros; apply share_ge0|]. intros xs Hn Hf. specialize (Hk (map (fun o => (o, lval (cost_one d (snd o)))) xs)).
  rewrite !map_map in Hk. cbn [fst snd] in Hk. rewrite map_id in Hk. specialize (Hk Hn). apply Hk. rewrite Forall_map. cbn [fst snd]. rewrite Forall_forall in *. intros o I. destruct (Hf o I) as [Hw Hi].
  split; [exact Hw|]. split; [exact Hi|]. destruct (Hv _ Hi) as (L & -> & _). reflexivity.
Qed.
(* C85: the length of a whole description, patterns and the occurrences they leave uncovered, is the
   sum of the lengths of its parts *)
Theorem C85_collection : forall d ps un, good_details d ->
  Forall (fun x => let '(t, t0, E) := x in pattern_ok d t /\ inside d t t0 E) ps -> Forall (fun o => In (snd o) (map fst (d_counts d))) un ->
  exists Ls Us, Forall2 (fun x L => let '(t, t0, E) := x in code_length d t t0 (Some E) = Ret L) ps Ls /\ Forall2 (fun o U => cost_one d (snd o) = Ret U) un Us /\
    code_collection d ps un = Ret (rsum Ls + rsum Us)%R.
Proof.
  intros d ps un Hd Hp Hu.
  assert (H1 : exists Ls, Forall2 (fun x L => let '(t, t0, E) := x in code_length d t t0 (Some E) = Ret L) ps Ls /\ osum (map (fun q : patt => code_length d (fst (fst q)) (snd (fst q)) (Some (snd q))) ps) = Ret (rsum Ls)).
  { induction Hp as [|[[t t0] E] ps [Ht Hi] _ (Ls & IH1 & IH2)]; [exists []; split; [constructor | reflexivity]|]. destruct (C84_defined d t t0 E Hd Ht Hi) as (L & HL). exists (L :: Ls). split; [constructor; assumption|].
    cbn [map osum fst snd]. rewrite HL. cbn [bind]. rewrite IH2. reflexivity. }
  assert (H2 : exists Us, Forall2 (fun o U => cost_one d (snd o) = Ret U) un Us /\ osum (map (fun o => cost_one d (snd o)) un) = Ret (rsum Us)).
  { induction Hu as [|o un Ho _ (Us & IH1 & IH2)]; [exists []; split; [constructor | reflexivity]|]. destruct (proj1 (C83_occurrences d Hd) _ Ho) as (U & HU & _). exists (U :: Us). split; [constructor; assumption|].
    cbn [map osum]. rewrite HU. cbn [bind]. rewrite IH2. reflexivity. }
  destruct H1 as (Ls & A1 & A2), H2 as (Us & B1 & B2). exists Ls, Us. split; [exact A1|]. split; [exact B1|]. unfold code_collection. unfold patt in *. rewrite A2. cbn [bind]. rewrite B2. reflexivity.
Qed.
Print Assumptions C85_collection.
(* C85: and once the two numbers are known, different descriptions can be told apart *)
Theorem C85_collection_code : forall d n m, good_details d -> forall l : list (list patt * list (Z * nat) * R),
  NoDup (map (fun x => (map (fun q : patt => let '(t, t0, E) := q in (strip t, t0, E)) (fst (fst x)), snd (fst x))) l) ->
  Forall (fun x => let '(ps, un, L) := x in length ps = n /\ length un = m /\
     Forall (fun q => let '(t, t0, E) := q in pattern_ok d t /\ reps_ok d t /\ inside d t t0 E) ps /\
     Forall (fun o => d_start d <= fst o <= d_end d /\ In (snd o) (map fst (d_counts d))) un /\ code_collection d ps un = Ret L) l ->
  (rsum (map (fun x => share (snd x)) l) <= 1)%R.
Proof.
  intros d n m Hd l Hn Hf.
  pose proof (kraft_pair _ (fun _ un => length un = m /\ Forall _ un) _ _ (kraft_lists _ _ (coded_kraft d Hd) n) (fun _ _ => kraft_lists _ _ (occs_kraft d Hd) m)) as [_ K]. cbv beta in K.
  specialize (K _ Hn). rewrite map_map in K. cbn [fst snd] in K.
  rewrite (map_ext_in _ (fun x => (rprod (map (weight d) (map (fun q : patt => let '(t, t0, E) := q in (strip t, t0, E)) (fst (fst x)))) * rprod (map (fun o => share (lval (cost_one d (snd o)))) (snd (fst x))))%R)).
  - apply K. rewrite Forall_map. cbn [fst snd]. eapply Forall_impl; [|exact Hf]. intros [[ps un] L] (Ln & Lm & Hp & Hu & _). cbn [fst snd]. rewrite map_length. split; (split; [assumption|]); [|exact Hu].
    rewrite Forall_map. eapply Forall_impl; [|exact Hp]. intros [[t t0] E] (A & B & C). apply (pattern_coded d Hd); assumption.
  - intros [[ps un] L] I. rewrite Forall_forall in Hf. destruct (Hf _ I) as (_ & _ & Hp & Hu & HL). cbn [fst snd]. clear Hf I.
    assert (Hp2 : Forall (fun x => let '(t, t0, E) := x in pattern_ok d t /\ inside d t t0 E) ps) by (eapply Forall_impl; [|exact Hp]; intros [[t t0] E]; tauto).
    assert (Hu2 : Forall (fun o => In (snd o) (map fst (d_counts d))) un) by (eapply Forall_impl; [|exact Hu]; cbv beta; tauto).
    destruct (C85_collection d ps un Hd Hp2 Hu2) as (Ls & Us & F1 & F2 & E). rewrite HL in E. injection E as ->. rewrite share_plus. f_equal.
    + clear - F1 Hp Hd. induction F1 as [|[[t t0] E] L ps Ls HL _ IH]; cbn [map rsum rprod]; [apply share_0|]. inversion Hp as [|? ? H0 Hp']; subst. destruct H0 as (A & B & C). rewrite share_plus, (IH Hp'). f_equal.
      rewrite (proj2 (pattern_coded d Hd t t0 E A B C)). destruct (tree_weighs d Hd t t0 E A C) as (L' & E1 & E2). rewrite HL in E1. injection E1 as <-. exact E2.
    + clear - F2. induction F2 as [|o U un Us HU _ IH]; cbn [map rsum rprod]; [apply share_0|]. rewrite share_plus, IH, HU. reflexivity.
Qed.
Print Assumptions C85_collection_code.
