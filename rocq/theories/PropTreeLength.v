(* C84: the code length of every pattern whose occurrences lie inside the log is a number, and what
   it is made of.  Real numbers of the standard library. *)
From Coq Require Import Reals QArith Qreals Lra.
From Verif Require Import Prelude CheckModel LCMModel TextModel VerticalProofs SplitModel ArrayModel PropArray PeriodModel PropPeriod TreeModel TreeProofs PropTree CyclesModel CodeLengthModel.
From Verif Require Import GraphUtilModel PropGraphUtil KraftProofs PropGraphLength PropCodeLength.
Local Open Scope Z_scope.

(* ------------------------------------------------------------ specification *)
(* what the miner builds: the root has number 0 and the other nodes other numbers, the events are
   those of the log, every block is repeated at least twice with a positive period, starts with its
   first child, and no child starts before the one on its left *)
Inductive inner_ok (d : details) : tree nat -> Prop :=
| inner_leaf n a : (0 < n)%nat -> In a (map fst (d_counts d)) -> inner_ok d (Leaf n a)
| inner_node n r p ch : (0 < n)%nat -> (2 <= r)%nat -> 1 <= p -> (exists c l, ch = (c, 0) :: l) ->
    Forall (fun cd => 0 <= snd cd /\ inner_ok d (fst cd)) ch -> inner_ok d (Node n r p ch).
Definition pattern_ok (d : details) (t : tree nat) : Prop :=
  exists r p ch, t = Node 0 r p ch /\ (2 <= r)%nat /\ 1 <= p /\ (exists c l, ch = (c, 0) :: l) /\
    Forall (fun cd => 0 <= snd cd /\ inner_ok d (fst cd)) ch.
(* the pattern at [t0] with corrections [E] covers events of the log's extent only *)
Definition inside (d : details) (t : tree nat) (t0 : Z) (E : list Z) : Prop :=
  length E = (nb_occs t - 1)%nat /\
  exists occs, get_cov_seq t t0 E = Some occs /\ Forall (fun oa => d_start d <= fst oa <= d_end d) occs.

(* ------------------------------------------------------------ shares of the code space *)
Definition weighs (o : outcome R) (w : R) : Prop := exists L, o = Ret L /\ share L = w.
Lemma weighs_ret x : weighs (Ret x) (share x).
Proof. exists x. auto. Qed.
Lemma weighs_log z : 0 < z -> weighs (np_log2z z) (/ IZR z).
Proof. intros Hz. exists (lg (IZR z)). split; [apply np_log2z_ok, Hz | apply share_lg', IZR_lt, Hz]. Qed.
Lemma weighs_plus a b u v : weighs a u -> weighs b v -> weighs (bind a (fun x => bind b (fun y => Ret (x + y)%R))) (u * v).
Proof. intros (x & -> & <-) (y & -> & <-). cbn [bind]. exists (x + y)%R. split; [reflexivity | apply share_plus]. Qed.
Lemma weighs_osum l ws : Forall2 weighs l ws -> weighs (osum l) (rprod ws).
Proof.
  induction 1 as [|o w l ws Hw _ IH]; cbn [osum rprod]; [|apply weighs_plus; assumption]. rewrite <- share_0. apply weighs_ret.
Qed.
Lemma share_INR_mult n x : share (INR n * x) = (share x ^ n)%R.
Proof. induction n as [|n IH]; [cbn [INR pow]; rewrite Rmult_0_l; apply share_0|]. rewrite S_INR. cbn [pow]. rewrite <- IH, <- share_plus. f_equal. ring. Qed.

Section Weights.
  Variable d : details.
  Definition count (a : nat) : Z := match dget (d_counts d) a with Some n => n | None => 0 end.
  (* the events and the brackets *)
  Fixpoint wev (t : tree nat) : R :=
    match t with
    | Leaf _ a => (IZR (count a) / (3 * IZR (total d)))%R
    | Node _ _ _ ch => (/ 9 * rprod (map (fun cd => wev (fst cd)) ch))%R
    end.
  (* the least number of occurrences among the events of a block *)
  Definition min_of (l : list Z) : Z := match l with [] => 0 | m :: l' => fold_right Z.min m l' end.
  Fixpoint min_count (t : tree nat) : Z :=
    match t with Leaf _ a => count a | Node _ _ _ ch => min_of (map (fun cd => min_count (fst cd)) ch) end.
  Fixpoint wR (t : tree nat) : R :=
    match t with Leaf _ _ => 1%R | Node n r p ch => (/ IZR (min_count (Node n r p ch)) * rprod (map (fun cd => wR (fst cd)) ch))%R end.
  (* the periods and the distances inside a block, when its repetitions take at most [T] *)
  Fixpoint wPD (t : tree nat) (T : Z) : R :=
    match t with
    | Leaf _ _ => 1%R
    | Node _ r _ ch =>
        let T' := T - Z.of_nat r + 1 in
        (/ IZR (T / (Z.of_nat r - 1)) * ((/ IZR (T' + 1)) ^ (length ch - 1) *
         (fix kids (cum : Z) (l : list (tree nat * Z)) : R :=
            match l with [] => 1%R | (c, ds) :: l' => (wPD c (T' - (cum + ds))%Z * kids (cum + ds)%Z l')%R end) 0%Z ch))%R
    end.
  Fixpoint wkids (T : Z) (cum : Z) (l : list (tree nat * Z)) : R :=
    match l with [] => 1%R | (c, ds) :: l' => (wPD c (T - (cum + ds))%Z * wkids T (cum + ds)%Z l')%R end.
  Lemma wPD_node n r p ch T : wPD (Node n r p ch) T =
    (/ IZR (T / (Z.of_nat r - 1)) * ((/ IZR (T - Z.of_nat r + 1 + 1)) ^ (length ch - 1) * wkids (T - Z.of_nat r + 1)%Z 0%Z ch))%R.
  Proof.
    cbn [wPD]. do 2 f_equal. generalize 0 (T - Z.of_nat r + 1). clear. induction ch as [|[c ds] l IH]; intros cum T'; [reflexivity|].
    cbn [wkids]. rewrite IH. reflexivity.
  Qed.
End Weights.

(* ------------------------------------------------------------ the last occurrences *)
Fixpoint lastq {A} (t : tree A) (rightmost : bool) : list npos :=
  match t with
  | Leaf _ _ => if rightmost then [[]] else []
  | Node _ r _ ch =>
      (fix kids (ni : nat) (l : list (tree A * Z)) : list npos :=
         match l with
         | [] => []
         | (c, _) :: l' => map (cons (ni, (r - 1)%nat)) (lastq c (match l' with [] => true | _ => false end)) ++ kids (S ni) l'
         end) O ch
  end.
Fixpoint lastk {A} (r : nat) (ni : nat) (l : list (tree A * Z)) : list npos :=
  match l with
  | [] => []
  | (c, _) :: l' => map (cons (ni, (r - 1)%nat)) (lastq c (match l' with [] => true | _ => false end)) ++ lastk r (S ni) l'
  end.
Lemma lastq_node {A} n r p ch b : lastq (Node n r p ch : tree A) b = lastk r 0 ch.
Proof. cbn [lastq]. set (m := (r - 1)%nat). generalize 0%nat. induction ch as [|[c ds] l IH]; intros ni; [reflexivity|]. cbn [lastk]. rewrite IH. reflexivity. Qed.
Lemma last_keys_spec t : wf t -> forall b pref, last_keys t b pref = map (fun q => rev pref ++ zpos q) (lastq t b).
Proof.
  induction t as [n e|n r p ch IH] using tree_ind'; intros Hw b pref.
  - cbn [last_keys lastq]. destruct b; cbn [map zpos]; [rewrite app_nil_r|]; reflexivity.
  - inversion Hw as [|? ? ? ? Hr Hne Hch]; subst. rewrite lastq_node. cbn [last_keys].
    clear Hne Hw. generalize 0%nat. induction ch as [|[c ds] l IHl]; intros ni; [reflexivity|].
    inversion IH as [|? ? Hc IH']; subst. inversion Hch as [|? ? Hwc Hch']; subst. cbn [fst] in *. cbn [lastk].
    rewrite map_app, map_map, (IHl IH' Hch' (S ni)). f_equal. rewrite Hc by exact Hwc.
    apply map_ext. intros q. cbn [rev zpos map fst snd]. rewrite <- app_assoc. cbn [app]. do 3 f_equal. lia.
Qed.
Lemma In_lastk {A} r (l : list (tree A * Z)) : forall ni q, In q (lastk r ni l) <->
  exists k c ds q', nth_error l k = Some (c, ds) /\ q = ((ni + k)%nat, (r - 1)%nat) :: q' /\ In q' (lastq c (S k =? length l)%nat).
Proof.
  induction l as [|[c ds] l IH]; intros ni q; cbn [lastk]; [split; [intros [] | intros ([|k] & ? & ? & ? & E & _); discriminate]|].
  rewrite in_app_iff, IH, in_map_iff. split.
  - intros [(q' & <- & I)|(k & c' & ds' & q' & E & -> & I)].
    + exists O, c, ds, q'. rewrite Nat.add_0_r. repeat split. destruct l; exact I.
    + exists (S k), c', ds', q'. cbn [length nth_error]. rewrite Nat.add_succ_r. auto.
  - intros ([|k] & c' & ds' & q' & E & -> & I).
    + injection E as <- <-. left. exists q'. rewrite Nat.add_0_r. split; [reflexivity|]. destruct l; exact I.
    + right. exists k, c', ds', q'. rewrite Nat.add_succ_r. auto.
Qed.
(* distances and periods do not go back in time *)
Inductive forward {A} : tree A -> Prop :=
| fwd_leaf n a : forward (Leaf n a)
| fwd_node n r p ch : (1 <= r)%nat -> 0 <= p -> ch <> [] -> Forall (fun cd => 0 <= snd cd /\ forward (fst cd)) ch -> forward (Node n r p ch).
Lemma cum_cons {A} (t : tree A) ds l c : cum ((t, ds) :: l) (S c) = ds + cum l c.
Proof. reflexivity. Qed.
Lemma cum_0 {A} (t : tree A) ds l : cum ((t, ds) :: l) 0 = ds.
Proof. unfold cum. cbn. lia. Qed.
Lemma cum_nonneg {A} (ch : list (tree A * Z)) c : Forall (fun cd => 0 <= snd cd) ch -> 0 <= cum ch c.
Proof.
  intros H. revert c. induction H as [|[t ds] l Hd _ IH]; intros c; [unfold cum; rewrite firstn_nil; cbn; lia|]. cbn [snd] in Hd.
  destruct c as [|c]; [rewrite cum_0; lia | rewrite cum_cons; specialize (IH c); lia].
Qed.
Lemma cum_mono {A} (ch : list (tree A * Z)) c c' : Forall (fun cd => 0 <= snd cd) ch -> (c <= c')%nat -> cum ch c <= cum ch c'.
Proof.
  intros H. revert c c'. induction H as [|[t ds] l Hd Hl IH]; intros c c' Hc; [unfold cum; rewrite !firstn_nil; cbn; lia|]. cbn [snd] in Hd.
  destruct c as [|c], c' as [|c']; try lia; rewrite ?cum_0, ?cum_cons; [pose proof (cum_nonneg l c' Hl); lia | specialize (IH c c' ltac:(lia)); lia].
Qed.
Lemma fwd_snd {A} (ch : list (tree A * Z)) : Forall (fun cd => 0 <= snd cd /\ forward (fst cd)) ch -> Forall (fun cd => 0 <= snd cd) ch.
Proof. apply Forall_impl. tauto. Qed.
Lemma lastq_leaves {A} (t : tree A) : forward t -> forall b q, In q (lastq t b) -> In q (leaves t).
Proof.
  induction t as [n e|n r p ch IH] using tree_ind'; intros Hf b q I.
  - cbn [lastq] in I. destruct b; [|destruct I]. destruct I as [<-|[]]. left. reflexivity.
  - inversion Hf as [|? ? ? ? Hr Hp Hne Hch]; subst. rewrite lastq_node, In_lastk in I. destruct I as (k & c & ds & q' & E & -> & I).
    apply nth_error_In in E as Ein. rewrite Forall_forall in IH, Hch. specialize (IH _ Ein (proj2 (Hch _ Ein)) _ _ I). cbn [fst] in IH.
    unfold leaves in *. apply in_map_iff in IH. destruct IH as ([q2 x] & Eq & IH). cbn [fst] in Eq. subst q2. apply in_map_iff. exists ((k, (r - 1)%nat) :: q', x).
    split; [reflexivity|]. apply In_leafs_node. exists k, (r - 1)%nat, c, ds, q'. repeat split; [exact E | lia | exact IH].
Qed.
Lemma off_nonneg {A} (t : tree A) : forward t -> forall q, 0 <= off q t.
Proof.
  induction t as [n e|n r p ch IH] using tree_ind'; intros Hf q; [destruct q as [|[? ?] ?]; cbn; lia|].
  inversion Hf as [|? ? ? ? Hr Hp Hne Hch]; subst. destruct q as [|[c i] q]; [cbn; lia|]. cbn [off]. pose proof (cum_nonneg ch c (fwd_snd _ Hch)).
  assert (0 <= Z.of_nat i * p) by nia. destruct (nth_error ch c) as [[t' ds]|] eqn:E; [|lia]. apply nth_error_In in E. rewrite Forall_forall in IH, Hch.
  specialize (IH _ E (proj2 (Hch _ E)) q). cbn [fst] in IH. lia.
Qed.
Lemma lastq_some {A} (t : tree A) : forward t -> lastq t true <> [].
Proof.
  induction t as [n e|n r p ch IH] using tree_ind'; intros Hf; [discriminate|]. inversion Hf as [|? ? ? ? Hr Hp Hne Hch]; subst. intros E.
  destruct (exists_last Hne) as (l & [c ds] & ->). assert (I : In (c, ds) (l ++ [(c, ds)])) by (apply in_or_app; right; left; reflexivity).
  rewrite Forall_forall in IH, Hch. specialize (IH _ I (proj2 (Hch _ I))). cbn [fst] in IH. destruct (lastq c true) as [|q l'] eqn:El; [congruence|].
  assert (J : In ((length l, (r - 1)%nat) :: q) (lastq (Node n r p (l ++ [(c, ds)])) true)); [|rewrite E in J; exact J].
  rewrite lastq_node, In_lastk. exists (length l), c, ds, q. split; [rewrite nth_error_app2, Nat.sub_diag by lia; reflexivity|]. split; [reflexivity|].
  rewrite app_length. cbn [length]. replace (S (length l) =? length l + 1)%nat with true by (symmetry; apply Nat.eqb_eq; lia). rewrite El. left. reflexivity.
Qed.
(* the latest perfect time is that of a last occurrence *)
Lemma lastq_max {A} (t : tree A) : forward t -> forall q, In q (leaves t) -> exists q', In q' (lastq t true) /\ off q t <= off q' t.
Proof.
  induction t as [n e|n r p ch IH] using tree_ind'; intros Hf q I.
  - exists []. cbn [lastq]. split; [left; reflexivity|]. destruct I as [<-|[]]. reflexivity.
  - inversion Hf as [|? ? ? ? Hr Hp Hne Hch]; subst. unfold leaves in I. apply in_map_iff in I. destruct I as ([q1 x] & <- & I). cbn [fst].
    apply In_leafs_node in I. destruct I as (c & i & t' & ds & q' & -> & E & Hi & I). apply nth_error_In in E as Ein. pose proof Hch as Hch0. rewrite Forall_forall in IH, Hch.
    assert (Hir : Z.of_nat i * p <= Z.of_nat (r - 1) * p) by nia.
    assert (Hlast : exists q1, In q1 (lastq (Node n r p ch) true) /\ Z.of_nat (r - 1) * p + cum ch (length ch - 1) <= off q1 (Node n r p ch)).
    { destruct (exists_last Hne) as (l & [cl dl] & El). assert (J : In (cl, dl) ch) by (rewrite El; apply in_or_app; right; left; reflexivity).
      pose proof (lastq_some cl (proj2 (Hch _ J))) as Hs. destruct (lastq cl true) as [|q2 l'] eqn:E2; [congruence|].
      assert (En : nth_error ch (length l) = Some (cl, dl)) by (rewrite El, nth_error_app2, Nat.sub_diag by lia; reflexivity).
      assert (Hlen : length ch = S (length l)) by (rewrite El, app_length; cbn; lia).
      exists ((length l, (r - 1)%nat) :: q2). split.
      - rewrite lastq_node, In_lastk. exists (length l), cl, dl, q2. split; [exact En|]. split; [reflexivity|]. rewrite Hlen, Nat.eqb_refl, E2. left. reflexivity.
      - cbn [off]. rewrite En. replace (length ch - 1)%nat with (length l) by lia. pose proof (off_nonneg cl (proj2 (Hch _ J)) q2). lia. }
    destruct t' as [n' e'|n' r' p' ch'].
    + destruct Hlast as (q1 & I1 & L1). exists q1. split; [exact I1|]. cbn [off]. rewrite E. destruct I as [I|[]]. injection I as <- _. cbn [off].
      pose proof (cum_mono ch c (length ch - 1) (fwd_snd _ Hch0)) as M. assert (c < length ch)%nat by (apply nth_error_Some; rewrite E; discriminate). specialize (M ltac:(lia)). lia.
    + destruct (IH _ Ein (proj2 (Hch _ Ein)) q') as (q2 & I2 & L2); [unfold leaves; apply in_map_iff; exists (q', x); auto|]. cbn [fst] in I2, L2.
      exists ((c, (r - 1)%nat) :: q2). split.
      * rewrite lastq_node, In_lastk. exists c, (Node n' r' p' ch'), ds, q2. split; [exact E|]. split; [reflexivity|]. rewrite lastq_node in *. exact I2.
      * cbn [off]. rewrite E. lia.
Qed.

Lemma Forall_and_iff {X} (P Q : X -> Prop) l : Forall (fun x => P x /\ Q x) l <-> Forall P l /\ Forall Q l.
Proof. rewrite !Forall_forall. split; [intros H; split; intros x I; apply (H x I) | intros [H1 H2] x I; auto]. Qed.
Section Pattern.
  Variable d : details.
  Hypothesis Hd : good_details d.
  Lemma inner_wf t : inner_ok d t -> wf t /\ forward t.
  Proof.
    induction t as [n e|n r p ch IH] using tree_ind'; intros Ho; [split; constructor|]. inversion Ho as [|? ? ? ? Hn Hr Hp [c [l ->]] Hch]; subst.
    rewrite Forall_forall in IH, Hch. split; constructor; try lia; [exists c, l; reflexivity | | discriminate|]; rewrite Forall_forall; intros cd I; destruct (Hch cd I); destruct (IH cd I); auto.
  Qed.
  Lemma pattern_wf t : pattern_ok d t -> wf t /\ forward t.
  Proof.
    intros (r & p & ch & -> & Hr & Hp & [c [l ->]] & Hch). rewrite Forall_forall in Hch.
    split; constructor; try lia; [exists c, l; reflexivity | | discriminate|]; rewrite Forall_forall; intros cd I; destruct (Hch cd I); destruct (inner_wf (fst cd)); auto.
  Qed.
  Lemma count_In a : In a (map fst (d_counts d)) -> exists n, In (a, n) (d_counts d) /\ count d a = n /\ 0 < n.
  Proof.
    intros I. apply in_map_iff in I. destruct I as ([a' n] & <- & I). exists n. split; [exact I|]. split; [|apply (gd_pos _ Hd _ _ I)].
    unfold count. cbn [fst]. rewrite (count_get d Hd a' n I). reflexivity.
  Qed.

  (* ---- events *)
  Inductive known : tree nat -> Prop :=
  | known_leaf n a : In a (map fst (d_counts d)) -> known (Leaf n a)
  | known_node n r p ch : ch <> [] -> Forall (fun cd => known (fst cd)) ch -> known (Node n r p ch).
  Lemma inner_known t : inner_ok d t -> known t.
  Proof.
    induction t as [n e|n r p ch IH] using tree_ind'; intros Ho; inversion Ho as [|? ? ? ? Hn Hr Hp [c [l ->]] Hch]; subst; constructor; [assumption | discriminate|].
    rewrite Forall_forall in *. intros cd I. destruct (Hch cd I). auto.
  Qed.
  Lemma pattern_known t : pattern_ok d t -> known t.
  Proof.
    intros (r & p & ch & -> & Hr & Hp & [c [l ->]] & Hch). constructor; [discriminate|]. rewrite Forall_forall in *. intros cd I. destruct (Hch cd I). apply inner_known. assumption.
  Qed.
  Lemma events_weigh t : known t -> weighs (code_events d t) (wev d t).
  Proof.
    induction t as [n a|n r p ch IH] using tree_ind'; intros Hk; inversion Hk as [? ? I|? ? ? ? Hne Hch]; subst; cbn [code_events wev].
    - destruct (count_In a I) as (k & Ik & -> & Hkp). destruct (adj_get d Hd a k Ik) as (f & -> & Hf). rewrite Hf.
      pose proof (total_pos d Hd) as Ht. apply IZR_lt in Ht, Hkp. rewrite np_log2_ok by (apply Rdiv_lt_0_compat; lra). cbn [bind]. eexists. split; [reflexivity|].
      rewrite <- lg_inv by (apply Rdiv_lt_0_compat; lra). rewrite share_lg' by (apply Rinv_0_lt_compat, Rdiv_lt_0_compat; lra). apply Rinv_inv.
    - rewrite blck_ok. cbn [bind].
      assert (Ws : weighs (osum (map (fun cd => code_events d (fst cd)) ch)) (rprod (map (fun cd => wev d (fst cd)) ch))).
      { apply weighs_osum. clear Hne Hk. induction ch as [|cd l IHl]; cbn [map]; constructor; inversion IH; inversion Hch; subst; auto. }
      destruct Ws as (s & -> & <-). cbn [bind]. eexists. split; [reflexivity|]. rewrite share_plus, share_lg' by lra. reflexivity.
  Qed.
  (* ---- repetitions *)
  Lemma min_of_pos l : l <> [] -> Forall (fun z => 0 < z) l -> 0 < min_of l.
  Proof. destruct l as [|m l]; [congruence|]. intros _ H. inversion H as [|? ? Hm Hl]; subst. clear H. cbn [min_of]. induction Hl; cbn [fold_right]; lia. Qed.
  Lemma min_count_pos t : known t -> 0 < min_count d t.
  Proof.
    induction t as [n a|n r p ch IH] using tree_ind'; intros Hk; inversion Hk as [? ? I|? ? ? ? Hne Hch]; subst; cbn [min_count].
    - destruct (count_In a I) as (k & _ & -> & H). exact H.
    - apply min_of_pos; [destruct ch; [congruence | discriminate]|]. rewrite Forall_map, Forall_forall. rewrite Forall_forall in IH, Hch. intros cd I. apply IH, Hch; exact I.
  Qed.
  Lemma min_occs_spec t : known t -> exists l, min_occs d t = Ret (min_count d t, l) /\ Forall (fun z => 0 < z) l /\ rprod (map (fun z => (/ IZR z)%R) l) = wR d t.
  Proof.
    induction t as [n a|n r p ch IH] using tree_ind'; intros Hk.
    - inversion Hk as [? ? I|]; subst. destruct (count_In a I) as (k & Ik & Ec & Hp). exists []. cbn [min_occs min_count wR]. rewrite Ec, (count_get d Hd a k Ik). split; [reflexivity|]. split; [constructor | reflexivity].
    - pose proof (min_count_pos _ Hk) as Hpos. inversion Hk as [|? ? ? ? Hne Hch]; subst. cbn [min_occs].
      assert (Ha : exists ls, all_out (map (fun cd => min_occs d (fst cd)) ch) = Ret ls /\ map fst ls = map (fun cd => min_count d (fst cd)) ch /\
        Forall (fun z => 0 < z) (concat (map snd ls)) /\ rprod (map (fun z => (/ IZR z)%R) (concat (map snd ls))) = rprod (map (fun cd => wR d (fst cd)) ch)).
      { clear Hpos Hk Hne. induction ch as [|cd l IHl]; [exists []; repeat split; constructor|]. inversion IH as [|? ? H1 H2]; subst. inversion Hch as [|? ? K1 K2]; subst.
        destruct (H1 K1) as (l1 & E1 & P1 & W1). destruct (IHl H2 K2) as (ls & E2 & M2 & P2 & W2). exists ((min_count d (fst cd), l1) :: ls). cbn [map all_out]. rewrite E1, E2. cbn [bind map fst snd concat].
        repeat split; [rewrite M2; reflexivity | apply Forall_app; auto | rewrite map_app, rprod_app, W1, W2; reflexivity]. }
      destruct Ha as (ls & -> & M & P & W). cbn [bind]. destruct ls as [|[m l0] ls]; [destruct ch; [congruence | discriminate]|].
      assert (Em : fold_right Z.min m (map fst ls) = min_count d (Node n r p ch)) by (cbn [min_count]; rewrite <- M; reflexivity). cbn [map fst snd] in *. rewrite Em.
      exists ((concat (l0 :: map snd ls)) ++ [min_count d (Node n r p ch)]). split; [reflexivity|]. split; [apply Forall_app; split; [exact P | repeat constructor; exact Hpos]|].
      rewrite map_app, rprod_app, W. cbn [map rprod wR]. ring.
  Qed.
  Lemma R_weighs t : known t -> weighs (code_R d t) (wR d t).
  Proof.
    intros Hk. destruct (min_occs_spec t Hk) as (l & E & P & W). unfold code_R. rewrite E. cbn [bind snd]. rewrite <- W. apply weighs_osum. clear -P.
    induction P; cbn [map]; constructor; [apply weighs_log; assumption | assumption].
  Qed.
  (* ---- periods and distances *)
  Definition takes (t : tree nat) (T : Z) : Prop := forall q, In q (leaves t) -> off q t <= T.
  Lemma leaves_child n r p ch k c ds i q : nth_error ch k = Some (c, ds) -> (i < r)%nat -> In q (leaves c) -> In ((k, i) :: q) (leaves (Node n r p ch : tree nat)).
  Proof.
    intros E Hi I. unfold leaves in *. apply in_map_iff in I. destruct I as ([q2 x] & <- & I). apply in_map_iff. exists ((k, i) :: q2, x). split; [reflexivity|].
    apply In_leafs_node. exists k, i, c, ds, q2. auto.
  Qed.
  Lemma takes_child n r p ch T k c ds : (2 <= r)%nat -> takes (Node n r p ch) T -> nth_error ch k = Some (c, ds) ->
    takes c (T - p * (Z.of_nat r - 1) - cum ch k).
  Proof.
    intros Hr Ht E q I. specialize (Ht ((k, (r - 1)%nat) :: q) (leaves_child n r p ch k c ds (r - 1) q E ltac:(lia) I)). cbn [off] in Ht. rewrite E in Ht.
    replace (Z.of_nat (r - 1)) with (Z.of_nat r - 1) in Ht by lia. lia.
  Qed.
  Lemma takes_nonneg t T : wf t -> forward t -> takes t T -> 0 <= T.
  Proof.
    intros Hw Hf Ht. destruct (leaves_first t Hw) as (l & El). specialize (Ht (first t)). rewrite El in Ht. pose proof (off_nonneg t Hf (first t)). specialize (Ht (or_introl eq_refl)). lia.
  Qed.
  Lemma kids_weigh T l : forall fst0 cum, Forall (fun cd : tree nat * Z => forall T, takes (fst cd) T -> weighs (code_PDs (fst cd) T false) (wPD (fst cd) T)) l ->
    (forall k c ds, nth_error l k = Some (c, ds) -> takes c (T - cum - TreeProofs.cum l k)) -> (fst0 = true -> match l with (_, ds) :: _ => ds = 0 | [] => True end) ->
    weighs ((fix kids (first : bool) (cum : Z) (l : list (tree nat * Z)) : outcome R :=
                 match l with
                 | [] => Ret 0%R
                 | (c, ds) :: l' =>
                     bind (code_PDs c (T - (if first then cum else cum + ds)) false) (fun x => bind (kids false (if first then cum else cum + ds) l') (fun y => Ret (x + y)%R))
                 end) fst0 cum l) (wkids T cum l).
  Proof.
    induction l as [|[c ds] l IH]; intros fst0 cum Hl Ht H0; [cbn [wkids]; rewrite <- share_0; apply weighs_ret|].
    inversion Hl as [|? ? H1 H2]; subst. cbn [fst] in H1. cbn [wkids].
    assert (Ec : (if fst0 then cum else cum + ds) = cum + ds) by (destruct fst0; [rewrite (H0 eq_refl); lia | reflexivity]). rewrite Ec.
    apply weighs_plus.
    - apply H1. specialize (Ht O c ds eq_refl). rewrite cum_0 in Ht. replace (T - (cum + ds)) with (T - cum - ds) by lia. exact Ht.
    - apply IH; [exact H2 | | discriminate]. intros k c' ds' E. specialize (Ht (S k) c' ds' E). rewrite cum_cons in Ht. replace (T - (cum + ds) - TreeProofs.cum l k) with (T - cum - (ds + TreeProofs.cum l k)) by lia. exact Ht.
  Qed.
  Lemma distances_weigh T (ch : list (tree nat * Z)) : 0 < T + 1 -> (1 <= length ch)%nat ->
    weighs (if (1 <? length ch)%nat then bind (np_log2z (T + 1)) (fun x => Ret (INR (length ch - 1) * x)%R) else Ret 0%R) ((/ IZR (T + 1)) ^ (length ch - 1)).
  Proof.
    intros HT Hl. destruct (Nat.ltb_spec 1 (length ch)).
    - destruct (weighs_log _ HT) as (x & -> & <-). cbn [bind]. eexists. split; [reflexivity | apply share_INR_mult].
    - replace (length ch - 1)%nat with O by lia. cbn [pow]. rewrite <- share_0. apply weighs_ret.
  Qed.
  Lemma takes_bounds n r p ch T : inner_ok d (Node n r p ch) -> takes (Node n r p ch) T ->
    p * (Z.of_nat r - 1) <= T /\ 0 <= T - Z.of_nat r + 1 /\ forall k c ds, nth_error ch k = Some (c, ds) -> takes c (T - Z.of_nat r + 1 - cum ch k).
  Proof.
    intros Ho Ht. inversion Ho as [|? ? ? ? Hn Hr Hp [c [l E]] Hch]; subst.
    pose proof (takes_child n r p _ T 0 c 0 Hr Ht eq_refl) as Hc. rewrite cum_0 in Hc. rewrite Forall_forall in Hch.
    destruct (inner_wf c (proj2 (Hch (c, 0) (or_introl eq_refl)))) as [Wc Fc]. pose proof (takes_nonneg _ _ Wc Fc Hc). split; [lia|]. split; [nia|].
    intros k c' ds' Ek q I. pose proof (takes_child n r p _ T k c' ds' Hr Ht Ek q I). nia.
  Qed.
  Lemma PDs_weigh t : inner_ok d t -> forall T, takes t T -> weighs (code_PDs t T false) (wPD t T).
  Proof.
    induction t as [n a|n r p ch IH] using tree_ind'; intros Ho T Ht; [cbn [code_PDs wPD]; rewrite <- share_0; apply weighs_ret|].
    destruct (takes_bounds n r p ch T Ho Ht) as (B1 & B2 & B3). inversion Ho as [|? ? ? ? Hn Hr Hp Hne Hch]; subst.
    rewrite wPD_node. cbn [code_PDs].
    destruct (Nat.ltb_spec 0 n); [|lia]. destruct (Nat.ltb_spec 0 r); [|lia]. destruct (Nat.eqb_spec r 1); [lia|]. cbn [andb].
    destruct (Z.ltb_spec T (p * (Z.of_nat r - 1))); [lia|].
    assert (Hq : 0 < T / (Z.of_nat r - 1)) by (apply Z.div_str_pos; nia).
    destruct (weighs_log _ Hq) as (x & -> & <-). cbn [bind]. destruct Hne as (c & l & E).
    destruct (distances_weigh (T - Z.of_nat r + 1) ch ltac:(lia)) as (y & -> & <-); [rewrite E; cbn; lia|]. cbn [bind].
    destruct (kids_weigh (T - Z.of_nat r + 1) ch true 0) as (z & -> & <-).
    - rewrite Forall_forall in *. intros cd I T' Ht'. apply IH; [exact I | apply (Hch cd I) | exact Ht'].
    - intros k c' ds' Ek. specialize (B3 k c' ds' Ek). rewrite Z.sub_0_r. exact B3.
    - intros _. rewrite E. reflexivity.
    - cbn [bind]. eexists. split; [reflexivity|]. rewrite !share_plus. ring.
  Qed.
End Pattern.

(* ------------------------------------------------------------ corrections by position *)
(* the correction at a position, and the sum of the corrections that move it: the time of an
   occurrence is its perfect time plus this sum *)
Definition F_of {A} (t : tree A) (E : list Z) (q : npos) : Z := nth (first_index q (leaves t)) (0 :: E) 0.
Definition corr {A} (t : tree A) (E : list Z) (q : npos) : Z := F_of t E q + Ssum (F_of t E) q t.
Definition max_of (l : list Z) : Z := match l with [] => 0 | m :: l' => fold_right Z.max m l' end.
Lemma first_index_map {X} `{EqDec X} (l : list X) (xs : list Z) d0 : NoDup l -> length xs = length l -> map (fun q => nth (first_index q l) xs d0) l = xs.
Proof.
  intros Hn Hl. apply (nth_ext _ _ d0 d0); [rewrite map_length; congruence|]. intros i Hi. rewrite map_length in Hi.
  destruct l as [|x0 l0] eqn:El; [cbn in Hi; lia|]. rewrite <- El in *. clear El l0.
  rewrite (nth_indep _ d0 (nth (first_index x0 l) xs d0)) by (rewrite map_length; exact Hi). rewrite (map_nth (fun q => nth (first_index q l) xs d0)). f_equal.
  pose proof (nth_In l x0 Hi) as I. destruct (PropArray.first_index_spec _ _ I) as [E _].
  rewrite NoDup_nth_error in Hn. apply Hn; [apply nth_error_Some; rewrite E; discriminate|]. rewrite E. symmetry. apply nth_error_nth'. exact Hi.
Qed.
Section Top.
  Variable d : details.
  Hypothesis Hd : good_details d.
  Lemma F_of_map (t : tree nat) E : wf t -> length E = (nb_occs t - 1)%nat -> map (F_of t E) (leaves t) = 0 :: E.
  Proof.
    intros Hw Hl. apply first_index_map; [apply leaves_NoDup|]. rewrite leaves_length. destruct (leaves_first t Hw) as (l & El).
    assert (nb_occs t = S (length l)) by (rewrite <- leaves_length, El; reflexivity). cbn [length]. lia.
  Qed.
  Lemma edict_F (t : tree nat) E : wf t -> length E = (nb_occs t - 1)%nat -> get_EDict (occs_star t) E = map (fun q => (key q, F_of t E q)) (leaves t).
  Proof.
    intros Hw Hl. pose proof (F_of_map t E Hw Hl) as HF. unfold get_EDict.
    assert (Hlen : length (occs_star t) = S (length E)).
    { rewrite star_spec, map_length. assert (H1 := f_equal (@length Z) HF). unfold leaves in H1. rewrite !map_length in H1. exact H1. }
    rewrite Hlen. cbn [Nat.sub]. rewrite Nat.sub_0_r, Nat.leb_refl, firstn_all, <- HF, star_ids, combine_map.
    apply dict_of_NoDup. rewrite map_map. cbn [fst]. apply keys_NoDup.
  Qed.
  Lemma ccorr_corr (t : tree nat) E q : wf t -> length E = (nb_occs t - 1)%nat -> In q (leaves t) -> get_ccorr t (key q) (get_EDict (occs_star t) E) = Some (corr t E q).
  Proof. intros Hw Hl I. rewrite edict_F by assumption. apply ccorr_spec; assumption. Qed.
  Lemma inside_times (t : tree nat) t0 E : wf t -> inside d t t0 E -> forall q, In q (leaves t) -> d_start d <= t0 + off q t + corr t E q <= d_end d.
  Proof.
    intros Hw (Hl & occs & Eo & Ho) q I. rewrite (cov_spec t t0 E (F_of t E) Hw (F_of_map t E Hw Hl)) in Eo. injection Eo as <-. rewrite Forall_map, Forall_forall in Ho.
    unfold leaves in I. apply in_map_iff in I. destruct I as ([q' x] & <- & I). specialize (Ho _ I). cbn [fst] in *. unfold W in Ho. unfold corr. lia.
  Qed.
  Lemma corr_first (t : tree nat) E : wf t -> length E = (nb_occs t - 1)%nat -> corr t E (first t) = 0.
  Proof.
    intros Hw Hl. unfold corr. rewrite (proj2 (first_zero t Hw)). pose proof (F_of_map t E Hw Hl) as HF. destruct (leaves_first t Hw) as (l & El). rewrite El in HF. cbn [map] in HF. injection HF as HF _. lia.
  Qed.
  Lemma max_of_spec l : l <> [] -> In (max_of l) l /\ forall x, In x l -> x <= max_of l.
  Proof.
    destruct l as [|m l]; [congruence|]. intros _. cbn [max_of]. induction l as [|y l [I IH]]; cbn [fold_right]; [split; [left; reflexivity | intros x [->|[]]; lia]|]. split.
    - destruct (Z.max_spec y (fold_right Z.max m l)) as [[_ ->]|[_ ->]]; [destruct I as [<-|I]; [left; reflexivity | right; right; exact I] | right; left; reflexivity].
    - intros x [->|[->|J]]; [specialize (IH x (or_introl eq_refl)); lia | lia | specialize (IH x (or_intror J)); lia].
  Qed.
  Lemma min_of_spec l : l <> [] -> In (min_of l) l /\ forall x, In x l -> min_of l <= x.
  Proof.
    destruct l as [|m l]; [congruence|]. intros _. cbn [min_of]. induction l as [|y l [I IH]]; cbn [fold_right]; [split; [left; reflexivity | intros x [->|[]]; lia]|]. split.
    - destruct (Z.min_spec y (fold_right Z.min m l)) as [[_ ->]|[_ ->]]; [right; left; reflexivity | destruct I as [<-|I]; [left; reflexivity | right; right; exact I]].
    - intros x [->|[->|J]]; [specialize (IH x (or_introl eq_refl)); lia | lia | specialize (IH x (or_intror J)); lia].
  Qed.
  Lemma all_out_map {B C} (f : B -> outcome C) (g : B -> C) l : (forall x, In x l -> f x = Ret (g x)) -> all_out (map f l) = Ret (map g l).
  Proof. induction l as [|x l IH]; intros H; [reflexivity|]. cbn [map all_out]. rewrite (H x (or_introl eq_refl)), IH by (intros y I; apply H; right; exact I). reflexivity. Qed.

  (* the first occurrence in the last repetition *)
  Definition za (t : tree nat) : npos := match t with Node _ r _ ((c0, _) :: _) => (O, (r - 1)%nat) :: first c0 | _ => [] end.
  Definition root_r (t : tree nat) : Z := match t with Node _ r _ _ => Z.of_nat r | _ => 0 end.
  Definition root_p (t : tree nat) : Z := match t with Node _ _ p _ => p | _ => 0 end.
  Definition span (t : tree nat) : Z := max_of (map (fun q => off q t) (leaves t)).
  (* how much longer than its start the last repetition takes, without corrections *)
  Definition tail_span (t : tree nat) : Z := span t - root_p t * (root_r t - 1).
  (* the periods and the starts that leave room; the spans of the last repetition that leave room *)
  Definition room_p (t : tree nat) (E : list Z) : Z := (delta_t d - corr t E (za t)) / (root_r t - 1).
  Definition room_t (t : tree nat) (E : list Z) (p : Z) : Z := delta_t d - corr t E (za t) - p * (root_r t - 1) + 1.
  Definition room_T (t : tree nat) (E : list Z) (p t0 : Z) : Z := d_end d - t0 - p * (root_r t - 1) - min_of (map (corr t E) (lastq t true)).
  Definition wtop (t : tree nat) (T : Z) : R := ((/ IZR (T + 1)) ^ (length (children t) - 1) * wkids T 0 (children t))%R.
  Lemma za_leaf t : pattern_ok d t -> In (za t) (leaves t) /\ off (za t) t = root_p t * (root_r t - 1).
  Proof.
    intros (r & p & ch & -> & Hr & Hp & (c & l & ->) & Hch). inversion Hch as [|? ? [_ Hc] _]; subst. cbn [fst] in Hc. destruct (inner_wf d c Hc) as [Wc Fc]. cbn [za root_p root_r]. split.
    - destruct (leaves_first c Wc) as (lv & El). apply (leaves_child 0 r p ((c, 0) :: l) 0 c 0); [reflexivity | lia | rewrite El; left; reflexivity].
    - cbn [off nth_error]. rewrite cum_0, (proj1 (first_zero c Wc)). replace (Z.of_nat (r - 1)) with (Z.of_nat r - 1) by lia. lia.
  Qed.
  Lemma last_off t q : pattern_ok d t -> In q (lastq t true) -> root_p t * (root_r t - 1) <= off q t.
  Proof.
    intros (r & p & ch & -> & Hr & Hp & Hne & Hch) I. rewrite lastq_node, In_lastk in I. destruct I as (k & c & ds & q' & E & -> & I). cbn [off Nat.add root_p root_r]. rewrite E.
    rewrite Forall_and_iff in Hch. destruct Hch as [H0 Hch]. rewrite Forall_forall in Hch. apply nth_error_In in E. pose proof (off_nonneg c (proj2 (inner_wf d c (Hch _ E))) q').
    pose proof (cum_nonneg ch k H0). replace (Z.of_nat (r - 1)) with (Z.of_nat r - 1) by lia. lia.
  Qed.
  Lemma rooms t t0 E : pattern_ok d t -> inside d t t0 E ->
    1 <= root_p t <= room_p t E /\ d_start d <= t0 <= d_start d + room_t t E (root_p t) - 1 /\ 0 <= tail_span t <= room_T t E (root_p t) t0.
  Proof.
    intros Hp Hi. destruct (pattern_wf d t Hp) as [Hw Hf]. destruct (za_leaf t Hp) as [Iz Oz]. pose proof (inside_times t t0 E Hw Hi) as Ht. pose proof (Ht _ Iz) as Hz. rewrite Oz in Hz.
    assert (Hrp : 2 <= root_r t /\ 1 <= root_p t) by (destruct Hp as (r & p & ch & -> & Hr & Hp & _); cbn; lia). destruct Hrp as [Hr Hp1].
    destruct (leaves_first t Hw) as (lv & El). pose proof (Ht (first t)) as Hs. rewrite (proj1 (first_zero t Hw)), (corr_first t E Hw (proj1 Hi)), El in Hs. specialize (Hs (or_introl eq_refl)).
    assert (Hne : map (fun q => off q t) (leaves t) <> []) by (rewrite El; discriminate). destruct (max_of_spec _ Hne) as [M1 M2]. fold (span t) in M1, M2.
    split; [|split].
    - split; [lia|]. unfold room_p. apply Z.div_le_lower_bound; unfold delta_t; lia.
    - unfold room_t, delta_t. lia.
    - assert (Hl : map (corr t E) (lastq t true) <> []) by (pose proof (lastq_some t Hf); destruct (lastq t true); [congruence | discriminate]).
      destruct (min_of_spec _ Hl) as [N1 N2]. unfold tail_span, room_T. split.
      + specialize (M2 (off (za t) t)). rewrite Oz in M2. assert (Jz : In (root_p t * (root_r t - 1)) (map (fun q => off q t) (leaves t))) by (rewrite <- Oz; apply (in_map (fun q => off q t)), Iz). specialize (M2 Jz). lia.
      + apply in_map_iff in M1. destruct M1 as (qm & Em & Im). destruct (lastq_max t Hf qm Im) as (ql & Il & Ll). specialize (N2 (corr t E ql) (in_map _ _ _ Il)).
        pose proof (Ht ql (lastq_leaves t Hf true ql Il)). lia.
  Qed.
  Lemma top_takes t : pattern_ok d t -> forall k c ds, nth_error (children t) k = Some (c, ds) -> takes c (tail_span t - cum (children t) k).
  Proof.
    intros (r & p & ch & -> & Hr & Hp & Hne & Hch) k c ds E q I. cbn [children] in *.
    assert (J : In ((k, (r - 1)%nat) :: q) (leaves (Node 0 r p ch))) by (apply (leaves_child 0 r p ch k c ds); [exact E | lia | exact I]).
    assert (Hn : map (fun q => off q (Node 0 r p ch)) (leaves (Node 0 r p ch)) <> []) by (intros C; apply map_eq_nil in C; rewrite C in J; destruct J).
    destruct (max_of_spec _ Hn) as [_ M]. specialize (M _ (in_map (fun q => off q (Node 0 r p ch)) _ _ J)). fold (span (Node 0 r p ch)) in M. cbn [off] in M. rewrite E in M.
    unfold tail_span. cbn [root_p root_r]. replace (Z.of_nat (r - 1)) with (Z.of_nat r - 1) in M by lia. lia.
  Qed.
  Lemma top_PDs t : pattern_ok d t -> 0 <= tail_span t -> weighs (code_PDs t (tail_span t) true) (wtop t (tail_span t)).
  Proof.
    intros Hp HT. pose proof (top_takes t Hp) as Hk. destruct Hp as (r & p & ch & Et & Hr & Hp & (c & l & Ec) & Hch). unfold wtop. revert HT Hk. rewrite Et. set (T := tail_span _). clearbody T. intros HT Hk.
    cbn [children] in *. cbn [code_PDs]. change (0 <? 0)%nat with false. cbn [andb bind].
    destruct (distances_weigh T ch ltac:(lia)) as (y & -> & <-); [rewrite Ec; cbn; lia|]. cbn [bind].
    destruct (kids_weigh T ch true 0) as (z & -> & <-).
    - rewrite Forall_forall in *. intros cd I T' Ht'. apply (PDs_weigh d); [apply (Hch cd I) | exact Ht'].
    - intros k c' ds' Ek. rewrite Z.sub_0_r. apply (Hk k c' ds' Ek).
    - intros _. rewrite Ec. reflexivity.
    - cbn [bind]. eexists. split; [reflexivity|]. rewrite !share_plus, share_0. ring.
  Qed.
  Lemma tree_weighs t t0 E : pattern_ok d t -> inside d t t0 E ->
    weighs (code_length d t t0 (Some E)) (wev d t * wR d t * / IZR (room_p t E) * / IZR (room_t t E (root_p t)) *
      (if has_nested t then wtop t (tail_span t) * / IZR (room_T t E (root_p t) t0 + 1) else 1) * share (IZR (length_E E)))%R.
  Proof.
    intros Hp Hi. destruct (rooms t t0 E Hp Hi) as (R1 & R2 & R3). destruct (pattern_wf d t Hp) as [Hw Hf]. destruct (za_leaf t Hp) as [Iz Oz].
    pose proof (events_weigh d Hd t (pattern_known d t Hp)) as Wev. pose proof (R_weighs d Hd t (pattern_known d t Hp)) as WR.
    pose proof (top_PDs t Hp ltac:(lia)) as WPD. pose proof (proj1 Hi) as Hl.
    assert (Eza : leaf_key t [(-1, root_r t - 1)] = Some (key (za t))).
    { destruct Hp as (r & p & ch & -> & Hr & Hp & (c & l & ->) & Hch). inversion Hch as [|? ? [_ Hc] _]; subst. cbn [root_r za].
      replace (Z.of_nat r - 1) with (Z.of_nat (r - 1)) by lia. apply (leaf_key_rep (Node 0 r p ((c, 0) :: l)) [] 0 r p c 0 l (r - 1) (path_nil _) (proj1 (inner_wf d c Hc))). }
    assert (Estar : map (fun o => fst (fst o)) (occs_star t) = map (fun q => off q t) (leaves t)) by (rewrite star_spec; unfold leaves; rewrite !map_map; reflexivity).
    assert (Elast : zmax_list (map (fun o => fst (fst o)) (occs_star t)) = Ret (span t)).
    { rewrite Estar. unfold span. destruct (leaves_first t Hw) as (lv & ->). reflexivity. }
    assert (Etza : dget (dict_of (map (fun o => (snd o, fst (fst o))) (occs_star t))) (key (za t)) = Some (root_p t * (root_r t - 1))).
    { rewrite star_spec, map_map. cbn [fst snd]. rewrite <- (map_map fst (fun q => (key q, off q t))). fold (leaves t). rewrite dict_of_NoDup by (rewrite map_map; cbn [fst]; apply keys_NoDup).
      rewrite <- Oz. apply (dget_combine key (leaves t) (fun q => off q t)); [apply keys_NoDup | exact Iz]. }
    assert (Ezz : bind (all_out (map (fun k => out_opt KeyError (get_ccorr t (l_to_key k) (get_EDict (occs_star t) E))) (last_keys t true []))) zmin_list = Ret (min_of (map (corr t E) (lastq t true)))).
    { rewrite (last_keys_spec t Hw true []), map_map. cbn [rev app]. rewrite (all_out_map _ (corr t E)).
      - cbn [bind]. pose proof (lastq_some t Hf). destruct (lastq t true); [congruence | reflexivity].
      - intros q I. fold (key q). rewrite (ccorr_corr t E q Hw Hl (lastq_leaves t Hf true q I)). reflexivity. }
    pose proof (ccorr_corr t E (za t) Hw Hl Iz) as Eczt.
    assert (Ht : t = Node 0 (Z.to_nat (root_r t)) (root_p t) (children t) /\ 2 <= root_r t) by (destruct Hp as (r & p & ch & -> & Hr & _); cbn; rewrite Nat2Z.id; split; [reflexivity | lia]). destruct Ht as [Ht Hr].
    assert (Ecl : forall r p ch, t = Node 0 r p ch -> Z.of_nat r = root_r t /\ p = root_p t) by (intros r p ch ->; cbn; auto).
    unfold code_length. destruct t as [|n r p ch]; [discriminate|]. injection Ht as Hn _. subst n. destruct (Ecl r p ch eq_refl) as [Er Ep].
    set (t := Node 0 r p ch) in *. cbv zeta. rewrite Er, Ep, Eza. cbn [out_opt bind]. rewrite Eczt. cbn [out_opt bind].
    destruct Wev as (x1 & -> & <-). cbn [bind]. destruct WR as (x2 & -> & <-). cbn [bind].
    unfold code_PTop, code_T0. destruct (Nat.eqb_spec r 1) as [Er1|_]; [lia|]. rewrite Er. fold (room_p t E). fold (room_t t E (root_p t)).
    destruct (weighs_log (room_p t E) ltac:(lia)) as (x3 & -> & <-). cbn [bind]. destruct (weighs_log (room_t t E (root_p t)) ltac:(lia)) as (x4 & -> & <-). cbn [bind].
    destruct (has_nested t).
    - rewrite Ezz. cbn [bind]. rewrite Elast. cbn [bind]. rewrite Etza. cbn [out_opt bind]. fold (tail_span t). destruct WPD as (x5 & -> & <-). cbn [bind].
      fold (room_T t E (root_p t) t0). destruct (weighs_log (room_T t E (root_p t) t0 + 1) ltac:(lia)) as (x6 & -> & <-). cbn [bind].
      eexists. split; [reflexivity|]. rewrite !share_plus. ring.
    - cbn [bind]. eexists. split; [reflexivity|]. rewrite !share_plus, share_0. ring.
  Qed.
End Top.

(* C84: a pattern whose occurrences lie inside the log has a code length: no logarithm of zero or
   less, no division by zero, no stop in the debugger, and the span that is transmitted is within
   the room announced for it *)
Theorem C84_defined : forall d t t0 E, good_details d -> pattern_ok d t -> inside d t t0 E -> exists L, code_length d t t0 (Some E) = Ret L.
Proof. intros d t t0 E Hd Hp Hi. destruct (tree_weighs d Hd t t0 E Hp Hi) as (L & H & _). eauto. Qed.
Print Assumptions C84_defined.
(* C84: what it is made of: the events with their brackets, the repetitions of each block among the
   occurrences of its rarest event, the top period among those that leave room, the start among the
   moments that leave room, with several events the span of a repetition among those that leave room
   and, given it, the inner periods and distances, and the corrections *)
Theorem C84_parts : forall d t t0 E, good_details d -> pattern_ok d t -> inside d t t0 E -> exists L, code_length d t t0 (Some E) = Ret L /\
  share L = (wev d t * wR d t * / IZR (room_p d t E) * / IZR (room_t d t E (root_p t)) *
      (if has_nested t then wtop t (tail_span t) * / IZR (room_T d t E (root_p t) t0 + 1) else 1) * share (IZR (length_E E)))%R /\
  root_p t <= room_p d t E /\ t0 - d_start d < room_t d t E (root_p t) /\ 0 <= tail_span t <= room_T d t E (root_p t) t0.
Proof.
  intros d t t0 E Hd Hp Hi. destruct (tree_weighs d Hd t t0 E Hp Hi) as (L & H & W). destruct (rooms d t t0 E Hp Hi) as (R1 & R2 & R3).
  exists L. split; [exact H|]. split; [exact W|]. split; [apply R1|]. split; [lia | exact R3].
Qed.
Print Assumptions C84_parts.
(* C84: without the corrections (a bound on the length that the search uses) the length exists for
   every starting time, even one from which the repetitions run past the end of the log, and is made
   of the same parts with all corrections zero *)
Theorem C84_bare : forall d t t0, good_details d -> pattern_ok d t -> root_p t * (root_r t - 1) <= delta_t d -> exists L, code_length d t t0 None = Ret L /\
  share L = (wev d t * wR d t * / IZR (delta_t d / (root_r t - 1)) * / IZR (delta_t d - root_p t * (root_r t - 1) + 1) *
      (if has_nested t then wtop t (tail_span t) * / IZR (Z.max 0 (d_end d - t0 - root_p t * (root_r t - 1)) + 1) else 1))%R.
Proof.
  intros d t t0 Hd Hp Hroom. destruct (pattern_wf d t Hp) as [Hw Hf]. destruct (za_leaf d t Hp) as [Iz Oz].
  pose proof (events_weigh d Hd t (pattern_known d t Hp)) as Wev. pose proof (R_weighs d Hd t (pattern_known d t Hp)) as WR.
  assert (Hne : map (fun q => off q t) (leaves t) <> []) by (destruct (leaves_first t Hw) as (lv & ->); discriminate). destruct (max_of_spec _ Hne) as [_ M2].
  assert (HT : 0 <= tail_span t).
  { specialize (M2 (off (za t) t) (in_map (fun q => off q t) _ _ Iz)). unfold tail_span, span. rewrite Oz in M2. lia. }
  pose proof (top_PDs d t Hp HT) as WPD.
  assert (Eza : leaf_key t [(-1, root_r t - 1)] = Some (key (za t))).
  { destruct Hp as (r & p & ch & -> & Hr & Hp & (c & l & ->) & Hch). inversion Hch as [|? ? [_ Hc] _]; subst. cbn [root_r za].
    replace (Z.of_nat r - 1) with (Z.of_nat (r - 1)) by lia. apply (leaf_key_rep (Node 0 r p ((c, 0) :: l)) [] 0 r p c 0 l (r - 1) (path_nil _) (proj1 (inner_wf d c Hc))). }
  assert (Estar : map (fun o => fst (fst o)) (occs_star t) = map (fun q => off q t) (leaves t)) by (rewrite star_spec; unfold leaves; rewrite !map_map; reflexivity).
  assert (Elast : zmax_list (map (fun o => fst (fst o)) (occs_star t)) = Ret (span t)).
  { rewrite Estar. unfold span. destruct (leaves_first t Hw) as (lv & ->). reflexivity. }
  assert (Etza : dget (dict_of (map (fun o => (snd o, fst (fst o))) (occs_star t))) (key (za t)) = Some (root_p t * (root_r t - 1))).
  { rewrite star_spec, map_map. cbn [fst snd]. rewrite <- (map_map fst (fun q => (key q, off q t))). fold (leaves t). rewrite dict_of_NoDup by (rewrite map_map; cbn [fst]; apply keys_NoDup).
    rewrite <- Oz. apply (dget_combine key (leaves t) (fun q => off q t)); [apply keys_NoDup | exact Iz]. }
  destruct Hp as (r & p & ch & Et & Hr & Hp1 & _). unfold code_length. rewrite Et in *. set (t' := Node 0 r p ch) in *. cbv zeta.
  cbn [root_p root_r] in *. change (root_r t') with (Z.of_nat r) in *. change (root_p t') with p in *. rewrite Eza. cbn [out_opt bind].
  rewrite Z.sub_0_r.
  destruct Wev as (x1 & -> & <-). cbn [bind]. destruct WR as (x2 & -> & <-). cbn [bind].
  unfold code_PTop, code_T0. destruct (Nat.eqb_spec r 1) as [Er1|_]; [lia|]. rewrite !Z.sub_0_r.
  destruct (weighs_log (delta_t d / (Z.of_nat r - 1))) as (x3 & -> & <-); [apply Z.div_str_pos; nia|]. cbn [bind].
  destruct (weighs_log (delta_t d - p * (Z.of_nat r - 1) + 1) ltac:(lia)) as (x4 & -> & <-). cbn [bind].
  destruct (has_nested t'); [|cbn [bind]; eexists; split; [reflexivity | rewrite !share_plus, !share_0; ring]]. cbn [bind]. rewrite Elast. cbn [bind]. rewrite Etza. cbn [out_opt bind].
  change (span t' - p * (Z.of_nat r - 1)) with (tail_span t'). destruct WPD as (x5 & -> & <-). cbn [bind].
  match goal with |- context [?x <? 0] => destruct (Z.ltb_spec x 0) as [N|N] end.
  - rewrite Z.max_l by lia. destruct (weighs_log (0 + 1) ltac:(lia)) as (x6 & -> & <-). cbn [bind]. eexists. split; [reflexivity | rewrite !share_plus, !share_0; ring].
  - rewrite Z.max_r by lia. match goal with |- context [np_log2z ?x] => destruct (weighs_log x ltac:(lia)) as (x6 & -> & <-) end. cbn [bind]. eexists. split; [reflexivity | rewrite !share_plus, !share_0; ring].
Qed.
Print Assumptions C84_bare.
Lemma share_inj x y : share x = share y -> x = y.
Proof.
  unfold share, Rpower. intros E. apply exp_inv in E. pose proof ln2_pos. assert (E' : (- x = - y)%R) by (apply Rmult_eq_reg_r with (ln 2); lra). lra.
Qed.
(* C84: as a pattern, a cycle inside the log has the length that computeLengthCycle gives *)
Theorem C84_simple : forall d a p occs, good_details d -> fits d a p occs -> Forall (fun o => d_start d <= o <= d_end d) occs ->
  code_length d (simple_tree a (length occs) p) (hd 0 occs) (Some (compute_E occs p)) = length_cycle d a p occs false.
Proof.
  intros d a p occs Hd Hf Ho. pose proof Hf as (Hl & (n & I & Hn) & Hp & _). set (t := simple_tree a (length occs) p). set (E := compute_E occs p).
  destruct (C40_simple_cycle a occs p ltac:(lia)) as (_ & HE & _ & Hc). fold t E in HE, Hc.
  assert (Pt : pattern_ok d t).
  { exists (length occs), p, [(Leaf 1 a, 0)]. split; [reflexivity|]. split; [lia|]. split; [lia|]. split; [eexists; eexists; reflexivity|].
    constructor; [|constructor]. split; [cbn; lia|]. constructor; [lia|]. apply in_map_iff. exists (a, n). auto. }
  assert (Hnb : nb_occs t = length occs) by apply simple_nb.
  assert (Hi : inside d t (hd 0 occs) E).
  { split; [rewrite Hnb; exact HE|]. eexists. split; [exact Hc|]. rewrite Forall_map. exact Ho. }
  destruct (tree_weighs d Hd t _ E Pt Hi) as (L & -> & HL). rewrite (cycle_value d Hd a p occs n I Hf). fold E. f_equal. apply share_inj. rewrite HL. clear HL.
  destruct (pattern_wf d t Pt) as [Hw _].
  assert (Ec : corr t E (za t) = zsum E).
  { destruct (za_leaf d t Pt) as [Iz Oz]. rewrite (cov_spec t _ E (F_of t E) Hw (F_of_map t E Hw (proj1 Hi))) in Hc. injection Hc as Hc.
    apply (f_equal (map fst)) in Hc. rewrite !map_map in Hc. cbn [fst] in Hc. rewrite map_id in Hc.
    assert (Hc2 : map (fun q => hd 0 occs + W (F_of t E) q t) (leaves t) = occs) by (unfold leaves; rewrite map_map; exact Hc). clear Hc. rename Hc2 into Hc.
    assert (Hlv : leaves t = map pt (List.seq 0 (length occs))) by (rewrite <- rrefs_leaves; unfold t; rewrite simple_rrefs, map_map; apply map_ext; reflexivity).
    rewrite Hlv, map_map in Hc. apply (f_equal (fun l => nth (length occs - 1) l 0)) in Hc.
    rewrite (nth_indep _ 0 ((fun i => hd 0 occs + W (F_of t E) (pt i) t) O)) in Hc by (rewrite map_length, seq_length; lia).
    rewrite (map_nth (fun i => hd 0 occs + W (F_of t E) (pt i) t)), seq_nth in Hc by lia. cbn [Nat.add] in Hc.
    assert (Ez : za t = pt (length occs - 1)) by reflexivity. rewrite <- Ez in Hc. unfold W in Hc. rewrite Oz in Hc. unfold corr. cbn [root_p root_r] in Hc.
    assert (El : nth (length occs - 1) occs 0 = last occs 0) by (clear; induction occs as [|x [|y l] IH]; [reflexivity | reflexivity|]; cbn [length Nat.sub nth last] in *; rewrite Nat.sub_0_r in *; exact IH).
    rewrite El in Hc. unfold E at 3. rewrite E_sum by lia. cbn [root_p root_r] in *. change (root_p t) with p in Hc. change (root_r t) with (Z.of_nat (length occs)) in Hc. lia. }
  destruct (fits_bounds d a p occs Hf) as [B1 B2]. cbv zeta in B1, B2. fold E in B1, B2.
  assert (E1 : room_p d t E = nb_periods d (length occs) E) by (unfold room_p, nb_periods; rewrite Ec; reflexivity).
  assert (E2 : room_t d t E (root_p t) = nb_starts d (length occs) E p) by (unfold room_t, nb_starts; rewrite Ec; reflexivity).
  rewrite E1, E2. change (has_nested t) with false. cbv iota.
  rewrite !share_plus. pose proof (total_pos d Hd) as Ht. pose proof (gd_pos _ Hd a n I) as Hn0. apply IZR_lt in Ht, Hn0.
  assert (0 < IZR (nb_periods d (length occs) E))%R by (apply IZR_lt; lia). assert (0 < IZR (nb_starts d (length occs) E p))%R by (apply IZR_lt; lia).
  rewrite !share_lg' by (try apply Rdiv_lt_0_compat; lra). unfold t. cbn [simple_tree wev wR map rprod fst min_count min_of fold_right]. unfold count. rewrite (count_get d Hd a n I). field. repeat split; lra.
Qed.
Print Assumptions C84_simple.

(* a block of one event, three repetitions of another and the first again, twice *)
Definition C84_t : tree nat := Node 0 2 50 [(Leaf 1 0%nat, 0); (Node 2 3 4 [(Leaf 3 1%nat, 0)], 2); (Leaf 4 0%nat, 5)].
Definition C84_d : details := {| d_counts := [(0%nat, 5); (1%nat, 7)]; d_start := 0; d_end := 80 |}.
Example C84_case : good_details C84_d /\ pattern_ok C84_d C84_t /\ inside C84_d C84_t 3 [1; 0; -1; 2; 0; 0; 1; 0; 1] /\ has_nested C84_t = true /\
  tail_span C84_t = 10 /\ room_T C84_d C84_t [1; 0; -1; 2; 0; 0; 1; 0; 1] 50 3 = 26.
Proof.
  split; [constructor; cbn; [repeat constructor; cbn; intuition discriminate | discriminate | intros a n [E|[E|[]]]; injection E as <- <-; lia | lia]|].
  split.
  - exists 2%nat, 50, (children C84_t). split; [reflexivity|]. split; [lia|]. split; [lia|]. split; [eexists; eexists; reflexivity|].
    cbn [children C84_t]. repeat first [apply Forall_nil | apply Forall_cons; [split; [cbn; lia | cbn [fst]]|] | apply inner_leaf; [lia | cbn; tauto]
      | apply inner_node; [lia | lia | lia | eexists; eexists; reflexivity|]].
  - split; [|split; [reflexivity | split; vm_compute; reflexivity]].
    split; [reflexivity|]. eexists. split; [vm_compute; reflexivity|]. repeat (constructor; [cbn; lia|]). constructor.
Qed.
