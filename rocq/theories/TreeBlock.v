(* Occurrences of a pattern from the occurrences of its blocks. *)
From Verif Require Import Prelude CheckModel LCMModel TextModel SplitModel PeriodModel TreeModel TreeProofs PropTree.
Local Open Scope Z_scope.

Section Blocks.
  Context {A : Type}.
  Implicit Types t : tree A.
  Lemma zsum_lin {B} (f g : B -> Z) k (l : list B) : zsum (map (fun x => f x + k * g x) l) = zsum (map f l) + k * zsum (map g l).
  Proof. induction l as [|x l IH]; simpl; [ring|]. rewrite IH. ring. Qed.
  Lemma zsum_mapi_lin {B} (f g : nat -> B -> Z) k (l : list B) : forall n,
    zsum (mapi (fun i x => f i x + k * g i x) n l) = zsum (mapi f n l) + k * zsum (mapi g n l).
  Proof. induction l as [|x l IH]; intros n; simpl; [ring|]. unfold mapi in *. simpl. rewrite IH. ring. Qed.
  Lemma Ssum_lin q : forall t (F G : npos -> Z) k, Ssum (fun s => F s + k * G s) q t = Ssum F q t + k * Ssum G q t.
  Proof.
    induction q as [|[c i] q IH]; intros t F G k; [destruct t; simpl; ring|]. destruct t as [|n r p ch]; [simpl; ring|]. cbn [Ssum].
    rewrite (zsum_mapi_lin (fun c' cd => F ((c', i) :: first (fst cd))) (fun c' cd => G ((c', i) :: first (fst cd)))).
    assert (Hs : zsum (map (fun i' => match ch with (c0, _) :: _ => F ((O, i') :: first c0) + k * G ((O, i') :: first c0) | [] => 0 end) (List.seq 0 i)) =
      zsum (map (fun i' => match ch with (c0, _) :: _ => F ((O, i') :: first c0) | [] => 0 end) (List.seq 0 i)) +
      k * zsum (map (fun i' => match ch with (c0, _) :: _ => G ((O, i') :: first c0) | [] => 0 end) (List.seq 0 i))).
    { rewrite <- zsum_lin. f_equal. apply map_ext. intros i'. destruct ch as [|[c0 d0] l]; ring. }
    rewrite Hs. destruct (nth_error ch c) as [[t' d']|]; [rewrite (IH t' (fun s => F ((c, i) :: s)) (fun s => G ((c, i) :: s)) k)|]; ring.
  Qed.
  Lemma zsum_zero {B} (f : B -> Z) l : (forall x, In x l -> f x = 0) -> zsum (map f l) = 0.
  Proof. induction l as [|x l IH]; intros Hf; simpl; [reflexivity|]. rewrite Hf by (left; reflexivity). rewrite IH; [reflexivity|]. intros y Hy; apply Hf; right; exact Hy. Qed.
  Lemma zsum_mapi_zero {B} (f : nat -> B -> Z) l : forall n, (forall k x, (n <= k)%nat -> f k x = 0) -> zsum (mapi f n l) = 0.
  Proof. induction l as [|x l IH]; intros n Hf; unfold mapi in *; simpl; [reflexivity|]. rewrite Hf by lia. rewrite IH; [reflexivity|]. intros; apply Hf; lia. Qed.
  Lemma Ssum_zero q : forall t (F : npos -> Z), (forall s, F s = 0) -> Ssum F q t = 0.
  Proof.
    induction q as [|[c i] q IH]; intros t F HF; [destruct t; reflexivity|]. destruct t as [|n r p ch]; [reflexivity|]. cbn [Ssum].
    rewrite zsum_mapi_zero by (intros; apply HF). rewrite zsum_zero; [|intros x _; destruct ch as [|[c0 d0] l]; [reflexivity | apply HF]].
    destruct (nth_error ch c) as [[t' d']|]; [rewrite IH by (intros; apply HF)|]; reflexivity.
  Qed.
  Definition ind (t : tree A) (q : npos) : Z := if eqd q (first t) then 1 else 0.
  Lemma ind_cons n r p c0 d0 (l : list (tree A * Z)) c i s : ind (Node n r p ((c0, d0) :: l)) ((c, i) :: s) =
    match c, i with O, O => ind c0 s | _, _ => 0 end.
  Proof.
    assert (Hd : forall (a b : npos), (if eqd a b then 1 else 0) = 1 /\ a = b \/ (if eqd a b then 1 else 0) = 0 /\ a <> b).
    { intros a b. destruct (eqd a b) eqn:E; [left | right]; (split; [reflexivity|]); [apply (proj1 (eqd_true _ _)), E | apply (proj1 (eqd_false _ _)), E]. }
    unfold ind. cbn [first].
    destruct (Hd ((c, i) :: s) ((0%nat, 0%nat) :: first c0)) as [[H1 H2]|[H1 H2]]; rewrite H1.
    - injection H2 as -> -> ->. destruct (Hd (first c0) (first c0)) as [[H3 _]|[_ H3]]; [symmetry; exact H3 | congruence].
    - destruct c as [|c], i as [|i]; try reflexivity. destruct (Hd s (first c0)) as [[_ H3]|[H3 _]]; [exfalso; apply H2; f_equal; exact H3 | symmetry; exact H3].
  Qed.
  Lemma ind_first t : ind t (first t) = 1.
  Proof. unfold ind. rewrite eqd_refl. reflexivity. Qed.
  Lemma zsum_cons x l : zsum (x :: l) = x + zsum l.
  Proof. reflexivity. Qed.
  Lemma mapi_cons {B C} (f : nat -> B -> C) n x l : mapi f n (x :: l) = f n x :: mapi f (S n) l.
  Proof. reflexivity. Qed.
  (* every leaf accumulates the correction of the very first leaf exactly once *)
  Lemma first_once t : wf t -> forall q, In q (leaves t) -> ind t q + Ssum (ind t) q t = 1.
  Proof.
    induction t as [n e|n r p ch IH] using tree_ind'; intros Hw q Hq.
    - destruct Hq as [<-|[]]. reflexivity.
    - inversion Hw as [|? ? ? ? Hr [c0 [l Ech]] Hch]; subst ch.
      apply In_leaves in Hq. destruct Hq as (n' & e' & Hp). inversion Hp as [|? ? ? ? c i t' d q' ? Hnth Hi Hp']; subst.
      assert (Hq' : In q' (leaves t')) by (apply In_leaves; eauto).
      assert (IHc : wf t' -> forall q, In q (leaves t') -> ind t' q + Ssum (ind t') q t' = 1).
      { rewrite Forall_forall in IH. apply (IH (t', d)). apply (nth_error_In _ _ Hnth). }
      assert (Hwt : wf t'). { rewrite Forall_forall in Hch. apply (Hch (t', d)). apply (nth_error_In _ _ Hnth). }
      cbn [Ssum]. rewrite Hnth, ind_cons.
      destruct i as [|i], c as [|c].
      + simpl in Hnth. injection Hnth as <- <-.
        rewrite (Ssum_ext q' c0 _ (ind c0)) by (intros s; apply ind_cons).
        specialize (IHc Hwt q' Hq'). cbn [firstn List.seq map mapi zsum fold_right]. lia.
      + rewrite (Ssum_zero q' t') by (intros s; apply ind_cons).
        cbn [firstn List.seq map]. rewrite mapi_cons, zsum_cons. cbn [fst]. rewrite ind_cons, ind_first.
        rewrite zsum_mapi_zero; [reflexivity|]. intros k x Hk. rewrite ind_cons. destruct k; [lia | reflexivity].
      + rewrite (Ssum_zero q' t') by (intros s; apply ind_cons).
        cbn [firstn mapi]. cbn [List.seq map]. rewrite zsum_cons, ind_cons, ind_first.
        rewrite zsum_zero; [reflexivity|]. intros x Hx. rewrite ind_cons. apply in_seq in Hx. destruct x; [lia | reflexivity].
      + rewrite (Ssum_zero q' t') by (intros s; apply ind_cons).
        rewrite zsum_mapi_zero by (intros k x _; rewrite ind_cons; destruct k; reflexivity).
        cbn [List.seq map]. rewrite zsum_cons, ind_cons, ind_first.
        rewrite zsum_zero; [reflexivity|]. intros x Hx. rewrite ind_cons. apply in_seq in Hx. destruct x; [lia | reflexivity].
  Qed.
  Lemma W_shift t F e : wf t -> forall q, In q (leaves t) -> W (fun s => F s + e * ind t s) q t = W F q t + e.
  Proof. intros Hw q Hq. unfold W. rewrite Ssum_lin. pose proof (first_once t Hw q Hq) as H1. nia. Qed.

  (* a function with given values on the leaves *)
  Definition look (L : list npos) (xs : list Z) (q : npos) : Z := match dget (combine L xs) q with Some v => v | None => 0 end.
  Lemma look_map L : NoDup L -> forall xs, length xs = length L -> map (look L xs) L = xs.
  Proof.
    intros Hn. induction Hn as [|q L Hq Hn IH]; intros [|x xs] Hl; try discriminate; [reflexivity|]. simpl. f_equal.
    - unfold look. simpl. destruct (eq_dec q q); congruence.
    - rewrite <- (IH xs) at 2 by (simpl in Hl; lia). apply map_ext_in. intros y Hy. unfold look. simpl.
      destruct (eq_dec y q) as [->|]; [contradiction | reflexivity].
  Qed.

  Section Node.
    Variable (n r : nat) (p : Z) (ch : list (tree A * Z)).
    Hypothesis Hw : wf (Node n r p ch).
    (* the block of repetition i and child ni starts at [t0 i ni] with corrections [Es i ni] *)
    Variable t0 : nat -> nat -> Z.
    Variable Es : nat -> nat -> list Z.
    Hypothesis Hlen : forall i ni cd, (i < r)%nat -> nth_error ch ni = Some cd -> length (Es i ni) = (nb_occs (fst cd) - 1)%nat.
    (* the correction of the first occurrence of the block *)
    Definition err (i ni : nat) (d : Z) : Z :=
      match ni, i with
      | O, O => 0
      | O, S i' => t0 i O - t0 i' O - p
      | S ni', _ => t0 i ni - t0 i ni' - d
      end.
    Definition blockF (q : npos) : Z :=
      match q with
      | [] => 0
      | (ni, i) :: s => match nth_error ch ni with
                        | Some (c, d) => look (leaves c) (0 :: Es i ni) s + err i ni d * ind c s
                        | None => 0
                        end
      end.
    Lemma nb_pos t : wf t -> (1 <= nb_occs t)%nat.
    Proof. intros Hwt. destruct (leaves_first t Hwt) as [L HL]. rewrite <- leaves_length, HL. simpl. lia. Qed.
    Lemma child_wf ni c d : nth_error ch ni = Some (c, d) -> wf c.
    Proof. intros E. inversion Hw as [|? ? ? ? _ _ Hch]; subst. rewrite Forall_forall in Hch. apply (Hch (c, d)), (nth_error_In _ _ E). Qed.
    Lemma look_child i ni c d : (i < r)%nat -> nth_error ch ni = Some (c, d) -> map (look (leaves c) (0 :: Es i ni)) (leaves c) = 0 :: Es i ni.
    Proof.
      intros Hi E. apply look_map; [apply leaves_NoDup|]. simpl. rewrite (Hlen i ni (c, d) Hi E), leaves_length. simpl.
      pose proof (nb_pos c (child_wf ni c d E)). lia.
    Qed.
    Lemma look_first i ni c d : (i < r)%nat -> nth_error ch ni = Some (c, d) -> look (leaves c) (0 :: Es i ni) (first c) = 0.
    Proof.
      intros Hi E. pose proof (look_child i ni c d Hi E) as H1. destruct (leaves_first c (child_wf ni c d E)) as [L HL].
      rewrite HL in H1 at 2. simpl in H1. injection H1 as H1 _. exact H1.
    Qed.
    Lemma blockF_first i ni c d : (i < r)%nat -> nth_error ch ni = Some (c, d) -> blockF ((ni, i) :: first c) = err i ni d.
    Proof. intros Hi E. simpl. rewrite E, (look_first i ni c d Hi E), ind_first. ring. Qed.
    Lemma err_reps i d0 : zsum (map (fun i' => err i' 0 d0) (List.seq 0 (S i))) = t0 i O - t0 O O - Z.of_nat i * p.
    Proof.
      induction i as [|i IH]; [simpl; ring|]. rewrite seq_S, map_app, zsum_app, IH. cbn [Nat.add map]. rewrite zsum_one. cbn [err]. rewrite Nat2Z.inj_succ. ring.
    Qed.
    Lemma firstn_S_len {B} (l : list B) k x : nth_error l k = Some x -> length (firstn k l) = k.
    Proof. intros E. rewrite firstn_length. assert (k < length l)%nat by (apply nth_error_Some; congruence). lia. Qed.
    Lemma err_kids i : (i < r)%nat -> forall ni cd, nth_error ch ni = Some cd ->
      zsum (mapi (fun c' x => blockF ((c', i) :: first (fst x))) 0 (firstn (S ni) ch)) = err i O 0 + (t0 i ni - t0 i O) - cum ch ni.
    Proof.
      intros Hi. induction ni as [|ni IH]; intros [c d] E.
      - rewrite (firstn_S_nth ch 0 (c, d) E). cbn [firstn app mapi fst]. rewrite zsum_one, (blockF_first i 0 c d Hi E).
        inversion Hw as [|? ? ? ? _ [c0 [l Ech]] _]; subst ch. simpl in E. injection E as <- <-. unfold cum. simpl. destruct i; simpl; ring.
      - destruct (nth_error ch ni) as [[c1 d1]|] eqn:E1.
        2: { apply nth_error_None in E1. assert (S ni < length ch)%nat by (apply nth_error_Some; congruence). lia. }
        rewrite (firstn_S_nth ch (S ni) (c, d) E), mapi_app, zsum_app, (IH _ eq_refl), (firstn_S_len ch (S ni) _ E).
        cbn [mapi fst Nat.add]. rewrite zsum_one, (blockF_first i (S ni) c d Hi E). rewrite (cum_S ch ni (c, d) E). cbn [err snd]. ring.
    Qed.
    Lemma cum_O : cum ch 0 = 0.
    Proof. inversion Hw as [|? ? ? ? _ [c0 [l ->]] _]; subst. reflexivity. Qed.
    Lemma W_block i ni c d q : (i < r)%nat -> nth_error ch ni = Some (c, d) -> In q (leaves c) ->
      t0 O O + W blockF ((ni, i) :: q) (Node n r p ch) = t0 i ni + W (look (leaves c) (0 :: Es i ni)) q c.
    Proof.
      intros Hi E Hq. pose proof (W_shift c (look (leaves c) (0 :: Es i ni)) (err i ni d) (child_wf ni c d E) q Hq) as Hsh.
      unfold W at 1. cbn [off Ssum]. rewrite E.
      rewrite (Ssum_ext q c (fun s => blockF ((ni, i) :: s)) (fun s => look (leaves c) (0 :: Es i ni) s + err i ni d * ind c s)) by (intros s; simpl; rewrite E; reflexivity).
      assert (HF : blockF ((ni, i) :: q) = look (leaves c) (0 :: Es i ni) q + err i ni d * ind c q) by (simpl; rewrite E; reflexivity).
      rewrite HF. unfold W in Hsh.
      assert (Hreps : zsum (map (fun i' => match ch with (c0, _) :: _ => blockF ((0%nat, i') :: first c0) | [] => 0 end) (List.seq 0 i)) =
                      match i with O => 0 | S i' => t0 i' O - t0 O O - Z.of_nat i' * p end).
      { inversion Hw as [|? ? ? ? _ [c0 [l Ech]] _]; subst. rewrite Ech.
        rewrite (map_ext_in _ (fun i' => err i' 0 0)).
        2: { intros i' Hi'. apply in_seq in Hi'. apply blockF_first; [lia | rewrite Ech; reflexivity]. }
        destruct i as [|i']; [reflexivity | apply err_reps]. }
      rewrite Hreps.
      assert (Hkids : zsum (mapi (fun c' cd => blockF ((c', i) :: first (fst cd))) 0 (firstn ni ch)) =
                      match ni with O => 0 | S ni' => err i O 0 + (t0 i ni' - t0 i O) - cum ch ni' end).
      { destruct ni as [|ni']; [reflexivity|]. destruct (nth_error ch ni') as [cd|] eqn:E1.
        - apply (err_kids i Hi ni' cd E1).
        - apply nth_error_None in E1. assert (S ni' < length ch)%nat by (apply nth_error_Some; congruence). lia. }
      rewrite Hkids. unfold W.
      assert (Herr : err i ni d + (match ni with O => 0 | S ni' => err i O 0 + (t0 i ni' - t0 i O) - cum ch ni' end +
               match i with O => 0 | S i' => t0 i' O - t0 O O - Z.of_nat i' * p end) + Z.of_nat i * p + cum ch ni = t0 i ni - t0 O O).
      { destruct ni as [|ni'].
        - rewrite cum_O. destruct i as [|i']; cbn [err]; rewrite ?Nat2Z.inj_succ; lia.
        - rewrite (cum_S ch ni' (c, d) E). destruct i as [|i']; cbn [err snd]; rewrite ?Nat2Z.inj_succ; lia. }
      lia.
    Qed.

    Definition all_E : list Z := concat (map (fun i => concat (mapi (fun ni cd => err i ni (snd cd) :: Es i ni) 0 ch)) (List.seq 0 r)).
    (* the occurrences of the whole are those of its blocks, in order *)
    Theorem cov_node (covs : nat -> nat -> list (Z * A)) :
      (forall i ni cd, (i < r)%nat -> nth_error ch ni = Some cd -> get_cov_seq (fst cd) (t0 i ni) (Es i ni) = Some (covs i ni)) ->
      get_cov_seq (Node n r p ch) (t0 O O) (tl all_E) = Some (concat (map (fun i => concat (mapi (fun ni _ => covs i ni) 0 ch)) (List.seq 0 r))).
    Proof.
      intros Hcov. 
      assert (HF : map blockF (leaves (Node n r p ch)) = all_E).
      { rewrite leaves_node, concat_map, map_map. unfold all_E. f_equal. apply map_ext_in. intros i Hi. apply in_seq in Hi.
        rewrite concat_map, map_mapi. f_equal. apply mapi_ext. intros ni [c d] E. simpl (0 + ni)%nat. cbn [fst snd]. rewrite map_map.
        destruct (leaves_first c (child_wf ni c d E)) as [L HL].
        assert (Hnd : NoDup (leaves c)) by apply leaves_NoDup.
        assert (Hi' : (i < r)%nat) by lia. pose proof (look_child i ni c d Hi' E) as Hlk.
        rewrite HL in Hlk at 2. rewrite HL. cbn [map] in *. injection Hlk as Hl1 Hl2. f_equal; [apply (blockF_first i ni c d Hi' E)|].
        rewrite <- Hl2. apply map_ext_in. intros s Hs. simpl. rewrite E.
        assert (Hz : ind c s = 0). { unfold ind. destruct (eqd s (first c)) eqn:Es'; [|reflexivity]. apply (proj1 (eqd_true _ _)) in Es'. subst s.
          rewrite HL in Hnd. inversion Hnd; contradiction. }
        rewrite Hz. ring. }
      assert (Hhd : exists L, all_E = 0 :: L).
      { rewrite <- HF. destruct (leaves_first _ Hw) as [L HL]. rewrite HL. cbn [map]. eexists. f_equal.
        inversion Hw as [|? ? ? ? Hr [c0 [l Ech]] _]; subst. rewrite Ech. cbn [first].
        rewrite (blockF_first 0 0 c0 0); [reflexivity | lia | rewrite Ech; reflexivity]. }
      destruct Hhd as [L HL]. rewrite (cov_spec _ (t0 O O) (tl all_E) blockF Hw) by (rewrite HF, HL; reflexivity).
      f_equal. cbn [leafs]. rewrite concat_map, map_map. f_equal. apply map_ext_in. intros i Hi. apply in_seq in Hi.
      rewrite concat_map, map_mapi. f_equal. apply mapi_ext. intros ni [c d] E. simpl (0 + ni)%nat. cbn [fst snd]. rewrite map_map. cbn [fst snd].
      assert (Hi' : (i < r)%nat) by lia. specialize (Hcov i ni (c, d) Hi' E). cbn [fst] in Hcov.
      rewrite (cov_spec c (t0 i ni) (Es i ni) (look (leaves c) (0 :: Es i ni)) (child_wf ni c d E) (look_child i ni c d Hi' E)) in Hcov.
      injection Hcov as <-. apply map_ext_in. intros [q x] Hqx. cbn [fst snd]. f_equal.
      apply (W_block i ni c d q Hi' E). unfold leaves. apply (in_map fst) in Hqx. exact Hqx.
    Qed.
  End Node.
End Blocks.
