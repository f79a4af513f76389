(* Proofs about pattern trees: positions of leaf occurrences, perfect times, references and
   accumulated corrections. *)
From Verif Require Import Prelude CheckModel LCMModel TextModel SplitModel PeriodModel TreeModel PropPeriod.
From Coq Require Import NArith.
Local Open Scope Z_scope.

Definition mapi {B C} (f : nat -> B -> C) : nat -> list B -> list C :=
  fix go n l := match l with [] => [] | x :: l' => f n x :: go (S n) l' end.
Lemma mapi_app {B C} (f : nat -> B -> C) l1 : forall n l2, mapi f n (l1 ++ l2) = mapi f n l1 ++ mapi f (n + length l1) l2.
Proof. induction l1 as [|x l1 IH]; intros n l2; simpl; [rewrite Nat.add_0_r; reflexivity|]; rewrite IH, Nat.add_succ_r; reflexivity. Qed.
Lemma mapi_ext {B C} (f g : nat -> B -> C) l : forall n,
  (forall k x, nth_error l k = Some x -> f (n + k)%nat x = g (n + k)%nat x) -> mapi f n l = mapi g n l.
Proof.
  induction l as [|x l IH]; intros n Hfg; simpl; [reflexivity|]; f_equal.
  - specialize (Hfg O x eq_refl); rewrite Nat.add_0_r in Hfg; exact Hfg.
  - apply IH; intros k y Hk; specialize (Hfg (S k) y Hk); rewrite Nat.add_succ_r in Hfg; exact Hfg.
Qed.
Lemma map_mapi {B C D} (g : C -> D) (f : nat -> B -> C) l : forall n, map g (mapi f n l) = mapi (fun k x => g (f k x)) n l.
Proof. induction l as [|x l IH]; intros n; simpl; [reflexivity|]; rewrite IH; reflexivity. Qed.
Lemma In_mapi {B C} (f : nat -> B -> C) y l : forall n, In y (mapi f n l) <-> exists k x, nth_error l k = Some x /\ y = f (n + k)%nat x.
Proof.
  induction l as [|x l IH]; intros n; simpl; [split; [intros [] | intros [k [x [E _]]]; destruct k; discriminate]|].
  rewrite IH; split.
  - intros [<-|[k [x' [E ->]]]]; [exists O, x; rewrite Nat.add_0_r; auto | exists (S k), x'; rewrite Nat.add_succ_r; auto].
  - intros [[|k] [x' [E ->]]]; simpl in E; [left; injection E as ->; rewrite Nat.add_0_r; reflexivity | right; exists k, x'; rewrite Nat.add_succ_r; auto].
Qed.
Lemma length_mapi {B C} (f : nat -> B -> C) l : forall n, length (mapi f n l) = length l.
Proof. induction l as [|x l IH]; intros n; simpl; [reflexivity | rewrite IH; reflexivity]. Qed.
Definition zsum (l : list Z) : Z := fold_right Z.add 0 l.
Lemma zsum_app a b : zsum (a ++ b) = zsum a + zsum b.
Proof. unfold zsum; induction a as [|x a IH]; simpl; [reflexivity | rewrite IH; ring]. Qed.
Lemma zsum_one x : zsum [x] = x.
Proof. unfold zsum; simpl; ring. Qed.
Lemma firstn_S_nth {B} (l : list B) : forall c x, nth_error l c = Some x -> firstn (S c) l = firstn c l ++ [x].
Proof.
  induction l as [|y l IH]; intros [|c] x E; try discriminate; simpl in *; [injection E as ->; reflexivity|].
  f_equal; apply IH, E.
Qed.

(* ------------------------------------------------------------------- positions *)
Definition npos := list (nat * nat).
Definition zpos (q : npos) : list (Z * Z) := map (fun ci => (Z.of_nat (fst ci), Z.of_nat (snd ci))) q.
Definition key (q : npos) : text := l_to_key (zpos q).
Lemma zpos_inj q q' : zpos q = zpos q' -> q = q'.
Proof.
  revert q'; induction q as [|[a b] q IH]; intros [|[a' b'] q'] E; try discriminate; [reflexivity|].
  simpl in E; injection E as E1 E2 E; apply Nat2Z.inj in E1, E2; subst; f_equal; apply IH, E.
Qed.
Lemma key_inj q q' : key q = key q' -> q = q'.
Proof. intros E; apply zpos_inj, C36_injective, E. Qed.
Lemma zpos_app a b : zpos (a ++ b) = zpos a ++ zpos b.
Proof. apply map_app. Qed.
Lemma zpos_rev a : zpos (rev a) = rev (zpos a).
Proof. apply map_rev. Qed.

Section TreeProofs.
  Context {A : Type}.
  Section Ind.
    Context (P : tree A -> Prop) (HL : forall n e, P (Leaf n e))
      (HN : forall n r p ch, Forall (fun cd => P (fst cd)) ch -> P (Node n r p ch)).
    Fixpoint tree_ind' (t : tree A) : P t :=
      match t with
      | Leaf n e => HL n e
      | Node n r p ch => HN n r p ch ((fix go l : Forall (fun cd => P (fst cd)) l :=
          match l with [] => Forall_nil _ | cd :: l' => Forall_cons _ (tree_ind' (fst cd)) (go l') end) ch)
      end.
  End Ind.

  (* a pattern that can be expanded: repetitions >= 1, non-empty blocks, and a block starts
     with its first child *)
  Inductive wf : tree A -> Prop :=
  | wf_leaf n e : wf (Leaf n e)
  | wf_node n r p ch : (1 <= r)%nat -> (exists c l, ch = (c, 0) :: l) -> Forall (fun cd => wf (fst cd)) ch -> wf (Node n r p ch).

  Fixpoint leafs (t : tree A) : list (npos * (nat * A)) :=
    match t with
    | Leaf n e => [([], (n, e))]
    | Node _ r _ ch => concat (map (fun i => concat (mapi (fun ni cd =>
        map (fun qx => ((ni, i) :: fst qx, snd qx)) (leafs (fst cd))) 0 ch)) (List.seq 0 r))
    end.
  Definition leaves (t : tree A) : list npos := map fst (leafs t).
  Fixpoint first (t : tree A) : npos :=
    match t with Node _ _ _ ((c, _) :: _) => (0, 0)%nat :: first c | _ => [] end.
  Definition cum (ch : list (tree A * Z)) (c : nat) : Z := zsum (map snd (firstn (S c) ch)).
  Fixpoint off (q : npos) (t : tree A) {struct q} : Z :=
    match q, t with
    | (c, i) :: q', Node _ _ p ch =>
        Z.of_nat i * p + cum ch c + match nth_error ch c with Some (t', _) => off q' t' | None => 0 end
    | _, _ => 0
    end.

  Lemma leaves_node n r p ch : leaves (Node n r p ch) =
    concat (map (fun i => concat (mapi (fun ni cd => map (cons (ni, i)) (leaves (fst cd))) 0 ch)) (List.seq 0 r)).
  Proof.
    unfold leaves; cbn [leafs]; rewrite concat_map, map_map; f_equal; apply map_ext; intros i.
    rewrite concat_map, map_mapi; f_equal; apply mapi_ext; intros k x _; rewrite !map_map; reflexivity.
  Qed.
  Inductive path : tree A -> npos -> tree A -> Prop :=
  | path_nil t : path t [] t
  | path_cons n r p ch c i t' d q t'' : nth_error ch c = Some (t', d) -> (i < r)%nat -> path t' q t'' ->
      path (Node n r p ch) ((c, i) :: q) t''.
  Lemma path_app t q t' q' t'' : path t q t' -> path t' q' t'' -> path t (q ++ q') t''.
  Proof. induction 1; intros Hp; simpl; [exact Hp | econstructor; eauto]. Qed.
  Lemma In_leafs_node n r p ch q x : In (q, x) (leafs (Node n r p ch)) <->
    exists c i t' d q', q = (c, i) :: q' /\ nth_error ch c = Some (t', d) /\ (i < r)%nat /\ In (q', x) (leafs t').
  Proof.
    cbn [leafs]; rewrite in_concat; split.
    - intros [l [Hl Hq]]; apply in_map_iff in Hl; destruct Hl as [i [<- Hi]]; apply in_seq in Hi.
      apply in_concat in Hq; destruct Hq as [l' [Hl' Hq]]; apply In_mapi in Hl'; destruct Hl' as [c [[t' d] [E ->]]]; simpl in Hq.
      apply in_map_iff in Hq; destruct Hq as [[q' x'] [Eq Hin]]; simpl in Eq; injection Eq as <- <-.
      exists c, i, t', d, q'; repeat split; auto; lia.
    - intros [c [i [t' [d [q' [-> [E [Hi Hin]]]]]]]].
      eexists; split; [apply in_map_iff; exists i; split; [reflexivity | apply in_seq; lia]|].
      apply in_concat; eexists; split; [apply In_mapi; exists c, (t', d); split; [exact E | reflexivity]|].
      apply in_map_iff; exists (q', x); split; [reflexivity | exact Hin].
  Qed.
  Lemma path_leafs t q t' : path t q t' -> forall q' x, In (q', x) (leafs t') -> In (q ++ q', x) (leafs t).
  Proof.
    induction 1 as [t|n r p ch c i t' d q t'' E Hi Hp IH]; intros q' x Hin; cbn [app]; [exact Hin|].
    apply In_leafs_node; exists c, i, t', d, (q ++ q'); auto.
  Qed.
  Lemma leafs_path t : forall q x, In (q, x) (leafs t) -> path t q (Leaf (fst x) (snd x)).
  Proof.
    induction t as [n e|n r p ch IH] using tree_ind'; intros q x Hin.
    - destruct Hin as [E|[]]; injection E as <- <-; constructor.
    - apply In_leafs_node in Hin; destruct Hin as [c [i [t' [d [q' [-> [E [Hi Hin]]]]]]]].
      rewrite Forall_forall in IH; econstructor; eauto; apply (IH (t', d)); [eapply nth_error_In, E | exact Hin].
  Qed.
  Lemma In_leaves t q : In q (leaves t) <-> exists n e, path t q (Leaf n e).
  Proof.
    unfold leaves; rewrite in_map_iff; split.
    - intros [[q' x] [<- Hin]]; apply leafs_path in Hin; exists (fst x), (snd x); exact Hin.
    - intros [n [e Hp]]; exists (q, (n, e)); split; [reflexivity|].
      rewrite <- (app_nil_r q); eapply path_leafs; [exact Hp | left; reflexivity].
  Qed.
  Lemma first_path t : wf t -> exists n e, path t (first t) (Leaf n e).
  Proof.
    induction t as [n e|n r p ch IH] using tree_ind'; intros Hw; [exists n, e; constructor|].
    inversion Hw as [|? ? ? ? Hr [c [l ->]] Hch]; subst; inversion IH as [|? ? Hc _]; inversion Hch as [|? ? Hwc _]; subst.
    destruct (Hc Hwc) as [n' [e' Hp]]; exists n', e'; cbn [first]; econstructor; [reflexivity | lia | exact Hp].
  Qed.
  Lemma path_wf t q t' : path t q t' -> wf t -> wf t'.
  Proof.
    induction 1 as [t|n r p ch c i t' d q t'' E Hi Hp IH]; intros Hw; [exact Hw|]; apply IH.
    inversion Hw as [|? ? ? ? _ _ Hch]; subst; rewrite Forall_forall in Hch; apply nth_error_In in E; apply (Hch _ E).
  Qed.
  Lemma leaves_first t : wf t -> exists l, leaves t = first t :: l.
  Proof.
    induction t as [n e|n r p ch IH] using tree_ind'; intros Hw; [exists []; reflexivity|].
    inversion Hw as [|? ? ? ? Hr [c [l ->]] Hch]; subst; inversion IH as [|? ? Hc _]; inversion Hch as [|? ? Hwc _]; subst.
    destruct (Hc Hwc) as [l' El]; rewrite leaves_node; destruct r as [|r]; [lia|]; cbn [List.seq map concat mapi fst first].
    cbn [fst] in El; rewrite El; simpl; eexists; reflexivity.
  Qed.
  Lemma NoDup_concat_heads {B C} (h : C -> B) (ls : list (list C)) :
    Forall (@NoDup C) ls -> (forall i j x y, nth_error ls i = Some x -> nth_error ls j = Some y -> i <> j -> forall a b, In a x -> In b y -> a <> b) ->
    NoDup (concat ls).
  Proof.
    intros Hf; induction Hf as [|x ls Hx Hf IH]; intros Hd; simpl; [constructor|].
    apply NoDup_app_intro; [exact Hx | |].
    - apply IH; intros i j a b Ha Hb Hij; apply (Hd (S i) (S j)); auto.
    - intros a Ha Hin; apply in_concat in Hin; destruct Hin as [y [Hy Hay]]; apply In_nth_error in Hy; destruct Hy as [k Hk].
      apply (Hd O (S k) x y eq_refl Hk ltac:(lia) a a Ha Hay); reflexivity.
  Qed.
  Lemma nth_error_mapi {B C} (f : nat -> B -> C) l : forall n k, nth_error (mapi f n l) k = option_map (f (n + k)%nat) (nth_error l k).
  Proof.
    induction l as [|x l IH]; intros n [|k]; simpl; try reflexivity; [rewrite Nat.add_0_r; reflexivity|].
    rewrite IH, Nat.add_succ_r; reflexivity.
  Qed.
  Lemma nth_error_seq0 n k : nth_error (List.seq 0 n) k = if (k <? n)%nat then Some k else None.
  Proof.
    destruct (Nat.ltb_spec k n) as [Hk|Hk].
    - rewrite (nth_error_nth' _ 0%nat) by (rewrite seq_length; exact Hk); rewrite seq_nth by exact Hk; reflexivity.
    - apply nth_error_None; rewrite seq_length; exact Hk.
  Qed.
  Lemma NoDup_map_inj' {B C} (f : B -> C) l : (forall x y, f x = f y -> x = y) -> NoDup l -> NoDup (map f l).
  Proof. intros Hf; apply FinFun.Injective_map_NoDup; exact Hf. Qed.
  Lemma leaves_NoDup t : NoDup (leaves t).
  Proof.
    induction t as [n e|n r p ch IH] using tree_ind'; [repeat constructor; intros []|].
    rewrite leaves_node; apply (NoDup_concat_heads (fun _ => tt)).
    - apply Forall_forall; intros l Hl; apply in_map_iff in Hl; destruct Hl as [i [<- _]].
      apply (NoDup_concat_heads (fun _ => tt)).
      + apply Forall_forall; intros l Hl; apply In_mapi in Hl; destruct Hl as [k [cd [E ->]]].
        apply NoDup_map_inj'; [intros x y E'; injection E' as ->; reflexivity|].
        rewrite Forall_forall in IH; apply IH; eapply nth_error_In, E.
      + intros a b x y Hx Hy Hab u v Hu Hv; rewrite nth_error_mapi in Hx, Hy.
        destruct (nth_error ch a) eqn:Ea; [|discriminate]; destruct (nth_error ch b) eqn:Eb; [|discriminate].
        simpl in Hx, Hy; injection Hx as <-; injection Hy as <-; apply in_map_iff in Hu, Hv.
        destruct Hu as [u' [<- _]], Hv as [v' [<- _]]; intros E; injection E as E; lia.
    - intros a b x y Hx Hy Hab u v Hu Hv; rewrite nth_error_map, nth_error_seq0 in Hx, Hy.
      destruct (Nat.ltb a r); [|discriminate]; destruct (Nat.ltb b r); [|discriminate]; simpl in Hx, Hy; injection Hx as <-; injection Hy as <-.
      apply in_concat in Hu, Hv; destruct Hu as [lu [Hlu Hu]], Hv as [lv [Hlv Hv]].
      apply In_mapi in Hlu, Hlv; destruct Hlu as [? [? [_ ->]]], Hlv as [? [? [_ ->]]].
      apply in_map_iff in Hu, Hv; destruct Hu as [u' [<- _]], Hv as [v' [<- _]]; intros E; injection E as _ E; lia.
  Qed.

  (* ------------------------------------------------------------- perfect times *)
  Lemma kids_spec {B} (pay : nat -> A -> B) n r p ch pref time i (ch' : list (tree A * Z)) :
    Forall (fun cd => forall pref time, expand pay (fst cd) pref time =
      map (fun qx => (time + off (fst qx) (fst cd), pay (fst (snd qx)) (snd (snd qx)), l_to_key (rev pref ++ zpos (fst qx)))) (leafs (fst cd))) ch' ->
    forall l1, ch = l1 ++ ch' ->
    (fix kids (ni : nat) (tt : Z) (l : list (tree A * Z)) : list (Z * B * text) :=
       match l with
       | [] => []
       | (c, d) :: l' => expand pay c ((Z.of_nat ni, Z.of_nat i) :: pref) (tt + d) ++ kids (S ni) (tt + d) l'
       end) (length l1) (time + Z.of_nat i * p + zsum (map snd l1)) ch' =
    concat (mapi (fun ni cd => map (fun qx => (time + off ((ni, i) :: fst qx) (Node n r p ch), pay (fst (snd qx)) (snd (snd qx)),
      l_to_key (rev pref ++ zpos ((ni, i) :: fst qx)))) (leafs (fst cd))) (length l1) ch').
  Proof.
    induction 1 as [|[c d] ch' Hc Hf IH]; intros l1 E; [reflexivity|].
    cbn [mapi concat fst]; f_equal.
    - cbn [fst] in Hc; rewrite Hc; apply map_ext_in; intros [q x] _; cbn [fst snd off rev].
      assert (En : nth_error ch (length l1) = Some (c, d)) by (rewrite E, nth_error_app2, Nat.sub_diag by lia; reflexivity).
      rewrite En; f_equal; [f_equal|].
      + unfold cum; rewrite (firstn_S_nth ch _ _ En), E, firstn_app, firstn_all, Nat.sub_diag, firstn_O, app_nil_r, map_app, zsum_app.
        cbn [map snd]; unfold zsum; cbn [fold_right]; ring.
      + rewrite <- app_assoc; reflexivity.
    - specialize (IH (l1 ++ [(c, d)])); rewrite app_length, Nat.add_1_r, map_app, zsum_app in IH; cbn [length map snd] in IH.
      etransitivity; [|apply IH; rewrite <- app_assoc; exact E]; f_equal; unfold zsum; cbn [fold_right]; ring.
  Qed.
  Lemma expand_spec {B} (pay : nat -> A -> B) t : forall pref time, expand pay t pref time =
    map (fun qx => (time + off (fst qx) t, pay (fst (snd qx)) (snd (snd qx)), l_to_key (rev pref ++ zpos (fst qx)))) (leafs t).
  Proof.
    induction t as [n e|n r p ch IH] using tree_ind'; intros pref time.
    - cbn; rewrite app_nil_r, Z.add_0_r; reflexivity.
    - cbn [expand leafs]; rewrite concat_map, map_map; f_equal; apply map_ext; intros i.
      assert (Hk := kids_spec pay n r p ch pref time i ch IH [] eq_refl); cbn [length map] in Hk.
      change (zsum []) with 0 in Hk; rewrite Z.add_0_r in Hk; etransitivity; [exact Hk|].
      rewrite concat_map, map_mapi; f_equal; apply mapi_ext; intros k cd _; rewrite map_map; reflexivity.
  Qed.

  (* ---------------------------------------------------------------- references *)
  Definition link (ch : list (tree A * Z)) (p : Z) (i ni : nat) : option (npos * Z) :=
    match ni with
    | S n' => match nth_error ch n', nth_error ch ni with
              | Some (c', _), Some (_, d) => Some ((n', i) :: first c', d)
              | _, _ => None
              end
    | O => match i, ch with S i', (c0, _) :: _ => Some ((O, i') :: first c0, p) | _, _ => None end
    end.
  Fixpoint rrefs (t : tree A) : list (npos * option (npos * Z)) :=
    match t with
    | Leaf _ _ => [([], None)]
    | Node _ r p ch => concat (map (fun i => concat (mapi (fun ni cd =>
        map (fun qo => ((ni, i) :: fst qo, match snd qo with Some (s, d) => Some ((ni, i) :: s, d) | None => link ch p i ni end))
          (rrefs (fst cd))) 0 ch)) (List.seq 0 r))
    end.
  Lemma rrefs_leaves t : map fst (rrefs t) = leaves t.
  Proof.
    induction t as [n e|n r p ch IH] using tree_ind'; [reflexivity|].
    rewrite leaves_node; cbn [rrefs]; rewrite concat_map, map_map; f_equal; apply map_ext; intros i.
    rewrite concat_map, map_mapi; f_equal; apply mapi_ext; intros k cd E; rewrite map_map; cbn [fst].
    rewrite Forall_forall in IH; rewrite <- (IH cd (nth_error_In _ _ E)), map_map; reflexivity.
  Qed.
  Lemma In_rrefs_node n r p ch q o : In (q, o) (rrefs (Node n r p ch)) <->
    exists c i t' d q' o', nth_error ch c = Some (t', d) /\ (i < r)%nat /\ In (q', o') (rrefs t') /\ q = (c, i) :: q' /\
      o = match o' with Some (s, d') => Some ((c, i) :: s, d') | None => link ch p i c end.
  Proof.
    cbn [rrefs]; rewrite in_concat; split.
    - intros [l [Hl Hq]]; apply in_map_iff in Hl; destruct Hl as [i [<- Hi]]; apply in_seq in Hi.
      apply in_concat in Hq; destruct Hq as [l' [Hl' Hq]]; apply In_mapi in Hl'; destruct Hl' as [c [[t' d] [E ->]]]; simpl in Hq.
      apply in_map_iff in Hq; destruct Hq as [[q' o'] [Eq Hin]]; simpl in Eq; injection Eq as <- <-.
      exists c, i, t', d, q', o'; repeat split; auto; lia.
    - intros [c [i [t' [d [q' [o' [E [Hi [Hin [-> ->]]]]]]]]]].
      eexists; split; [apply in_map_iff; exists i; split; [reflexivity | apply in_seq; lia]|].
      apply in_concat; eexists; split; [apply In_mapi; exists c, (t', d); split; [exact E | reflexivity]|].
      apply in_map_iff; exists (q', o'); split; [reflexivity | exact Hin].
  Qed.
  Definition entry (pref : position) (cnref : ref) (offset : Z) (qo : npos * option (npos * Z)) : text * (ref * Z) :=
    (l_to_key (rev pref ++ zpos (fst qo)),
     match snd qo with Some (s, d) => (KeyRef (l_to_key (rev pref ++ zpos s)), d) | None => (cnref, offset) end).
  Definition child_ok (c : tree A) : Prop := forall pref cnref offset,
    occs_refs c pref cnref offset = (KeyRef (l_to_key (rev pref ++ zpos (first c))), map (entry pref cnref offset) (rrefs c)).
  Definition block (ch : list (tree A * Z)) p pref cnref offset i ni (cd : tree A * Z) : list (text * (ref * Z)) :=
    map (entry pref cnref offset) (map (fun qo => ((ni, i) :: fst qo,
      match snd qo with Some (s, d) => Some ((ni, i) :: s, d) | None => link ch p i ni end)) (rrefs (fst cd))).
  Lemma block_entry ch p pref cnref offset i ni c d0 cn of :
    match link ch p i ni with Some (s, d) => (KeyRef (l_to_key (rev pref ++ zpos s)), d) | None => (cnref, offset) end = (cn, of) ->
    map (entry ((Z.of_nat ni, Z.of_nat i) :: pref) cn of) (rrefs c) = block ch p pref cnref offset i ni (c, d0).
  Proof.
    intros El; unfold block; rewrite map_map; apply map_ext; intros [q o]; unfold entry; cbn [fst snd rev].
    rewrite <- app_assoc; cbn [app]; f_equal; destruct o as [[s d]|]; [rewrite <- app_assoc; reflexivity | symmetry; exact El].
  Qed.
  Definition kids_refs (pref : position) (cnref : ref) (offset p : Z) (i : nat) :=
    fix kids (ni : nat) (st : rstate) (l : list (tree A * Z)) : rstate :=
      match l with
      | [] => st
      | (c, d) :: l' =>
          let pref' := (Z.of_nat ni, Z.of_nat i) :: pref in
          let st' :=
            match ni, i with
            | O, O => let '(nr, w) := occs_refs c pref' cnref offset in
                      {| rs_cycle := nr; rs_rep := nr; rs_next := nr; rs_out := rs_out st ++ w |}
            | O, S _ => let '(nr, w) := occs_refs c pref' (rs_rep st) p in
                      {| rs_cycle := rs_cycle st; rs_rep := nr; rs_next := nr; rs_out := rs_out st ++ w |}
            | S _, _ => let '(nr, w) := occs_refs c pref' (rs_next st) d in
                      {| rs_cycle := rs_cycle st; rs_rep := rs_rep st; rs_next := nr; rs_out := rs_out st ++ w |}
            end in
          kids (S ni) st' l'
      end.
  Lemma kids_refs_tail pref cnref offset p i ch l : Forall (fun cd => child_ok (fst cd)) l ->
    forall l1 c1 d1 st, ch = l1 ++ (c1, d1) :: l ->
    rs_next st = KeyRef (l_to_key (rev pref ++ zpos ((length l1, i) :: first c1))) ->
    exists nx, kids_refs pref cnref offset p i (S (length l1)) st l =
      {| rs_cycle := rs_cycle st; rs_rep := rs_rep st; rs_next := nx;
         rs_out := rs_out st ++ concat (mapi (block ch p pref cnref offset i) (S (length l1)) l) |}.
  Proof.
    induction 1 as [|[c d] l Hc Hf IH]; intros l1 c1 d1 st E Hn; cbn [kids_refs mapi concat].
    - exists (rs_next st); rewrite app_nil_r; destruct st; reflexivity.
    - unfold child_ok in Hc; cbn [fst] in Hc; rewrite Hc, Hn.
      assert (E1 : nth_error ch (length l1) = Some (c1, d1)) by (rewrite E, nth_error_app2, Nat.sub_diag by lia; reflexivity).
      assert (E2 : nth_error ch (S (length l1)) = Some (c, d)).
      { rewrite E, nth_error_app2 by lia; replace (S (length l1) - length l1)%nat with 1%nat by lia; reflexivity. }
      rewrite (block_entry ch p pref cnref offset i (S (length l1)) c d) by (cbn [link]; rewrite E1, E2; reflexivity).
      specialize (IH (l1 ++ [(c1, d1)]) c d).
      rewrite app_length, Nat.add_1_r in IH.
      edestruct IH as [nx Hnx]; [rewrite <- app_assoc; exact E | |exists nx; rewrite app_assoc in *; etransitivity; [exact Hnx | reflexivity]].
      cbn [rs_next rev]; rewrite <- app_assoc; reflexivity.
  Qed.
  Lemma kids_refs_rep pref cnref offset p i c0 d0 l st : Forall (fun cd => child_ok (fst cd)) ((c0, d0) :: l) ->
    (i = O \/ exists i', i = S i' /\ rs_rep st = KeyRef (l_to_key (rev pref ++ zpos ((O, i') :: first c0)))) ->
    exists nx, kids_refs pref cnref offset p i O st ((c0, d0) :: l) =
      {| rs_cycle := if Nat.eqb i 0 then KeyRef (l_to_key (rev pref ++ zpos ((O, O) :: first c0))) else rs_cycle st;
         rs_rep := KeyRef (l_to_key (rev pref ++ zpos ((O, i) :: first c0))); rs_next := nx;
         rs_out := rs_out st ++ concat (mapi (block ((c0, d0) :: l) p pref cnref offset i) O ((c0, d0) :: l)) |}.
  Proof.
    intros Hf Hi; inversion Hf as [|? ? Hc Hl]; subst; cbn [fst] in Hc; unfold child_ok in Hc; cbn [kids_refs mapi concat].
    destruct Hi as [->|[i' [-> Hr]]].
    - rewrite Hc; rewrite (block_entry ((c0, d0) :: l) p pref cnref offset 0 0 c0 d0) by reflexivity.
      edestruct (kids_refs_tail pref cnref offset p 0 ((c0, d0) :: l) l Hl [] c0 d0) as [nx Hnx]; [reflexivity | |
        exists nx; rewrite app_assoc in *; etransitivity; [exact Hnx|]]; cbn [rs_next rs_cycle rs_rep rs_out rev Nat.eqb length].
      + rewrite <- app_assoc; reflexivity.
      + rewrite <- app_assoc; reflexivity.
    - rewrite Hc, Hr; rewrite (block_entry ((c0, d0) :: l) p pref cnref offset (S i') 0 c0 d0) by reflexivity.
      edestruct (kids_refs_tail pref cnref offset p (S i') ((c0, d0) :: l) l Hl [] c0 d0) as [nx Hnx]; [reflexivity | |
        exists nx; rewrite app_assoc in *; etransitivity; [exact Hnx|]]; cbn [rs_next rs_cycle rs_rep rs_out rev Nat.eqb length].
      + rewrite <- app_assoc; reflexivity.
      + rewrite <- app_assoc; reflexivity.
  Qed.
  Lemma occs_refs_spec t : wf t -> child_ok t.
  Proof.
    induction t as [n e|n r p ch IH] using tree_ind'; intros Hw pref cnref offset.
    - cbn; unfold entry; cbn; rewrite app_nil_r; reflexivity.
    - inversion Hw as [|? ? ? ? Hr [c0 [l Ech]] Hch]; subst n0 r0 p0 ch0.
      assert (Hok : Forall (fun cd => child_ok (fst cd)) ch).
      { rewrite Forall_forall in *; intros cd Hcd; apply IH; auto. }
      assert (Hfold : forall m, (1 <= m)%nat -> exists nx,
        fold_left (fun st i => kids_refs pref cnref offset p i O st ch) (List.seq 0 m)
          {| rs_cycle := NoneRef; rs_rep := NoneRef; rs_next := NoneRef; rs_out := [] |} =
        {| rs_cycle := KeyRef (l_to_key (rev pref ++ zpos ((O, O) :: first c0)));
           rs_rep := KeyRef (l_to_key (rev pref ++ zpos ((O, pred m) :: first c0))); rs_next := nx;
           rs_out := concat (map (fun i => concat (mapi (block ch p pref cnref offset i) O ch)) (List.seq 0 m)) |}).
      { induction m as [|m IHm]; intros Hm; [lia|].
        rewrite seq_S, fold_left_app, map_app, concat_app; cbn [fold_left Nat.add map concat]; rewrite app_nil_r.
        destruct m as [|m].
        - cbn [List.seq fold_left map concat app]; subst ch.
          destruct (kids_refs_rep pref cnref offset p 0 c0 0 l {| rs_cycle := NoneRef; rs_rep := NoneRef; rs_next := NoneRef; rs_out := [] |} Hok (or_introl eq_refl)) as [nx Hnx].
          exists nx; exact Hnx.
        - destruct (IHm ltac:(lia)) as [nx0 Hnx0]; rewrite Hnx0; subst ch.
          match goal with |- context [kids_refs _ _ _ _ _ _ ?st _] =>
            destruct (kids_refs_rep pref cnref offset p (S m) c0 0 l st Hok (or_intror (ex_intro _ m (conj eq_refl eq_refl)))) as [nx Hnx] end.
          exists nx; etransitivity; [exact Hnx | reflexivity]. }
      destruct (Hfold r Hr) as [nx Hnx].
      transitivity (let st := fold_left (fun st i => kids_refs pref cnref offset p i O st ch) (List.seq 0 r)
          {| rs_cycle := NoneRef; rs_rep := NoneRef; rs_next := NoneRef; rs_out := [] |} in (rs_cycle st, rs_out st)); [reflexivity|].
      rewrite Hnx; cbn [rs_cycle rs_out]; f_equal; [subst ch; reflexivity|].
      cbn [rrefs]; rewrite concat_map, map_map; f_equal; apply map_ext; intros i; rewrite concat_map, map_mapi; reflexivity.
  Qed.

  (* ------------------------------------------------- accumulated corrections *)
  Fixpoint Ssum (E : npos -> Z) (q : npos) (t : tree A) {struct q} : Z :=
    match q, t with
    | (c, i) :: q', Node _ _ _ ch =>
        match nth_error ch c with Some (t', _) => Ssum (fun s => E ((c, i) :: s)) q' t' | None => 0 end +
        (zsum (mapi (fun c' cd => E ((c', i) :: first (fst cd))) 0 (firstn c ch)) +
         zsum (map (fun i' => match ch with (c0, _) :: _ => E ((O, i') :: first c0) | [] => 0 end) (List.seq 0 i)))
    | _, _ => 0
    end.
  Lemma Ssum_ext q : forall t (F G : npos -> Z), (forall s, F s = G s) -> Ssum F q t = Ssum G q t.
  Proof.
    induction q as [|[c' i'] q IHq]; intros t F G HFG; [destruct t; reflexivity|]; destruct t as [|n r p ch]; [reflexivity|]; cbn [Ssum]; f_equal; [|f_equal].
    - destruct (nth_error ch c') as [[t2 d2]|]; [apply IHq; intros s; apply HFG | reflexivity].
    - f_equal; apply mapi_ext; intros k x _; apply HFG.
    - f_equal; apply map_ext; intros x; destruct ch as [|[c0 d0] l]; [reflexivity | apply HFG].
  Qed.
  Definition W (E : npos -> Z) (q : npos) (t : tree A) : Z := off q t + E q + Ssum E q t.
  Lemma first_zero t : wf t -> off (first t) t = 0 /\ forall E, Ssum E (first t) t = 0.
  Proof.
    induction t as [n e|n r p ch IH] using tree_ind'; intros Hw; [split; reflexivity|].
    inversion Hw as [|? ? ? ? Hr [c [l ->]] Hch]; subst; inversion IH as [|? ? Hc _]; inversion Hch as [|? ? Hwc _]; subst.
    destruct (Hc Hwc) as [I1 I2]; cbn [first]; split.
    - cbn [off nth_error]; cbn [fst] in I1; rewrite I1; unfold cum; simpl; reflexivity.
    - intros E; cbn [Ssum nth_error]; cbn [fst] in I2; rewrite I2; reflexivity.
  Qed.
  Lemma cum_S ch c cd : nth_error ch (S c) = Some cd -> cum ch (S c) = cum ch c + snd cd.
  Proof. intros E; unfold cum; rewrite (firstn_S_nth ch (S c) cd E), map_app, zsum_app; unfold zsum; simpl; ring. Qed.
  Lemma rrefs_None t : wf t -> forall q, In (q, None) (rrefs t) -> q = first t.
  Proof.
    induction t as [n e|n r p ch IH] using tree_ind'; intros Hw q Hin.
    - destruct Hin as [E|[]]; injection E as <-; reflexivity.
    - apply In_rrefs_node in Hin; destruct Hin as [c [i [t' [d [q' [o' [E [Hi [Hin [-> Eo]]]]]]]]]].
      inversion Hw as [|? ? ? ? Hr [c0 [l Ech]] Hch]; subst n0 r0 p0 ch0.
      destruct o' as [[s d']|]; [discriminate|].
      rewrite Forall_forall in IH, Hch; assert (Hq' : q' = first t').
      { apply (IH (t', d)); [eapply nth_error_In, E | apply (Hch (t', d)); eapply nth_error_In, E | exact Hin]. }
      subst q'; destruct c as [|c]; cbn [link] in Eo.
      + rewrite Ech in E; simpl in E; injection E as <- <-; destruct i as [|i]; [|rewrite Ech in Eo; discriminate].
        rewrite Ech; reflexivity.
      + rewrite E in Eo; destruct (nth_error ch c) as [[c' ?]|] eqn:E'; [discriminate|].
        apply nth_error_None in E'; assert (S c < length ch)%nat by (apply nth_error_Some; rewrite E; discriminate); lia.
  Qed.
  Lemma rrefs_W t : wf t -> forall E q s d, In (q, Some (s, d)) (rrefs t) -> In s (leaves t) /\ W E q t - W E s t = d + E q.
  Proof.
    induction t as [n e|n r p ch IH] using tree_ind'; intros Hw E q s d Hin.
    - destruct Hin as [Eq|[]]; discriminate.
    - apply In_rrefs_node in Hin; destruct Hin as [c [i [t' [d' [q' [o' [Ec [Hi [Hin [-> Eo]]]]]]]]]].
      inversion Hw as [|? ? ? ? Hr [c0 [l Ech]] Hch]; subst n0 r0 p0 ch0.
      rewrite Forall_forall in IH, Hch; assert (Hw' : wf t') by (apply (Hch (t', d')); eapply nth_error_In, Ec).
      destruct o' as [[s' d'']|].
      + injection Eo as -> ->; destruct (IH (t', d') (nth_error_In _ _ Ec) Hw' (fun s => E ((c, i) :: s)) q' s' d'' Hin) as [H1 H2]; split.
        * apply In_leaves in H1; destruct H1 as [n1 [e1 Hp]]; apply In_leaves; exists n1, e1; econstructor; eauto.
        * unfold W in *; cbn [off Ssum]; rewrite Ec; cbn [fst] in H2; lia.
      + apply (rrefs_None t' Hw') in Hin; subst q'; destruct (first_zero t' Hw') as [F1 F2].
        destruct c as [|c]; cbn [link] in Eo.
        * destruct i as [|i]; [discriminate|]; subst ch; simpl in Ec; injection Ec as <- <-; injection Eo as -> ->; split.
          -- destruct (first_path c0 Hw') as [n1 [e1 Hp]]; apply In_leaves; exists n1, e1; econstructor; [reflexivity | lia | exact Hp].
          -- unfold W; cbn [off Ssum nth_error]; rewrite F1, !F2, seq_S, map_app, zsum_app; cbn [firstn mapi map Nat.add]; rewrite zsum_one; change (zsum []) with 0; rewrite Nat2Z.inj_succ; ring.
        * rewrite Ec in Eo; destruct (nth_error ch c) as [[c' dc]|] eqn:Ec'; [|discriminate]; injection Eo as -> ->.
          assert (Hw'' : wf c') by (apply (Hch (c', dc)); eapply nth_error_In, Ec'); destruct (first_zero c' Hw'') as [G1 G2]; split.
          -- destruct (first_path c' Hw'') as [n1 [e1 Hp]]; apply In_leaves; exists n1, e1; econstructor; eauto.
          -- unfold W; cbn [off Ssum]; rewrite Ec, Ec', F1, !F2, G1, !G2, (cum_S ch c _ Ec); cbn [snd].
             rewrite (firstn_S_nth ch c _ Ec'), mapi_app, zsum_app; cbn [mapi fst].
             assert (Hlen : length (firstn c ch) = c).
             { apply firstn_length_le; assert (c < length ch)%nat by (apply nth_error_Some; rewrite Ec'; discriminate); lia. }
             rewrite Hlen; cbn [Nat.add]; rewrite zsum_one; ring.
  Qed.
  (* quantities equal along references are equal everywhere *)
  Lemma rrefs_connected t : wf t -> forall D : npos -> Z, (forall q s d, In (q, Some (s, d)) (rrefs t) -> D q = D s) ->
    forall q, In q (leaves t) -> D q = D (first t).
  Proof.
    induction t as [n e|n r p ch IH] using tree_ind'; intros Hw D HD q Hq.
    - destruct Hq as [<-|[]]; reflexivity.
    - inversion Hw as [|? ? ? ? Hr [c0 [l Ech]] Hch]; subst n0 r0 p0 ch0; rewrite Forall_forall in IH, Hch.
      assert (Hfirst : forall t', wf t' -> In (first t', None) (rrefs t')).
      { clear; intros t'; induction t' as [n e|n r p ch IH] using tree_ind'; intros Hw; [left; reflexivity|].
        inversion Hw as [|? ? ? ? Hr [c0 [l ->]] Hch]; subst; inversion IH as [|? ? Hc _]; inversion Hch as [|? ? Hwc _]; subst.
        apply In_rrefs_node; exists O, O, c0, 0, (first c0), None; repeat split; [lia | apply Hc, Hwc]. }
      apply In_leaves in Hq; destruct Hq as [n1 [e1 Hp]]; inversion Hp as [|? ? ? ? c i t' d q' ? Ec Hi Hp']; subst; clear Hp.
      set (ch := (c0, 0) :: l) in *.
      assert (Hw' : forall c t' d, nth_error ch c = Some (t', d) -> wf t') by (intros a b d1 E1; apply (Hch (b, d1)); eapply nth_error_In, E1).
      assert (Hin : D ((c, i) :: q') = D ((c, i) :: first t')).
      { apply (IH (t', d) (nth_error_In _ _ Ec) (Hw' _ _ _ Ec) (fun s => D ((c, i) :: s))).
        - intros s s' d1 Hs; apply (HD _ _ d1); apply In_rrefs_node; exists c, i, t', d, s, (Some (s', d1)); auto 10.
        - apply In_leaves; exists n1, e1; exact Hp'. }
      rewrite Hin; clear Hin Hp' q'; cbn [first]; fold ch.
      assert (Hrow : forall c t' d, nth_error ch c = Some (t', d) -> D ((c, i) :: first t') = D ((O, i) :: first c0)).
      { induction c1 as [|c1 IHc]; intros t1 d1 E1; [simpl in E1; injection E1 as <- _; reflexivity|].
        destruct (nth_error ch c1) as [[t2 d2]|] eqn:E2.
        - rewrite <- (IHc t2 d2 eq_refl); apply (HD _ _ d1); apply In_rrefs_node.
          exists (S c1), i, t1, d1, (first t1), None; cbn [link]; rewrite E2, E1; repeat split; auto; apply Hfirst; eapply Hw', E1.
        - apply nth_error_None in E2; assert (S c1 < length ch)%nat by (apply nth_error_Some; rewrite E1; discriminate); lia. }
      rewrite (Hrow c t' d Ec); clear Hrow; induction i as [|i IHi]; [reflexivity|].
      rewrite <- IHi by lia; apply (HD _ _ p); apply In_rrefs_node.
      exists O, (S i), c0, 0, (first c0), None; repeat split; auto; apply Hfirst, (Hw' O c0 0 eq_refl).
  Qed.

  (* -------------------------------------------------------------- gatherCorrKeys *)
  Lemma py_nth_of_nat {B} (l : list B) c : py_nth l (Z.of_nat c) = nth_error l c.
  Proof. unfold py_nth; destruct (Z.leb_spec 0 (Z.of_nat c)); [rewrite Nat2Z.id; reflexivity | lia]. Qed.
  Lemma walk_path root q t : path root q t -> walk root (zpos q) = Some t.
  Proof.
    induction 1 as [t|n r p ch c i t' d q t'' E Hi Hp IH]; [destruct t; reflexivity|].
    cbn [zpos map walk fst snd]; assert (c < length ch)%nat by (apply nth_error_Some; rewrite E; discriminate).
    destruct (Z.ltb_spec (Z.of_nat c) (Z.of_nat (length ch))); [|lia].
    destruct (Z.eqb_spec (Z.of_nat c) (-1)); [lia|]; cbn [andb]; rewrite py_nth_of_nat, E; exact IH.
  Qed.
  Lemma walk_minus root q n r p ch i : path root q (Node n r p ch) -> walk root (zpos q ++ [(-1, i)]) = Some (Node n r p ch).
  Proof.
    intros Hp; remember (Node n r p ch) as t eqn:Et; induction Hp as [t|n' r' p' ch' c j t' d q t'' E Hi Hp IH].
    - subst t; cbn [zpos map app walk]; destruct (Z.ltb_spec (-1) (Z.of_nat (length ch))); [reflexivity | lia].
    - cbn [zpos map walk fst snd app]; assert (c < length ch')%nat by (apply nth_error_Some; rewrite E; discriminate).
      destruct (Z.ltb_spec (Z.of_nat c) (Z.of_nat (length ch'))); [|lia].
      destruct (Z.eqb_spec (Z.of_nat c) (-1)); [lia|]; cbn [andb]; rewrite py_nth_of_nat, E; apply IH, Et.
  Qed.
  Lemma descend_first t : wf t -> descend t None = Some (zpos (first t)).
  Proof.
    induction t as [n e|n r p ch IH] using tree_ind'; intros Hw; [reflexivity|].
    inversion Hw as [|? ? ? ? Hr [c [l ->]] Hch]; subst; inversion IH as [|? ? Hc _]; inversion Hch as [|? ? Hwc _]; subst.
    cbn [descend first]; cbn [fst] in Hc; rewrite (Hc Hwc); reflexivity.
  Qed.
  Lemma leaf_key_child root q t : path root q t -> wf t -> q <> [] -> leaf_key root (zpos q) = Some (key (q ++ first t)).
  Proof.
    intros Hp Hw Hne; unfold leaf_key; rewrite (walk_path _ _ _ Hp); destruct t as [n e|n r p ch].
    - cbn [first]; rewrite app_nil_r; reflexivity.
    - destruct (exists_last Hne) as [q0 [[c i] ->]]; rewrite zpos_app at 1; cbn [zpos map fst snd]; rewrite rev_app_distr; cbn [rev app].
      destruct (Z.eqb_spec (Z.of_nat c) (-1)); [lia|]; rewrite descend_first by exact Hw; cbn [option_map]; unfold key; rewrite (zpos_app (q0 ++ [(c, i)])); reflexivity.
  Qed.
  Lemma leaf_key_rep root q n r p c0 d0 l i : path root q (Node n r p ((c0, d0) :: l)) -> wf c0 ->
    leaf_key root (zpos q ++ [(-1, Z.of_nat i)]) = Some (key (q ++ (O, i) :: first c0)).
  Proof.
    intros Hp Hw; unfold leaf_key; rewrite (walk_minus _ _ _ _ _ _ _ Hp), rev_app_distr; cbn [rev app].
    cbn [Z.eqb Pos.eqb]; rewrite rev_involutive; cbn [descend]; rewrite descend_first by exact Hw; cbn [option_map].
    unfold key; rewrite zpos_app; reflexivity.
  Qed.
  Lemma zrange_nat n : zrange (Z.of_nat n) = map Z.of_nat (List.seq 0 n).
  Proof. unfold zrange; rewrite Nat2Z.id; reflexivity. Qed.
  Lemma mapi_seq {B C} (f : nat -> B -> C) (g : nat -> C) l : forall n,
    (forall k x, nth_error l k = Some x -> f (n + k)%nat x = g (n + k)%nat) -> mapi f n l = map g (List.seq n (length l)).
  Proof.
    induction l as [|x l IH]; intros n Hfg; simpl; [reflexivity|]; f_equal.
    - specialize (Hfg O x eq_refl); rewrite Nat.add_0_r in Hfg; exact Hfg.
    - apply IH; intros k y Hk; specialize (Hfg (S k) y Hk); rewrite Nat.add_succ_r in Hfg; exact Hfg.
  Qed.
  Lemma gather_spec root : wf root -> forall q pre t t', path root pre t -> path t q t' ->
    exists ks, gather root (rev (zpos (pre ++ q))) = map (fun k => Some (key k)) ks ++ gather root (rev (zpos pre)) /\
      (forall k, In k ks -> In k (leaves root)) /\ forall E, zsum (map E ks) = Ssum (fun s => E (pre ++ s)) q t.
  Proof.
    intros Hroot; induction q as [|[c i] q IH]; intros pre t t' Hpre Hq.
    - exists []; rewrite app_nil_r; split; [reflexivity|]; split; [intros k []|]; intros E; destruct t; reflexivity.
    - inversion Hq as [|n r p ch ? ? t1 d ? ? Ec Hi Hq']; subst.
      assert (Hwt : wf (Node n r p ch)) by (eapply path_wf; [exact Hpre | exact Hroot]).
      inversion Hwt as [|? ? ? ? Hr [c0 [l Ech]] Hch]; subst n0 r0 p0 ch0; rewrite Forall_forall in Hch.
      assert (Hpre1 : path root (pre ++ [(c, i)]) t1).
      { eapply path_app; [exact Hpre|]; econstructor; [exact Ec | exact Hi | constructor]. }
      destruct (IH (pre ++ [(c, i)]) t1 t' Hpre1 Hq') as [ks [K1 [K2 K3]]]; rewrite <- app_assoc in K1; cbn [app] in K1.
      assert (Hc : (c < length ch)%nat) by (apply nth_error_Some; rewrite Ec; discriminate).
      set (k1 := mapi (fun c' cd => pre ++ (c', i) :: first (fst cd)) 0 (firstn c ch)).
      set (k2 := map (fun i' => pre ++ (O, i') :: first c0) (List.seq 0 i)).
      assert (Hw0 : wf c0) by (apply (Hch (c0, 0)); rewrite Ech; left; reflexivity).
      exists (ks ++ k1 ++ k2); split; [|split].
      + rewrite K1, map_app, <- app_assoc; f_equal; rewrite zpos_app; cbn [zpos map fst snd]; rewrite rev_app_distr; cbn [rev app gather].
        destruct (Z.eqb_spec (Z.of_nat c) (-1)); [lia|]; rewrite andb_false_r, rev_involutive, !zrange_nat, map_app, <- app_assoc; f_equal; [|f_equal].
        * unfold k1; rewrite map_mapi, map_map; symmetry.
          assert (Hlen : length (firstn c ch) = c) by (apply firstn_length_le; lia); rewrite <- Hlen at 2; apply mapi_seq.
          intros k [tk dk] Ek; cbn [Nat.add fst]; assert (Hk : (k < c)%nat).
          { rewrite <- Hlen; apply nth_error_Some; rewrite Ek; discriminate. }
          assert (Ek' : nth_error ch k = Some (tk, dk)) by (rewrite <- (firstn_skipn c ch), nth_error_app1 by lia; exact Ek).
          assert (Hwk : wf tk) by (apply (Hch (tk, dk)); eapply nth_error_In, Ek').
          assert (Hpk : path root (pre ++ [(k, i)]) tk).
          { eapply path_app; [exact Hpre|]; econstructor; [exact Ek' | exact Hi | constructor]. }
          assert (L := leaf_key_child root (pre ++ [(k, i)]) tk Hpk Hwk); rewrite zpos_app in L; cbn [zpos map fst snd] in L.
          rewrite <- app_assoc in L; symmetry; etransitivity; [apply L; destruct pre; discriminate | reflexivity].
        * unfold k2; rewrite !map_map; apply map_ext; intros i'; subst ch; apply (leaf_key_rep root pre n r p c0 0 l i'); assumption.
      + intros k Hk; apply in_app_iff in Hk; destruct Hk as [Hk|Hk]; [apply K2, Hk|]; apply in_app_iff in Hk; destruct Hk as [Hk|Hk].
        * apply In_mapi in Hk; destruct Hk as [j [[tj dj] [Ej ->]]]; cbn [Nat.add fst].
          assert (Hj : (j < c)%nat) by (assert (Hlen := firstn_length_le ch (n := c) ltac:(lia)); rewrite <- Hlen; apply nth_error_Some; rewrite Ej; discriminate).
          assert (Ej' : nth_error ch j = Some (tj, dj)).
          { rewrite <- (firstn_skipn c ch), nth_error_app1; [exact Ej|]; apply nth_error_Some; rewrite Ej; discriminate. }
          destruct (first_path tj) as [n1 [e1 Hp1]]; [apply (Hch (tj, dj)); eapply nth_error_In, Ej'|].
          apply In_leaves; exists n1, e1; eapply path_app; [exact Hpre|]; econstructor; eauto.
        * apply in_map_iff in Hk; destruct Hk as [i' [<- Hi']]; apply in_seq in Hi'.
          destruct (first_path c0 Hw0) as [n1 [e1 Hp1]]; apply In_leaves; exists n1, e1; eapply path_app; [exact Hpre|].
          subst ch; econstructor; [reflexivity | lia | exact Hp1].
      + intros E; rewrite !map_app, !zsum_app, K3; cbn [Ssum]; rewrite Ec; f_equal; [|f_equal].
        * apply Ssum_ext; intros s; rewrite <- app_assoc; reflexivity.
        * unfold k1; rewrite map_mapi; reflexivity.
        * unfold k2; rewrite map_map, Ech; reflexivity.
  Qed.

  (* --------------------------------------------------------------- dictionaries *)
  Section Dicts.
    Context {K V : Type} `{EqDec K}.
    Lemma dset_new (d : dict K V) k v : ~ In k (map fst d) -> dset d k v = d ++ [(k, v)].
    Proof.
      induction d as [|[k0 v0] d IH]; simpl; intros Hn; [reflexivity|].
      destruct (eq_dec k k0); [subst; tauto|]; rewrite IH; tauto.
    Qed.
    Lemma dict_of_NoDup (l : list (K * V)) : NoDup (map fst l) -> dict_of l = l.
    Proof.
      unfold dict_of; enough (G : forall d, NoDup (map fst (d ++ l)) -> fold_left (fun d kv => dset d (fst kv) (snd kv)) l d = d ++ l).
      { intros Hn; apply (G [] Hn). }
      induction l as [|[k v] l IH]; intros d Hn; simpl; [rewrite app_nil_r; reflexivity|].
      rewrite dset_new.
      - rewrite IH; [rewrite <- app_assoc; reflexivity|]; rewrite <- app_assoc; exact Hn.
      - rewrite map_app in Hn; apply NoDup_app_elim in Hn; destruct Hn as [_ [_ Hd]]; intros Hin; apply (Hd k Hin); left; reflexivity.
    Qed.
    Lemma dget_combine {P} (f : P -> K) (ps : list P) (F : P -> V) p : NoDup (map f ps) -> In p ps ->
      dget (map (fun p => (f p, F p)) ps) (f p) = Some (F p).
    Proof.
      induction ps as [|p0 ps IH]; simpl; intros Hn Hin; [destruct Hin|].
      inversion Hn as [|? ? Hp Hn']; subst; destruct (eq_dec (f p) (f p0)) as [E|E].
      - destruct Hin as [->|Hin]; [reflexivity|]; exfalso; apply Hp; rewrite <- E; apply in_map, Hin.
      - destruct Hin as [->|Hin]; [congruence | apply IH; assumption].
    Qed.
  End Dicts.
End TreeProofs.
