(* C86: nesting candidates whose starts are evenly spaced. *)
From Verif Require Import Prelude CheckModel LCMModel TextModel SplitModel ArrayModel PropArray PeriodModel TreeModel TreeProofs PropTree TreeBlock NestModel NestProofs PropNest PropConcat
  CoverModel PropTopK FoldModel PropFold VerticalProofs NestMineModel.
From Coq Require Import QArith.
Local Open Scope Z_scope.

Section Spec.
  Context {A : Type}.
  (* candidates of one kind: the same pattern but for the ids and for the period and the
     repetitions of the whole (this is what the pool groups by) *)
  Definition inside (c : ccand A) : list (tree A * Z) := map (fun cd => (erase (fst cd), snd cd)) (kids_of c).
  Definition one_kind (cs : list (ccand A)) : Prop := forall c c', In c cs -> In c' cs -> inside c = inside c'.
  (* a pattern repeated, and that repeated, ... *)
  Definition wrap (outer : list (Z * nat)) (t : tree A) : tree A := fold_right (fun pr t => Node O (snd pr) (fst pr) [(t, 0)]) t outer.

  (* increasing times, with gaps that differ little from one to the next *)
  Inductive evenly (small : Z -> bool) : list Z -> Prop :=
  | ev3 a b c : a < b < c -> small (Z.abs ((c - b) - (b - a))) = true -> evenly small [a; b; c]
  | ev_cons a b c l : a < b < c -> small (Z.abs ((c - b) - (b - a))) = true -> evenly small (b :: c :: l) -> evenly small (a :: b :: c :: l).
  Definition period_of (ts : list Z) (p : Z) : Prop :=
    (exists a b c, ts = [a; b; c] /\ p = Z.min (c - b) (b - a)) \/ ((4 <= length ts)%nat /\ compute_period ts = Some p).
  Variable cs : list (ccand A).
  Definition start_of (idxs : list nat) : Z :=
    match idxs with i :: _ => match nth_error cs i with Some c => hd 0 (cc_O c) | None => 0 end | [] => 0 end.
  (* groups of candidates, given by their positions: one candidate, or groups of the same make
     whose starts are evenly spaced *)
  Inductive nesting (small : Z -> bool) : list (Z * nat) -> list nat -> Prop :=
  | one_cand i c : nth_error cs i = Some c -> nesting small [] [i]
  | one_level p outer groups : (forall g, In g groups -> nesting small outer g) ->
      evenly small (map start_of groups) -> period_of (map start_of groups) p ->
      nesting small ((p, length groups) :: outer) (concat groups).
End Spec.

Lemma idx_leb_total a : forall b, idx_leb a b = true \/ idx_leb b a = true.
Proof.
  induction a as [|x a IH]; intros [|y b]; cbn [idx_leb]; auto. destruct (Nat.ltb_spec x y); [auto|]. destruct (Nat.ltb_spec y x); [auto|].
  replace y with x by lia. rewrite Nat.eqb_refl. cbn. apply IH.
Qed.
Lemma idx_leb_trans a : forall b c, idx_leb a b = true -> idx_leb b c = true -> idx_leb a c = true.
Proof.
  induction a as [|x a IH]; intros [|y b] [|z c]; cbn [idx_leb]; auto; try discriminate.
  intros H1 H2. apply orb_true_iff in H1, H2. apply orb_true_iff. rewrite !andb_true_iff, !Nat.ltb_lt, !Nat.eqb_eq in *.
  destruct H1 as [H1|[H1 H1']], H2 as [H2|[H2 H2']]; [left; lia | left; lia | left; lia | right; split; [lia | eapply IH; eassumption]].
Qed.
Lemma elem_leb_spec a b : elem_leb a b = true <-> (fst a < fst b \/ (fst a = fst b /\ idx_leb (snd a) (snd b) = true)).
Proof. unfold elem_leb. rewrite orb_true_iff, andb_true_iff, Z.ltb_lt, Z.eqb_eq. reflexivity. Qed.
Lemma elems_sorted l : StronglySorted (fun a b => fst a <= fst b) (sort elem_leb l).
Proof.
  assert (H : StronglySorted (le_rel elem_leb) (sort elem_leb l)).
  { apply sort_sorted.
    - intros x y. rewrite !elem_leb_spec. pose proof (idx_leb_total (snd x) (snd y)). destruct (Z.lt_trichotomy (fst x) (fst y)) as [|[|]]; intuition lia.
    - intros x y z. rewrite !elem_leb_spec. intros [H1|[H1 H1']] [H2|[H2 H2']]; [left; lia | left; lia | left; lia | right; split; [lia | eapply idx_leb_trans; eassumption]]. }
  induction H as [|x l' H IH Hx]; constructor; auto. eapply Forall_impl; [|exact Hx]. intros y Hy. apply elem_leb_spec in Hy. lia.
Qed.

Section Dedup.
  Variable cost : nat -> Q.
  Lemma dedup_from_facts l : forall prev, StronglySorted (fun a b : elem => fst a <= fst b) (prev :: l) ->
    StronglySorted Z.lt (map fst (dedup_from cost prev l)) /\ incl (dedup_from cost prev l) (prev :: l) /\
    (forall e, In e (dedup_from cost prev l) -> fst prev <= fst e) /\
    (forall e, In e (prev :: l) -> exists e', In e' (dedup_from cost prev l) /\ fst e' = fst e /\ Qle (sum_costs cost e') (sum_costs cost e)).
  Proof.
    induction l as [|e l IH]; intros prev Hs; cbn [dedup_from].
    - split; [repeat constructor|]. split; [apply incl_refl|]. split; [intros e [<-|[]]; lia|].
      intros e [<-|[]]. exists prev. split; [left; reflexivity|]. split; [reflexivity | apply Qle_refl].
    - inversion Hs as [|x y Hl Hp Ex]; subst. inversion Hl as [|x y Hl' He Ex]; subst. inversion Hp as [|x y Hpe Hpl Ex]; subst.
      destruct (Z.eqb_spec (fst e) (fst prev)) as [E|N].
      + set (b := if qlt (sum_costs cost e) (sum_costs cost prev) then e else prev).
        assert (Hb : b = e \/ b = prev) by (unfold b; destruct (qlt _ _); auto).
        assert (Hf : fst b = fst prev) by (destruct Hb as [->| ->]; [exact E | reflexivity]).
        assert (Hc : Qle (sum_costs cost b) (sum_costs cost e) /\ Qle (sum_costs cost b) (sum_costs cost prev)).
        { unfold b, qlt. destruct (Qle_bool (sum_costs cost prev) (sum_costs cost e)) eqn:Q; cbn [negb].
          - apply Qle_bool_iff in Q. split; [exact Q | apply Qle_refl].
          - split; [apply Qle_refl|]. apply Qlt_le_weak, Qnot_le_lt. intros H. apply Qle_bool_iff in H. congruence. }
        destruct (IH b) as (H1 & H2 & H3 & H4).
        { constructor; [exact Hl'|]. rewrite Hf. exact Hpl. }
        split; [exact H1|]. split; [|split].
        * intros x Hx. destruct (H2 x Hx) as [<-|Hx']; [destruct Hb as [->| ->]; cbn; auto | cbn; auto].
        * intros x Hx. rewrite <- Hf. apply H3, Hx.
        * intros x [<-|[<-|Hx]].
          -- destruct (H4 b (or_introl eq_refl)) as (e' & I & F & Q). exists e'. split; [exact I|]. split; [congruence | eapply Qle_trans; [exact Q | apply Hc]].
          -- destruct (H4 b (or_introl eq_refl)) as (e' & I & F & Q). exists e'. split; [exact I|]. split; [congruence | eapply Qle_trans; [exact Q | apply Hc]].
          -- apply H4. right. exact Hx.
      + destruct (IH e Hl) as (H1 & H2 & H3 & H4). split; [|split; [|split]].
        * cbn [map]. constructor; [exact H1|]. apply Forall_forall. intros t Ht. apply in_map_iff in Ht. destruct Ht as (x & <- & Hx). pose proof (H3 x Hx). lia.
        * intros x [<-|Hx]; [left; reflexivity | right; apply H2, Hx].
        * intros x [<-|Hx]; [lia|]. pose proof (H3 x Hx). lia.
        * intros x [<-|Hx]; [exists prev; split; [left; reflexivity|]; split; [reflexivity | apply Qle_refl]|].
          destruct (H4 x Hx) as (e' & I & F). exists e'. split; [right; exact I | exact F].
  Qed.
  Lemma dedup_facts u : StronglySorted Z.lt (map fst (dedup cost (sort elem_leb u))) /\ incl (dedup cost (sort elem_leb u)) u /\
    (forall e, In e u -> exists e', In e' (dedup cost (sort elem_leb u)) /\ fst e' = fst e /\ Qle (sum_costs cost e') (sum_costs cost e)).
  Proof.
    pose proof (elems_sorted u) as Hs. assert (Hi : forall e, In e (sort elem_leb u) <-> In e u) by (intros e; apply In_sort).
    destruct (sort elem_leb u) as [|e l].
    - cbn. split; [constructor|]. split; [intros x []|]. intros x Hx. destruct (proj2 (Hi x) Hx).
    - cbn [dedup]. destruct (dedup_from_facts l e Hs) as (H1 & H2 & _ & H4). split; [exact H1|]. split.
      + intros x Hx. apply Hi, H2, Hx.
      + intros x Hx. apply H4, Hi, Hx.
  Qed.
End Dedup.

Lemma lt_chronological l : StronglySorted Z.lt l -> chronological l.
Proof.
  induction 1 as [|x l H IH Hx]; intros i j Hij; cbn [length] in Hij; [lia|].
  destruct j as [|j]; [lia|]. destruct i as [|i]; cbn [nth].
  - rewrite Forall_forall in Hx. apply Hx, nth_In. lia.
  - apply IH. lia.
Qed.
Lemma lt_NoDup l : StronglySorted Z.lt l -> NoDup l.
Proof.
  induction 1 as [|x l H IH Hx]; constructor; auto. intros I. rewrite Forall_forall in Hx. pose proof (Hx x I). lia.
Qed.
Lemma regular_bounds small occs pos : regular_run small occs pos -> Forall (fun i => (i < length occs)%nat) pos /\ (3 <= length pos)%nat /\
  exists h i l, pos = h :: i :: l /\ (h < i)%nat.
Proof.
  induction 1 as [h i j ((H1 & H2) & H3 & _)|h i j l ((H1 & H2) & H3 & _) R (IH1 & IH2 & IH3)].
  - split; [repeat constructor; lia|]. split; [cbn; lia | exists h, i, [j]; auto].
  - split; [constructor; [lia | exact IH1]|]. split; [cbn in *; lia | exists h, i, (j :: l); auto].
Qed.
Lemma regular_evenly small occs pos : chronological occs -> regular_run small occs pos -> evenly small (map (fun i => nth i occs 0) pos).
Proof.
  intros Hc. assert (G : forall h i j, regular small occs h i j -> nth h occs 0 < nth i occs 0 < nth j occs 0 /\
    small (Z.abs ((nth j occs 0 - nth i occs 0) - (nth i occs 0 - nth h occs 0))) = true).
  { intros h i j ((H1 & H2) & H3 & H4). split; [split; apply Hc; lia | exact H4]. }
  induction 1 as [h i j H|h i j l H R IH]; cbn [map]; destruct (G _ _ _ H); constructor; auto.
Qed.

Lemma map_out_split {X Y} (f : X -> outcome Y) (P : X -> Y -> Prop) l : (forall x, In x l -> exists y, f x = Ret y /\ P x y) ->
  exists r, map_out f l = Ret r /\ Forall2 P l r.
Proof.
  induction l as [|x l IH]; intros H; cbn [map_out]; [exists []; split; [reflexivity | constructor]|].
  destruct (H x (or_introl eq_refl)) as (y & E & Hy). destruct IH as (r & Er & Hr); [intros z Hz; apply H; right; exact Hz|].
  rewrite E. cbn [bind]. rewrite Er. exists (y :: r). split; [reflexivity | constructor; assumption].
Qed.
Lemma Forall2_right {X Y} (P : X -> Y -> Prop) (Q : Y -> Prop) l m : (forall x y, In x l -> P x y -> Q y) -> Forall2 P l m -> Forall Q m.
Proof. intros H. induction 1 as [|x y l m Hxy F IH]; constructor; [apply (H x); cbn; auto | apply IH; intros a b Ha; apply H; right; exact Ha]. Qed.

Lemma nth_out_ok {B} (l : list B) i d : (i < length l)%nat -> nth_out l i = Ret (nth i l d).
Proof. intros H. unfold nth_out. rewrite (nth_error_nth' l d H). reflexivity. Qed.
Lemma comb_kids_ok (es : list elem) pos : Forall (fun i => (i < length es)%nat) pos ->
  comb_kids (map snd es) pos = Ret (concat (map (fun i => snd (nth i es (0, []))) pos)).
Proof.
  intros H. unfold comb_kids.
  assert (E : map_out (nth_out (map snd es)) pos = Ret (map (fun i => snd (nth i es (0, []))) pos)).
  { induction H as [|i pos Hi H IH]; cbn [map_out map]; [reflexivity|]. rewrite (nth_out_ok _ _ []) by (rewrite map_length; exact Hi). cbn [bind]. rewrite IH. cbn [bind].
    do 2 f_equal. exact (map_nth snd es (0, []) i). }
  rewrite E. reflexivity.
Qed.
Lemma sort_by_size {X} (leb : X -> X -> bool) (size : X -> nat) l :
  (forall a b, leb a b = true -> (size a <= size b)%nat) -> (forall a b, leb a b = false -> (size b <= size a)%nat) ->
  StronglySorted (fun a b => (size a <= size b)%nat) (sort leb l).
Proof.
  intros H1 H2. assert (I : forall x l, StronglySorted (fun a b => (size a <= size b)%nat) l -> StronglySorted (fun a b => (size a <= size b)%nat) (insert_left leb x l)).
  { intros x. induction 1 as [|y t Ht IH Hy]; cbn [insert_left]; [repeat constructor|]. destruct (leb x y) eqn:E.
    - constructor; [constructor; assumption|]. pose proof (H1 _ _ E). constructor; [assumption|]. eapply Forall_impl; [|exact Hy]. cbn. intros; lia.
    - constructor; [exact IH|]. pose proof (H2 _ _ E). rewrite Forall_forall in *. intros z Hz. apply (Permutation_in _ (insert_left_perm leb x t)) in Hz.
      destruct Hz as [<-|Hz]; [assumption | apply Hy, Hz]. }
  induction l as [|x l IH]; cbn; [constructor | apply I, IH].
Qed.

Section Main.
  Context {A : Type}.
  Variable cs : list (ccand A).
  Variable cost : nat -> Q.
  Variable bare : nat -> option Q.
  Variable trip : nat -> Z -> Z -> Q.
  Variable cyc : nat -> Z -> list Z -> Q.
  Variable small : Z -> bool.
  Variable sfuel : nat.
  Variable nm : list (ccand A) -> nat -> nat -> nat.
  Variable text_leb : prkey -> prkey -> bool.
  Hypothesis Hshaped : forall c, In c cs -> shaped c.
  Hypothesis Hkind : one_kind cs.
  Hypothesis Hfuel : (length cs + 2 <= sfuel)%nat.

  Lemma key0_tree (c : ccand A) : key0 c = (cycle_ps (tree_of c), cycle_rs (tree_of c)).
  Proof. unfold key0, tree_of. destruct (cc_P c); reflexivity. Qed.
  Lemma ps_erase (t : tree A) : cycle_ps (erase t) = cycle_ps t.
  Proof. rewrite erase_shape. unfold shape. apply ps_renum. Qed.
  Lemma depth_inside (c c' : ccand A) : shaped c -> shaped c' -> inside c = inside c' -> length (fst (key0 c)) = length (fst (key0 c')).
  Proof.
    intros H H' E. rewrite !key0_tree. cbn [fst]. unfold inside, kids_of in E.
    destruct (sh_node c H) as (n & r & p & ch & Ec). destruct (sh_node c' H') as (n' & r' & p' & ch' & Ec'). rewrite Ec, Ec' in *. cbn [cycle_ps length]. do 2 f_equal.
    assert (G : forall l : list (tree A * Z), map (fun cd => cycle_ps (fst cd)) l = map (fun cd => cycle_ps (fst cd)) (map (fun cd => (erase (fst cd), snd cd)) l)).
    { intros l. rewrite map_map. apply map_ext. intros cd. cbn [fst]. symmetry. apply ps_erase. }
    rewrite (G ch), (G ch'), E. reflexivity.
  Qed.
  Lemma key_erase (c c' : ccand A) : shaped c -> shaped c' -> inside c = inside c' -> key0 c = key0 c' -> erase (tree_of c) = erase (tree_of c').
  Proof.
    intros H H' E K. rewrite !key0_tree in K. unfold inside, kids_of in E.
    destruct (sh_node c H) as (n & r & p & ch & Ec). destruct (sh_node c' H') as (n' & r' & p' & ch' & Ec'). rewrite Ec, Ec' in *. cbn [cycle_ps cycle_rs] in K.
    injection K as -> _ -> _. cbn [erase]. rewrite E. reflexivity.
  Qed.

  Definition join (outer : list (Z * nat)) (k0 : prkey) : prkey := (map fst outer ++ fst k0, map snd outer ++ snd k0).
  Definition starts : list Z := map (fun c => hd 0 (cc_O c)) cs.
  Record egood (outer : list (Z * nat)) (k0 : prkey) (e : elem) : Prop := {
    eg_ne : snd e <> [];
    eg_in : Forall (fun i => exists c, nth_error cs i = Some c /\ key0 c = k0) (snd e);
    eg_r : Forall (fun pr => 3 <= snd pr)%nat outer;
    eg_len : length (snd e) = product (map snd outer);
    eg_start : In (fst e) starts;
    eg_reg : (length (nodup Z.eq_dec starts) < 2000)%nat -> nesting cs small outer (snd e) /\ fst e = start_of cs (snd e) }.
  Definition kgood (k : prkey) (e : elem) : Prop := exists outer k0, k = join outer k0 /\ egood outer k0 e.

  Lemma eg_cand outer k0 e : egood outer k0 e -> exists c, In c cs /\ key0 c = k0.
  Proof.
    intros H. pose proof (eg_ne _ _ _ H) as Hn. pose proof (eg_in _ _ _ H) as Hi. destruct (snd e) as [|i l]; [contradiction|].
    inversion Hi as [|x y (c & Hc & K) Hl E]; subst. exists c. split; [eapply nth_error_In; exact Hc | reflexivity].
  Qed.
  Lemma join_inj o o' k k' : length (fst k) = length (fst k') -> length (snd k) = length (fst k) -> length (snd k') = length (fst k') -> join o k = join o' k' -> o = o' /\ k = k'.
  Proof.
    intros H1 H2 H3 E. unfold join in E. injection E as E1 E2.
    assert (L : length o = length o') by (apply (f_equal (@length Z)) in E1; rewrite !app_length, !map_length in E1; lia).
    assert (G : forall {X} (a b c d : list X), length a = length b -> a ++ c = b ++ d -> a = b /\ c = d).
    { intros X a. induction a as [|x a IH]; intros [|y b] c d Hl Ea; try discriminate; [auto|]. cbn in Ea. injection Ea as -> Ea. destruct (IH b c d) as [-> ->]; auto. }
    apply G in E1; [|rewrite !map_length; exact L]. apply G in E2; [|rewrite !map_length; exact L]. destruct E1 as [E1 E1'], E2 as [E2 E2']. split.
    - clear -E1 E2 L. revert o' E1 E2 L. induction o as [|[p r] o IH]; intros [|[p' r'] o'] E1 E2 L; try discriminate; [reflexivity|].
      cbn in *. injection E1 as -> E1. injection E2 as -> E2. f_equal. apply IH; auto.
    - destruct k, k'; cbn in *; congruence.
  Qed.
  Lemma key0_len (c : ccand A) : length (snd (key0 c)) = length (fst (key0 c)).
  Proof. rewrite key0_tree. cbn [fst snd]. symmetry. apply ps_rs_length. Qed.
  Lemma class_same k u : u <> [] -> Forall (kgood k) u -> exists outer k0, k = join outer k0 /\ Forall (egood outer k0) u.
  Proof.
    intros Hn H. destruct u as [|e u]; [contradiction|]. inversion H as [|x y (o & k0 & E & G) Hu Ex]; subst. exists o, k0. split; [reflexivity|].
    constructor; [exact G|]. eapply Forall_impl; [|exact Hu]. intros e' (o' & k0' & E' & G').
    destruct (eg_cand _ _ _ G) as (c & Ic & Kc). destruct (eg_cand _ _ _ G') as (c' & Ic' & Kc').
    destruct (join_inj o o' k0 k0') as [-> ->]; auto; subst k0 k0'; try apply key0_len. apply depth_inside; auto.
  Qed.

  (* ---- one class *)
  Definition fresh (u : list elem) (ke : prkey * elem) : Prop :=
    kgood (fst ke) (snd ke) /\ In (fst (snd ke)) (map fst u) /\ exists t, In t (map fst u) /\ fst (snd ke) < t.
  Definition kept_good (x : kept) : Prop := let '(s, k, t, idxs) := x in kgood k (t, idxs) /\ s = product (snd k).

  Lemma to_keep_ok k u store : Forall (kgood k) u -> Forall (fun i => (i < length u)%nat) store ->
    exists ks, to_keep k u store = Ret ks /\ Forall kept_good ks.
  Proof.
    intros Hu Hs. unfold to_keep.
    destruct (map_out_split (fun i => bind (nth_out u i) (fun e => Ret (fold_right Nat.mul 1%nat (snd k), k, fst e, snd e))) (fun _ x => kept_good x) store) as (r & E & F).
    - intros i Hi. rewrite Forall_forall in Hs. rewrite (nth_out_ok u i (0, [])) by auto. cbn [bind]. eexists. split; [reflexivity|]. cbn. split; [|reflexivity].
      rewrite <- surjective_pairing. rewrite Forall_forall in Hu. apply Hu, nth_In, Hs, Hi.
    - exists r. split; [exact E|]. eapply Forall2_right; [|exact F]. auto.
  Qed.
  Lemma eg_level outer k0 (es : list elem) p pos t0 :
    Forall (egood outer k0) es -> Forall (fun i => (i < length es)%nat) pos -> (3 <= length pos)%nat -> In t0 starts ->
    ((length (nodup Z.eq_dec starts) < 2000)%nat -> t0 = nth (hd O pos) (map fst es) 0 /\ evenly small (map (fun i => nth i (map fst es) 0) pos) /\ period_of (map (fun i => nth i (map fst es) 0) pos) p) ->
    egood ((p, length pos) :: outer) k0 (t0, concat (map (fun i => snd (nth i es (0, []))) pos)).
  Proof.
    intros He Hpos Hlen Ht Hreg. rewrite Forall_forall in He, Hpos.
    assert (Hg : forall i, In i pos -> egood outer k0 (nth i es (0, []))) by (intros i Hi; apply He, nth_In, Hpos, Hi).
    assert (Hr : Forall (fun pr : Z * nat => 3 <= snd pr)%nat outer) by (destruct pos as [|i pos]; [cbn in Hlen; lia | apply (eg_r _ _ _ (Hg i (or_introl eq_refl)))]).
    split; cbn [fst snd].
    - destruct pos as [|i pos]; [cbn in Hlen; lia|]. cbn [map concat]. pose proof (eg_ne _ _ _ (Hg i (or_introl eq_refl))) as N. destruct (snd (nth i es (0, []))); [contradiction | discriminate].
    - apply Forall_forall. intros x Hx. apply in_concat in Hx. destruct Hx as (l & Hl & Hx). apply in_map_iff in Hl. destruct Hl as (i & <- & Hi).
      pose proof (eg_in _ _ _ (Hg i Hi)) as G. rewrite Forall_forall in G. apply G, Hx.
    - constructor; [exact Hlen | exact Hr].
    - cbn [map snd product fold_right]. fold (product (map snd outer)). clear Hlen Ht Hreg.
      assert (G : forall l, (forall i, In i l -> In i pos) -> length (concat (map (fun i => snd (nth i es (0, []))) l)) = (length l * product (map snd outer))%nat).
      { induction l as [|i l IH]; intros Hl; [reflexivity|]. cbn [map concat length Nat.mul]. rewrite app_length, IH by (intros; apply Hl; right; assumption).
        rewrite (eg_len _ _ _ (Hg i (Hl i (or_introl eq_refl)))). reflexivity. }
      apply G. auto.
    - exact Ht.
    - intros H2. destruct (Hreg H2) as (E0 & Hev & Hp).
      assert (Es : map (fun i => nth i (map fst es) 0) pos = map (start_of cs) (map (fun i => snd (nth i es (0, []))) pos)).
      { rewrite map_map. apply map_ext_in. intros i Hi. rewrite <- (proj2 (eg_reg _ _ _ (Hg i Hi) H2)). exact (map_nth fst es (0, []) i). }
      split.
      + rewrite <- (map_length (fun i => snd (nth i es (0, []))) pos). constructor.
        * intros g Hgr. apply in_map_iff in Hgr. destruct Hgr as (i & <- & Hi). apply (eg_reg _ _ _ (Hg i Hi) H2).
        * rewrite <- Es. exact Hev.
        * rewrite <- Es. exact Hp.
      + rewrite E0. destruct pos as [|i pos]; [cbn in Hlen; lia|]. cbn [hd map concat].
        etransitivity; [exact (map_nth fst es (0, []) i)|]. etransitivity; [exact (proj2 (eg_reg _ _ _ (Hg i (or_introl eq_refl)) H2))|].
        pose proof (eg_ne _ _ _ (Hg i (or_introl eq_refl))) as N. destruct (snd (nth i es (0, []))); [contradiction | reflexivity].
  Qed.

  Lemma one_class_ok k u : u <> [] -> Forall (kgood k) u ->
    exists news ks, one_class cost bare trip cyc small sfuel k u = Ret (news, ks) /\ Forall (fresh u) news /\ Forall kept_good ks.
  Proof.
    intros Hn Hu. unfold one_class. destruct (Nat.ltb_spec 2 (length u)) as [H2|H2].
    2:{ destruct (to_keep_ok k u (List.seq 0 (length u)) Hu) as (ks & E & F); [apply Forall_forall; intros i I; apply in_seq in I; lia|].
        exists [], ks. rewrite E. split; [reflexivity|]. split; [constructor | exact F]. }
    cbv zeta. destruct (dedup_facts cost u) as (Hlt & Hin & Hcov). set (es := dedup cost (sort elem_leb u)) in *.
    destruct (class_same k u Hn Hu) as (outer & k0 & -> & Hg).
    assert (Hes : Forall (egood outer k0) es) by (apply Forall_forall; intros e He; rewrite Forall_forall in Hg; apply Hg, Hin, He).
    assert (Hne : es <> []). { destruct u as [|e u]; [contradiction|]. destruct (Hcov e (or_introl eq_refl)) as (e' & I & _). intros E. rewrite E in I. destruct I. }
    assert (Hchr : chronological (map fst es)) by (apply lt_chronological, Hlt).
    assert (Hst : forall i, (i < length es)%nat -> In (nth i (map fst es) 0) (map fst u) /\ In (nth i (map fst es) 0) starts).
    { intros i Hi. rewrite (map_nth fst es (0, []) i : nth i (map fst es) 0 = _).
      assert (I : In (nth i es (0, [])) es) by (apply nth_In, Hi). split; [apply in_map, Hin, I|]. rewrite Forall_forall in Hes. apply (eg_start _ _ _ (Hes _ I)). }
    assert (Hle : (length (map fst es) <= length cs)%nat).
    { rewrite <- (map_length (fun c => hd 0 (cc_O c)) cs). apply NoDup_incl_length; [apply lt_NoDup, Hlt|].
      intros t Ht. apply in_map_iff in Ht. destruct Ht as (e & <- & He). rewrite Forall_forall in Hes. apply (eg_start _ _ _ (Hes _ He)). }
    assert (Hle2 : (length (map fst es) <= length (nodup Z.eq_dec starts))%nat).
    { apply NoDup_incl_length; [apply lt_NoDup, Hlt|]. intros t Ht. apply nodup_In. apply in_map_iff in Ht. destruct Ht as (e & <- & He). rewrite Forall_forall in Hes. apply (eg_start _ _ _ (Hes _ He)). }
    assert (Hf : exists chs trs, fold_starts bare trip cyc small sfuel es = Ret (chs, trs) /\
      Forall (fun c => exists off, ((length (map fst es) < 2000)%nat -> off = 0%nat) /\ regular_run small (map fst es) (map (Nat.add off) (ch_pos c)) /\ (4 <= length (ch_pos c))%nat /\
                ch_occs c = map (fun i => nth i (map fst es) 0) (map (Nat.add off) (ch_pos c)) /\ compute_period (ch_occs c) = Some (ch_p c)) chs /\
      Forall (fun t => exists h i j, tr_pos t = [h; i; j] /\ regular small (map fst es) h i j /\ tr_p t = Z.min (gap (map fst es) i j) (gap (map fst es) h i)) trs).
    { unfold fold_starts. destruct es as [|e0 es']; [contradiction|]. unfold nth_out at 1. cbn [nth_error bind].
      inversion Hes as [|x y He0 Hes' Ex]; subst x y. pose proof (eg_ne _ _ _ He0) as N0. destruct (snd e0) as [|i0 l0]; [contradiction|]. unfold nth_out. cbn [nth_error bind].
      destruct (bare i0) as [b|]; [|exists [], []; repeat split; constructor].
      set (T := map fst (e0 :: es')) in *. destruct (C81_terminates (trip i0) (cyc i0) small T (- b)%Q (- b)%Q None Hchr) as ([chs trs] & Er). specialize (Er sfuel ltac:(lia)).
      exists chs, trs. split; [exact Er|]. destruct (C81_sound_partial _ _ _ _ _ _ _ _ _ _ (or_introl eq_refl) Er) as [S1 S2]. split.
      - eapply Forall_impl; [|exact S1]. intros c (off & Ho & [R _ L O P _]). exists off. auto.
      - eapply Forall_impl; [|exact S2]. intros t [(h & i & j & E1 & R & _ & _ & _ & E2) _]. exists h, i, j. auto. }
    destruct Hf as (chs & trs & Ef & Hch & Htr). rewrite Ef. cbn [bind fst snd].
    assert (Efr : forall p r, child_key p r (join outer k0) = join ((p, r) :: outer) k0) by reflexivity.
    destruct (map_out_split (triple_elem (join outer k0) es) (fun _ ke => fresh u ke) trs) as (ts & Ets & Hts).
    { intros t It. rewrite Forall_forall in Htr. destruct (Htr t It) as (h & i & j & Ep & R & Et). pose proof R as ((H1 & H1') & H3 & _). rewrite map_length in H3.
      unfold triple_elem. rewrite Ep. unfold nth_out at 1. cbn [nth_error bind]. rewrite (nth_out_ok _ h 0) by (rewrite map_length; lia). cbn [bind].
      assert (Hpos : Forall (fun i => (i < length es)%nat) [h; i; j]) by (apply Forall_forall; intros x [<-|[<-|[<-|[]]]]; lia).
      rewrite (comb_kids_ok es _ Hpos). cbn [bind]. eexists. split; [reflexivity|]. split; [|split]; cbn [fst snd].
      - rewrite Efr. exists ((tr_p t, 3%nat) :: outer), k0. split; [reflexivity|]. apply (eg_level outer k0 es (tr_p t) [h; i; j]); auto.
        + apply Hst. lia.
        + intros H2000. split; [reflexivity|]. split; [apply regular_evenly; [exact Hchr | apply run3, R]|].
          left. do 3 eexists. split; [reflexivity|]. exact Et.
      - apply Hst. lia.
      - exists (nth i (map fst es) 0). split; [apply Hst; lia|]. apply Hchr. rewrite map_length. lia. }
    rewrite Ets. cbn [bind].
    destruct (map_out_split (chain_elem (join outer k0) es) (fun _ ke => fresh u ke) chs) as (cts & Ects & Hcts).
    { intros c Ic. rewrite Forall_forall in Hch. destruct (Hch c Ic) as (off & Hoff & R & L & O & P).
      destruct (regular_bounds _ _ _ R) as (Hb & _ & (h & i & l & Epos & Hhi)). rewrite map_length in Hb.
      assert (Hpos : Forall (fun i => (i < length es)%nat) (ch_pos c)).
      { apply Forall_forall. intros x Hx. rewrite Forall_forall in Hb. pose proof (Hb (off + x)%nat (in_map _ _ _ Hx)). lia. }
      assert (Hhb : (h < length es /\ i < length es)%nat) by (rewrite Epos in Hb; inversion Hb as [|? ? ? Hb']; inversion Hb'; subst; split; assumption).
      assert (Hlo : length (ch_occs c) = length (ch_pos c)) by (rewrite O, !map_length; reflexivity).
      unfold chain_elem. assert (Eh : ch_occs c = nth h (map fst es) 0 :: nth i (map fst es) 0 :: map (fun i => nth i (map fst es) 0) l) by (rewrite O, Epos; reflexivity).
      replace (nth_out (ch_occs c) 0) with (Ret (nth h (map fst es) 0)) by (rewrite Eh; reflexivity). cbn [bind]. rewrite (comb_kids_ok es _ Hpos). cbn [bind]. eexists. split; [reflexivity|]. split; [|split]; cbn [fst snd].
      - rewrite Efr, Hlo. exists ((ch_p c, length (ch_pos c)) :: outer), k0. split; [reflexivity|]. apply (eg_level outer k0 es (ch_p c) (ch_pos c)); auto.
        + lia.
        + apply Hst. lia.
        + intros H2000. assert (Z0 : off = 0%nat) by (apply Hoff; lia). subst off.
          replace (map (Nat.add 0) (ch_pos c)) with (ch_pos c) in * by (symmetry; apply map_id). rewrite Epos at 1. split; [reflexivity|].
          split; [apply regular_evenly; assumption|]. right. rewrite map_length. split; [exact L|]. rewrite <- O. exact P.
      - apply Hst. lia.
      - exists (nth i (map fst es) 0). split; [apply Hst; lia|]. apply Hchr. rewrite map_length. lia. }
    rewrite Ects. cbn [bind].
    destruct (to_keep_ok (join outer k0) u (filter (fun i => negb (mem i (concat (map tr_pos trs) ++ concat (map ch_pos chs)))) (List.seq 0 (length u))) Hu) as (ks & Ek & Hk).
    { apply Forall_forall. intros i I. apply filter_In in I. destruct I as [I _]. apply in_seq in I. lia. }
    rewrite Ek. cbn [bind]. exists (ts ++ cts), ks. split; [reflexivity|]. split; [|exact Hk].
    apply Forall_app. split; [eapply Forall2_right; [|exact Hts]; auto | eapply Forall2_right; [|exact Hcts]; auto].
  Qed.

  (* ---- all classes *)
  Definition mgood (m : dict prkey (list elem)) : Prop := forall k u, In (k, u) m -> u <> [] /\ Forall (kgood k) u.
  Definition times_of (m : dict prkey (list elem)) : list Z := concat (map (fun ku => map fst (snd ku)) m).
  Lemma in_times m t : In t (times_of m) <-> exists k u, In (k, u) m /\ In t (map fst u).
  Proof.
    unfold times_of. rewrite in_concat. split.
    - intros (l & Hl & Ht). apply in_map_iff in Hl. destruct Hl as ([k u] & <- & I). eauto.
    - intros (k & u & I & Ht). exists (map fst u). split; [|exact Ht]. apply in_map_iff. exists (k, u). auto.
  Qed.
  Lemma add_elem_good m k e : mgood m -> kgood k e -> mgood (add_elem m k e) /\ (forall t, In t (times_of (add_elem m k e)) -> t = fst e \/ In t (times_of m)).
  Proof.
    intros Hm He. unfold add_elem. split.
    - intros k' u I. apply dset_In in I. destruct I as [[-> ->]|I]; [|apply (Hm k' u I)].
      destruct (dget m k) as [l|] eqn:E.
      + destruct (Hm k l (dget_In _ _ _ E)) as [_ F]. split; [destruct l; discriminate|]. apply Forall_app. split; [exact F | constructor; [exact He | constructor]].
      + split; [discriminate | constructor; [exact He | constructor]].
    - intros t Ht. apply in_times in Ht. destruct Ht as (k' & u & I & Ht). apply dset_In in I. destruct I as [[-> ->]|I]; [|right; apply in_times; eauto].
      destruct (dget m k) as [l|] eqn:E.
      + rewrite map_app in Ht. apply in_app_iff in Ht. destruct Ht as [Ht|[<-|[]]]; [right; apply in_times; exists k, l; split; [apply dget_In, E | exact Ht] | left; reflexivity].
      + destruct Ht as [<-|[]]. left. reflexivity.
  Qed.
  Lemma add_elems_good l : forall m, mgood m -> Forall (fun ke => kgood (fst ke) (snd ke)) l ->
    let m' := fold_left (fun m ke => add_elem m (fst ke) (snd ke)) l m in
    mgood m' /\ (forall t, In t (times_of m') -> In t (map (fun ke => fst (snd ke)) l) \/ In t (times_of m)).
  Proof.
    induction l as [|ke l IH]; intros m Hm Hl m'; cbn [fold_left] in m'; [split; auto|].
    inversion Hl as [|x y H1 H2 Ex]; subst x y. destruct (add_elem_good m (fst ke) (snd ke) Hm H1) as [G1 G2].
    destruct (IH _ G1 H2) as [G3 G4]. split; [exact G3|]. intros t Ht. destruct (G4 t Ht) as [H|H]; [left; right; exact H|].
    destruct (G2 t H) as [->|H']; [left; left; reflexivity | right; exact H'].
  Qed.
  Lemma max_in (l : list Z) : l <> [] -> exists x, In x l /\ forall y, In y l -> y <= x.
  Proof.
    induction l as [|a l IH]; [contradiction|]. intros _. destruct l as [|b l]; [exists a; split; [left; reflexivity | intros y [<-|[]]; lia]|].
    destruct IH as (x & Hx & Hm); [discriminate|]. destruct (Z.le_gt_cases a x).
    - exists x. split; [right; exact Hx|]. intros y [<-|Hy]; [lia | apply Hm, Hy].
    - exists a. split; [left; reflexivity|]. intros y [<-|Hy]; [lia | pose proof (Hm y Hy); lia].
  Qed.
  Lemma rounds_ok fuel : forall m keep T, mgood m -> Forall kept_good keep -> NoDup T -> incl (times_of m) T -> (length T <= fuel)%nat ->
    exists ks, rounds cost bare trip cyc small sfuel fuel m keep = Ret ks /\ Forall kept_good ks.
  Proof.
    induction fuel as [|fuel IH]; intros m keep T Hm Hk Hnd Hincl Hlen.
    - destruct m as [|[k u] m]; [exists keep; split; [reflexivity | exact Hk]|]. exfalso. destruct T; [|cbn in Hlen; lia].
      destruct (Hm k u (or_introl eq_refl)) as [N _]. destruct u as [|e u]; [contradiction|]. apply (Hincl (fst e)). apply in_times. exists k, (e :: u). split; [left; reflexivity | left; reflexivity].
    - cbn [rounds]. destruct m as [|ku0 m0] eqn:Em; [exists keep; split; [reflexivity | exact Hk]|]. rewrite <- Em in *. clear ku0 m0 Em.
      destruct (map_out_split (fun ku => one_class cost bare trip cyc small sfuel (fst ku) (snd ku)) (fun ku r => Forall (fresh (snd ku)) (fst r) /\ Forall kept_good (snd r)) m) as (rs & Er & Hr).
      { intros [k u] I. destruct (Hm k u I) as [N G]. destruct (one_class_ok k u N G) as (news & ks & E & F1 & F2). exists (news, ks). auto. }
      rewrite Er. cbn [bind].
      assert (Hnews : Forall (fun ke => kgood (fst ke) (snd ke) /\ In (fst (snd ke)) (times_of m) /\ exists t, In t (times_of m) /\ fst (snd ke) < t) (concat (map fst rs))).
      { assert (G : forall m', incl m' m -> forall rs', Forall2 (fun ku r => Forall (fresh (snd ku)) (fst r) /\ Forall kept_good (snd r)) m' rs' ->
          Forall (fun ke => kgood (fst ke) (snd ke) /\ In (fst (snd ke)) (times_of m) /\ exists t, In t (times_of m) /\ fst (snd ke) < t) (concat (map fst rs'))).
        { intros m' Hi' rs' F. induction F as [|[k u] r m' rs' [F1 _] F IHF]; cbn [map concat]; [constructor|]. apply Forall_app. split.
          - eapply Forall_impl; [|exact F1]. intros ke (K & I1 & t & I2 & Lt). cbn [snd] in *.
            assert (Iu : In (k, u) m) by (apply Hi'; left; reflexivity). split; [exact K|]. split; [apply in_times; eauto|]. exists t. split; [apply in_times; eauto | exact Lt].
          - apply IHF. intros x Hx. apply Hi'. right. exact Hx. }
        apply (G m); [apply incl_refl | exact Hr]. }
      assert (Hks : Forall kept_good (concat (map snd rs))).
      { clear -Hr. induction Hr as [|ku r m rs [_ F2] F IHF]; cbn [map concat]; [constructor|]. apply Forall_app. split; assumption. }
      destruct (add_elems_good (concat (map fst rs)) []) as [G1 G2]; [intros k u [] | eapply Forall_impl; [|exact Hnews]; intros ke H; apply H|].
      destruct (times_of m) as [|t0 l0] eqn:Et.
      + assert (E0 : concat (map fst rs) = []). { destruct (concat (map fst rs)) as [|ke l]; [reflexivity|]. inversion Hnews as [|x y (_ & [] & _) _ _]. }
        rewrite E0. cbn [fold_left]. exists (keep ++ concat (map snd rs)). split; [destruct fuel; reflexivity | apply Forall_app; split; assumption].
      + rewrite <- Et in *. assert (Nt : times_of m <> []) by (rewrite Et; discriminate). clear Et t0 l0. destruct (max_in (times_of m) Nt) as (x & Hx & Hmax).
        apply (IH _ _ (remove Z.eq_dec x T)).
        * exact G1.
        * apply Forall_app; split; assumption.
        * clear -Hnd. induction Hnd as [|a l Ha Hl IHl]; cbn [remove]; [constructor|]. destruct (Z.eq_dec x a); [exact IHl|]. constructor; [|exact IHl]. intros I. apply in_remove in I. tauto.
        * intros t Ht. apply G2 in Ht. destruct Ht as [Ht|[]]. apply in_map_iff in Ht. destruct Ht as (ke & <- & Ike). rewrite Forall_forall in Hnews. destruct (Hnews ke Ike) as (_ & I1 & t' & I2 & Lt).
          apply in_in_remove; [|apply Hincl, I1]. pose proof (Hmax t' I2). lia.
        * pose proof (remove_length_lt Z.eq_dec T x (Hincl x Hx)). lia.
  Qed.

  Lemma init_ok : forall l i m, (forall j c, nth_error l j = Some c -> nth_error cs (i + j) = Some c) -> mgood m -> incl (times_of m) starts ->
    exists m', init_map i l m = Ret m' /\ mgood m' /\ incl (times_of m') starts.
  Proof.
    induction l as [|c l IH]; intros i m Hl Hm Hi; cbn [init_map]; [exists m; auto|].
    assert (Ec : nth_error cs i = Some c) by (rewrite <- (Nat.add_0_r i); apply (Hl O); reflexivity).
    assert (Ic : In c cs) by (eapply nth_error_In; exact Ec).
    rewrite (get_t0_hd c) by (apply shaped_nonempty, Hshaped, Ic). cbn [bind].
    assert (Hs : In (hd 0 (cc_O c)) starts) by (unfold starts; apply in_map_iff; exists c; auto).
    assert (Hk : kgood (key0 c) (hd 0 (cc_O c), [i])).
    { exists [], (key0 c). split; [unfold join; cbn; apply surjective_pairing|]. split; cbn [fst snd map].
      - discriminate.
      - constructor; [exists c; auto | constructor].
      - constructor.
      - reflexivity.
      - exact Hs.
      - intros _. split; [econstructor; exact Ec | cbn; rewrite Ec; reflexivity]. }
    destruct (add_elem_good m _ _ Hm Hk) as [G1 G2]. apply IH; [|exact G1|].
    - intros j c' Hj. replace (S i + j)%nat with (i + S j)%nat by lia. apply Hl, Hj.
    - intros t Ht. destruct (G2 t Ht) as [->|H]; [exact Hs | apply Hi, H].
  Qed.

  (* ---- the candidates *)
  (* the ids the nodes of the first part get are distinct and none of the levels above it has them *)
  Definition fresh_levels : Prop := forall c0 rest n, NoDup (kid_ids c0) -> NoDup (List.seq 0 (n + 1 - depth c0) ++ map (nm (c0 :: rest) n) (kid_ids c0)).
  Record result (c : ccand A) (idxs : list nat) (outer : list (Z * nat)) (parts : list (ccand A)) (c0 : ccand A) : Prop := {
    re_parts : map (nth_error cs) idxs = map Some parts;
    re_first : hd_error parts = Some c0;
    re_copies : forall c', In c' parts -> erase (tree_of c') = erase (tree_of c0);
    re_tree : erase (tree_of c) = wrap outer (erase (tree_of c0));
    re_shaped : shaped c;
    re_sound : (forall c', In c' parts -> sound c') -> sound c;
    re_full : (forall c', In c' parts -> full c') -> full c;
    re_ids : fresh_levels -> (forall c', In c' parts -> NoDup (kid_ids c')) -> exists t, cc_P c = Patt t /\ NoDup (node_ids t);
    re_dated : dated c = concat (map dated parts);
    re_many : Forall (fun pr => 3 <= snd pr)%nat outer;
    re_even : (length (nodup Z.eq_dec starts) < 2000)%nat -> nesting cs small outer idxs }.

  Lemma wrap_nestT outer (tb : nat -> tree A) t : (forall i, erase (tb i) = t) -> forall i, erase (nestT i outer tb) = wrap outer t.
  Proof. intros H. induction outer as [|[p r] o IH]; intros i; cbn [nestT wrap fold_right fst snd]; [apply H|]. cbn [erase map fst snd]. f_equal. f_equal. f_equal. apply IH. Qed.
  Lemma erase_renum (t : tree A) f : erase (renum f t) = erase t.
  Proof. rewrite !erase_shape. apply shape_renum. Qed.
  Lemma nestT_ids outer (tb : nat -> tree A) : forall i, node_ids (nestT i outer tb) = List.seq i (length outer) ++ node_ids (tb (i + length outer)%nat).
  Proof.
    induction outer as [|[p r] o IH]; intros i; cbn [nestT length List.seq app]; [rewrite Nat.add_0_r; reflexivity|]. cbn [node_ids map concat fst]. rewrite app_nil_r, IH.
    f_equal. f_equal. f_equal. f_equal. lia.
  Qed.
  Lemma nested_wrap parts (c0 : ccand A) outer (c : ccand A) : hd_error parts = Some c0 -> shaped c0 ->
    prepare_nested (nm parts (length outer + length (cycle_ps (tree_of c0)))) parts (map fst outer ++ cycle_ps (tree_of c0)) (map snd outer ++ cycle_rs (tree_of c0)) = Ret c ->
    erase (tree_of c) = wrap outer (erase (tree_of c0)) /\ (fresh_levels -> NoDup (kid_ids c0) -> exists t, cc_P c = Patt t /\ NoDup (node_ids t)).
  Proof.
    intros H0 Hs E. unfold prepare_nested in E. destruct parts as [|x l]; [discriminate|]. cbn in H0. injection H0 as ->. unfold nth_out at 1 in E. cbn [nth_error bind] in E.
    destruct (map_out _ _) as [Ess|e|]; [|discriminate|discriminate]. cbn [bind] in E.
    set (n := (length outer + length (cycle_ps (tree_of c0)))%nat) in *. set (f := nm (c0 :: l) n) in *.
    assert (Ht : exists t, nested_tree f c0 (map fst outer ++ cycle_ps (tree_of c0)) (map snd outer ++ cycle_rs (tree_of c0)) = Ret t /\ erase t = wrap outer (erase (tree_of c0)) /\
      (fresh_levels -> NoDup (kid_ids c0) -> NoDup (node_ids t))).
    { assert (Ef : fresh_levels -> NoDup (kid_ids c0) -> NoDup (List.seq 0 (length outer + 1) ++ map f (kid_ids c0))).
      { intros Hf Hk. pose proof (Hf c0 l n Hk) as H. rewrite depth_of in H. unfold n in H. replace (length outer + length (cycle_ps (tree_of c0)) + 1 - length (cycle_ps (tree_of c0)))%nat with (length outer + 1)%nat in H by lia. exact H. }
      clearbody f. destruct (sh_node c0 Hs) as (n0 & r0 & p0 & ch0 & Et0). unfold nested_tree. rewrite depth_of, app_length, map_length. rewrite Et0. cbn [cycle_ps cycle_rs length].
      set (cp := concat (map (fun cd => cycle_ps (fst cd)) ch0)). set (cr := concat (map (fun cd => cycle_rs (fst cd)) ch0)).
      replace (length outer + S (length cp) + 1 - S (length cp))%nat with (length (map fst outer) + 1)%nat by (rewrite map_length; lia).
      rewrite firstn_app, firstn_all2 by lia. replace (length (map fst outer) + 1 - length (map fst outer))%nat with 1%nat by lia. cbn [firstn].
      rewrite combine_app by (rewrite !map_length; reflexivity). cbn [combine].
      assert (Eo : combine (map fst outer) (map snd outer) = outer) by (clear; induction outer as [|[p r] o IH]; [reflexivity|]; cbn [map fst snd combine]; rewrite IH; reflexivity).
      rewrite Eo. set (tb := fun i => match cc_P c0 with Simple e _ => Node i r0 p0 [(Leaf (S i) e, 0)] | Patt _ => Node i r0 p0 (renum_kids f ch0) end).
      exists (nestT 0 outer tb). split; [|split].
      - apply (PropNest.chain_ok _ tb). intros i. unfold tb. unfold tree_of in Et0. destruct (cc_P c0) as [e p|t]; [reflexivity|]. subst t. reflexivity.
      - apply wrap_nestT. intros i. unfold tb. unfold tree_of in Et0. destruct (cc_P c0) as [e p|t].
        + unfold simple_tree in Et0. injection Et0 as _ <- <- <-. reflexivity.
        + cbn [erase]. f_equal. unfold renum_kids. rewrite map_map. apply map_ext. intros cd. cbn [fst snd]. f_equal. apply erase_renum.
      - intros Hf Hk. specialize (Ef Hf Hk). rewrite nestT_ids. cbn [Nat.add]. unfold tb. unfold tree_of in Et0. unfold kid_ids in *. destruct (cc_P c0) as [e p|t].
        + cbn [node_ids map concat fst app]. clear. assert (X : List.seq 0 (length outer) ++ [length outer; S (length outer)] = List.seq 0 (length outer + 2)) by (rewrite seq_app; reflexivity).
          rewrite X. apply seq_NoDup.
        + subst t. cbn [node_ids tl] in *. rewrite seq_app, <- app_assoc in Ef. cbn [List.seq app Nat.add] in Ef. unfold renum_kids. rewrite map_map. cbn [fst].
          rewrite (map_ext _ (fun cd => map f (node_ids (fst cd)))) by (intros cd; apply renum_ids). rewrite <- (map_map (fun cd => node_ids (fst cd)) (map f)), <- concat_map. exact Ef. }
    destruct Ht as (t & Et & He & Hi). rewrite Et in E. cbn [bind] in E. injection E as <-. split; [exact He|]. intros Hf Hk. exists t. split; [reflexivity | exact (Hi Hf Hk)].
  Qed.

  Lemma parts_of outer k0 idxs t : egood outer k0 (t, idxs) -> exists parts c0, map (nth_error cs) idxs = map Some parts /\ map_out (nth_out cs) idxs = Ret parts /\
    hd_error parts = Some c0 /\ key0 c0 = k0 /\ length parts = length idxs /\ (forall c, In c parts -> In c cs /\ key0 c = k0).
  Proof.
    intros H. pose proof (eg_ne _ _ _ H) as N. pose proof (eg_in _ _ _ H) as I. cbn [snd] in *. clear H.
    assert (G : exists parts, map (nth_error cs) idxs = map Some parts /\ map_out (nth_out cs) idxs = Ret parts /\ length parts = length idxs /\ (forall c, In c parts -> In c cs /\ key0 c = k0)).
    { clear N. induction I as [|i idxs (c & Ec & Kc) I IH]; [exists []; repeat split; destruct H|].
      destruct IH as (parts & E1 & E2 & E3 & E4). exists (c :: parts). cbn [map map_out length]. unfold nth_out at 1. rewrite Ec. cbn [bind]. rewrite E2. cbn [bind].
      split; [f_equal; exact E1|]. split; [reflexivity|]. split; [f_equal; exact E3|]. intros c' [<-|Hc']; [split; [eapply nth_error_In; exact Ec | exact Kc] | apply E4, Hc']. }
    destruct G as (parts & E1 & E2 & E3 & E4). destruct parts as [|c0 parts]; [destruct idxs; [contradiction | discriminate]|].
    exists (c0 :: parts), c0. split; [exact E1|]. split; [exact E2|]. split; [reflexivity|]. split; [apply E4; left; reflexivity|]. auto.
  Qed.
  Lemma rs_erase (t : tree A) : cycle_rs (erase t) = cycle_rs t.
  Proof.
    induction t as [n e|n r p ch IH] using tree_ind'; [reflexivity|]. cbn [erase cycle_rs]. f_equal. rewrite map_map. f_equal. apply map_ext_in. intros cd Hcd. cbn [fst].
    rewrite Forall_forall in IH. apply (IH cd Hcd).
  Qed.
  Lemma rs_wrap outer (t : tree A) : cycle_rs (wrap outer t) = map snd outer ++ cycle_rs t.
  Proof. induction outer as [|[p r] o IH]; [reflexivity|]. cbn [wrap fold_right cycle_rs map concat fst snd app]. rewrite app_nil_r. f_equal. exact IH. Qed.

  (* how many occurrences a chain of cycles makes *)
  Definition size_of (c : ccand A) : nat := product (cycle_rs (tree_of c)).
  Definition steps_ok (covered : list nat) (prev : option nat) (res : list (ccand A * list nat)) : Prop :=
    forall pre c idxs post, res = pre ++ (c, idxs) :: post ->
      (exists a b d, NoDup [a; b; d] /\ incl [a; b; d] idxs /\ forall x, In x [a; b; d] -> ~ In x covered /\ ~ In x (concat (map snd pre))) \/
      Some (size_of c) = (match rev pre with [] => prev | (c', _) :: _ => Some (size_of c') end).
  Definition size_kept (x : kept) : nat := fst (fst (fst x)).

  Lemma build_ok l : Forall kept_good l -> StronglySorted (fun a b => (size_kept b <= size_kept a)%nat) l -> forall covered prev,
    exists res, build cs nm l covered prev = Ret res /\
      (forall c idxs, In (c, idxs) res -> exists outer parts c0, result c idxs outer parts c0) /\
      steps_ok covered prev res /\
      StronglySorted (fun a b => (size_of (fst b) <= size_of (fst a))%nat) res /\
      (forall c idxs, In (c, idxs) res -> exists x, In x l /\ size_of c = size_kept x).
  Proof.
    induction l as [|[[[size k] t] idxs] l IH]; intros Hg Hs covered prev; cbn [build].
    - exists []. split; [reflexivity|]. split; [intros c idxs []|]. split; [intros pre c idxs post E; destruct pre; discriminate|]. split; [constructor | intros c idxs []].
    - inversion Hg as [|x y Hg0 Hgl Ex]; subst x y. destruct Hg0 as [(outer & k0 & Ek & He) Hsz]. inversion Hs as [|x y Hsl Hx Ex]; subst x y.
      destruct ((2 <? length (filter (fun i => negb (mem i covered)) (nodup eq_dec idxs)))%nat || eqd (Some size) prev) eqn:Hc.
      + destruct (parts_of outer k0 idxs t He) as (parts & c0 & E1 & E2 & E3 & E4 & E5 & E6). rewrite E2. cbn [bind].
        assert (Hin0 : In c0 parts) by (destruct parts; [discriminate|]; cbn in E3; injection E3 as ->; left; reflexivity).
        assert (Hs0 : shaped c0) by (apply Hshaped, E6, Hin0).
        assert (Hcop : forall c, In c parts -> shaped c /\ erase (tree_of c) = erase (tree_of c0)).
        { intros c Ic. destruct (E6 c Ic) as [I K]. split; [apply Hshaped, I|]. apply key_erase; auto; [|congruence]. apply Hkind; [exact I | apply E6, Hin0]. }
        destruct (C45_nested_events (nm parts (length outer + length (cycle_ps (tree_of c0)))) parts c0 outer E3 Hcop) as (c & Ec & Sc & Dc & Snd & Ful).
        { eapply Forall_impl; [|exact (eg_r _ _ _ He)]. cbn. intros; lia. }
        { rewrite E5. apply (eg_len _ _ _ He). }
        assert (Ekk : k = (map fst outer ++ cycle_ps (tree_of c0), map snd outer ++ cycle_rs (tree_of c0))) by (rewrite Ek; unfold join; rewrite <- E4, key0_tree; reflexivity).
        rewrite Ekk. cbn [fst snd]. rewrite app_length, map_length, Ec. cbn [bind].
        destruct (nested_wrap parts c0 outer c E3 Hs0 Ec) as [Hw Hids].
        assert (Hsc : size_of c = size). { unfold size_of. rewrite <- rs_erase, Hw, rs_wrap, rs_erase. rewrite Hsz, Ekk. reflexivity. }
        destruct (IH Hgl Hsl (covered ++ idxs) (Some size)) as (res & Er & R1 & R2 & R3 & R4). rewrite Er. cbn [bind]. exists ((c, idxs) :: res). split; [reflexivity|]. split; [|split; [|split]].
        * intros c' i' [E|I]; [injection E as <- <-|apply R1, I]. exists outer, parts, c0. split; auto; [intros c' Ic'; apply Hcop, Ic' | apply (eg_r _ _ _ He) | intros H2; apply (eg_reg _ _ _ He H2)].
        * intros pre c' i' post E. destruct pre as [|[c1 i1] pre]; cbn [app] in E.
          -- injection E as <- <- _. cbn [rev]. apply orb_true_iff in Hc. destruct Hc as [Hc|Hc].
             ++ left. apply Nat.ltb_lt in Hc.
                assert (Nf : NoDup (filter (fun i => negb (mem i covered)) (nodup eq_dec idxs))) by (apply NoDup_filter, NoDup_nodup).
                assert (If : forall x, In x (filter (fun i => negb (mem i covered)) (nodup eq_dec idxs)) -> In x idxs /\ ~ In x covered).
                { intros x I. apply filter_In in I. destruct I as [I M]. apply nodup_In in I. split; [exact I|]. destruct (mem_spec x covered); [discriminate | assumption]. }
                destruct (filter (fun i => negb (mem i covered)) (nodup eq_dec idxs)) as [|a [|b [|d f]]]; cbn [length] in Hc; try lia.
                exists a, b, d. split; [|split].
                ** inversion Nf as [|? ? Na Nf1]; inversion Nf1 as [|? ? Nb Nf2]; inversion Nf2 as [|? ? Nd Nf3]; subst. constructor; [|constructor; [|constructor; [|constructor]]]; cbn in *; tauto.
                ** intros x I. apply If. cbn in *. tauto.
                ** intros x I. split; [apply If; cbn in *; tauto | intros []].
             ++ right. apply (proj1 (eqd_true _ _)) in Hc. rewrite Hsc. exact Hc.
          -- injection E as <- <- E. destruct (R2 pre c' i' post E) as [(a & b & d & H1 & H2 & H3)|H].
             ++ left. exists a, b, d. split; [exact H1|]. split; [exact H2|]. intros x I. destruct (H3 x I) as [N1 N2]. cbn [map concat snd]. rewrite in_app_iff in *. tauto.
             ++ right. rewrite H. cbn [rev]. destruct (rev pre) as [|[c2 i2] rp] eqn:Erp; cbn [app]; [congruence | reflexivity].
        * constructor; [exact R3|]. apply Forall_forall. intros [c' i'] I. cbn [fst]. destruct (R4 c' i' I) as (x & Ix & ->). rewrite Hsc. rewrite Forall_forall in Hx. apply (Hx x Ix).
        * intros c' i' [E|I]; [injection E as <- <-; eexists; split; [left; reflexivity | exact Hsc]|]. destruct (R4 c' i' I) as (x & Ix & Ex'). exists x. split; [right; exact Ix | exact Ex'].
      + destruct (IH Hgl Hsl covered prev) as (res & Er & R1 & R2 & R3 & R4). exists res. split; [exact Er|]. split; [exact R1|]. split; [exact R2|]. split; [exact R3|].
        intros c i I. destruct (R4 c i I) as (x & Ix & Ex'). exists x. split; [right; exact Ix | exact Ex'].
  Qed.
  Lemma sorted_rev {X} (R : X -> X -> Prop) l : StronglySorted R l -> StronglySorted (fun a b => R b a) (rev l).
  Proof.
    induction 1 as [|x l H IH Hx]; cbn [rev]; [constructor|].
    assert (G : forall m, StronglySorted (fun a b => R b a) m -> (forall y, In y m -> R x y) -> StronglySorted (fun a b => R b a) (m ++ [x])).
    { induction 1 as [|y m Hm IHm Hy]; intros Hr; cbn [app]; [repeat constructor|]. constructor; [apply IHm; intros z Hz; apply Hr; right; exact Hz|].
      apply Forall_app. split; [exact Hy | constructor; [apply Hr; left; reflexivity | constructor]]. }
    apply G; [exact IH|]. intros y Hy. rewrite Forall_forall in Hx. apply Hx, in_rev, Hy.
  Qed.
  Lemma kept_sorted l : StronglySorted (fun a b => (size_kept b <= size_kept a)%nat) (rev (sort (kept_leb text_leb) l)).
  Proof.
    apply (sorted_rev (fun a b => (size_kept a <= size_kept b)%nat)). apply sort_by_size.
    - intros [[[s k] t] i] [[[s' k'] t'] i'] H. unfold size_kept, kept_leb in *. cbn [fst]. apply orb_true_iff in H. rewrite andb_true_iff, Nat.ltb_lt, Nat.eqb_eq in H. lia.
    - intros [[[s k] t] i] [[[s' k'] t'] i'] H. unfold size_kept, kept_leb in *. cbn [fst]. apply orb_false_iff in H. rewrite Nat.ltb_ge in H. lia.
  Qed.
  Lemma nest_ok fuel : (length cs <= fuel)%nat -> exists res, nest_cmplx cs cost bare trip cyc small sfuel nm text_leb fuel = Ret res /\
      (forall c idxs, In (c, idxs) res -> exists outer parts c0, result c idxs outer parts c0) /\
      steps_ok [] None res /\ StronglySorted (fun a b => (size_of (fst b) <= size_of (fst a))%nat) res.
  Proof.
    intros Hf. unfold nest_cmplx. destruct (init_ok cs 0 []) as (m & Em & Hm & Hi); [auto | intros k u [] | intros t []|]. rewrite Em. cbn [bind].
    destruct (rounds_ok fuel m [] (nodup Z.eq_dec starts)) as (ks & Ek & Hk); auto.
    - apply NoDup_nodup.
    - intros t Ht. apply nodup_In, Hi, Ht.
    - enough (length (nodup Z.eq_dec starts) <= length starts)%nat by (unfold starts in *; rewrite map_length in *; lia).
      apply NoDup_incl_length; [apply NoDup_nodup | intros t Ht; apply nodup_In in Ht; exact Ht].
    - rewrite Ek. cbn [bind]. destruct (build_ok (rev (sort (kept_leb text_leb) ks))) with (covered := @nil nat) (prev := @None nat) as (res & Er & R1 & R2 & R3 & _).
      + apply Forall_forall. intros x Hx. apply in_rev, In_sort in Hx. rewrite Forall_forall in Hk. apply Hk, Hx.
      + apply kept_sorted.
      + exists res. auto.
  Qed.
End Main.

(* The search ends, without an error, whatever the costs are (the fuel bounds the rounds, the
   other fuel the inner loop of the extraction).  Every candidate it builds repeats candidates of
   the list that are copies of each other, has exactly their dated events, is sound if they are,
   and (with fewer than 2000 different starts) the starts are evenly spaced at every level.  Its nodes
   have distinct ids if the numbering gives distinct ids. *)
Theorem C86_nested : forall {A} (cs : list (ccand A)) cost bare trip cyc small nm text_leb fuel sfuel,
  (forall c, In c cs -> shaped c) -> one_kind cs -> (length cs <= fuel)%nat -> (length cs + 2 <= sfuel)%nat ->
  exists res, nest_cmplx cs cost bare trip cyc small sfuel nm text_leb fuel = Ret res /\
    forall c idxs, In (c, idxs) res -> exists outer parts c0,
      map (nth_error cs) idxs = map Some parts /\ hd_error parts = Some c0 /\
      (forall c', In c' parts -> erase (tree_of c') = erase (tree_of c0)) /\
      erase (tree_of c) = wrap outer (erase (tree_of c0)) /\ Forall (fun pr => 3 <= snd pr)%nat outer /\
      shaped c /\ dated c = concat (map dated parts) /\ ((forall c', In c' parts -> sound c') -> sound c) /\ ((forall c', In c' parts -> full c') -> full c) /\
      (fresh_levels nm -> (forall c', In c' parts -> NoDup (kid_ids c')) -> exists t, cc_P c = Patt t /\ NoDup (node_ids t)) /\
      ((length (nodup Z.eq_dec (map (fun c => hd 0%Z (cc_O c)) cs)) < 2000)%nat -> nesting cs small outer idxs).
Proof.
  intros A cs cost bare trip cyc small nm text_leb fuel sfuel Hs Hk Hf Hsf.
  destruct (nest_ok cs cost bare trip cyc small sfuel nm text_leb Hs Hk Hsf fuel Hf) as (res & Er & R & _). exists res. split; [exact Er|].
  intros c idxs I. destruct (R c idxs I) as (outer & parts & c0 & [H1 H2 H3 H4 H5 H6 H7 H8 H9 H10 H11]). exists outer, parts, c0. auto 13.
Qed.
(* The candidates come largest first; each covers three candidates of the list that the ones
   before it do not, or is as large as the one before it. *)
Theorem C86_choice : forall {A} (cs : list (ccand A)) cost bare trip cyc small nm text_leb fuel sfuel res,
  (forall c, In c cs -> shaped c) -> one_kind cs -> (length cs <= fuel)%nat -> (length cs + 2 <= sfuel)%nat ->
  nest_cmplx cs cost bare trip cyc small sfuel nm text_leb fuel = Ret res ->
  StronglySorted (fun a b => (size_of (fst b) <= size_of (fst a))%nat) res /\
  forall pre c idxs post, res = pre ++ (c, idxs) :: post ->
    (exists i j k, NoDup [i; j; k] /\ incl [i; j; k] idxs /\ forall x, In x [i; j; k] -> ~ In x (concat (map snd pre))) \/
    (exists pre' c' idxs', pre = pre' ++ [(c', idxs')] /\ size_of c = size_of c').
Proof.
  intros A cs cost bare trip cyc small nm text_leb fuel sfuel res Hs Hk Hf Hsf E.
  destruct (nest_ok cs cost bare trip cyc small sfuel nm text_leb Hs Hk Hsf fuel Hf) as (res' & Er & _ & S & O). rewrite E in Er. injection Er as <-. split; [exact O|].
  intros pre c idxs post Ep. destruct (S pre c idxs post Ep) as [(i & j & k & H1 & H2 & H3)|H].
  - left. exists i, j, k. split; [exact H1|]. split; [exact H2|]. intros x I. apply (H3 x I).
  - right. destruct (rev pre) as [|[c' i'] rp] eqn:Erp; [discriminate|]. injection H as H. exists (rev rp), c', i'. split; [|exact H].
    rewrite <- (rev_involutive pre), Erp. reflexivity.
Qed.
(* Of the groups of one make that start together the search goes on with the cheapest *)
Theorem C86_same_start : forall cost u, let es := dedup cost (sort elem_leb u) in
  NoDup (map fst es) /\ incl es u /\
  forall e, In e u -> exists e', In e' es /\ fst e' = fst e /\ Qle (sum_costs cost e') (sum_costs cost e).
Proof.
  intros cost u es. destruct (dedup_facts cost u) as (H1 & H2 & H3). split; [apply lt_NoDup, H1|]. split; [exact H2 | exact H3].
Qed.

(* ---------------------------------------------------------------- run_combine_vertical *)
Lemma ev_occs_dated (c : ccand nat) : ev_occs c = dated c.
Proof.
  unfold ev_occs, dated, tree_of. f_equal. destruct (cc_P c) as [e p|t]; [|reflexivity]. cbn. unfold simple_tree. cbn [events_minor map concat fst]. 
  induction (length (cc_O c)) as [|n IH]; [reflexivity|]. cbn [repeat concat app]. f_equal. exact IH.
Qed.
Lemma pick_ok cost l : exists r, pick cost l = Ret r /\ incl r l /\ (Z.of_nat (length l) <= TOP_KEACH -> r = l).
Proof.
  unfold pick. set (es := combine (List.seq 0 (length l)) (map (fun c => (cost c, ev_occs c)) l)).
  assert (Ei : map e_id es = List.seq 0 (length l)).
  { unfold es, e_id. assert (G : forall (a : list nat) (b : list (Q * list occ)), length a = length b -> map fst (combine a b) = a).
    { induction a as [|x a IH]; intros [|y b] H; try discriminate; [reflexivity|]. cbn. f_equal. apply IH. injection H as H. exact H. }
    apply G. rewrite seq_length, map_length. reflexivity. }
  assert (Hle : @length entry es = length l) by (rewrite <- (map_length e_id), Ei, seq_length; reflexivity).
  destruct (C67_top_k es TOP_KEACH) as (_ & Hincl & _); [rewrite Ei; apply seq_NoDup|]. cbn zeta in Hincl.
  destruct (map_out_split (nth_out l) (fun i c => nth_error l i = Some c) (topk_each es TOP_KEACH)) as (r & Er & Hr).
  - intros i Hi. apply Hincl in Hi. rewrite Ei in Hi. apply in_seq in Hi. unfold nth_out. destruct (nth_error l i) as [c|] eqn:En; [eauto|]. apply nth_error_None in En. lia.
  - exists r. split; [exact Er|]. split.
    + assert (F : Forall (fun c => In c l) r) by (eapply Forall2_right; [|exact Hr]; intros i c _ H; eapply nth_error_In; exact H). intros c Hc. rewrite Forall_forall in F. apply F, Hc.
    + intros Hk. unfold topk_each in Hr. rewrite Hle in Hr. replace (Z.of_nat (length l) <=? TOP_KEACH) with true in Hr by (symmetry; apply Z.leb_le, Hk).
      rewrite Ei in Hr. clear -Hr. assert (G : forall a n m, Forall2 (fun i c => nth_error l i = Some c) (List.seq n a) m -> m = firstn a (skipn n l)).
      { induction a as [|a IH]; intros n m H; cbn [List.seq] in H; inversion H as [|x y a' m' H1 H2]; subst; [reflexivity|].
        rewrite (IH _ _ H2). clear -H1. revert n H1. induction l as [|z l' IHl]; intros [|n] H1; try discriminate; cbn in *; [injection H1 as ->; reflexivity|]. apply (IHl n H1). }
      rewrite (G _ _ _ Hr). cbn [skipn]. apply firstn_all.
Qed.
(* The round returns, whatever the costs are; every candidate it returns repeats candidates of one
   class that are copies of each other and has exactly their dated events; it is sound if these are, and has as many corrections as it
   needs if these have. *)
Theorem C86_vertical : forall cost bare trip cyc small nm text_leb classes,
  Forall (fun cls => (forall c, In c (map fst cls) -> shaped c) /\ one_kind (map fst cls)) classes ->
  exists res, run_vertical cost bare trip cyc small nm text_leb classes = Ret res /\
    forall c, In c res -> shaped c /\ exists cls parts, In cls classes /\ (3 <= length cls)%nat /\ incl parts (map fst cls) /\ dated c = concat (map dated parts) /\
      ((forall c', In c' parts -> sound c') -> sound c) /\ ((forall c', In c' parts -> full c') -> full c) /\
      (fresh_levels nm -> (forall c', In c' parts -> NoDup (kid_ids c')) -> exists t, cc_P c = Patt t /\ NoDup (node_ids t)) /\
      exists idxs outer c0, map (nth_error (map fst cls)) idxs = map Some parts /\ hd_error parts = Some c0 /\
        (forall c', In c' parts -> erase (tree_of c') = erase (tree_of c0)) /\ erase (tree_of c) = wrap outer (erase (tree_of c0)) /\
        ((length (nodup Z.eq_dec (map (fun c => hd 0%Z (cc_O c)) (map fst cls))) < 2000)%nat -> nesting (map fst cls) small outer idxs).
Proof.
  intros cost bare trip cyc small nm text_leb classes Hcl. unfold run_vertical.
  set (P := fun c : ccand nat => shaped c /\ exists cls parts, In cls classes /\ (3 <= length cls)%nat /\ incl parts (map fst cls) /\ dated c = concat (map dated parts) /\
      ((forall c', In c' parts -> sound c') -> sound c) /\ ((forall c', In c' parts -> full c') -> full c) /\
      (fresh_levels nm -> (forall c', In c' parts -> NoDup (kid_ids c')) -> exists t, cc_P c = Patt t /\ NoDup (node_ids t)) /\
      exists idxs outer c0, map (nth_error (map fst cls)) idxs = map Some parts /\ hd_error parts = Some c0 /\
        (forall c', In c' parts -> erase (tree_of c') = erase (tree_of c0)) /\ erase (tree_of c) = wrap outer (erase (tree_of c0)) /\
        ((length (nodup Z.eq_dec (map (fun c => hd 0%Z (cc_O c)) (map fst cls))) < 2000)%nat -> nesting (map fst cls) small outer idxs)).
  destruct (map_out_split (vertical_cands cost bare trip cyc small nm text_leb) (fun _ r => Forall P r) (filter (fun cls => (3 <=? length cls)%nat) classes)) as (rs & Er & Hr).
  - intros cls Ics. apply filter_In in Ics. destruct Ics as [Ics H3]. apply Nat.leb_le in H3. rewrite Forall_forall in Hcl. destruct (Hcl cls Ics) as [Hs Hk]. set (cs := map fst cls) in *.
    destruct (C86_nested cs (fun i => nth i (map snd cls) 0%Q) (of_cand cs bare None) (of_cand cs trip (fun _ _ => 0%Q)) (of_cand cs cyc (fun _ _ => 0%Q)) small nm text_leb (length cs) (length cs + 2) Hs Hk (le_n _) (le_n _)) as (res & E & R).
    unfold vertical_cands. fold cs. rewrite E. cbn [bind].
    assert (Hp : Forall P (map fst res)).
    { apply Forall_forall. intros c Hc. apply in_map_iff in Hc. destruct Hc as ([c' idxs] & <- & I). cbn [fst]. destruct (R c' idxs I) as (outer & parts & c0 & Hpa & H0 & Hcp & Het & _ & Sc & Dc & Snd & Ful & Ids & Hnst).
      split; [exact Sc|]. exists cls, parts. split; [exact Ics|]. split; [exact H3|]. split; [|split; [exact Dc|]; split; [exact Snd|]; split; [exact Ful|]; split; [exact Ids|]; exists idxs, outer, c0; auto]. intros x Hx.
      apply (in_map (@Some _)) in Hx. rewrite <- Hpa in Hx. apply in_map_iff in Hx. destruct Hx as (i & Ei & _). eapply nth_error_In. exact Ei. }
    destruct res as [|r0 res]; [exists []; split; [reflexivity | constructor]|].
    destruct (pick_ok cost (map fst (r0 :: res))) as (r & Ep & Hi & _). exists r. split; [exact Ep|]. apply Forall_forall. intros c Hc. rewrite Forall_forall in Hp. apply Hp, Hi, Hc.
  - rewrite Er. cbn [bind].
    assert (Hp : Forall P (concat rs)) by (clear -Hr; induction Hr as [|x y l m H F IH]; cbn [concat]; [constructor | apply Forall_app; split; assumption]).
    destruct (concat rs) as [|c0 l]; [exists []; split; [reflexivity | intros c []]|].
    destruct (pick_ok cost (c0 :: l)) as (r & Ep & Hi & _). exists r. split; [exact Ep|]. intros c Hc. rewrite Forall_forall in Hp. apply Hp, Hi, Hc.
Qed.

(* The candidates kept of those found, for one class and then for all: all of them if there are at
   most five; and what is left out has only dated events that the kept ones have more than five times. *)
Definition chosen (l r : list (ccand nat)) : Prop :=
  incl r l /\ ((length l <= 5)%nat -> r = l) /\
  forall c, In c l -> ~ In c r -> forall o, In o (dated c) -> (5 < count_occ eq_dec (concat (map dated r)) o)%nat.
Lemma pick_chosen cost l r : pick cost l = Ret r -> chosen l r.
Proof.
  intros E. destruct (pick_ok cost l) as (r' & E' & Hi & Hf). rewrite E in E'. injection E' as <-. split; [exact Hi|]. split; [intros H; apply Hf; unfold TOP_KEACH; lia|].
  unfold pick in E. set (es := combine (List.seq 0 (length l)) (map (fun c => (cost c, ev_occs c)) l)) in E.
  set (F := fun i => match nth_error l i with Some c => ev_occs c | None => [] end).
  assert (Ees : es = map (fun i => (i, (match nth_error l i with Some c => cost c | None => 0%Q end, F i))) (List.seq 0 (length l))).
  { unfold es, F. clear. assert (G : forall (l : list (ccand nat)) n (h : nat -> option (ccand nat)), (forall k, h (n + k)%nat = nth_error l k) ->
      combine (List.seq n (length l)) (map (fun c => (cost c, ev_occs c)) l) = map (fun i => (i, (match h i with Some c => cost c | None => 0%Q end, match h i with Some c => ev_occs c | None => [] end))) (List.seq n (length l))).
    { clear. induction l as [|c l IH]; intros n h H; [reflexivity|]. cbn [length List.seq map combine]. f_equal.
      - specialize (H O). rewrite Nat.add_0_r in H. rewrite H. reflexivity.
      - apply (IH (S n) h). intros k. specialize (H (S k)). cbn [nth_error] in H. rewrite <- H. f_equal. lia. }
    apply G. reflexivity. }
  assert (Ei : map e_id es = List.seq 0 (length l)) by (rewrite Ees, map_map; unfold e_id; cbn [fst]; apply map_id).
  destruct (C67_top_k es TOP_KEACH) as (Nsel & Hincl & _ & Hout & _); [rewrite Ei; apply seq_NoDup|]. cbn zeta in *. set (sel := topk_each es TOP_KEACH) in *. clearbody sel.
  assert (Er : concat (map dated r) = flat_map F sel).
  { rewrite (map_ext _ _ (fun c => eq_sym (ev_occs_dated c))). clear -E. revert r E. induction sel as [|i sel IH]; intros r E; cbn [map_out] in E; [injection E as <-; reflexivity|].
    unfold nth_out in E at 1. unfold F. cbn [flat_map]. destruct (nth_error l i) as [c|] eqn:En; [|discriminate]. cbn [bind] in E. destruct (map_out (nth_out l) sel) as [r'| |]; try discriminate.
    cbn [bind] in E. injection E as <-. cbn [map concat]. f_equal. apply IH. reflexivity. }
  assert (Et : forall o, times_covered es sel o = Z.of_nat (count_occ eq_dec (concat (map dated r)) o)).
  { intros o. unfold times_covered. f_equal. rewrite Er.
    assert (E1 : flat_map (fun e => if mem (e_id e) sel then e_unc e else []) es = flat_map F (filter (fun i => mem i sel) (List.seq 0 (length l)))).
    { rewrite Ees. clear. induction (List.seq 0 (length l)) as [|i q IH]; [reflexivity|]. cbn [map flat_map filter]. unfold e_id, e_unc at 1. cbn [fst snd].
      destruct (mem i sel); cbn [flat_map]; rewrite <- IH; reflexivity. }
    rewrite E1. apply (Permutation_count_occ eq_dec), Permutation_flat_map. apply NoDup_Permutation; [apply NoDup_filter, seq_NoDup | exact Nsel|].
    intros i. rewrite filter_In. destruct (mem_spec i sel) as [I|N]; split; try tauto; [|intros [_ X]; discriminate]. intros _. split; [|reflexivity].
    rewrite <- Ei. apply Hincl, I. }
  intros c Ic Nc o Io. rewrite <- ev_occs_dated in Io. apply In_nth_error in Ic. destruct Ic as (i & Ec).
  assert (Li : (i < length l)%nat) by (apply nth_error_Some; congruence).
  assert (Ie : In (i, (cost c, ev_occs c)) es).
  { rewrite Ees. apply in_map_iff. exists i. split; [unfold F; rewrite Ec; reflexivity | apply in_seq; lia]. }
  specialize (Hout _ Ie). assert (Ns : ~ In i sel).
  { intros I. apply Nc. clear -E I Ec. revert r E. induction sel as [|j sel IH]; intros r E; [destruct I|]. cbn [map_out] in E. unfold nth_out in E at 1.
    destruct (nth_error l j) as [c'|] eqn:En; [|discriminate]. cbn [bind] in E. destruct (map_out (nth_out l) sel) as [r'| |] eqn:Em; try discriminate. cbn [bind] in E. injection E as <-.
    destruct I as [->|I]; [left; congruence | right; apply (IH I), eq_refl]. }
  specialize (Hout Ns o Io). rewrite Et in Hout. unfold TOP_KEACH in Hout. lia.
Qed.
Theorem C86_selection : forall cost bare trip cyc small nm text_leb,
  (forall cls nested r, let cs := map fst cls in
     nest_cmplx cs (fun i => nth i (map snd cls) 0%Q) (of_cand cs bare None) (of_cand cs trip (fun _ _ => 0%Q)) (of_cand cs cyc (fun _ _ => 0%Q)) small (length cs + 2) nm text_leb (length cs) = Ret nested ->
     vertical_cands cost bare trip cyc small nm text_leb cls = Ret r -> chosen (map fst nested) r) /\
  (forall classes rs r,
     map_out (vertical_cands cost bare trip cyc small nm text_leb) (filter (fun cls => (3 <=? length cls)%nat) classes) = Ret rs ->
     run_vertical cost bare trip cyc small nm text_leb classes = Ret r -> chosen (concat rs) r).
Proof.
  assert (N : chosen [] []) by (split; [apply incl_refl|]; split; [reflexivity | intros c []]).
  intros cost bare trip cyc small nm text_leb. split.
  - intros cls nested r cs E. unfold vertical_cands. fold cs. rewrite E. cbn [bind]. destruct nested as [|x nested]; [intros [= <-]; exact N | apply pick_chosen].
  - intros classes rs r E. unfold run_vertical. rewrite E. cbn [bind]. destruct (concat rs) as [|c l]; [intros [= <-]; exact N | apply pick_chosen].
Qed.

(* ---------------------------------------------------------------- what does not hold *)
(* three occurrences two apart, from t on; all costs are 0 but the cost of a candidate, 1 *)
Definition trio (t : Z) : ccand nat := PropNest.at_ t 0 0.
Definition nest_trios (small : Z -> bool) (ts : list Z) : outcome (list (ccand nat * list nat)) :=
  nest_cmplx (map trio ts) (fun _ => 1%Q) (fun _ => Some 1%Q) (fun _ _ _ => 0%Q) (fun _ _ _ => 0%Q) small (length ts + 2) (fun _ k n => (k + S n)%nat) (fun _ _ => true) (length ts).
Lemma trio_sound t : sound (trio t).
Proof. apply C45_case. Qed.
Lemma trios_fine ts : (forall c, In c (map trio ts) -> sound c) /\ one_kind (map trio ts).
Proof.
  split.
  - intros c Hc. apply in_map_iff in Hc. destruct Hc as (t & <- & _). apply trio_sound.
  - intros c c' Hc Hc'. apply in_map_iff in Hc, Hc'. destruct Hc as (t & <- & _), Hc' as (t' & <- & _). reflexivity.
Qed.
Lemma nodup_spec (l : list Z) : (length (nodup Z.eq_dec l) =? length l)%nat = true -> NoDup l.
Proof.
  intros H. apply Nat.eqb_eq in H. apply (NoDup_incl_NoDup (l := nodup Z.eq_dec l)); [apply NoDup_nodup | lia | intros x Hx; apply nodup_In in Hx; exact Hx].
Qed.
Lemma not_nodup {B} `{EqDec B} (l : list B) : (length (nodup eq_dec l) =? length l)%nat = false -> ~ NoDup l.
Proof. intros H1 H2. rewrite (nodup_fixed_point eq_dec H2), Nat.eqb_refl in H1. discriminate. Qed.

(* A candidate may be used twice in one nested candidate: the occurrences of the candidates are
   all distinct, those of the nested candidate are not *)
Definition shared_starts : list Z := [0; 20; 30; 40; 50; 60; 68; 80; 90; 100; 120].
Theorem C86_twice_refuted : exists small (cs : list (ccand nat)) cost bare trip cyc nm text_leb fuel sfuel res c idxs,
  (forall c, In c cs -> sound c) /\ one_kind cs /\ (length cs <= fuel)%nat /\ (length cs + 2 <= sfuel)%nat /\
  NoDup (concat (map cc_O cs)) /\
  nest_cmplx cs cost bare trip cyc small sfuel nm text_leb fuel = Ret res /\ In (c, idxs) res /\
  ~ NoDup idxs /\ ~ NoDup (cc_O c).
Proof.
  assert (H : match nest_trios (fun d => d <? 5) shared_starts with
              | Ret ((c, idxs) :: _) => negb (length (nodup eq_dec idxs) =? length idxs)%nat && negb (length (nodup eq_dec (cc_O c)) =? length (cc_O c))%nat
              | _ => false end = true) by (vm_compute; reflexivity).
  destruct (nest_trios (fun d => d <? 5) shared_starts) as [res|e|] eqn:E; [|discriminate|discriminate]. destruct res as [|[c idxs] res]; [discriminate|].
  apply andb_true_iff in H. destruct H as [H1 H2]. apply negb_true_iff in H1, H2. unfold nest_trios in E.
  exists (fun d => d <? 5), (map trio shared_starts). do 8 eexists. exists ((c, idxs) :: res), c, idxs.
  split; [apply trios_fine|]. split; [apply trios_fine|]. split; [|split; [|split; [|split; [exact E|]]]].
  - rewrite map_length. apply le_n.
  - rewrite map_length. apply le_n.
  - apply nodup_spec. vm_compute. reflexivity.
  - split; [left; reflexivity|]. split; apply not_nodup; assumption.
Qed.

(* Evenly spaced candidates may be lost.  The three trios from 330 on are nested on their own,
   and also among the others as long as two trios far from them are left out; with these they
   are in no nested candidate. *)
Definition crowd (more : list Z) : list Z :=
  [0; 20] ++ firstn 1 more ++ [40] ++ skipn 1 more ++ [200; 220; 240; 330; 350; 370; 1000; 1020; 1040; 1100; 1120; 1140; 1200; 1220; 1240].
Definition starts_in (ts : list Z) (res : list (ccand nat * list nat)) : list (list Z) := map (fun ci => map (fun i => nth i ts 0) (snd ci)) res.
Theorem C86_lost_refuted : exists small alone without all,
  nest_trios small [330; 350; 370] = Ret alone /\ In [330; 350; 370] (starts_in [330; 350; 370] alone) /\
  nest_trios small (crowd []) = Ret without /\ In [330; 350; 370] (starts_in (crowd []) without) /\
  nest_trios small (crowd [26; 46]) = Ret all /\ NoDup (concat (map cc_O (map trio (crowd [26; 46])))) /\
  forall g t, In g (starts_in (crowd [26; 46]) all) -> In t [330; 350; 370] -> ~ In t g.
Proof.
  assert (H : match nest_trios (fun d => d <? 9) [330; 350; 370], nest_trios (fun d => d <? 9) (crowd []), nest_trios (fun d => d <? 9) (crowd [26; 46]) with
              | Ret a, Ret b, Ret c => mem [330; 350; 370] (starts_in [330; 350; 370] a) && mem [330; 350; 370] (starts_in (crowd []) b) &&
                  forallb (fun g => forallb (fun t => negb (mem t g)) [330; 350; 370]) (starts_in (crowd [26; 46]) c)
              | _, _, _ => false end = true) by (vm_compute; reflexivity).
  destruct (nest_trios (fun d => d <? 9) [330; 350; 370]) as [a|e|] eqn:Ea; [|discriminate|discriminate].
  destruct (nest_trios (fun d => d <? 9) (crowd [])) as [b|e|] eqn:Eb; [|discriminate|discriminate].
  destruct (nest_trios (fun d => d <? 9) (crowd [26; 46])) as [c|e|] eqn:Ec; [|discriminate|discriminate].
  apply andb_true_iff in H. destruct H as [H H3]. apply andb_true_iff in H. destruct H as [H1 H2].
  assert (M : forall (B : Type) (HB : EqDec B) (x : B) l, mem x l = true -> In x l) by (intros B HB x l Hm; destruct (mem_spec x l); [assumption | discriminate]).
  exists (fun d => d <? 9), a, b, c. split; [exact Ea|]. split; [apply (M _ _ _ _ H1)|]. split; [exact Eb|]. split; [apply (M _ _ _ _ H2)|]. split; [exact Ec|].
  split; [apply nodup_spec; vm_compute; reflexivity|].
  intros g t Hg Ht I. rewrite forallb_forall in H3. specialize (H3 g Hg). rewrite forallb_forall in H3. specialize (H3 t Ht). apply negb_true_iff in H3.
  destruct (mem_spec t g); [discriminate | contradiction].
Qed.
Print Assumptions C86_nested.
Print Assumptions C86_choice.
Print Assumptions C86_same_start.
Print Assumptions C86_vertical.
Print Assumptions C86_selection.
Print Assumptions C86_twice_refuted.
Print Assumptions C86_lost_refuted.

(* The hypotheses are met: nine trios give two nested candidates, days in weeks and weeks in
   days; the first has its occurrences out of order. *)
Definition nine : list Z := [0; 20; 40; 200; 220; 240; 400; 420; 440].
Example C86_case :
  match nest_trios (fun d => d <? 5) nine with Ret res => Some (starts_in nine res, map (fun ci => cycle_ps (tree_of (fst ci))) res) | _ => None end =
    Some ([[0; 200; 400; 20; 220; 420; 40; 240; 440]; [0; 20; 40; 200; 220; 240; 400; 420; 440]], [[20; 200; 2]; [200; 20; 2]]) /\
  ((forall c, In c (map trio nine) -> sound c) /\ one_kind (map trio nine)) /\ fresh_levels (fun (_ : list (ccand nat)) k n => (k + S n)%nat) /\
  match run_vertical (fun _ => 1%Q) (fun _ => Some 1%Q) (fun _ _ _ => 0%Q) (fun _ _ _ => 0%Q) (fun d => d <? 5) (fun _ k n => (k + S n)%nat) (fun _ _ => true)
          (map (map (fun t => (trio t, 1%Q))) [nine; [0; 20]; [70; 90; 110]]) with
  | Ret l => Some (map (fun c => length (cc_O c)) l) | _ => None end = Some [27; 27; 9]%nat.
Proof.
  split; [vm_compute; reflexivity|]. split; [apply trios_fine|]. split; [|vm_compute; reflexivity].
  intros c0 rest n H. apply NoDup_app_intro; [apply seq_NoDup | apply FinFun.Injective_map_NoDup; [intros a b E; lia | exact H]|].
  intros x Hx I. apply in_seq in Hx. apply in_map_iff in I. destruct I as (y & <- & _). lia.
Qed.
