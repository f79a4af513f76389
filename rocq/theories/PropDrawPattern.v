(* C112: the drawing of a periodic pattern. *)
From Coq Require Import NArith String Permutation.
From Verif Require Import Prelude CheckModel LCMModel TextModel SplitModel ExportModel DrawPatternModel.
Local Open Scope Z_scope.

(* ------------------------------------------------------------ specification *)
(* a pattern: a block with a number, a period, how often it is repeated, and its parts, each with its distance
   from the part before; or an event with its number *)
Inductive tree := Blk (i p r : Z) (parts : forest) | Ev (i : Z) (e : text)
with forest := Nil | Cons (t : tree) (d : dist) (f : forest).
Definition root (t : tree) : Z := match t with Blk i _ _ _ => i | Ev i _ => i end.
Fixpoint list_of (f : forest) : list (tree * dist) := match f with Nil => [] | Cons t d f' => (t, d) :: list_of f' end.
Definition parts (t : tree) : list (tree * dist) := match t with Blk _ _ _ f => list_of f | Ev _ _ => [] end.
(* all blocks and events of a pattern, from the root down and from left to right *)
Fixpoint nodes (t : tree) : list tree := t :: match t with Blk _ _ _ f => nodes_f f | Ev _ _ => [] end
with nodes_f (f : forest) : list tree := match f with Nil => [] | Cons t _ f' => nodes t ++ nodes_f f' end.
Fixpoint depth (t : tree) : nat := match t with Blk _ _ _ f => S (depth_f f) | Ev _ _ => 1 end
with depth_f (f : forest) : nat := match f with Nil => 0 | Cons t _ f' => Nat.max (depth t) (depth_f f') end.
(* the dictionary of the pattern *)
Definition content (t : tree) : pnode :=
  match t with Blk _ p r f => Block p r (map (fun k => (root (fst k), snd k)) (list_of f)) | Ev _ e => Event e end.
Definition stored (pat : list (Z * pnode)) (t : tree) : Prop :=
  forall s, In s (nodes t) -> dget pat (root s) = Some (content s).
(* numbers are not negative; the first part of a block is at distance 0 *)
Definition regular (t : tree) : Prop :=
  forall s, In s (nodes t) -> 0 <= root s /\ match parts s with [] => True | (_, d) :: _ => d = Int 0 end.
(* what is written in a node; the first time stands in node 0 *)
Definition label (str_p : Z -> text) (t0 : text) (t : tree) : text :=
  match t with
  | Blk i p r _ => (if i =? 0 then ([120591%N] ++ lit "=") ++ t0 ++ [nl] else []) ++ lit "p=" ++ str_p p ++ [nl] ++ lit "r=" ++ str_z r
  | Ev _ e => e
  end.
Definition is_block (t : tree) : bool := match t with Blk _ _ _ _ => true | Ev _ _ => false end.
(* neighbours that are apart; a timedelta is always shown *)
Definition apart (d : dist) : bool := match d with Int z => negb (Z.eqb z 0) | Delta _ => true end.
Fixpoint gaps (l : list (tree * dist)) : list (Z * Z * dist) :=
  match l with
  | (a, _) :: ((b, d) :: _) as l' => (if apart d then [(root a, root b, d)] else []) ++ gaps l'
  | _ => []
  end.
(* what a drawing shows *)
Definition shown_nodes (c : list call) : list (Z * bool * text) :=
  flat_map (fun x => match x with Box i l => [(i, true, l)] | Oval i l => [(i, false, l)] | _ => [] end) c.
Definition shown_lines (c : list call) : list (Z * Z) := flat_map (fun x => match x with Line a b => [(a, b)] | _ => [] end) c.
Definition shown_gaps (c : list call) : list (Z * Z * dist) := flat_map (fun x => match x with Dotted a b d => [(a, b, d)] | _ => [] end) c.
Definition line_list (l : list tree) : list (Z * Z) := flat_map (fun s => map (fun k => (root s, root (fst k))) (parts s)) l.
Definition gap_list (l : list tree) : list (Z * Z * dist) := flat_map (fun s => gaps (parts s)) l.

(* ------------------------------------------------------------------- proofs *)
Scheme tree_mut := Induction for tree Sort Prop with forest_mut := Induction for forest Sort Prop.
Fixpoint gaps_from (prev : Z) (l : list (tree * dist)) : list (Z * Z * dist) :=
  match l with [] => [] | (b, d) :: t => (if apart d then [(prev, root b, d)] else []) ++ gaps_from (root b) t end.
Lemma gaps_from_gaps l : forall a d, gaps ((a, d) :: l) = gaps_from (root a) l.
Proof.
  induction l as [|[b e] l IH]; intros a d; [reflexivity|].
  change (gaps ((a, d) :: (b, e) :: l)) with ((if apart e then [(root a, root b, e)] else []) ++ gaps ((b, e) :: l)). rewrite IH. reflexivity.
Qed.
Lemma gaps_first l prev : match l with [] => True | (_, d) :: _ => d = Int 0 end -> gaps_from prev l = gaps l.
Proof. destruct l as [|[a d] l]; [reflexivity|]. intros ->. rewrite gaps_from_gaps. reflexivity. Qed.

Section Proofs.
  Context (str_p : Z -> text) (pat : list (Z * pnode)) (t0 : text).
  Notation draw := (draw_rec str_p pat (Some t0)).
  Definition loop (f : nat) (i : Z) : Z -> list (Z * dist) -> outcome (list call) :=
    fix loop (prev : Z) (l : list (Z * dist)) : outcome (list call) :=
      match l with
      | [] => Ret []
      | (c, d) :: t =>
          bind (draw f c i (if nonzero d then (prev, d) else (-1, Int (-1)))) (fun a =>
          bind (loop c t) (fun b => Ret (a ++ b)))
      end.
  Definition dist_shown (i : Z) (dst : Z * dist) : list (Z * Z * dist) :=
    if (fst dst =? -1) && minus_one (snd dst) then [] else [(fst dst, i, snd dst)].
  Definition names (l : list tree) := map (fun s => (root s, is_block s, label str_p t0 s)) l.

  Lemma shown_nodes_app a b : shown_nodes (a ++ b) = shown_nodes a ++ shown_nodes b.
  Proof. apply flat_map_app. Qed.
  Lemma shown_lines_app a b : shown_lines (a ++ b) = shown_lines a ++ shown_lines b.
  Proof. apply flat_map_app. Qed.
  Lemma shown_gaps_app a b : shown_gaps (a ++ b) = shown_gaps a ++ shown_gaps b.
  Proof. apply flat_map_app. Qed.
  Lemma shown_dotted i dst : shown_nodes (dotted i dst) = [] /\ shown_lines (dotted i dst) = [] /\ shown_gaps (dotted i dst) = dist_shown i dst.
  Proof. unfold dotted, dist_shown. destruct ((fst dst =? -1) && minus_one (snd dst)); repeat split. Qed.

  Lemma block_case i p r f fuel parent dst (Hst : stored pat (Blk i p r f)) :
    draw (S fuel) i parent dst =
    bind (loop fuel i (last (map fst (map (fun k => (root (fst k), snd k)) (list_of f))) 0) (map (fun k => (root (fst k), snd k)) (list_of f)))
      (fun below => Ret (Box i (label str_p t0 (Blk i p r f)) :: (if parent =? -1 then [] else Line parent i :: dotted i dst) ++ below)).
  Proof.
    cbn [draw_rec]. rewrite (Hst (Blk i p r f) (or_introl eq_refl) : dget pat i = _). cbn [content]. unfold block_label, label.
    destruct (i =? 0); cbn [bind app]; [rewrite <- !app_assoc|]; reflexivity.
  Qed.

  Definition good_tree (t : tree) : Prop := stored pat t -> regular t -> forall fuel parent dst, (depth t <= fuel)%nat ->
    (is_block t = true \/ 0 <= parent) ->
    exists c, draw fuel (root t) parent dst = Ret c /\ shown_nodes c = names (nodes t) /\
      Permutation (shown_lines c) ((if parent =? -1 then [] else [(parent, root t)]) ++ line_list (nodes t)) /\
      Permutation (shown_gaps c) ((if parent =? -1 then [] else dist_shown (root t) dst) ++ gap_list (nodes t)).
  Definition good_forest (f : forest) : Prop := (forall s, In s (nodes_f f) -> dget pat (root s) = Some (content s)) ->
    (forall s, In s (nodes_f f) -> 0 <= root s /\ match parts s with [] => True | (_, d) :: _ => d = Int 0 end) ->
    forall fuel i prev, (depth_f f <= fuel)%nat -> 0 <= i -> (0 <= prev \/ match list_of f with [] => True | (_, d) :: _ => d = Int 0 end) ->
    exists c, loop fuel i prev (map (fun k => (root (fst k), snd k)) (list_of f)) = Ret c /\ shown_nodes c = names (nodes_f f) /\
      Permutation (shown_lines c) (map (fun k => (i, root (fst k))) (list_of f) ++ line_list (nodes_f f)) /\
      Permutation (shown_gaps c) (gaps_from prev (list_of f) ++ gap_list (nodes_f f)).

  Lemma root_in t : In t (nodes t).
  Proof. destruct t; left; reflexivity. Qed.
  Lemma draw_good : (forall t, good_tree t) /\ (forall f, good_forest f).
  Proof.
    assert (HB : forall i p r f, good_forest f -> good_tree (Blk i p r f)).
    { intros i p r f IH Hst Hreg fuel parent dst Hfuel _. cbn [depth] in Hfuel. destruct fuel as [|fuel]; [lia|].
      destruct (Hreg _ (or_introl eq_refl)) as [Hi Hfirst]. cbn [root parts] in Hi, Hfirst.
      destruct (IH (fun s Hs => Hst s (or_intror Hs)) (fun s Hs => Hreg s (or_intror Hs)) fuel i (last (map fst (map (fun k => (root (fst k), snd k)) (list_of f))) 0) ltac:(lia) Hi (or_intror Hfirst))
        as (c & Ec & En & El & Eg).
      cbn [root]. rewrite (block_case i p r f fuel parent dst Hst), Ec. cbn [bind]. eexists. split; [reflexivity|].
      destruct (shown_dotted i dst) as (D1 & D2 & D3).
      rewrite (gaps_first _ _ Hfirst) in Eg. destruct (parent =? -1).
      - cbn [app]. split; [|split].
        + change (shown_nodes (Box i (label str_p t0 (Blk i p r f)) :: c)) with ((i, true, label str_p t0 (Blk i p r f)) :: shown_nodes c). rewrite En. reflexivity.
        + exact El.
        + exact Eg.
      - split; [|split].
        + change (shown_nodes (Box i (label str_p t0 (Blk i p r f)) :: (Line parent i :: dotted i dst) ++ c))
            with ((i, true, label str_p t0 (Blk i p r f)) :: shown_nodes (dotted i dst ++ c)). rewrite shown_nodes_app, D1, En. reflexivity.
        + change (shown_lines (Box i (label str_p t0 (Blk i p r f)) :: (Line parent i :: dotted i dst) ++ c))
            with ((parent, i) :: shown_lines (dotted i dst ++ c)). rewrite shown_lines_app, D2. cbn [app]. constructor. exact El.
        + change (shown_gaps (Box i (label str_p t0 (Blk i p r f)) :: (Line parent i :: dotted i dst) ++ c))
            with (shown_gaps (dotted i dst ++ c)). rewrite shown_gaps_app, D3. apply Permutation_app_head. exact Eg. }
    assert (HE : forall i e, good_tree (Ev i e)).
    { intros i e Hst Hreg fuel parent dst Hfuel [Hb|Hp]; [discriminate|]. cbn [depth] in Hfuel. destruct fuel as [|fuel]; [lia|].
      cbn [draw_rec root]. rewrite (Hst (Ev i e) (or_introl eq_refl) : dget pat i = _). cbn [content]. eexists. split; [reflexivity|].
      destruct (Z.eqb_spec parent (-1)) as [E|_]; [lia|]. destruct (shown_dotted i dst) as (D1 & D2 & D3). split; [|split].
      - change (shown_nodes (Oval i e :: Line parent i :: dotted i dst)) with ((i, false, e) :: shown_nodes (dotted i dst)). rewrite D1. reflexivity.
      - change (shown_lines (Oval i e :: Line parent i :: dotted i dst)) with ((parent, i) :: shown_lines (dotted i dst)). rewrite D2. reflexivity.
      - change (shown_gaps (Oval i e :: Line parent i :: dotted i dst)) with (shown_gaps (dotted i dst)). rewrite D3. cbn. rewrite app_nil_r. reflexivity. }
    assert (HN : good_forest Nil).
    { intros _ _ fuel i prev _ _ _. exists []. repeat split; constructor. }
    assert (HC : forall t, good_tree t -> forall d f, good_forest f -> good_forest (Cons t d f)).
    { intros t IHt d f IHf Hst Hreg fuel i prev Hfuel Hi Hprev. cbn [depth_f] in Hfuel. cbn [nodes_f] in Hst, Hreg.
      assert (Hst1 : stored pat t) by (intros s Hs; apply Hst, in_or_app; left; exact Hs).
      assert (Hreg1 : regular t) by (intros s Hs; apply Hreg, in_or_app; left; exact Hs).
      destruct (Hreg1 t (root_in t)) as [Hr _].
      destruct (IHt Hst1 Hreg1 fuel i (if nonzero d then (prev, d) else (-1, Int (-1))) ltac:(lia) (or_intror Hi)) as (a & Ea & Na & La & Ga).
      destruct (IHf (fun s Hs => Hst s (in_or_app _ _ _ (or_intror Hs))) (fun s Hs => Hreg s (in_or_app _ _ _ (or_intror Hs))) fuel i (root t) ltac:(lia) Hi (or_introl Hr)) as (b & Eb & Nb & Lb & Gb).
      exists (a ++ b). cbn [list_of map fst snd]. split; [cbn [loop]; rewrite Ea; cbn [bind]; change (bind (loop fuel i (root t) (map (fun k => (root (fst k), snd k)) (list_of f))) (fun b0 => Ret (a ++ b0)) = Ret (a ++ b)); rewrite Eb; reflexivity|].
      assert (Ei : (i =? -1) = false) by (apply Z.eqb_neq; lia). rewrite Ei in La, Ga.
      split; [rewrite shown_nodes_app, Na, Nb; cbn [nodes_f]; unfold names; rewrite map_app; reflexivity|]. split.
      - rewrite shown_lines_app, La, Lb. cbn [nodes_f]. unfold line_list. rewrite flat_map_app. cbn [app]. constructor.
        rewrite !app_assoc. apply Permutation_app_tail. apply Permutation_app_comm.
      - rewrite shown_gaps_app, Ga, Gb. cbn [nodes_f gaps_from]. unfold gap_list. rewrite flat_map_app.
        assert (Ed : dist_shown (root t) (if nonzero d then (prev, d) else (-1, Int (-1))) = (if apart d then [(prev, root t, d)] else [])).
        { unfold dist_shown. change (nonzero d) with (apart d). destruct (apart d) eqn:Ea'; [|reflexivity]. cbn [fst snd].
          destruct Hprev as [Hp|Hp]; [|cbn in Hp; subst d; discriminate Ea']. destruct (Z.eqb_spec prev (-1)); [lia|]. reflexivity. }
        rewrite Ed, <- !app_assoc. apply Permutation_app_head. rewrite !app_assoc. apply Permutation_app_tail. apply Permutation_app_comm. }
    split.
    - intros t. apply (tree_mut good_tree good_forest); auto.
    - intros f. apply (forest_mut good_tree good_forest); auto.
  Qed.
End Proofs.

(* the drawing of a pattern with a block at the root: one node for each block and event, with its text; one line from
   each block to each of its parts; one dotted edge with the distance between neighbours that are apart; nothing
   else *)
Theorem C112_drawing : forall str_p pat t0 p r f fuel, let t := Blk 0 p r f in stored pat t -> regular t -> (depth t <= fuel)%nat ->
  exists c, draw_pattern str_p pat (Some t0) fuel = Ret c /\
    shown_nodes c = map (fun s => (root s, is_block s, label str_p t0 s)) (nodes t) /\
    Permutation (shown_lines c) (line_list (nodes t)) /\ Permutation (shown_gaps c) (gap_list (nodes t)).
Proof.
  intros str_p pat t0 p r f fuel t Hst Hreg Hfuel.
  destruct (proj1 (draw_good str_p pat t0) t Hst Hreg fuel (-1) (-1, Int (-1)) Hfuel (or_introl eq_refl)) as (c & E & N & L & G).
  exists c. split; [exact E|]. split; [exact N|]. split; [exact L | exact G].
Qed.
Print Assumptions C112_drawing.

(* a pattern that is a single event is drawn below a node -1 that is not in the pattern *)
Theorem C112_event_refuted : forall str_p e, exists c, draw_pattern str_p [(0, Event e)] None 1 = Ret c /\ In (Line (-1) 0) c.
Proof. intros str_p e. eexists. split; [reflexivity|]. right. left. reflexivity. Qed.
Print Assumptions C112_event_refuted.

(* with dates, two parts at the same time are joined by a dotted edge; without dates they are not *)
Theorem C112_dates_refuted : forall str_p t0, exists pat d c c', draw_pattern str_p (pat (Delta d)) (Some t0) 2 = Ret c /\ d = 0 /\ shown_gaps c = [(1, 2, Delta 0)] /\
  draw_pattern str_p (pat (Int d)) (Some t0) 2 = Ret c' /\ shown_gaps c' = [].
Proof.
  intros str_p t0. exists (fun d => [(0, Block 24 5 [(1, Int 0); (2, d)]); (1, Event (lit "a")); (2, Event (lit "b"))]), 0. do 2 eexists.
  split; [reflexivity|]. split; [reflexivity|]. split; [reflexivity|]. split; reflexivity.
Qed.
Print Assumptions C112_dates_refuted.

(* a block of two events 3 apart, repeated, then an event at the same time as the block *)
Definition sample : tree := Blk 0 24 5 (Cons (Blk 1 2 3 (Cons (Ev 2 (lit "a")) (Int 0) (Cons (Ev 3 (lit "b")) (Int 3) Nil))) (Int 0) (Cons (Ev 4 (lit "c")) (Int 0) (Cons (Ev 5 (lit "a")) (Int 7) Nil))).
Definition sample_dict : list (Z * pnode) :=
  [(0, Block 24 5 [(1, Int 0); (4, Int 0); (5, Int 7)]); (1, Block 2 3 [(2, Int 0); (3, Int 3)]); (2, Event (lit "a")); (3, Event (lit "b")); (4, Event (lit "c")); (5, Event (lit "a"))].
Example C112_case : stored sample_dict sample /\ regular sample /\
  draw_pattern str_z sample_dict (Some (lit "9")) 3 =
  Ret [Box 0 ([120591%N] ++ lit "=" ++ lit "9" ++ [nl] ++ lit "p=24" ++ [nl] ++ lit "r=5"); Box 1 (lit "p=2" ++ [nl] ++ lit "r=3"); Line 0 1;
       Oval 2 (lit "a"); Line 1 2; Oval 3 (lit "b"); Line 1 3; Dotted 2 3 (Int 3); Oval 4 (lit "c"); Line 0 4; Oval 5 (lit "a"); Line 0 5; Dotted 4 5 (Int 7)].
Proof.
  split; [|split].
  - intros s Hs. cbn in Hs. repeat (destruct Hs as [<-|Hs]; [reflexivity|]). destruct Hs.
  - intros s Hs. cbn in Hs. repeat (destruct Hs as [<-|Hs]; [split; [discriminate | cbn; auto]|]). destruct Hs.
  - vm_compute. reflexivity.
Qed.
