(* C107: patterns are written whatever mix of Python and numpy integers they hold. *)
From Coq Require Import String NArith.
From Verif Require Import Prelude CheckModel LCMModel VerticalProofs TextModel SplitModel SplitProofs ArrayModel PeriodModel PropPeriod TreeModel TreeProofs CyclesModel PropCycles ExportModel PropExport NumpyModel.
Local Open Scope Z_scope.

(* ------------------------------------------------------------ specification *)
(* a value with Python and numpy integers stands for a value with integers *)
Inductive stands : pv -> jv -> Prop :=
| s_none : stands PNone JNull
| s_int z : stands (PInt z) (JInt z)
| s_np z : stands (PNp z) (JInt z)
| s_list l m : Forall2 stands l m -> stands (PList l) (JList m)
| s_tuple l m : Forall2 stands l m -> stands (PTuple l) (JTuple m)
| s_dict d e : Forall2 (fun kw kj => fst kw = fst kj /\ stands (snd kw) (snd kj)) d e -> stands (PDict d) (JDict e).
(* an entry of a dictionary stands for an entry with the same key *)
Definition entry_stands (kw : jkey * pv) (kj : jkey * jv) : Prop := fst kw = fst kj /\ stands (snd kw) (snd kj).

(* ------------------------------------------------------------ proofs *)
Section Ind.
  Context (P : pv -> Prop) (H1 : P PNone) (H2 : forall z, P (PInt z)) (H3 : forall z, P (PNp z))
    (H4 : forall l, Forall P l -> P (PList l)) (H5 : forall l, Forall P l -> P (PTuple l))
    (H6 : forall d, Forall (fun kw => P (snd kw)) d -> P (PDict d)).
  Fixpoint pv_ind' (v : pv) : P v :=
    match v with
    | PNone => H1
    | PInt z => H2 z
    | PNp z => H3 z
    | PList l => H4 l ((fix go l : Forall P l := match l with [] => Forall_nil _ | x :: l' => Forall_cons _ (pv_ind' x) (go l') end) l)
    | PTuple l => H5 l ((fix go l : Forall P l := match l with [] => Forall_nil _ | x :: l' => Forall_cons _ (pv_ind' x) (go l') end) l)
    | PDict d => H6 d ((fix go l : Forall (fun kw => P (snd kw)) l := match l with [] => Forall_nil _ | kw :: l' => Forall_cons _ (pv_ind' (snd kw)) (go l') end) d)
    end.
End Ind.

Definition change_value (w : pv) : pv :=
  match w with PDict _ => change_int64 w | PList l => PList (map change_item l) | PNp z => PInt z | _ => w end.
Lemma change_dict d : change_int64 (PDict d) = PDict (map (fun kw => (fst kw, change_value (snd kw))) d).
Proof. cbn [change_int64]. f_equal. apply map_ext. intros [k w]. reflexivity. Qed.
Lemma to_int_stands v j : stands v j -> stands (to_int v) j.
Proof. intros S. destruct S; cbn [to_int]; constructor; assumption. Qed.
Lemma to_ints_stand l m : Forall2 stands l m -> Forall2 stands (map to_int l) m.
Proof. induction 1; constructor; [apply to_int_stands; assumption|assumption]. Qed.
Lemma item_stands v j : stands v j -> stands (change_item v) j.
Proof. intros S. destruct S; cbn [change_item]; constructor; try assumption; apply to_ints_stand; assumption. Qed.
Lemma change_stands v : forall j, stands v j -> stands (change_int64 v) j.
Proof.
  induction v as [|z|z|l IH|l IH|d IH] using pv_ind'; intros j S; try exact S. rewrite change_dict. inversion S as [| | | | |? e F]; subst. constructor.
  clear S. induction F as [|[k w] [k' j] d e [E S] F IHF]; [constructor|]. inversion IH as [|? ? Hw Hd]; subst. cbn [map fst snd] in *. constructor; [|apply IHF, Hd].
  cbn [fst snd]. split; [exact E|]. destruct S; cbn [change_value]; try (constructor; assumption).
  - constructor. clear - H. induction H; constructor; [apply item_stands; assumption|assumption].
  - apply Hw. constructor; assumption.
Qed.
Lemma change_again v : change_int64 (change_int64 v) = change_int64 v.
Proof.
  induction v as [|z|z|l IH|l IH|d IH] using pv_ind'; try reflexivity. rewrite !change_dict, map_map. f_equal.
  assert (T : forall x, to_int (to_int x) = to_int x) by (intros []; reflexivity).
  induction IH as [|[k w] d Hw Hd IHd]; [reflexivity|]. cbn [map fst snd] in *. rewrite IHd. f_equal. f_equal.
  destruct w; try reflexivity.
  - cbn [change_value]. f_equal. rewrite map_map. apply map_ext. intros x. destruct x; cbn [change_item]; try reflexivity; rewrite map_map; f_equal; apply map_ext, T.
  - unfold change_value at 2. destruct (change_int64 (PDict d0)) eqn:E; try discriminate. change (change_value (PDict d0)) with (change_int64 (PDict d0)). rewrite E. exact Hw.
Qed.

(* writing *)
Definition dumps_list : list pv -> outcome (list jv) :=
  fix go (l : list pv) : outcome (list jv) :=
    match l with [] => Ret [] | x :: l' => bind (dumps x) (fun y => bind (go l') (fun r => Ret (y :: r))) end.
Definition dumps_dict : list (jkey * pv) -> outcome (list (jkey * jv)) :=
  fix go (l : list (jkey * pv)) : outcome (list (jkey * jv)) :=
    match l with [] => Ret [] | (k, x) :: l' => bind (dumps x) (fun y => bind (go l') (fun r => Ret ((k, y) :: r))) end.
Lemma dumps_list_all l m : Forall2 (fun x y => dumps x = Ret y) l m -> dumps_list l = Ret m.
Proof. induction 1 as [|x y l m E F IH]; [reflexivity|]. cbn [dumps_list]. fold dumps_list. rewrite E. cbn [bind]. rewrite IH. reflexivity. Qed.
Lemma dumps_dict_all d e : Forall2 (fun kw kj => fst kw = fst kj /\ dumps (snd kw) = Ret (snd kj)) d e -> dumps_dict d = Ret e.
Proof.
  induction 1 as [|[k x] [k' y] l m [E1 E2] F IH]; [reflexivity|]. cbn [fst snd] in *. subst. cbn [dumps_dict]. fold dumps_dict. rewrite E2. cbn [bind]. rewrite IH. reflexivity.
Qed.
Lemma dumps_PList l m : Forall2 (fun x y => dumps x = Ret y) l m -> dumps (PList l) = Ret (JList m).
Proof. intros F. cbn [dumps]. fold dumps_list. rewrite (dumps_list_all _ _ F). reflexivity. Qed.
Lemma dumps_PTuple l m : Forall2 (fun x y => dumps x = Ret y) l m -> dumps (PTuple l) = Ret (JTuple m).
Proof. intros F. cbn [dumps]. fold dumps_list. rewrite (dumps_list_all _ _ F). reflexivity. Qed.
Lemma dumps_PDict d e : Forall2 (fun kw kj => fst kw = fst kj /\ dumps (snd kw) = Ret (snd kj)) d e -> dumps (PDict d) = Ret (JDict e).
Proof. intros F. cbn [dumps]. fold dumps_dict. rewrite (dumps_dict_all _ _ F). reflexivity. Qed.

Lemma written_int w z : stands w (JInt z) -> dumps (change_value w) = Ret (JInt z) /\ dumps (to_int w) = Ret (JInt z).
Proof. intros S. inversion S; subst; auto. Qed.
Lemma written_parent w o : stands w (jparent o) -> dumps (change_value w) = Ret (jparent o).
Proof. destruct o; intros S; [apply written_int, S|]. inversion S; reflexivity. Qed.
Lemma written_node w pn : stands w (enc_node pn) -> dumps (change_value w) = Ret (enc_node pn).
Proof.
  intros S. destruct pn as [pa e|pa p r ch]; cbn [enc_node] in *; inversion S as [| | | | |d ? F]; subst; unfold change_value; rewrite change_dict; apply dumps_PDict.
  - inversion F as [|[k1 w1] ? d1 ? [E1 S1] F1]; subst. inversion F1 as [|[k2 w2] ? d2 ? [E2 S2] F2]; subst. inversion F2; subst. cbn [fst snd map] in *.
    constructor; [split; [exact E1|apply written_parent, S1]|]. constructor; [split; [exact E2|apply written_int, S2]|constructor].
  - inversion F as [|[k1 w1] ? d1 ? [E1 S1] F1]; subst. inversion F1 as [|[k2 w2] ? d2 ? [E2 S2] F2]; subst.
    inversion F2 as [|[k3 w3] ? d3 ? [E3 S3] F3]; subst. inversion F3 as [|[k4 w4] ? d4 ? [E4 S4] F4]; subst. inversion F4; subst. cbn [fst snd map] in *.
    constructor; [split; [exact E1|apply written_parent, S1]|]. constructor; [split; [exact E2|apply written_int, S2]|].
    constructor; [split; [exact E3|apply written_int, S3]|]. constructor; [split; [exact E4|]|constructor].
    inversion S4 as [| | |l ? Fl| |]; subst. cbn [change_value]. apply dumps_PList. clear - Fl. revert l Fl. induction ch as [|c ch IH]; intros l Fl; inversion Fl as [|x ? l' ? Sx Fl']; subst; [constructor|].
    cbn [map]. constructor; [|apply IH, Fl']. inversion Sx as [| | | |m ? Fm|]; subst. cbn [change_item]. apply dumps_PTuple.
    inversion Fm as [|a ? ? ? Sa Fm1]; subst. inversion Fm1 as [|b ? ? ? Sb Fm2]; subst. inversion Fm2; subst. cbn [map].
    constructor; [apply (written_int a), Sa|]. constructor; [apply (written_int b), Sb|constructor].
Qed.
Lemma dset_stands d e k w j : Forall2 entry_stands d e -> stands w j -> Forall2 entry_stands (dset d k w) (dset e k j).
Proof.
  induction 1 as [|[k1 w1] [k2 j2] d e [E S1] F IH]; intros S; cbn [dset].
  - constructor; [split; [reflexivity|exact S]|constructor].
  - cbn [fst snd] in *. subst k2. destruct (eq_dec k k1) as [->|N]; constructor; try (split; [reflexivity|assumption]); auto.
Qed.
Lemma stands_keys d e : Forall2 entry_stands d e -> dkeys d = dkeys e.
Proof. induction 1 as [|[k1 w1] [k2 j2] d e [E _] F IH]; [reflexivity|]. unfold dkeys in *. cbn [map fst] in *. congruence. Qed.
Lemma Forall2_weak {X Y} (R R' : X -> Y -> Prop) l m : (forall x y, R x y -> R' x y) -> Forall2 R l m -> Forall2 R' l m.
Proof. intros I. induction 1; constructor; auto. Qed.
Lemma Forall2_In {X Y} (R : X -> Y -> Prop) l m : Forall2 R l m -> Forall2 (fun x y => R x y /\ In x l /\ In y m) l m.
Proof.
  induction 1 as [|x y l m E F IH]; [constructor|]. constructor; [cbn; auto|]. eapply Forall2_weak; [|exact IH]. cbn. intros a b (Ra & Ia & Ib). auto.
Qed.
Lemma int_of_stands w z : stands w (JInt z) -> int_of w = Ret z.
Proof. intros S. inversion S; reflexivity. Qed.
Lemma ints_of_stand l m : Forall2 stands l (map JInt m) -> map_out int_of l = Ret m.
Proof.
  revert m. induction l as [|x l IH]; intros [|z m] F; inversion F as [|? ? ? ? Sx F']; subst; [reflexivity|]. cbn [map_out]. rewrite (int_of_stands _ _ Sx). cbn [bind]. rewrite (IH _ F'). reflexivity.
Qed.
Lemma ints_stand m : Forall2 stands (map PInt m) (map JInt m).
Proof. induction m; constructor; [constructor|assumption]. Qed.

(* ------------------------------------------------------------ the property *)
(* the conversion changes no value, and doing it again changes nothing *)
Theorem C107_values : forall v, (forall j, stands v j -> stands (change_int64 v) j) /\ change_int64 (change_int64 v) = change_int64 v.
Proof. intros v. split; [apply change_stands|apply change_again]. Qed.
(* the dictionary of a pattern, any of its integers a Python or a numpy one, is written with
   its own values, next_id, t0 and E *)
Theorem C107_written : forall o nodes next_id t0 E, proper o ->
  stands (PDict nodes) (JDict (op_nodes o)) -> stands next_id (JInt (op_next o)) -> stands t0 (JInt (op_t0 o)) -> Forall2 stands E (map JInt (op_E o)) ->
  exists v, json_tree nodes next_id t0 E = Ret v /\ dumps v = Ret (JDict (op_nodes (mark o))).
Proof.
  intros o nodes nx t0 E Hp Sn Sx St SE. unfold json_tree. rewrite (int_of_stands _ _ St). cbn [bind]. rewrite (ints_of_stand _ _ SE). cbn [bind].
  eexists. split; [reflexivity|]. rewrite change_dict. apply dumps_PDict.
  inversion Sn as [| | | | |? ? F]; subst. fold entry_stands in F. pose proof (mark_proper o Hp) as [Hn Hk].
  set (d3 := dset (dset (dset nodes _ _) _ _) _ _).
  assert (F3 : Forall2 entry_stands d3 (op_nodes (mark o))).
  { apply dset_stands; [apply dset_stands; [apply dset_stands; [exact F|exact Sx]|constructor]|]. constructor. apply ints_stand. }
  assert (Nd : NoDup (dkeys d3)) by (rewrite (stands_keys _ _ F3); exact Hn).
  apply Forall2_In in F3.
  assert (G : forall k w, In (k, w) d3 -> dget d3 k = Some w) by (intros k w I; apply In_dget; assumption).
  assert (L : Forall2 (fun kw kj => fst kw = fst kj /\ dumps (change_value (snd kw)) = Ret (snd kj)) d3 (op_nodes (mark o))).
  { eapply Forall2_weak; [|exact F3]. intros [k w] [k' j] ((Ek & Sw) & I1 & I2). cbn [fst snd] in *. subst k'. split; [reflexivity|].
    destruct (Hk k j I2) as [Sp|(n & pn & _ & ->)]; [|apply written_node, Sw].
    pose proof (G k w I1) as Gw. unfold d3 in Gw. rewrite !VerticalProofs.dget_dset in Gw. destruct Sp as [->|[->| ->]].
    - destruct (eq_dec (KS (lit "next_id")) (KS (lit "E"))) as [X|_]; [discriminate X|]. destruct (eq_dec (KS (lit "next_id")) (KS (lit "t0"))) as [X|_]; [discriminate X|].
      destruct (eq_dec (KS (lit "next_id")) (KS (lit "next_id"))); [|congruence]. injection Gw as <-. inversion Sx; subst; inversion Sw; subst; reflexivity.
    - destruct (eq_dec (KS (lit "t0")) (KS (lit "E"))) as [X|_]; [discriminate X|]. destruct (eq_dec (KS (lit "t0")) (KS (lit "t0"))); [|congruence]. injection Gw as <-. inversion Sw; subst; reflexivity.
    - destruct (eq_dec (KS (lit "E")) (KS (lit "E"))); [|congruence]. injection Gw as <-. inversion Sw as [| | |? m Fm| |]; subst. cbn [change_value]. apply dumps_PList. rewrite map_map. cbn [change_item].
      clear - Fm. revert m Fm. induction (op_E o) as [|z l IH]; intros m Fm; inversion Fm as [|? ? ? ? Sz Fm']; subst; [constructor|]. cbn [map]. constructor; [inversion Sz; reflexivity|apply IH, Fm']. }
  clear - L. induction L; constructor; auto.
Qed.
(* a numpy integer directly in a list, or in a tuple that is a value, is not converted: the
   dictionaries of patterns have none *)
Theorem C107_other : dumps (change_int64 (PDict [(KS (lit "a"), PList [PNp 1])])) = Exn TypeError /\
  dumps (change_int64 (PDict [(KS (lit "a"), PTuple [PNp 1])])) = Exn TypeError.
Proof. split; reflexivity. Qed.

(* a cycle with three repetitions, with numpy integers in all places *)
Definition np_nodes : list (jkey * pv) :=
  [(KI 0, PDict [(KS (lit "parent"), PNone); (KS (lit "p"), PNp 10); (KS (lit "r"), PNp 3); (KS (lit "children"), PList [PTuple [PInt 1; PNp 0]])]);
   (KI 1, PDict [(KS (lit "parent"), PInt 0); (KS (lit "event"), PNp 2)])].
Definition np_patt : opatt := {| op_nodes := [(KI 0, enc_node (NInner None 10 3 [(1%nat, 0)])); (KI 1, enc_node (NLeaf (Some 0%nat) 2))]; op_next := 2; op_t0 := 5; op_E := [1; -1] |}.
Example C107_case : proper np_patt /\ stands (PDict np_nodes) (JDict (op_nodes np_patt)) /\
  dumps (PDict np_nodes) = Exn TypeError /\
  bind (json_tree np_nodes (PInt 2) (PNp 5) [PNp 1; PNp (-1)]) dumps = Ret (JDict (op_nodes (mark np_patt))).
Proof.
  split; [|split; [|split; vm_compute; reflexivity]].
  - split; [cbn; repeat (constructor; [cbn; intuition discriminate|]); constructor|]. cbn [np_patt op_nodes]. intros k v [E|[E|[]]]; injection E as <- <-; right.
    + exists 0%nat, (NInner None 10 3 [(1%nat, 0)]). auto.
    + exists 1%nat, (NLeaf (Some 0%nat) 2). auto.
  - repeat (constructor || (split; [reflexivity|])).
Qed.

Print Assumptions C107_values.
Print Assumptions C107_written.
Print Assumptions C107_other.
