(* C113: the text of the label codes. *)
From Coq Require Import NArith String Reals.
From Verif Require Import Prelude CheckModel LCMModel TextModel ExportModel VerticalProofs GraphUtilModel PropGraphUtil GraphLengthModel PropGraphLength LabelTextModel.

(* ------------------------------------------------------------ specification *)
Section Spec.
  Context {L : Type} `{EqDec L} (show : L -> text) (show_r : R -> text).
  (* the different names of a list, in the order in which they are first seen *)
  Fixpoint first_seen (l : list L) : list L :=
    match l with [] => [] | x :: t => x :: filter (fun y => if eq_dec y x then false else true) (first_seen t) end.
  (* "name->length" on a line of its own; the length is -log2 of the share of the name *)
  Definition code_line (all : list L) (total : nat) (l : L) : text :=
    show l ++ lit "->" ++ show_r (- (ln (INR (count_occ eq_dec all l) / INR total) / ln 2))%R ++ [nl].
  Definition code_lines (all : list L) (total : nat) : text := flat_map (code_line all total) (first_seen all).
End Spec.

(* ------------------------------------------------------------------- proofs *)
Section Proofs.
  Context {L : Type} `{EqDec L} (show : L -> text) (show_r : R -> text).
  Lemma first_seen_In (l : list L) x : In x (first_seen l) <-> In x l.
  Proof.
    induction l as [|y l IH]; [reflexivity|]. cbn [first_seen In]. rewrite filter_In, IH. destruct (eq_dec x y) as [->|N]; split; intuition congruence.
  Qed.
  Lemma first_seen_NoDup (l : list L) : NoDup (first_seen l).
  Proof.
    induction l as [|y l IH]; [constructor|]. cbn [first_seen]. constructor; [|apply NoDup_filter, IH].
    rewrite filter_In. intros [_ E]. destruct (eq_dec y y); [discriminate | contradiction].
  Qed.
  Lemma keys_set {V} (d : list (L * V)) k v : map fst (dset d k v) = if in_dec eq_dec k (map fst d) then map fst d else map fst d ++ [k].
  Proof.
    induction d as [|[k' v'] d IH]; [reflexivity|]. cbn [dset map fst]. destruct (eq_dec k k') as [->|N].
    - cbn [map fst]. destruct (in_dec eq_dec k' (k' :: map fst d)) as [_|C]; [reflexivity | exfalso; apply C; left; reflexivity].
    - cbn [map fst]. rewrite IH. destruct (in_dec eq_dec k (map fst d)) as [I|I], (in_dec eq_dec k (k' :: map fst d)) as [J|J]; try reflexivity.
      + exfalso. apply J. right. exact I.
      + exfalso. destruct J as [J|J]; [congruence | contradiction].
  Qed.
  Lemma counter_keys_from (ls : list L) : forall d : list (L * nat),
    map fst (fold_left (fun d l => dset d l (S (match dget d l with Some n => n | None => 0 end))) ls d)
    = map fst d ++ filter (fun y => if in_dec eq_dec y (map fst d) then false else true) (first_seen ls).
  Proof.
    induction ls as [|x ls IH]; intros d; cbn [fold_left first_seen filter]; [rewrite app_nil_r; reflexivity|]. rewrite IH, keys_set.
    assert (FF : forall (p q : L -> bool) l, filter p (filter q l) = filter (fun y => q y && p y) l).
    { intros p q l. induction l as [|y l IHl]; [reflexivity|]. cbn [filter]. destruct (q y) eqn:Eq; cbn [filter andb]; [destruct (p y)|]; rewrite IHl; reflexivity. }
    destruct (in_dec eq_dec x (map fst d)) as [I|I].
    - f_equal. rewrite FF. apply filter_ext. intros y. destruct (eq_dec y x) as [->|N]; [|reflexivity].
      destruct (in_dec eq_dec x (map fst d)); [reflexivity | contradiction].
    - rewrite <- app_assoc. cbn [app]. do 2 f_equal. rewrite FF. apply filter_ext. intros y.
      destruct (eq_dec y x) as [->|N].
      + destruct (in_dec eq_dec x (map fst d ++ [x])) as [J|J]; [reflexivity|]. exfalso. apply J, in_or_app. right. left. reflexivity.
      + destruct (in_dec eq_dec y (map fst d ++ [x])) as [J|J], (in_dec eq_dec y (map fst d)) as [K|K]; try reflexivity; exfalso.
        * apply in_app_or in J. destruct J as [J|[J|[]]]; [contradiction | congruence].
        * apply J, in_or_app. left. exact K.
  Qed.
  Lemma counter_keys (ls : list L) : map fst (counter ls) = first_seen ls.
  Proof.
    unfold counter. rewrite counter_keys_from. cbn [map app]. induction (first_seen ls) as [|x l IH]; [reflexivity|]. cbn [filter].
    destruct (in_dec eq_dec x []) as [[]|_]. rewrite IH. reflexivity.
  Qed.
  Lemma display_flat (d : list (L * R)) : display_lc show show_r d = flat_map (fun ij => show (fst ij) ++ lit "->" ++ show_r (snd ij) ++ [nl]) d.
  Proof.
    unfold display_lc. assert (G : forall d acc, fold_left (fun msg ij => msg ++ show (fst ij) ++ lit "->" ++ show_r (snd ij) ++ [nl]) d acc = acc ++ flat_map (fun ij => show (fst ij) ++ lit "->" ++ show_r (snd ij) ++ [nl]) d).
    { clear. induction d as [|x d IH]; intros acc; cbn [fold_left flat_map]; [rewrite app_nil_r; reflexivity|]. rewrite IH, <- !app_assoc. reflexivity. }
    apply G.
  Qed.
  Lemma display_codes (ls : list L) total : display_lc show show_r (code_all total (counter ls)) = code_lines show show_r ls total.
  Proof.
    rewrite display_flat. unfold code_lines. rewrite <- counter_keys. unfold code_all.
    assert (Hc : forall l n, In (l, n) (counter ls) -> n = count_occ eq_dec ls l) by (intros l n Hi; apply counter_In in Hi; tauto).
    induction (counter ls) as [|[l n] d IH]; [reflexivity|]. cbn [map flat_map fst snd].
    rewrite IH by (intros l' n' Hi; apply Hc; right; exact Hi). f_equal. unfold code_line. rewrite (Hc l n (or_introl eq_refl)). reflexivity.
  Qed.
  Theorem C113_text (g : graph L) : plain g -> exists t total, LabelCodes g = Ret t /\ get_total_label g = Ret total /\
    label_codes_str show show_r t =
      lit "Edge label" ++ [nl] ++ lit "-----------------" ++ [nl] ++ code_lines show show_r (edge_names g) total ++ [nl] ++
      lit "Vertex label" ++ [nl] ++ lit "----------------------" ++ [nl] ++ code_lines show show_r (vertex_names g) total.
  Proof.
    intros Hp. destruct (C58_total g Hp) as [total [Et _]]. unfold LabelCodes. rewrite Et. destruct (counts_ok g Hp) as [-> ->]. cbn [bind].
    eexists. exists total. split; [reflexivity|]. split; [reflexivity|]. unfold label_codes_str. cbn [edges_lc vertex_lc]. rewrite !display_codes. reflexivity.
  Qed.
  (* every name has one line, and no other has one *)
  Theorem C113_names (l : list L) : NoDup (first_seen l) /\ forall x, In x (first_seen l) <-> In x l.
  Proof. split; [apply first_seen_NoDup | intros; apply first_seen_In]. Qed.
End Proofs.
Print Assumptions C113_text.
Print Assumptions C113_names.

(* two nodes labelled a, one also labelled b, and an edge labelled e *)
Definition sample : graph nat := {| nodes := [(1, Some (Name 7)); (2, Some (Names [7; 8]))]; edges := [(1, 2, Some (Name 9))] |}.
Example C113_case : plain sample /\ get_total_label sample = Ret 4 /\ edge_names sample = [9] /\ first_seen (vertex_names sample) = [7; 8] /\
  forall show show_r, exists t, LabelCodes sample = Ret t /\ display_lc show show_r (edges_lc t) = show 9 ++ lit "->" ++ show_r (- (ln (INR 1 / INR 4) / ln 2))%R ++ [nl].
Proof.
  split; [split; repeat constructor|]. split; [reflexivity|]. split; [reflexivity|]. split; [reflexivity|]. intros show show_r. eexists. split; [reflexivity|]. reflexivity.
Qed.
