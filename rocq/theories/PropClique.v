(* C27: maximal clique enumeration. *)
From Verif Require Import Prelude CheckModel ItemsetSpec LCMProofs CliqueModel.

Section Cliques.
  Context {A : Type} `{EqDec A} (nb : A -> list A) (V : list A).
  (* the graph given by its adjacency lists, over the nodes V *)
  Definition adjacent (u v : A) : Prop := In v (nb u).
  Definition clique (C : list A) : Prop :=
    incl C V /\ forall u v, In u C -> In v C -> u <> v -> adjacent u v.
  Definition maximal_clique (C : list A) : Prop :=
    clique C /\ forall v, In v V -> (forall u, In u C -> adjacent u v) -> In v C.
End Cliques.

Section Proofs.
  Context {A : Type} `{EqDec A} (nb : A -> list A) (V : list A).
  Context (sym : forall u v, In u V -> In v V -> adjacent nb u v -> adjacent nb v u)
          (irr : forall u, In u V -> ~ adjacent nb u u).

  (* the cliques a call has to produce *)
  Definition target (P R C : list A) : Prop :=
    maximal_clique nb V C /\ incl R C /\ incl C (R ++ P).
  Definition exactly (P R : list A) (cs : list (list A)) : Prop :=
    (forall c, In c cs -> NoDup c /\ target P R c /\ 2 < length c) /\
    (forall C, NoDup C -> target P R C -> 2 < length C -> exists c, In c cs /\ same_items c C) /\
    ForallOrdPairs (fun a b => ~ same_items a b) cs.
  Record pre (P R X : list A) : Prop := {
    p_nodup : NoDup P; p_rnodup : NoDup R; p_clique : clique nb V R;
    p_PV : incl P V; p_XV : incl X V;
    p_disj : forall v, In v X -> ~ In v P;
    p_adj : forall v, In v P \/ In v X -> forall u, In u R -> adjacent nb u v;
    p_all : forall v, In v V -> (forall u, In u R -> adjacent nb u v) -> In v P \/ In v X }.

  Lemma pre_fresh P R X v : pre P R X -> In v P -> ~ In v R.
  Proof.
    intros Hp Hv Hr; apply (irr v); [apply (p_PV _ _ _ Hp), Hv|].
    apply (p_adj _ _ _ Hp v); [left; exact Hv | exact Hr].
  Qed.
  Lemma no_target_left R X x : pre [] R X -> In x X -> forall C, ~ target [] R C.
  Proof.
    intros Hp Hx C [[_ Hmax] [H1 H2]]; rewrite app_nil_r in H2.
    apply (irr x); [apply (p_XV _ _ _ Hp), Hx|].
    apply (p_adj _ _ _ Hp x); [right; exact Hx|]; apply H2, Hmax; [apply (p_XV _ _ _ Hp), Hx|].
    intros u Hu; apply (p_adj _ _ _ Hp x); [right; exact Hx | apply H2, Hu].
  Qed.

  Lemma In_remove1 (v x : A) l : In x (remove1 v l) <-> In x l /\ x <> v.
  Proof. unfold remove1; rewrite filter_In, negb_true_iff, eqd_false; reflexivity. Qed.

  (* the recursive call on v *)
  Lemma pre_down P R X v R' X' : pre P R X -> In v P ->
    (forall x, In x R' <-> x = v \/ In x R) -> NoDup R' ->
    (forall x, In x X' <-> In x X /\ In x (nb v)) ->
    pre (inter P (nb v)) R' X'.
  Proof.
    intros Hp Hv HR HN HX; pose proof (p_PV _ _ _ Hp) as HP; pose proof (p_XV _ _ _ Hp) as HXV.
    assert (HRV : incl R V) by apply (p_clique _ _ _ Hp).
    constructor.
    - apply NoDup_inter, (p_nodup _ _ _ Hp).
    - exact HN.
    - split.
      + intros x Hx; apply HR in Hx; destruct Hx as [->|Hx]; auto.
      + intros a b Ha Hb Hne; apply HR in Ha; apply HR in Hb.
        destruct Ha as [->|Ha]; destruct Hb as [->|Hb].
        * congruence.
        * apply sym; [apply HRV, Hb | apply HP, Hv | apply (p_adj _ _ _ Hp v); [left; exact Hv | exact Hb]].
        * apply (p_adj _ _ _ Hp v); [left; exact Hv | exact Ha].
        * apply (p_clique _ _ _ Hp); assumption.
    - intros x Hx; apply In_inter in Hx; apply HP, Hx.
    - intros x Hx; apply HX in Hx; apply HXV, Hx.
    - intros x Hx Hi; apply HX in Hx; apply In_inter in Hi; apply (p_disj _ _ _ Hp x); [apply Hx | apply Hi].
    - intros x Hx u Hu; apply HR in Hu.
      assert (Hx' : (In x P \/ In x X) /\ In x (nb v)) by (destruct Hx as [Hx|Hx]; [apply In_inter in Hx | apply HX in Hx]; tauto).
      destruct Hu as [->|Hu]; [apply Hx' | apply (p_adj _ _ _ Hp x); [apply Hx' | exact Hu]].
    - intros x Hx Hall; assert (Hnb : In x (nb v)) by (apply Hall, HR; left; reflexivity).
      destruct (p_all _ _ _ Hp x Hx) as [Hi|Hi].
      + intros u Hu; apply Hall, HR; right; exact Hu.
      + left; apply In_inter; auto.
      + right; apply HX; auto.
  Qed.
  (* moving v from the candidates to the excluded nodes *)
  Lemma pre_move P R X v X' : pre P R X -> In v P -> (forall x, In x X' <-> x = v \/ In x X) ->
    pre (remove1 v P) R X'.
  Proof.
    intros Hp Hv HX; constructor.
    - apply NoDup_filter, (p_nodup _ _ _ Hp).
    - apply (p_rnodup _ _ _ Hp).
    - apply (p_clique _ _ _ Hp).
    - intros x Hx; apply In_remove1 in Hx; apply (p_PV _ _ _ Hp), Hx.
    - intros x Hx; apply HX in Hx; destruct Hx as [->|Hx]; [apply (p_PV _ _ _ Hp) | apply (p_XV _ _ _ Hp)]; assumption.
    - intros x Hx Hi; apply In_remove1 in Hi; apply HX in Hx; destruct Hx as [->|Hx]; [tauto|].
      apply (p_disj _ _ _ Hp x Hx), Hi.
    - intros x Hx; apply (p_adj _ _ _ Hp); destruct Hx as [Hx|Hx]; [apply In_remove1 in Hx; tauto|].
      apply HX in Hx; destruct Hx as [->|Hx]; auto.
    - intros x Hx Hall; destruct (p_all _ _ _ Hp x Hx Hall) as [Hi|Hi].
      + destruct (eq_dec x v) as [->|Hne]; [right; apply HX; auto | left; apply In_remove1; auto].
      + right; apply HX; auto.
  Qed.
  Lemma split_target P R X v R' C : pre P R X -> In v P -> (forall x, In x R' <-> x = v \/ In x R) ->
    target P R C <-> (In v C /\ target (inter P (nb v)) R' C) \/ (~ In v C /\ target (remove1 v P) R C).
  Proof.
    intros Hp Hv HR; split.
    - intros [Hm [H1 H2]]; destruct (in_dec eq_dec v C) as [Hin|Hout]; [left | right]; (split; [assumption|]).
      + split; [exact Hm|]; split.
        * intros x Hx; apply HR in Hx; destruct Hx as [->|Hx]; auto.
        * intros x Hx; apply in_or_app; destruct (eq_dec x v) as [->|Hne]; [left; apply HR; auto|].
          destruct (in_app_or _ _ _ (H2 x Hx)) as [Hr|Hi]; [left; apply HR; auto|].
          right; apply In_inter; split; [exact Hi|]; apply (proj1 Hm); [exact Hin | exact Hx | congruence].
      + split; [exact Hm|]; split; [exact H1|]; intros x Hx; apply in_or_app.
        destruct (in_app_or _ _ _ (H2 x Hx)) as [Hr|Hi]; [auto|]; right; apply In_remove1; split; [exact Hi|].
        intros ->; contradiction.
    - intros [[Hin [Hm [H1 H2]]]|[Hout [Hm [H1 H2]]]]; split; [exact Hm| |exact Hm|].
      + split; [intros x Hx; apply H1, HR; auto|].
        intros x Hx; apply in_or_app; destruct (in_app_or _ _ _ (H2 x Hx)) as [Hr|Hi].
        * apply HR in Hr; destruct Hr as [->|Hr]; auto.
        * apply In_inter in Hi; tauto.
      + split; [exact H1|]; intros x Hx; apply in_or_app; destruct (in_app_or _ _ _ (H2 x Hx)) as [Hr|Hi]; [auto|].
        apply In_remove1 in Hi; tauto.
  Qed.
  Lemma exactly_split P R X v R' c1 c2 : pre P R X -> In v P -> (forall x, In x R' <-> x = v \/ In x R) ->
    exactly (inter P (nb v)) R' c1 -> exactly (remove1 v P) R c2 -> exactly P R (c1 ++ c2).
  Proof.
    intros Hp Hv HR [A1 [A2 A3]] [B1 [B2 B3]].
    assert (Hin1 : forall c, In c c1 -> In v c) by (intros c Hc; apply (A1 c Hc), HR; left; reflexivity).
    assert (Hout2 : forall c, In c c2 -> ~ In v c).
    { intros c Hc Hi; destruct (B1 c Hc) as [_ [[_ [_ H2]] _]]; destruct (in_app_or _ _ _ (H2 v Hi)) as [Hr|Hr].
      - apply (pre_fresh P R X v Hp Hv Hr).
      - apply In_remove1 in Hr; tauto. }
    split; [|split].
    - intros c Hc; apply in_app_or in Hc; destruct Hc as [Hc|Hc].
      + destruct (A1 c Hc) as [N [T Le]]; split; [exact N|]; split; [|exact Le].
        apply (split_target P R X v R' c Hp Hv HR); left; auto.
      + destruct (B1 c Hc) as [N [T Le]]; split; [exact N|]; split; [|exact Le].
        apply (split_target P R X v R' c Hp Hv HR); right; auto.
    - intros C HN HT HL; apply (split_target P R X v R' C Hp Hv HR) in HT; destruct HT as [[_ HT]|[_ HT]].
      + destruct (A2 C HN HT HL) as [c [Hc Hs]]; exists c; split; [apply in_or_app; auto | exact Hs].
      + destruct (B2 C HN HT HL) as [c [Hc Hs]]; exists c; split; [apply in_or_app; auto | exact Hs].
    - clear A1 A2 B1 B2; induction A3 as [|a l Ha Hl IH]; simpl; [exact B3|]; constructor.
      + apply Forall_app; split; [exact Ha|]; apply Forall_forall; intros b Hb [S1 _].
        apply (Hout2 b Hb), S1, Hin1; left; reflexivity.
      + apply IH; intros c Hc; apply Hin1; right; exact Hc.
  Qed.
  Lemma exactly_leaf R : pre [] R [] -> exactly [] R (if 2 <? length R then [R] else []).
  Proof.
    intros Hp; assert (HT : target [] R R).
    { split; [|split; [apply incl_refl | rewrite app_nil_r; apply incl_refl]]; split; [apply (p_clique _ _ _ Hp)|].
      intros v Hv Hall; destruct (p_all _ _ _ Hp v Hv Hall) as [[]|[]]. }
    assert (Honly : forall C, NoDup C -> target [] R C -> same_items R C /\ length C = length R).
    { intros C HN [_ [H1 H2]]; rewrite app_nil_r in H2; split; [split; assumption|].
      apply Nat.le_antisymm; apply NoDup_incl_length; try assumption; apply (p_rnodup _ _ _ Hp). }
    destruct (Nat.ltb_spec 2 (length R)) as [Hl|Hl]; split; [|split| |split].
    - intros c [<-|[]]; split; [apply (p_rnodup _ _ _ Hp)|]; split; assumption.
    - intros C HN HC _; exists R; split; [left; reflexivity | apply (Honly C HN HC)].
    - constructor; constructor.
    - intros c [].
    - intros C HN HC HL; destruct (Honly C HN HC) as [_ E]; lia.
    - constructor.
  Qed.
  Lemma exactly_none R X x : pre [] R X -> In x X -> exactly [] R [].
  Proof.
    intros Hp Hx; split; [intros c []|]; split; [|constructor].
    intros C _ HT _; exfalso; exact (no_target_left R X x Hp Hx C HT).
  Qed.
  Lemma remove1_perm v (P : list A) t : NoDup P -> Permutation (v :: t) P -> Permutation t (remove1 v P).
  Proof.
    intros HN HP; apply NoDup_Permutation.
    - apply Permutation_sym, Permutation_NoDup in HP; [inversion HP; assumption | exact HN].
    - apply NoDup_filter, HN.
    - intros x; rewrite In_remove1; assert (HN' : NoDup (v :: t)) by (eapply Permutation_NoDup; [symmetry; exact HP | exact HN]).
      inversion HN' as [|? ? Hv Ht]; subst; split.
      + intros Hx; split; [eapply Permutation_in; [exact HP | right; exact Hx] | intros ->; contradiction].
      + intros [Hx Hne]; apply (Permutation_in x (Permutation_sym HP)) in Hx; destruct Hx; [congruence | assumption].
  Qed.
  Lemma inter_shorter P v : NoDup P -> In v P -> In v V -> length (inter P (nb v)) < length P.
  Proof.
    intros HN Hv HvV; assert (Hl : length (v :: inter P (nb v)) <= length P); [|simpl in Hl; lia].
    apply NoDup_incl_length.
    - constructor; [|apply NoDup_inter, HN]; intros Hi; apply In_inter in Hi; apply (irr v HvV), Hi.
    - intros x [<-|Hx]; [exact Hv | apply In_inter in Hx; apply Hx].
  Qed.

  Context (iter : list A -> list A) (iter_perm : forall l, Permutation (iter l) l).
  Lemma bk3_spec : forall fuel P R X, length P < fuel -> pre P R X ->
    exists cs, bk3 nb iter fuel P R X = Ret cs /\ exactly P R cs.
  Proof.
    induction fuel as [|f IH]; intros P R X Hf Hp; [lia|]; cbn [bk3].
    set (loop := fix loop (lP P X : list A) : outcome (list (list A)) :=
               match lP with
               | [] => Ret []
               | v :: t =>
                   bind (bk3 nb iter f (inter P (nb v)) (union R [v]) (inter X (nb v))) (fun c1 =>
                   bind (loop t (remove1 v P) (union X [v])) (fun c2 => Ret (c1 ++ c2)))
               end).
    assert (Hloop : forall lP P X, Permutation lP P -> length P <= f -> pre P R X -> (P = [] -> X <> []) ->
               exists cs, loop lP P X = Ret cs /\ exactly P R cs).
    { clear P X Hf Hp; induction lP as [|v t IHl]; intros P X HP Hf Hp Hne.
      - apply Permutation_nil in HP; subst P; exists []; split; [reflexivity|].
        destruct X as [|x X]; [destruct (Hne eq_refl eq_refl)|]; eapply exactly_none; [exact Hp | left; reflexivity].
      - assert (Hv : In v P) by (eapply Permutation_in; [exact HP | left; reflexivity]).
        assert (HR : forall x, In x (union R [v]) <-> x = v \/ In x R) by (intros x; rewrite In_union; simpl; intuition).
        destruct (IH (inter P (nb v)) (union R [v]) (inter X (nb v))) as [c1 [E1 X1]].
        + pose proof (inter_shorter P v (p_nodup _ _ _ Hp) Hv (p_PV _ _ _ Hp v Hv)); lia.
        + eapply pre_down; [exact Hp | exact Hv | exact HR | | intros x; apply In_inter].
          unfold union, diff; simpl; destruct (mem_spec v R) as [Hm|Hm]; simpl; [rewrite app_nil_r; apply (p_rnodup _ _ _ Hp)|].
          apply NoDup_app_intro; [apply (p_rnodup _ _ _ Hp) | repeat constructor; intros [] | intros x Hx [<-|[]]; contradiction].
        + destruct (IHl (remove1 v P) (union X [v])) as [c2 [E2 X2]].
          * apply remove1_perm; [apply (p_nodup _ _ _ Hp) | exact HP].
          * apply Permutation_length in HP as Hlen; pose proof (remove1_perm v P t (p_nodup _ _ _ Hp) HP) as Hr.
            apply Permutation_length in Hr; simpl in Hlen; lia.
          * apply (pre_move P R X v); [exact Hp | exact Hv | intros x; rewrite In_union; simpl; intuition].
          * intros _ Hz; assert (Hi : In v (union X [v])) by (apply In_union; right; left; reflexivity); rewrite Hz in Hi; destruct Hi.
          * exists (c1 ++ c2); split; [|eapply exactly_split; eassumption].
            cbn [loop]; change (bind (bk3 nb iter f (inter P (nb v)) (union R [v]) (inter X (nb v))) (fun c1 =>
                   bind (loop t (remove1 v P) (union X [v])) (fun c2 => Ret (c1 ++ c2))) = Ret (c1 ++ c2)).
            rewrite E1; cbn [bind]; rewrite E2; reflexivity. }
    destruct P as [|p P].
    - destruct X as [|x X]; [eexists; split; [reflexivity | apply exactly_leaf, Hp]|].
      apply Hloop; [apply iter_perm | simpl; lia | exact Hp | discriminate].
    - apply Hloop; [apply iter_perm | lia | exact Hp | discriminate].
  Qed.
  Lemma pre_start : NoDup V -> pre V [] [].
  Proof.
    intros HN; constructor.
    - exact HN.
    - constructor.
    - split; [intros x [] | intros u v []].
    - apply incl_refl.
    - intros x [].
    - intros x [].
    - intros v _ u [].
    - intros x Hx _; left; exact Hx.
  Qed.
  Lemma bron_kerbosch_spec : forall fuel P R X, length P < fuel -> pre P R X ->
    exists cs, bron_kerbosch nb fuel P R X = Ret cs /\ exactly P R cs.
  Proof.
    induction fuel as [|f IH]; intros P R X Hf Hp; [lia|]; cbn [bron_kerbosch].
    set (loop := fix loop (nodes candidates excluded : list A) : outcome (list (list A)) :=
             match nodes with
             | [] => Ret []
             | v :: t =>
                 bind (bron_kerbosch nb f (filter (fun k => mem k (nb v)) candidates) (v :: R)
                                       (filter (fun k => mem k (nb v)) excluded)) (fun c1 =>
                 bind (loop t (remove1 v candidates) (excluded ++ [v])) (fun c2 => Ret (c1 ++ c2)))
             end).
    assert (Hloop : forall lP P X, Permutation lP P -> length P <= f -> pre P R X -> (P = [] -> X <> []) ->
               exists cs, loop lP P X = Ret cs /\ exactly P R cs).
    { clear P X Hf Hp; induction lP as [|v t IHl]; intros P X HP Hf Hp Hne.
      - apply Permutation_nil in HP; subst P; exists []; split; [reflexivity|].
        destruct X as [|x X]; [destruct (Hne eq_refl eq_refl)|]; eapply exactly_none; [exact Hp | left; reflexivity].
      - assert (Hv : In v P) by (eapply Permutation_in; [exact HP | left; reflexivity]).
        assert (HR : forall x, In x (v :: R) <-> x = v \/ In x R) by (intros x; simpl; intuition).
        destruct (IH (inter P (nb v)) (v :: R) (inter X (nb v))) as [c1 [E1 X1]].
        + pose proof (inter_shorter P v (p_nodup _ _ _ Hp) Hv (p_PV _ _ _ Hp v Hv)); lia.
        + eapply pre_down; [exact Hp | exact Hv | exact HR | | intros x; apply In_inter].
          constructor; [apply (pre_fresh P R X v Hp Hv) | apply (p_rnodup _ _ _ Hp)].
        + destruct (IHl (remove1 v P) (X ++ [v])) as [c2 [E2 X2]].
          * apply remove1_perm; [apply (p_nodup _ _ _ Hp) | exact HP].
          * apply Permutation_length in HP as Hlen; pose proof (remove1_perm v P t (p_nodup _ _ _ Hp) HP) as Hr.
            apply Permutation_length in Hr; simpl in Hlen; lia.
          * apply (pre_move P R X v); [exact Hp | exact Hv | intros x; rewrite in_app_iff; simpl; intuition].
          * intros _ Hz; destruct X; discriminate.
          * exists (c1 ++ c2); split; [|eapply exactly_split; eassumption].
            change (bind (bron_kerbosch nb f (inter P (nb v)) (v :: R) (inter X (nb v))) (fun c1 =>
                   bind (loop t (remove1 v P) (X ++ [v])) (fun c2 => Ret (c1 ++ c2))) = Ret (c1 ++ c2)).
            rewrite E1; cbn [bind]; rewrite E2; reflexivity. }
    destruct P as [|p P].
    - destruct X as [|x X].
      + pose proof (exactly_leaf R Hp) as Hlf; destruct (2 <? length R); eexists; (split; [reflexivity | exact Hlf]).
      + apply Hloop; [reflexivity | simpl; lia | exact Hp | discriminate].
    - apply Hloop; [reflexivity | lia | exact Hp | discriminate].
  Qed.
  Lemma exactly_start cs : exactly V [] cs ->
    (forall c, In c cs -> NoDup c /\ maximal_clique nb V c /\ 3 <= length c) /\
    (forall C, NoDup C -> maximal_clique nb V C -> 3 <= length C -> exists c, In c cs /\ same_items c C) /\
    (forall i j c c', i <> j -> nth_error cs i = Some c -> nth_error cs j = Some c' -> ~ same_items c c').
  Proof.
    intros [H1 [H2 H3]]; split; [|split].
    - intros c Hc; destruct (H1 c Hc) as [N [[T _] Le]]; repeat split; auto; try apply T; lia.
    - intros C HN HC HL; apply H2; [exact HN | | lia].
      split; [exact HC|]; split; [intros x [] | apply HC].
    - intros i j c c' Hij Hi Hj Hs; destruct (Nat.lt_gt_cases i j) as [Hc _]; destruct (Hc Hij) as [Hl|Hl].
      + exact (FOP_nth _ _ H3 i j _ _ Hl Hi Hj Hs).
      + apply (FOP_nth _ _ H3 j i _ _ Hl Hj Hi); split; apply Hs.
  Qed.
End Proofs.

(* any symmetric graph without loops, any order of the nodes *)
Theorem C27_bron_kerbosch : forall (A : Type) (HA : EqDec A) (nb : A -> list A) (V : list A),
  NoDup V -> (forall u v, In u V -> In v V -> adjacent nb u v -> adjacent nb v u) ->
  (forall u, In u V -> ~ adjacent nb u u) ->
  forall fuel, length V < fuel ->
  exists cs, bron_kerbosch nb fuel V [] [] = Ret cs /\
    (forall c, In c cs -> NoDup c /\ maximal_clique nb V c /\ 3 <= length c) /\
    (forall C, NoDup C -> maximal_clique nb V C -> 3 <= length C -> exists c, In c cs /\ same_items c C) /\
    (forall i j c c', i <> j -> nth_error cs i = Some c -> nth_error cs j = Some c' -> ~ same_items c c').
Proof.
  intros A HA nb V HN Hs Hi fuel Hf.
  destruct (bron_kerbosch_spec nb V Hs Hi fuel V [] [] Hf) as [cs [E X]]; [apply pre_start, HN|].
  exists cs; split; [exact E | apply exactly_start, X].
Qed.
Print Assumptions C27_bron_kerbosch.
Theorem C27_bronKerbosch3Plus : forall (A : Type) (HA : EqDec A) (nb : A -> list A) (V : list A) iter,
  (forall l, Permutation (iter l) l) ->
  NoDup V -> (forall u v, In u V -> In v V -> adjacent nb u v -> adjacent nb v u) ->
  (forall u, In u V -> ~ adjacent nb u u) ->
  forall fuel, length V < fuel ->
  exists cs, bk3 nb iter fuel V [] [] = Ret cs /\
    (forall c, In c cs -> NoDup c /\ maximal_clique nb V c /\ 3 <= length c) /\
    (forall C, NoDup C -> maximal_clique nb V C -> 3 <= length C -> exists c, In c cs /\ same_items c C) /\
    (forall i j c c', i <> j -> nth_error cs i = Some c -> nth_error cs j = Some c' -> ~ same_items c c').
Proof.
  intros A HA nb V iter Hp HN Hs Hi fuel Hf.
  destruct (bk3_spec nb V Hs Hi iter Hp fuel V [] [] Hf) as [cs [E X]]; [apply pre_start, HN|].
  exists cs; split; [exact E | apply exactly_start, X].
Qed.
Print Assumptions C27_bronKerbosch3Plus.
Definition demo_nb (v : nat) : list nat :=
  nth v [[]; [2;5;3]; [1;3;5]; [2;4;1]; [3;5;6]; [1;2;4]; [4]] [].
Example C27_case : bron_kerbosch demo_nb 7 [1;2;3;4;5;6] [] [] = Ret [[3;2;1]; [5;2;1]]
  /\ bk3 demo_nb (@rev nat) 7 [1;2;3;4;5;6] [] [] = Ret [[5;2;1]; [3;2;1]].
Proof. split; vm_compute; reflexivity. Qed.
