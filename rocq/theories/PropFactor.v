(* C46: factorising a pattern preserves its events and occurrences. *)
From Verif Require Import Prelude CheckModel LCMModel TextModel SplitModel ArrayModel PeriodModel TreeModel NestModel FactorModel PropPeriod TreeProofs PropTree.
Local Open Scope Z_scope.

Section FactorProofs.
  Context {A : Type}.
  (* times with the id and event of the leaf *)
  Definition X (t : tree A) (time : Z) : list (Z * (nat * A)) := map (fun qx => (time + off (fst qx) t, snd qx)) (leafs t).
  Fixpoint Xkids (tt : Z) (l : list (tree A * Z)) : list (Z * (nat * A)) :=
    match l with [] => [] | (c, d) :: l' => X c (tt + d) ++ Xkids (tt + d) l' end.
  Lemma X_expand t pref time : X t time = map fst (expand (fun n e => (n, e)) t pref time).
  Proof. rewrite expand_spec, map_map; unfold X; apply map_ext; intros [q [n e]]; reflexivity. Qed.
  Lemma X_node n r p ch time : X (Node n r p ch) time = concat (map (fun i => Xkids (time + Z.of_nat i * p) ch) (List.seq 0 r)).
  Proof.
    rewrite (X_expand _ []); cbn [expand]; rewrite concat_map, map_map; f_equal; apply map_ext; intros i.
    generalize (time + Z.of_nat i * p) as tt; generalize 0%nat; induction ch as [|[c d] l IH]; intros k tt; cbn [Xkids]; [reflexivity|].
    rewrite map_app, IH, <- X_expand; reflexivity.
  Qed.
  Lemma X_time_nids t : time_nids t = map (fun x => (fst x, fst (snd x))) (X t 0).
  Proof. unfold time_nids, times_nids; rewrite expand_spec; unfold X; rewrite !map_map; reflexivity. Qed.
  Lemma X_events t time : events_minor t true = map (fun x => snd (snd x)) (X t time).
  Proof. rewrite events_leafs; unfold X; rewrite map_map; reflexivity. Qed.
  Lemma X_length t time : length (X t time) = nb_occs t.
  Proof. unfold X; rewrite map_length, <- leaves_length; unfold leaves; rewrite map_length; reflexivity. Qed.
  Lemma concat_perm {B C} (f g : B -> list C) l : (forall x, In x l -> Permutation (f x) (g x)) -> Permutation (concat (map f l)) (concat (map g l)).
  Proof.
    induction l as [|x l IH]; intros Hfg; simpl; [constructor|]; apply Permutation_app; [apply Hfg; left; reflexivity|].
    apply IH; intros y Hy; apply Hfg; right; exact Hy.
  Qed.
  Lemma concat_app_perm {B C} (f g : B -> list C) l :
    Permutation (concat (map (fun k => f k ++ g k) l)) (concat (map f l) ++ concat (map g l)).
  Proof.
    induction l as [|x l IH]; simpl; [constructor|]; rewrite IH, <- !app_assoc; apply Permutation_app_head.
    rewrite !app_assoc; apply Permutation_app_tail, Permutation_app_comm.
  Qed.

  (* children of a factorisable node: single-child blocks with the same period and repetitions *)
  Definition fch (r1 : nat) (p1 : Z) (ch : list (tree A * Z)) (nch : list (tree A * Z)) : Prop :=
    Forall2 (fun cd xd => exists a, fst cd = Node a r1 p1 [(fst xd, 0)] /\ snd cd = snd xd) ch nch.
  Lemma Xkids_swap r1 p1 ch nch : fch r1 p1 ch nch -> forall tt,
    Permutation (Xkids tt ch) (concat (map (fun k => Xkids (tt + Z.of_nat k * p1) nch) (List.seq 0 r1))).
  Proof.
    induction 1 as [|[c d] [x d'] ch nch [a [E1 E2]] Hf IH]; intros tt; cbn [Xkids fst snd] in *.
    - induction (List.seq 0 r1); [constructor | assumption].
    - subst c d'; rewrite concat_app_perm, X_node; apply Permutation_app.
      + apply concat_perm; intros k _; cbn [Xkids]; rewrite app_nil_r; replace (tt + d + Z.of_nat k * p1 + 0) with (tt + Z.of_nat k * p1 + d) by ring; reflexivity.
      + rewrite IH; apply concat_perm; intros k _; replace (tt + d + Z.of_nat k * p1) with (tt + Z.of_nat k * p1 + d) by ring; reflexivity.
  Qed.
  Definition factorable (ch : list (tree A * Z)) : bool :=
    (1 <? length ch)%nat && forallb (fun cd => (length (children (fst cd)) =? 1)%nat) ch &&
    match ch with [] => false | (c0, _) :: _ => forallb (fun cd => same_cycle c0 (fst cd)) ch end.
  Lemma factorable_spec ch : factorable ch = true -> Forall (fun cd => wf (fst cd)) ch -> (exists c l, ch = (c, 0) :: l) ->
    exists a r1 p1 x0 nch', (1 <= r1)%nat /\
      (forall n r p, factor_node (Node n r p ch) = Node n r p [(Node a r1 p1 ((x0, 0) :: nch'), 0)]) /\
      fch r1 p1 ch ((x0, 0) :: nch') /\ Forall (fun xd => wf (fst xd)) ((x0, 0) :: nch') /\
      (exists w, ch = (Node a r1 p1 [(x0, 0)], 0) :: w).
  Proof.
    unfold factorable; rewrite !andb_true_iff; intros [[_ H1] H2] Hw [c0 [l ->]].
    simpl in H2; apply andb_true_iff in H2; destruct H2 as [_ H2].
    inversion Hw as [|? ? Hw0 Hwl]; subst; simpl in H1; apply andb_true_iff in H1; destruct H1 as [H10 H1].
    destruct c0 as [n0 e0|a r1 p1 ch0]; [discriminate|]; cbn [children] in H10; apply Nat.eqb_eq in H10.
    inversion Hw0 as [|? ? ? ? Hr1 [x0 [l0 ->]] Hwx]; subst; simpl in H10; destruct l0; [|discriminate].
    assert (Hrest : exists nch', fch r1 p1 l nch' /\ Forall (fun xd => wf (fst xd)) nch' /\
      all_some (map (fun cd => option_map (fun c => (c, snd cd)) (first_child (fst cd))) l) = Some nch').
    { clear -Hwl H1 H2; induction l as [|[c d] l IH]; [exists []; split; [constructor | split; [constructor | reflexivity]]|].
      inversion Hwl as [|? ? Hc Hl]; subst; simpl in H1, H2; apply andb_true_iff in H1, H2; destruct H1 as [A1 A2], H2 as [B1 B2].
      destruct (IH B2 A2 Hl) as [nch' [I1 [I2 I3]]]; destruct c as [n e|a' r' p' chc]; [discriminate|].
      cbn [children] in A1; apply Nat.eqb_eq in A1; apply andb_true_iff in B1; destruct B1 as [B3 B4].
      apply Nat.eqb_eq in B3; apply Z.eqb_eq in B4; subst r' p'.
      cbn [fst] in Hc; inversion Hc as [|? ? ? ? Hr [x [lx ->]] Hx]; subst; simpl in A1; destruct lx; [|discriminate].
      exists ((x, d) :: nch'); split; [constructor; [exists a'; split; reflexivity | exact I1]|]; split.
      - constructor; [inversion Hx; subst; assumption | exact I2].
      - simpl; rewrite I3; reflexivity. }
    destruct Hrest as [nch' [R1 [R2 R3]]]; exists a, r1, p1, x0, nch'; split; [exact Hr1|]; split; [|split; [|split]].
    - intros n r p; unfold factor_node; cbn [map fst snd first_child option_map all_some]; rewrite R3; reflexivity.
    - constructor; [exists a; split; reflexivity | exact R1].
    - constructor; [inversion Hwx; subst; assumption | exact R2].
    - exists l; reflexivity.
  Qed.
  Lemma can_ids (t : tree A) x : In x (can_factorize t) -> In x (node_ids t).
  Proof.
    induction t as [n e|n r p ch IH] using tree_ind'; [intros []|].
    cbn [can_factorize node_ids]; intros Hin; apply in_app_iff in Hin; destruct Hin as [Hin|Hin].
    - right; apply in_concat in Hin; destruct Hin as [l [Hl Hx]]; apply in_map_iff in Hl; destruct Hl as [cd [<- Hcd]].
      rewrite Forall_forall in IH; apply in_concat; eexists; split; [apply in_map, Hcd | apply (IH cd Hcd), Hx].
    - left; match type of Hin with context [if ?b then _ else _] => destruct b end; [destruct Hin as [<-|[]]; reflexivity | destruct Hin].
  Qed.
  Lemma factorize_absent nid (t : tree A) : ~ In nid (node_ids t) -> factorize nid t = t.
  Proof.
    induction t as [n e|n r p ch IH] using tree_ind'; intros Hn.
    - cbn; destruct (n =? nid)%nat; reflexivity.
    - cbn [factorize root_id]; destruct (Nat.eqb_spec n nid) as [->|_]; [exfalso; apply Hn; left; reflexivity|]; f_equal.
      rewrite <- (map_id ch) at 2; apply map_ext_in; intros [c d] Hcd; rewrite Forall_forall in IH; cbn [fst snd].
      f_equal; apply (IH (c, d) Hcd); intros Hin; apply Hn; right; apply in_concat; exists (node_ids c); split; [apply in_map_iff; exists (c, d); auto | exact Hin].
  Qed.
  Lemma Xkids_perm (f : tree A -> tree A) ch : (forall cd, In cd ch -> forall time, Permutation (X (f (fst cd)) time) (X (fst cd) time)) ->
    forall tt, Permutation (Xkids tt (map (fun cd => (f (fst cd), snd cd)) ch)) (Xkids tt ch).
  Proof.
    induction ch as [|[c d] l IH]; intros Hf tt; cbn [map Xkids fst snd]; [constructor|].
    apply Permutation_app; [apply (Hf (c, d)); left; reflexivity|]; apply IH; intros cd Hcd; apply Hf; right; exact Hcd.
  Qed.
  Lemma X_nonempty (t : tree A) time : wf t -> X t time <> [].
  Proof.
    intros Hw E; destruct (leaves_first t Hw) as [L HL]; unfold leaves in HL; unfold X in E; destruct (leafs t); [discriminate HL | discriminate E].
  Qed.
  Lemma X_hd n r p (c : tree A) l time : (1 <= r)%nat -> wf c -> hd_error (X (Node n r p ((c, 0) :: l)) time) = hd_error (X c time).
  Proof.
    intros Hr Hc; rewrite X_node; destruct r as [|r]; [lia|]; cbn [List.seq map concat Xkids]; replace (time + Z.of_nat 0 * p + 0) with time by ring.
    destruct (X c time) eqn:E; [destruct (X_nonempty c time Hc E) | reflexivity].
  Qed.
  (* everything that factorising at nid preserves *)
  Record preserved (P Q : tree A) : Prop := {
    pr_wf : wf Q;
    pr_root : root_id Q = root_id P;
    pr_ids : NoDup (node_ids Q) /\ incl (node_ids Q) (node_ids P) /\ (length (node_ids Q) < length (node_ids P))%nat;
    pr_events : leaf_events Q = leaf_events P;
    pr_first : forall time, hd_error (X Q time) = hd_error (X P time);
    pr_times : forall time, Permutation (X Q time) (X P time) }.
  Lemma fch_ids r1 p1 ch nch : fch r1 p1 ch nch -> NoDup (concat (map (fun cd => node_ids (fst cd)) ch)) ->
    NoDup (concat (map (fun cd => node_ids (fst cd)) nch)) /\
    incl (concat (map (fun cd => node_ids (fst cd)) nch)) (concat (map (fun cd => node_ids (fst cd)) ch)) /\
    (length (concat (map (fun cd => node_ids (fst cd)) nch)) + length ch = length (concat (map (fun cd => node_ids (fst cd)) ch)))%nat /\
    concat (map (fun cd => leaf_events (fst cd)) nch) = concat (map (fun cd => leaf_events (fst cd)) ch).
  Proof.
    induction 1 as [|[c d] [x d'] ch nch [a [E1 E2]] Hf IH]; intros Hn; [repeat split; [constructor | intros y []]|].
    cbn [fst snd] in E1, E2; subst c d'; cbn [map concat fst node_ids leaf_events] in *; rewrite !app_nil_r in *.
    cbn [app] in Hn; inversion Hn as [|? ? Ha Hn']; subst; apply NoDup_app_elim in Hn'; destruct Hn' as [N1 [N2 N3]].
    destruct (IH N2) as [I1 [I2 [I3 I4]]]; split; [|split; [|split]].
    - apply NoDup_app_intro; [exact N1 | exact I1|]; intros y Hy Hy'; apply (N3 y Hy), I2, Hy'.
    - intros y Hy; cbn [app]; right; apply in_app_iff in Hy; apply in_app_iff; destruct Hy as [Hy|Hy]; [left; exact Hy | right; apply I2, Hy].
    - rewrite !app_length; cbn [length]; lia.
    - rewrite I4; reflexivity.
  Qed.
  Lemma concat_unique {B} (f : B -> list nat) ch cd x : NoDup (concat (map f ch)) -> In cd ch -> In x (f cd) ->
    forall l1 l2, ch = l1 ++ cd :: l2 -> forall cd', In cd' (l1 ++ l2) -> ~ In x (f cd').
  Proof.
    intros Hn Hcd Hx l1 l2 -> cd' Hcd' Hx'; rewrite map_app, concat_app in Hn; cbn [map concat] in Hn.
    apply NoDup_app_elim in Hn; destruct Hn as [_ [Hn Hd]]; apply NoDup_app_elim in Hn; destruct Hn as [_ [_ Hd2]].
    apply in_app_iff in Hcd'; destruct Hcd' as [H|H].
    - apply (Hd x); [apply in_concat; exists (f cd'); split; [apply in_map, H | exact Hx'] | apply in_or_app; left; exact Hx].
    - apply (Hd2 x Hx); apply in_concat; exists (f cd'); split; [apply in_map, H | exact Hx'].
  Qed.
  Lemma factorize_preserved (t : tree A) nid : wf t -> NoDup (node_ids t) -> In nid (can_factorize t) -> preserved t (factorize nid t).
  Proof.
    induction t as [n e|n r p ch IH] using tree_ind'; intros Hw Hn Hin; [destruct Hin|].
    inversion Hw as [|? ? ? ? Hr Hfst Hch]; subst n0 r0 p0 ch0.
    cbn [node_ids] in Hn; inversion Hn as [|? ? Hnn Hn']; subst.
    cbn [factorize root_id]; destruct (Nat.eqb_spec n nid) as [->|Hne].
    - (* this node is factorised *)
      cbn [can_factorize] in Hin; apply in_app_iff in Hin.
      assert (Hf : factorable ch = true).
      { unfold factorable; destruct Hin as [Hin|Hin].
        - exfalso; apply Hnn; apply in_concat in Hin; destruct Hin as [l [Hl Hx]]; apply in_map_iff in Hl; destruct Hl as [cd [<- Hcd]].
          apply in_concat; exists (node_ids (fst cd)); split; [apply (in_map (fun cd => node_ids (fst cd))), Hcd | apply can_ids, Hx].
        - match type of Hin with context [if ?b then _ else _] => destruct b eqn:E end; [reflexivity | destruct Hin]. }
      destruct (factorable_spec ch Hf Hch Hfst) as [a [r1 [p1 [x0 [nch' [Hr1 [E [Hfc [Hwx [w Ew]]]]]]]]]].
      rewrite E; destruct (fch_ids r1 p1 ch _ Hfc Hn') as [I1 [I2 [I3 I4]]].
      assert (Ha : In a (concat (map (fun cd => node_ids (fst cd)) ch))) by (rewrite Ew; left; reflexivity).
      assert (Ha' : ~ In a (concat (map (fun cd => node_ids (fst cd)) ((x0, 0) :: nch')))).
      { clear -Hfc Hn' Ew; subst ch; inversion Hfc as [|? ? ? ? _ Hf2]; subst.
        cbn [map concat fst node_ids app] in *; rewrite app_nil_r in Hn'; inversion Hn' as [|? ? Hna Hn2]; subst.
        intros Hin; apply Hna; apply in_app_iff in Hin; apply in_app_iff; destruct Hin as [Hin|Hin]; [left; exact Hin | right].
        apply NoDup_app_elim in Hn2; destruct Hn2 as [_ [Hn2 _]]; destruct (fch_ids r1 p1 w nch' Hf2 Hn2) as [_ [Hi _]]; apply Hi, Hin. }
      constructor.
      + constructor; [exact Hr | eexists; eexists; reflexivity|]; apply Forall_cons; [|apply Forall_nil]; constructor; [exact Hr1 | eexists; eexists; reflexivity | exact Hwx].
      + reflexivity.
      + cbn [node_ids] in *; cbn [map concat fst node_ids] in *; rewrite !app_nil_r in *; split; [|split].
        * constructor; [intros [->|Hin']; [apply Hnn, Ha | apply Hnn, I2, Hin']|]; constructor; [exact Ha' | exact I1].
        * intros y [<-|[<-|Hy]]; [left; reflexivity | right; exact Ha | right; apply I2, Hy].
        * assert (1 < length ch)%nat by (unfold factorable in Hf; rewrite !andb_true_iff in Hf; destruct Hf as [[Hf _] _]; apply Nat.ltb_lt, Hf).
          cbn [length]; lia.
      + cbn [leaf_events] in *; cbn [map concat fst leaf_events] in *; rewrite !app_nil_r; exact I4.
      + intros time; subst ch; inversion Hwx; subst; rewrite !X_hd; try reflexivity; try assumption.
        * constructor; [exact Hr1 | eexists; eexists; reflexivity | repeat constructor; assumption].
        * constructor; [exact Hr1 | eexists; eexists; reflexivity | exact Hwx].
      + intros time; rewrite !X_node; symmetry; apply concat_perm; intros i _; cbn [Xkids]; rewrite app_nil_r, X_node, Z.add_0_r.
        apply Xkids_swap, Hfc.
    - (* a descendant is *)
      cbn [can_factorize] in Hin; apply in_app_iff in Hin; destruct Hin as [Hin|Hin].
      2: { match type of Hin with context [if ?b then _ else _] => destruct b end; [destruct Hin as [E|[]]; congruence | destruct Hin]. }
      apply in_concat in Hin; destruct Hin as [l [Hl Hx]]; apply in_map_iff in Hl; destruct Hl as [[c d] [<- Hcd]]; cbn [fst] in Hx.
      rewrite Forall_forall in IH, Hch; apply in_split in Hcd as Hsp; destruct Hsp as [l1 [l2 Esp]].
      assert (Hnc : NoDup (node_ids c)).
      { rewrite Esp, map_app, concat_app in Hn'; cbn [map concat fst] in Hn'; apply NoDup_app_elim in Hn'; destruct Hn' as [_ [Hn2 _]].
        apply NoDup_app_elim in Hn2; apply Hn2. }
      destruct (IH (c, d) Hcd (Hch _ Hcd) Hnc Hx) as [Q1 Q2 [Q3 [Q4 Q4']] Q5 Q7 Q6]; cbn [fst] in *.
      assert (Hoth : forall cd, In cd (l1 ++ l2) -> factorize nid (fst cd) = fst cd).
      { intros cd Hcd'; apply factorize_absent; eapply (concat_unique (fun cd => node_ids (fst cd)) ch (c, d) nid Hn' Hcd); [apply can_ids, Hx | exact Esp | exact Hcd']. }
      assert (Hmap : map (fun cd => (factorize nid (fst cd), snd cd)) ch = l1 ++ (factorize nid c, d) :: l2).
      { assert (Hid : forall l, incl l (l1 ++ l2) -> map (fun cd => (factorize nid (fst cd), snd cd)) l = l).
        { intros l Hi; rewrite <- (map_id l) at 2; apply map_ext_in; intros [c' d'] Hc'; cbn [fst snd]; f_equal; exact (Hoth (c', d') (Hi _ Hc')). }
        rewrite Esp, map_app; cbn [map fst snd]; rewrite !Hid; [reflexivity | |]; intros y Hy; apply in_or_app; auto. }
      rewrite Hmap; constructor.
      + constructor; [exact Hr | |].
        * destruct Hfst as [c0 [w Ew]]; rewrite Esp in Ew; destruct l1 as [|cd1 l1]; cbn [app] in *; injection Ew; intros; subst; eexists; eexists; reflexivity.
        * apply Forall_forall; intros cd Hc; apply in_app_iff in Hc; destruct Hc as [Hc|[<-|Hc]]; [| exact Q1 |]; apply Hch; rewrite Esp; apply in_or_app; [left; exact Hc | right; right; exact Hc].
      + reflexivity.
      + cbn [node_ids]; rewrite Esp in *; rewrite !map_app, !concat_app in *; cbn [map concat fst] in *; split; [|split].
        * constructor.
          -- intros Hin; apply Hnn; apply in_app_iff in Hin; apply in_app_iff; destruct Hin as [Hin|Hin]; [left; exact Hin|right].
             apply in_app_iff in Hin; apply in_app_iff; destruct Hin as [Hin|Hin]; [left; apply Q4, Hin | right; exact Hin].
          -- apply NoDup_app_elim in Hn'; destruct Hn' as [M1 [M2 M3]]; apply NoDup_app_elim in M2; destruct M2 as [M4 [M5 M6]].
             apply NoDup_app_intro; [exact M1 | |].
             ++ apply NoDup_app_intro; [exact Q3 | exact M5|]; intros y Hy; apply M6, Q4, Hy.
             ++ intros y Hy Hy'; apply (M3 y Hy); apply in_app_iff in Hy'; apply in_app_iff; destruct Hy' as [Hy'|Hy']; [left; apply Q4, Hy' | right; exact Hy'].
        * intros y [<-|Hy]; [left; reflexivity | right]; apply in_app_iff in Hy; apply in_app_iff; destruct Hy as [Hy|Hy]; [left; exact Hy|right].
          apply in_app_iff in Hy; apply in_app_iff; destruct Hy as [Hy|Hy]; [left; apply Q4, Hy | right; exact Hy].
        * cbn [length]; rewrite !app_length; lia.
      + cbn [leaf_events]; rewrite Esp, !map_app, !concat_app; cbn [map concat fst]; rewrite Q5; reflexivity.
      + intros time; destruct Hfst as [c0 [w Ew]]; rewrite Esp in Ew |- *; destruct l1 as [|[c1 d1] l1]; cbn [app] in *.
        * injection Ew as -> -> ->; rewrite !X_hd; [apply Q7 | exact Hr | apply (Hch (c0, 0) Hcd) | exact Hr | exact Q1].
        * injection Ew as -> -> <-; rewrite !X_hd; [reflexivity | exact Hr | | exact Hr |]; apply (Hch (c0, 0)); rewrite Esp; left; reflexivity.
      + intros time; rewrite !X_node; apply concat_perm; intros i _; rewrite <- Hmap; apply Xkids_perm.
        intros cd Hcd' time'; rewrite Esp in Hcd'; apply in_app_iff in Hcd'; destruct Hcd' as [H|[<-|H]]; [| apply Q6 |];
          rewrite Hoth by (apply in_or_app; auto); reflexivity.
  Qed.

  (* ---------------------------------------------------------- moving the occurrences *)
  Lemma place_spec (refsQ : list (Z * nat)) (F : Z * nat -> Z) : NoDup refsQ ->
    forall rs done, NoDup rs -> incl rs refsQ ->
    place (dict_of (combine refsQ (List.seq 0 (length refsQ)))) rs (map F rs) (map (fun r => if mem r done then Some (F r) else None) refsQ) =
    Some (map (fun r => if mem r (done ++ rs) then Some (F r) else None) refsQ).
  Proof.
    intros HnQ; assert (Hd : forall r k, nth_error refsQ k = Some r -> dget (dict_of (combine refsQ (List.seq 0 (length refsQ)))) r = Some k).
    { rewrite dict_of_NoDup.
      - assert (G : forall (l : list (Z * nat)) s r k, NoDup l -> nth_error l k = Some r -> dget (combine l (List.seq s (length l))) r = Some (s + k)%nat).
        { clear; induction l as [|x l IH]; intros s r k Hn E; [destruct k; discriminate|].
          inversion Hn as [|? ? Hx Hn']; subst; cbn [length List.seq combine dget]; destruct k as [|k]; simpl in E.
          - injection E as ->; destruct (eq_dec r r); [rewrite Nat.add_0_r; reflexivity | congruence].
          - destruct (eq_dec r x) as [->|_]; [exfalso; apply Hx; eapply nth_error_In, E|]; rewrite (IH (S s) r k Hn' E); f_equal; lia. }
        intros r k E; rewrite (G refsQ 0%nat r k HnQ E); reflexivity.
      - assert (Hm : forall (l : list (Z * nat)) s, map fst (combine l (List.seq s (length l))) = l).
        { induction l as [|x l IH]; intros s; simpl; [reflexivity | rewrite IH; reflexivity]. }
        rewrite Hm; exact HnQ. }
    induction rs as [|r rs IH]; intros done Hn Hi; [cbn [place map]; rewrite app_nil_r; reflexivity|].
    cbn [place map]; assert (Hr : In r refsQ) by (apply Hi; left; reflexivity); apply In_nth_error in Hr; destruct Hr as [k Ek].
    rewrite (Hd r k Ek), map_length; assert (Hk : (k < length refsQ)%nat) by (apply nth_error_Some; rewrite Ek; discriminate).
    apply Nat.ltb_lt in Hk as Hk'; rewrite Hk'.
    assert (Hset : list_set (map (fun r0 => if mem r0 done then Some (F r0) else None) refsQ) k (Some (F r)) =
      map (fun r0 => if mem r0 (done ++ [r]) then Some (F r0) else None) refsQ).
    { unfold list_set; apply nth_error_split in Ek; destruct Ek as [l1 [l2 [El Hl1]]]; subst refsQ k.
      rewrite !map_app; cbn [map]; rewrite firstn_app, map_length, Nat.sub_diag, firstn_O, app_nil_r, firstn_all2 by (rewrite map_length; lia).
      assert (Esk : skipn (S (length l1)) (map (fun r0 => if mem r0 done then Some (F r0) else None) l1 ++ (if mem r done then Some (F r) else None) :: map (fun r0 => if mem r0 done then Some (F r0) else None) l2) =
        map (fun r0 => if mem r0 done then Some (F r0) else None) l2).
      { rewrite skipn_app, map_length; replace (S (length l1) - length l1)%nat with 1%nat by lia; rewrite skipn_all2 by (rewrite map_length; lia); reflexivity. }
      rewrite Esk; clear Esk; apply NoDup_remove in HnQ; destruct HnQ as [_ HnQ].
      f_equal; [|f_equal].
      - apply map_ext_in; intros y Hy; rewrite mem_app; destruct (mem y done); [reflexivity|]; cbn [orb].
        destruct (mem_spec y [r]) as [[->|[]]|_]; [exfalso; apply HnQ, in_or_app; left; exact Hy | reflexivity].
      - rewrite mem_app; destruct (mem_spec r [r]) as [_|Hno]; [rewrite orb_true_r; reflexivity | exfalso; apply Hno; left; reflexivity].
      - apply map_ext_in; intros y Hy; rewrite mem_app; destruct (mem y done); [reflexivity|]; cbn [orb].
        destruct (mem_spec y [r]) as [[->|[]]|_]; [exfalso; apply HnQ, in_or_app; right; exact Hy | reflexivity]. }
    rewrite Hset, (IH (done ++ [r])); [rewrite <- app_assoc; reflexivity | inversion Hn; assumption | intros y Hy; apply Hi; right; exact Hy].
  Qed.
  Lemma has_dup_false {B} `{EqDec B} (l : list B) : has_dup l = false -> NoDup l.
  Proof.
    unfold has_dup; intros E; apply negb_false_iff, Nat.eqb_eq in E.
    revert E; induction l as [|x l IH]; intros E; [constructor|]; simpl in E.
    assert (Hle : (length (nodup eq_dec l) <= length l)%nat).
    { clear; induction l as [|y l IH]; simpl; [lia|]; destruct (in_dec eq_dec y l); simpl; lia. }
    destruct (in_dec eq_dec x l) as [Hin|Hnin]; simpl in E; [lia|]; constructor; [exact Hnin | apply IH; lia].
  Qed.

  (* ---------------------------------------------------------- the shape *)
  (* the repetitions and periods of the nodes of a pattern; the distances between its siblings *)
  Fixpoint cycles (t : tree A) : list (nat * Z) :=
    match t with Leaf _ _ => [] | Node _ r p ch => (r, p) :: concat (map (fun cd => cycles (fst cd)) ch) end.
  Fixpoint dists (t : tree A) : list Z :=
    match t with Leaf _ _ => [] | Node _ _ _ ch => concat (map (fun cd => snd cd :: dists (fst cd)) ch) end.
  (* Q is no deeper than P and has no other cycles and distances *)
  Record finer (P Q : tree A) : Prop := {
    fi_depth : (tree_depth Q <= tree_depth P)%nat;
    fi_cycles : incl (cycles Q) (cycles P);
    fi_dists : incl (dists Q) (0 :: dists P);
    fi_root : forall n r p ch, P = Node n r p ch -> exists ch', Q = Node n r p ch' }.
  Lemma finer_refl t : finer t t.
  Proof. split; [lia | apply incl_refl | intros x; right; assumption | eauto]. Qed.
  Lemma finer_trans P Q R : finer P Q -> finer Q R -> finer P R.
  Proof.
    intros [A1 A2 A3 A4] [B1 B2 B3 B4]. split; [lia | intros x I; apply A2, B2, I | | ].
    - intros x I. destruct (B3 x I) as [<-|J]; [left; reflexivity | apply A3, J].
    - intros n r p ch E. destruct (A4 n r p ch E) as (ch' & E'). apply (B4 n r p ch' E').
  Qed.
  Lemma max_in l (x : nat) : In x l -> (x <= list_max l)%nat.
  Proof. intros I. pose proof (proj1 (list_max_le l (list_max l)) (Nat.le_refl _)) as F. rewrite Forall_forall in F. apply F, I. Qed.
  Lemma max_le l (n : nat) : (forall x, In x l -> (x <= n)%nat) -> (list_max l <= n)%nat.
  Proof. intros F. apply list_max_le, Forall_forall, F. Qed.
  Lemma kid_cycles (ch : list (tree A * Z)) cd x : In cd ch -> In x (cycles (fst cd)) -> In x (concat (map (fun cd => cycles (fst cd)) ch)).
  Proof. intros I J. apply in_concat. exists (cycles (fst cd)). split; [apply (in_map (fun cd => cycles (fst cd))), I | exact J]. Qed.
  Lemma kid_dists (ch : list (tree A * Z)) cd x : In cd ch -> In x (snd cd :: dists (fst cd)) -> In x (concat (map (fun cd => snd cd :: dists (fst cd)) ch)).
  Proof. intros I J. apply in_concat. exists (snd cd :: dists (fst cd)). split; [apply (in_map (fun cd => snd cd :: dists (fst cd))), I | exact J]. Qed.
  Lemma all_some_first (ch nch : list (tree A * Z)) : all_some (map (fun cd => option_map (fun c => (c, snd cd)) (first_child (fst cd))) ch) = Some nch ->
    Forall2 (fun cd xd => first_child (fst cd) = Some (fst xd) /\ snd cd = snd xd) ch nch.
  Proof.
    revert nch. induction ch as [|[c d] ch IH]; intros nch E; cbn [map all_some] in E; [injection E as <-; constructor|].
    destruct (first_child (fst (c, d))) as [x|] eqn:Ef; cbn [option_map] in E; [|discriminate]. destruct (all_some _) as [l|] eqn:El; [|discriminate]. injection E as <-.
    constructor; [split; [exact Ef | reflexivity] | apply IH; reflexivity].
  Qed.
  Lemma first_child_in (t x : tree A) : first_child t = Some x -> exists n r p d l, t = Node n r p ((x, d) :: l).
  Proof. destruct t as [n e|n r p [|[c d] l]]; cbn; intros E; try discriminate. injection E as ->. eauto 10. Qed.
  Lemma factor_node_finer t : finer t (factor_node t).
  Proof.
    destruct t as [n e|n r p ch]; [apply finer_refl|]. unfold factor_node. destruct ch as [|[[n0 e0|a r1 p1 ch0] d0] l]; try apply finer_refl.
    set (ch := (Node a r1 p1 ch0, d0) :: l). destruct (all_some _) as [nch|] eqn:E; [|apply finer_refl]. apply all_some_first in E.
    assert (Hin : forall xd, In xd nch -> exists cd m q pp d' l', In cd ch /\ snd cd = snd xd /\ fst cd = Node m q pp ((fst xd, d') :: l')).
    { clear -E. induction E as [|cd xd ch nch [E1 E2] F IH]; intros y I; [destruct I|]. destruct I as [<-|I].
      - apply first_child_in in E1. destruct E1 as (m & q & pp & d' & l' & E1). exists cd, m, q, pp, d', l'. cbn; auto.
      - destruct (IH y I) as (cd' & m & q & pp & d' & l' & J & K). exists cd', m, q, pp, d', l'. cbn; auto. }
    split.
    - cbn [tree_depth map fst list_max fold_right]. apply le_n_S. rewrite Nat.max_0_r.
      destruct nch as [|x0 nch0] eqn:En; [inversion E|]. rewrite <- En in *. clear x0 nch0 En.
      assert (Hx : forall x, In x (map (fun cd => tree_depth (fst cd)) nch) -> (S x <= list_max (map (fun cd => tree_depth (fst cd)) ch))%nat).
      { intros x I. apply in_map_iff in I. destruct I as (xd & <- & I). destruct (Hin xd I) as (cd & m & q & pp & d' & l' & J & _ & Ec).
        refine (Nat.le_trans _ (tree_depth (fst cd)) _ _ (max_in _ _ (in_map (fun cd => tree_depth (fst cd)) _ _ J))). rewrite Ec. cbn [tree_depth map fst]. apply le_n_S, max_in. left. reflexivity. }
      assert (H1 : (1 <= list_max (map (fun cd => tree_depth (fst cd)) ch))%nat).
      { refine (Nat.le_trans _ (tree_depth (Node a r1 p1 ch0)) _ _ (max_in _ _ _)); [cbn [tree_depth]; lia | left; reflexivity]. }
      destruct (list_max (map (fun cd => tree_depth (fst cd)) ch)) as [|k]; [lia|]. apply le_n_S. apply max_le. intros x I. specialize (Hx x I). lia.
    - cbn [cycles map fst concat]. rewrite app_nil_r. intros x [<-|[<-|I]]; [left; reflexivity | right; left; reflexivity|]. right. apply in_concat in I. destruct I as (l0 & I0 & I).
      apply in_map_iff in I0. destruct I0 as (xd & <- & I0). destruct (Hin xd I0) as (cd & m & q & pp & d' & l' & J & _ & Ec). change (In x (concat (map (fun cd => cycles (fst cd)) ch))). apply (kid_cycles ch cd x J). rewrite Ec.
      right. cbn [map concat fst]. apply in_or_app. left. exact I.
    - cbn [dists map fst snd concat]. rewrite app_nil_r. intros x [<-|I]; [left; reflexivity|]. right. apply in_concat in I. destruct I as (l0 & I0 & I).
      apply in_map_iff in I0. destruct I0 as (xd & <- & I0). destruct (Hin xd I0) as (cd & m & q & pp & d' & l' & J & Ed & Ec). change (In x (concat (map (fun cd => snd cd :: dists (fst cd)) ch))).
      apply (kid_dists ch cd x J). destruct I as [<-|I]; [left; exact Ed|]. right. rewrite Ec. cbn [dists map concat fst snd]. right. apply in_or_app. left. exact I.
    - intros n' r' p' ch' E'. injection E' as <- <- <- _. eauto.
  Qed.
  Lemma factorize_finer nid t : finer t (factorize nid t).
  Proof.
    induction t as [n e|n r p ch IH] using tree_ind'; cbn [factorize root_id].
    - destruct (n =? nid)%nat; apply finer_refl.
    - destruct (n =? nid)%nat; [apply factor_node_finer|]. rewrite Forall_forall in IH. split.
      + cbn [tree_depth]. rewrite map_map. apply le_n_S, max_le. intros x I. apply in_map_iff in I. destruct I as (cd & <- & I). cbn [fst].
        refine (Nat.le_trans _ _ _ (fi_depth _ _ (IH cd I)) (max_in _ _ (in_map (fun cd => tree_depth (fst cd)) _ _ I))).
      + cbn [cycles]. rewrite map_map. intros x [<-|I]; [left; reflexivity|]. right. apply in_concat in I. destruct I as (l0 & I0 & I). apply in_map_iff in I0. destruct I0 as (cd & <- & I0).
        apply (kid_cycles ch cd x I0). apply (fi_cycles _ _ (IH cd I0)). exact I.
      + cbn [dists]. rewrite map_map. intros x I. apply in_concat in I. destruct I as (l0 & I0 & I). apply in_map_iff in I0. destruct I0 as (cd & <- & I0). cbn [fst snd] in I.
        destruct I as [<-|I]; [right; apply (kid_dists ch cd _ I0); left; reflexivity|]. destruct (fi_dists _ _ (IH cd I0) x I) as [<-|J]; [left; reflexivity | right; apply (kid_dists ch cd _ I0); right; exact J].
      + intros n' r' p' ch' E. injection E as <- <- <- _. eauto.
  Qed.

  (* the occurrences of a candidate with their events *)
  Definition ev_occs (P : tree A) (O : list Z) : list (Z * A) := combine O (events_minor P true).
  (* the k-th of r parts of equal length *)
  Definition part_of {B} (r : nat) (l : list B) (k : nat) : list B := let m := (length l / r)%nat in firstn m (skipn (k * m) l).
  (* what a factorised candidate (Q, Qoccs, QE) has in common with (P, O) *)
  Record factor_of (P : tree A) (O : list Z) (c : @cand A) : Prop := {
    fo_wf : wf (fst (fst c)) /\ NoDup (node_ids (fst (fst c)));
    fo_smaller : (length (node_ids (fst (fst c))) < length (node_ids P))%nat;
    fo_leaves : leaf_events (fst (fst c)) = leaf_events P;
    fo_occs : Permutation (ev_occs (fst (fst c)) (snd (fst c))) (ev_occs P O);
    fo_number : length (snd (fst c)) = length O /\ nb_occs (fst (fst c)) = nb_occs P;
    fo_start : hd_error (snd (fst c)) = hd_error O;
    fo_round : exists t0, hd_error (snd (fst c)) = Some t0 /\ get_cov_seq (fst (fst c)) t0 (snd c) = Some (ev_occs (fst (fst c)) (snd (fst c)));
    fo_nbE : length (snd c) = (nb_occs (fst (fst c)) - 1)%nat;
    fo_finer : finer P (fst (fst c));
    (* in each repetition *)
    fo_reps : forall n r p ch k, P = Node n r p ch -> Permutation (part_of r (ev_occs (fst (fst c)) (snd (fst c))) k) (part_of r (ev_occs P O) k) }.
  Lemma combine_map2 {B C D} (f : B -> C) (g : B -> D) l : combine (map f l) (map g l) = map (fun x => (f x, g x)) l.
  Proof. induction l; simpl; [reflexivity | rewrite IHl; reflexivity]. Qed.

  Lemma map_const_len {B C} (c : C) (l : list B) : map (fun _ => c) l = repeat c (length l).
  Proof. induction l; simpl; congruence. Qed.
  Lemma part_concat {B} r (f : nat -> list B) m k : (forall i, (i < r)%nat -> length (f i) = m) ->
    part_of r (concat (map f (List.seq 0 r))) k = if (k <? r)%nat then f k else [].
  Proof.
    intros Hm. unfold part_of. destruct r as [|r].
    { cbn. rewrite firstn_nil || destruct (k * 0)%nat; reflexivity. }
    assert (Hl : forall s n, (forall i, (s <= i < s + n)%nat -> length (f i) = m) -> length (concat (map f (List.seq s n))) = (n * m)%nat).
    { intros s n. revert s. induction n as [|n IH]; intros s Hs; [reflexivity|]. cbn [List.seq map concat]. rewrite app_length, Hs by lia. rewrite IH; [lia|]. intros i Hi. apply Hs. lia. }
    rewrite Hl by (intros i Hi; apply Hm; lia). rewrite Nat.mul_comm, Nat.div_mul by lia.
    assert (G : forall n s k, (forall i, (s <= i < s + n)%nat -> length (f i) = m) -> firstn m (skipn (k * m) (concat (map f (List.seq s n)))) = if (k <? n)%nat then f (s + k)%nat else []).
    { clear. induction n as [|n IH]; intros s k Hs; cbn [List.seq map concat].
      - rewrite skipn_nil, firstn_nil. reflexivity.
      - destruct k as [|k].
        + cbn [Nat.mul skipn]. rewrite <- (Hs s) by lia. rewrite firstn_app, Nat.sub_diag, firstn_O, app_nil_r, firstn_all, Nat.add_0_r. reflexivity.
        + replace (S k * m)%nat with (length (f s) + k * m)%nat by (rewrite Hs by lia; lia). rewrite skipn_app, skipn_all2 by lia.
          replace (length (f s) + k * m - length (f s))%nat with (k * m)%nat by lia. cbn [app]. rewrite IH by (intros i Hi; apply Hs; lia).
          replace (s + S k)%nat with (S s + k)%nat by lia. reflexivity. }
    rewrite G by (intros i Hi; apply Hm; lia). reflexivity.
  Qed.
  Lemma Xkids_length tt ch : length (Xkids tt ch) = list_sum (map (fun cd => nb_occs (fst cd)) ch).
  Proof. revert tt. induction ch as [|[c d] ch IH]; intros tt; [reflexivity|]. cbn [Xkids map list_sum fold_right fst]. rewrite app_length, X_length, IH. reflexivity. Qed.
  Lemma kids_one n p ch time : X (Node n 1 p ch) time = Xkids time ch.
  Proof. rewrite X_node. cbn [List.seq map concat]. rewrite app_nil_r. f_equal. lia. Qed.
  Lemma factorize_kids (P : tree A) n r p ch nid : P = Node n r p ch -> wf P -> NoDup (node_ids P) -> In nid (can_factorize P) ->
    exists ch', factorize nid P = Node n r p ch' /\ forall time, Permutation (Xkids time ch') (Xkids time ch).
  Proof.
    intros -> Hw Hn Hin. assert (W1 : wf (Node n 1 p ch)) by (inversion Hw; subst; constructor; [lia | assumption | assumption]).
    destruct (factorize_preserved (Node n 1 p ch) nid W1 Hn Hin) as [_ _ _ _ _ Q6].
    assert (E : exists ch', forall r, factorize nid (Node n r p ch) = Node n r p ch').
    { cbn [factorize root_id]. destruct (n =? nid)%nat; [|eauto]. unfold factor_node. destruct ch as [|[[n0 e0|a r1 p1 ch0] d0] l]; eauto. destruct (all_some _); eauto. }
    destruct E as (ch' & E). exists ch'. split; [apply E|]. intros time. specialize (Q6 time). rewrite E, !kids_one in Q6. exact Q6.
  Qed.
  Lemma factor_step_spec (P : tree A) O nid : wf P -> NoDup (node_ids P) -> length O = nb_occs P -> has_dup (time_nids P) = false ->
    In nid (can_factorize P) -> exists c, factor_step P O nid = Some c /\ factor_of P O c.
  Proof.
    intros Hw Hn HO Hd Hin; apply has_dup_false in Hd.
    destruct (factorize_preserved P nid Hw Hn Hin) as [Q1 _ [Q2 [_ Q3]] Q4 Q5 Q6]; set (Q := factorize nid P) in *.
    assert (Hperm : Permutation (time_nids Q) (time_nids P)) by (rewrite !X_time_nids; apply Permutation_map, Q6).
    assert (HdQ : NoDup (time_nids Q)) by (eapply Permutation_NoDup; [symmetry; exact Hperm | exact Hd]).
    assert (HlP : length (time_nids P) = nb_occs P) by (rewrite X_time_nids, map_length; apply X_length).
    assert (HlQ : length (time_nids Q) = nb_occs P) by (rewrite (Permutation_length Hperm); exact HlP).
    assert (HnQ : nb_occs Q = nb_occs P) by (rewrite <- HlQ, X_time_nids, map_length; symmetry; apply X_length).
    destruct (choose (time_nids P) Hd O) as [F HF]; [lia|].
    set (G := fun r => match F r with Some z => z | None => 0 end).
    assert (HG : map G (time_nids P) = O).
    { clear -HF; revert O HF; induction (time_nids P) as [|r l IH]; intros O HF; destruct O as [|o O]; try discriminate; [reflexivity|].
      simpl in HF; injection HF as E1 E2; simpl; unfold G at 1; rewrite E1; f_equal; apply IH, E2. }
    clearbody G; clear F HF.
    destruct (C39_times Q (map G (time_nids Q)) Q1) as [QE [E1 [E2 E3]]]; [rewrite map_length; lia|].
    exists (Q, map G (time_nids Q), QE); split.
    - unfold factor_step; fold Q.
      assert (Hini : map (fun _ : Z => @None Z) O = map (fun r => if mem r [] then Some (G r) else None) (time_nids Q)).
      { cbn [mem existsb]; rewrite !map_const_len; f_equal; lia. }
      rewrite Hini; rewrite <- HG at 1; rewrite (place_spec (time_nids Q) G HdQ (time_nids P) [] Hd).
      + cbn [app]; assert (Hall : map (fun r => if mem r (time_nids P) then Some (G r) else None) (time_nids Q) = map (fun r => Some (G r)) (time_nids Q)).
        { apply map_ext_in; intros r Hr; destruct (mem_spec r (time_nids P)) as [_|Hno]; [reflexivity|]; exfalso; apply Hno; eapply Permutation_in; [exact Hperm | exact Hr]. }
        rewrite Hall, all_some_map, E1; reflexivity.
      + intros r Hr; eapply Permutation_in; [symmetry; exact Hperm | exact Hr].
    - constructor; cbn [fst snd].
      + split; assumption.
      + exact Q3.
      + exact Q4.
      + unfold ev_occs; rewrite <- HG, !(X_events _ 0), !X_time_nids, !map_map, !combine_map2; apply Permutation_map, Q6.
      + rewrite map_length; split; lia.
      + rewrite <- HG, !X_time_nids, !map_map; specialize (Q5 0); destruct (X Q 0), (X P 0); simpl in *; try discriminate; [reflexivity|].
        injection Q5 as ->; reflexivity.
      + destruct (time_nids Q) as [|r l] eqn:Er.
        * exfalso; rewrite X_time_nids in Er; apply map_eq_nil in Er; exact (X_nonempty Q 0 Q1 Er).
        * exists (G r); split; [reflexivity|]; cbn [map hd] in E3; exact E3.
      + exact E2.
      + apply factorize_finer.
      + intros n r p ch k EP. destruct (factorize_kids P n r p ch nid EP Hw Hn Hin) as (ch' & EQ & Hk). fold Q in EQ.
        unfold ev_occs. rewrite <- HG, !(X_events _ 0), !X_time_nids, !map_map, !combine_map2. cbn [fst snd]. rewrite EQ, EP, !X_node, !concat_map, !map_map.
        rewrite !(part_concat r (fun x => map _ (Xkids _ _)) (list_sum (map (fun cd => nb_occs (fst cd)) ch))).
        * destruct (k <? r)%nat; [|constructor]. apply Permutation_map, Hk.
        * intros i _. rewrite map_length. apply Xkids_length.
        * intros i _. rewrite map_length, (Permutation_length (Hk _)). apply Xkids_length.
  Qed.
  Lemma factor_trans P O Q O' E c : factor_of P O (Q, O', E) -> factor_of Q O' c -> factor_of P O c.
  Proof.
    intros [H1 H2 H3 H4 [H5 H5'] H6 H7 _ H9 H10] [K1 K2 K3 K4 [K5 K5'] K6 K7 K8 K9 K10]; cbn [fst snd] in *; constructor.
    - exact K1.
    - lia.
    - rewrite K3; exact H3.
    - rewrite K4; exact H4.
    - split; lia.
    - rewrite K6; exact H6.
    - exact K7.
    - exact K8.
    - exact (finer_trans _ _ _ H9 K9).
    - intros n r p ch k EP. destruct (fi_root _ _ H9 n r p ch EP) as (ch' & E'). rewrite (K10 n r p ch' k E'). apply (H10 n r p ch k EP).
  Qed.
  (* Every pattern obtained by factorising, at any number of nodes, has the same leaves, the same number of
     occurrences, the same occurrences with the same events, in each repetition, the same starting time, and corrections from
     which these occurrences are recovered; it is no deeper and has no other repetitions, periods and distances. The search always ends: it needs at most one level per node. *)
  Theorem C46_factorise : forall (P : tree A) O fuel, wf P -> NoDup (node_ids P) -> length O = nb_occs P -> (length (node_ids P) < fuel)%nat ->
    exists fs, factorize_pattern fuel P O = Some fs /\ Forall (factor_of P O) fs /\
      (has_dup (time_nids P) = false -> can_factorize P <> [] -> fs <> []).
  Proof.
    intros P O fuel; revert P O; induction fuel as [|f IH]; intros P O Hw Hn HO Hf; [lia|]; cbn [factorize_pattern].
    assert (Hi : incl (can_factorize P) (can_factorize P)) by (intros x; auto).
    set (cf := can_factorize P) in Hi at 1 |- *; clearbody cf; induction cf as [|nid cf IHcf].
    - exists []; split; [reflexivity | split; [constructor | congruence]].
    - destruct (has_dup (time_nids P)) eqn:Hd; [exists []; split; [reflexivity | split; [constructor | discriminate]]|].
      destruct (factor_step_spec P O nid Hw Hn HO Hd) as [[[Q O'] E'] [Ec Hc]]; [apply Hi; left; reflexivity|].
      rewrite Ec; assert (Hc' := Hc); destruct Hc' as [[C1 C1'] C2 _ _ [C3 C3'] _ _ _ _ _]; cbn [fst snd] in *.
      destruct (IH Q O' C1 C1') as [fs [E1 [F1 _]]]; [lia | lia|]; rewrite E1.
      destruct IHcf as [rest [E2 [F2 _]]]; [intros x Hx; apply Hi; right; exact Hx|]; rewrite E2.
      eexists; split; [reflexivity|]; split; [|discriminate].
      constructor; [exact Hc|]; apply Forall_app; split; [|exact F2].
      eapply Forall_impl; [|exact F1]; intros c; apply factor_trans with (1 := Hc).
  Qed.
End FactorProofs.
Print Assumptions C46_factorise.

(* two cycles of the same period and length merge into one cycle of a block *)
Definition demo_fact : tree nat := Node 0 2 100 [(Node 1 3 10 [(Leaf 2 7%nat, 0)], 0); (Node 3 3 10 [(Leaf 4 8%nat, 0)], 4)].
Definition demo_fact_occs : list Z := [5; 15; 26; 9; 19; 30; 105; 115; 125; 108; 119; 129].
Example C46_case : wf demo_fact /\ NoDup (node_ids demo_fact) /\ length demo_fact_occs = nb_occs demo_fact /\
  factorize_pattern 6 demo_fact demo_fact_occs =
    Some [(Node 0 2 100 [(Node 1 3 10 [(Leaf 2 7%nat, 0); (Leaf 4 8%nat, 4)], 0)],
           [5; 9; 15; 19; 26; 30; 105; 108; 115; 119; 125; 129], [0; 0; 0; 1; 0; 0; -1; 0; 0; 0; 0])].
Proof.
  split; [|split; [|split; [reflexivity | vm_compute; reflexivity]]].
  - constructor; [lia | eexists; eexists; reflexivity|]; repeat constructor; eexists; eexists; reflexivity.
  - repeat constructor; simpl; intuition discriminate.
Qed.
