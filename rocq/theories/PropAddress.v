(* C105: the keys of the nodes of a pattern tree, their display, the renaming of events and
   the figures of a tree. *)
From Coq Require Import NArith String.
From Verif Require Import Prelude CheckModel LCMModel TextModel TextProofs SplitModel SplitProofs ArrayModel PeriodModel PropPeriod TreeModel TreeProofs ExportModel PropExport PropShow AddressModel.
Local Open Scope Z_scope.

(* ------------------------------------------------------------ specification *)
(* what names[e] is in Python *)
Definition item_at {X} (names : list X) (e : Z) (x : X) : Prop :=
  0 <= e /\ nth_error names (Z.to_nat e) = Some x \/
  e < 0 /\ 0 <= Z.of_nat (length names) + e /\ nth_error names (Z.to_nat (Z.of_nat (length names) + e)) = Some x.
(* the occurrences of one leaf, in the order in which the pattern is unrolled *)
Definition occs_of_leaf {A} (t : tree A) (nid : nat) : list (Z * nat * text) :=
  filter (fun o => (snd (fst o) =? nid)%nat) (times_nids t).
Fixpoint blocks {A} (t : tree A) : nat :=
  match t with Leaf _ _ => 0%nat | Node _ _ _ ch => S (list_sum (map (fun cd => blocks (fst cd)) ch)) end.
(* blocks with a single child each, around one event *)
Inductive single {A} : tree A -> Prop :=
| single_leaf n a : single (Leaf n a)
| single_node n r p c d : single c -> single (Node n r p [(c, d)]).

(* from a tree down to one of its nodes: the number of the child taken in every block, with the repetitions of the block *)
Inductive way {A} : tree A -> list (nat * nat) -> tree A -> Prop :=
| way_here t : way t [] t
| way_down n r p ch c d i l s : nth_error ch i = Some (c, d) -> way c l s -> way (Node n r p ch) ((i, r) :: l) s.
(* the repetition meant by a number: -1 is the last one *)
Definition repetition (rep : Z) (r : nat) : Z := if rep =? -1 then Z.of_nat r - 1 else rep.

Lemma item_py {X} (names : list X) e x : py_nth names e = Some x <-> item_at names e x.
Proof.
  unfold py_nth, item_at. destruct (Z.leb_spec 0 e).
  - split; [intros E; left; auto|]. intros [[_ E]|[H' _]]; [exact E|lia].
  - destruct (Z.leb_spec 0 (Z.of_nat (length names) + e)).
    + split; [intros E; right; auto|]. intros [[H' _]|(_ & _ & E)]; [lia|exact E].
    + split; [discriminate|]. intros [[H' _]|(_ & H' & _)]; lia.
Qed.

(* ------------------------------------------------------------ keys *)
Section Keys.
  Context {A : Type}.
  Definition kids_key (nid : nat) (rep : Z) (r : nat) : nat -> list (tree A * Z) -> option position :=
    fix kids (cid : nat) (l : list (tree A * Z)) : option position :=
      match l with
      | [] => None
      | (c, _) :: l' =>
          match keyl_from_nid c nid rep with
          | Some kl => Some ((Z.of_nat cid, if rep =? -1 then Z.of_nat r - 1 else rep) :: kl)
          | None => kids (S cid) l'
          end
      end.
  Definition kids_find (nid : nat) : list (tree A * Z) -> option (tree A) :=
    fix kids (l : list (tree A * Z)) : option (tree A) :=
      match l with
      | [] => None
      | (c, _) :: l' => match find_node c nid with Some s => Some s | None => kids l' end
      end.
  Lemma keyl_node n r p ch nid rep : keyl_from_nid (Node n r p ch) nid rep = if (n =? nid)%nat then Some [] else kids_key nid rep r 0 ch.
  Proof. reflexivity. Qed.
  Lemma find_node_node n r p ch nid : find_node (Node n r p ch) nid = if (n =? nid)%nat then Some (Node n r p ch) else kids_find nid ch.
  Proof. reflexivity. Qed.

  Lemma walk_fst k : forall (t : tree A) k', map fst k = map fst k' -> walk t k = walk t k'.
  Proof.
    induction k as [|[c x] k IH]; intros t [|[c' x'] k'] E; try discriminate; [reflexivity|].
    cbn [map fst] in E. injection E as -> E. cbn [walk]. destruct t as [|n r p ch]; [reflexivity|].
    destruct k as [|a k], k' as [|a' k']; try discriminate; [reflexivity|].
    destruct (c' <? Z.of_nat (length ch)); [|reflexivity]. rewrite !andb_false_r. destruct (py_nth ch c') as [[u d]|]; [|reflexivity]. apply IH, E.
  Qed.
  Lemma walk_down n r p (ch : list (tree A * Z)) j x c d k : nth_error ch j = Some (c, d) -> walk (Node n r p ch) ((Z.of_nat j, x) :: k) = walk c k.
  Proof.
    intros E. assert (j < length ch)%nat by (apply nth_error_Some; congruence). cbn [walk].
    destruct (Z.ltb_spec (Z.of_nat j) (Z.of_nat (length ch))); [|lia]. destruct (Z.eqb_spec (Z.of_nat j) (-1)); [lia|]. cbn [andb].
    unfold py_nth. destruct (Z.leb_spec 0 (Z.of_nat j)); [|lia]. rewrite Nat2Z.id, E. reflexivity.
  Qed.

  Lemma key_found (t : tree A) : forall nid rep,
    (In nid (node_ids t) -> exists kl s, keyl_from_nid t nid rep = Some kl /\ find_node t nid = Some s /\ root_id s = nid /\ (forall k, walk t (kl ++ k) = walk s k)) /\
    (~ In nid (node_ids t) -> keyl_from_nid t nid rep = None /\ find_node t nid = None).
  Proof.
    induction t as [n e|n r p ch IH] using tree_ind'; intros nid rep.
    - cbn [node_ids In keyl_from_nid find_node root_id]. destruct (Nat.eqb_spec n nid) as [->|N].
      + split; [|tauto]. intros _. exists [], (Leaf nid e). auto.
      + split; [intros [E|[]]; congruence|auto].
    - rewrite keyl_node, find_node_node. destruct (Nat.eqb_spec n nid) as [->|N].
      + split; [|intros H; exfalso; apply H; cbn; auto]. intros _. exists [], (Node nid r p ch). auto.
      + assert (K : forall pre post, ch = pre ++ post ->
          (In nid (concat (map (fun cd => node_ids (fst cd)) post)) -> exists kl s, kids_key nid rep r (length pre) post = Some kl /\ kids_find nid post = Some s /\ root_id s = nid /\ (forall k, walk (Node n r p ch) (kl ++ k) = walk s k)) /\
          (~ In nid (concat (map (fun cd => node_ids (fst cd)) post)) -> kids_key nid rep r (length pre) post = None /\ kids_find nid post = None)).
        { intros pre post; revert pre. induction post as [|[c d] post IHp]; intros pre E; [cbn; split; [tauto|auto]|].
          rewrite Forall_forall in IH. assert (Hc : In (c, d) ch) by (rewrite E; apply in_or_app; right; left; reflexivity).
          destruct (IH _ Hc nid rep) as [Yes No]. cbn [fst] in Yes, No.
          assert (E' : ch = (pre ++ [(c, d)]) ++ post) by (rewrite <- app_assoc; exact E). destruct (IHp _ E') as [Yp Np].
          rewrite app_length, Nat.add_1_r in Yp, Np.
          cbn [map concat fst kids_key kids_find]. fold (kids_key nid rep r) (kids_find nid).
          destruct (in_dec Nat.eq_dec nid (node_ids c)) as [I|I].
          - destruct (Yes I) as (kl & s & -> & -> & Es & W). split; [|intros X; exfalso; apply X, in_or_app; auto]. intros _.
            eexists _, s. do 3 (split; [first [reflexivity|exact Es]|]). intros k. cbn [app]. rewrite <- W.
            apply walk_down with d. rewrite E, nth_error_app2, Nat.sub_diag by lia. reflexivity.
          - destruct (No I) as [-> ->]. split.
            + intros X. apply in_app_or in X. destruct X as [X|X]; [tauto|]. apply Yp, X.
            + intros X. apply Np. intros Y. apply X, in_or_app; auto. }
        destruct (K [] ch eq_refl) as [Y Z]. cbn [length] in Y, Z. cbn [node_ids In]. split.
        * intros [E|I]; [congruence|]. apply Y, I.
        * intros X. apply Z. tauto.
  Qed.

  Lemma text_nonempty (q : Z * Z) l : l_to_key (q :: l) <> [].
  Proof.
    intros E. pose proof (C36_round_trip (q :: l)) as R. rewrite E in R. discriminate R.
  Qed.
  Lemma nid_text (t : tree A) l : l <> [] -> nid_from_key t (l_to_key l) = option_map root_id (walk t l).
  Proof.
    intros N. destruct l as [|q l]; [congruence|]. unfold nid_from_key. destruct (l_to_key (q :: l)) as [|x y] eqn:E; [destruct (text_nonempty _ _ E)|].
    rewrite <- E, C36_round_trip. cbn [map]. f_equal. apply walk_fst. cbn [map fst hd]. rewrite !map_map. reflexivity.
  Qed.
  Lemma root_of_empty (t : tree A) nid rep : keyl_from_nid t nid rep = Some [] -> root_id t = nid.
  Proof.
    destruct t as [n e|n r p ch]; [cbn [keyl_from_nid root_id]|rewrite keyl_node; cbn [root_id]]; destruct (Nat.eqb_spec n nid); try congruence.
    intros E. exfalso. generalize dependent 0%nat. induction ch as [|[c d] ch IH]; intros k; cbn [kids_key]; [discriminate|].
    fold (kids_key nid rep r). destruct (keyl_from_nid c nid rep); [discriminate|apply IH].
  Qed.
  Lemma root_in (t : tree A) : In (root_id t) (node_ids t).
  Proof. destruct t; cbn; auto. Qed.

  Lemma inverse (t : tree A) nid rep : root_id t = 0%nat -> In nid (node_ids t) ->
    exists k, key_from_nid t nid rep = Some k /\ nid_from_key t k = Some nid.
  Proof.
    intros R I. destruct (proj1 (key_found t nid rep) I) as (kl & s & E & F & Es & W). unfold key_from_nid. rewrite E, F.
    destruct s as [m e|m r p ch]; (eexists; split; [reflexivity|]).
    - destruct kl as [|q kl].
      + cbn. f_equal. rewrite <- R. apply root_of_empty with rep, E.
      + rewrite nid_text by discriminate. rewrite <- (app_nil_r (q :: kl)), W. cbn [walk option_map]. f_equal. exact Es.
    - rewrite nid_text by (destruct kl; discriminate). rewrite W. cbn [walk].
      destruct (Z.ltb_spec (-1) (Z.of_nat (length ch))); [|lia]. cbn [Z.eqb Pos.eqb andb option_map]. f_equal. exact Es.
  Qed.

  Lemma way_in (t : tree A) l s : way t l s -> In (root_id s) (node_ids t).
  Proof.
    induction 1 as [t|n r p ch c d i l s E W IH]; [apply root_in|]. cbn [node_ids]. right. apply in_concat. exists (node_ids c).
    split; [|exact IH]. apply in_map_iff. exists (c, d). split; [reflexivity | apply (nth_error_In _ _ E)].
  Qed.
  Lemma way_found (t : tree A) l s rep : way t l s -> NoDup (node_ids t) ->
    keyl_from_nid t (root_id s) rep = Some (map (fun ir => (Z.of_nat (fst ir), repetition rep (snd ir))) l) /\ find_node t (root_id s) = Some s.
  Proof.
    induction 1 as [t|n r p ch c d i l s E W IH]; intros ND.
    - destruct t as [m e|m r p ch]; [cbn [keyl_from_nid find_node root_id] | rewrite keyl_node, find_node_node; cbn [root_id]]; rewrite Nat.eqb_refl; auto.
    - rewrite keyl_node, find_node_node. cbn [node_ids] in ND. inversion ND as [|? ? Nn ND']; subst.
      assert (I : In (root_id s) (node_ids c)) by (apply (way_in _ _ _ W)).
      assert (Ic : In (root_id s) (concat (map (fun cd => node_ids (fst cd)) ch))).
      { apply in_concat. exists (node_ids c). split; [|exact I]. apply in_map_iff. exists (c, d). split; [reflexivity | apply (nth_error_In _ _ E)]. }
      destruct (Nat.eqb_spec n (root_id s)) as [->|_]; [contradiction|].
      cbn [map fst snd]. enough (K : forall k, kids_key (root_id s) rep r k ch = Some ((Z.of_nat (k + i), repetition rep r) :: map (fun ir => (Z.of_nat (fst ir), repetition rep (snd ir))) l) /\ kids_find (root_id s) ch = Some s) by apply (K 0%nat).
      clear Nn ND Ic. revert i E ND'. induction ch as [|[c' d'] ch IHc]; intros i E ND' k; [destruct i; discriminate|].
      cbn [map concat fst] in ND'. cbn [kids_key kids_find]. fold (kids_key (root_id s) rep r) (kids_find (root_id s)). destruct i as [|i]; cbn [nth_error] in E.
      + injection E as -> ->. destruct IH as [-> ->]; [clear -ND'; induction (node_ids c) as [|x xs IHx]; [constructor|]; cbn [app] in ND'; inversion ND' as [|? ? Nx ND'']; subst; constructor; [intros X; apply Nx, in_or_app; auto | apply IHx, ND'']|]. rewrite Nat.add_0_r. auto.
      + assert (N : ~ In (root_id s) (node_ids c')).
        { intros X. assert (Y : In (root_id s) (concat (map (fun cd => node_ids (fst cd)) ch))).
          { apply in_concat. exists (node_ids c). split; [|exact I]. apply in_map_iff. exists (c, d). split; [reflexivity | apply (nth_error_In _ _ E)]. }
          clear -ND' X Y. induction (node_ids c') as [|x xs IHx]; [destruct X|]. cbn [app] in ND'. inversion ND' as [|? ? Nx ND'']; subst. destruct X as [->|X]; [apply Nx, in_or_app; auto | apply IHx; assumption]. }
        destruct (proj2 (key_found c' (root_id s) rep) N) as [-> ->]. replace (k + S i)%nat with (S k + i)%nat by lia. apply IHc; [exact E|].
        clear -ND'. induction (node_ids c') as [|x xs IHx]; [exact ND'|]. cbn [app] in ND'. inversion ND'; auto.
  Qed.
End Keys.

(* ------------------------------------------------------------ first and last occurrence *)
Section Ends.
  Context {A : Type}.
  Definition of_nid (nid : nat) (l : list (npos * (nat * A))) := filter (fun qx => (fst (snd qx) =? nid)%nat) l.
  Lemma filter_concat' {X} (f : X -> bool) ll : filter f (concat ll) = concat (map (filter f) ll).
  Proof. induction ll as [|l ll IH]; [reflexivity|]. cbn [concat map]. rewrite filter_app, IH. reflexivity. Qed.
  Lemma of_nid_map nid g l : of_nid nid (map (fun qx : npos * (nat * A) => (g (fst qx), snd qx)) l) = map (fun qx => (g (fst qx), snd qx)) (of_nid nid l).
  Proof. induction l as [|x l IH]; [reflexivity|]. cbn [map of_nid filter fst snd]. fold (of_nid nid). destruct (_ =? _)%nat; cbn [map]; unfold of_nid in IH; rewrite IH; reflexivity. Qed.
  Lemma leaf_ids t q n (e : A) : In (q, (n, e)) (leafs t) -> In n (node_ids t).
  Proof.
    revert q. induction t as [m a|m r p ch IH] using tree_ind'; intros q; [intros [E|[]]; inversion E; cbn; auto|].
    cbn [leafs node_ids]. intros I. right. apply in_concat in I. destruct I as (l & Hl & I). apply in_map_iff in Hl. destruct Hl as (i & <- & _).
    apply in_concat in I. destruct I as (l' & Hl' & I). apply In_mapi in Hl'. destruct Hl' as (k & [c d] & E & ->). apply in_map_iff in I.
    destruct I as ([q' x] & E' & I). cbn [fst snd] in *. inversion E'; subst x. apply nth_error_In in E. rewrite Forall_forall in IH.
    apply in_concat. exists (node_ids c). split; [apply in_map_iff; exists (c, d); auto|]. apply (IH _ E) with q', I.
  Qed.
  Lemma none_of (t : tree A) nid : ~ In nid (node_ids t) -> of_nid nid (leafs t) = [].
  Proof.
    intros N. destruct (of_nid nid (leafs t)) as [|[q [n e]] l] eqn:E; [reflexivity|]. exfalso. assert (I : In (q, (n, e)) (of_nid nid (leafs t))) by (rewrite E; left; reflexivity).
    apply filter_In in I. destruct I as [I Q]. cbn [fst snd] in Q. apply Nat.eqb_eq in Q; subst. apply N. eapply leaf_ids, I.
  Qed.

  (* the leaves with one number: those of the child that has it *)
  Lemma of_node nid n r p pre c d post : NoDup (node_ids (Node n r p (pre ++ (c, d) :: post))) -> In nid (node_ids c) ->
    of_nid nid (leafs (Node n r p (pre ++ (c, d) :: post))) =
    concat (map (fun i => map (fun qx => ((length pre, i) :: fst qx, snd qx)) (of_nid nid (leafs c))) (List.seq 0 r)).
  Proof.
    intros ND I. cbn [leafs]. unfold of_nid at 1. rewrite filter_concat', map_map. f_equal. apply map_ext. intros i.
    rewrite mapi_app. cbn [mapi]. rewrite Nat.add_0_l, concat_app, filter_app. cbn [concat]. rewrite filter_app. fold (of_nid nid).
    cbn [node_ids] in ND. inversion ND as [|? ? _ ND']; subst. rewrite map_app, concat_app in ND'. cbn [map concat fst] in ND'.
    apply NoDup_app_elim in ND'. destruct ND' as (_ & N2 & N3). apply NoDup_app_elim in N2. destruct N2 as (_ & _ & N4).
    assert (Z : forall (l : list (tree A * Z)) k, (forall cd, In cd l -> ~ In nid (node_ids (fst cd))) ->
      filter (fun qx : npos * (nat * A) => (fst (snd qx) =? nid)%nat) (concat (mapi (fun ni cd => map (fun qx => ((ni, i) :: fst qx, snd qx)) (leafs (fst cd))) k l)) = []).
    { clear. induction l as [|cd l IH]; intros k H; [reflexivity|]. cbn [mapi concat]. rewrite filter_app, IH by (intros x Hx; apply H; right; exact Hx).
      rewrite app_nil_r. etransitivity; [apply (of_nid_map nid (cons (k, i)))|]. rewrite none_of by (apply H; left; reflexivity). reflexivity. }
    rewrite !Z.
    - cbn [app]. rewrite app_nil_r. apply (of_nid_map nid (cons (length pre, i))).
    - intros cd Hcd X. apply (N4 nid); [exact I|]. apply in_concat. exists (node_ids (fst cd)). split; [apply in_map_iff; eauto|exact X].
    - intros cd Hcd X. apply (N3 nid); [|apply in_or_app; left; exact I]. apply in_concat. exists (node_ids (fst cd)). split; [apply in_map_iff; eauto|exact X].
  Qed.
  Lemma kids_key_skip nid rep r pre c d post kl : (forall cd, In cd pre -> ~ In nid (node_ids (fst cd))) -> keyl_from_nid c nid rep = Some kl ->
    forall k, @kids_key A nid rep r k (pre ++ (c, d) :: post) = Some ((Z.of_nat (k + length pre), if rep =? -1 then Z.of_nat r - 1 else rep) :: kl).
  Proof.
    induction pre as [|[c' d'] pre IH]; intros N E k; cbn [app kids_key length].
    - rewrite E, Nat.add_0_r. reflexivity.
    - fold (kids_key nid rep r (A := A)). rewrite (proj1 (proj2 (key_found c' nid rep) (N (c', d') (or_introl eq_refl)))). rewrite IH, Nat.add_succ_r; auto. intros x Hx. apply N. right. exact Hx.
  Qed.
  Lemma kids_find_skip nid pre c d post s : (forall cd, In cd pre -> ~ In nid (node_ids (fst cd))) -> find_node c nid = Some s ->
    @kids_find A nid (pre ++ (c, d) :: post) = Some s.
  Proof.
    induction pre as [|[c' d'] pre IH]; intros N E; cbn [app kids_find].
    - rewrite E. reflexivity.
    - fold (kids_find nid (A := A)). rewrite (proj2 (proj2 (key_found c' nid 0) (N (c', d') (or_introl eq_refl)))). apply IH; auto. intros x Hx. apply N. right. exact Hx.
  Qed.

  Lemma hd_map {X Y} (f : X -> Y) l b rest : hd_error l = Some b -> hd_error (map f l ++ rest) = Some (f b).
  Proof. destruct l as [|x l]; [discriminate|]. cbn. intros E; inversion E; reflexivity. Qed.
  Lemma ends (t : tree A) : wf t -> NoDup (node_ids t) -> forall nid q (e : A), In (q, (nid, e)) (leafs t) ->
    find_node t nid = Some (Leaf nid e) /\
    (exists a, hd_error (of_nid nid (leafs t)) = Some a /\ keyl_from_nid t nid 0 = Some (zpos (fst a))) /\
    (exists b, hd_error (rev (of_nid nid (leafs t))) = Some b /\ keyl_from_nid t nid (-1) = Some (zpos (fst b))).
  Proof.
    induction t as [n a|n r p ch IH] using tree_ind'; intros W ND nid q e I.
    - destruct I as [E|[]]. inversion E; subst. cbn [find_node keyl_from_nid root_id leafs of_nid filter fst snd]. rewrite !Nat.eqb_refl. cbn [rev app hd_error].
      split; [reflexivity|]. split; (eexists; split; [reflexivity|reflexivity]).
    - inversion W as [|? ? ? ? Hr _ F]; subst.
      cbn [leafs] in I. apply in_concat in I. destruct I as (l & Hl & I). apply in_map_iff in Hl. destruct Hl as (i & <- & _).
      apply in_concat in I. destruct I as (l' & Hl' & I). apply In_mapi in Hl'. destruct Hl' as (k & [c d] & E & ->). apply in_map_iff in I.
      destruct I as ([q' x] & E' & I). cbn [fst snd] in *. inversion E'; subst x.
      pose proof (nth_error_In _ _ E) as Hin. rewrite Forall_forall in IH, F. specialize (F _ Hin). cbn [fst] in F.
      apply nth_error_split in E. destruct E as (pre & post & -> & <-).
      pose proof (leaf_ids _ _ _ _ I) as Ic.
      assert (NDc := ND). cbn [node_ids] in NDc. inversion NDc as [|? ? Nn ND']; subst. rewrite map_app, concat_app in ND'. cbn [map concat fst] in ND'.
      apply NoDup_app_elim in ND'. destruct ND' as (_ & N2 & N3). apply NoDup_app_elim in N2. destruct N2 as (N5 & _ & _).
      assert (Hpre : forall cd, In cd pre -> ~ In nid (node_ids (fst cd))).
      { intros cd Hcd X. apply (N3 nid); [|apply in_or_app; left; exact Ic]. apply in_concat. exists (node_ids (fst cd)). split; [apply in_map_iff; eauto|exact X]. }
      assert (Hn : (n =? nid)%nat = false).
      { apply Nat.eqb_neq. intros ->. apply Nn. apply in_concat. exists (node_ids c). split; [apply in_map_iff; exists (c, d); auto|exact Ic]. }
      destruct (IH _ Hin F N5 _ _ _ I) as (Ef & (a & Ha & Ka) & (b & Hb & Kb)). cbn [fst] in *.
      rewrite find_node_node, !keyl_node, Hn, (of_node nid n r p pre c d post ND Ic).
      split; [apply kids_find_skip; assumption|]. split.
      + exists ((length pre, 0%nat) :: fst a, snd a). split; [|rewrite (kids_key_skip nid 0 r pre c d post _ Hpre Ka); reflexivity].
        destruct r as [|r]; [lia|]. cbn [List.seq map concat]. destruct (of_nid nid (leafs c)) as [|y m]; [discriminate|]. cbn [hd_error] in Ha. inversion Ha; subst. reflexivity.
      + exists ((length pre, r - 1)%nat :: fst b, snd b). split.
        * replace (List.seq 0 r) with (List.seq 0 (r - 1) ++ [(r - 1)%nat]) by (rewrite <- (Nat.add_0_l (r - 1)) at 2; rewrite <- seq_S; f_equal; lia).
          rewrite map_app, concat_app. cbn [map concat]. rewrite app_nil_r, rev_app_distr, <- map_rev.
          apply (hd_map (fun qx : npos * (nat * A) => ((length pre, r - 1)%nat :: fst qx, snd qx)) _ _ _ Hb).
        * rewrite (kids_key_skip nid (-1) r pre c d post _ Hpre Kb). cbn [Z.eqb Pos.eqb zpos map fst snd]. do 3 f_equal. lia.
  Qed.
  Lemma times_leafs (t : tree A) nid : occs_of_leaf t nid = map (fun qx => (off (fst qx) t, fst (snd qx), l_to_key (zpos (fst qx)))) (of_nid nid (leafs t)).
  Proof.
    unfold occs_of_leaf, times_nids. rewrite expand_spec. cbn [rev app]. generalize (leafs t) as l. induction l as [|x l IH]; [reflexivity|].
    cbn [map filter of_nid fst snd]. fold (of_nid nid). destruct (fst (snd x) =? nid)%nat; cbn [map]; unfold of_nid in IH; rewrite IH; reflexivity.
  Qed.
End Ends.

(* ------------------------------------------------------------ display *)
Lemma join_numbers_inj c c' l : forall l' x x', nondigit c -> nondigit c' -> c <> 44%N -> c' <> 44%N ->
  c <> minus_c -> c' <> minus_c ->
  join comma (map str_z l) ++ c :: x = join comma (map str_z l') ++ c' :: x' -> l = l' /\ c = c' /\ x = x'.
Proof.
  induction l as [|z l IH]; intros [|z' l'] x x' N N' K K' M M' E.
  - cbn in E. injection E as -> ->. auto.
  - exfalso. change (join comma (map str_z []) ++ c :: x) with (c :: x) in E. cbn [map] in E.
    assert (exists d s, join comma (str_z z' :: map str_z l') ++ c' :: x' = d :: s /\ (is_digit d \/ d = minus_c)) as (d & s & Es & D).
    { pose proof (str_z_nonempty z'). pose proof (str_z_chars z') as Ch. destruct (str_z z') as [|d s] eqn:Ez; [congruence|].
      exists d. destruct (map str_z l'); cbn [join app]; eexists; (split; [reflexivity|apply Ch; left; reflexivity]). }
    rewrite Es in E. injection E as -> _. destruct D; [exact (N H)|exact (M H)].
  - exfalso. change (join comma (map str_z []) ++ c' :: x') with (c' :: x') in E. cbn [map] in E.
    assert (exists d s, join comma (str_z z :: map str_z l) ++ c :: x = d :: s /\ (is_digit d \/ d = minus_c)) as (d & s & Es & D).
    { pose proof (str_z_nonempty z). pose proof (str_z_chars z) as Ch. destruct (str_z z) as [|d s] eqn:Ez; [congruence|].
      exists d. destruct (map str_z l); cbn [join app]; eexists; (split; [reflexivity|apply Ch; left; reflexivity]). }
    rewrite Es in E. injection E as <- _. destruct D; [exact (N' H)|exact (M' H)].
  - assert (Nc : nondigit 44%N) by nondig.
    cbn [map join] in E. destruct l as [|z1 l], l' as [|z1' l']; cbn [map] in E.
    + cbn [join] in E. apply str_z_cut in E; [|assumption|assumption]. destruct E as (-> & -> & ->). auto.
    + exfalso. rewrite <- !app_assoc in E. apply str_z_cut in E; [|assumption|assumption]. destruct E as (_ & E & _). congruence.
    + exfalso. rewrite <- !app_assoc in E. apply str_z_cut in E; [|assumption|assumption]. destruct E as (_ & E & _). congruence.
    + rewrite <- !app_assoc in E. cbn [comma app] in E. apply str_z_cut in E; [|assumption|assumption]. destruct E as (-> & _ & E).
      apply (IH (z1' :: l') x x' N N' K K' M M') in E. destruct E as (E1 & E2). injection E1 as -> ->. auto.
Qed.
Lemma br_inj l l' : l_to_br l = l_to_br l' -> l = l'.
Proof.
  unfold l_to_br. intros E. cbn [lit app] in E.
  assert (F : forall m, map (fun pf : Z * Z => str_z (fst pf + 1)) m = map str_z (map (fun pf => fst pf + 1) m)) by (intros; rewrite map_map; reflexivity).
  assert (G : forall m, map (fun pf : Z * Z => str_z (snd pf + 1)) m = map str_z (map (fun pf => snd pf + 1) m)) by (intros; rewrite map_map; reflexivity).
  rewrite !F, !G in E. change (lit "B") with [66%N] in E. change (lit "<") with [60%N] in E. change (lit ">") with [62%N] in E. cbn [app] in E. injection E as E.
  apply join_numbers_inj in E; try discriminate; try nondig. destruct E as (E1 & _ & E).
  apply join_numbers_inj in E; try discriminate; try nondig. destruct E as (E2 & _).
  clear F G. revert l' E1 E2. induction l as [|[a b] l IH]; intros [|[a' b'] l'] E1 E2; try discriminate; [reflexivity|].
  cbn [map fst snd] in *. injection E1 as Ea E1. injection E2 as Eb E2. f_equal; [f_equal; lia|]. apply IH; assumption.
Qed.

(* ------------------------------------------------------------ renaming and figures *)
Section Rename.
  Context {A : Type}.
  Definition kids_map (names : list A) : list (tree Z * Z) -> option (list (tree A * Z)) :=
    fix kids (l : list (tree Z * Z)) : option (list (tree A * Z)) :=
      match l with
      | [] => Some []
      | (c, d) :: l' => match map_events names c, kids l' with Some c', Some l'' => Some ((c', d) :: l'') | _, _ => None end
      end.
  Lemma map_node names n r p ch : map_events names (Node n r p ch) = option_map (Node n r p) (kids_map names ch).
  Proof. reflexivity. Qed.

  Lemma kids_map_spec names ch : forall ch', kids_map names ch = Some ch' <->
    Forall2 (fun cd cd' => map_events names (fst cd) = Some (fst cd') /\ snd cd = snd cd') ch ch'.
  Proof.
    induction ch as [|[c d] ch IH]; intros ch'; cbn [kids_map]; fold (kids_map names).
    - split; [intros E; inversion E; constructor|intros F; inversion F; reflexivity].
    - split.
      + destruct (map_events names c) as [c'|] eqn:Ec; [|discriminate]. destruct (kids_map names ch) as [l|] eqn:El; [|discriminate].
        intros E; inversion E; subst. constructor; [auto|]. apply IH; reflexivity.
      + intros F. inversion F as [|? [c' d'] ? l [E1 E2] F']; subst. cbn [fst snd] in *. subst. rewrite E1. apply IH in F'. rewrite F'. reflexivity.
  Qed.

  Definition renamed (names : list A) (o : Z * Z * text) (o' : Z * A * text) : Prop :=
    fst (fst o') = fst (fst o) /\ snd o' = snd o /\ item_at names (snd (fst o)) (snd (fst o')).
  Lemma map_leafs names t : forall t', map_events names t = Some t' ->
    node_ids t' = node_ids t /\ (forall q, off q t' = off q t) /\
    Forall2 (fun (x : npos * (nat * Z)) (x' : npos * (nat * A)) => fst x' = fst x /\ fst (snd x') = fst (snd x) /\ item_at names (snd (snd x)) (snd (snd x'))) (leafs t) (leafs t').
  Proof.
    induction t as [n e|n r p ch IH] using tree_ind'; intros t' E.
    - cbn [map_events] in E. destruct (py_nth names e) as [x|] eqn:Ex; [|discriminate]. inversion E; subst. split; [reflexivity|]. split; [intros [|[a b] q]; reflexivity|].
      cbn [leafs]. constructor; [|constructor]. cbn [fst snd]. do 2 (split; [reflexivity|]). apply item_py, Ex.
    - rewrite map_node in E. destruct (kids_map names ch) as [ch'|] eqn:Ek; [|discriminate]. inversion E; subst. apply kids_map_spec in Ek. clear E.
      assert (K : Forall2 (fun (cd : tree Z * Z) (cd' : tree A * Z) => snd cd = snd cd' /\ node_ids (fst cd') = node_ids (fst cd) /\ (forall q, off q (fst cd') = off q (fst cd)) /\
          Forall2 (fun (x : npos * (nat * Z)) (x' : npos * (nat * A)) => fst x' = fst x /\ fst (snd x') = fst (snd x) /\ item_at names (snd (snd x)) (snd (snd x'))) (leafs (fst cd)) (leafs (fst cd'))) ch ch').
      { clear - IH Ek. induction Ek as [|cd cd' ch ch' [E1 E2] F IHF]; [constructor|]. inversion IH as [|? ? Hx Hl]; subst. constructor; [|apply IHF, Hl].
        destruct (Hx _ E1) as (P1 & P2 & P3). auto. }
      clear IH Ek. split; [|split].
      + cbn [node_ids]. f_equal. f_equal. induction K as [|cd cd' ch ch' (_ & E & _) F IHF]; [reflexivity|]. cbn [map]. rewrite E, IHF. reflexivity.
      + intros [|[c i] q]; [reflexivity|]. cbn [off].
        assert (Ec : cum ch' c = cum ch c).
        { unfold cum. f_equal. generalize (S c) as k. clear - K. induction K as [|cd cd' ch ch' (E & _) F IHF]; intros [|k]; try reflexivity. cbn [firstn map]. rewrite E, IHF. reflexivity. }
        rewrite Ec. f_equal. clear Ec. revert c. induction K as [|cd cd' ch ch' (_ & _ & E & _) F IHF]; intros [|c]; cbn [nth_error]; try reflexivity; [|apply IHF].
        destruct cd, cd'. cbn [fst] in E. apply E.
      + cbn [leafs]. generalize (List.seq 0 r) as is. induction is as [|i is IHi]; [constructor|]. cbn [map concat]. apply Forall2_app; [|exact IHi].
        generalize 0%nat as k. clear - K. induction K as [|cd cd' ch ch' (_ & _ & _ & E) F IHF]; intros k; [constructor|]. cbn [mapi concat]. apply Forall2_app; [|apply IHF].
        clear - E. induction E as [|x x' l l' (E1 & E2 & E3) F IHF]; [constructor|]. cbn [map]. constructor; [|exact IHF]. cbn [fst snd]. split; [f_equal; exact E1|split; assumption].
  Qed.
  Lemma map_fails (names : list A) t : map_events names t = None <-> exists e, In e (leaf_events t) /\ forall x, ~ item_at names e x.
  Proof.
    induction t as [n e|n r p ch IH] using tree_ind'.
    - cbn [map_events leaf_events]. destruct (py_nth names e) as [x|] eqn:Ex.
      + split; [discriminate|]. intros (e' & [<-|[]] & H). destruct (H x). apply item_py, Ex.
      + split; [|reflexivity]. intros _. exists e. split; [left; reflexivity|]. intros x Hx. apply item_py in Hx. congruence.
    - rewrite map_node. cbn [leaf_events]. assert (K : kids_map names ch = None <-> exists e, In e (concat (map (fun cd => leaf_events (fst cd)) ch)) /\ forall x, ~ item_at names e x).
      { induction IH as [|[c d] ch Hc F IHF]; cbn [kids_map map concat]; fold (kids_map names).
        - split; [discriminate|]. intros (e & [] & _).
        - cbn [fst] in *. destruct (map_events names c) as [c'|].
          + assert (Nc : ~ exists e, In e (leaf_events c) /\ forall x, ~ item_at names e x) by (intros X; apply Hc in X; discriminate).
            destruct (kids_map names ch) as [l|].
            * split; [discriminate|]. intros (e & I & H). apply in_app_or in I. destruct I as [I|I]; [destruct Nc; eauto|]. assert (X : Some l = None) by (apply IHF; eauto). discriminate.
            * split; [|reflexivity]. intros _. destruct (proj1 IHF eq_refl) as (e & I & H). exists e. split; [apply in_or_app; auto|exact H].
          + split; [|reflexivity]. intros _. destruct (proj1 Hc eq_refl) as (e & I & H). exists e. split; [apply in_or_app; auto|exact H]. }
      rewrite <- K. destruct (kids_map names ch); cbn; split; congruence.
  Qed.

  Lemma length_leafs (t : tree A) : length (leafs t) = card_occs t.
  Proof.
    induction t as [n e|n r p ch IH] using tree_ind'; [reflexivity|]. cbn [leafs card_occs].
    assert (K : forall i k, length (concat (mapi (fun ni cd => map (fun qx => ((ni, i) :: fst qx, snd qx)) (leafs (fst cd))) k ch)) = list_sum (map (fun cd => card_occs (fst cd)) ch)).
    { intros i. induction IH as [|cd ch Hc F IHF]; intros k; [reflexivity|]. cbn [mapi concat map]. rewrite app_length. apply (f_equal2 Nat.add); [etransitivity; [apply map_length|exact Hc]|apply IHF]. }
    assert (L : forall s, length (concat (map (fun i => concat (mapi (fun ni cd => map (fun qx => ((ni, i) :: fst qx, snd qx)) (leafs (fst cd))) 0 ch)) (List.seq s r))) = (r * list_sum (map (fun cd => card_occs (fst cd)) ch))%nat).
    { induction r as [|r IHr]; intros s; [reflexivity|]. cbn [List.seq map concat]. rewrite app_length, K, IHr. reflexivity. }
    apply L.
  Qed.
  Lemma r_vals_length (t : tree A) : length (r_vals t) = blocks t.
  Proof.
    induction t as [n e|n r p ch IH] using tree_ind'; [reflexivity|]. cbn [r_vals blocks length]. f_equal.
    induction IH as [|cd ch Hc F IHF]; [reflexivity|]. cbn [map concat]. rewrite app_length, Hc, IHF. reflexivity.
  Qed.
  Lemma single_product (t : tree A) : single t -> card_occs t = fold_right Nat.mul 1%nat (r_vals t).
  Proof. induction 1 as [n a|n r p c d S IH]; [reflexivity|]. cbn [card_occs r_vals map concat fst list_sum fold_right]. rewrite app_nil_r, IH, Nat.add_0_r. reflexivity. Qed.
End Rename.

(* ------------------------------------------------------------ the property *)
(* the key of a node leads back to this node; there is a key for the nodes of the tree only *)
Theorem C105_inverse {A} (t : tree A) : root_id t = 0%nat -> forall nid rep,
  (In nid (node_ids t) -> exists k, key_from_nid t nid rep = Some k /\ nid_from_key t k = Some nid) /\
  (~ In nid (node_ids t) -> key_from_nid t nid rep = None).
Proof.
  intros R nid rep. split; [apply inverse, R|]. intros N. unfold key_from_nid. rewrite (proj1 (proj2 (key_found t nid rep) N)). reflexivity.
Qed.
(* the key of a node leads to it child by child, each time at the repetition asked for; that of a
   block ends with a pair for the repetition of the block itself *)
Theorem C105_key {A} (t : tree A) : NoDup (node_ids t) -> forall l s rep, way t l s -> exists k,
  key_from_nid t (root_id s) rep = Some k /\
  key_to_l k = map (fun ir => [Z.of_nat (fst ir); repetition rep (snd ir)]) l ++
               match s with Leaf _ _ => [] | Node _ r _ _ => [[-1; repetition rep r]] end.
Proof.
  intros ND l s rep W. destruct (way_found t l s rep W ND) as [E F]. unfold key_from_nid. rewrite E, F. eexists. split; [reflexivity|].
  rewrite C36_round_trip. destruct s as [m e|m r p ch].
  - rewrite map_map, app_nil_r. reflexivity.
  - rewrite map_app, map_map. reflexivity.
Qed.
(* different nodes have different keys *)
Theorem C105_different {A} (t : tree A) : root_id t = 0%nat -> forall n1 n2 rep1 rep2 k,
  key_from_nid t n1 rep1 = Some k -> key_from_nid t n2 rep2 = Some k -> n1 = n2.
Proof.
  intros R n1 n2 rep1 rep2 k E1 E2.
  assert (H : forall n rep, key_from_nid t n rep = Some k -> nid_from_key t k = Some n).
  { intros n rep E. destruct (in_dec Nat.eq_dec n (node_ids t)) as [I|I].
    - destruct (proj1 (C105_inverse t R n rep) I) as (k' & Ek & En). congruence.
    - rewrite (proj2 (C105_inverse t R n rep) I) in E. discriminate. }
  apply H in E1, E2. congruence.
Qed.
(* with repetition 0 the key of a leaf is the key of its first occurrence, with -1 of its last *)
Theorem C105_ends {A} (t : tree A) : wf t -> NoDup (node_ids t) -> forall nid, occs_of_leaf t nid <> [] ->
  key_from_nid t nid 0 = option_map snd (hd_error (occs_of_leaf t nid)) /\
  key_from_nid t nid (-1) = option_map snd (hd_error (rev (occs_of_leaf t nid))).
Proof.
  intros W ND nid NE. rewrite times_leafs in *. destruct (of_nid nid (leafs t)) as [|[q [n e]] l] eqn:E; [destruct NE; first [reflexivity|rewrite E; reflexivity]|].
  assert (I : In (q, (n, e)) (of_nid nid (leafs t))) by (rewrite E; left; reflexivity). apply filter_In in I. destruct I as [I Q]. cbn [fst snd] in Q. apply Nat.eqb_eq in Q. subst n.
  destruct (ends t W ND nid q e I) as (F & (a & Ha & Ka) & (b & Hb & Kb)). rewrite E in Ha, Hb. unfold key_from_nid. rewrite F, Ka, Kb, <- map_rev.
  cbn [hd_error] in Ha. injection Ha as <-. split; [reflexivity|]. destruct (rev _) as [|y m]; [discriminate|]. cbn [hd_error] in Hb. injection Hb as ->. reflexivity.
Qed.
(* a key is shown as the numbers of its children and the numbers of its repetitions, both
   from 1 on; different keys are shown differently *)
Definition numbers (s : text) : outcome (list Z) := bind (split_str comma s) (map_opt parse_int).
Theorem C105_display : (forall l, key_to_br (l_to_key l) = Ret (l_to_br l)) /\ (forall l l', l_to_br l = l_to_br l' -> l = l') /\
  forall l, l <> [] -> exists a b, l_to_br l = lit "B" ++ a ++ lit "<" ++ b ++ lit ">" /\
    numbers a = Ret (map (fun ci => fst ci + 1) l) /\ numbers b = Ret (map (fun ci => snd ci + 1) l).
Proof.
  split; [|split; [apply br_inj|]].
  - intros l. unfold key_to_br. rewrite C36_round_trip.
    assert (E : map_out (fun q => match q with a :: b :: _ => Ret (a, b) | _ => Exn IndexError end) (map (fun p : Z * Z => [fst p; snd p]) l) = Ret l).
    { induction l as [|[a b] l IH]; [reflexivity|]. cbn [map map_out fst snd bind]. rewrite IH. reflexivity. }
    rewrite E. reflexivity.
  - intros l N. eexists _, _. split; [reflexivity|].
    assert (K : forall f : Z * Z -> Z, numbers (join comma (map (fun pf => str_z (f pf)) l)) = Ret (map f l)).
    { intros f. unfold numbers. rewrite split_join.
      - cbn [bind]. clear N. induction l as [|x l IH]; [reflexivity|]. cbn [map map_opt]. rewrite parse_str_z, IH. reflexivity.
      - exists 44%N, []. split; [reflexivity|]. apply Forall_forall. intros x Hx I. apply in_map_iff in Hx. destruct Hx as (y & <- & _).
        apply str_z_chars in I. destruct I as [I|I]; [unfold is_digit in I; lia|discriminate I].
      - destruct l; [congruence|discriminate]. }
    split; apply K.
Qed.
(* renaming the events changes the events of the occurrences and nothing else *)
Theorem C105_renamed {A} (names : list A) (t : tree Z) :
  (forall t', map_events names t = Some t' -> node_ids t' = node_ids t /\ Forall2 (renamed names) (occs_star t) (occs_star t')) /\
  (map_events names t = None <-> exists e, In e (leaf_events t) /\ forall x, ~ item_at names e x).
Proof.
  split; [|apply map_fails]. intros t' E. destruct (map_leafs names t t' E) as (En & Eo & F). split; [exact En|].
  unfold occs_star. rewrite !expand_spec. cbn [rev app]. clear E En. induction F as [|x x' l l' (E1 & E2 & E3) F IH]; [constructor|].
  cbn [map]. constructor; [|exact IH]. unfold renamed. cbn [fst snd]. rewrite E1, Eo. auto.
Qed.
(* cardO is the number of occurrences; getRVals has one number for every block, and their
   product is the number of occurrences when every block has a single child *)
Theorem C105_figures {A} (t : tree A) : card_occs t = length (occs_star t) /\ length (r_vals t) = blocks t /\
  (single t -> length (occs_star t) = fold_right Nat.mul 1%nat (r_vals t)).
Proof.
  assert (L : length (occs_star t) = card_occs t) by (unfold occs_star; rewrite expand_spec, map_length; apply length_leafs).
  rewrite L. split; [reflexivity|]. split; [apply r_vals_length|apply single_product].
Qed.

(* two repetitions of: event 0, then three times event 1 *)
Definition two_blocks : tree Z := Node 0 2 10 [(Leaf 1 0, 0); (Node 2 3 2 [(Leaf 3 1, 0)], 1)].
Example C105_case :
  wf two_blocks /\ NoDup (node_ids two_blocks) /\ root_id two_blocks = 0%nat /\ length (occs_of_leaf two_blocks 3) = 6%nat /\
  key_from_nid two_blocks 3 0 = Some (lit "1,0;0,0") /\ key_from_nid two_blocks 3 (-1) = Some (lit "1,1;0,2") /\
  key_from_nid two_blocks 2 (-1) = Some (lit "1,1;-1,2") /\ nid_from_key two_blocks (lit "1,1;-1,2") = Some 2%nat /\
  key_to_br (lit "1,1;0,2") = Ret (lit "B2,1<2,3>") /\ card_occs two_blocks = 8%nat /\ r_vals two_blocks = [2; 3]%nat /\
  (exists t', map_events [lit "a"; lit "b"] two_blocks = Some t' /\ leaf_events t' = [lit "a"; lit "b"]) /\
  map_events [lit "a"] two_blocks = None.
Proof.
  split. { unfold two_blocks. constructor; [lia|eauto|]. constructor; [constructor|]. constructor; [|constructor]. cbn [fst]. constructor; [lia|eauto|]. constructor; [constructor|constructor]. }
  split. { cbn. repeat (constructor; [cbn; intuition discriminate|]). constructor. }
  do 9 (split; [vm_compute; reflexivity|]). split; [eexists; split; vm_compute; reflexivity|vm_compute; reflexivity].
Qed.

(* the inner block, at its second repetition *)
Example C105_key_case : way two_blocks [(1, 2)]%nat (Node 2 3 2 [(Leaf 3 1, 0)]) /\ key_from_nid two_blocks 2 1 = Some (lit "1,1;-1,1").
Proof. split; [|vm_compute; reflexivity]. apply way_down with (Node 2 3 2 [(Leaf 3 1, 0)]) 1; [reflexivity | apply way_here]. Qed.
Print Assumptions C105_inverse.
Print Assumptions C105_key.
Print Assumptions C105_different.
Print Assumptions C105_ends.
Print Assumptions C105_display.
Print Assumptions C105_renamed.
Print Assumptions C105_figures.
