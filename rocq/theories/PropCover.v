(* C42: the greedy selection of candidates. *)
From Verif Require Import Prelude CheckModel LCMModel CoverModel.
From Coq Require Import QArith Qminmax Lqa.
Local Open Scope Z_scope.

(* ------------------------------------------------------------ specification *)
(* the price of one residual occurrence, by event *)
Definition price (dcosts : dict nat Q) (o : occ) : Q := match dget dcosts (snd o) with Some c => c | None => 0%Q end.
Definition total_price (dcosts : dict nat Q) (os : list occ) : Q := fold_right (fun o s => (price dcosts o + s)%Q) 0%Q os.
(* the occurrences of the candidates of [cands] whose identifier is in [sel] *)
Definition covered_by (cands : list entry) (sel : list nat) : list occ :=
  flat_map (fun e => if mem (e_id e) sel then e_unc e else []) cands.
(* the distinct occurrences of [e] that the candidates of [sel] leave uncovered *)
Definition fresh (cands : list entry) (sel : list nat) (e : entry) : list occ :=
  filter (fun x => negb (mem x (covered_by cands sel))) (nodup eq_dec (e_unc e)).
Definition count (l : list occ) : Q := inject_Z (Z.of_nat (length l)).
(* [e] is worth adding to [sel] *)
Definition eligible (cands : list entry) (dcosts : dict nat Q) (min_cov : Z) (sel : list nat) (e : entry) : Prop :=
  let U := fresh cands sel e in
  U <> [] /\ min_cov <= Z.of_nat (length U) /\
  (forall ev k, In (ev, k) dcosts -> e_cost e <= k * count U)%Q /\
  (e_cost e < total_price dcosts U)%Q.
Definition priced (dcosts : dict nat Q) (cands : list entry) : Prop :=
  forall e o, In e cands -> In o (e_unc e) -> dget dcosts (snd o) <> None.

Example fresh_reading cands sel e x :
  In x (fresh cands sel e) <-> In x (e_unc e) /\ ~ exists e', In e' cands /\ In (e_id e') sel /\ In x (e_unc e').
Proof.
  unfold fresh, covered_by. rewrite filter_In, nodup_In, negb_true_iff, mem_false, in_flat_map.
  split; intros [H1 H2]; (split; [exact H1|]); intros (e' & H); apply H2; exists e'.
  - destruct H as (Ha & Hb & Hc). apply mem_In in Hb. rewrite Hb. auto.
  - destruct H as [Ha Hb]. destruct (mem_spec (e_id e') sel); [auto | contradiction].
Qed.

(* ------------------------------------------------------------------ proofs *)
Lemma Qle_bool_false x y : Qle_bool x y = false -> (y < x)%Q.
Proof. intros H. apply Qnot_le_lt. intros Hle. apply Qle_bool_iff in Hle. congruence. Qed.
Lemma ratio_leb_total a b : ratio_leb a b = true \/ ratio_leb b a = true.
Proof.
  destruct a as [x|], b as [y|]; simpl; auto.
  rewrite !Qle_bool_iff. destruct (Qlt_le_dec y x); [right; lra | left; lra].
Qed.
Lemma ratio_leb_trans a b c : ratio_leb a b = true -> ratio_leb b c = true -> ratio_leb a c = true.
Proof.
  destruct a as [x|], b as [y|], c as [z|]; simpl; auto; try discriminate.
  rewrite !Qle_bool_iff. intros; lra.
Qed.
Lemma count_pos l : l <> [] -> (0 < count l)%Q.
Proof. intros H. unfold count. change 0%Q with (inject_Z 0). rewrite <- Zlt_Qlt. destruct l; [congruence|]. simpl length; lia. Qed.
Lemma count_nonneg l : (0 <= count l)%Q.
Proof. unfold count. change 0%Q with (inject_Z 0). rewrite <- Zle_Qle. lia. Qed.
Lemma count_le l1 l2 : (length l1 <= length l2)%nat -> (count l1 <= count l2)%Q.
Proof. intros H. unfold count. rewrite <- Zle_Qle. lia. Qed.

Lemma min_fold t : forall c, let m := fold_left (fun m (p : nat * Q) => if Qle_bool m (snd p) then m else snd p) t c in
  (m <= c)%Q /\ (forall ev k, In (ev, k) t -> (m <= k)%Q) /\ (m = c \/ exists ev, In (ev, m) t).
Proof.
  induction t as [|[ev k] t IH]; intros c; simpl.
  - repeat split; [lra | intros ? ? [] | auto].
  - destruct (Qle_bool c k) eqn:E.
    + apply Qle_bool_iff in E. destruct (IH c) as (A & B & C). repeat split; [exact A | |].
      * intros ev' k' [Heq|H]; [injection Heq as <- <-; lra | eauto].
      * destruct C as [C|[ev' C]]; [left; exact C | right; eauto].
    + apply Qle_bool_false in E. destruct (IH k) as (A & B & C). repeat split; [lra | |].
      * intros ev' k' [Heq|H]; [injection Heq as <- <-; lra | eauto].
      * right. destruct C as [C|[ev' C]]; [exists ev; left; congruence | eauto].
Qed.
Lemma min_cost_spec d : d <> [] -> (forall ev k, In (ev, k) d -> (min_cost d <= k)%Q) /\ exists ev, In (ev, min_cost d) d.
Proof.
  destruct d as [|[ev c] t]; [congruence|]. intros _. unfold min_cost. destruct (min_fold t c) as (A & B & C).
  split.
  - intros ev' k' [Heq|H]; [injection Heq as <- <-; exact A | eauto].
  - destruct C as [->|[ev' C]]; [exists ev; left; reflexivity | exists ev'; right; exact C].
Qed.
Lemma min_le_all d c U : d <> [] ->
  (c <= min_cost d * count U)%Q <-> (forall ev k, In (ev, k) d -> c <= k * count U)%Q.
Proof.
  intros Hd. destruct (min_cost_spec d Hd) as [A [ev B]]. split.
  - intros H ev' k Hk. specialize (A ev' k Hk). pose proof (count_nonneg U).
    apply (Qle_trans _ _ _ H). apply Qmult_le_compat_r; assumption.
  - intros H. exact (H ev (min_cost d) B).
Qed.

Lemma sum_outcome d U : (forall o, In o U -> dget d (snd o) <> None) ->
  fold_right (fun o acc => bind acc (fun s => match dget d (snd o) with Some c => Ret (c + s)%Q | None => Exn KeyError end)) (Ret 0%Q) U
  = Ret (total_price d U).
Proof.
  induction U as [|o U IH]; intros H; simpl; [reflexivity|].
  rewrite IH by (intros; apply H; right; assumption). simpl. unfold price.
  destruct (dget d (snd o)) eqn:E; [reflexivity|]. exfalso. apply (H o); [left; reflexivity | exact E].
Qed.
Lemma sum_outcome_inv d U s :
  fold_right (fun o acc => bind acc (fun s => match dget d (snd o) with Some c => Ret (c + s)%Q | None => Exn KeyError end)) (Ret 0%Q) U
  = Ret s -> s = total_price d U.
Proof.
  revert s. induction U as [|o U IH]; intros s H; simpl in *; [congruence|].
  destruct (fold_right _ _ _) as [s0| |] in *; simpl in H; try discriminate.
  rewrite <- (IH s0 eq_refl). unfold price. destruct (dget d (snd o)); [congruence | discriminate].
Qed.
Lemma cmp_scaled a b n : (0 < n)%Q -> Qle_bool (a / n) (b / n) = Qle_bool a b.
Proof.
  intros Hn. apply eq_true_iff_eq. rewrite !Qle_bool_iff. split; intros H.
  - apply (Qmult_le_compat_r _ _ n) in H; [|lra]. unfold Qdiv in H. rewrite <- !Qmult_assoc, !(Qmult_comm (/ n)), !Qmult_inv_r in H by lra. lra.
  - unfold Qdiv. apply Qmult_le_compat_r; [exact H|]. apply Qinv_le_0_compat. lra.
Qed.
Lemma ratio_le_iff e m : e_unc e <> [] -> ratio_leb (cost_ratio e) (Some m) = true <-> (e_cost e <= m * count (e_unc e))%Q.
Proof.
  intros He. unfold cost_ratio. destruct (nb_unc e =? 0) eqn:E.
  - apply Z.eqb_eq in E. unfold nb_unc in E. destruct (e_unc e); [congruence | simpl in E; lia].
  - simpl. rewrite Qle_bool_iff. fold (count (e_unc e)). pose proof (count_pos _ He) as Hp.
    change (inject_Z (nb_unc e)) with (count (e_unc e)).
    split; intros H.
    + apply (Qmult_le_compat_r _ _ (count (e_unc e))) in H; [|lra].
      unfold Qdiv in H. rewrite <- Qmult_assoc, (Qmult_comm (/ _)), Qmult_inv_r in H by lra. lra.
    + apply Qle_shift_div_r; [exact Hp | exact H].
Qed.
Lemma ratio_none e : e_unc e = [] -> cost_ratio e = None.
Proof. intros H. unfold cost_ratio, nb_unc. rewrite H. reflexivity. Qed.

Section Loop.
  Variables (cands : list entry) (dcosts : dict nat Q) (min_cov : Z).
  Hypothesis Hids : NoDup (map e_id cands).
  Hypothesis Hd : dcosts <> [].
  Let m := min_cost dcosts.
  Definition nonneg : Prop := forall e, In e cands -> (0 <= e_cost e)%Q.
  Notation F := (fresh cands).
  Notation el := (eligible cands dcosts min_cov).

  Lemma same_entry e e' : In e cands -> In e' cands -> e_id e = e_id e' -> e = e'.
  Proof.
    clear - Hids. intros H H' Heq. induction cands as [|x l IH]; [destruct H|].
    simpl in Hids. inversion Hids as [|? ? Hn Hnd]; subst.
    destruct H as [->|H], H' as [->|H']; [reflexivity | | | apply IH; auto].
    - exfalso. apply Hn. rewrite Heq. apply in_map, H'.
    - exfalso. apply Hn. rewrite <- Heq. apply in_map, H.
  Qed.
  Lemma fresh_app sel i e x : In x (F (sel ++ [i]) e) <-> In x (F sel e) /\ ~ In x (covered_by cands [i]).
  Proof.
    rewrite !fresh_reading. unfold covered_by. rewrite in_flat_map. split.
    - intros [H1 H2]. repeat split; [exact H1| |].
      + intros (e' & A & B & C). apply H2. exists e'. rewrite in_app_iff. auto.
      + intros (e' & A & B). destruct (mem_spec (e_id e') [i]) as [Hi|]; [|destruct B].
        apply H2. exists e'. rewrite in_app_iff. auto.
    - intros [[H1 H2] H3]. split; [exact H1|]. intros (e' & A & B & C). rewrite in_app_iff in B.
      destruct B as [B|B]; [apply H2; exists e'; auto|]. apply H3. exists e'. split; [exact A|].
      destruct (mem_spec (e_id e') [i]); [exact C | contradiction].
  Qed.
  Lemma covered_one e : In e cands -> forall x, In x (covered_by cands [e_id e]) <-> In x (e_unc e).
  Proof.
    intros He x. unfold covered_by. rewrite in_flat_map. split.
    - intros (e' & A & B). destruct (mem_spec (e_id e') [e_id e]) as [Hi|]; [|destruct B].
      destruct Hi as [Hi|[]]. rewrite (same_entry e e') by auto. exact B.
    - intros H. exists e. split; [exact He|]. destruct (mem_spec (e_id e) [e_id e]) as [|n]; [exact H|].
      exfalso. apply n. left; reflexivity.
  Qed.
  Lemma filter_filter' {A} (f g : A -> bool) l : filter f (filter g l) = filter (fun x => g x && f x) l.
  Proof.
    induction l as [|x l IH]; simpl; [reflexivity|].
    destruct (g x) eqn:E; simpl; [destruct (f x); rewrite IH; reflexivity | exact IH].
  Qed.
  Lemma fresh_step sel e e' : In e cands -> diff (F sel e') (F sel e) = F (sel ++ [e_id e]) e'.
  Proof.
    intros He. unfold diff.
    transitivity (filter (fun x => negb (mem x (covered_by cands sel)) && negb (mem x (F sel e))) (nodup eq_dec (e_unc e'))).
    { unfold fresh at 2. apply filter_filter'. }
    unfold fresh at 2. apply filter_ext_In. intros x Hx. apply nodup_In in Hx.
    apply eq_true_iff_eq. rewrite andb_true_iff, !negb_true_iff, !mem_false.
    pose proof (fresh_app sel (e_id e) e' x) as Happ. rewrite (covered_one e He) in Happ.
    assert (Hfr : forall s e0, In x (e_unc e0) -> In x (F s e0) <-> ~ In x (covered_by cands s)).
    { intros s e0 H0. unfold fresh. rewrite filter_In, nodup_In, negb_true_iff, mem_false. tauto. }
    rewrite <- (Hfr (sel ++ [e_id e]) e' Hx), Happ, <- (Hfr sel e' Hx).
    split; intros [A B]; (split; [exact A|]); intros C; apply B.
    - apply Hfr; [exact C|]. apply Hfr in A; assumption.
    - unfold fresh in C. rewrite filter_In, nodup_In in C. tauto.
  Qed.
  Lemma fresh_length sel i e : (length (F (sel ++ [i]) e) <= length (F sel e))%nat.
  Proof.
    apply NoDup_incl_length; [apply NoDup_filter, NoDup_nodup|].
    intros x Hx. apply fresh_app in Hx. tauto.
  Qed.
  Lemma total_mono U f : (forall ev k, In (ev, k) dcosts -> 0 <= k)%Q ->
    (total_price dcosts (filter f U) <= total_price dcosts U)%Q.
  Proof.
    intros Hk. assert (Hp : forall o, (0 <= price dcosts o)%Q).
    { intros o. unfold price. destruct (dget dcosts (snd o)) eqn:E; [|lra].
      apply (Hk (snd o)). clear - E. induction dcosts as [|[k v] d IH]; simpl in *; [discriminate|].
      destruct (eq_dec (snd o) k) as [->|]; [injection E as ->; left; reflexivity | right; auto]. }
    induction U as [|o U IH]; simpl; [lra|]. specialize (Hp o). destruct (f o); simpl; lra.
  Qed.
  Lemma fresh_sub sel i e : F (sel ++ [i]) e = filter (fun x => negb (mem x (covered_by cands (sel ++ [i])))) (F sel e).
  Proof.
    unfold fresh at 2. rewrite filter_filter'. unfold fresh. apply filter_ext_In. intros x Hx. apply nodup_In in Hx.
    apply eq_true_iff_eq. rewrite andb_true_iff, !negb_true_iff, !mem_false.
    split; [intros H; split; [|exact H] | tauto].
    intros Hc. apply H. unfold covered_by in *. rewrite in_flat_map in *. destruct Hc as (e' & A & B). exists e'.
    split; [exact A|]. destruct (mem_spec (e_id e') sel) as [Hi|]; [|destruct B].
    destruct (mem_spec (e_id e') (sel ++ [i])) as [|n]; [exact B|]. exfalso. apply n, in_app_iff. auto.
  Qed.
  Lemma not_eligible_mono sel i e : (0 <= e_cost e)%Q -> ~ el sel e -> ~ el (sel ++ [i]) e.
  Proof.
    intros Hc Hn (A & B & C & D). apply Hn.
    pose proof (fresh_length sel i e) as Hl.
    assert (Hne : F sel e <> []). { intros E. rewrite fresh_sub, E in A. apply A. reflexivity. }
    assert (Hk : forall ev k, In (ev, k) dcosts -> (0 <= k)%Q).
    { intros ev k Hk. specialize (C ev k Hk). pose proof (count_pos _ A).
      apply Qnot_lt_le. intros Hlt. apply (Qlt_irrefl 0). apply (Qle_lt_trans _ _ _ Hc). apply (Qle_lt_trans _ _ _ C).
      setoid_replace 0%Q with (0 * count (F (sel ++ [i]) e))%Q by ring. apply Qmult_lt_compat_r; assumption. }
    repeat split; [exact Hne | lia | |].
    - intros ev k Hin. apply (Qle_trans _ _ _ (C ev k Hin)).
      rewrite !(Qmult_comm k). apply Qmult_le_compat_r; [apply count_le, Hl | eauto].
    - apply (Qlt_le_trans _ _ _ D). rewrite fresh_sub. apply total_mono. exact Hk.
  Qed.

  (* the entry of the loop that stands for [e] once [sel] is selected *)
  Definition at_sel (sel : list nat) (e : entry) : entry := (e_id e, (e_cost e, F sel e)).
  Lemma unc_at sel e : e_unc (at_sel sel e) = F sel e.
  Proof. reflexivity. Qed.
  Lemma eff_spec sel e b : F sel e <> [] -> is_efficient dcosts (at_sel sel e) = Ret b ->
    b = true <-> (e_cost e < total_price dcosts (F sel e))%Q.
  Proof.
    intros Hne. unfold is_efficient. simpl (e_unc _). simpl (e_cost _).
    destruct (fold_right _ _ _) as [s| |] eqn:E; simpl; try discriminate. intros H; injection H as <-.
    apply sum_outcome_inv in E. subst s.
    change (inject_Z (nb_unc (at_sel sel e))) with (count (F sel e)).
    rewrite cmp_scaled by apply count_pos, Hne. rewrite negb_true_iff. split; intros H.
    - apply Qle_bool_false, H.
    - destruct (Qle_bool _ _) eqn:E; [|reflexivity]. apply Qle_bool_iff in E. exfalso. exact (Qlt_not_le _ _ H E).
  Qed.
  Lemma ratio_spec sel e : ratio_leb (cost_ratio (at_sel sel e)) (Some m) = true <->
    F sel e <> [] /\ (forall ev k, In (ev, k) dcosts -> e_cost e <= k * count (F sel e))%Q.
  Proof.
    destruct (F sel e) as [|x U] eqn:E.
    - rewrite ratio_none by exact E. simpl. split; [discriminate | intros [H _]; congruence].
    - rewrite <- E. rewrite <- min_le_all by exact Hd. rewrite ratio_le_iff by (change (e_unc (at_sel sel e)) with (F sel e); congruence).
      change (e_unc (at_sel sel e)) with (F sel e). change (e_cost (at_sel sel e)) with (e_cost e). fold m.
      split; [intros H; split; [congruence | exact H] | tauto].
  Qed.

  Record inv (cis : list entry) (sel : list nat) : Prop := {
    inv_cis : exists rest, cis = map (at_sel sel) rest /\ incl rest cands /\ NoDup (map e_id (rest)) /\
      (forall e, In e rest -> ~ In (e_id e) sel) /\
      (nonneg -> forall e, In e cands -> ~ In (e_id e) sel -> ~ In e rest -> ~ el sel e);
    inv_sorted : StronglySorted (le_rel by_ratio) cis;
    inv_nodup : NoDup sel;
    inv_incl : incl sel (map e_id cands);
    inv_el : forall pre i post, sel = pre ++ i :: post -> exists e, In e cands /\ e_id e = i /\ el pre e /\
      (nonneg -> forall e', In e' cands -> ~ In (e_id e') pre -> el pre e' ->
         (e_cost e / count (F pre e) <= e_cost e' / count (F pre e'))%Q) }.
  Definition final (sel : list nat) : Prop :=
    NoDup sel /\ incl sel (map e_id cands) /\
    (forall pre i post, sel = pre ++ i :: post -> exists e, In e cands /\ e_id e = i /\ el pre e /\
      (nonneg -> forall e', In e' cands -> ~ In (e_id e') pre -> el pre e' ->
         (e_cost e / count (F pre e) <= e_cost e' / count (F pre e'))%Q)) /\
    (nonneg -> forall e, In e cands -> ~ In (e_id e) sel -> ~ el sel e).

  Lemma skip_inv e rest sel : inv (at_sel sel e :: map (at_sel sel) rest) sel -> 
     incl (e :: rest) cands -> NoDup (map e_id (e :: rest)) -> (forall x, In x (e :: rest) -> ~ In (e_id x) sel) ->
     (nonneg -> forall x, In x cands -> ~ In (e_id x) sel -> ~ In x (e :: rest) -> ~ el sel x) ->
     ~ el sel e -> inv (map (at_sel sel) rest) sel.
  Proof.
    intros [_ Hs Hn Hi He] Hc Hnd Hns Hdead Hne. split; auto.
    - exists rest. repeat split.
      + intros x Hx. apply Hc. right; exact Hx.
      + simpl in Hnd. inversion Hnd; assumption.
      + intros x Hx. apply Hns. right; exact Hx.
      + intros Hnn x Hx Hxs Hxr. destruct (eq_dec (e_id x) (e_id e)) as [Heq|Hneq].
        * rewrite (same_entry x e); auto. apply Hc. left; reflexivity.
        * apply Hdead; auto. intros [->|H]; contradiction.
    - inversion Hs; assumption.
  Qed.

  Lemma loop_spec : forall fuel cis sel, inv cis sel -> (length cis <= fuel)%nat ->
    (forall out, cover_loop fuel dcosts m min_cov cis sel = Ret out -> final out) /\
    (priced dcosts cands -> exists out, cover_loop fuel dcosts m min_cov cis sel = Ret out).
  Proof.
    induction fuel as [|fuel IH]; intros cis sel Hinv Hlen.
    { destruct cis; [|simpl in Hlen; lia]. simpl. split; [|eauto]. intros out H; injection H as <-.
      destruct Hinv as [(rest & Heq & _ & _ & _ & Hdead) _ Hn Hi He]. repeat split; auto.
      intros Hnn e Hc Hs. apply Hdead; auto. destruct rest; [intros []|discriminate]. }
    destruct cis as [|x cis].
    { simpl. split; [|eauto]. intros out H; injection H as <-.
      destruct Hinv as [(rest & Heq & _ & _ & _ & Hdead) _ Hn Hi He]. repeat split; auto.
      intros Hnn e Hc Hs. apply Hdead; auto. destruct rest; [intros []|discriminate]. }
    simpl in Hlen. pose proof Hinv as Hinv0.
    destruct Hinv as [(rest & Heq & Hcands & Hnd & Hns & Hdead) Hs Hn Hi He].
    destruct rest as [|e rest]; [discriminate|]. simpl in Heq. injection Heq as -> ->.
    assert (Hein : In e cands) by (apply Hcands; left; reflexivity).
    assert (Hskip : ~ el sel e ->
      (forall out, cover_loop fuel dcosts m min_cov (map (at_sel sel) rest) sel = Ret out -> final out) /\
      (priced dcosts cands -> exists out, cover_loop fuel dcosts m min_cov (map (at_sel sel) rest) sel = Ret out)).
    { intros Hne. apply IH; [|lia]. eapply skip_inv; eauto. }
    cbn [cover_loop].
    destruct (ratio_leb (cost_ratio (at_sel sel e)) (Some m)) eqn:Er.
    2:{ apply Hskip. intros (A & B & C & D). apply not_true_iff_false in Er. apply Er, ratio_spec. split; assumption. }
    apply ratio_spec in Er. destruct Er as [Hne Hratio].
    destruct (min_cov <=? nb_unc (at_sel sel e)) eqn:Em.
    2:{ apply Hskip. intros (A & B & C & D). apply Z.leb_gt in Em. unfold nb_unc, at_sel, e_unc in Em. cbn [fst snd] in Em. lia. }
    apply Z.leb_le in Em. unfold nb_unc, at_sel, e_unc in Em. cbn [fst snd] in Em.
    destruct (is_efficient dcosts (at_sel sel e)) as [b|ex|] eqn:Ee.
    2,3: (split; [simpl; discriminate|]; intros Hp; exfalso; unfold is_efficient in Ee; rewrite sum_outcome in Ee;
      [simpl in Ee; discriminate|]; intros o Ho; apply (Hp e o Hein); simpl in Ho; apply fresh_reading in Ho; tauto).
    pose proof (eff_spec sel e b Hne Ee) as Hb. cbn [bind].
    destruct b; [|apply Hskip; intros (A & B & C & D); apply Hb in D; discriminate].
    assert (Hel : el sel e) by (repeat split; auto; apply Hb; reflexivity).
    assert (Hpos : 0 <? nb_unc (at_sel sel e) = true).
    { unfold nb_unc. rewrite unc_at. destruct (F sel e); [congruence | reflexivity]. }
    rewrite Hpos. cbn zeta. change (e_id (at_sel sel e)) with (e_id e). rewrite unc_at.
    assert (Hmap : map (update_uncovered (F sel e)) (map (at_sel sel) rest) = map (at_sel (sel ++ [e_id e])) rest).
    { rewrite map_map. apply map_ext. intros e'. unfold update_uncovered, at_sel. simpl. f_equal. f_equal. apply fresh_step, Hein. }
    rewrite Hmap. clear Hmap.
    set (sel' := sel ++ [e_id e]). set (lst := filter (keep m min_cov) (map (at_sel sel') rest)).
    assert (Hfm : exists rest0, lst = map (at_sel sel') rest0 /\ rest0 = filter (fun e' => keep m min_cov (at_sel sel' e')) rest).
    { subst lst. eexists; split; [|reflexivity]. clear. induction rest as [|y r IHr]; simpl; [reflexivity|].
      destruct (keep m min_cov (at_sel sel' y)); simpl; [f_equal|]; exact IHr. }
    assert (Hsorted_map : forall r0, exists r1, sort by_ratio (map (at_sel sel') r0) = map (at_sel sel') r1 /\ Permutation r1 r0).
    { intros r0. set (leb' := fun a b => by_ratio (at_sel sel' a) (at_sel sel' b)). exists (sort leb' r0).
      split; [|apply sort_perm]. clear. induction r0 as [|y r IHr]; simpl; [reflexivity|]. rewrite IHr.
      generalize (sort leb' r). clear IHr. intros l. induction l as [|z l IHl]; simpl; [reflexivity|].
      change (leb' y z) with (by_ratio (at_sel sel' y) (at_sel sel' z)).
      destruct (by_ratio (at_sel sel' y) (at_sel sel' z)); [reflexivity|]. simpl. f_equal. exact IHl. }
    destruct Hfm as (r0 & Hlst & Hr0). destruct (Hsorted_map r0) as (r1 & Hr1 & Hperm).
    assert (Hin1 : forall y, In y r1 <-> In y rest /\ keep m min_cov (at_sel sel' y) = true).
    { intros y. rewrite <- (filter_In (fun e' => keep m min_cov (at_sel sel' e'))), <- Hr0.
      split; apply Permutation_in; [|symmetry]; exact Hperm. }
    apply IH.
    - split.
      + exists r1. rewrite Hlst. split; [exact Hr1|]. split.
        { intros y Hy. apply Hin1 in Hy. apply Hcands. right. tauto. }
        split.
        { apply (Permutation_NoDup (Permutation_map e_id (Permutation_sym Hperm))). subst r0.
          simpl in Hnd. inversion Hnd as [|? ? _ Hnd']; subst. clear - Hnd'. induction rest as [|y r IHr]; simpl; [constructor|].
          simpl in Hnd'. inversion Hnd' as [|? ? Hy Hr]; subst.
          destruct (keep m min_cov (at_sel sel' y)); [|auto]. simpl. constructor; [|auto].
          intros Hin. apply Hy. apply in_map_iff in Hin. destruct Hin as (z & Hz & Hz'). apply filter_In in Hz'.
          rewrite <- Hz. apply in_map. tauto. }
        split.
        { intros y Hy Hin. apply Hin1 in Hy. destruct Hy as [Hy _]. unfold sel' in Hin. apply in_app_iff in Hin.
          destruct Hin as [Hin|[Hin|[]]]; [apply (Hns y); [right; exact Hy | exact Hin]|].
          simpl in Hnd. inversion Hnd as [|? ? Hx _]; subst. apply Hx. rewrite Hin. apply in_map, Hy. }
        intros Hnn y Hyc Hys Hyr.
        assert (Hys0 : ~ In (e_id y) sel) by (intros H; apply Hys, in_app_iff; auto).
        destruct (in_dec (fun a b => eq_dec a b) (e_id y) (map e_id rest)) as [Hyin|Hyout].
        * apply in_map_iff in Hyin. destruct Hyin as (z & Hz & Hzr).
          assert (z = y). { apply same_entry; auto. apply Hcands; right; exact Hzr. } subst z.
          assert (Hk : keep m min_cov (at_sel sel' y) = false).
          { apply not_true_iff_false. intros Hk. apply Hyr, Hin1. auto. }
          unfold keep in Hk. intros (A & B & C & D). apply andb_false_iff in Hk. destruct Hk as [Hk|Hk].
          { apply negb_false_iff, Z.ltb_lt in Hk. unfold nb_unc, at_sel, e_unc in Hk. cbn [fst snd] in Hk. lia. }
          apply negb_false_iff, andb_true_iff in Hk. destruct Hk as [_ Hk].
          assert (ratio_leb (cost_ratio (at_sel sel' y)) (Some m) = true) by (apply ratio_spec; auto).
          rewrite H in Hk. discriminate.
        * apply not_eligible_mono; [apply Hnn, Hyc|]. apply Hdead; auto. intros [->|H].
          { apply Hys. unfold sel'. apply in_app_iff. right. left. reflexivity. }
          { apply Hyout, in_map, H. }
      + apply sort_sorted; [intros; apply ratio_leb_total | intros x y z; apply ratio_leb_trans].
      + unfold sel'. apply NoDup_app_intro; [exact Hn | repeat constructor; intros [] |].
        intros y Hy [<-|[]]. apply (Hns e); [left; reflexivity | exact Hy].
      + unfold sel'. intros y Hy. apply in_app_iff in Hy. destruct Hy as [Hy|[<-|[]]]; [auto | apply in_map, Hein].
      + intros pre i post Heq. destruct (exists_last (l := i :: post)) as (l' & last & Hlast); [discriminate|].
        rewrite Hlast, app_assoc in Heq. apply app_inj_tail in Heq. destruct Heq as [Heq <-].
        destruct l' as [|i' l'].
        * rewrite app_nil_r in Heq. subst pre. injection Hlast as -> _. exists e. repeat split; auto; try apply Hel.
          intros Hnn e' Hc' Hs' Hel'.
          assert (Hin' : In e' (e :: rest)).
          { destruct (in_dec (fun a b => eq_dec a b) (e_id e') (map e_id (e :: rest))) as [Hyin|Hyout].
            - apply in_map_iff in Hyin. destruct Hyin as (z & Hz & Hzr). rewrite <- (same_entry z e'); auto.
            - exfalso. apply (Hdead Hnn e' Hc' Hs'); [|exact Hel']. intros H; apply Hyout, in_map, H. }
          destruct Hin' as [<-|Hin']; [apply Qle_refl|].
          inversion Hs as [|? ? _ Hall]; subst. rewrite Forall_forall in Hall.
          specialize (Hall (at_sel sel e') (in_map _ _ _ Hin')). unfold le_rel, by_ratio, cost_ratio in Hall.
          destruct Hel' as (Hne' & _). destruct Hel as (Hne1 & _).
          assert (Hz : forall a, F sel a <> [] -> nb_unc (at_sel sel a) =? 0 = false).
          { intros a Ha. unfold nb_unc. rewrite unc_at. destruct (F sel a); [congruence | reflexivity]. }
          rewrite (Hz e Hne1), (Hz e' Hne') in Hall. simpl in Hall. apply Qle_bool_iff in Hall. exact Hall.
        * injection Hlast as <- _. apply (He pre i l'). exact Heq.
    - rewrite length_sort. subst lst. clear - Hlen. rewrite map_length in Hlen.
      assert (forall l : list entry, (length (filter (keep m min_cov) l) <= length l)%nat).
      { induction l as [|y l IHl]; simpl; [lia|]. destruct (keep m min_cov y); simpl; lia. }
      specialize (H (map (at_sel sel') rest)). rewrite map_length in H. lia.
  Qed.
End Loop.

Lemma init_fresh cands e : init_uncovered e = at_sel cands [] e.
Proof.
  unfold init_uncovered, at_sel, fresh. f_equal. f_equal.
  assert (covered_by cands [] = []) as ->. { unfold covered_by. induction cands; simpl; auto. }
  simpl. induction (nodup eq_dec (e_unc e)) as [|x l IH]; simpl; [reflexivity|]. f_equal. exact IH.
Qed.
Lemma start_inv cands dcosts min_cov : NoDup (map e_id cands) ->
  inv cands dcosts min_cov (sort by_ratio (map init_uncovered cands)) [].
Proof.
  intros Hids. set (leb' := fun a b => by_ratio (at_sel cands [] a) (at_sel cands [] b)).
  assert (Heq : sort by_ratio (map init_uncovered cands) = map (at_sel cands []) (sort leb' cands)).
  { rewrite (map_ext _ _ (init_fresh cands)). subst leb'. set (g := at_sel cands []). clearbody g. clear.
    induction cands as [|y r IHr]; simpl; [reflexivity|]. rewrite IHr.
    generalize (sort (fun a b => by_ratio (g a) (g b)) r). clear IHr. intros l.
    induction l as [|z l IHl]; simpl; [reflexivity|]. destruct (by_ratio (g y) (g z)); [reflexivity|]. simpl. f_equal. exact IHl. }
  split.
  - exists (sort leb' cands). repeat split.
    + exact Heq.
    + intros x Hx. apply In_sort in Hx. exact Hx.
    + apply (Permutation_NoDup (Permutation_map e_id (Permutation_sym (sort_perm _ _)))). exact Hids.
    + intros e _ [].
    + intros _ e He _ Hn. exfalso. apply Hn, In_sort, He.
  - apply sort_sorted; [intros; apply ratio_leb_total | intros x y z; apply ratio_leb_trans].
  - constructor.
  - intros x [].
  - intros pre i post H. destruct pre; discriminate.
Qed.

Theorem C42_terminates : forall cands dcosts min_cov, NoDup (map e_id cands) -> priced dcosts cands ->
  exists sel, filter_cover cands dcosts min_cov = Ret sel.
Proof.
  intros cands dcosts min_cov Hids Hp. unfold filter_cover. destruct dcosts as [|d0 d] eqn:Ed; [eauto|]. rewrite <- Ed in *.
  apply (loop_spec cands dcosts min_cov Hids ltac:(congruence)); [apply start_inv, Hids | rewrite length_sort; lia | exact Hp].
Qed.

Theorem C42_selection : forall cands dcosts min_cov sel, NoDup (map e_id cands) ->
  filter_cover cands dcosts min_cov = Ret sel ->
  NoDup sel /\ incl sel (map e_id cands) /\
  (forall pre i post, sel = pre ++ i :: post ->
     exists e, In e cands /\ e_id e = i /\ eligible cands dcosts min_cov pre e).
Proof.
  intros cands dcosts min_cov sel Hids H. unfold filter_cover in H. destruct dcosts as [|d0 d] eqn:Ed.
  - injection H as <-. repeat split; [constructor | intros x [] | intros pre i post H; destruct pre; discriminate].
  - rewrite <- Ed in *. apply (loop_spec cands dcosts min_cov Hids ltac:(congruence)) in H;
      [|apply start_inv, Hids | rewrite length_sort; lia].
    destruct H as (A & B & C & _). repeat split; auto. intros pre i post Heq.
    destruct (C pre i post Heq) as (e & X & Y & Z & _). eauto.
Qed.

(* what is selected next has the least cost per fresh occurrence among the candidates worth
   adding, and nothing worth adding is left out *)
Theorem C42_greedy : forall cands dcosts min_cov sel, NoDup (map e_id cands) -> dcosts <> [] ->
  (forall e, In e cands -> (0 <= e_cost e)%Q) ->
  filter_cover cands dcosts min_cov = Ret sel ->
  (forall pre e post, In e cands -> sel = pre ++ e_id e :: post ->
     forall e', In e' cands -> ~ In (e_id e') pre -> eligible cands dcosts min_cov pre e' ->
       (e_cost e / count (fresh cands pre e) <= e_cost e' / count (fresh cands pre e'))%Q) /\
  (forall e, In e cands -> ~ In (e_id e) sel -> ~ eligible cands dcosts min_cov sel e).
Proof.
  intros cands dcosts min_cov sel Hids Hd Hnn H. unfold filter_cover in H. destruct dcosts as [|d0 d] eqn:Ed; [congruence|].
  rewrite <- Ed in *. apply (loop_spec cands dcosts min_cov Hids ltac:(congruence)) in H;
    [|apply start_inv, Hids | rewrite length_sort; lia].
  destruct H as (A & B & C & D). split; [|exact (D Hnn)].
  intros pre e post He Heq. destruct (C pre (e_id e) post Heq) as (e0 & X & Y & Z & W).
  rewrite (same_entry cands Hids e e0) by auto. exact (W Hnn).
Qed.

(* Consequence: encoding the occurrences of the selected candidates by these candidates is
   never longer than encoding them one by one *)
Fixpoint cost_of (cands : list entry) (i : nat) : Q :=
  match cands with [] => 0%Q | e :: t => if (e_id e =? i)%nat then e_cost e else cost_of t i end.
Definition total_cost (cands : list entry) (sel : list nat) : Q := fold_right (fun i s => (cost_of cands i + s)%Q) 0%Q sel.
Lemma cost_of_spec cands e : NoDup (map e_id cands) -> In e cands -> cost_of cands (e_id e) = e_cost e.
Proof.
  induction cands as [|x l IH]; intros Hn Hin; [destruct Hin|]. simpl in *. inversion Hn as [|? ? Hx Hl]; subst.
  destruct Hin as [->|Hin]; [rewrite Nat.eqb_refl; reflexivity|].
  destruct (Nat.eqb_spec (e_id x) (e_id e)) as [E|]; [|auto]. exfalso. apply Hx. rewrite E. apply in_map, Hin.
Qed.
Lemma price_perm d l l' : Permutation l l' -> (total_price d l == total_price d l')%Q.
Proof. induction 1; simpl; try lra. Qed.
Lemma price_app d l l' : (total_price d (l ++ l') == total_price d l + total_price d l')%Q.
Proof. induction l; simpl; lra. Qed.
Lemma total_cost_app cands a b : (total_cost cands (a ++ b) == total_cost cands a + total_cost cands b)%Q.
Proof. induction a; simpl; lra. Qed.
Theorem C42_saves : forall cands dcosts min_cov sel, NoDup (map e_id cands) ->
  filter_cover cands dcosts min_cov = Ret sel ->
  (total_cost cands sel <= total_price dcosts (nodup eq_dec (covered_by cands sel)))%Q.
Proof.
  intros cands dcosts min_cov sel Hids H. apply C42_selection in H; [|exact Hids]. destruct H as (_ & _ & Hel).
  induction sel as [|i sel IH] using rev_ind.
  { simpl. assert (covered_by cands [] = []) as ->. { unfold covered_by. clear. induction cands; simpl; auto. } simpl. lra. }
  assert (IH' : (total_cost cands sel <= total_price dcosts (nodup eq_dec (covered_by cands sel)))%Q).
  { apply IH. intros pre j post Heq. apply (Hel pre j (post ++ [i])). rewrite Heq, <- app_assoc. reflexivity. }
  clear IH. destruct (Hel sel i [] eq_refl) as (e & He & <- & (_ & _ & _ & Hlt)).
  assert (Hp : Permutation (nodup eq_dec (covered_by cands (sel ++ [e_id e])))
                 (nodup eq_dec (covered_by cands sel) ++ fresh cands sel e)).
  { apply NoDup_Permutation.
    - apply NoDup_nodup.
    - apply NoDup_app_intro; [apply NoDup_nodup | apply NoDup_filter, NoDup_nodup|].
      intros x Hx Hy. apply nodup_In in Hx. unfold fresh in Hy. apply filter_In in Hy. destruct Hy as [_ Hy].
      apply negb_true_iff, mem_false in Hy. contradiction.
    - intros x. rewrite nodup_In, in_app_iff, nodup_In, fresh_reading. unfold covered_by. rewrite !in_flat_map. split.
      + intros (e' & A & B). destruct (mem_spec (e_id e') (sel ++ [e_id e])) as [Hi|]; [|destruct B].
        apply in_app_iff in Hi. destruct (in_dec (fun a b => eq_dec a b) x (covered_by cands sel)) as [Hc|Hc].
        * left. unfold covered_by in Hc. rewrite in_flat_map in Hc. exact Hc.
        * right. split.
          { destruct Hi as [Hi|[Hi|[]]]; [|rewrite (same_entry cands Hids e e') by auto; exact B].
            exfalso. apply Hc. unfold covered_by. apply in_flat_map. exists e'. split; [exact A|].
            destruct (mem_spec (e_id e') sel); [exact B | contradiction]. }
          { intros (e2 & P & Q & R). apply Hc. unfold covered_by. apply in_flat_map. exists e2. split; [exact P|].
            destruct (mem_spec (e_id e2) sel); [exact R | contradiction]. }
      + intros [(e' & A & B)|[A B]].
        * exists e'. split; [exact A|]. destruct (mem_spec (e_id e') sel) as [Hi|]; [|destruct B].
          destruct (mem_spec (e_id e') (sel ++ [e_id e])) as [|n]; [exact B|]. exfalso. apply n, in_app_iff. auto.
        * exists e. split; [exact He|]. destruct (mem_spec (e_id e) (sel ++ [e_id e])) as [|n]; [exact A|].
          exfalso. apply n, in_app_iff. right. left. reflexivity. }
  rewrite (price_perm _ _ _ Hp), price_app, total_cost_app. simpl. rewrite (cost_of_spec _ _ Hids He). lra.
Qed.

(* three candidates on two events; the second loses to the first, the third still pays *)
Definition demo_cands : list entry :=
  [(0%nat, (4%Q, [(1, 0%nat); (2, 0%nat); (3, 0%nat); (3, 0%nat)]));
   (1%nat, (4%Q, [(2, 0%nat); (3, 0%nat)]));
   (2%nat, (5%Q, [(3, 0%nat); (4, 1%nat); (5, 1%nat)]))].
Definition demo_dcosts : dict nat Q := [(0%nat, 3%Q); (1%nat, 4%Q)].
Example C42_case : NoDup (map e_id demo_cands) /\ demo_dcosts <> [] /\ priced demo_dcosts demo_cands /\
  (forall e, In e demo_cands -> (0 <= e_cost e)%Q) /\
  filter_cover demo_cands demo_dcosts 2 = Ret [0%nat; 2%nat].
Proof.
  repeat split; try discriminate.
  - repeat constructor; simpl; intuition discriminate.
  - intros e o He Ho. simpl in He. repeat (destruct He as [<-|He]; [simpl in Ho; repeat (destruct Ho as [<-|Ho]; [discriminate|]); destruct Ho|]). destruct He.
  - intros e He. simpl in He. repeat (destruct He as [<-|He]; [unfold Qle; simpl; lia|]). destruct He.
Qed.
Print Assumptions C42_terminates.
Print Assumptions C42_selection.
Print Assumptions C42_greedy.
Print Assumptions C42_saves.
