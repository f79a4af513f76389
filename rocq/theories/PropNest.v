(* C45: the candidate made by nesting copies of a candidate has the occurrences of the copies. *)
From Verif Require Import Prelude CheckModel LCMModel TextModel SplitModel ArrayModel PropArray PeriodModel TreeModel TreeProofs PropTree TreeBlock NestModel NestProofs.
Local Open Scope Z_scope.

Section Spec.
  Context {A : Type}.
  (* the pattern of a candidate; a simple candidate stands for the cycle of its occurrences *)
  Definition tree_of (c : ccand A) : tree A := match cc_P c with Simple e p => simple_tree e (length (cc_O c)) p | Patt t => t end.
  (* the dated events of a candidate: its occurrence times with the events of its pattern *)
  Definition dated (c : ccand A) : list (Z * A) := combine (cc_O c) (events_minor (tree_of c) true).
  (* a sound candidate: its pattern can be expanded, and its occurrences are what the pattern
     produces from the first time and the corrections *)
  Record sound (c : ccand A) : Prop := {
    so_wf : wf (tree_of c);
    so_node : exists n r p ch, tree_of c = Node n r p ch;
    so_nb : length (cc_O c) = nb_occs (tree_of c);
    so_nbE : length (cc_E c) = (nb_occs (tree_of c) - 1)%nat;
    so_cov : get_cov_seq (tree_of c) (hd 0 (cc_O c)) (cc_E c) = Some (dated c) }.
  (* copies: the same pattern once the node ids are erased *)
  Fixpoint erase (t : tree A) : tree A :=
    match t with Leaf _ e => Leaf O e | Node _ r p ch => Node O r p (map (fun cd => (erase (fst cd), snd cd)) ch) end.
  Definition product (l : list nat) : nat := fold_right Nat.mul 1%nat l.
End Spec.

Section Lists.
  Lemma map_out_mapi {B C} (f : nat -> B -> outcome C) (g : nat -> B -> C) (l : list B) : forall n,
    (forall k x, nth_error l k = Some x -> f (n + k)%nat x = Ret (g (n + k)%nat x)) ->
    map_out (fun x => f (fst x) (snd x)) (combine (List.seq n (length l)) l) = Ret (mapi g n l).
  Proof.
    induction l as [|x l IH]; intros n Hf; [reflexivity|]. cbn [length List.seq combine map_out fst snd].
    pose proof (Hf 0%nat x eq_refl) as H0. rewrite Nat.add_0_r in H0. rewrite H0. cbn [bind]. rewrite (IH (S n)); [reflexivity|].
    intros k y E. replace (S n + k)%nat with (n + S k)%nat by lia. apply Hf, E.
  Qed.
  Lemma mapi_blocks {B C} (f : nat -> B -> C) (g : nat -> list B) N : (forall i, length (g i) = N) -> forall r i0 n,
    n = (i0 * N)%nat -> mapi f n (concat (map g (List.seq i0 r))) = concat (map (fun i => mapi f (i * N) (g i)) (List.seq i0 r)).
  Proof.
    intros Hg. induction r as [|r IH]; intros i0 n ->; [reflexivity|]. cbn [List.seq map concat]. rewrite mapi_app. f_equal.
    rewrite Hg. rewrite (IH (S i0)); [reflexivity | lia].
  Qed.
  Fixpoint val (rs : list nat) (pp : list nat) : nat :=
    match rs, pp with _ :: rs', x :: pp' => (x * product rs' + val rs' pp')%nat | _, _ => O end.
  Lemma reps_length rs : length (reps rs) = product rs.
  Proof.
    induction rs as [|r rs IH]; [reflexivity|]. cbn [reps product fold_right]. fold (product rs). rewrite <- IH. generalize 0%nat.
    induction r as [|r IHr]; intros k; [reflexivity|]. cbn [List.seq map concat]. rewrite app_length, map_length, IHr. reflexivity.
  Qed.
  Lemma nth_blocks {B} (g : nat -> list B) N : (forall i, length (g i) = N) -> forall r i0 i k x, (i < r)%nat -> nth_error (g (i0 + i)%nat) k = Some x ->
    nth_error (concat (map g (List.seq i0 r))) (i * N + k) = Some x.
  Proof.
    intros Hg. induction r as [|r IH]; intros i0 i k x Hi Hk; [lia|]. cbn [List.seq map concat].
    assert (k < N)%nat by (rewrite <- (Hg (i0 + i)%nat); apply nth_error_Some; congruence).
    destruct i as [|i].
    - rewrite Nat.add_0_r in Hk. rewrite nth_error_app1 by (rewrite Hg; lia). exact Hk.
    - rewrite nth_error_app2 by (rewrite Hg; simpl; lia). rewrite Hg. replace (S i * N + k - N)%nat with (i * N + k)%nat by (simpl; lia).
      apply (IH (S i0)); [lia|]. replace (S i0 + i)%nat with (i0 + S i)%nat by lia. exact Hk.
  Qed.
  Lemma reps_val rs : forall pp, Forall2 lt pp rs -> nth_error (reps rs) (val rs pp) = Some pp.
  Proof.
    induction rs as [|r rs IH]; intros pp H; inversion H as [|x ? pp' ? Hx Hpp]; subst; [reflexivity|]. cbn [reps val].
    apply nth_blocks; [intros i; rewrite map_length, reps_length; reflexivity | exact Hx|]. rewrite nth_error_map, (IH _ Hpp). reflexivity.
  Qed.
  Lemma blocks_nth {B} (g : nat -> list B) N : (forall i, length (g i) = N) -> forall r i0 k x, nth_error (concat (map g (List.seq i0 r))) k = Some x ->
    exists i j, (i < r)%nat /\ k = (i * N + j)%nat /\ nth_error (g (i0 + i)%nat) j = Some x.
  Proof.
    intros Hg. induction r as [|r IH]; intros i0 k x E; [destruct k; discriminate|]. cbn [List.seq map concat] in E.
    destruct (le_lt_dec N k) as [Hk|Hk].
    - rewrite nth_error_app2 in E by (rewrite Hg; lia). rewrite Hg in E. destruct (IH _ _ _ E) as (i & j & H1 & H2 & H3).
      exists (S i), j. split; [lia|]. split; [simpl; lia|]. replace (i0 + S i)%nat with (S i0 + i)%nat by lia. exact H3.
    - rewrite nth_error_app1 in E by (rewrite Hg; lia). exists 0%nat, k. split; [lia|]. split; [reflexivity|]. rewrite Nat.add_0_r. exact E.
  Qed.
  Lemma val_reps rs : forall k pp, nth_error (reps rs) k = Some pp -> Forall2 lt pp rs /\ val rs pp = k.
  Proof.
    induction rs as [|r rs IH]; intros k pp E.
    - destruct k as [|k]; [|destruct k; discriminate]. injection E as <-. split; [constructor | reflexivity].
    - cbn [reps] in E. apply (blocks_nth _ (product rs)) in E; [|intros i; rewrite map_length, reps_length; reflexivity].
      destruct E as (i & j & Hi & -> & E). simpl (0 + i)%nat in E. rewrite nth_error_map in E. destruct (nth_error (reps rs) j) as [pp'|] eqn:E'; [|discriminate].
      injection E as <-. destruct (IH _ _ E') as [H1 H2]. split; [constructor; assumption|]. cbn [val]. rewrite H2. reflexivity.
  Qed.
  Lemma first_val rs pp : Forall2 lt pp rs -> first_index pp (reps rs) = val rs pp.
  Proof.
    intros H. pose proof (reps_val rs pp H) as H1. destruct (first_index_spec pp (reps rs) (nth_error_In _ _ H1)) as [H2 _].
    apply val_reps in H2. destruct H2 as [_ H2]. congruence.
  Qed.
  Lemma last_nz_None rs : forall pp, last_nz pp = None -> val rs pp = 0%nat.
  Proof.
    induction rs as [|r rs IH]; intros [|x pp] H; try reflexivity. cbn [last_nz] in H. cbn [val].
    destruct (last_nz pp) eqn:E; [discriminate|]. destruct (Nat.eqb_spec x 0) as [Hx|]; [|discriminate]. rewrite Hx, (IH pp E). reflexivity.
  Qed.
  Lemma last_nz_Some rs : forall pp i, Forall2 lt pp rs -> last_nz pp = Some i -> Forall2 lt (dec_at pp i) rs /\ (i < length rs)%nat.
  Proof.
    intros pp i H. revert i. induction H as [|x r pp rs Hx H IH]; intros i E; [discriminate|]. cbn [last_nz] in E.
    destruct (last_nz pp) as [j|] eqn:Ej.
    - injection E as <-. destruct (IH j eq_refl) as [I1 I2]. cbn [dec_at length]. split; [constructor; assumption | lia].
    - destruct (Nat.eqb_spec x 0); [discriminate|]. injection E as <-. cbn [dec_at length]. split; [constructor; [lia | assumption] | lia].
  Qed.
  Lemma last_nz_ge pp rs k : nth_error (reps rs) (S k) = Some pp -> exists i, last_nz pp = Some i.
  Proof.
    intros E. apply val_reps in E. destruct E as [_ E]. destruct (last_nz pp) as [i|] eqn:El; [eauto|]. rewrite (last_nz_None rs pp El) in E. discriminate.
  Qed.
  Lemma reps_zero rs : Forall (fun r => 1 <= r)%nat rs -> exists z R, reps rs = z :: R /\ last_nz z = None /\ val rs z = O.
  Proof.
    induction 1 as [|r rs Hr H IH]; [exists [], []; repeat split|]. destruct IH as (z & R & E & Hz & Hv). destruct r as [|r]; [lia|].
    cbn [reps List.seq map concat]. rewrite E. cbn [map app]. exists (0%nat :: z). eexists. split; [reflexivity|]. cbn [last_nz val]. rewrite Hz, Hv. split; reflexivity.
  Qed.
End Lists.

Section Nested.
  Context {A : Type}.
  Variable b : nat -> blk.
  Fixpoint nestB (outer : list (Z * nat)) (s : nat) : blk :=
    match outer with
    | [] => b s
    | (p, r) :: o => let rows := map (fun i => [nestB o (s + i * product (map snd o))]) (List.seq 0 r) in (rowsO rows, tl (rowsE p None [0] rows))
    end.
  Fixpoint nestT (i : nat) (outer : list (Z * nat)) (t : nat -> tree A) : tree A :=
    match outer with [] => t i | (p, r) :: o => Node i r p [(nestT (S i) o t, 0)] end.
  Lemma nestT_wf t outer : (forall i, wf (t i)) -> Forall (fun pr => 1 <= snd pr)%nat outer -> forall i, wf (nestT i outer t).
  Proof.
    intros Hw H. induction H as [|[p r] o Hr H IH]; intros i; [apply Hw|]. cbn [nestT]. constructor; [exact Hr | eauto | repeat constructor; apply IH].
  Qed.
  Lemma nest_fits t outer : (forall i, wf (t i)) -> Forall (fun pr => 1 <= snd pr)%nat outer -> forall s,
    (forall i j, (s <= j < s + product (map snd outer))%nat -> fitk (t i) (b j)) -> forall i, fitk (nestT i outer t) (nestB outer s).
  Proof.
    intros Hw H. induction H as [|[p r] o Hr H IH]; intros s Hb i.
    - cbn [nestT nestB]. apply Hb. cbn. lia.
    - cbn [nestT nestB]. apply (fits_rows i r p [(nestT (S i) o t, 0)]).
      + apply (nestT_wf t ((p, r) :: o) Hw); constructor; assumption.
      + rewrite map_length, seq_length. reflexivity.
      + apply Forall_forall. intros ks Hks. apply in_map_iff in Hks. destruct Hks as (j & <- & Hj). apply in_seq in Hj. constructor; [cbn [fst] | constructor].
        apply IH. intros i' k Hk. apply Hb. cbn [map snd product fold_right]. fold (product (map snd o)).
        assert (S j * product (map snd o) <= r * product (map snd o))%nat by (apply Nat.mul_le_mono_r; lia). simpl in *. lia.
  Qed.
  Lemma seq_blocks N : forall r s, concat (map (fun i => List.seq (s + i * N) N) (List.seq 0 r)) = List.seq s (r * N).
  Proof.
    induction r as [|r IH]; intros s; [reflexivity|]. rewrite seq_S, map_app, concat_app, IH. cbn [map concat]. rewrite app_nil_r.
    replace (S r * N)%nat with (r * N + N)%nat by (simpl; lia). rewrite seq_app. reflexivity.
  Qed.
  Lemma nest_times outer : forall s, fst (nestB outer s) = concat (map (fun j => fst (b j)) (List.seq s (product (map snd outer)))).
  Proof.
    induction outer as [|[p r] o IH]; intros s; [cbn; rewrite app_nil_r; reflexivity|]. cbn [nestB fst map snd product fold_right]. fold (product (map snd o)).
    unfold rowsO. rewrite map_map. cbn [map concat].
    rewrite (map_ext _ (fun i => concat (map (fun j => fst (b j)) (List.seq (s + i * product (map snd o)) (product (map snd o)))))).
    2: { intros i. rewrite app_nil_r. apply IH. }
    rewrite <- (seq_blocks (product (map snd o)) r s). generalize (List.seq 0 r) as l. intros l. induction l as [|i l IHl]; [reflexivity|].
    cbn [map concat]. rewrite map_app, concat_app. f_equal. exact IHl.
  Qed.
  Lemma product_pos l : Forall (fun r => 1 <= r)%nat l -> (1 <= product l)%nat.
  Proof. induction 1 as [|r l Hr H IH]; [cbn; lia|]. cbn [product fold_right]. fold (product l). nia. Qed.
  Lemma nest_start outer s : Forall (fun pr => 1 <= snd pr)%nat outer -> fst (b s) <> [] -> bt (nestB outer s) = bt (b s).
  Proof.
    intros H Hb. unfold bt. rewrite nest_times. assert (Hp : (1 <= product (map snd outer))%nat).
    { apply product_pos. apply Forall_forall. intros r Hr. apply in_map_iff in Hr. destruct Hr as (pr & <- & Hpr). rewrite Forall_forall in H. apply H, Hpr. }
    destruct (product (map snd outer)) as [|n]; [lia|]. cbn [List.seq map concat]. destruct (fst (b s)); [contradiction | reflexivity].
  Qed.
  Lemma rowsE_single p (k : nat -> blk) : forall r i0, rowsE p (match i0 with O => None | S i' => Some (bt (k i')) end) [0] (map (fun i => [k i]) (List.seq i0 r)) =
    concat (map (fun i => (match i with O => 0 | S i' => bt (k i) - bt (k i') - p end) :: snd (k i)) (List.seq i0 r)).
  Proof.
    induction r as [|r IH]; intros i0; [reflexivity|]. cbn [List.seq map rowsE concat start rowE restE].
    rewrite app_nil_r. f_equal; [destruct i0; reflexivity|]. apply (IH (S i0)).
  Qed.
  Lemma tl_heads {B} (h : nat -> B) (f : nat -> list B) r : (1 <= r)%nat ->
    tl (concat (map (fun i => h i :: f i) (List.seq 0 r))) = concat (map (fun i => match i with O => [] | S _ => [h i] end ++ f i) (List.seq 0 r)).
  Proof.
    intros Hr. destruct r as [|r]; [lia|]. cbn [List.seq map concat app tl]. f_equal. f_equal. apply map_ext_in. intros i Hi. apply in_seq in Hi. destruct i; [lia | reflexivity].
  Qed.

  Definition turnE (s : nat) (ps : list Z) (rs : list nat) (k : nat) (pp : list nat) : list Z :=
    match k with
    | O => snd (b s)
    | S _ => match last_nz pp with
             | None => []
             | Some i => (bt (b (s + k)) - bt (b (s + val rs (dec_at pp i))) - nth i ps 0) :: snd (b (s + k))
             end
    end.
  Lemma loop_nest outer : Forall (fun pr => 1 <= snd pr)%nat outer -> (forall j, fst (b j) <> []) -> forall s,
    concat (mapi (turnE s (map fst outer) (map snd outer)) 0 (reps (map snd outer))) = snd (nestB outer s).
  Proof.
    intros H Hb. induction H as [|[p r] o Hr H IH]; intros s; [cbn; apply app_nil_r|].
    cbn [map fst snd nestB reps]. set (ps := map fst o) in *. set (rs := map snd o) in *. cbn [snd].
    assert (Hrs : Forall (fun r => 1 <= r)%nat rs).
    { apply Forall_forall. intros x Hx. apply in_map_iff in Hx. destruct Hx as (pr & <- & Hpr). rewrite Forall_forall in H. apply H, Hpr. }
    pose proof (product_pos rs Hrs) as HN. set (N := product rs) in *.
    rewrite (mapi_blocks _ _ N); [|intros i; rewrite map_length, reps_length; reflexivity | reflexivity].
    rewrite (rowsE_single p (fun i => nestB o (s + i * N)) r 0), tl_heads by exact Hr.
    transitivity (concat (map (fun i => concat (mapi (turnE s (p :: ps) (r :: rs)) (i * N) (map (cons i) (reps rs)))) (List.seq 0 r))).
    { generalize (List.seq 0 r) as l. intros l. induction l as [|i l IHl]; [reflexivity|]. cbn [map concat]. rewrite concat_app. f_equal. exact IHl. }
    f_equal. apply map_ext. intros i. rewrite <- IH.
    destruct (reps_zero rs Hrs) as (z & R & ER & Hz & Hv). 
    assert (Htl : forall k pp, nth_error R k = Some pp -> turnE s (p :: ps) (r :: rs) (i * N + S k) (i :: pp) = turnE (s + i * N) ps rs (S k) pp).
    { intros k pp Ek. assert (Ek' : nth_error (reps rs) (S k) = Some pp) by (rewrite ER; exact Ek).
      destruct (last_nz_ge pp rs k Ek') as (j & Ej). unfold turnE. replace (i * N + S k)%nat with (S (i * N + k)) by lia. cbn [last_nz]. rewrite Ej. cbn [dec_at val nth].
      fold N. replace (s + S (i * N + k))%nat with (s + i * N + S k)%nat by lia. rewrite (Nat.add_assoc s). reflexivity. }
    rewrite ER. cbn [map]. rewrite !mapi_cons. cbn [concat]. rewrite app_assoc. f_equal.
    - unfold turnE at 1. destruct i as [|i]; [cbn [Nat.mul app]; rewrite Nat.add_0_r; reflexivity|]. cbn [last_nz]. rewrite Hz. cbn [Nat.eqb dec_at val nth]. fold N. rewrite Hv.
      replace (S i - 1)%nat with i by lia. rewrite Nat.add_0_r.
      rewrite (nest_start o (s + S i * N)), (nest_start o (s + i * N)) by auto. destruct (S i * N)%nat eqn:E0; [simpl in E0; lia | reflexivity].
    - assert (G : forall R' k0, (forall k pp, nth_error R' k = Some pp -> turnE s (p :: ps) (r :: rs) (i * N + S (k0 + k)) (i :: pp) = turnE (s + i * N) ps rs (S (k0 + k)) pp) ->
        concat (mapi (turnE s (p :: ps) (r :: rs)) (i * N + S k0) (map (cons i) R')) = concat (mapi (turnE (s + i * N) ps rs) (S k0) R')).
      { induction R' as [|pp R' IHR]; intros k0 HR; [reflexivity|]. cbn [map]. rewrite !mapi_cons. cbn [concat].
        pose proof (HR 0%nat pp eq_refl) as H0. rewrite Nat.add_0_r in H0. rewrite H0. f_equal.
        replace (S (i * N + S k0)) with (i * N + S (S k0))%nat by lia. apply IHR. intros k pp' E. replace (S k0 + k)%nat with (k0 + S k)%nat by lia. apply HR, E. }
      replace (S (i * N)) with (i * N + 1)%nat by lia. apply (G R 0%nat). exact Htl.
  Qed.
End Nested.

Section NestTheorem.
  Context {A : Type}.
  Lemma erase_shape (t : tree A) : erase t = shape t.
  Proof.
    unfold shape. induction t as [n e|n r p ch IH] using tree_ind'; [reflexivity|]. cbn [erase renum]. f_equal. apply map_ext_in. intros cd Hcd. f_equal.
    rewrite Forall_forall in IH. apply (IH cd Hcd).
  Qed.
  Lemma sound_fits (c : ccand A) : sound c -> wf (tree_of c) /\ fits (tree_of c) (cc_O c) (cc_E c).
  Proof. intros H. split; [apply H|]. split; [apply H|]. split; [apply H | apply H]. Qed.
  Lemma sound_nonempty (c : ccand A) : sound c -> cc_O c <> [].
  Proof. intros H E. pose proof (nb_pos _ (so_wf c H)). pose proof (so_nb c H) as H1. rewrite E in H1. simpl in H1. lia. Qed.
  Lemma get_t0_hd (c : ccand A) : cc_O c <> [] -> get_t0 c = Ret (hd 0 (cc_O c)).
  Proof. unfold get_t0. destruct (cc_O c); [contradiction | reflexivity]. Qed.
  Lemma depth_of (c : ccand A) : depth c = length (cycle_ps (tree_of c)).
  Proof. unfold depth, tree_of. destruct (cc_P c); reflexivity. Qed.
  Lemma ps_shape (t t' : tree A) : shape t = shape t' -> cycle_ps t = cycle_ps t'.
  Proof. intros E. rewrite <- (ps_renum (fun _ => O) t), <- (ps_renum (fun _ => O) t'). unfold shape in E. rewrite E. reflexivity. Qed.
  Lemma ps_rs_length (t : tree A) : length (cycle_ps t) = length (cycle_rs t).
  Proof.
    induction t as [n e|n r p ch IH] using tree_ind'; [reflexivity|]. cbn [cycle_ps cycle_rs length]. f_equal.
    induction IH as [|cd l Hc Hl IHl]; [reflexivity|]. cbn [map concat]. rewrite !app_length, IHl, Hc. reflexivity.
  Qed.
  Lemma bind_ret_chain (bottom : nat -> Z -> nat -> outcome (tree A)) i p r prs : prs <> [] ->
    bind (chain bottom (S i) prs) (fun t => Ret (Node i r p [(t, 0)])) = chain bottom i ((p, r) :: prs).
  Proof. destruct prs; [contradiction | reflexivity]. Qed.
  Lemma chain_ok (bottom : nat -> Z -> nat -> outcome (tree A)) (tb : nat -> tree A) p r : (forall i, bottom i p r = Ret (tb i)) -> forall outer i,
    chain bottom i (outer ++ [(p, r)]) = Ret (nestT i outer tb).
  Proof.
    intros Hb. induction outer as [|[p' r'] o IH]; intros i; [apply Hb|]. cbn [app nestT]. rewrite <- (bind_ret_chain bottom i p' r' (o ++ [(p, r)])) by (destruct o; discriminate).
    rewrite IH. reflexivity.
  Qed.

  (* Nesting r1 * r2 * ... copies of a sound candidate (in the order of the outer repetitions)
     never fails and gives a sound candidate with exactly the dated events of the copies *)
  Theorem C45_nested : forall (nm : nat -> nat) (cs : list (ccand A)) c0 (outer : list (Z * nat)),
    hd_error cs = Some c0 ->
    (forall c, In c cs -> sound c /\ erase (tree_of c) = erase (tree_of c0)) ->
    Forall (fun pr => 1 <= snd pr)%nat outer -> length cs = product (map snd outer) ->
    exists c, prepare_nested nm cs (map fst outer ++ cycle_ps (tree_of c0)) (map snd outer ++ cycle_rs (tree_of c0)) = Ret c /\
      sound c /\ dated c = concat (map dated cs) /\ cc_O c = concat (map cc_O cs) /\
      (forall p r o, outer = (p, r) :: o -> exists kid, cc_P c = Patt (Node 0 r p [(kid, 0)])).
  Proof.
    intros nm cs c0 outer Hc0 Hcs Hout Hlen.
    assert (Hin0 : In c0 cs) by (destruct cs; [discriminate|]; injection Hc0 as ->; left; reflexivity).
    destruct (Hcs c0 Hin0) as [Hs0 _]. destruct (so_node c0 Hs0) as (n0 & r0 & p0 & ch0 & Et0).
    set (b := fun j => let c := nth j cs c0 in (cc_O c, cc_E c)).
    assert (Hinb : forall j, In (nth j cs c0) cs). { intros j. destruct (nth_in_or_default j cs c0) as [H|H]; [exact H | rewrite H; exact Hin0]. }
    assert (Hfb : forall j t, shape t = shape (tree_of c0) -> wf t /\ fitk t (b j)).
    { intros j t Et. destruct (Hcs _ (Hinb j)) as [Hs He]. rewrite !erase_shape in He. destruct (sound_fits _ Hs) as [Hw Hf].
      apply (fits_shape (tree_of (nth j cs c0))); [congruence | exact Hw | exact Hf]. }
    assert (Hne : forall j, fst (b j) <> []) by (intros j; apply sound_nonempty, Hcs, Hinb).
    set (tb := fun i => match cc_P c0 with Simple e _ => Node i r0 p0 [(Leaf (S i) e, 0)] | Patt _ => Node i r0 p0 (renum_kids nm ch0) end).
    assert (Htb : forall i, shape (tb i) = shape (tree_of c0)).
    { intros i. unfold tb. unfold tree_of in *. destruct (cc_P c0) as [e p|t].
      - unfold simple_tree in Et0. injection Et0 as _ <- <- <-. reflexivity.
      - subst t. rewrite <- (shape_renum nm (Node n0 r0 p0 ch0)). reflexivity. }
    set (rs := map snd outer) in *. set (ps := map fst outer) in *.
    assert (Hlo : length ps = length rs) by (unfold ps, rs; rewrite !map_length; reflexivity).
    assert (Hloop : concat (mapi (turnE b 0 ps rs) 0 (reps rs)) = snd (nestB b outer 0)) by (apply loop_nest; assumption).
    set (c := {| cc_P := Patt (nestT 0 outer tb); cc_O := concat (map cc_O cs); cc_E := snd (nestB b outer 0) |}).
    assert (Hrun : prepare_nested nm cs (ps ++ cycle_ps (tree_of c0)) (rs ++ cycle_rs (tree_of c0)) = Ret c).
    { unfold prepare_nested. unfold nth_out at 1. assert (E0 : nth_error cs 0 = Some c0) by (destruct cs; [discriminate|]; exact Hc0). rewrite E0. cbn [bind].
      rewrite depth_of, ps_rs_length. rewrite app_length, Nat.add_sub, firstn_app, firstn_all, Nat.sub_diag, firstn_O, app_nil_r.
      assert (Hturn : map_out (fun x => nest_turn cs (ps ++ cycle_ps (tree_of c0)) (reps rs) (fst x) (snd x)) (combine (List.seq 0 (length (reps rs))) (reps rs)) =
                      Ret (mapi (turnE b 0 ps rs) 0 (reps rs))).
      { apply (map_out_mapi (nest_turn cs (ps ++ cycle_ps (tree_of c0)) (reps rs))). intros k pp Ek. simpl (0 + k)%nat.
        assert (Hk : (k < length cs)%nat). { rewrite Hlen, <- reps_length. apply nth_error_Some. congruence. }
        assert (Hnth : forall j, (j < length cs)%nat -> nth_out cs j = Ret (nth j cs c0)). { intros j Hj. unfold nth_out. rewrite (nth_error_nth' cs c0 Hj). reflexivity. }
        unfold nest_turn. rewrite (Hnth k Hk). cbn [bind]. rewrite (get_t0_hd _ (Hne k)). cbn [bind].
        destruct k as [|k]; [reflexivity|]. destruct (last_nz_ge _ _ _ Ek) as (i & Ei). unfold turnE. rewrite Ei.
        destruct (val_reps _ _ _ Ek) as [Hpp _]. destruct (last_nz_Some rs pp i Hpp Ei) as [Hdec Hi]. rewrite (first_val _ _ Hdec).
        assert (Hv : (val rs (dec_at pp i) < length cs)%nat). { rewrite Hlen, <- reps_length. apply nth_error_Some. rewrite (reps_val _ _ Hdec). discriminate. }
        rewrite (Hnth _ Hv). cbn [bind]. rewrite (get_t0_hd _ (Hne _)). cbn [bind].
        unfold nth_out. rewrite nth_error_app1 by lia. rewrite (nth_error_nth' ps 0) by lia. cbn [bind Nat.add]. reflexivity. }
      rewrite Hturn. cbn [bind].
      assert (Htree : nested_tree nm c0 (ps ++ cycle_ps (tree_of c0)) (rs ++ cycle_rs (tree_of c0)) = Ret (nestT 0 outer tb)).
      { unfold nested_tree. rewrite depth_of, app_length. rewrite Et0. cbn [cycle_ps cycle_rs length].
        set (cp := concat (map (fun cd => cycle_ps (fst cd)) ch0)). set (cr := concat (map (fun cd => cycle_rs (fst cd)) ch0)).
        replace (length ps + S (length cp) + 1 - S (length cp))%nat with (length ps + 1)%nat by lia.
        rewrite firstn_app, firstn_all2 by lia. replace (length ps + 1 - length ps)%nat with 1%nat by lia. cbn [firstn].
        rewrite combine_app by exact Hlo. cbn [combine].
        assert (Eo : combine ps rs = outer). { unfold ps, rs. clear. induction outer as [|[p r] o IH]; [reflexivity|]. cbn [map fst snd combine]. rewrite IH. reflexivity. }
        rewrite Eo. apply (chain_ok _ tb). intros i. unfold tb. unfold tree_of in Et0. destruct (cc_P c0) as [e p|t]; [reflexivity|]. subst t. reflexivity. }
      rewrite Htree. cbn [bind]. rewrite Hloop. reflexivity. }
    assert (Htime : fst (nestB b outer 0) = concat (map cc_O cs)).
    { rewrite nest_times. fold rs. rewrite <- Hlen. f_equal. clear. unfold b. cbn [fst].
      transitivity (map cc_O (map (fun j => nth j cs c0) (List.seq 0 (length cs)))); [rewrite map_map; reflexivity|]. f_equal.
      induction cs as [|x l IH]; [reflexivity|]. cbn [length List.seq map nth]. f_equal. rewrite <- seq_shift, map_map. exact IH. }
    assert (Hfit : fits (nestT 0 outer tb) (concat (map cc_O cs)) (snd (nestB b outer 0))).
    { pose proof (nest_fits b tb outer (fun i => proj1 (Hfb 0%nat (tb i) (Htb i))) Hout 0%nat (fun i j _ => proj2 (Hfb j (tb i) (Htb i))) 0%nat) as Hf.
      unfold fitk in Hf. rewrite Htime in Hf. exact Hf. }
    exists c. split; [exact Hrun|]. split; [|split; [|split; [reflexivity|]]].
    - split; cbn [tree_of cc_P c].
      + apply nestT_wf; [intros i; apply (Hfb 0%nat _ (Htb i)) | exact Hout].
      + destruct outer as [|[p r] o]; cbn [nestT]; [unfold tb; destruct (cc_P c0); eauto | eauto].
      + apply Hfit.
      + apply Hfit.
      + apply Hfit.
    - unfold dated at 1. cbn [tree_of cc_P cc_O c].
      assert (Hev : events_minor (nestT 0 outer tb) true = concat (map (fun _ => events_minor (tree_of c0) true) cs)).
      { assert (G : forall o i, events_minor (nestT i o tb) true = concat (repeat (events_minor (tree_of c0) true) (product (map snd o)))).
        { induction o as [|[p r] o IH]; intros i.
          - cbn [nestT map product fold_right repeat concat]. rewrite app_nil_r. rewrite <- (events_renum (fun _ => O) (tb i)), <- (events_renum (fun _ => O) (tree_of c0)).
            pose proof (Htb i) as E. unfold shape in E. rewrite E. reflexivity.
          - cbn [nestT events_minor map concat fst]. rewrite app_nil_r, IH. cbn [map snd product fold_right]. fold (product (map snd o)). clear.
            induction r as [|r IHr]; [reflexivity|]. cbn [repeat concat Nat.mul]. rewrite repeat_app, concat_app. f_equal. exact IHr. }
        rewrite G. fold rs. rewrite <- Hlen. clear. induction cs as [|x l IH]; [reflexivity|]. cbn [length repeat map concat]. rewrite IH. reflexivity. }
      rewrite Hev. clear -Hcs. assert (G : forall l, incl l cs -> combine (concat (map cc_O l)) (concat (map (fun _ => events_minor (tree_of c0) true) l)) = concat (map dated l)).
      { induction l as [|x l IH]; intros Hl; [reflexivity|]. cbn [map concat]. destruct (Hcs x (Hl x (or_introl eq_refl))) as [Hs He].
        assert (Ev : events_minor (tree_of x) true = events_minor (tree_of c0) true).
        { rewrite !erase_shape in He. rewrite <- (events_renum (fun _ => O) (tree_of x)), <- (events_renum (fun _ => O) (tree_of c0)). unfold shape in He. rewrite He. reflexivity. }
        rewrite combine_app. 2: { rewrite <- Ev, events_length. apply (so_nb x Hs). }
        rewrite IH by (intros y Hy; apply Hl; right; exact Hy). unfold dated at 2. rewrite Ev. reflexivity. }
      apply G. intros y Hy; exact Hy.
    - intros p r o E. subst outer. cbn [cc_P c nestT]. eauto.
  Qed.
End NestTheorem.

(* ================================================================ concatenation *)
Section ConcatSpec.
  Context {A : Type}.
  Definition reps_of (c : ccand A) : nat := match tree_of c with Node _ r _ _ => r | Leaf _ _ => O end.
  Definition kids_of (c : ccand A) : list (tree A * Z) := match tree_of c with Node _ _ _ ch => ch | Leaf _ _ => [] end.
  (* the dated events of the k-th repetition of a candidate *)
  Definition repetition (c : ccand A) (k : nat) : list (Z * A) :=
    let m := (length (dated c) / reps_of c)%nat in firstn m (skipn (k * m) (dated c)).
End ConcatSpec.

Lemma nth_error_skipn' {B} (l : list B) : forall f k, nth_error (skipn f l) k = nth_error l (f + k).
Proof. induction l as [|x l IH]; intros [|f] k; try reflexivity; [destruct k; reflexivity | apply IH]. Qed.
Lemma skipn_skipn' {B} (l : list B) : forall a b, skipn a (skipn b l) = skipn (b + a) l.
Proof. induction l as [|x l IH]; intros a [|b]; try reflexivity; [rewrite !skipn_nil; reflexivity | apply IH]. Qed.
Lemma concat_concat' {B} (L : list (list (list B))) : concat (concat L) = concat (map (@concat B) L).
Proof. induction L as [|x L IH]; [reflexivity|]. cbn [concat map]. rewrite concat_app, IH. reflexivity. Qed.
Section ConcatProofs.
  Context {A : Type}.
  Lemma nth_concat_block {B} m (L : list (list B)) : Forall (fun l => length l = m) L -> forall i l, nth_error L i = Some l -> firstn m (skipn (i * m) (concat L)) = l.
  Proof.
    induction 1 as [|x L Hx H IH]; intros [|i] l E; try discriminate; cbn [nth_error concat] in *.
    - injection E as <-. cbn [Nat.mul skipn]. rewrite firstn_app, <- Hx, Nat.sub_diag, firstn_O, app_nil_r. apply firstn_all.
    - replace (S i * m)%nat with (length x + i * m)%nat by (simpl; lia). rewrite skipn_app, skipn_all2 by lia.
      replace (length x + i * m - length x)%nat with (i * m)%nat by lia. apply IH, E.
  Qed.
  Lemma map_seq_skipn {B C} (g : nat -> C) (h : B -> C) (L : list B) : forall f n k, (f + n = length L)%nat ->
    (forall i x, nth_error L i = Some x -> g (k + i)%nat = h x) -> map g (List.seq (k + f) n) = map h (skipn f L).
  Proof.
    induction L as [|x L IH]; intros f n k Hl Hg.
    - simpl in Hl. assert (n = 0%nat) by lia. subst n. rewrite skipn_nil. reflexivity.
    - destruct f as [|f].
      + simpl in Hl. destruct n as [|n]; [discriminate|]. cbn [List.seq map skipn]. f_equal.
        * rewrite <- (Hg 0%nat x eq_refl). reflexivity.
        * specialize (IH 0%nat n (S k)). rewrite Nat.add_0_r in *. cbn [skipn] in IH. apply IH; [lia|]. intros i y E. replace (S k + i)%nat with (k + S i)%nat by lia. apply Hg, E.
      + cbn [skipn]. replace (k + S f)%nat with (S k + f)%nat by lia. apply IH; [simpl in Hl; lia|]. intros i y E. replace (S k + i)%nat with (k + S i)%nat by lia. apply Hg, E.
  Qed.
  Lemma tl_skip {B} (x : list B) : tl x = skipn 1 x.
  Proof. destruct x; reflexivity. Qed.
  Lemma list_max_zero l : (list_max l <= 0)%nat -> Forall (fun x => x = 0%nat) l.
  Proof. induction l as [|x l IH]; intros H; [constructor|]. change (list_max (x :: l)) with (Nat.max x (list_max l)) in H. constructor; [lia | apply IH; lia]. Qed.

  Lemma major_reps (c : ccand A) : sound c -> major_r c = reps_of c.
  Proof.
    intros Hs. pose proof (so_wf c Hs) as Hw. pose proof (so_nb c Hs) as Hn. destruct (so_node c Hs) as (n0 & r0 & p0 & ch0 & Et0).
    unfold major_r, reps_of, tree_of in *. destruct (cc_P c) as [e p|[n e|n r p ch]].
    - reflexivity.
    - discriminate.
    - destruct ((1 <? tree_depth (Node n r p ch))%nat || (1 <? tree_width (Node n r p ch))%nat) eqn:E; [reflexivity|].
      apply orb_false_iff in E. destruct E as [E1 E2]. apply Nat.ltb_ge in E1, E2. cbn [tree_depth tree_width] in *.
      apply le_S_n in E1. apply list_max_zero in E1. rewrite Hn. cbn [nb_occs]. inversion Hw as [|? ? ? ? _ [c0 [l Ech]] _]; subst ch.
      assert (Hleaf : forall cd, In cd ((c0, 0) :: l) -> nb_occs (fst cd) = 1%nat /\ tree_width (fst cd) = 1%nat).
      { intros cd Hcd. rewrite Forall_forall in E1. assert (Hd0 : tree_depth (fst cd) = 0%nat) by (apply E1, in_map_iff; eauto). destruct (fst cd); [split; reflexivity | discriminate]. }
      cbn [map list_sum fold_right] in *. destruct (Hleaf _ (or_introl eq_refl)) as [Hq1 Hq2]. rewrite Hq1, Hq2 in *. destruct l as [|cd l]; [cbn; lia|].
      cbn [map fold_right] in E2. destruct (Hleaf cd (or_intror (or_introl eq_refl))) as [Hq3 Hq4]. rewrite Hq4 in E2. lia.
  Qed.

  (* a part with the children it contributes and its rows of blocks from its first repetition on *)
  Definition rowO (row : list blk) : list Z := concat (map fst row).
  Definition evs (ch : list (tree A * Z)) : list A := concat (map (fun cd => events_minor (fst cd) true) ch).
  Record part_ok (cf : ccand A * nat) (cr : list (tree A * Z) * list (list blk)) : Prop := {
    pa_ne : fst cr <> [];
    pa_kids : length (fst cr) = length (kids_of (fst cf));
    pa_wf : Forall (fun cd => wf (fst cd)) (fst cr);
    pa_rows : length (snd cr) = (reps_of (fst cf) - snd cf)%nat;
    pa_fit : Forall (Forall2 (fun cd k => fitk (fst cd) k) (fst cr)) (snd cr);
    pa_O : blocks_O (fst cf) (snd cf) = map rowO (snd cr);
    pa_E : blocks_E (fst cf) (snd cf) = map (fun row => tl (rowE 0 (map snd (fst cr)) row)) (snd cr);
    pa_rep : forall k row, nth_error (snd cr) k = Some row -> repetition (fst cf) (snd cf + k) = combine (rowO row) (evs (fst cr)) }.
  Lemma rowE_tl e e' ds ks : tl (rowE e ds ks) = tl (rowE e' ds ks).
  Proof. destruct ds, ks; reflexivity. Qed.
  Lemma rowE_hd e d d' ds ks : rowE e (d :: ds) ks = rowE e (d' :: ds) ks.
  Proof. destruct ks; reflexivity. Qed.
  Lemma restE_length (ch : list (tree A * Z)) ks : Forall2 (fun cd k => fitk (fst cd) k) ch ks -> Forall (fun cd => wf (fst cd)) ch -> forall prev,
    length (restE prev (map snd ch) ks) = list_sum (map (fun cd => nb_occs (fst cd)) ch).
  Proof.
    induction 1 as [|cd k ch' ks Hk F IH]; intros Hc prev; [reflexivity|]. inversion Hc as [|? ? Hc1 Hc2]; subst. cbn [map restE length list_sum fold_right].
    rewrite app_length. unfold list_sum in IH. rewrite IH by assumption. destruct Hk as (_ & E & _). rewrite E. pose proof (nb_pos _ Hc1). simpl. lia.
  Qed.
  Lemma rowE_length (ch : list (tree A * Z)) row e0 : Forall (fun cd => wf (fst cd)) ch -> Forall2 (fun cd k => fitk (fst cd) k) ch row ->
    length (rowE e0 (map snd ch) row) = list_sum (map (fun cd => nb_occs (fst cd)) ch).
  Proof.
    intros Hch F. destruct F as [|cd k ch' ks Hk F]; [reflexivity|]. inversion Hch as [|? ? Hc1 Hc2]; subst. cbn [map rowE length].
    rewrite app_length, (restE_length _ _ F Hc2). destruct Hk as (_ & E & _). rewrite E. pose proof (nb_pos _ Hc1). unfold list_sum. simpl. lia.
  Qed.
  Lemma rowsE_map p ds (row : nat -> list blk) : forall r i0,
    rowsE p (match i0 with O => None | S i' => Some (start (row i')) end) ds (map row (List.seq i0 r)) =
    concat (map (fun i => rowE (match i with O => 0 | S i' => start (row i) - start (row i') - p end) ds (row i)) (List.seq i0 r)).
  Proof. induction r as [|r IH]; intros i0; [reflexivity|]. cbn [List.seq map rowsE concat]. f_equal; [destruct i0; reflexivity|]. apply (IH (S i0)). Qed.
  Lemma map_nth_seq {B} (d : B) (L : list B) : map (fun i => nth i L d) (List.seq 0 (length L)) = L.
  Proof. induction L as [|x L IH]; [reflexivity|]. cbn [length List.seq map nth]. f_equal. rewrite <- seq_shift, map_map. exact IH. Qed.
  Lemma evs_length ch : length (evs ch) = list_sum (map (fun cd => nb_occs (fst cd)) ch).
  Proof. unfold evs. induction ch as [|cd ch IH]; [reflexivity|]. cbn [map concat list_sum fold_right]. rewrite app_length, IH, events_length. reflexivity. Qed.

  Lemma shape_kids (ch ch' : list (tree A * Z)) nm : ch' = renum_kids nm ch ->
    Forall (fun cd => wf (fst cd)) ch -> Forall (fun cd => wf (fst cd)) ch' /\ map snd ch' = map snd ch /\ evs ch' = evs ch /\
      (forall row, Forall2 (fun cd k => fitk (fst cd) k) ch row -> Forall2 (fun cd k => fitk (fst cd) k) ch' row).
  Proof.
    intros -> Hw. unfold renum_kids, evs. rewrite !map_map. cbn [snd fst]. split; [|split; [reflexivity|split]].
    - apply Forall_forall. intros x Hx. apply in_map_iff in Hx. destruct Hx as (cd & <- & Hcd). cbn [fst]. apply wf_renum. rewrite Forall_forall in Hw. apply Hw, Hcd.
    - f_equal. apply map_ext. intros cd. apply events_renum.
    - intros row F. revert Hw. induction F as [|cd k ch row Hk F IH]; intros Hw; [constructor|]. inversion Hw as [|? ? Hw1 Hw2]; subst.
      cbn [map]. constructor; [cbn [fst]; apply fits_renum; assumption | apply IH; assumption].
  Qed.
  Lemma top_kids_of nm (c : ccand A) : sound c -> exists ch', top_kids nm c = Ret ch' /\ exists nm', ch' = renum_kids nm' (kids_of c).
  Proof.
    intros Hs. unfold top_kids, kids_of, tree_of. destruct (so_node c Hs) as (n & r & p & ch & E). unfold tree_of in E. destruct (cc_P c) as [e p'|t].
    - eexists. split; [reflexivity|]. exists nm. reflexivity.
    - subst t. eexists. split; [reflexivity|]. exists nm. reflexivity.
  Qed.
  Lemma part_of nm (cf : ccand A * nat) : sound (fst cf) -> (snd cf < reps_of (fst cf))%nat ->
    exists ch rows, top_kids nm (fst cf) = Ret ch /\ (exists c0 l, ch = (c0, 0) :: l) /\ part_ok cf (ch, rows).
  Proof.
    destruct cf as [c f]. cbn [fst snd]. intros Hs Hf. destruct (so_node c Hs) as (n & r & p & ch & Et). destruct (top_kids_of nm c Hs) as (ch' & Ek & nm' & Ech').
    assert (Ekids : kids_of c = ch) by (unfold kids_of; rewrite Et; reflexivity). rewrite Ekids in Ech'.
    pose proof (sound_fits c Hs) as [Hw Hfit]. rewrite Et in Hw, Hfit. destruct (fits_inv n r p ch _ _ Hw Hfit) as (rows & Lr & F & EO & EE).
    inversion Hw as [|? ? ? ? Hr [c0 [l Ech]] Hch]; subst. rewrite Ech in Ek, Hw, Hfit, F, EE, Hch, Et.
    destruct (shape_kids ((c0, 0) :: l) _ nm' eq_refl Hch) as (Hch' & Hds & Hevs & HF). 
    set (chs := (c0, 0) :: l) in *. set (m := list_sum (map (fun cd => nb_occs (fst cd)) chs)).
    assert (Hrl : Forall (fun row => length (rowO row) = m) rows).
    { rewrite Forall_forall in F |- *. intros row Hrow. apply (cov_row chs row (F row Hrow)). }
    assert (HlO : length (cc_O c) = (length rows * m)%nat) by (destruct Hfit as (H1 & _ & _); exact H1).
    assert (Hm : (length (cc_O c) / length rows = m)%nat) by (rewrite HlO, Nat.mul_comm; apply Nat.div_mul; lia).
    assert (Hrep : reps_of c = length rows) by (unfold reps_of; rewrite Et; reflexivity).
    assert (HE0 : 0 :: cc_E c = rowsE p None (map snd chs) rows).
    { rewrite EE. destruct rows as [|row rows]; [simpl in Hr; lia|]. inversion F as [|? ? F1 F2]; subst. inversion F1; subst. reflexivity. }
    exists (renum_kids nm' chs), (skipn f rows). split; [exact Ek|]. split; [unfold renum_kids, chs; simpl; eauto|].
    split; cbn [fst snd].
    - unfold renum_kids, chs. discriminate.
    - rewrite Ech. unfold renum_kids. apply map_length.
    - exact Hch'.
    - rewrite skipn_length. lia.
    - apply Forall_forall. intros row Hrow. apply HF. rewrite Forall_forall in F. apply F. rewrite <- (firstn_skipn f rows). apply in_app_iff. right. exact Hrow.
    - unfold blocks_O. rewrite (major_reps c Hs), Hrep, Hm. apply (map_seq_skipn _ rowO rows f (length rows - f) 0); [lia|]. intros i row Ei. simpl (0 + i)%nat.
      unfold cut. replace ((i + 1) * m - i * m)%nat with m by nia. rewrite EO. unfold rowsO. apply (nth_concat_block m); [|exact (map_nth_error (fun ks : list blk => concat (map fst ks)) i rows Ei)].
      apply Forall_forall. intros x Hx. apply in_map_iff in Hx. destruct Hx as (row' & <- & Hrow'). rewrite Forall_forall in Hrl. apply (Hrl row' Hrow').
    - unfold blocks_E. rewrite (major_reps c Hs), Hrep, Hm. apply (map_seq_skipn _ (fun row => tl (rowE 0 (map snd (renum_kids nm' chs)) row)) rows f (length rows - f) 0); [lia|].
      intros i row Ei. simpl (0 + i)%nat. rewrite Hds.
      rewrite HE0, <- (map_nth_seq [] rows), (rowsE_map p (map snd chs) (fun j => nth j rows []) (length rows) 0).
      set (L := map _ (List.seq 0 (length rows))).
      assert (Hi : (i < length rows)%nat) by (apply nth_error_Some; congruence).
      assert (HL : Forall (fun x => length x = m) L).
      { apply Forall_forall. intros x Hx. apply in_map_iff in Hx. destruct Hx as (j & <- & Hj). apply in_seq in Hj. apply rowE_length; [exact Hch|].
        rewrite Forall_forall in F. apply F, nth_In. lia. }
      assert (EL : nth_error L i = Some (rowE (match i with O => 0 | S i' => start (nth i rows []) - start (nth i' rows []) - p end) (map snd chs) row)).
      { unfold L. rewrite nth_error_map, nth_error_seq0. destruct (Nat.ltb_spec i (length rows)); [|lia]. cbn [option_map]. rewrite (nth_error_nth _ _ [] Ei). reflexivity. }
      pose proof (nth_concat_block m L HL i _ EL) as Hb.
      unfold cut. rewrite (rowE_tl 0 (match i with O => 0 | S i' => start (nth i rows []) - start (nth i' rows []) - p end)), <- Hb, tl_skip.
      rewrite skipn_firstn_comm, skipn_skipn'. f_equal; nia.
    - intros k row Ek'. rewrite nth_error_skipn' in Ek'. rewrite Hevs. unfold repetition. rewrite Hrep.
      assert (Hdl : length (dated c) = length (cc_O c)). { unfold dated. rewrite combine_length, events_length, (so_nb c Hs). lia. }
      rewrite Hdl, Hm. unfold dated. rewrite Et. cbn [events_minor]. fold (evs chs).
      assert (Hd : combine (cc_O c) (concat (repeat (evs chs) (length rows))) = concat (map (fun row => combine (rowO row) (evs chs)) rows)).
      { rewrite EO. unfold rowsO. clear -Hrl. induction Hrl as [|row rows H1 H2 IH]; [reflexivity|]. cbn [map concat length repeat]. rewrite combine_app; [f_equal; exact IH|].
        rewrite evs_length. exact H1. }
      rewrite Hd. apply (nth_concat_block m); [|rewrite nth_error_map, Ek'; reflexivity].
      apply Forall_forall. intros x Hx. apply in_map_iff in Hx. destruct Hx as (row' & <- & Hrow'). rewrite combine_length, evs_length. rewrite Forall_forall in Hrl. rewrite (Hrl row' Hrow'). fold m. lia.
  Qed.

  Lemma part_retag (cf : ccand A * nat) k d d' ch rows : part_ok cf ((k, d) :: ch, rows) -> part_ok cf ((k, d') :: ch, rows).
  Proof.
    intros [H1 H2 H3 H4 H5 H6 H7 H8]. split; cbn [fst snd] in *.
    - discriminate.
    - exact H2.
    - inversion H3; subst. constructor; assumption.
    - exact H4.
    - apply Forall_forall. intros row Hrow. rewrite Forall_forall in H5. specialize (H5 row Hrow). inversion H5; subst. constructor; assumption.
    - exact H6.
    - rewrite H7. apply map_ext. intros row. destruct row; reflexivity.
    - exact H8.
  Qed.
  Lemma row_start (ch : list (tree A * Z)) row : ch <> [] -> Forall (fun cd => wf (fst cd)) ch -> Forall2 (fun cd k => fitk (fst cd) k) ch row ->
    exists o, rowO row = start row :: o.
  Proof.
    intros Hne Hw F. destruct F as [|cd k ch row Hk F]; [contradiction|]. inversion Hw as [|? ? Hw1 _]; subst. cbn [start]. unfold rowO, bt. cbn [map concat].
    destruct Hk as (Hl & _ & _). pose proof (nb_pos _ Hw1). destruct (fst k) as [|x o]; [simpl in Hl; lia | eexists; reflexivity].
  Qed.
  Lemma part_head cf cr ri row : part_ok cf cr -> nth_error (snd cr) ri = Some row -> head_at (blocks_O (fst cf) (snd cf)) ri = Ret (start row).
  Proof.
    intros Hp Er. rewrite (pa_O _ _ Hp). unfold head_at, nth_out. rewrite nth_error_map, Er. cbn [option_map bind].
    pose proof (pa_fit _ _ Hp) as F. rewrite Forall_forall in F. destruct (row_start _ row (pa_ne _ _ Hp) (pa_wf _ _ Hp) (F row (nth_error_In _ _ Er))) as [o ->]. reflexivity.
  Qed.
  Lemma concat_kids_ok nms (l : list (ccand A * nat)) : (forall cf, In cf l -> sound (fst cf) /\ (snd cf < reps_of (fst cf))%nat) -> forall ci prev,
    (prev = None \/ exists pb o, prev = Some pb /\ head_at pb 0 = Ret o) ->
    exists P, Forall2 part_ok l P /\ concat_kids nms ci prev l = Ret (concat (map fst P)) /\
      (prev = None -> l <> [] -> exists c0 k, concat (map fst P) = (c0, 0) :: k).
  Proof.
    induction l as [|[c f] l IH]; intros Hl ci prev Hprev.
    - exists []. split; [constructor|]. split; [reflexivity|]. intros _ H; contradiction.
    - destruct (Hl (c, f) (or_introl eq_refl)) as [Hs Hf]. destruct (part_of (nms ci) (c, f) Hs Hf) as (ch & rows & Ek & (c0 & k & Ech) & Hp). cbn [fst snd] in *.
      assert (Hr0 : exists row, nth_error rows 0 = Some row).
      { pose proof (pa_rows _ _ Hp) as Hr. cbn [fst snd] in Hr. destruct rows as [|row rows]; [simpl in Hr; lia | exists row; reflexivity]. }
      destruct Hr0 as [row0 Er0]. pose proof (part_head _ _ 0 row0 Hp Er0) as Hh. cbn [fst snd] in Hh.
      destruct (IH (fun cf H => Hl cf (or_intror H)) (S ci) (Some (blocks_O c f))) as (P & F & Ec & _); [right; eauto|].
      cbn [concat_kids]. rewrite Ek. cbn [bind]. rewrite Ec. destruct Hprev as [Hprev|(pb & o & Hprev & Hpb)]; subst prev; cbn [bind].
      + exists ((ch, rows) :: P). split; [constructor; assumption|]. split; [reflexivity|]. intros _ _. subst ch. cbn. eauto.
      + subst ch. rewrite Hh, Hpb. cbn [bind]. exists (((c0, start row0 - o) :: k, rows) :: P).
        split; [constructor; [eapply part_retag, Hp | assumption]|]. split; [reflexivity | discriminate].
  Qed.

  (* the corrections of one repetition of the concatenation *)
  Lemma concat_turns (R : list (list blk)) : forall (dss : list (list Z)) prev,
    Forall2 (fun ds row => length ds = length row /\ row <> []) dss R ->
    (forall k row, nth_error R k = Some row -> (S k < length R)%nat -> length row = 1%nat) ->
    restE prev (concat dss) (concat R) =
    concat (mapi (fun e x => (start (snd x) - match e with O => prev | S e' => start (nth e' R []) end - nth e (concat dss) 0) :: tl (rowE 0 (fst x) (snd x))) 0 (combine dss R)).
  Proof.
    induction R as [|row R IH]; intros dss prev F Hone; inversion F as [|ds ? dss' ? [Hl Hne] F']; subst; [reflexivity|].
    cbn [combine]. rewrite mapi_cons. cbn [concat fst snd]. destruct row as [|k ks]; [contradiction|]. destruct ds as [|d ds]; [discriminate|].
    cbn [start app nth rowE tl restE].
    destruct R as [|row2 R].
    - inversion F'; subst. cbn [concat combine mapi]. rewrite !app_nil_r. reflexivity.
    - assert (Hks : ks = []). { specialize (Hone 0%nat (k :: ks) eq_refl ltac:(simpl; lia)). destruct ks; [reflexivity | discriminate]. }
      subst ks. destruct ds as [|]; [|discriminate]. cbn [app restE]. rewrite app_nil_r. f_equal. f_equal.
      rewrite (IH dss' (bt k) F').
      + f_equal. generalize (combine dss' (row2 :: R)) as L. intros L.
        assert (G : forall (L : list (list Z * list blk)) n, mapi (fun e x => (start (snd x) - match e with O => bt k | S e' => start (nth e' (row2 :: R) []) end - nth e (concat dss') 0) :: tl (rowE 0 (fst x) (snd x))) n L =
          mapi (fun e x => (start (snd x) - match e with O => prev | S e' => start (nth e' ([k] :: row2 :: R) []) end - nth e (d :: concat dss') 0) :: tl (rowE 0 (fst x) (snd x))) (S n) L).
        { induction L0 as [|x L0 IHL]; intros n; [reflexivity|]. rewrite !mapi_cons. f_equal; [|apply IHL]. destruct n; reflexivity. }
        apply G.
      + intros j row Ej Hj. apply (Hone (S j) row Ej). simpl in *. lia.
  Qed.
  Lemma Forall2_map_r {B C D} (P : B -> D -> Prop) (g : C -> D) l m : Forall2 (fun x y => P x (g y)) l m -> Forall2 P l (map g m).
  Proof. induction 1; cbn [map]; constructor; auto. Qed.
  Lemma Forall2_concat {B C} (P : B -> C -> Prop) (L : list (list B)) M : Forall2 (Forall2 P) L M -> Forall2 P (concat L) (concat M).
  Proof. induction 1; cbn [concat]; [constructor | apply Forall2_app; assumption]. Qed.
  Lemma Forall2_nth_r {B C} (P : B -> C -> Prop) l m : Forall2 P l m -> forall i y, nth_error m i = Some y -> exists x, nth_error l i = Some x /\ P x y.
  Proof. induction 1 as [|a b l m Hab H IH]; intros [|i] y E; try discriminate; simpl in *; [injection E as <-; eauto | eauto]. Qed.
  Lemma map_out_seq {B C} (f : nat -> outcome C) (g : nat -> B -> C) (l : list B) : forall n, (forall k x, nth_error l k = Some x -> f (n + k)%nat = Ret (g (n + k)%nat x)) ->
    map_out f (List.seq n (length l)) = Ret (mapi g n l).
  Proof.
    induction l as [|x l IH]; intros n Hf; [reflexivity|]. cbn [length List.seq map_out]. pose proof (Hf 0%nat x eq_refl) as H0. rewrite Nat.add_0_r in H0. rewrite H0. cbn [bind].
    rewrite (IH (S n)); [reflexivity|]. intros k y E. replace (S n + k)%nat with (n + S k)%nat by lia. apply Hf, E.
  Qed.
  Lemma map_out_ret {B C} (f : B -> outcome C) (g : B -> C) l : (forall x, In x l -> f x = Ret (g x)) -> map_out f l = Ret (map g l).
  Proof. induction l as [|x l IH]; intros Hf; [reflexivity|]. cbn [map_out map]. rewrite (Hf x) by (left; reflexivity). cbn [bind]. rewrite IH by (intros y Hy; apply Hf; right; exact Hy). reflexivity. Qed.
  Lemma mapi_const {B C} (g : B -> C) l : forall n, mapi (fun _ x => g x) n l = map g l.
  Proof. induction l as [|x l IH]; intros n; [reflexivity|]. rewrite mapi_cons, IH. reflexivity. Qed.

  (* Concatenating sound candidates, each but the last with a single top-level child, never
     fails and gives a sound candidate: repetition after repetition the dated events of the
     parts, from the repetition each is to start at *)
  Theorem C44_concat_partial : forall nms (l : list (ccand A * nat)) p0 r0, l <> [] -> (1 <= r0)%nat ->
    (forall cf, In cf l -> sound (fst cf) /\ (snd cf + r0 <= reps_of (fst cf))%nat) ->
    (forall cf, In cf (removelast l) -> length (kids_of (fst cf)) = 1%nat) ->
    exists c, prepare_concats nms (map fst l) p0 r0 (map snd l) = Ret c /\ sound c /\
      dated c = concat (map (fun ri => concat (map (fun cf => repetition (fst cf) (snd cf + ri)) l)) (List.seq 0 r0)).
  Proof.
    intros nms l p0 r0 Hne Hr0 Hl Hone.
    assert (Hl' : forall cf, In cf l -> sound (fst cf) /\ (snd cf < reps_of (fst cf))%nat) by (intros cf H; destruct (Hl cf H); split; [assumption | lia]).
    destruct (concat_kids_ok nms l Hl' 0 None (or_introl eq_refl)) as (P & F & Ek & Hfst).
    destruct (Hfst eq_refl Hne) as (c0 & k0 & Ech). clear Hfst. set (ch := concat (map fst P)) in *.
    assert (Ecomb : combine (map fst l) (map snd l) = l). { clear. induction l as [|[x y] l IH]; [reflexivity|]. cbn [map fst snd combine]. rewrite IH. reflexivity. }
    assert (HP : forall j cf, nth_error l j = Some cf -> exists cr, nth_error P j = Some cr /\ part_ok cf cr) by (intros j cf E; apply (Forall2_nth _ _ _ F j cf E)).
    assert (Hrow : forall cf cr ri, In cf l -> part_ok cf cr -> (ri < r0)%nat -> nth_error (snd cr) ri = Some (nth ri (snd cr) [])).
    { intros cf cr ri Hin Hp Hri. apply nth_error_nth'. rewrite (pa_rows _ _ Hp). pose proof (proj2 (Hl cf Hin)). lia. }
    set (row := fun ri => concat (map (fun cr => nth ri (snd cr) []) P)). 
    assert (Hfitr : forall ri, (ri < r0)%nat -> Forall2 (fun cd k => fitk (fst cd) k) ch (row ri)).
    { intros ri Hri. unfold ch, row. apply Forall2_concat. clear -F Hri Hrow. assert (Hrow' : forall cf cr, In cf l -> part_ok cf cr -> nth_error (snd cr) ri = Some (nth ri (snd cr) [])) by (intros; eapply Hrow; eauto).
      clear Hrow. induction F as [|cf cr l P Hp F IH]; [constructor|]. cbn [map]. constructor; [|apply IH; intros; eapply Hrow'; eauto; right; assumption].
      pose proof (pa_fit _ _ Hp) as Hf. rewrite Forall_forall in Hf. apply Hf, (nth_error_In _ ri). eapply Hrow'; [left; reflexivity | exact Hp]. }
    set (T := Node 0 r0 p0 ch). 
    assert (HwT : wf T).
    { constructor; [exact Hr0 | rewrite Ech; eauto|]. unfold ch. clear -F. induction F as [|cf cr l P Hp F IH]; [constructor|]. cbn [map concat]. apply Forall_app. split; [apply (pa_wf _ _ Hp) | exact IH]. }
    set (rows := map row (List.seq 0 r0)).
    assert (Hfit : fits T (rowsO rows) (tl (rowsE p0 None (map snd ch) rows))).
    { apply fits_rows; [exact HwT | unfold rows; rewrite map_length, seq_length; reflexivity|]. apply Forall_forall. intros x Hx. apply in_map_iff in Hx.
      destruct Hx as (ri & <- & Hri). apply in_seq in Hri. apply Hfitr. lia. }
    assert (Hstart : forall ri cf0 cr0, (ri < r0)%nat -> nth_error l 0 = Some cf0 -> nth_error P 0 = Some cr0 -> start (row ri) = start (nth ri (snd cr0) [])).
    { intros ri cf0 cr0 Hri E1 E2. unfold row. destruct P as [|cr P]; [discriminate|]. injection E2 as ->. cbn [map concat].
      destruct (HP 0%nat cf0 E1) as (cr' & E3 & Hp). injection E3 as <-. pose proof (pa_fit _ _ Hp) as Hf. rewrite Forall_forall in Hf.
      specialize (Hf _ (nth_error_In _ ri (Hrow cf0 cr0 ri (nth_error_In _ _ E1) Hp Hri))). pose proof (pa_ne _ _ Hp). inversion Hf; subst; [congruence | reflexivity]. }
    set (Pos := map (fun cf => blocks_O (fst cf) (snd cf)) l). set (Pes := map (fun cf => blocks_E (fst cf) (snd cf)) l).
    assert (LP : length Pos = length P) by (unfold Pos; rewrite map_length; apply (Forall2_len _ _ _ F)).
    (* the occurrences *)
    assert (HOs : map_out (fun ri => map_out (fun ei => bind (nth_out Pos ei) (fun po => nth_out po ri)) (List.seq 0 (length Pos))) (List.seq 0 r0) =
                  Ret (map (fun ri => map (fun cr => rowO (nth ri (snd cr) [])) P) (List.seq 0 r0))).
    { apply map_out_ret. intros ri Hri. apply in_seq in Hri. rewrite LP.
      rewrite (map_out_seq _ (fun _ cr => rowO (nth ri (snd cr) [])) P 0); [rewrite mapi_const; reflexivity|]. intros k cr Ecr. simpl (0 + k)%nat.
      destruct (Forall2_nth_r _ _ _ F k cr Ecr) as (cf & Ecf & Hp). unfold Pos, nth_out at 1. rewrite nth_error_map, Ecf. cbn [option_map bind].
      rewrite (pa_O _ _ Hp). unfold nth_out. rewrite nth_error_map, (Hrow cf cr ri (nth_error_In _ _ Ecf) Hp) by lia. reflexivity. }
    (* the corrections *)
    set (turn := fun ri (e : nat) (cr : list (tree A * Z) * list (list blk)) =>
      match e with
      | O => match ri with O => [] | S ri' => [(start (nth ri (snd cr) []) - start (nth ri' (snd cr) [])) - p0] end
      | S e' => [start (nth ri (snd cr) []) - start (nth e' (map (fun cr => nth ri (snd cr) []) P) []) - nth e (map snd ch) 0]
      end ++ tl (rowE 0 (map snd (fst cr)) (nth ri (snd cr) []))).
    assert (Hkl : forall j cf cr, nth_error l j = Some cf -> nth_error P j = Some cr -> (S j < length P)%nat -> length (fst cr) = 1%nat).
    { intros j cf cr E1 E2 Hj. destruct (HP j cf E1) as (cr' & E3 & Hp). rewrite E2 in E3. injection E3 as <-. rewrite (pa_kids _ _ Hp). apply Hone.
      rewrite <- (Forall2_len _ _ _ F) in Hj. clear -E1 Hj. revert j E1 Hj. induction l as [|x l IH]; intros j E1 Hj; [simpl in Hj; lia|]. destruct l as [|y l]; [simpl in Hj; lia|].
      destruct j as [|j]; [injection E1 as <-; left; reflexivity|]. right. apply (IH j E1). simpl in *; lia. }
    assert (Hds : forall e, (e < length P)%nat -> nth_error (map snd ch) e = Some (nth e (map snd ch) 0)).
    { intros e He. apply nth_error_nth'. rewrite map_length. unfold ch. apply (Nat.lt_le_trans _ _ _ He). clear -F. induction F as [|cf cr l P Hp F IH]; [simpl; lia|].
      cbn [map concat length]. rewrite app_length. pose proof (pa_ne _ _ Hp). destruct (fst cr); [contradiction | simpl; lia]. }
    assert (HEs : map_out (fun ri => map_out (concat_turn Pos Pes p0 (map snd ch) ri) (List.seq 0 (length Pos))) (List.seq 0 r0) =
                  Ret (map (fun ri => mapi (turn ri) 0 P) (List.seq 0 r0))).
    { apply map_out_ret. intros ri Hri. apply in_seq in Hri. rewrite LP. apply map_out_seq. intros e cr Ecr. simpl (0 + e)%nat.
      destruct (Forall2_nth_r _ _ _ F e cr Ecr) as (cf & Ecf & Hp). unfold concat_turn.
      unfold Pos at 1, Pes, nth_out at 1 2. rewrite !nth_error_map, Ecf. cbn [option_map bind].
      pose proof (Hrow cf cr ri (nth_error_In _ _ Ecf) Hp ltac:(lia)) as Er.
      rewrite (pa_E _ _ Hp). unfold nth_out at 1. rewrite nth_error_map, Er. cbn [option_map bind].
      destruct e as [|e].
      - destruct ri as [|ri]; [reflexivity|]. rewrite (part_head _ _ _ _ Hp Er). cbn [bind].
        rewrite (part_head _ _ _ _ Hp (Hrow cf cr ri (nth_error_In _ _ Ecf) Hp ltac:(lia))). reflexivity.
      - unfold nth_out at 1. unfold Pos. rewrite nth_error_map.
        destruct (nth_error l e) as [cf'|] eqn:Ecf'; [|apply nth_error_None in Ecf'; assert (S e < length l)%nat by (apply nth_error_Some; congruence); lia].
        cbn [option_map bind]. destruct (HP e cf' Ecf') as (cr' & Ecr' & Hp').
        rewrite (part_head _ _ _ _ Hp Er). cbn [bind]. rewrite (part_head _ _ _ _ Hp' (Hrow cf' cr' ri (nth_error_In _ _ Ecf') Hp' ltac:(lia))). cbn [bind].
        assert (He : (S e < length P)%nat) by (apply nth_error_Some; congruence).
        unfold nth_out. rewrite (Hds (S e) He). cbn [bind turn app]. do 3 f_equal. f_equal. f_equal.
        symmetry. apply nth_error_nth. rewrite nth_error_map, Ecr'. reflexivity. }
    set (c := {| cc_P := Patt T; cc_O := rowsO rows; cc_E := tl (rowsE p0 None (map snd ch) rows) |}).
    exists c. split; [|split].
    - unfold prepare_concats. rewrite Ecomb, Ek. cbn [bind]. fold Pos Pes. rewrite HOs. cbn [bind]. rewrite HEs. cbn [bind]. unfold c, T. do 2 f_equal.
      + unfold rowsO, rows. rewrite !map_map. f_equal. apply map_ext. intros ri. unfold row. rewrite concat_map, concat_concat'. rewrite !map_map. reflexivity.
      + unfold rows. rewrite (rowsE_map p0 (map snd ch) row r0 0).
        assert (Hrowne : forall ri, (ri < r0)%nat -> exists k ks, row ri = k :: ks). { intros ri Hri. specialize (Hfitr ri Hri). rewrite Ech in Hfitr. inversion Hfitr; subst; eauto. }
        rewrite (map_ext_in _ (fun i => (match i with O => 0 | S i' => start (row i) - start (row i') - p0 end) :: tl (rowE 0 (map snd ch) (row i)))).
        2: { intros ri Hri. apply in_seq in Hri. destruct (Hrowne ri ltac:(lia)) as (k & ks & Er). rewrite Er, Ech. reflexivity. }
        rewrite tl_heads by exact Hr0. rewrite !map_map. f_equal. apply map_ext_in. intros ri Hri. apply in_seq in Hri.
        destruct P as [|cr0 P']; [discriminate|]. destruct l as [|cf0 l']; [contradiction|].
        rewrite mapi_cons. cbn [concat]. unfold turn at 1.
        assert (Hst : forall ri', (ri' < r0)%nat -> start (row ri') = start (nth ri' (snd cr0) [])) by (intros ri' Hri'; apply (Hstart ri' cf0 cr0 Hri' eq_refl eq_refl)).
        rewrite <- app_assoc. f_equal.
        { destruct ri as [|ri]; [reflexivity|]. rewrite !Hst by lia. reflexivity. }
        (* the tail of the row *)
        assert (Hp0 : part_ok cf0 cr0) by (inversion F; assumption).
        set (R := map (fun cr => nth ri (snd cr) []) (cr0 :: P')). set (dss := map (fun cr => map snd (fst cr)) (cr0 :: P')).
        assert (Edss : map snd ch = concat dss). { unfold ch, dss. rewrite concat_map, map_map. reflexivity. }
        assert (FR : Forall2 (fun ds row => length ds = length row /\ row <> []) dss R).
        { unfold dss, R. assert (Hrow' : forall cf cr, In cf (cf0 :: l') -> part_ok cf cr -> nth_error (snd cr) ri = Some (nth ri (snd cr) [])) by (intros cf cr H1 H2; apply (Hrow cf cr ri H1 H2); lia).
          clear -F Hrow'. induction F as [|cf cr l P Hp F IH]; [constructor|]. cbn [map]. constructor; [|apply IH; intros; eapply Hrow'; eauto; right; assumption].
          pose proof (pa_fit _ _ Hp) as Hf. rewrite Forall_forall in Hf. specialize (Hf _ (nth_error_In _ ri (Hrow' cf cr (or_introl eq_refl) Hp))).
          split; [rewrite map_length; apply (Forall2_len _ _ _ Hf)|]. intros E. rewrite E in Hf. inversion Hf. apply (pa_ne _ _ Hp). congruence. }
        assert (HoneR : forall k row, nth_error R k = Some row -> (S k < length R)%nat -> length row = 1%nat).
        { intros k rw Er Hk. destruct (Forall2_nth_r _ _ _ FR k rw Er) as (ds & Eds & Hd & _). rewrite <- Hd. unfold dss in Eds. rewrite nth_error_map in Eds.
          destruct (nth_error (cr0 :: P') k) as [cr|] eqn:Ecr; [|discriminate]. injection Eds as <-. rewrite map_length.
          destruct (Forall2_nth_r _ _ _ F k cr Ecr) as (cf & Ecf & _). apply (Hkl k cf cr Ecf Ecr). unfold R in Hk. rewrite map_length in Hk. exact Hk. }
        pose proof (concat_turns R dss 0 FR HoneR) as HT.
        assert (Erow : row ri = concat R) by reflexivity. rewrite Erow, Edss.
        assert (Htl : forall prev ds ks, tl (restE prev ds ks) = tl (rowE 0 ds ks)) by (intros prev [|d ds] [|k ks]; reflexivity).
        rewrite <- (Htl 0 (concat dss) (concat R)), HT. unfold dss at 2, R at 2. rewrite combine_map. cbn [map]. rewrite mapi_cons. cbn [concat app tl fst snd]. f_equal.
        assert (G : forall L n, (mapi (turn ri) (S n) L) =
          mapi (fun e x => (start (snd x) - match e with O => 0 | S e' => start (nth e' R []) end - nth e (concat dss) 0) :: tl (rowE 0 (fst x) (snd x))) (S n)
            (map (fun cr => (map snd (fst cr), nth ri (snd cr) [])) L)).
        { induction L as [|x L IHL]; intros n; [reflexivity|]. cbn [map]. rewrite !mapi_cons. f_equal; [|apply IHL]. unfold turn. rewrite Edss. reflexivity. }
        rewrite G. reflexivity.
    - split; cbn [tree_of cc_P cc_O cc_E c]; [exact HwT | unfold T; eauto | apply Hfit | apply Hfit|]. apply Hfit.
    - unfold dated. cbn [tree_of cc_P cc_O c]. unfold T. cbn [events_minor]. fold (evs ch). unfold rowsO, rows. rewrite map_map.
      assert (Hrep : forall ri, (ri < r0)%nat -> length (rowO (row ri)) = length (evs ch) /\
                combine (rowO (row ri)) (evs ch) = concat (map (fun cf => repetition (fst cf) (snd cf + ri)) l)).
      { intros ri Hri. split; [rewrite evs_length; apply (cov_row ch (row ri) (Hfitr ri Hri))|]. unfold row, ch.
        assert (Hrow' : forall cf cr, In cf l -> part_ok cf cr -> nth_error (snd cr) ri = Some (nth ri (snd cr) [])) by (intros; eapply Hrow; eauto).
        clear -F Hrow'. induction F as [|cf cr l P Hp F IH]; [reflexivity|]. cbn [map concat]. unfold rowO, evs. rewrite !map_app, !concat_app.
        pose proof (Hrow' cf cr (or_introl eq_refl) Hp) as Er. pose proof (pa_fit _ _ Hp) as Hf. rewrite Forall_forall in Hf. specialize (Hf _ (nth_error_In _ _ Er)).
        rewrite combine_app. 2: { fold (evs (fst cr)). rewrite evs_length. apply (cov_row _ _ Hf). }
        f_equal; [symmetry; apply (pa_rep _ _ Hp ri _ Er)|]. apply IH. intros; eapply Hrow'; eauto. right; assumption. }
      assert (G : forall r i0, (i0 + r <= r0)%nat -> combine (concat (map (fun ri => concat (map fst (row ri))) (List.seq i0 r))) (concat (repeat (evs ch) r)) =
        concat (map (fun ri => concat (map (fun cf => repetition (fst cf) (snd cf + ri)) l)) (List.seq i0 r))).
      { induction r as [|r IH]; intros i0 Hi; [reflexivity|]. cbn [List.seq map concat repeat]. destruct (Hrep i0 ltac:(lia)) as [H1 H2].
        rewrite combine_app by exact H1. fold (rowO (row i0)). rewrite H2. f_equal. apply IH. lia. }
      apply (G r0 0%nat). lia.
  Qed.
End ConcatProofs.

Lemma Permutation_map_concat {B C} (f g : B -> list C) l : (forall x, In x l -> f x = g x) -> Permutation (concat (map f l)) (concat (map g l)).
Proof. intros H. rewrite (map_ext_in f g l H). reflexivity. Qed.
Section ConcatUnion.
  Context {A : Type}.
  Lemma blocks_perm {B C} (f : B -> nat -> list C) (l : list B) : forall ks,
    Permutation (concat (map (fun k => concat (map (fun x => f x k) l)) ks)) (concat (map (fun x => concat (map (f x) ks)) l)).
  Proof.
    induction l as [|x l IH]; intros ks.
    - cbn [map concat]. induction ks as [|k ks IHk]; [constructor | exact IHk].
    - cbn [map concat]. etransitivity; [|apply Permutation_app_head, IH]. clear IH. induction ks as [|k ks IHk]; [constructor|]. cbn [map concat].
      rewrite <- !app_assoc. apply Permutation_app_head. etransitivity; [apply Permutation_app_head, IHk|]. rewrite !app_assoc. apply Permutation_app_tail, Permutation_app_comm.
  Qed.
  Lemma all_repetitions (c : ccand A) : sound c -> concat (map (repetition c) (List.seq 0 (reps_of c))) = dated c.
  Proof.
    intros Hs. destruct (so_node c Hs) as (n & r & p & ch & Et). pose proof (so_wf c Hs) as Hw. rewrite Et in Hw. inversion Hw as [|? ? ? ? Hr _ _]; subst.
    assert (Er : reps_of c = r) by (unfold reps_of; rewrite Et; reflexivity). unfold repetition. rewrite Er.
    assert (Hd : length (dated c) = (r * list_sum (map (fun cd => nb_occs (fst cd)) ch))%nat).
    { unfold dated. rewrite combine_length, events_length, (so_nb c Hs), Et. cbn [nb_occs]. lia. }
    rewrite Hd, Nat.mul_comm, Nat.div_mul by lia. set (m := list_sum _) in *. clearbody m. rewrite Nat.mul_comm in Hd || idtac. clear -Hd.
    assert (G : forall r (L : list (Z * A)), length L = (r * m)%nat -> concat (map (fun k => firstn m (skipn (k * m) L)) (List.seq 0 r)) = L).
    { clear. induction r as [|r IH]; intros L HL; [destruct L; [reflexivity | discriminate]|]. cbn [List.seq map concat Nat.mul skipn].
      rewrite <- seq_shift, map_map. rewrite <- (firstn_skipn m L) at 2. f_equal. rewrite <- (IH (skipn m L)) by (rewrite skipn_length; simpl in HL; lia).
      f_equal. apply map_ext. intros k. rewrite skipn_skipn'. reflexivity. }
    apply G. lia.
  Qed.
  (* parts with the same number of repetitions, all taken from the start *)
  Theorem C44_union_partial : forall nms (cs : list (ccand A)) p0 r0, cs <> [] ->
    (forall c, In c cs -> sound c /\ reps_of c = r0) -> (forall c, In c (removelast cs) -> length (kids_of c) = 1%nat) ->
    exists c, prepare_concats nms cs p0 r0 (map (fun _ => O) cs) = Ret c /\ sound c /\ Permutation (dated c) (concat (map dated cs)).
  Proof.
    intros nms cs p0 r0 Hne Hs Hone. set (l := map (fun c => (c, O)) cs).
    assert (Hr0 : (1 <= r0)%nat).
    { destruct cs as [|c cs]; [contradiction|]. destruct (Hs c (or_introl eq_refl)) as [H1 H2]. destruct (so_node c H1) as (n & r & p & ch & Et). pose proof (so_wf c H1) as Hw.
      rewrite Et in Hw. inversion Hw; subst. unfold reps_of. rewrite Et. assumption. }
    destruct (C44_concat_partial nms l p0 r0) as (c & Ec & Hc & Hd).
    - unfold l. destruct cs; [contradiction | discriminate].
    - exact Hr0.
    - intros cf Hcf. apply in_map_iff in Hcf. destruct Hcf as (c & <- & Hc). cbn [fst snd]. destruct (Hs c Hc). split; [assumption | lia].
    - intros cf Hcf. apply Hone. unfold l in Hcf. clear -Hcf. induction cs as [|x cs IH]; [destruct Hcf|]. destruct cs as [|y cs]; [destruct Hcf|].
      destruct Hcf as [E|Hcf]; [left; rewrite <- E; reflexivity | right; apply IH, Hcf].
    - exists c. unfold l in Ec. rewrite !map_map in Ec. cbn [fst snd] in Ec. rewrite map_id in Ec. split; [exact Ec|]. split; [exact Hc|]. rewrite Hd.
      etransitivity; [apply (blocks_perm (fun (cf : ccand A * nat) ri => repetition (fst cf) (snd cf + ri)) l)|]. unfold l. rewrite map_map. cbn [fst snd Nat.add].
      apply Permutation_map_concat. intros c' Hc'. destruct (Hs c' Hc') as [H1 H2]. rewrite <- H2. apply (all_repetitions c' H1).
  Qed.
End ConcatUnion.

(* When an earlier part has two top-level children the result is not sound: part 1 is the
   pattern a, b two time units later, repeated at 0, 10, 20; part 2 the event c at 5, 15, 25.
   The candidate keeps the right times, but its pattern and corrections put c at 10, 20, 30. *)
Definition demo_ab : ccand nat := {| cc_P := Patt (Node 0 3 10 [(Leaf 1 1%nat, 0); (Leaf 2 2%nat, 2)]); cc_O := [0; 2; 10; 12; 20; 22]; cc_E := [0; 0; 0; 0; 0] |}.
Definition demo_c : ccand nat := {| cc_P := Simple 3%nat 10; cc_O := [5; 15; 25]; cc_E := [0; 0] |}.
Lemma demo_ab_sound : sound demo_ab.
Proof.
  split; try reflexivity; [|do 4 eexists; reflexivity]. cbn. constructor; [lia | eauto|]. repeat constructor.
Qed.
Lemma demo_c_sound : sound demo_c.
Proof. split; try reflexivity; [|do 4 eexists; reflexivity]. cbn. constructor; [lia | eauto|]. repeat constructor. Qed.
Definition shift_ids (ci n : nat) : nat := (10 * ci + n)%nat.
Theorem C44_concat_refuted : exists (cs : list (ccand nat)) c cov,
  (forall x, In x cs -> sound x /\ reps_of x = 3%nat) /\ prepare_concats shift_ids cs 10 3 (map (fun _ => O) cs) = Ret c /\
  get_cov_seq (tree_of c) (hd 0 (cc_O c)) (cc_E c) = Some cov /\ ~ sound c /\ In (5, 3%nat) (concat (map dated cs)) /\ ~ In (5, 3%nat) cov.
Proof.
  exists [demo_ab; demo_c]. eexists. eexists. split; [|split; [reflexivity|]].
  - intros x [<-|[<-|[]]]; (split; [apply demo_ab_sound || apply demo_c_sound | reflexivity]).
  - split; [vm_compute; reflexivity|]. split; [|split; [vm_compute; tauto|]].
    + intros H. pose proof (so_cov _ H) as E. vm_compute in E. discriminate.
    + intros H. vm_compute in H. repeat (destruct H as [H|H]; [discriminate|]). exact H.
Qed.

Definition show_res {B} (o : outcome (ccand B)) : option (list (Z * B) * list Z) := match o with Ret c => Some (dated c, cc_E c) | _ => None end.
(* c then the pattern a-b: the last part may have several children *)
Example C44_case :
  show_res (prepare_concats shift_ids [{| cc_P := Simple 3%nat 10; cc_O := [-1; 9; 18]; cc_E := [0; -1] |}; demo_ab] 10 3 [O; O]) =
  Some ([(-1, 3%nat); (0, 1%nat); (2, 2%nat); (9, 3%nat); (10, 1%nat); (12, 2%nat); (18, 3%nat); (20, 1%nat); (22, 2%nat)], [0; 0; 0; 0; 0; -1; 1; 0]) /\
  sound demo_ab /\ sound demo_c.
Proof. split; [vm_compute; reflexivity | split; [apply demo_ab_sound | apply demo_c_sound]]. Qed.

Definition at_ (t e1 e2 : Z) : ccand nat := {| cc_P := Simple 7%nat 2; cc_O := [t; t + 2 + e1; t + 4 + e1 + e2]; cc_E := [e1; e2] |}.
Example C45_case :
  show_res (prepare_nested (fun n => n) [at_ 0 0 1; at_ 21 1 0; at_ 100 0 0; at_ 119 0 0] [100; 20; 2] [2; 2; 3]%nat) =
  Some (map (fun t => (t, 7%nat)) [0; 2; 5; 21; 24; 26; 100; 102; 104; 119; 121; 123], [0; 1; 1; 1; 0; 0; 0; 0; -1; 0; 0]) /\
  (forall t e1 e2, sound (at_ t e1 e2)).
Proof.
  split; [vm_compute; reflexivity|]. intros t e1 e2. split; cbn; try reflexivity; [constructor; [lia | eauto | repeat constructor] | do 4 eexists; reflexivity|].
  pose proof (C40_simple_cycle 7%nat (cc_O (at_ t e1 e2)) 2 ltac:(cbn; lia)) as (_ & _ & _ & H). unfold at_ in H. cbn [cc_O length hd] in H.
  assert (E : compute_E [t; t + 2 + e1; t + 4 + e1 + e2] 2 = [e1; e2]). { unfold compute_E. cbn [diffs map]. do 2 f_equal; [lia | f_equal; lia]. }
  rewrite E in H. exact H.
Qed.
Print Assumptions C45_nested.
Print Assumptions C44_concat_partial.
Print Assumptions C44_union_partial.
Print Assumptions C44_concat_refuted.
