(* C87: run_combine_horizontal, from the pool to the returned candidates. *)
From Verif Require Import Prelude CheckModel LCMModel VerticalProofs TextModel SplitModel ArrayModel PropArray PeriodModel TreeModel TreeProofs PropTree TreeBlock NestModel NestProofs PropNest PropConcat FactorModel PropFactor PropMineEvent CoverModel PropCover PropTopK CliqueModel PropClique PoolModel FoldModel PropFold NestMineModel PropNestMine HorizontalModel PropHorizontal.
From Coq Require Import QArith Lqa Cantor.
Local Open Scope nat_scope.

Lemma dset_keeps {K V} `{EqDec K} (d : dict K V) k v k' v' : k' <> k -> In (k', v') d -> In (k', v') (dset d k v).
Proof.
  intros N. induction d as [|[a b] d IH]; intros I; [destruct I|]. cbn [dset]. destruct (eq_dec k a) as [->|Na].
  - destruct I as [[= <- <-]|I]; [congruence | right; exact I].
  - destruct I as [[= <- <-]|I]; [left; reflexivity | right; apply IH, I].
Qed.
Lemma fold_dset_in {K V} `{EqDec K} (l : list (K * V)) : forall (d : dict K V) kc, In kc (fold_left (fun d kc => dset d (fst kc) (snd kc)) l d) -> In kc d \/ In kc l.
Proof.
  induction l as [|[k v] l IH]; intros d kc I; [left; exact I|]. cbn [fold_left] in I. apply IH in I. destruct I as [I|I]; [|right; right; exact I].
  destruct kc as [k' v']. cbn [fst snd] in I. apply dset_In in I. destruct I as [[-> ->]|I]; [right; left; reflexivity | left; exact I].
Qed.
Lemma fold_dset_keeps {K V} `{EqDec K} (l : list (K * V)) : forall (d : dict K V) k v, ~ In k (map fst l) -> In (k, v) d -> In (k, v) (fold_left (fun d kc => dset d (fst kc) (snd kc)) l d).
Proof.
  induction l as [|[k' v'] l IH]; intros d k v N I; [exact I|]. cbn [fold_left fst snd map] in *. apply IH; [intros X; apply N; right; exact X|]. apply dset_keeps; [|exact I]. intros ->. apply N. left. reflexivity.
Qed.

(* ---------------------------------------------------------------- the graph of the pairs *)
Lemma add_edge_in g a b u v : In v (nb_in (add_edge g a b) u) <-> In v (nb_in g u) \/ (u = a /\ v = b).
Proof.
  unfold nb_in, add_edge. rewrite dget_dset. destruct (eq_dec u a) as [->|N]; [|tauto]. destruct (dget g a) as [l|]; [rewrite In_union|]; cbn [In]; intuition congruence.
Qed.
Lemma add_edge_keys g a b u : In u (dkeys (add_edge g a b)) <-> u = a \/ In u (dkeys g).
Proof. unfold add_edge. apply dset_In_key. Qed.
Lemma graph_spec sel : forall g, NoDup (dkeys g) -> let g' := fold_left (fun g k => add_edge (add_edge g (nth 0 k 0) (nth 1 k 0)) (nth 1 k 0) (nth 0 k 0)) sel g in
  NoDup (dkeys g') /\
  (forall u v, In v (nb_in g' u) <-> In v (nb_in g u) \/ exists k, In k sel /\ ((u = nth 0 k 0 /\ v = nth 1 k 0) \/ (u = nth 1 k 0 /\ v = nth 0 k 0))) /\
  (forall u, In u (dkeys g') <-> In u (dkeys g) \/ exists k, In k sel /\ (u = nth 0 k 0 \/ u = nth 1 k 0)).
Proof.
  induction sel as [|k sel IH]; intros g N; cbn [fold_left].
  - split; [exact N|]. split; intros; split; auto; (intros [X|(k & [] & _)]; exact X).
  - destruct (IH (add_edge (add_edge g (nth 0 k 0) (nth 1 k 0)) (nth 1 k 0) (nth 0 k 0))) as (H1 & H2 & H3); [apply NoDup_dset, NoDup_dset, N|].
    split; [exact H1|]. split.
    + intros u v. rewrite H2, !add_edge_in. split.
      * intros [[[X|X]|X]|(k' & I & X)]; [left; exact X | right; exists k; split; [left; reflexivity | tauto] | right; exists k; split; [left; reflexivity | tauto] | right; exists k'; split; [right; exact I | exact X]].
      * intros [X|(k' & [<-|I] & X)]; [left; left; left; exact X | destruct X as [X|X]; left; [left; right; exact X | right; exact X] | right; exists k'; auto].
    + intros u. rewrite H3, !add_edge_keys. split.
      * intros [[X|[X|X]]|(k' & I & X)]; [right; exists k; split; [left; reflexivity | tauto] | right; exists k; split; [left; reflexivity | tauto] | left; exact X | right; exists k'; split; [right; exact I | exact X]].
      * intros [X|(k' & [<-|I] & X)]; [left; right; right; exact X | destruct X as [X|X]; left; [right; left; exact X | left; exact X] | right; exists k'; auto].
Qed.

(* ---------------------------------------------------------------- the selection of the pairs *)
Lemma pair_no_back rows a b : b < length rows -> [pair_no rows [a; b] / length rows; pair_no rows [a; b] mod length rows] = [a; b].
Proof.
  intros H. unfold pair_no. cbn [nth]. rewrite Nat.div_add_l by lia. rewrite (Nat.div_small b) by exact H. rewrite Nat.add_0_r. f_equal. f_equal.
  rewrite Nat.add_comm, Nat.mod_add by lia. apply Nat.mod_small, H.
Qed.
Lemma select_ok rows cost (keep : keeping) : NoDup (map fst keep) -> (forall kc, In kc keep -> exists a b, fst kc = [a; b] /\ b < length rows) ->
  let sel := select_pairs rows cost keep in
  NoDup sel /\ incl sel (map fst keep) /\ (length keep <= 5 -> forall kc, In kc keep -> In (fst kc) sel) /\
  forall kc, In kc keep -> ~ In (fst kc) sel -> forall o, In o (dated (snd kc)) ->
    5 < count_occ eq_dec (concat (map (fun kc => dated (snd kc)) (filter (fun kc => mem (fst kc) sel) keep))) o.
Proof.
  intros Nk Hk sel. unfold sel, select_pairs. clear sel.
  set (es := map (fun kc => (pair_no rows (fst kc), (match cost (snd kc) with Some q => q | None => 0%Q end, ev_occs (snd kc)))) keep).
  set (dec := fun n => [n / length rows; n mod length rows]).
  assert (Hdec : forall kc, In kc keep -> dec (pair_no rows (fst kc)) = fst kc).
  { intros kc I. destruct (Hk kc I) as (a & b & E & L). rewrite E. apply pair_no_back, L. }
  assert (Ei : map e_id es = map (fun kc => pair_no rows (fst kc)) keep) by (unfold es; rewrite map_map; reflexivity).
  assert (Ni : NoDup (map e_id es)).
  { rewrite Ei. apply (NoDup_map_inv dec). rewrite map_map. rewrite (map_ext_in _ fst); [exact Nk|]. exact Hdec. }
  destruct (C67_top_k es TOP_KEACH Ni) as (Nsel & Hincl & Hfew & Hout & _). cbn zeta in *. set (sel0 := topk_each es TOP_KEACH) in *. clearbody sel0.
  assert (Hsel : forall i, In i sel0 -> exists kc, In kc keep /\ i = pair_no rows (fst kc)).
  { intros i I. apply Hincl in I. rewrite Ei in I. apply in_map_iff in I. destruct I as (kc & <- & I). exists kc. auto. }
  assert (Hmem : forall kc, In kc keep -> (In (fst kc) (map dec sel0) <-> In (pair_no rows (fst kc)) sel0)).
  { intros kc I. rewrite in_map_iff. split; [|intros X; exists (pair_no rows (fst kc)); split; [apply Hdec, I | exact X]].
    intros (i & E & Ii). destruct (Hsel i Ii) as (kc' & I' & ->). rewrite (Hdec kc' I') in E. rewrite <- E. exact Ii. }
  split.
  { clear -Nsel Hsel Hdec. induction sel0 as [|i l IH]; [constructor|]. inversion Nsel as [|? ? Ni Nl]; subst. cbn [map]. constructor; [|apply IH; [exact Nl | intros j I; apply Hsel; right; exact I]].
    intros I. apply in_map_iff in I. destruct I as (j & E & I). destruct (Hsel i (or_introl eq_refl)) as (k1 & I1 & ->). destruct (Hsel j (or_intror I)) as (k2 & I2 & ->).
    rewrite (Hdec k1 I1), (Hdec k2 I2) in E. apply Ni. rewrite <- E. exact I. }
  split. { intros k I. apply in_map_iff in I. destruct I as (i & <- & I). destruct (Hsel i I) as (kc & Ik & ->). rewrite (Hdec kc Ik). apply in_map, Ik. }
  split. { intros L kc I. apply Hmem; [exact I|]. refine (Hfew _ (pair_no rows (fst kc), (match cost (snd kc) with Some q => q | None => 0%Q end, ev_occs (snd kc))) _).
    - unfold es. rewrite map_length. unfold TOP_KEACH. lia.
    - unfold es. apply (in_map (fun kc => (pair_no rows (fst kc), (match cost (snd kc) with Some q => q | None => 0%Q end, ev_occs (snd kc))))), I. }
  intros kc I N o Io.
  assert (Ie : In (pair_no rows (fst kc), (match cost (snd kc) with Some q => q | None => 0%Q end, ev_occs (snd kc))) es).
  { unfold es. apply (in_map (fun kc => (pair_no rows (fst kc), (match cost (snd kc) with Some q => q | None => 0%Q end, ev_occs (snd kc))))), I. }
  rewrite <- ev_occs_dated in Io. specialize (Hout _ Ie (fun X => N (proj2 (Hmem kc I) X)) o Io). unfold times_covered, TOP_KEACH in Hout.
  assert (E : flat_map (fun e => if mem (e_id e) sel0 then e_unc e else []) es = concat (map (fun kc => dated (snd kc)) (filter (fun kc => mem (fst kc) (map dec sel0)) keep))).
  { unfold es. clear -Hmem. induction keep as [|kc l IH]; [reflexivity|]. cbn [map flat_map filter]. rewrite IH by (intros kc' I'; apply Hmem; right; exact I'). unfold e_id, e_unc. cbn [fst snd].
    destruct (mem_spec (pair_no rows (fst kc)) sel0) as [X|X], (mem_spec (fst kc) (map dec sel0)) as [Y|Y].
    - cbn [map concat]. rewrite ev_occs_dated. reflexivity.
    - exfalso. apply Y, (Hmem kc (or_introl eq_refl)), X.
    - exfalso. apply X, (Hmem kc (or_introl eq_refl)), Y.
    - reflexivity. }
  rewrite E in Hout. unfold occ in *. lia.
Qed.

Lemma qlt_o_trans a b c : qlt_o a b = true -> qlt_o b c = true -> qlt_o a c = true.
Proof.
  destruct a as [x|], b as [y|], c as [z|]; cbn [qlt_o]; try discriminate. rewrite !qlt_spec. intros. lra.
Qed.
Lemma repetition_some (c : ccand nat) k : shaped c -> k < reps_of c -> repetition c k <> [].
Proof.
  intros Ss Hk. destruct Ss as [W (n & r & p & ch & Et) Hn]. assert (Er : reps_of c = r) by (unfold reps_of; rewrite Et; reflexivity). rewrite Er in Hk.
  assert (Hd : length (dated c) = r * list_sum (map (fun cd => nb_occs (fst cd)) ch)).
  { unfold dated. rewrite combine_length, events_length, Hn, Et. cbn [nb_occs]. lia. }
  assert (Hs : 1 <= list_sum (map (fun cd => nb_occs (fst cd)) ch)).
  { pose proof (nb_pos _ W) as H. rewrite Et in H. cbn [nb_occs] in H. destruct (list_sum _); [rewrite Nat.mul_0_r in H; lia | lia]. }
  unfold repetition. rewrite Er, Hd, Nat.mul_comm, Nat.div_mul by lia. set (m := list_sum _) in *. intros E.
  assert (L : length (firstn m (skipn (k * m) (dated c))) = 0) by (rewrite E; reflexivity). rewrite firstn_length, skipn_length, Hd in L. nia.
Qed.

Lemma clique_leb_spec rows tuples a b : clique_leb rows tuples a b = true <-> (t0_at rows a < t0_at rows b)%Z \/ (t0_at rows a = t0_at rows b /\ idx_leb (tuples a) (tuples b) = true).
Proof. unfold clique_leb. rewrite orb_true_iff, andb_true_iff, Z.ltb_lt, Z.eqb_eq. reflexivity. Qed.
Lemma clique_sorted rows tuples l : in_time_order rows (sort (clique_leb rows tuples) l).
Proof.
  assert (Ss : StronglySorted (fun x y => clique_leb rows tuples x y = true) (sort (clique_leb rows tuples) l)).
  { apply sort_sorted.
    - intros x y. rewrite !clique_leb_spec. destruct (Z.lt_total (t0_at rows x) (t0_at rows y)) as [L|[E|L]]; [auto | | auto]. destruct (idx_leb_total (tuples x) (tuples y)); auto.
    - intros x y z. rewrite !clique_leb_spec. intros [H1|[H1 H1']] [H2|[H2 H2']]; [left; lia | left; lia | left; lia | right; split; [lia | eapply idx_leb_trans; eassumption]]. }
  unfold in_time_order. induction Ss as [|x m Ss IH F]; constructor; [exact IH|]. rewrite Forall_forall in *. intros y I. specialize (F y I). apply clique_leb_spec in F. lia.
Qed.

Section Run.
  Variable rows : list row.
  Variable cands : dict nat (ccand nat).
  Variable known : nat -> option Q.
  Variable cost : ccand nat -> option Q.
  Variable dcosts : dict nat Q.
  Variable new_num : nat.
  Variable nms : list (ccand nat) -> nat -> nat -> nat.
  Variable text_lt : list nat -> list nat -> bool.
  Variable iter : list nat -> list nat.
  Variable sorted : list nat.
  Notation cid := (cid_at rows).
  Notation cnd := (cnd rows cands).
  Notation make := (on_order rows cands nms).
  Notation comparable := (comparable rows new_num).
  Notation once := (once rows cands).
  Notation alternates := (alternates rows cands).
  Notation disjoint := (disjoint rows cands).
  Notation row_ok := (row_ok rows cands dcosts).

  (* the candidates of these rows are joined in c *)
  Record joined (pids : list nat) (c : ccand nat) : Prop := {
    jo_rows : NoDup pids /\ incl pids sorted /\ 2 <= length pids;
    jo_parts : forall i j, In i pids -> In j pids -> i <> j -> cid i <> cid j /\ disjoint i j /\ (comparable i j \/ comparable j i);
    jo_turns : alternates pids c }.
  (* the two parts cost more than the candidate and the events it leaves out *)
  Definition saves (i j : nat) (c : ccand nat) : Prop :=
    exists qi qj q, known (cid i) = Some qi /\ known (cid j) = Some qj /\ cost c = Some q /\ (q + alone dcosts (left_out rows cands i j c) < qi + qj)%Q.

  Record pool_ok : Prop := {
    po_order : in_time_order rows sorted;
    po_once : NoDup sorted;
    po_rows : forall i, In i sorted -> i < length rows /\ row_ok i }.
  Hypothesis Hpool : pool_ok.
  Hypothesis Hids : forall cs, (forall c, In c cs -> NoDup (kid_ids c)) -> NoDup (0 :: given_ids (nms cs) 0 cs).
  Hypothesis Hiter : forall l, Permutation (iter l) l.

  Lemma rows_ok l : incl l sorted -> Forall row_ok l.
  Proof. intros H. apply Forall_forall. intros i I. apply (po_rows Hpool i (H i I)). Qed.
  Lemma joined_events pids c : joined pids c -> ((forall i, In i pids -> once i) -> NoDup (dated c)) /\ incl (dated c) (concat (map (fun i => dated (cnd i)) pids)).
  Proof.
    intros [(N & I & _) H2 H3]. apply (alternates_events rows cands dcosts); [exact H3 | exact N | apply rows_ok, I|]. intros i j Ii Ij Nij. apply (H2 i j Ii Ij Nij).
  Qed.
  Lemma joined_many pids c : joined pids c -> 1 < length (dated c).
  Proof.
    intros [(N & I & L) _ [(r0 & ch & _ & H1 & H2 & _ & Hd) _ _ _ _]]. rewrite Hd. destruct pids as [|i [|j pids]]; cbn [length] in L; try lia.
    destruct r0 as [|r0]; [lia|]. cbn [List.seq map concat]. rewrite !app_length.
    assert (G : forall x, In x (i :: j :: pids) -> 0 < length (repetition (cnd x) (r_off (row_at rows x) + 0))).
    { intros x Ix. specialize (H2 x Ix). pose proof (repetition_some (cnd x) (r_off (row_at rows x) + 0)) as R. destruct (repetition _ _); [|cbn; lia]. exfalso. apply R; [|lia | reflexivity].
      apply (ro_shape _ _ _ _ (proj2 (po_rows Hpool x (I x Ix)))). }
    pose proof (G i (or_introl eq_refl)). pose proof (G j (or_intror (or_introl eq_refl))). lia.
  Qed.

  (* what the search for pairs gives *)
  Lemma try_ok i j : In i sorted -> In j sorted -> cid j <> cid i ->
    exists o, join rows cands known cost dcosts nms text_lt i j = Ret o /\ forall k c, o = Some (k, c) -> k = [i; j] \/ k = [j; i].
  Proof.
    intros Ii Ij Nc. destruct (pair_spec rows cands known cost dcosts nms text_lt Hids i j) as (o & E & H & _); [apply (po_rows Hpool i Ii) | apply (po_rows Hpool j Ij) | congruence|].
    exists o. split; [exact E|]. intros k c Eo. destruct (H k c Eo) as (_ & _ & [X|(X & _)] & _); auto.
  Qed.
  Lemma pair_joined i j kc : before sorted i j -> comparable i j -> join rows cands known cost dcosts nms text_lt i j = Ret (Some kc) ->
    (fst kc = [i; j] \/ fst kc = [j; i]) /\ joined (fst kc) (snd kc) /\ (once i -> once j -> saves i j (snd kc)).
  Proof.
    intros B C E. destruct (before_in _ _ _ B) as [Ii Ij]. assert (Nij : i <> j) by (intros ->; apply (proj1 (proj2 C)); reflexivity).
    destruct kc as [k c]. destruct (pair_spec rows cands known cost dcosts nms text_lt Hids i j) as (o & E' & H & _); [apply (po_rows Hpool i Ii) | apply (po_rows Hpool j Ij) | exact Nij|].
    rewrite E in E'. injection E' as <-. destruct (H k c eq_refl) as (D & Em & Hk & Hs). cbn [fst snd].
    assert (Hk' : k = [i; j] \/ k = [j; i]) by (destruct Hk as [X|(X & _)]; auto). split; [exact Hk'|]. split; [|exact Hs].
    assert (D' : disjoint j i) by (intros o I1 I2; exact (D o I2 I1)). destruct C as (C1 & C2 & C3). assert (C : comparable i j) by (split; auto).
    constructor.
    - destruct Hk' as [-> | ->]; (split; [constructor; [intros [X|[]]; congruence | constructor; [intros [] | constructor]] | split; [intros x [<-|[<-|[]]]; assumption | cbn; lia]]).
    - intros x y Ix Iy Nxy. destruct Hk' as [-> | ->]; destruct Ix as [<-|[<-|[]]], Iy as [<-|[<-|[]]]; try congruence; (split; [congruence|]; split; [assumption|]; tauto).
    - destruct (on_order_ok rows cands dcosts nms Hids k) as (c' & Ec & A); [destruct Hk' as [-> | ->]; discriminate | apply rows_ok; destruct Hk' as [-> | ->]; intros x [<-|[<-|[]]]; assumption|].
      rewrite Em in Ec. injection Ec as <-. exact A.
  Qed.

  Lemma pair_made i j kc : before sorted i j -> comparable i j -> join rows cands known cost dcosts nms text_lt i j = Ret (Some kc) -> make (fst kc) = Ret (snd kc).
  Proof.
    intros B C E. destruct (before_in _ _ _ B) as [Ii Ij]. assert (Nij : i <> j) by (intros ->; apply (proj1 (proj2 C)); reflexivity). destruct kc as [k c].
    destruct (pair_spec rows cands known cost dcosts nms text_lt Hids i j) as (o & E' & H & _); [apply (po_rows Hpool i Ii) | apply (po_rows Hpool j Ij) | exact Nij|].
    rewrite E in E'. injection E' as <-. apply (H k c eq_refl).
  Qed.

  Lemma better_ok best pids ct : Forall row_ok pids -> pids <> [] -> Permutation pids (fst best) -> make (fst best) = Ret (snd best) -> (snd best = ct \/ qlt_o (cost (snd best)) (cost ct) = true) ->
    exists best', better rows cands cost nms best pids = Ret best' /\ Permutation (fst best') (fst best) /\ make (fst best') = Ret (snd best') /\ (snd best' = ct \/ qlt_o (cost (snd best')) (cost ct) = true).
  Proof.
    intros F Ne P Em Hc. unfold better. destruct (eqd pids (fst best)); [exists best; auto|].
    destruct (on_order_ok rows cands dcosts nms Hids pids Ne F) as (c & E & _). rewrite E. cbn [bind]. destruct (qlt_o (cost c) (cost (snd best))) eqn:El; [|exists best; auto].
    exists (pids, c). split; [reflexivity|]. split; [exact P|]. split; [exact E|]. right. cbn [snd]. destruct Hc as [<-|Hc]; [exact El | exact (qlt_o_trans _ _ _ El Hc)].
  Qed.
  (* one group *)
  Lemma group_ok sel seen group : incl group sorted -> group <> [] -> incl seen sorted ->
    exists pids c, group_cand rows cands known cost nms iter sel seen group = Ret (if qlt_o (ratio_of cost c) (parts_ratio rows known seen (map cnd seen)) then Some (pids, c) else None) /\
      Permutation pids group /\ make pids = Ret c /\
      exists pt ct, Permutation pt group /\ make pt = Ret ct /\ (forall i j, before pt i j -> (t0_at rows i <= t0_at rows j)%Z) /\ (c = ct \/ qlt_o (cost c) (cost ct) = true).
  Proof.
    intros Ig Ne Is. unfold group_cand. rewrite (cands_ok rows cands dcosts group (rows_ok group Ig)). cbn [bind].
    set (tuples := fun v => match cand_at rows cands v with Ret c => event_tuple c | _ => [] end). set (pt := sort (clique_leb rows tuples) (iter group)).
    assert (Pt : Permutation pt group) by (unfold pt; rewrite sort_perm; apply Hiter).
    assert (Hp : forall l, Permutation l group -> Forall row_ok l /\ l <> []).
    { intros l P. split; [apply rows_ok; intros x I; apply Ig, (Permutation_in _ P), I|]. intros ->. apply Permutation_nil in P. contradiction. }
    destruct (Hp pt Pt) as [Ft Nt]. destruct (on_order_ok rows cands dcosts nms Hids pt Nt Ft) as (ct & Et & _). rewrite Et. cbn [bind].
    assert (H1 : exists b1, (if length (nodup eq_dec (map (t0_at rows) pt)) <? length pt then better rows cands cost nms (pt, ct) (sort (fun a b => times_first sel group b <=? times_first sel group a) pt) else Ret (pt, ct)) = Ret b1 /\
      Permutation (fst b1) group /\ make (fst b1) = Ret (snd b1) /\ (snd b1 = ct \/ qlt_o (cost (snd b1)) (cost ct) = true)).
    { destruct (_ <? _); [|exists (pt, ct); auto]. set (px := sort _ pt). assert (Px : Permutation px pt) by apply sort_perm.
      destruct (Hp px (Permutation_trans Px Pt)) as [Fx Nx]. destruct (better_ok (pt, ct) px ct Fx Nx Px Et (or_introl eq_refl)) as (b & Eb & P & M & C). exists b. split; [exact Eb|]. split; [exact (Permutation_trans P Pt) | auto]. }
    destruct H1 as (b1 & E1 & P1 & M1 & C1). rewrite E1. cbn [bind].
    set (py := sort_pids (key_at rows) (iter group)). assert (Py : Permutation py group) by (unfold py, sort_pids; rewrite sort_perm; apply Hiter).
    destruct (Hp py Py) as [Fy Ny]. destruct (better_ok b1 py ct Fy Ny (Permutation_trans Py (Permutation_sym P1)) M1 C1) as (b2 & E2 & P2 & M2 & C2). rewrite E2. cbn [bind].
    rewrite (cands_ok rows cands dcosts seen (rows_ok seen Is)). cbn [bind].
    exists (fst b2), (snd b2). split; [rewrite <- surjective_pairing; reflexivity|]. split; [exact (Permutation_trans P2 P1)|]. split; [exact M2|]. exists pt, ct. split; [exact Pt|]. split; [exact Et|]. split; [|exact C2].
    intros i j B. exact (before_sorted _ _ i j (clique_sorted rows tuples (iter group)) B).
  Qed.

  Notation search := (pairs rows cands known cost dcosts new_num nms text_lt (S (length sorted)) sorted (if length (filter (is_new rows new_num) sorted) <? 500 then Some (filter (is_new rows new_num) sorted) else None) [] []).
  Notation run := (run_horizontal rows cands known cost dcosts new_num nms text_lt iter (S (length sorted))).

  Lemma search_ok : filter (is_new rows new_num) sorted <> [] -> exists keep seen, search = Ret (keep, seen) /\ incl seen sorted /\ NoDup (map fst keep) /\
    (forall kc, In kc keep -> exists i j, before sorted i j /\ comparable i j /\ join rows cands known cost dcosts nms text_lt i j = Ret (Some kc)).
  Proof.
    intros Hn. destruct (pairs_spec rows cands known cost dcosts new_num nms text_lt sorted try_ok (S (length sorted)) sorted
      (if length (filter (is_new rows new_num) sorted) <? 500 then Some (filter (is_new rows new_num) sorted) else None) [] []) as (added & seen & E & H1 & H2 & _ & _ & H3 & _); auto.
    - apply (po_order Hpool).
    - apply (po_once Hpool).
    - apply incl_refl.
    - destruct (_ <? _); auto.
    - intros X. destruct (_ <? _); [injection X as X; contradiction | discriminate].
    - intros kc [].
    - constructor.
    - intros x [].
    - exists added, seen. cbn [app] in *. auto.
  Qed.

  (* The round ends without an exception, whatever the costs.  Each returned candidate is made of two
     or more candidates of the pool that share no dated event: they take turns in some c0 (which,
     if there are two of them and neither has an event twice, saves something), and the returned candidate has the dated events of c0
     and does not cost more. *)
  Theorem horizontal_spec : forall fresh, exists res, run fresh sorted = Ret res /\
    (fresh = false \/ filter (is_new rows new_num) sorted = [] -> res = []) /\
    forall c, In c res -> exists pids c0,
      joined pids c0 /\
      (length pids = 2 -> exists i j, (pids = [i; j] \/ pids = [j; i]) /\ (once i -> once j -> saves i j c0)) /\
      shaped c /\ full c /\ ((forall i, In i pids -> sound (cnd i)) -> (forall i, In i (removelast pids) -> length (kids_of (cnd i)) = 1) -> sound c) /\
      Permutation (dated c) (dated c0) /\ (exists t, cc_P c = Patt t /\ NoDup (node_ids t)) /\
      ((forall i, In i pids -> once i) -> NoDup (dated c)) /\ incl (dated c) (concat (map (fun i => dated (cnd i)) pids)) /\
      ((forall x, cost x <> None) -> exists q q0, cost c = Some q /\ cost c0 = Some q0 /\ (q <= q0)%Q) /\
      make pids = Ret c0 /\ substitute cost c0 = Ret c.
  Proof.
    intros fresh. unfold run_horizontal. destruct fresh; cbn [negb]; [|exists []; split; [reflexivity|]; split; [reflexivity | intros c []]].
    pose proof search_ok as Hs. set (news := filter (is_new rows new_num) sorted) in *. clearbody news. 
    destruct news as [|n0 ns]; [exists []; split; [reflexivity|]; split; [reflexivity | intros c []]|].
    destruct Hs as (keep & seen & E & Is & Nk & Hk); [discriminate|]. rewrite E. cbn [bind fst snd].
    assert (Hkj : forall kc, In kc keep -> exists i j, (fst kc = [i; j] \/ fst kc = [j; i]) /\ joined (fst kc) (snd kc) /\ (once i -> once j -> saves i j (snd kc))).
    { intros kc I. destruct (Hk kc I) as (i & j & B & C & T). exists i, j. apply pair_joined; assumption. }
    assert (Hshape : forall kc, In kc keep -> exists a b, fst kc = [a; b] /\ b < length rows).
    { intros kc I. destruct (Hkj kc I) as (i & j & Ek & [(_ & Ii & _) _ _] & _). destruct Ek as [Ek|Ek]; rewrite Ek in *; eexists; eexists; (split; [reflexivity|]); apply (po_rows Hpool), Ii; cbn; auto. }
    destruct (select_ok rows cost keep Nk Hshape) as (Nsel & Isel & _ & _). set (sel := select_pairs rows cost keep) in *. clearbody sel.
    destruct (map_out_split (fun k => match dget keep k with Some c => Ret (k, c) | None => Exn KeyError end) (fun k kc => fst kc = k /\ In kc keep) sel) as (keep2 & E2 & F2).
    { intros k I. apply Isel in I. apply in_map_iff in I. destruct I as ([k' c] & <- & I). cbn [fst]. rewrite (In_dget keep k' c Nk I). exists (k', c). auto. }
    rewrite E2. cbn [bind].
    destruct (graph_spec sel [] (NoDup_nil _)) as (G1 & G2 & G3). fold (graph_of sel) in G1, G2, G3. set (g := graph_of sel) in *. clearbody g.
    assert (Hadj : forall u v, In v (nb_in g u) -> (exists k, In k sel /\ (k = [u; v] \/ k = [v; u])) /\ u <> v /\ In u sorted /\ In v sorted /\ cid u <> cid v /\ disjoint u v /\ (comparable u v \/ comparable v u)).
    { intros u v I. apply G2 in I. destruct I as [I|(k & I & Huv)]; [destruct I|]. pose proof (Isel k I) as Ik. apply in_map_iff in Ik. destruct Ik as (kc & <- & Ik).
      destruct (Hkj kc Ik) as (i & j & Ek & [(Np & Ii & _) Hp _] & _).
      assert (Hab : exists a b, fst kc = [a; b]) by (destruct Ek as [Ek|Ek]; eauto). destruct Hab as (a & b & Eab). rewrite Eab in *. cbn [nth] in Huv.
      assert (Nab : a <> b) by (inversion Np as [|? ? X _]; subst; intros ->; apply X; left; reflexivity).
      destruct Huv as [[-> ->]|[-> ->]]; (split; [exists [a; b]; auto|]; split; [congruence|]; split; [apply Ii; cbn; auto|]; split; [apply Ii; cbn; auto|]; apply Hp; cbn; auto). }
    destruct (C27_bronKerbosch3Plus nat _ (nb_in g) (map fst g) iter Hiter G1) with (fuel := S (length g)) as (groups & Eg & Hg & _ & _).
    { intros u v _ _ I. unfold adjacent in *. apply G2 in I. apply G2. destruct I as [I|(k & I & X)]; [destruct I|]. right. exists k. tauto. }
    { intros u _ I. apply Hadj in I. destruct I as (_ & N & _). congruence. }
    { rewrite map_length. lia. }
    rewrite Eg. cbn [bind].
    assert (Hgs : forall group, In group groups -> incl group sorted /\ group <> []).
    { intros group I. destruct (Hg group I) as (_ & [[Ci Cl] _] & L3). split; [|intros ->; cbn in L3; lia].
      intros u Iu. apply Ci in Iu. apply G3 in Iu. destruct Iu as [[]|(k & Ik & Hu)]. apply Isel in Ik. apply in_map_iff in Ik. destruct Ik as (kc & <- & Ik).
      destruct (Hkj kc Ik) as (i & j & Ek & [(_ & Ii & _) _ _] & _). destruct Ek as [Ek|Ek]; rewrite Ek in *; cbn [nth] in Hu; apply Ii; cbn; intuition. }
    destruct (map_out_split (group_cand rows cands known cost nms iter sel seen)
      (fun group o => forall pids c, o = Some (pids, c) -> Permutation pids group /\ make pids = Ret c) groups) as (gr & Er & Fr).
    { intros group I. destruct (Hgs group I) as [Gi Gn]. destruct (group_ok sel seen group Gi Gn Is) as (pids & c & Eo & P & M & _). eexists. split; [exact Eo|]. intros pids' c' X. destruct (qlt_o _ _); [|discriminate]. injection X as <- <-. auto. }
    rewrite Er. cbn [bind].
    set (final := fold_left (fun d kc => dset d (fst kc) (snd kc)) (kept_pairs gr) keep2).
    assert (Hfin : forall kc, In kc final -> joined (fst kc) (snd kc) /\ (length (fst kc) = 2 -> exists i j, (fst kc = [i; j] \/ fst kc = [j; i]) /\ (once i -> once j -> saves i j (snd kc))) /\ make (fst kc) = Ret (snd kc)).
    { intros kc I. apply fold_dset_in in I. destruct I as [I|I].
      - apply In_nth_error in I. destruct I as (n & En). destruct (Forall2_nth_r _ _ _ F2 n kc En) as (k & _ & _ & Ik). destruct (Hkj kc Ik) as (i & j & Ek & J & Sv). split; [exact J|]. split; [intros _; exists i, j; auto|]. destruct (Hk kc Ik) as (i' & j' & B' & C' & T'). exact (pair_made i' j' kc B' C' T').
      - unfold kept_pairs in I. apply in_flat_map in I. destruct I as (o & Io & Ik). destruct o as [kc'|]; [destruct Ik as [->|[]]|destruct Ik].
        apply In_nth_error in Io. destruct Io as (n & En). destruct (Forall2_nth_r _ _ _ Fr n _ En) as (group & Egr & Ho). destruct kc as [pids c]. destruct (Ho pids c eq_refl) as [P M]. cbn [fst snd].
        pose proof (nth_error_In _ _ Egr) as Ig. destruct (Hg group Ig) as (Ng & [[Ci Cl] _] & L3). destruct (Hgs group Ig) as [Gi Gn].
        assert (Ip : incl pids sorted) by (intros x Ix; apply Gi, (Permutation_in _ P), Ix).
        split; [|split; [intros L2; rewrite (Permutation_length P) in L2; lia | exact M]]. constructor.
        + split; [apply (Permutation_NoDup (Permutation_sym P)), Ng|]. split; [exact Ip | rewrite (Permutation_length P); lia].
        + intros i j Ii Ij Nij. apply (Permutation_in _ P) in Ii, Ij. destruct (Hadj i j (Cl i j Ii Ij Nij)) as (_ & _ & _ & _ & X). exact X.
        + destruct (on_order_ok rows cands dcosts nms Hids pids) as (c' & Ec & A); [intros ->; apply Permutation_nil in P; contradiction | apply rows_ok, Ip|]. rewrite M in Ec. injection Ec as <-. exact A. }
    destruct (map_out_split (substitute cost)
      (fun c0 c => shaped c /\ full c /\ (sound c0 -> sound c) /\ Permutation (dated c) (dated c0) /\ (exists t, cc_P c = Patt t /\ NoDup (node_ids t)) /\
         ((forall x, cost x <> None) -> exists q q0, cost c = Some q /\ cost c0 = Some q0 /\ (q <= q0)%Q) /\ substitute cost c0 = Ret c) (map snd final)) as (res & Eres & Fres).
    { intros c0 I. apply in_map_iff in I. destruct I as (kc & <- & I). destruct (Hfin kc I) as [J _]. pose proof (joined_many _ _ J) as L. destruct J as [_ _ [(r0 & ch & EP & _) Sh Fu _ Nid]].
      unfold tree_of in Nid. rewrite EP in Nid. destruct (substitute_ok cost (snd kc) _ EP Sh Fu Nid L) as (c & Ec & S1 & S1' & S0 & S2 & (t' & S3 & S4 & _) & S5). exists c. split; [exact Ec|]. eauto 12. }
    rewrite Eres. exists res. split; [reflexivity|]. split; [intros [X|X]; discriminate|].
    intros c I. apply In_nth_error in I. destruct I as (n & En). destruct (Forall2_nth_r _ _ _ Fres n c En) as (c0 & E0 & S1 & S1' & S0 & S2 & S3 & S4 & S5).
    apply nth_error_In in E0. apply in_map_iff in E0. destruct E0 as ([pids c0'] & X & If). cbn [snd] in X. subst c0'. destruct (Hfin _ If) as [J [Sv Mk]]. cbn [fst snd] in *.
    destruct (joined_events pids c0 J) as [Nd Id]. exists pids, c0. split; [exact J|]. split; [exact Sv|]. split; [exact S1|]. split; [exact S1'|]. split; [intros Hsd H1; apply S0, (al_sound _ _ _ _ (jo_turns _ _ J) Hsd H1)|]. split; [exact S2|]. split; [exact S3|].
    split; [intros Ho; apply (Permutation_NoDup (Permutation_sym S2)), Nd, Ho|]. split; [intros o Io; apply Id, (Permutation_in _ S2), Io | auto].
  Qed.

  (* Which joined candidates are returned: of the pairs kept by the search all, or else every dated
     event of a pair that is left out is in more than five that are not; and of every maximal set of
     three or more rows that are all joined pairwise, the best order that was tried, if it is cheap
     enough.  The bound is the cost of the two candidates compared last. *)
  Theorem selected_spec : forall keep seen res, filter (is_new rows new_num) sorted <> [] -> search = Ret (keep, seen) -> run true sorted = Ret res ->
    exists kept, incl kept keep /\ (length keep <= 5 -> incl keep kept) /\
      (forall kc, In kc keep -> ~ In kc kept -> forall o, In o (dated (snd kc)) -> 5 < count_occ eq_dec (concat (map (fun kc => dated (snd kc)) kept)) o) /\
      (forall kc, In kc kept -> exists c, substitute cost (snd kc) = Ret c /\ In c res) /\
      (forall C, NoDup C -> 3 <= length C ->
         (forall i j, In i C -> In j C -> i <> j -> exists kc, In kc kept /\ (fst kc = [i; j] \/ fst kc = [j; i])) ->
         (forall x, ~ In x C -> exists i, In i C /\ forall kc, In kc kept -> fst kc <> [i; x] /\ fst kc <> [x; i]) ->
         exists pids c0, Permutation pids C /\ make pids = Ret c0 /\
           (exists pt ct, Permutation pt C /\ make pt = Ret ct /\ (forall i j, before pt i j -> (t0_at rows i <= t0_at rows j)%Z) /\ (c0 = ct \/ qlt_o (cost c0) (cost ct) = true)) /\
           (qlt_o (ratio_of cost c0) (parts_ratio rows known seen (map cnd seen)) = true -> exists c, substitute cost c0 = Ret c /\ In c res)).
  Proof.
    intros keep seen res Hn E Hrun. destruct (search_ok Hn) as (keep' & seen' & E' & Is & Nk & Hk). rewrite E in E'. injection E' as <- <-.
    unfold run_horizontal in Hrun. cbn [negb] in Hrun. set (news := filter (is_new rows new_num) sorted) in *. clearbody news. destruct news as [|n0 ns]; [congruence|]. rewrite E in Hrun. cbn [bind fst snd] in Hrun.
    assert (Hkj : forall kc, In kc keep -> exists i j, (fst kc = [i; j] \/ fst kc = [j; i]) /\ joined (fst kc) (snd kc) /\ (once i -> once j -> saves i j (snd kc))).
    { intros kc I. destruct (Hk kc I) as (i & j & B & C & T). exists i, j. apply pair_joined; assumption. }
    assert (Hshape : forall kc, In kc keep -> exists a b, fst kc = [a; b] /\ b < length rows).
    { intros kc I. destruct (Hkj kc I) as (i & j & Ek & [(_ & Ii & _) _ _] & _). destruct Ek as [Ek|Ek]; rewrite Ek in *; eexists; eexists; (split; [reflexivity|]); apply (po_rows Hpool), Ii; cbn; auto. }
    destruct (select_ok rows cost keep Nk Hshape) as (Nsel & Isel & Hfew & Hout). set (sel := select_pairs rows cost keep) in *. clearbody sel.
    destruct (map_out_split (fun k => match dget keep k with Some c => Ret (k, c) | None => Exn KeyError end) (fun k kc => fst kc = k /\ In kc keep) sel) as (keep2 & E2 & F2).
    { intros k I. apply Isel in I. apply in_map_iff in I. destruct I as ([k' c] & <- & I). cbn [fst]. rewrite (In_dget keep k' c Nk I). exists (k', c). auto. }
    rewrite E2 in Hrun. cbn [bind] in Hrun.
    set (kept := filter (fun kc => mem (fst kc) sel) keep) in *.
    assert (Hkept : forall kc, In kc kept <-> In kc keep /\ In (fst kc) sel) by (intros kc; unfold kept; rewrite filter_In, mem_In; reflexivity).
    assert (Hsel : forall k, In k sel <-> exists kc, In kc kept /\ fst kc = k).
    { intros k. split; [|intros (kc & I & <-); apply Hkept in I; apply I]. intros I. pose proof (Isel k I) as X. apply in_map_iff in X. destruct X as (kc & <- & X). exists kc. split; [apply Hkept; auto | reflexivity]. }
    assert (Hk2 : forall kc, In kc kept -> In kc keep2).
    { intros kc I. apply Hkept in I. destruct I as [I1 I2]. apply In_nth_error in I2. destruct I2 as (n & En). destruct (Forall2_nth _ _ _ F2 n _ En) as (kc' & En' & E3 & I3). apply nth_error_In in En'.
      replace kc with kc'; [exact En'|]. destruct kc as [k c], kc' as [k' c']. cbn [fst] in *. subst k'. f_equal. apply (In_dget keep k c Nk) in I1. apply (In_dget keep k c' Nk) in I3. congruence. }
    destruct (graph_spec sel [] (NoDup_nil _)) as (G1 & G2 & G3). fold (graph_of sel) in G1, G2, G3. set (g := graph_of sel) in *. clearbody g.
    assert (Hadj : forall u v, In v (nb_in g u) <-> In [u; v] sel \/ In [v; u] sel).
    { intros u v. rewrite G2. split.
      - intros [[]|(k & I & H)]. pose proof (proj1 (Hsel k) I) as (kc & Ik & Ekc). apply Hkept in Ik. destruct (Hshape kc (proj1 Ik)) as (a & b & Eab & _). rewrite Eab in Ekc. subst k. cbn [nth] in H. destruct H as [[-> ->]|[-> ->]]; auto.
      - intros [I|I]; right; eexists; (split; [exact I|]); cbn [nth]; auto. }
    assert (Hirr : forall u, ~ In u (nb_in g u)).
    { intros u I. apply Hadj in I. assert (I' : In [u; u] sel) by tauto. apply Hsel in I'. destruct I' as (kc & Ik & Ekc). apply Hkept in Ik. destruct (Hkj kc (proj1 Ik)) as (_ & _ & _ & [(Np & _) _ _] & _).
      rewrite Ekc in Np. inversion Np as [|? ? X _]; subst. apply X. left. reflexivity. }
    destruct (C27_bronKerbosch3Plus nat _ (nb_in g) (map fst g) iter Hiter G1) with (fuel := S (length g)) as (groups & Eg & Hg & Hgc & _).
    { intros u v _ _ I. unfold adjacent in *. apply Hadj in I. apply Hadj. tauto. }
    { intros u _. apply Hirr. }
    { rewrite map_length. lia. }
    rewrite Eg in Hrun. cbn [bind] in Hrun.
    assert (Hgs : forall group, In group groups -> incl group sorted /\ group <> []).
    { intros group I. destruct (Hg group I) as (_ & [[Ci Cl] _] & L3). split; [|intros ->; cbn in L3; lia].
      intros u Iu. apply Ci in Iu. apply G3 in Iu. destruct Iu as [[]|(k & Ik & Hu)]. apply Isel in Ik. apply in_map_iff in Ik. destruct Ik as (kc & <- & Ik).
      destruct (Hkj kc Ik) as (i & j & Ek & [(_ & Ii & _) _ _] & _). destruct Ek as [Ek|Ek]; rewrite Ek in *; cbn [nth] in Hu; apply Ii; cbn; intuition. }
    destruct (map_out_split (group_cand rows cands known cost nms iter sel seen)
      (fun group o => exists pids c, o = (if qlt_o (ratio_of cost c) (parts_ratio rows known seen (map cnd seen)) then Some (pids, c) else None) /\ Permutation pids group /\ make pids = Ret c /\
         exists pt ct, Permutation pt group /\ make pt = Ret ct /\ (forall i j, before pt i j -> (t0_at rows i <= t0_at rows j)%Z) /\ (c = ct \/ qlt_o (cost c) (cost ct) = true)) groups) as (gr & Er & Fr).
    { intros group I. destruct (Hgs group I) as [Gi Gn]. destruct (group_ok sel seen group Gi Gn Is) as (pids & c & Eo & X). eexists. split; [exact Eo|]. exists pids, c. split; [reflexivity | exact X]. }
    rewrite Er in Hrun. cbn [bind] in Hrun. set (final := fold_left (fun d kc => dset d (fst kc) (snd kc)) (kept_pairs gr) keep2) in *.
    assert (Hgr : forall pids c, In (pids, c) (kept_pairs gr) -> 3 <= length pids /\ make pids = Ret c).
    { intros pids c I. unfold kept_pairs in I. apply in_flat_map in I. destruct I as (o & Io & Ik). destruct o as [kc'|]; [destruct Ik as [->|[]]|destruct Ik].
      apply In_nth_error in Io. destruct Io as (n & En). destruct (Forall2_nth_r _ _ _ Fr n _ En) as (group & Egr & pids' & c' & X & P & M & _). destruct (qlt_o _ _); [|discriminate]. injection X as <- <-.
      split; [|exact M]. rewrite (Permutation_length P). apply (Hg group (nth_error_In _ _ Egr)). }
    assert (Hres : forall kc, In kc final -> exists c, substitute cost (snd kc) = Ret c /\ In c res).
    { clearbody final. clear -Hrun. intros kc I. apply (in_map snd) in I. revert res Hrun. induction (map snd final) as [|x l IH]; intros res Hrun; [destruct I|]. cbn [map_out] in Hrun.
      destruct (substitute cost x) as [c| |] eqn:Ex; try discriminate. cbn [bind] in Hrun. destruct (map_out (substitute cost) l) as [r| |] eqn:El; try discriminate. cbn [bind] in Hrun. injection Hrun as <-.
      destruct I as [->|I]; [exists c; split; [exact Ex | left; reflexivity]|]. destruct (IH I r eq_refl) as (c' & E1 & E2). exists c'. split; [exact E1 | right; exact E2]. }
    exists kept. split; [intros kc I; apply Hkept in I; apply I|]. split; [intros L kc I; apply Hkept; split; [exact I | apply Hfew; assumption]|].
    split; [intros kc I N o Io; apply (Hout kc I); [intros X; apply N, Hkept; auto | exact Io]|].
    split.
    { intros kc I. apply Hres. apply Hk2 in I as I2. destruct kc as [k c]. apply fold_dset_keeps; [|exact I2]. intros X. apply in_map_iff in X. destruct X as ([pids c'] & X1 & X2). cbn [fst] in X1. subst pids.
      apply Hgr in X2. destruct X2 as [X2 _]. apply Hkept in I. destruct (Hshape (k, c) (proj1 I)) as (a & b & Eab & _). cbn [fst] in Eab. subst k. cbn in X2. lia. }
    intros C NC L3 Hall Hmax.
    assert (HC : maximal_clique (nb_in g) (map fst g) C).
    { assert (Hcl : forall u v, In u C -> In v C -> u <> v -> adjacent (nb_in g) u v).
      { intros u v Iu Iv N. apply Hadj. destruct (Hall u v Iu Iv N) as (kc & Ik & Ek). destruct Ek as [<- | <-]; [left | right]; apply Hsel; eauto. }
      split; [split; [|exact Hcl]|].
      - intros u Iu. assert (Ho : exists v, In v C /\ u <> v).
        { destruct C as [|x [|y C']]; cbn [length] in L3; try lia. inversion NC as [|? ? N1 _]; subst. destruct (Nat.eq_dec u x) as [->|Nu]; [exists y; split; [right; left; reflexivity | intros ->; apply N1; left; reflexivity] | exists x; split; [left; reflexivity | exact Nu]]. }
        destruct Ho as (v & Iv & N). specialize (Hcl u v Iu Iv N). apply G2 in Hcl. apply G3. destruct Hcl as [[]|(k & I & X)]. right. exists k. split; [exact I | tauto].
      - intros v _ Hv. destruct (in_dec Nat.eq_dec v C) as [I|N]; [exact I|]. exfalso. destruct (Hmax v N) as (i & Ii & Hno). specialize (Hv i Ii). apply Hadj in Hv.
        destruct Hv as [Hv|Hv]; apply Hsel in Hv; destruct Hv as (kc & Ik & Ek); destruct (Hno kc Ik); contradiction. }
    destruct (Hgc C NC HC L3) as (group & Ig & Hsame). apply In_nth_error in Ig. destruct Ig as (n & En). destruct (Forall2_nth _ _ _ Fr n group En) as (o & Eo & pids & c & Ho & P & M & pt & ct & P2 & M2 & T & Cc).
    assert (PC : Permutation group C). { apply NoDup_Permutation; [apply (Hg group (nth_error_In _ _ En)) | exact NC | intros x; split; apply Hsame]. }
    exists pids, c. split; [exact (Permutation_trans P PC)|]. split; [exact M|]. split; [exists pt, ct; split; [exact (Permutation_trans P2 PC)|]; auto|].
    intros Hq. rewrite Hq in Ho. subst o. apply (Hres (pids, c)).
    assert (Ik : In (pids, c) (kept_pairs gr)) by (unfold kept_pairs; apply in_flat_map; exists (Some (pids, c)); split; [apply (nth_error_In _ _ Eo) | left; reflexivity]).
    unfold final. assert (Hval : forall c', In (pids, c') (kept_pairs gr) -> c' = c) by (intros c' X; apply Hgr in X; destruct X as [_ X]; congruence).
    clear -Ik Hval. revert keep2. induction (kept_pairs gr) as [|[k v] l IH]; intros d; [destruct Ik|]. cbn [fold_left fst snd].
    destruct (in_dec eq_dec pids (map fst l)) as [I|N].
    - apply in_map_iff in I. destruct I as ([k' c'] & X & I). cbn [fst] in X. subst k'. assert (c' = c) by (apply Hval; right; exact I). subst c'. apply IH; [exact I | intros c' X; apply Hval; right; exact X].
    - apply fold_dset_keeps; [exact N|]. destruct Ik as [[= -> ->]|Ik]; [|exfalso; apply N; exact (in_map fst _ _ Ik)]. apply dget_In. rewrite dget_dset. destruct (eq_dec pids pids); [reflexivity | congruence].
  Qed.
End Run.

(* ------------------------------------------------------------ the claims *)
(* the nodes of a concatenation get different ids *)
Definition fresh_ids (nms : list (ccand nat) -> nat -> nat -> nat) : Prop :=
  forall cs, (forall c, In c cs -> NoDup (kid_ids c)) -> NoDup (0 :: given_ids (nms cs) 0 cs).

(* A pair that is kept shares no dated event, and, if neither part has an event twice, costs less,
   with the events it leaves out, than its two parts; the order is the one tried first unless both
   start together and the other order is cheaper.  A pair that saves, also per event, is kept, unless
   both have the same events and start together. *)
Theorem C87_pair : forall rows cands known cost dcosts nms text_lt, fresh_ids nms ->
  forall i j, row_ok rows cands dcosts i -> row_ok rows cands dcosts j -> i <> j ->
  exists o, join rows cands known cost dcosts nms text_lt i j = Ret o /\
    (forall k c, o = Some (k, c) ->
       disjoint rows cands i j /\ on_order rows cands nms k = Ret c /\ alternates rows cands k c /\
       (k = [i; j] \/ (k = [j; i] /\ t0_at rows i = t0_at rows j /\ exists c', on_order rows cands nms [i; j] = Ret c' /\ preferred cost text_lt c c')) /\
       (once rows cands i -> once rows cands j -> saves rows cands known cost dcosts i j c)) /\
    (forall k c qi qj q, once rows cands i -> once rows cands j -> tried rows cands cost nms text_lt i j k c -> disjoint rows cands i j ->
       known (cid_at rows i) = Some qi -> known (cid_at rows j) = Some qj -> cost c = Some q ->
       (q + alone dcosts (left_out rows cands i j c) < qi + qj)%Q ->
       (q / inject_Z (Z.of_nat (length (dated c))) < (qi + qj) / inject_Z (Z.of_nat (length (dated (cnd rows cands i)) + length (dated (cnd rows cands j)))))%Q ->
       o = Some (k, c)).
Proof.
  intros rows cands known cost dcosts nms text_lt Hids i j Oi Oj Nij. destruct (pair_spec rows cands known cost dcosts nms text_lt Hids i j Oi Oj Nij) as (o & E & H1 & H2).
  exists o. split; [exact E|]. split; [|exact H2]. intros k c Eo. destruct (H1 k c Eo) as (D & M & K & Sv). split; [exact D|]. split; [exact M|]. split; [|split; [exact K | exact Sv]].
  assert (Hk : k = [i; j] \/ k = [j; i]) by (destruct K as [X|(X & _)]; auto).
  destruct (on_order_ok rows cands dcosts nms Hids k) as (c' & Ec & A).
  - destruct Hk as [-> | ->]; discriminate.
  - destruct Hk as [-> | ->]; (constructor; [assumption | constructor; [assumption | constructor]]).
  - rewrite M in Ec. injection Ec as <-. exact A.
Qed.

(* the search for pairs, with the rows in the order of the pool *)
Definition search rows cands known cost dcosts new_num nms text_lt sorted :=
  pairs rows cands known cost dcosts new_num nms text_lt (S (length sorted)) sorted
    (if length (filter (is_new rows new_num) sorted) <? 500 then Some (filter (is_new rows new_num) sorted) else None) [] [].

(* The search for pairs ends, and what it keeps are comparable pairs that pass.  A comparable pair
   that passes is kept, unless the candidate of one of its rows was already combined from an earlier
   row, or its first row is the last new row that was not (which is only so with less than 500 new
   rows). *)
Theorem C87_pairs : forall rows cands known cost dcosts new_num nms text_lt sorted, fresh_ids nms -> pool_ok rows cands dcosts sorted ->
  filter (is_new rows new_num) sorted <> [] ->
  exists keep seen, search rows cands known cost dcosts new_num nms text_lt sorted = Ret (keep, seen) /\ NoDup (map fst keep) /\
    (forall kc, In kc keep -> exists i j, before sorted i j /\ comparable rows new_num i j /\ join rows cands known cost dcosts nms text_lt i j = Ret (Some kc)) /\
    (forall i j kc, before sorted i j -> comparable rows new_num i j -> join rows cands known cost dcosts nms text_lt i j = Ret (Some kc) ->
       In kc keep \/
       (exists i' j' kc', before sorted i' i /\ (cid_at rows i' = cid_at rows i \/ cid_at rows i' = cid_at rows j) /\
          before sorted i' j' /\ comparable rows new_num i' j' /\ join rows cands known cost dcosts nms text_lt i' j' = Ret (Some kc') /\ In kc' keep) \/
       (length (filter (is_new rows new_num) sorted) < 500 /\ is_new rows new_num i = true /\
          forall x, before sorted i x -> is_new rows new_num x = true -> taken rows cands known cost dcosts new_num nms text_lt keep sorted i x)).
Proof.
  intros rows cands known cost dcosts new_num nms text_lt sorted Hids Hpool Hn. unfold search.
  destruct (pairs_spec rows cands known cost dcosts new_num nms text_lt sorted (try_ok rows cands known cost dcosts nms text_lt sorted Hpool Hids) (S (length sorted)) sorted
      (if length (filter (is_new rows new_num) sorted) <? 500 then Some (filter (is_new rows new_num) sorted) else None) [] []) as (added & seen & E & _ & H2 & _ & _ & H3 & H4); auto.
  - apply (po_order _ _ _ _ Hpool).
  - apply (po_once _ _ _ _ Hpool).
  - apply incl_refl.
  - destruct (_ <? _); auto.
  - intros X. destruct (_ <? _); [injection X as X; contradiction | discriminate].
  - intros kc [].
  - constructor.
  - intros x [].
  - exists added, seen. cbn [app] in *. split; [exact E|]. split; [exact H2|]. split; [exact H3|]. intros i j kc B C T.
    destruct (H4 i j kc B C T) as [X|[X|[X|(X1 & X2 & X3)]]].
    + left. exact X.
    + right. left. destruct X as (i' & j' & kc' & X1 & X2 & X). exists i', j', kc'. tauto.
    + right. left. destruct X as (i' & j' & kc' & X1 & X2 & X). exists i', j', kc'. tauto.
    + right. right. split; [destruct (Nat.ltb_spec (length (filter (is_new rows new_num) sorted)) 500) as [L|L]; [exact L | congruence]|]. auto.
Qed.

Theorem C87_horizontal : forall rows cands known cost dcosts new_num nms text_lt iter sorted, fresh_ids nms -> (forall l, Permutation (iter l) l) -> pool_ok rows cands dcosts sorted ->
  forall fresh, exists res, run_horizontal rows cands known cost dcosts new_num nms text_lt iter (S (length sorted)) fresh sorted = Ret res /\
    (fresh = false \/ filter (is_new rows new_num) sorted = [] -> res = []) /\
    forall c, In c res -> exists pids c0,
      joined rows cands new_num sorted pids c0 /\
      (length pids = 2 -> exists i j, (pids = [i; j] \/ pids = [j; i]) /\ (once rows cands i -> once rows cands j -> saves rows cands known cost dcosts i j c0)) /\
      shaped c /\ full c /\
      ((forall i, In i pids -> sound (cnd rows cands i)) -> (forall i, In i (removelast pids) -> length (kids_of (cnd rows cands i)) = 1) -> sound c) /\
      Permutation (dated c) (dated c0) /\ (exists t, cc_P c = Patt t /\ NoDup (node_ids t)) /\
      ((forall i, In i pids -> once rows cands i) -> NoDup (dated c)) /\ incl (dated c) (concat (map (fun i => dated (cnd rows cands i)) pids)) /\
      ((forall x, cost x <> None) -> exists q q0, cost c = Some q /\ cost c0 = Some q0 /\ (q <= q0)%Q) /\
      on_order rows cands nms pids = Ret c0 /\ substitute cost c0 = Ret c.
Proof. intros rows cands known cost dcosts new_num nms text_lt iter sorted Hids Hiter Hpool. apply horizontal_spec; assumption. Qed.

Theorem C87_selected : forall rows cands known cost dcosts new_num nms text_lt iter sorted, fresh_ids nms -> (forall l, Permutation (iter l) l) -> pool_ok rows cands dcosts sorted ->
  forall keep seen res, filter (is_new rows new_num) sorted <> [] ->
    search rows cands known cost dcosts new_num nms text_lt sorted = Ret (keep, seen) ->
    run_horizontal rows cands known cost dcosts new_num nms text_lt iter (S (length sorted)) true sorted = Ret res ->
    exists kept, incl kept keep /\ (length keep <= 5 -> incl keep kept) /\
      (forall kc, In kc keep -> ~ In kc kept -> forall o, In o (dated (snd kc)) -> 5 < count_occ eq_dec (concat (map (fun kc => dated (snd kc)) kept)) o) /\
      (forall kc, In kc kept -> exists c, substitute cost (snd kc) = Ret c /\ In c res) /\
      (forall C, NoDup C -> 3 <= length C ->
         (forall i j, In i C -> In j C -> i <> j -> exists kc, In kc kept /\ (fst kc = [i; j] \/ fst kc = [j; i])) ->
         (forall x, ~ In x C -> exists i, In i C /\ forall kc, In kc kept -> fst kc <> [i; x] /\ fst kc <> [x; i]) ->
         exists pids c0, Permutation pids C /\ on_order rows cands nms pids = Ret c0 /\
           (exists pt ct, Permutation pt C /\ on_order rows cands nms pt = Ret ct /\ (forall i j, before pt i j -> (t0_at rows i <= t0_at rows j)%Z) /\ (c0 = ct \/ qlt_o (cost c0) (cost ct) = true)) /\
           (qlt_o (ratio_of cost c0) (parts_ratio rows known seen (map (cnd rows cands) seen)) = true -> exists c, substitute cost c0 = Ret c /\ In c res)).
Proof. intros rows cands known cost dcosts new_num nms text_lt iter sorted Hids Hiter Hpool. apply (selected_spec rows cands known cost dcosts new_num nms text_lt iter sorted Hpool Hids Hiter). Qed.

(* ------------------------------------------------------------ cases *)
Definition demo_ids (cs : list (ccand nat)) (ci n : nat) : nat := S (Cantor.to_nat (ci, n)).
Lemma demo_ids_fresh : fresh_ids demo_ids.
Proof.
  intros cs H. constructor.
  - assert (G : forall k l, ~ In 0 (given_ids (demo_ids cs) k l)); [|apply G]. intros k l. revert k. induction l as [|c l IH]; intros k; cbn [given_ids]; [intros []|]. rewrite in_app_iff, in_map_iff. intros [(n & E & _)|I]; [discriminate | exact (IH _ I)].
  - assert (G : forall l k, (forall c, In c l -> NoDup (kid_ids c)) -> NoDup (given_ids (demo_ids cs) k l) /\ forall x, In x (given_ids (demo_ids cs) k l) -> exists ci n, k <= ci /\ x = demo_ids cs ci n); [|apply (G cs 0 H)].
    clear H. induction l as [|c l IH]; intros k H; cbn [given_ids]; [split; [constructor | intros x []]|]. destruct (IH (S k)) as [I1 I2]; [intros c' I; apply H; right; exact I|]. split.
    + apply NoDup_app_intro; [|exact I1|].
      * apply FinFun.Injective_map_NoDup; [|apply H; left; reflexivity]. intros a b E. apply Nat.succ_inj, Cantor.to_nat_inj in E. congruence.
      * intros x I J. apply in_map_iff in I. destruct I as (n & <- & _). destruct (I2 _ J) as (ci & m & L & E). apply Nat.succ_inj, Cantor.to_nat_inj in E. injection E as E1 E2. lia.
    + intros x I. apply in_app_or in I. destruct I as [I|I]; [apply in_map_iff in I; destruct I as (n & <- & _); exists k, n; auto|]. destruct (I2 x I) as (ci & n & L & E). exists ci, n. split; [lia | exact E].
Qed.
(* event e at t, t + 10, t + 20, as candidate e of the pool *)
Definition demo_cycle (e : nat) (t : Z) : ccand nat := {| cc_P := Simple e 10; cc_O := [t; t + 10; t + 20]%Z; cc_E := [0; 0]%Z |}.
Definition demo_row (e : nat) (t : Z) (new : nat) : row := {| r_t0 := t; r_p := 10; r_r := 3; r_off := 0; r_cum := 0; r_new := new; r_cid := e |}.
Definition demo_rows (new : nat -> nat) (n : nat) : list row := map (fun e => demo_row e (Z.of_nat e) (new e)) (List.seq 0 n).
Definition demo_cands (n : nat) : dict nat (ccand nat) := map (fun e => (e, demo_cycle e (Z.of_nat e))) (List.seq 0 n).
Definition demo_dcosts : dict nat Q := map (fun e => (e, 5%Q)) (List.seq 0 10).
Lemma demo_shaped e t : shaped (demo_cycle e t).
Proof. constructor; [cbn; constructor; [lia | do 2 eexists; reflexivity | repeat constructor] | do 4 eexists; reflexivity | reflexivity]. Qed.
Lemma demo_nth new n i : i < n -> nth i (demo_rows new n) no_row = demo_row i (Z.of_nat i) (new i).
Proof.
  intros L. unfold demo_rows. rewrite (nth_indep _ no_row (demo_row 0 (Z.of_nat 0) (new 0))) by (rewrite map_length, seq_length; exact L).
  rewrite (map_nth (fun e => demo_row e (Z.of_nat e) (new e))), seq_nth by exact L. reflexivity.
Qed.
Lemma demo_get n i : i < n -> dget (demo_cands n) i = Some (demo_cycle i (Z.of_nat i)).
Proof.
  intros L. apply In_dget.
  - unfold demo_cands, dkeys. rewrite map_map. cbn [fst]. rewrite map_id. apply seq_NoDup.
  - unfold demo_cands. apply in_map_iff. exists i. split; [reflexivity | apply in_seq; lia].
Qed.
Lemma demo_pool new n : n <= 10 -> pool_ok (demo_rows new n) (demo_cands n) demo_dcosts (List.seq 0 n).
Proof.
  intros L. constructor; [|apply seq_NoDup|].
  - unfold in_time_order. assert (G : forall m k, k + m = n -> StronglySorted (fun a b => (t0_at (demo_rows new n) a <= t0_at (demo_rows new n) b)%Z) (List.seq k m)); [|apply G; reflexivity].
    induction m as [|m IH]; intros k E; cbn [List.seq]; constructor; [apply IH; lia|]. apply Forall_forall. intros j I. apply in_seq in I. unfold t0_at, row_at. rewrite !demo_nth by lia. cbn. lia.
  - intros i I. apply in_seq in I. split; [unfold demo_rows; rewrite map_length, seq_length; lia|].
    assert (E : cnd (demo_rows new n) (demo_cands n) i = demo_cycle i (Z.of_nat i)) by (unfold cnd, cid_at, row_at; rewrite demo_nth by lia; cbn [r_cid demo_row]; rewrite demo_get by lia; reflexivity).
    constructor; rewrite ?E; unfold cid_at, row_at; rewrite ?demo_nth by lia.
    + cbn [r_cid demo_row]. apply demo_get. lia.
    + apply demo_shaped.
    + reflexivity.
    + cbn. repeat constructor; intros [].
    + reflexivity.
    + cbn. lia.
    + intros o Io. cbn in Io. assert (Eo : snd o = i) by (repeat (destruct Io as [<-|Io]; [reflexivity|]); destruct Io). rewrite Eo.
      rewrite (In_dget demo_dcosts i 5%Q); [discriminate | vm_compute; repeat (constructor; [cbn; intuition discriminate|]); constructor|].
      unfold demo_dcosts. apply in_map_iff. exists i. split; [reflexivity | apply in_seq; lia].
Qed.

(* One unit of cost per distinct event, ten for a candidate of the pool *)
Definition demo_cost (c : ccand nat) : option Q := Some (inject_Z (Z.of_nat (length (event_tuple c)))).
Definition demo_run (new : nat -> nat) (n : nat) : outcome (list (ccand nat)) :=
  run_horizontal (demo_rows new n) (demo_cands n) (fun _ => Some 10%Q) demo_cost demo_dcosts 1 demo_ids idx_leb (fun l => l) (S n) true (List.seq 0 n).
(* The hypotheses are met: three cycles of the pool, all new, give the three pairs and the three
   together. *)
Example C87_case :
  match demo_run (fun _ => 1) 3 with Ret res => Some (map (fun c => (map fst (dated c), map snd (dated c))) res) | _ => None end =
    Some [([0; 1; 10; 11; 20; 21]%Z, [0; 1; 0; 1; 0; 1]); ([0; 2; 10; 12; 20; 22]%Z, [0; 2; 0; 2; 0; 2]); ([1; 2; 11; 12; 21; 22]%Z, [1; 2; 1; 2; 1; 2]);
          ([0; 1; 2; 10; 11; 12; 20; 21; 22]%Z, [0; 1; 2; 0; 1; 2; 0; 1; 2])] /\
  fresh_ids demo_ids /\ (forall l : list nat, Permutation ((fun l => l) l) l) /\ pool_ok (demo_rows (fun _ => 1) 3) (demo_cands 3) demo_dcosts (List.seq 0 3) /\
  Forall (once (demo_rows (fun _ => 1) 3) (demo_cands 3)) (List.seq 0 3).
Proof.
  split; [vm_compute; reflexivity|]. split; [exact demo_ids_fresh|]. split; [intros l; apply Permutation_refl|]. split; [apply demo_pool; lia|].
  repeat (constructor; [unfold once; vm_compute; repeat (constructor; [cbn; intuition discriminate|]); constructor|]). constructor.
Qed.

(* The code says of a new Pa that it is compared "to both new and old", but the last new row is never
   compared: below, cycle 0 is new and cycle 1 is old, the pair is comparable and saves, and nothing
   is combined.  With cycle 1 new as well the pair is found. *)
Theorem C87_last_refuted : exists rows cands known cost dcosts new_num nms text_lt iter sorted,
  fresh_ids nms /\ (forall l, Permutation (iter l) l) /\ pool_ok rows cands dcosts sorted /\
  exists i j kc, before sorted i j /\ is_new rows new_num i = true /\ comparable rows new_num i j /\
    join rows cands known cost dcosts nms text_lt i j = Ret (Some kc) /\
    run_horizontal rows cands known cost dcosts new_num nms text_lt iter (S (length sorted)) true sorted = Ret [].
Proof.
  exists (demo_rows (fun e => 1 - e) 2), (demo_cands 2), (fun _ => Some 10%Q), demo_cost, demo_dcosts, 1, demo_ids, idx_leb, (fun l => l), (List.seq 0 2).
  split; [exact demo_ids_fresh|]. split; [intros l; apply Permutation_refl|]. split; [apply demo_pool; lia|].
  exists 0, 1. destruct (join (demo_rows (fun e => 1 - e) 2) (demo_cands 2) (fun _ => Some 10%Q) demo_cost demo_dcosts demo_ids idx_leb 0 1) as [[kc|]|e|] eqn:E; vm_compute in E; try discriminate E.
  exists kc. split; [exists [], [], []; reflexivity|]. split; [reflexivity|].
  split; [split; [left; reflexivity|]; split; [discriminate|]; split; [cbn; lia|]; split; cbn; lia|].
  split; [reflexivity | vm_compute; reflexivity].
Qed.

(* The bound for a group of three or more is not the cost of its own parts, but of the two candidates
   compared last: below, the three cycles 0, 1 and 2 cost 30 together; what is made of them costs 100
   and is returned, because cycles 2 and 3 were compared last and are dear. *)
Definition odd_cost (c : ccand nat) : option Q := if mem 3 (event_tuple c) then Some 1000000%Q else if 3 <=? length (event_tuple c) then Some 100%Q else Some 1%Q.
Definition odd_known (cid : nat) : option Q := if cid =? 3 then Some 10000%Q else Some 10%Q.
Theorem C87_group_refuted : exists rows cands known cost dcosts new_num nms text_lt iter sorted,
  fresh_ids nms /\ (forall l, Permutation (iter l) l) /\ pool_ok rows cands dcosts sorted /\
  exists res c q pids qs, run_horizontal rows cands known cost dcosts new_num nms text_lt iter (S (length sorted)) true sorted = Ret res /\
    In c res /\ cost c = Some q /\ on_order rows cands nms pids = Ret c /\
    (forall o, In o (dated c) <-> In o (concat (map (fun i => dated (cnd rows cands i)) pids))) /\
    map (fun i => known (cid_at rows i)) pids = map Some qs /\ (fold_right Qplus 0 qs < q)%Q.
Proof.
  exists (demo_rows (fun e => 1) 4), (demo_cands 4), odd_known, odd_cost, demo_dcosts, 1, demo_ids, idx_leb, (fun l => l), (List.seq 0 4).
  split; [exact demo_ids_fresh|]. split; [intros l; apply Permutation_refl|]. split; [apply demo_pool; lia|].
  eexists. eexists. exists 100%Q, [0; 1; 2], [10%Q; 10%Q; 10%Q].
  split; [vm_compute; reflexivity|]. split; [right; right; right; left; reflexivity|]. split; [reflexivity|]. split; [vm_compute; reflexivity|].
  split; [intros o; cbn; tauto|]. split; [reflexivity | reflexivity].
Qed.
Print Assumptions C87_pair.
Print Assumptions C87_pairs.
Print Assumptions C87_horizontal.
Print Assumptions C87_selected.
Print Assumptions C87_last_refuted.
Print Assumptions C87_group_refuted.
