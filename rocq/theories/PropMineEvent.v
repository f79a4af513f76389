(* C82: the initial candidates of one event. *)
From Verif Require Import Prelude CheckModel LCMModel SplitModel PeriodModel PropPeriod TreeModel SegModel PropSeg CoverModel PropCover PropTopK CyclesModel PropCycles FoldModel PropFold MineModel.
From Coq Require Import QArith Lqa.
Local Open Scope Z_scope.

(* ------------------------------------------------------------ specification *)
(* two cycles are told apart by the first occurrence, the number of occurrences and the period *)
Definition same_start (c d : cycle) : Prop :=
  hd 0 (y_occs c) = hd 0 (y_occs d) /\ length (y_occs c) = length (y_occs d) /\ y_p c = y_p d.
Definition comes_before (c d : cycle) : Prop :=
  hd 0 (y_occs c) < hd 0 (y_occs d) \/
  hd 0 (y_occs c) = hd 0 (y_occs d) /\
  ((length (y_occs c) < length (y_occs d))%nat \/ length (y_occs c) = length (y_occs d) /\ y_p c < y_p d).

(* ------------------------------------------------------------ merging *)
Lemma mkey_lt_spec a1 a2 a3 b1 b2 b3 : mkey_lt (a1, a2, a3) (b1, b2, b3) = true <->
  a1 < b1 \/ a1 = b1 /\ ((a2 < b2)%nat \/ a2 = b2 /\ a3 < b3).
Proof.
  unfold mkey_lt. rewrite orb_true_iff, andb_true_iff, orb_true_iff, andb_true_iff, Z.ltb_lt, Z.eqb_eq, Nat.ltb_lt, Nat.eqb_eq, Z.ltb_lt. reflexivity.
Qed.
Lemma key_before c d : mkey_lt (key_of c) (key_of d) = true <-> comes_before c d.
Proof. apply mkey_lt_spec. Qed.
Lemma key_same c d : key_of c = key_of d <-> same_start c d.
Proof. unfold key_of, same_start. split; [intros E; injection E; auto | intros (-> & -> & ->); reflexivity]. Qed.
Lemma mkey_lt_trans a b c : mkey_lt a b = true -> mkey_lt b c = true -> mkey_lt a c = true.
Proof. destruct a as [[a1 a2] a3], b as [[b1 b2] b3], c as [[c1 c2] c3]. rewrite !mkey_lt_spec. lia. Qed.
Lemma mkey_lt_irrefl a : mkey_lt a a <> true.
Proof. destruct a as [[a1 a2] a3]. rewrite mkey_lt_spec. lia. Qed.
Lemma mkey_total a b : mkey_lt a b = true \/ a = b \/ mkey_lt b a = true.
Proof.
  destruct a as [[a1 a2] a3], b as [[b1 b2] b3]. rewrite !mkey_lt_spec.
  destruct (Z.lt_trichotomy a1 b1) as [H|[->|H]]; [left; lia | | right; right; lia].
  destruct (Nat.lt_trichotomy a2 b2) as [H|[->|H]]; [left; lia | | right; right; lia].
  destruct (Z.lt_trichotomy a3 b3) as [H|[->|H]]; [left; lia | right; left; reflexivity | right; right; lia].
Qed.
Definition tkey (t : tagged) : mkey := fst (fst (fst t)).
Lemma tag_leb_total x y : tag_leb x y = true \/ tag_leb y x = true.
Proof.
  destruct x as [[[ka ia] ca] x], y as [[[kb ib] cb] y]. unfold tag_leb.
  rewrite !orb_true_iff, !andb_true_iff, !orb_true_iff, !andb_true_iff, !Nat.ltb_lt, !Nat.eqb_eq, !Nat.leb_le, !eqd_true.
  destruct (mkey_total ka kb) as [H|[->|H]]; [auto | | auto].
  assert (Ho : ((ia < ib)%nat \/ ia = ib /\ (ca <= cb)%nat) \/ ((ib < ia)%nat \/ ib = ia /\ (cb <= ca)%nat)) by lia. intuition.
Qed.
Lemma tag_leb_trans x y z : tag_leb x y = true -> tag_leb y z = true -> tag_leb x z = true.
Proof.
  destruct x as [[[ka ia] ca] x], y as [[[kb ib] cb] y], z as [[[kc ic] cc] z]. unfold tag_leb.
  rewrite !orb_true_iff, !andb_true_iff, !orb_true_iff, !andb_true_iff, !Nat.ltb_lt, !Nat.eqb_eq, !Nat.leb_le, !eqd_true.
  intros [H1|[-> H1]] [H2|[-> H2]]; [left; eapply mkey_lt_trans; eassumption | left; exact H1 | left; exact H2 | right; split; [reflexivity | lia]].
Qed.
Lemma tag_leb_key x y : tag_leb x y = true -> tkey x = tkey y \/ mkey_lt (tkey x) (tkey y) = true.
Proof.
  destruct x as [[[ka ia] ca] x], y as [[[kb ib] cb] y]. unfold tag_leb, tkey. cbn [fst].
  rewrite orb_true_iff, andb_true_iff, eqd_true. intuition.
Qed.
Lemma qlt_spec a b : qlt a b = true <-> (a < b)%Q.
Proof.
  unfold qlt. rewrite negb_true_iff. split; [apply Qle_bool_false|].
  intros Hl. destruct (Qle_bool b a) eqn:E; [|reflexivity]. apply Qle_bool_iff in E. lra.
Qed.
Lemma merge_from_spec l : forall k c, key_of c = k -> (forall t, In t l -> tkey t = key_of (snd t)) ->
  StronglySorted (fun s t => tkey s = tkey t \/ mkey_lt (tkey s) (tkey t) = true) l ->
  Forall (fun t => k = tkey t \/ mkey_lt k (tkey t) = true) l ->
  let r := merge_from k c l in
  StronglySorted comes_before r /\ incl r (c :: map snd l) /\ Forall (fun d => key_of d = k \/ mkey_lt k (key_of d) = true) r /\
  (forall x, In x (c :: map snd l) -> exists d, In d r /\ key_of d = key_of x /\ (y_cost d <= y_cost x)%Q).
Proof.
  induction l as [|[[[k' i] ci] c'] l IH]; intros k c Hk Ht Hs Hf; cbn [merge_from map snd].
  - repeat split; [repeat constructor | apply incl_refl | constructor; [left; exact Hk | constructor]|].
    intros x [<-|[]]. exists c. repeat split; [left; reflexivity | lra].
  - inversion Hs as [|? ? Hs' Hx]; subst. inversion Hf as [|? ? Hf1 Hf2]; subst.
    assert (Hk' : key_of c' = k') by (symmetry; apply (Ht (k', i, ci, c')); left; reflexivity).
    assert (Ht' : forall t, In t l -> tkey t = key_of (snd t)) by (intros t It; apply Ht; right; exact It).
    unfold tkey at 1 in Hx. cbn [fst] in Hx. unfold tkey at 1 2 in Hf1. cbn [fst] in Hf1.
    destruct (eqd k' (key_of c)) eqn:Ek.
    + apply (proj1 (eqd_true _ _)) in Ek. set (c1 := if qlt (y_cost c') (y_cost c) then c' else c).
      assert (H1 : key_of c1 = k' /\ (y_cost c1 <= y_cost c)%Q /\ (y_cost c1 <= y_cost c')%Q /\ (c1 = c \/ c1 = c')).
      { unfold c1. destruct (qlt (y_cost c') (y_cost c)) eqn:Eq; (split; [first [exact Hk' | symmetry; exact Ek]|]).
        - apply qlt_spec in Eq. repeat split; [lra | lra | auto].
        - assert (~ (y_cost c' < y_cost c)%Q) by (rewrite <- qlt_spec; congruence). repeat split; [lra | lra | auto]. }
      destruct H1 as (K1 & L1 & L2 & E1). destruct (IH k' c1 K1 Ht' Hs' Hx) as (R1 & R2 & R3 & R4). cbn zeta. rewrite <- Ek.
      split; [exact R1|]. split; [|split; [exact R3|]].
      * intros d Id. destruct (R2 d Id) as [<-|Id']; [destruct E1 as [-> | ->]; cbn; auto | right; right; exact Id'].
      * intros x Ix. destruct (R4 c1 (or_introl eq_refl)) as (d & D1 & D2 & D3).
        destruct Ix as [<-|[<-|Ix]]; [exists d; repeat split; [exact D1 | congruence | lra] | exists d; repeat split; [exact D1 | congruence | lra] | apply R4; right; exact Ix].
    + apply (proj1 (eqd_false _ _)) in Ek. assert (Hlt : mkey_lt (key_of c) k' = true) by (destruct Hf1 as [E|E]; [congruence | exact E]).
      destruct (IH k' c' Hk' Ht' Hs' Hx) as (R1 & R2 & R3 & R4). cbn zeta.
      assert (R3' : Forall (fun d => mkey_lt (key_of c) (key_of d) = true) (merge_from k' c' l)).
      { eapply Forall_impl; [|exact R3]. intros d [E|E]; [rewrite E; exact Hlt | eapply mkey_lt_trans; eassumption]. }
      split; [|split; [|split]].
      * constructor; [exact R1|]. eapply Forall_impl; [|exact R3']. intros d E. apply key_before, E.
      * intros d [<-|Id]; [left; reflexivity | right; apply R2, Id].
      * constructor; [left; reflexivity|]. eapply Forall_impl; [|exact R3']. intros d E. right. exact E.
      * intros x [<-|Ix]; [exists c; repeat split; [left; reflexivity | lra]|].
        destruct (R4 x Ix) as (d & D1 & D2). exists d. split; [right; exact D1 | exact D2].
Qed.
Lemma SS_impl {X} (R S : X -> X -> Prop) l : (forall x y, R x y -> S x y) -> StronglySorted R l -> StronglySorted S l.
Proof. intros H. induction 1 as [|x l Hs IH Hx]; constructor; [exact IH | eapply Forall_impl; [|exact Hx]; auto]. Qed.
Lemma map_snd_combine_seq {X} (l : list X) s : map snd (combine (List.seq s (length l)) l) = l.
Proof. revert s. induction l as [|x l IH]; intros s; cbn [length List.seq combine map snd]; [reflexivity | rewrite IH; reflexivity]. Qed.
Lemma tag_list_snd ci cs : map snd (tag_list ci cs) = cs.
Proof. unfold tag_list. rewrite map_map. apply map_snd_combine_seq. Qed.
Lemma tag_all_snd csl : map snd (tag_all csl) = concat csl.
Proof.
  unfold tag_all. rewrite concat_map, map_map.
  rewrite (map_ext (fun x : nat * list cycle => map snd (tag_list (fst x) (snd x))) snd) by (intros x; apply tag_list_snd).
  rewrite map_snd_combine_seq. reflexivity.
Qed.
Lemma tag_all_key csl t : In t (tag_all csl) -> tkey t = key_of (snd t).
Proof.
  unfold tag_all, tag_list. intros I. apply in_concat in I. destruct I as (l & I1 & I2). apply in_map_iff in I1. destruct I1 as (x & <- & _).
  apply in_map_iff in I2. destruct I2 as (y & <- & _). reflexivity.
Qed.

(* C82: the merged list has one cycle for every (first occurrence, number of occurrences, period) of
   the input, in this order, and it is the cheapest of them. *)
Theorem C82_merge : forall csl, (forall cs c, In cs csl -> In c cs -> y_occs c <> []) ->
  exists r, merge_cycles csl = Ret r /\ StronglySorted comes_before r /\ incl r (concat csl) /\
    (forall c, In c (concat csl) -> exists d, In d r /\ same_start d c /\ (y_cost d <= y_cost c)%Q).
Proof.
  intros csl Hne. unfold merge_cycles.
  assert (existsb (existsb (fun c => match y_occs c with [] => true | _ :: _ => false end)) csl = false) as ->.
  { destruct (existsb _ csl) eqn:E; [|reflexivity]. apply existsb_exists in E. destruct E as (cs & I1 & E). apply existsb_exists in E. destruct E as (c & I2 & E).
    specialize (Hne cs c I1 I2). destruct (y_occs c); [congruence | discriminate]. }
  eexists. split; [reflexivity|].
  assert (Hp : Permutation (map snd (sort tag_leb (tag_all csl))) (concat csl)) by (rewrite <- tag_all_snd; apply Permutation_map, sort_perm).
  assert (Hk : forall t, In t (sort tag_leb (tag_all csl)) -> tkey t = key_of (snd t)) by (intros t It; apply In_sort in It; eapply tag_all_key, It).
  assert (Hs : StronglySorted (fun s t => tkey s = tkey t \/ mkey_lt (tkey s) (tkey t) = true) (sort tag_leb (tag_all csl))).
  { eapply SS_impl; [|apply sort_sorted; [apply tag_leb_total | apply tag_leb_trans]]. intros x y. apply tag_leb_key. }
  destruct (sort tag_leb (tag_all csl)) as [|[[[k i] ci] c] l].
  - cbn [map] in Hp. apply Permutation_nil in Hp. rewrite Hp. split; [constructor|]. split; [intros x []|]. intros x [].
  - inversion Hs as [|? ? Hs' Hx]; subst. cbn [map snd] in Hp.
    destruct (merge_from_spec l k c) as (R1 & R2 & _ & R4); [symmetry; apply (Hk (k, i, ci, c)); left; reflexivity | intros t It; apply Hk; right; exact It | exact Hs' | exact Hx|].
    split; [exact R1|]. split; [intros d Id; eapply Permutation_in; [exact Hp | apply R2, Id]|].
    intros x Ix. destruct (R4 x) as (d & D1 & D2 & D3); [eapply Permutation_in; [symmetry; exact Hp | exact Ix]|].
    exists d. split; [exact D1|]. split; [apply key_same, D2 | exact D3].
Qed.
Print Assumptions C82_merge.

(* ------------------------------------------------------------ the cycles of the segmentation *)
Lemma sort_map {X Y} (leX : X -> X -> bool) (leY : Y -> Y -> bool) (f : X -> Y) l : (forall x y, leX x y = leY (f x) (f y)) -> map f (sort leX l) = sort leY (map f l).
Proof.
  intros H. assert (Hi : forall x l, map f (insert_left leX x l) = insert_left leY (f x) (map f l)).
  { intros x. induction l0 as [|y l0 IH]; cbn [insert_left map]; [reflexivity|]. rewrite H. destruct (leY _ _); cbn [map]; [reflexivity | rewrite IH; reflexivity]. }
  induction l as [|x l IH]; cbn [sort fold_right map]; [reflexivity|]. unfold sort in *. rewrite Hi, IH. reflexivity.
Qed.
Lemma recover_whole fuel : forall sp a b s, In s (recover fuel sp a b false) -> dget sp s = Some None.
Proof.
  induction fuel as [|f IH]; intros sp a b s; cbn [recover]; [intros []|].
  destruct (dget sp (a, b)) as [[z|]|] eqn:E; [|intros [<-|[]]; exact E | intros []].
  destruct (0 <=? z)%Z; [|intros []]. rewrite in_app_iff. intros [I|I]; eapply IH, I.
Qed.
Lemma table_cost cyc res occs scores sp s : compute_table cyc res occs = Some (scores, sp) ->
  forall a b fuel, In s (recover fuel sp a b false) -> (fst s + 2 <= snd s < length occs)%nat /\ dget scores s = Some (cyc (occs_range occs (fst s) (snd s))).
Proof.
  intros Et a b fuel I. apply recover_whole in I. destruct (table_spec cyc res occs) as ([sc sp'] & E & H1 & H2). rewrite Et in E. injection E as <- <-. cbn [fst snd] in *.
  destruct s as [x y]. assert (B : (x + 2 <= y < length occs)%nat) by (apply H2; congruence). split; [exact B|].
  destruct (H1 x y B) as (v & p & E1 & E2 & _ & _ & _ & E3). rewrite I in E2. injection E2 as <-. subst v. exact E1.
Qed.
Lemma range_block occs p n a b : (b < length (firstn n (skipn p occs)))%nat -> occs_range (firstn n (skipn p occs)) a b = occs_range occs (a + p) (b + p).
Proof.
  intros Hb. unfold occs_range. replace (S (b + p) - (a + p))%nat with (S b - a)%nat by lia.
  assert (Hs : List.seq (a + p) (S b - a) = map (fun i => (i + p)%nat) (List.seq a (S b - a))).
  { clear. generalize (S b - a)%nat. intros k. revert a. induction k as [|k IH]; intros a; cbn [List.seq map]; [reflexivity | f_equal; apply (IH (S a))]. }
  rewrite Hs, map_map. apply map_ext_in. intros i Hi. apply in_seq in Hi. rewrite firstn_length, skipn_length in Hb.
  rewrite <- (firstn_skipn n (skipn p occs)) at 1 || idtac.
  assert (E : nth i (firstn n (skipn p occs)) 0 = nth i (skipn p occs) 0).
  { rewrite <- (firstn_skipn n (skipn p occs)) at 2. rewrite app_nth1; [reflexivity | rewrite firstn_length, skipn_length; lia]. }
  try rewrite firstn_skipn in *. rewrite E. rewrite <- (firstn_skipn p occs) at 2. rewrite app_nth2; rewrite firstn_length_le by lia; [f_equal; lia | lia].
Qed.
Section Dyn.
  Variable cyc : Z -> list Z -> Q.
  Variable one : Q.
  Definition priced_ranges (occs : list Z) (costs : dict (nat * nat) Q) (l : list (nat * nat)) : Prop :=
    forall s v, In s l -> dget costs s = Some v -> v = cyc_of cyc (occs_range occs (fst s) (snd s)).
  Lemma dget_fold_dset (news : list ((nat * nat) * Q)) : forall d s v, dget (fold_left (fun d kv => dset d (fst kv) (snd kv)) news d) s = Some v ->
    In (s, v) news \/ dget d s = Some v.
  Proof.
    induction news as [|[k w] news IH]; intros d s v; cbn [fold_left fst snd]; [auto|]. intros E. apply IH in E. destruct E as [E|E]; [left; right; exact E|].
    rewrite dget_dset in E. destruct (eq_dec s k) as [->|]; [injection E as <-; left; left; reflexivity | right; exact E].
  Qed.
  Lemma blocks_costs_spec occs fuel : forall p splits costs r, blocks (cyc_of cyc) one fuel occs p splits = Some r ->
    (forall s v, dget costs s = Some v -> v = cyc_of cyc (occs_range occs (fst s) (snd s))) ->
    exists costs', blocks_costs cyc one fuel occs p splits costs = Ret (r, costs') /\
      (forall s v, dget costs' s = Some v -> v = cyc_of cyc (occs_range occs (fst s) (snd s))).
  Proof.
    induction fuel as [|f IH]; intros p splits costs r; cbn [blocks blocks_costs]; [discriminate|].
    destruct (p + 50 <? length occs)%nat; [|intros E Hc; injection E as <-; exists costs; split; [reflexivity | exact Hc]].
    set (nb := firstn block_size (skipn p occs)). destruct (compute_table (cyc_of cyc) one nb) as [[scores sp]|] eqn:Et; [|discriminate].
    set (bs := recover (length nb) sp 0 (length nb - 1) false). intros E Hc.
    assert (Hb : forall s, In s bs -> (fst s + 2 <= snd s < length nb)%nat /\ dget scores s = Some (cyc_of cyc (occs_range nb (fst s) (snd s)))).
    { intros s I. eapply table_cost; [exact Et | exact I]. }
    rewrite (map_out_map _ (fun s => ((fst s + p, snd s + p)%nat, cyc_of cyc (occs_range nb (fst s) (snd s))))).
    - cbn [bind]. apply IH; [exact E|]. intros s v Ev. apply dget_fold_dset in Ev. destruct Ev as [I|Ev]; [|apply Hc, Ev].
      apply in_map_iff in I. destruct I as (t & Et' & It). injection Et' as <- <-. cbn [fst snd]. f_equal. apply range_block. apply Hb, It.
    - intros s I. rewrite (proj2 (Hb s I)). reflexivity.
  Qed.
  Lemma splits_costs_spec occs splits : all_splits (cyc_of cyc) one occs = Some splits ->
    exists costs, splits_costs cyc one occs = Ret (splits, costs) /\ priced_ranges occs costs splits.
  Proof.
    unfold all_splits, splits_costs. destruct (2 * block_size <? length occs)%nat.
    - intros E. destruct (blocks_costs_spec occs _ _ _ [] _ E) as (costs & Ec & Hc); [discriminate|]. exists costs. split; [exact Ec|]. intros s v _. apply Hc.
    - destruct (compute_table (cyc_of cyc) one occs) as [[scores sp]|] eqn:Et; [|discriminate]. intros E. injection E as <-. exists scores. split; [reflexivity|].
      intros s v I Ev. destruct (table_cost _ _ _ _ _ s Et _ _ _ I) as [_ E]. congruence.
  Qed.
  Lemma period_3 os : (3 <= length os)%nat -> exists p, compute_period os = Some p.
  Proof. destruct os as [|x [|y os]]; cbn [length]; try lia. intros _. unfold compute_period, period_diffs. cbn [diffs]. eauto. Qed.
  Lemma range_length occs a b : length (occs_range occs a b) = (S b - a)%nat.
  Proof. unfold occs_range. rewrite map_length, seq_length. reflexivity. Qed.

  (* a cycle as it is recorded: at least three occurrences, their median gap as the period and the
     code length as the cost *)
  Definition recorded (c : cycle) : Prop := (3 <= length (y_occs c))%nat /\ compute_period (y_occs c) = Some (y_p c) /\ y_cost c = cyc (y_p c) (y_occs c).
  Lemma dyn_spec occs : exists dyn residual, dyn_cycles cyc one occs = Ret dyn /\ compute_cycles (cyc_of cyc) one occs = Some (map y_occs dyn, residual) /\
    Forall recorded dyn /\ Forall (fun c => exists a b, (a + 2 <= b < length occs)%nat /\ y_occs c = occs_range occs a b) dyn.
  Proof.
    destruct (splits_spec (cyc_of cyc) one occs) as (splits & Es & Ha & Hb & _).
    destruct (splits_costs_spec occs splits Es) as (costs & Ec & Hc).
    unfold dyn_cycles, compute_cycles. rewrite Es, Ec. cbn [bind fst snd].
    set (big := filter (fun s => (1 <? snd s - fst s)%nat) splits).
    assert (Hbig : forall s, In s big -> In s splits /\ (fst s + 2 <= snd s < length occs)%nat).
    { intros s I. apply filter_In in I. destruct I as [I I']. apply Nat.ltb_lt in I'. split; [exact I|]. unfold bounded in Hb. rewrite Forall_forall in Hb. specialize (Hb s I). cbv beta in Hb. lia. }
    set (mk := fun s => {| y_occs := occs_range occs (fst s) (snd s); y_p := match compute_period (occs_range occs (fst s) (snd s)) with Some p => p | None => 0 end;
                           y_cost := cyc_of cyc (occs_range occs (fst s) (snd s)) |}).
    assert (Hper : forall s, In s big -> exists p, compute_period (occs_range occs (fst s) (snd s)) = Some p).
    { intros s I. apply period_3. rewrite range_length. destruct (Hbig s I). lia. }
    assert (Em : map_out (dyn_cycle cyc occs costs) big = Ret (map mk big)).
    { apply map_out_map. intros s I. unfold dyn_cycle, mk. destruct (Hper s I) as [p Ep]. unfold cyc_of. rewrite Ep.
      destruct (dget costs s) as [v|] eqn:Ev; [|reflexivity]. destruct (Hbig s I) as [Is _]. rewrite (Hc s v Is Ev). unfold cyc_of. rewrite Ep. reflexivity. }
    rewrite Em. cbn [bind]. eexists. eexists. split; [reflexivity|]. split; [|split].
    - do 2 f_equal. rewrite (sort_map _ cyc_leb y_occs) by reflexivity. rewrite map_map. reflexivity.
    - rewrite Forall_forall. intros c I. apply In_sort, in_map_iff in I. destruct I as (s & <- & I). unfold recorded, mk. cbn [y_occs y_p y_cost].
      destruct (Hper s I) as [p Ep]. unfold cyc_of. rewrite Ep. rewrite range_length. destruct (Hbig s I). repeat split; lia.
    - rewrite Forall_forall. intros c I. apply In_sort, in_map_iff in I. destruct I as (s & <- & I). exists (fst s), (snd s). split; [apply Hbig, I | reflexivity].
  Qed.
End Dyn.

(* ------------------------------------------------------------ the candidates of one event *)
Lemma chrono_sorted l : chronological l <-> StronglySorted Z.lt l.
Proof.
  split.
  - induction l as [|x l IH]; intros Hc; [constructor|]. constructor.
    + apply IH. intros i j Hij. apply (Hc (S i) (S j)). cbn [length]. lia.
    + rewrite Forall_forall. intros y Iy. apply (In_nth _ _ 0) in Iy. destruct Iy as (k & Hk & <-). apply (Hc 0%nat (S k)). cbn [length]. lia.
  - intros Hs. induction Hs as [|x l Hs IH Hx]; intros i j Hij; cbn [length] in Hij; [lia|]. destruct j as [|j]; [lia|]. rewrite Forall_forall in Hx.
    destruct i as [|i]; cbn [nth]; [apply Hx, nth_In; lia | apply IH; lia].
Qed.
Lemma filter_sorted {X} (R : X -> X -> Prop) f l : StronglySorted R l -> StronglySorted R (filter f l).
Proof.
  induction 1 as [|x l Hs IH Hx]; cbn [filter]; [constructor|]. destruct (f x); [|exact IH]. constructor; [exact IH|].
  rewrite Forall_forall in *. intros y Iy. apply filter_In in Iy. apply Hx, Iy.
Qed.
Lemma sort_lt l : NoDup l -> StronglySorted Z.lt (sort Z.leb l).
Proof.
  intros Hn. assert (Hs : StronglySorted (le_rel Z.leb) (sort Z.leb l)) by (apply sort_sorted; [intros x y; rewrite !Z.leb_le; lia | intros x y z; rewrite !Z.leb_le; lia]).
  apply (NoDup_sort Z.leb) in Hn. revert Hn. induction Hs as [|x r Hs IH Hx]; intros Hn; [constructor|]. inversion Hn as [|? ? Hx' Hn']; subst. constructor; [apply IH, Hn'|].
  rewrite Forall_forall in *. intros y Iy. specialize (Hx y Iy). unfold le_rel in Hx. apply Z.leb_le in Hx. assert (x <> y) by (intros ->; contradiction). lia.
Qed.
Lemma kept_incl occs dyn : incl (kept_occs occs dyn) occs.
Proof.
  unfold kept_occs. destruct (flat_map inner dyn) as [|d l]; [apply incl_refl|]. intros o I. apply In_sort, filter_In in I. apply nodup_In with (decA := eq_dec), I.
Qed.
Lemma kept_chrono occs dyn : chronological occs -> chronological (kept_occs occs dyn).
Proof.
  unfold kept_occs. destruct (flat_map inner dyn) as [|d l]; [auto|]. intros _. apply chrono_sorted, sort_lt, NoDup_filter, NoDup_nodup.
Qed.
Lemma kept_length occs dyn : (length (kept_occs occs dyn) <= length occs)%nat.
Proof.
  unfold kept_occs. destruct (flat_map inner dyn) as [|d l]; [lia|]. rewrite length_sort.
  assert (H := filter_le (fun o => negb (mem o (d :: l))) (nodup eq_dec occs)).
  assert (H' : (length (nodup eq_dec occs) <= length occs)%nat) by (apply NoDup_incl_length; [apply NoDup_nodup | intros x Ix; apply nodup_In in Ix; exact Ix]). lia.
Qed.
(* increasing positions of a list *)
Definition picks (occs os : list Z) : Prop := exists pos, StronglySorted lt pos /\ Forall (fun i => (i < length occs)%nat) pos /\ os = map (fun i => nth i occs 0) pos.
Lemma run_picks small occs pos : regular_run small occs pos -> StronglySorted lt pos /\ Forall (fun i => (i < length occs)%nat) pos.
Proof.
  induction 1 as [h i j (H1 & H2 & _)|h i j l (H1 & H2 & _) R [IH1 IH2]].
  - split; repeat constructor; lia.
  - split; [|constructor; [lia | exact IH2]]. constructor; [exact IH1|]. inversion IH1 as [|? ? Hs Hx]; subst. constructor; [lia|].
    eapply Forall_impl; [|exact Hx]. intros y Hy. cbv beta in *. lia.
Qed.
Lemma picks_incl occs os : picks occs os -> incl os occs.
Proof. intros (pos & _ & Hp & ->) o I. apply in_map_iff in I. destruct I as (i & <- & I). rewrite Forall_forall in Hp. apply nth_In, Hp, I. Qed.
Lemma picks_sorted occs os : chronological occs -> picks occs os -> StronglySorted Z.lt os.
Proof.
  intros Hc (pos & Hs & Hp & ->). induction Hs as [|i pos Hs IH Hx]; cbn [map]; [constructor|]. inversion Hp as [|? ? Hi Hp']; subst. constructor; [apply IH, Hp'|].
  rewrite Forall_forall in *. intros o I. apply in_map_iff in I. destruct I as (j & <- & I). apply Hc. split; [apply Hx, I | apply Hp', I].
Qed.
Lemma seq_sorted a n : StronglySorted lt (List.seq a n).
Proof. revert a. induction n as [|n IH]; intros a; cbn [List.seq]; constructor; [apply IH|]. rewrite Forall_forall. intros y Iy. apply in_seq in Iy. lia. Qed.
Lemma range_picks occs a b : (b < length occs)%nat -> picks occs (occs_range occs a b).
Proof.
  intros Hb. exists (List.seq a (S b - a)). split; [apply seq_sorted|]. split; [|reflexivity]. rewrite Forall_forall. intros i I. apply in_seq in I. lia.
Qed.
Lemma nth_entries alpha (cs : list cycle) : forall s i e, In e (map (fun ic => as_entry alpha (fst ic) (snd ic)) (combine (List.seq s (length cs)) cs)) -> e_id e = (s + i)%nat ->
  (i < length cs)%nat /\ e = as_entry alpha (s + i) (nth i cs no_cycle).
Proof.
  induction cs as [|c cs IH]; intros s i e; cbn [length List.seq combine map In]; [intros []|]. intros [<-|I] Hi.
  - cbn in Hi. assert (i = 0)%nat as -> by lia. split; [cbn; lia|]. rewrite Nat.add_0_r. reflexivity.
  - destruct i as [|i].
    + exfalso. rewrite Nat.add_0_r in Hi. apply in_map_iff in I. destruct I as ([k c'] & <- & I). apply in_combine_l, in_seq in I. cbn in Hi. lia.
    + destruct (IH (S s) i e I ltac:(lia)) as [H1 H2]. split; [cbn; lia|]. rewrite H2. cbn [nth]. f_equal. lia.
Qed.
Lemma entries_ids alpha cs : map e_id (entries alpha cs) = List.seq 0 (length cs).
Proof.
  unfold entries. rewrite map_map. generalize 0%nat. induction cs as [|c cs IH]; intros s; cbn [length List.seq combine map]; [reflexivity | f_equal; apply IH].
Qed.
Lemma entries_nth alpha cs i : (i < length cs)%nat -> In (as_entry alpha i (nth i cs no_cycle)) (entries alpha cs).
Proof.
  intros Hi. assert (I : In i (map e_id (entries alpha cs))) by (rewrite entries_ids; apply in_seq; lia).
  apply in_map_iff in I. destruct I as (e & He & I). destruct (nth_entries alpha cs 0 i e I He) as [_ E]. rewrite Nat.add_0_l in E. subst e. exact I.
Qed.
Lemma FOP_sorted {X} (R : X -> X -> Prop) l d i j : StronglySorted R l -> (i < j < length l)%nat -> R (nth i l d) (nth j l d).
Proof.
  intros Hs. revert i j. induction Hs as [|x l Hs IH Hx]; intros i j Hij; cbn [length] in Hij; [lia|]. destruct j as [|j]; [lia|].
  destruct i as [|i]; cbn [nth]; [rewrite Forall_forall in Hx; apply Hx, nth_In; lia | apply IH; lia].
Qed.
(* how many of the cycles go through an occurrence *)
Definition times_used (cs : list cycle) (o : Z) : nat := count_occ Z.eq_dec (concat (map y_occs cs)) o.
Lemma count_map_pair (l : list Z) (alpha : nat) o : count_occ eq_dec (map (fun o => (o, alpha)) l) (o, alpha) = count_occ Z.eq_dec l o.
Proof.
  induction l as [|x l IH]; cbn [map count_occ]; [reflexivity|]. rewrite IH. destruct (eq_dec (x, alpha) (o, alpha)) as [E|E], (Z.eq_dec x o) as [E'|E']; congruence.
Qed.
Lemma times_covered_used alpha cs sel o : NoDup sel -> (forall i, In i sel -> (i < length cs)%nat) ->
  times_covered (entries alpha cs) sel (o, alpha) = Z.of_nat (times_used (map (fun i => nth i cs no_cycle) sel) o).
Proof.
  intros Hn Hb. unfold times_covered. f_equal. unfold times_used. rewrite map_map.
  assert (Hgen : forall l : list entry, NoDup (map e_id l) -> (forall e, In e l -> exists i, (i < length cs)%nat /\ e = as_entry alpha i (nth i cs no_cycle)) ->
    count_occ eq_dec (flat_map (fun e => if mem (e_id e) sel then e_unc e else []) l) (o, alpha)
    = count_occ Z.eq_dec (concat (map (fun i => y_occs (nth i cs no_cycle)) (filter (fun i => mem i sel) (map e_id l)))) o).
  { induction l as [|e l IH]; intros Hnl He; cbn [flat_map map filter concat]; [reflexivity|]. rewrite count_occ_app. inversion Hnl as [|? ? Hx Hnl']; subst.
    rewrite IH; [|exact Hnl' | intros e' I; apply He; right; exact I].
    destruct (He e (or_introl eq_refl)) as (i & Hi & ->). cbn [e_id as_entry fst]. destruct (mem i sel); cbn [map concat]; [|reflexivity].
    rewrite count_occ_app. f_equal. unfold e_unc, as_entry. cbn [snd]. apply count_map_pair. }
  rewrite Hgen.
  - assert (Hp : Permutation (filter (fun i => mem i sel) (map e_id (entries alpha cs))) sel).
    { rewrite entries_ids. apply NoDup_Permutation; [apply NoDup_filter, seq_NoDup | exact Hn|]. intros i. rewrite filter_In, in_seq, mem_In. split; [intros [_ I]; exact I|].
      intros I. split; [specialize (Hb i I); lia | exact I]. }
    apply Permutation_count_occ. apply concat_perm_perm, Permutation_map, Hp.
  - rewrite entries_ids. apply seq_NoDup.
  - intros e I. exists (e_id e). destruct (nth_entries alpha cs 0 (e_id e) e I eq_refl) as [H1 H2]. split; [exact H1 | exact H2].
Qed.

(* a triple as it is recorded: its cost is that of three occurrences given by the smaller of the two
   gaps and their difference *)
Definition recorded_triple (trip : Z -> Z -> Q) (c : cycle) : Prop :=
  exists x y z, y_occs c = [x; y; z] /\ compute_period [x; y; z] = Some (y_p c) /\
    y_cost c = trip (Z.min (z - y) (y - x)) (Z.abs ((z - y) - (y - x))).
Section Event.
  Variable cyc : Z -> list Z -> Q.
  Variable trip : Z -> Z -> Q.
  Variable small : Z -> bool.
  Variable one : Q.
  Variable alpha : nat.
  (* what is found for an event with occurrences [occs] *)
  Definition found_cycle (occs : list Z) (c : cycle) : Prop :=
    (3 <= length (y_occs c))%nat /\ compute_period (y_occs c) = Some (y_p c) /\
    incl (y_occs c) occs /\ (chronological occs -> StronglySorted Z.lt (y_occs c)) /\
    (y_cost c = cyc (y_p c) (y_occs c) \/ recorded_triple trip c).
  Lemma chain_found occs tmp eff o c : incl tmp occs -> (chronological occs -> chronological tmp) -> sound_chain cyc small tmp None eff o c ->
    found_cycle occs (chain_cycle c).
  Proof.
    intros Hi Hc [Hr _ Hl Ho Hp Hcost]. unfold found_cycle, chain_cycle. cbn [y_occs y_p y_cost].
    pose proof (run_picks _ _ _ Hr) as [P1 P2].
    assert (Hpk : picks tmp (ch_occs c)) by (exists (map (Nat.add o) (ch_pos c)); repeat split; [exact P1 | exact P2 | exact Ho]).
    split; [|split; [exact Hp|split; [|split; [|left; apply Hcost]]]].
    - rewrite Ho, !map_length. lia.
    - intros x Ix. apply Hi, (picks_incl _ _ Hpk), Ix.
    - intros Hch. eapply picks_sorted; [apply Hc, Hch | exact Hpk].
  Qed.
  Lemma triple_found occs tmp eff t : incl tmp occs -> (chronological occs -> chronological tmp) -> sound_triple trip small tmp None eff t ->
    exists c, triple_cycle tmp t = Ret c /\ found_cycle occs c.
  Proof.
    intros Hi Hc [(h & i & j & Ep & Hr & _ & _ & E1 & E2) [Hcost _]]. unfold triple_cycle. rewrite Ep. cbn [map].
    destruct (period_3 [nth h tmp 0; nth i tmp 0; nth j tmp 0]) as [p Hp]; [cbn; lia|]. rewrite Hp. eexists. split; [reflexivity|].
    unfold found_cycle. cbn [y_occs y_p y_cost length]. destruct Hr as (B1 & B2 & _).
    assert (Hpk : picks tmp [nth h tmp 0; nth i tmp 0; nth j tmp 0]) by (exists [h; i; j]; repeat split; repeat constructor; lia).
    split; [lia|]. split; [exact Hp|]. split; [|split].
    - intros x Ix. apply Hi, (picks_incl _ _ Hpk), Ix.
    - intros Hch. eapply picks_sorted; [apply Hc, Hch | exact Hpk].
    - right. exists (nth h tmp 0), (nth i tmp 0), (nth j tmp 0). repeat split; [exact Hp|]. cbn [y_cost]. rewrite Hcost, E1, E2. reflexivity.
  Qed.
  Lemma map_out_Forall {X Y} (f : X -> outcome Y) (P : Y -> Prop) l : Forall (fun x => exists y, f x = Ret y /\ P y) l -> exists r, map_out f l = Ret r /\ Forall P r.
  Proof.
    induction 1 as [|x l (y & E & Py) _ (r & Er & Hr)]; cbn [map_out]; [exists []; split; [reflexivity | constructor]|].
    rewrite E. cbn [bind]. rewrite Er. cbn [bind]. eexists. split; [reflexivity | constructor; assumption].
  Qed.
  (* what follows the two extractions *)
  Lemma select_spec csl : (forall cs c, In cs csl -> In c cs -> y_occs c <> []) ->
    exists merged, merge_cycles csl = Ret merged /\
    let kept := map (fun i => nth i merged no_cycle) (topk_each (entries alpha merged) top_keach) in
    incl kept (concat csl) /\ NoDup (map key_of kept) /\
    (forall c, In c (concat csl) -> exists d, In d (concat csl) /\ same_start d c /\ (y_cost d <= y_cost c)%Q /\
       (In d kept \/ forall o, In o (y_occs d) -> (5 < times_used kept o)%nat)).
  Proof.
    intros Hne. destruct (C82_merge csl Hne) as (r & E & Hs & Hi & Hm). exists r. split; [exact E|].
    set (sel := topk_each (entries alpha r) top_keach). cbn zeta.
    assert (Hids : NoDup (map e_id (entries alpha r))) by (rewrite entries_ids; apply seq_NoDup).
    destruct (C67_top_k (entries alpha r) top_keach Hids) as (T1 & T2 & _ & T4 & _). fold sel in T1, T2, T4.
    assert (Hb : forall i, In i sel -> (i < length r)%nat) by (intros i I; apply T2 in I; rewrite entries_ids in I; apply in_seq in I; lia).
    split; [|split].
    - intros c I. apply in_map_iff in I. destruct I as (i & <- & I). apply Hi, nth_In, Hb, I.
    - rewrite map_map. clear T2 T4. induction sel as [|i sel IH]; cbn [map]; [constructor|]. inversion T1 as [|? ? Hx T1']; subst.
      constructor; [|apply IH; [exact T1' | intros j J; apply Hb; right; exact J]]. intros I. apply in_map_iff in I. destruct I as (j & Ej & J).
      assert (i <> j) by (intros ->; contradiction). assert (Hbi := Hb i (or_introl eq_refl)). assert (Hbj := Hb j (or_intror J)).
      destruct (Nat.lt_trichotomy i j) as [L|[L|L]]; [| contradiction |].
      + pose proof (FOP_sorted _ _ no_cycle i j Hs ltac:(lia)) as B. apply key_before in B. rewrite Ej in B. revert B. apply mkey_lt_irrefl.
      + pose proof (FOP_sorted _ _ no_cycle j i Hs ltac:(lia)) as B. apply key_before in B. rewrite Ej in B. revert B. apply mkey_lt_irrefl.
    - intros c I. destruct (Hm c I) as (d & Id & Sd & Cd). exists d. split; [apply Hi, Id|]. split; [exact Sd|]. split; [exact Cd|].
      apply (In_nth _ _ no_cycle) in Id. destruct Id as (k & Hk & <-). destruct (in_dec Nat.eq_dec k sel) as [Ik|Nk].
      + left. apply in_map_iff. exists k. auto.
      + right. intros o Io. specialize (T4 _ (entries_nth alpha r k Hk) Nk (o, alpha)). cbn [as_entry e_unc fst snd] in T4.
        assert (Ho : In (o, alpha) (e_unc (as_entry alpha k (nth k r no_cycle)))) by (unfold e_unc, as_entry; cbn [snd]; apply in_map_iff; exists o; auto).
        specialize (T4 Ho). rewrite times_covered_used in T4 by assumption. unfold top_keach in T4. lia.
  Qed.
  (* the candidates kept, whatever the order of the occurrences *)
  Lemma event_sound sfuel occs kept : extract_alpha cyc trip small one alpha sfuel occs None = Ret kept -> Forall (found_cycle occs) kept /\ NoDup (map key_of kept).
  Proof.
    unfold extract_alpha. destruct (dyn_spec cyc one occs) as (dyn & residual & Ed & _ & D1 & D2). rewrite Ed. cbn [bind].
    set (tmp := kept_occs occs dyn). destruct (extract_fold trip cyc small sfuel tmp one one None) as [[chs trs]|e|] eqn:Ef; cbn [bind fst snd]; try discriminate.
    destruct (C81_sound_partial _ _ _ _ _ _ _ _ _ _ (or_introl eq_refl) Ef) as [F1 F2].
    assert (Hti : incl tmp occs) by apply kept_incl. assert (Htc : chronological occs -> chronological tmp) by apply kept_chrono.
    destruct (map_out_Forall (triple_cycle tmp) (found_cycle occs) trs) as (triples & Et & Ft).
    { eapply Forall_impl; [|exact F2]. intros t Ht. eapply triple_found; eassumption. }
    rewrite Et. cbn [bind].
    assert (Hd : Forall (found_cycle occs) dyn).
    { rewrite Forall_forall in *. intros c I. destruct (D1 c I) as (A & B & C). destruct (D2 c I) as (a & b & Hab & Eo).
      assert (Hpk : picks occs (y_occs c)) by (rewrite Eo; apply range_picks; lia). split; [exact A|]. split; [exact B|].
      split; [apply picks_incl, Hpk|]. split; [intros Hc; eapply picks_sorted; eassumption | left; exact C]. }
    assert (Hch : Forall (found_cycle occs) (map chain_cycle chs)).
    { rewrite Forall_map. eapply Forall_impl; [|exact F1]. intros c (o & _ & Hc). eapply chain_found; eassumption. }
    assert (Hall : forall cs c, In cs [dyn; map chain_cycle chs; triples] -> In c cs -> found_cycle occs c).
    { intros cs c [<-|[<-|[<-|[]]]] I; [rewrite Forall_forall in Hd; auto | rewrite Forall_forall in Hch; auto | rewrite Forall_forall in Ft; auto]. }
    destruct (select_spec [dyn; map chain_cycle chs; triples]) as (merged & Em & S1 & S2 & _).
    { intros cs c I1 I2 E0. destruct (Hall cs c I1 I2) as (A & _). rewrite E0 in A. cbn in A. lia. }
    rewrite Em. cbn [bind]. intros E. injection E as <-. split; [|exact S2].
    rewrite Forall_forall. intros c I. apply S1, in_concat in I. destruct I as (cs & I1 & I2). eapply Hall; eassumption.
  Qed.
End Event.

(* C82: for an event whose occurrences come in chronological order the extraction ends.  The cycles
   kept are among those found by the segmentation and by folding; each has at least three occurrences
   of the event, in order, the median gap as its period and its code length as its cost (a triple may
   have the cost of the triple instead).  No two cycles kept agree in first occurrence, number of
   occurrences and period.  A cycle that was found is kept, or replaced by one not more expensive with
   the same first occurrence, number of occurrences and period, unless every occurrence of that one
   belongs to more than five cycles kept. *)
Theorem C82_event : forall cyc trip small one alpha occs, chronological occs ->
  exists dyn residual chains triples kept,
    compute_cycles (cyc_of cyc) one occs = Some (map y_occs dyn, residual) /\
    (forall sfuel, (length occs + 2 <= sfuel)%nat ->
       extract_fold trip cyc small sfuel (kept_occs occs dyn) one one None = Ret (chains, triples) /\
       extract_alpha cyc trip small one alpha sfuel occs None = Ret kept) /\
    exists found_triples, map_out (triple_cycle (kept_occs occs dyn)) triples = Ret found_triples /\
    let found := dyn ++ map chain_cycle chains ++ found_triples in
    incl kept found /\ Forall (found_cycle cyc trip occs) found /\ NoDup (map key_of kept) /\
    (forall c, In c found -> exists d, In d found /\ same_start d c /\ (y_cost d <= y_cost c)%Q /\
       (In d kept \/ forall o, In o (y_occs d) -> (5 < times_used kept o)%nat)).
Proof.
  intros cyc trip small one alpha occs Hch. destruct (dyn_spec cyc one occs) as (dyn & residual & Ed & Ecc & D1 & D2).
  set (tmp := kept_occs occs dyn).
  destruct (C81_terminates trip cyc small tmp one one None (kept_chrono occs dyn Hch)) as [[chs trs] Hr].
  assert (Ef : forall sfuel, (length occs + 2 <= sfuel)%nat -> extract_fold trip cyc small sfuel tmp one one None = Ret (chs, trs)).
  { intros sfuel Hs. apply Hr. pose proof (kept_length occs dyn). fold tmp in H. lia. }
  destruct (C81_sound_partial _ _ _ _ _ _ _ _ _ _ (or_introl eq_refl) (Ef _ (le_n _))) as [F1 F2].
  assert (Hti : incl tmp occs) by apply kept_incl. assert (Htc : chronological occs -> chronological tmp) by apply kept_chrono.
  destruct (map_out_Forall (triple_cycle tmp) (found_cycle cyc trip occs) trs) as (triples & Et & Ft).
  { eapply Forall_impl; [|exact F2]. intros t Ht. eapply triple_found; eassumption. }
  assert (Hd : Forall (found_cycle cyc trip occs) dyn).
  { rewrite Forall_forall in *. intros c I. destruct (D1 c I) as (A & B & C). destruct (D2 c I) as (a & b & Hab & Eo).
    assert (Hpk : picks occs (y_occs c)) by (rewrite Eo; apply range_picks; lia). split; [exact A|]. split; [exact B|].
    split; [apply picks_incl, Hpk|]. split; [intros Hc; eapply picks_sorted; eassumption | left; exact C]. }
  assert (Hchs : Forall (found_cycle cyc trip occs) (map chain_cycle chs)).
  { rewrite Forall_map. eapply Forall_impl; [|exact F1]. intros c (o & _ & Hc). eapply chain_found; eassumption. }
  assert (Hfd : Forall (found_cycle cyc trip occs) (dyn ++ map chain_cycle chs ++ triples)) by (rewrite !Forall_app; auto).
  assert (Hcat : concat [dyn; map chain_cycle chs; triples] = dyn ++ map chain_cycle chs ++ triples) by (cbn [concat]; rewrite app_nil_r; reflexivity).
  destruct (select_spec alpha [dyn; map chain_cycle chs; triples]) as (merged & Em & S1 & S2 & S3).
  { intros cs c I1 I2 E0. rewrite Forall_forall in Hfd. destruct (Hfd c) as (A & _); [rewrite <- Hcat; apply in_concat; eauto|]. rewrite E0 in A. cbn in A. lia. }
  rewrite Hcat in *. eexists dyn, residual, chs, trs, _. split; [exact Ecc|]. split.
  - intros sfuel Hs. split; [apply Ef, Hs|]. unfold extract_alpha. rewrite Ed. cbn [bind]. fold tmp. rewrite (Ef sfuel Hs). cbn [bind fst snd]. rewrite Et. cbn [bind]. rewrite Em. cbn [bind]. reflexivity.
  - exists triples. split; [exact Et|]. cbn zeta. split; [exact S1|]. split; [exact Hfd|]. split; [exact S2 | exact S3].
Qed.
Print Assumptions C82_event.
Lemma skipn_len_app {B} (a b : list B) : skipn (length a) (a ++ b) = b.
Proof. induction a; cbn; auto. Qed.
Lemma firstn_len_app {B} (a b : list B) : firstn (length a) (a ++ b) = a.
Proof. induction a; cbn; [reflexivity | f_equal; assumption]. Qed.
Lemma inner_spec c o : In o (inner c) <-> exists a b, y_occs c = a ++ o :: b /\ (5 <= length a)%nat /\ (5 <= length b)%nat.
Proof.
  unfold inner. set (l := y_occs c). clearbody l. split.
  - destruct (Nat.ltb_spec 10 (length l)) as [L|L]; [|intros []]. intros I. apply in_split in I. destruct I as (u & v & E).
    pose proof (firstn_skipn 5 l) as E1. pose proof (firstn_skipn (length l - 10) (skipn 5 l)) as E2. rewrite E in E2.
    exists (firstn 5 l ++ u), (v ++ skipn (length l - 10) (skipn 5 l)).
    split; [rewrite <- E1 at 1; rewrite <- E2 at 1; rewrite <- !app_assoc; reflexivity|].
    rewrite !app_length, firstn_length, !skipn_length. lia.
  - intros (a & b & -> & Ha & Hb). rewrite app_length. cbn [length].
    destruct (Nat.ltb_spec 10 (length a + S (length b))) as [L|L]; [|lia].
    rewrite <- (firstn_skipn 5 a) at 2. assert (L5 : length (firstn 5 a) = 5%nat) by (rewrite firstn_length; lia).
    rewrite <- L5 at 2. rewrite <- app_assoc, skipn_len_app.
    rewrite <- (firstn_skipn (length b - 5) b) at 2. rewrite app_comm_cons, app_assoc.
    replace (length a + S (length b) - 10)%nat with (length (skipn 5 a ++ o :: firstn (length b - 5) b)).
    + rewrite firstn_len_app. apply in_or_app. right. left. reflexivity.
    + rewrite app_length. cbn [length]. rewrite skipn_length, firstn_length. lia.
Qed.
(* C82: the second search looks at every occurrence except those in the middle of a long cycle of the
   segmentation: with five occurrences of the cycle or more before it and five or more after it *)
Theorem C82_second_search : forall occs dyn o,
  In o (kept_occs occs dyn) <->
  In o occs /\ ~ exists c a b, In c dyn /\ y_occs c = a ++ o :: b /\ (5 <= length a)%nat /\ (5 <= length b)%nat.
Proof.
  intros occs dyn o.
  assert (Hd : In o (flat_map inner dyn) <-> exists c a b, In c dyn /\ y_occs c = a ++ o :: b /\ (5 <= length a)%nat /\ (5 <= length b)%nat).
  { rewrite in_flat_map. split.
    - intros (c & I & J). apply inner_spec in J. destruct J as (a & b & J). exists c, a, b. tauto.
    - intros (c & a & b & I & J). exists c. split; [exact I | apply inner_spec; eauto]. }
  rewrite <- Hd. unfold kept_occs. destruct (flat_map inner dyn) as [|x l]; [cbn [In]; tauto|].
  rewrite In_sort, filter_In, nodup_In. rewrite negb_true_iff. split; intros [A B]; (split; [exact A|]).
  - intros C. apply mem_In in C. congruence.
  - destruct (mem o (x :: l)) eqn:E; [|reflexivity]. apply mem_In in E. contradiction.
Qed.
Print Assumptions C82_second_search.
Example C82_second_search_case :
  let c := {| y_occs := [0; 10; 20; 30; 40; 50; 60; 70; 80; 90; 100; 110]; y_p := 10; y_cost := 1 |} in
  kept_occs (y_occs c ++ [115]) [c] = [0; 10; 20; 30; 40; 70; 80; 90; 100; 110; 115].
Proof. vm_compute. reflexivity. Qed.
(* A concrete case: five occurrences in chronological order, of which two cycles are kept; and a
   merge where the cheaper of two cycles with the same start, length and period stays. *)
Definition event_cyc (p : Z) (os : list Z) : Q := inject_Z (5 + fold_right Z.add 0%Z (map Z.abs (compute_E os p))).
Example C82_event_case : chronological [0; 10; 21; 30; 40] /\
  extract_alpha event_cyc (fun dp dE => inject_Z (5 + dE)) (small_of 41) 3 0 7 [0; 10; 21; 30; 40] None =
    Ret [{| y_occs := [0; 21; 40]; y_p := 20; y_cost := 7 |}; {| y_occs := [0; 10; 21; 30; 40]; y_p := 10; y_cost := 7 |}].
Proof. split; [apply chrono_sorted; repeat constructor | vm_compute; reflexivity]. Qed.
Example C82_merge_case :
  let a := {| y_occs := [0; 10; 20]; y_p := 10; y_cost := 9 |} in
  let b := {| y_occs := [0; 10; 21]; y_p := 10; y_cost := 8 |} in
  let c := {| y_occs := [0; 5; 10; 15]; y_p := 5; y_cost := 7 |} in
  merge_cycles [[c; a]; [b]] = Ret [b; c].
Proof. vm_compute. reflexivity. Qed.
