(* C102: the statistics of a pattern collection.  Real numbers of the standard library. *)
From Coq Require Import Reals QArith Qreals Lra String.
From Verif Require Import Prelude CheckModel LCMModel TextModel VerticalProofs SplitModel ArrayModel PropArray PeriodModel PropPeriod TreeModel TreeProofs PropTree CyclesModel NestModel ExportModel CodeLengthModel StatsModel.
From Verif Require Import GraphUtilModel PropGraphUtil KraftProofs PropGraphLength PropCodeLength PropTreeLength PropTreeCode PropCycles.
From Verif Require Import PoolModel PropTopK FoldModel PropFold MineModel PropMineEvent PropMine.
Local Open Scope Z_scope.

(* ------------------------------------------------------------ specification *)
(* every block has something in it *)
Inductive full {A} : tree A -> Prop :=
| full_leaf n a : full (Leaf n a)
| full_node n r p ch : ch <> [] -> Forall (fun cd => full (fst cd)) ch -> full (Node n r p ch).
(* [k] blocks, one in the other, around one event *)
Inductive chain {A} : nat -> tree A -> Prop :=
| chain_leaf n a : chain 0 (Leaf n a)
| chain_node k n r p c ds : chain k c -> chain (S k) (Node n r p [(c, ds)]).
(* one block of several events *)
Definition row {A} (t : tree A) : Prop :=
  exists n r p ch, t = Node n r p ch /\ (2 <= length ch)%nat /\ Forall (fun cd => exists k a, fst cd = Leaf k a) ch.
(* what the four names mean *)
Definition kind {A} (t : tree A) (s : text) : Prop :=
  s = lit "simple" /\ chain 1 t \/
  s = lit "nested" /\ (exists k, (2 <= k)%nat /\ chain k t) \/
  s = lit "concat" /\ row t \/
  s = lit "other" /\ (forall k, (1 <= k)%nat -> ~ chain k t) /\ ~ row t.
Definition type_names : list text := [lit "simple"; lit "nested"; lit "concat"; lit "other"].
Definition num_of (s : dict text stat) (k : text) : option stat := dget s k.

(* ------------------------------------------------------------ types *)
Lemma tree_ind_full {A} (P : tree A -> Prop) : (forall n a, P (Leaf n a)) ->
  (forall n r p ch, Forall (fun cd => P (fst cd)) ch -> P (Node n r p ch)) -> forall t, P t.
Proof.
  intros HL HN. fix IH 1. intros [n a|n r p ch]; [apply HL|]. apply HN. induction ch as [|cd ch IHc]; constructor; [apply IH | exact IHc].
Qed.
Lemma width_pos {A} (t : tree A) : full t -> (1 <= tree_width t)%nat.
Proof.
  induction t as [n a|n r p ch IH] using tree_ind_full; intros F; cbn [tree_width]; [lia|]. inversion F as [|? ? ? ? Hne Hf]; subst.
  destruct ch as [|cd ch]; [congruence|]. inversion IH as [|? ? IH1 _]; subst. inversion Hf as [|? ? F1 _]; subst. specialize (IH1 F1). cbn [map list_sum fold_right]. lia.
Qed.
Lemma widths_pos {A} (ch : list (tree A * Z)) : Forall (fun cd => full (fst cd)) ch -> (length ch <= list_sum (map (fun cd => tree_width (fst cd)) ch))%nat.
Proof.
  induction 1 as [|cd ch F _ IH]; cbn [map list_sum fold_right length]; [lia|]. apply width_pos in F. unfold list_sum in IH. lia.
Qed.
Lemma width_one {A} (t : tree A) : full t -> (tree_width t = 1%nat <-> chain (tree_depth t) t).
Proof.
  induction t as [n a|n r p ch IH] using tree_ind_full; intros F; cbn [tree_width tree_depth]; [split; [constructor | reflexivity]|].
  inversion F as [|? ? ? ? Hne Hf]; subst. destruct ch as [|cd [|cd' ch]]; [congruence| |].
  - inversion IH as [|? ? IH1 _]; subst. inversion Hf as [|? ? F1 _]; subst. specialize (IH1 F1). cbn [map list_sum list_max fold_right]. rewrite Nat.add_0_r, Nat.max_0_r.
    rewrite IH1. destruct cd as [c ds]. cbn [fst]. split; [constructor; assumption | intros E; inversion E; assumption].
  - pose proof (widths_pos _ Hf) as W. cbn [length] in W. split; [lia | intros E; inversion E].
Qed.
Lemma chain_depth {A} k (t : tree A) : chain k t -> tree_depth t = k /\ tree_width t = 1%nat.
Proof.
  induction 1 as [|k n r p c ds _ [IH1 IH2]]; cbn [tree_depth tree_width map list_max list_sum fold_right fst]; [auto|]. rewrite Nat.max_0_r, IH1, IH2. auto.
Qed.
Lemma depth_leaves {A} (ch : list (tree A * Z)) : list_max (map (fun cd => tree_depth (fst cd)) ch) = O <-> Forall (fun cd => exists k a, fst cd = Leaf k a) ch.
Proof.
  induction ch as [|[c ds] ch IH]; [split; [constructor | reflexivity]|]. cbn [map fst].
  change (list_max (tree_depth c :: map (fun cd => tree_depth (fst cd)) ch)) with (Nat.max (tree_depth c) (list_max (map (fun cd => tree_depth (fst cd)) ch))). split.
  - intros E. constructor; [|apply IH; lia]. destruct c as [n a|n r p l]; [cbn; eauto|]. cbn [tree_depth] in E. lia.
  - intros E. inversion E as [|? ? (k & a & E1) E2]; subst. cbn [fst] in E1. subst c. cbn [tree_depth]. apply IH in E2. lia.
Qed.
Lemma row_spec {A} (t : tree A) : full t -> (row t <-> tree_depth t = 1%nat /\ (2 <= tree_width t)%nat).
Proof.
  intros F. split.
  - intros (n & r & p & ch & -> & L & Hl). cbn [tree_depth tree_width]. pose proof Hl as Hd. apply depth_leaves in Hd. rewrite Hd. split; [reflexivity|].
    inversion F as [|? ? ? ? _ Hf]; subst. apply widths_pos in Hf. lia.
  - destruct t as [n a|n r p ch]; cbn [tree_depth tree_width]; intros [D W]; [lia|]. exists n, r, p, ch. split; [reflexivity|].
    assert (Hl : Forall (fun cd => exists k a, fst cd = Leaf k a) ch) by (apply depth_leaves; lia). split; [|exact Hl].
    assert (E : list_sum (map (fun cd => tree_width (fst cd)) ch) = length ch); [|lia]. clear -Hl. induction Hl as [|cd ch (k & a & E) _ IH]; cbn [map list_sum fold_right length]; [reflexivity|].
    rewrite E. cbn [tree_width]. unfold list_sum in IH. rewrite IH. reflexivity.
Qed.
(* C102: the type of a pattern is one of four names with the meaning above *)
Theorem C102_types : forall (A : Type) (t : tree A), full t -> forall s, type_str t = s <-> kind t s.
Proof.
  intros A t F s. unfold type_str, is_simple, is_nested, is_concat, kind.
  pose proof (width_pos t F) as Wp. pose proof (width_one t F) as W1. pose proof (row_spec t F) as R1.
  assert (Hc : forall k, chain k t <-> tree_depth t = k /\ tree_width t = 1%nat).
  { intros k. split; [apply chain_depth|]. intros [<- E]. apply W1, E. }
  assert (C0 : chain 1 t <-> tree_depth t = 1%nat /\ tree_width t = 1%nat) by apply Hc.
  assert (C2 : (exists k, (2 <= k)%nat /\ chain k t) <-> (2 <= tree_depth t)%nat /\ tree_width t = 1%nat).
  { split; [intros (k & L & C); apply Hc in C; lia | intros [L E]; exists (tree_depth t); split; [exact L | apply Hc; auto]]. }
  assert (C3 : (forall k, (1 <= k)%nat -> ~ chain k t) <-> ~ ((1 <= tree_depth t)%nat /\ tree_width t = 1%nat)).
  { split; [intros N [L E]; apply (N (tree_depth t) L), Hc; auto | intros N k L C; apply Hc in C; apply N; lia]. }
  rewrite C0, C2, C3, R1. clear W1 R1 Hc C0 C2 C3.
  destruct (Nat.eqb_spec (tree_depth t) 1), (Nat.eqb_spec (tree_width t) 1), (Nat.ltb_spec 1 (tree_depth t)), (Nat.ltb_spec 1 (tree_width t)); cbn [andb]; try lia;
    (split; [intros <-; tauto || (right; right; right; split; [reflexivity|]; lia) || (right; right; left; split; [reflexivity|]; lia) || (right; left; split; [reflexivity|]; lia) || (left; split; [reflexivity|]; lia)
            | intros [[-> ?]|[[-> ?]|[[-> ?]|[-> ?]]]]; try reflexivity; lia]).
Qed.
Print Assumptions C102_types.

(* ------------------------------------------------------------ counting *)
Lemma count_by_counter {K} `{EqDec K} (l : list K) : count_by l = counter l.
Proof.
  unfold count_by, counter. generalize (@nil (K * nat)). induction l as [|k l IH]; intros d; cbn [fold_left]; [reflexivity|]. rewrite Nat.add_1_r. apply IH.
Qed.
Lemma count_positions {X K} `{EqDec K} (f : X -> K) (l : list X) k : exists is, NoDup is /\ length is = count_occ eq_dec (map f l) k /\
  forall i, In i is <-> exists x, nth_error l i = Some x /\ f x = k.
Proof.
  induction l as [|x l (is & N & L & S)]; [exists []; split; [apply NoDup_nil|]; split; [reflexivity|]; intros i; split; [intros [] | destruct i; intros (x & E & _); discriminate]|].
  cbn [map count_occ]. assert (Hs : NoDup (map Datatypes.S is)) by (apply FinFun.Injective_map_NoDup; [intros a b E; lia | exact N]).
  assert (Hi : forall i, In (Datatypes.S i) (map Datatypes.S is) <-> In i is).
  { intros i. rewrite in_map_iff. split; [intros (j & E & I); injection E as ->; exact I | eauto]. }
  assert (H0 : ~ In O (map Datatypes.S is)) by (rewrite in_map_iff; intros (j & E & _); discriminate).
  destruct (eq_dec (f x) k) as [E|E].
  - exists (O :: map Datatypes.S is). split; [constructor; assumption|]. split; [cbn [length]; rewrite map_length, L; reflexivity|].
    intros [|i]; cbn [nth_error]; [split; [intros _; eauto | intros _; left; reflexivity]|]. rewrite <- S, <- Hi. split; [intros [D|I]; [discriminate | exact I] | intros I; right; exact I].
  - exists (map Datatypes.S is). split; [exact Hs|]. split; [rewrite map_length; exact L|].
    intros [|i]; cbn [nth_error]; [split; [contradiction | intros (y & E1 & E2); congruence]|]. rewrite Hi. apply S.
Qed.

(* ------------------------------------------------------------ residuals *)
Lemma residual_sums_spec d (c : nat -> R) D : (forall k, In k (dkeys D) -> cost_one d k = Ret (c k)) ->
  residual_sums d D = Ret (list_sum (map snd D), rsum (map (fun kv => INR (snd kv) * c (fst kv))%R D)).
Proof.
  induction D as [|[k n] D IH]; intros Hc; cbn [residual_sums map list_sum fold_right rsum fst snd]; [reflexivity|].
  rewrite (Hc k) by (left; reflexivity). cbn [bind]. rewrite IH by (intros j I; apply Hc; right; exact I). reflexivity.
Qed.
Lemma counted_sum (c : nat -> R) evs : rsum (map (fun kv => INR (snd kv) * c (fst kv))%R (counter evs)) = rsum (map c evs).
Proof.
  destruct (counter_total evs) as [N _]. rewrite (rsum_group (fun k => k) c (dkeys (counter evs)) N evs).
  - unfold dkeys. rewrite map_map. f_equal. apply map_ext_in. intros [k n] I. cbn [fst snd]. apply counter_In in I. destruct I as [_ ->].
    assert (E : count_occ eq_dec evs k = length (filter (fun a => eqd a k) evs)).
    { clear. induction evs as [|e evs IH]; cbn [count_occ filter]; [reflexivity|]. destruct (eq_dec e k) as [->|Ne].
      - rewrite (proj2 (eqd_true k k) eq_refl). cbn [length]. rewrite IH. reflexivity.
      - destruct (eqd e k) eqn:Q; [apply (proj1 (eqd_true _ _)) in Q; contradiction | exact IH]. }
    rewrite E, <- (rsum_const (filter (fun a => eqd a k) evs) (c k)). f_equal. apply map_ext_in. intros a Ia. apply filter_In in Ia. destruct Ia as [_ Q]. apply (proj1 (eqd_true _ _)) in Q. subst a. reflexivity.
  - intros a I. apply dget_Some_key. rewrite counter_spec. unfold occurs. apply (count_occ_In eq_dec) in I. destruct (count_occ eq_dec evs a); [lia | eauto].
Qed.

(* ------------------------------------------------------------ the dictionary *)
Lemma dset_fresh {K V} `{EqDec K} (d : dict K V) k v : ~ In k (dkeys d) -> dset d k v = d ++ [(k, v)].
Proof.
  induction d as [|[k' v'] d IH]; cbn [dset app dkeys map fst]; intros Hn; [reflexivity|].
  destruct (eq_dec k k') as [->|Ne]; [exfalso; apply Hn; left; reflexivity|]. rewrite IH; [reflexivity|]. intros I. apply Hn. right. exact I.
Qed.
Lemma fold_fresh {K V W} `{EqDec K} (f : W -> V) (l : dict K W) : forall d, NoDup (dkeys l) -> (forall k, In k (dkeys l) -> ~ In k (dkeys d)) ->
  fold_left (fun s kv => dset s (fst kv) (f (snd kv))) l d = d ++ map (fun kv => (fst kv, f (snd kv))) l.
Proof.
  induction l as [|[k w] l IH]; intros d N F; cbn [fold_left map fst snd]; [rewrite app_nil_r; reflexivity|].
  cbn [dkeys map fst] in N. inversion N as [|? ? N1 N2]; subst. rewrite dset_fresh by (apply F; left; reflexivity). rewrite IH.
  - rewrite <- app_assoc. reflexivity.
  - exact N2.
  - intros j I. unfold dkeys. rewrite map_app, in_app_iff. intros [I'|[<-|[]]]; [apply (F j); [right; exact I | exact I'] | contradiction].
Qed.
Lemma type_str_names {A} (t : tree A) : In (type_str t) type_names.
Proof. unfold type_str, type_names. destruct (is_simple t); [|destruct (is_nested t); [|destruct (is_concat t)]]; cbn [In]; tauto. Qed.
Definition sorted_types (ps : list patt) : dict text nat := sort (fun a b => (snd b <=? snd a)%nat) (by_type ps).
Lemma sorted_types_spec ps : NoDup (dkeys (sorted_types ps)) /\ incl (dkeys (sorted_types ps)) type_names /\
  StronglySorted (fun a b => (snd b <= snd a)%nat) (sorted_types ps) /\ list_sum (map snd (sorted_types ps)) = length ps /\
  (forall k n, In (k, n) (sorted_types ps) <-> (0 < n)%nat /\ n = count_occ eq_dec (map (fun q : patt => type_str (fst (fst q))) ps) k).
Proof.
  unfold sorted_types, by_type. rewrite count_by_counter. set (l := map _ ps). destruct (counter_total l) as [N T].
  pose proof (sort_perm (fun a b : text * nat => (snd b <=? snd a)%nat) (counter l)) as P.
  split; [|split; [|split; [|split]]].
  - unfold dkeys in *. apply (Permutation_NoDup (Permutation_map fst (Permutation_sym P)) N).
  - intros k I. unfold dkeys in I. apply (Permutation_in _ (Permutation_map fst P)) in I. apply in_map_iff in I. destruct I as ([k' n] & <- & I). cbn [fst].
    apply counter_In in I. destruct I as [L E]. assert (I : In k' l) by (apply (count_occ_In eq_dec); lia). unfold l in I. apply in_map_iff in I. destruct I as (q & <- & _). apply type_str_names.
  - pose proof (sort_sorted (fun a b : text * nat => (snd b <=? snd a)%nat)) as S. specialize (S ltac:(intros a b; destruct (Nat.le_ge_cases (snd b) (snd a)); [left | right]; apply Nat.leb_le; assumption)).
    specialize (S ltac:(intros a b c E1 E2; apply Nat.leb_le in E1, E2; apply Nat.leb_le; lia) (counter l)).
    assert (G : forall q, StronglySorted (le_rel (fun a b : text * nat => (snd b <=? snd a)%nat)) q -> StronglySorted (fun a b : text * nat => (snd b <= snd a)%nat) q).
    { induction 1 as [|x q _ IH Hx]; constructor; [exact IH|]. eapply Forall_impl; [|exact Hx]. intros y E. apply Nat.leb_le in E. exact E. }
    exact (G _ S).
  - pose proof (Permutation_list_sum (Permutation_map snd P)) as E.
    etransitivity; [exact E|]. etransitivity; [exact T|]. unfold l. apply map_length.
  - intros k n. rewrite <- counter_In. split; apply Permutation_in; [exact P | apply Permutation_sym, P].
Qed.
Definition tail_stats (cl clR : R) (nbR : nat) (only : R) : dict text stat :=
  [(lit "Code length patterns", Num cl); (lit "Code length residuals", Num clR); (lit "Total residual nb", Count nbR)] ++
  (if Rlt_dec 0 only then [(lit "Code length total", Num (cl + clR)%R); (lit "Total compression ratio", Num (100 * (cl + clR) / only)%R); (lit "Code length residuals only", Num only)] else []).
Lemma global_shape {A} (m : miner A) cl un r only : patterns_length m = Ret cl -> uncovered m = Ret un -> residual_sums (details_of (m_ds m)) (nb_uncovered un) = Ret r ->
  code_residuals (m_ds m) = Ret only ->
  global_stats m = Ret ((lit "Total patterns nb", Count (length (m_patts m))) :: map (fun kv => (fst kv, Count (snd kv))) (sorted_types (m_patts m)) ++ tail_stats cl (snd r) (fst r) only).
Proof.
  intros E1 E2 E3 E4. unfold global_stats. rewrite E1. cbn [bind]. rewrite E2. cbn [bind]. rewrite E3. cbn [bind]. rewrite E4. cbn [bind]. f_equal.
  destruct (sorted_types_spec (m_patts m)) as (N & I & _). fold (sorted_types (m_patts m)). set (tys := sorted_types (m_patts m)) in *. clearbody tys.
  assert (Hf : forall k : text, ~ In k type_names -> ~ In k (dkeys tys)) by (intros k Hk C; apply Hk, I, C).
  assert (Hn : forall k : text, In k [lit "Total patterns nb"; lit "Code length patterns"; lit "Code length residuals"; lit "Total residual nb"; lit "Code length total"; lit "Total compression ratio"; lit "Code length residuals only"] -> ~ In k type_names).
  { intros k C. cbn [In] in C. repeat (destruct C as [<-|C]; [intros C'; cbn [type_names In] in C'; repeat (destruct C' as [C'|C']; [discriminate C'|]); exact C'|]). destruct C. }
  rewrite (fold_fresh Count tys [(lit "Total patterns nb", Count (length (m_patts m)))] N).
  2:{ intros k Ik [<-|[]]. revert Ik. apply Hf, Hn. cbn [In]. auto. }
  set (s1 := [_] ++ map _ tys). assert (K1 : dkeys s1 = lit "Total patterns nb" :: dkeys tys).
  { unfold s1, dkeys. rewrite map_app, map_map. reflexivity. }
  assert (Fr : forall k rest, In k [lit "Code length patterns"; lit "Code length residuals"; lit "Total residual nb"; lit "Code length total"; lit "Total compression ratio"; lit "Code length residuals only"] ->
    ~ In k (map fst rest) -> ~ In k (dkeys (s1 ++ rest : dict text stat))).
  { intros k rest Ik Nr. unfold dkeys in *. rewrite map_app, in_app_iff, K1. intros [[<-|C]|C]; [| |exact (Nr C)].
    - cbn [In] in Ik. repeat (destruct Ik as [Ik|Ik]; [discriminate Ik|]). exact Ik.
    - revert C. apply Hf, Hn. right. exact Ik. }
  assert (Go : forall rest k v, In k [lit "Code length patterns"; lit "Code length residuals"; lit "Total residual nb"; lit "Code length total"; lit "Total compression ratio"; lit "Code length residuals only"] ->
    ~ In k (map fst rest) -> dset (s1 ++ rest) k v = s1 ++ (rest ++ [(k, v)])).
  { intros rest k v Ik Nr. rewrite dset_fresh by (apply Fr; assumption). rewrite <- app_assoc. reflexivity. }
  unfold tail_stats.
  assert (NI : forall (k : text) l, forallb (fun j => negb (eqd k j)) l = true -> ~ In k l).
  { intros k l F C. rewrite forallb_forall in F. apply F in C. rewrite (proj2 (eqd_true k k) eq_refl) in C. discriminate. }
  assert (Eq : forall z, (lit "Total patterns nb", Count (length (m_patts m))) :: map (fun kv => (fst kv, Count (snd kv))) tys ++ z = s1 ++ z) by reflexivity.
  rewrite Eq. clear Eq. clearbody s1.
  assert (G0 : forall v, dset s1 (lit "Code length patterns") v = s1 ++ [(lit "Code length patterns", v)]).
  { intros v. rewrite <- (app_nil_r s1) at 1. apply Go; [left; reflexivity | intros []]. }
  rewrite G0.
  do 2 (rewrite Go; [| cbn [In]; tauto | apply NI; vm_compute; reflexivity]).
  destruct (Rlt_dec 0 only); [|reflexivity].
  do 3 (rewrite Go; [| cbn [In]; tauto | apply NI; vm_compute; reflexivity]). reflexivity.
Qed.
Lemma global_parts {A} (m : miner A) st : global_stats m = Ret st -> exists cl un r only, patterns_length m = Ret cl /\ uncovered m = Ret un /\
  residual_sums (details_of (m_ds m)) (nb_uncovered un) = Ret r /\ code_residuals (m_ds m) = Ret only.
Proof.
  unfold global_stats. destruct (patterns_length m) as [cl|e|] eqn:E1; cbn [bind]; try discriminate. destruct (uncovered m) as [un|e|] eqn:E2; cbn [bind]; try discriminate.
  destruct (residual_sums _ _) as [r|e|] eqn:E3; cbn [bind]; try discriminate. destruct (code_residuals _) as [only|e|] eqn:E4; cbn [bind]; try discriminate. intros _. eauto 8.
Qed.
Lemma dget_app {K V} `{EqDec K} (a b : dict K V) k : dget (a ++ b) k = match dget a k with Some v => Some v | None => dget b k end.
Proof. induction a as [|[k' v] a IH]; cbn [app dget]; [reflexivity|]. destruct (eq_dec k k'); [reflexivity | exact IH]. Qed.
Lemma dget_types (tys : dict text nat) s : dget (map (fun kv => (fst kv, Count (snd kv))) tys) s = option_map Count (dget tys s).
Proof. induction tys as [|[k n] tys IH]; cbn [map dget fst snd option_map]; [reflexivity|]. destruct (eq_dec s k); [reflexivity | exact IH]. Qed.
Lemma dget_tail cl clR nbR only s : In s type_names -> dget (tail_stats cl clR nbR only) s = None.
Proof.
  intros I. apply dget_None. unfold tail_stats, dkeys. rewrite map_app. intros C. apply in_app_iff in C. destruct C as [C|C].
  - cbn [map fst In] in C. cbn [type_names In] in I. repeat (destruct C as [<-|C]; [repeat (destruct I as [I|I]; [discriminate I|]); exact I|]). exact C.
  - destruct (Rlt_dec 0 only); [|exact C]. cbn [map fst In] in C. cbn [type_names In] in I. repeat (destruct C as [<-|C]; [repeat (destruct I as [I|I]; [discriminate I|]); exact I|]). exact C.
Qed.
Lemma dget_sorted_types ps s : dget (sorted_types ps) s = match count_occ eq_dec (map (fun q : patt => type_str (fst (fst q))) ps) s with O => None | n => Some n end.
Proof.
  destruct (sorted_types_spec ps) as (N & _ & _ & _ & Hin). destruct (dget (sorted_types ps) s) as [n|] eqn:E.
  - apply VerticalProofs.dget_In in E. apply Hin in E. destruct E as [L ->]. destruct (count_occ eq_dec _ s); [lia | reflexivity].
  - apply dget_None in E. destruct (count_occ eq_dec _ s) as [|n] eqn:C; [reflexivity|]. exfalso. apply E. apply (in_map fst (sorted_types ps) (s, S n)). apply Hin. split; [lia | symmetry; exact C].
Qed.

(* C102: every pattern is counted once, under its type; a type that no pattern has is not listed; the
   types come by decreasing number, after the number of patterns, which is their sum *)
Theorem C102_counts : forall (A : Type) (m : miner A) st, Forall (fun q => full (fst (fst q))) (m_patts m) -> global_stats m = Ret st ->
  dget st (lit "Total patterns nb") = Some (Count (length (m_patts m))) /\
  (forall s, In s type_names -> exists is, NoDup is /\ (forall i, In i is <-> exists q, nth_error (m_patts m) i = Some q /\ kind (fst (fst q)) s) /\
     dget st s = match is with [] => None | _ => Some (Count (length is)) end) /\
  exists tys rest, st = (lit "Total patterns nb", Count (length (m_patts m))) :: map (fun kv => (fst kv, Count (snd kv))) tys ++ rest /\
    StronglySorted (fun a b => (snd b <= snd a)%nat) tys /\ NoDup (map fst tys) /\ incl (map fst tys) type_names /\ (forall s, In s type_names -> ~ In s (map fst rest)) /\
    list_sum (map snd tys) = length (m_patts m).
Proof.
  intros A m st F E. destruct (global_parts m st E) as (cl & un & r & only & E1 & E2 & E3 & E4). rewrite (global_shape m cl un r only E1 E2 E3 E4) in E. injection E as <-.
  destruct (sorted_types_spec (m_patts m)) as (N & I & S & L & _).
  split; [reflexivity|]. split.
  - intros s Is. destruct (count_positions (fun q : patt => type_str (fst (fst q))) (m_patts m) s) as (is & N1 & L1 & H1). exists is. split; [exact N1|]. split.
    + intros i. rewrite H1. split; intros (q & Q1 & Q2); exists q; (split; [exact Q1|]); apply nth_error_In in Q1; rewrite Forall_forall in F; apply C102_types; auto.
    + change (?x :: ?a ++ ?b) with ([x] ++ (a ++ b)). rewrite dget_app. cbn [dget].
      destruct (eq_dec s (lit "Total patterns nb")) as [->|_]; [exfalso; cbn [type_names In] in Is; repeat (destruct Is as [Is|Is]; [discriminate Is|]); exact Is|].
      rewrite dget_app, dget_types, dget_sorted_types, dget_tail by exact Is. unfold patt in *. rewrite <- L1. destruct is; reflexivity.
  - exists (sorted_types (m_patts m)), (tail_stats cl (snd r) (fst r) only). split; [reflexivity|]. split; [exact S|]. split; [exact N|]. split; [exact I|]. split; [|exact L].
    intros s Is. change (~ In s (dkeys (tail_stats cl (snd r) (fst r) only))). apply dget_None, dget_tail, Is.
Qed.
Print Assumptions C102_counts.

(* ------------------------------------------------------------ lengths *)
Section Fitted.
  Context {A : Type} `{EqDec A} (leA : A -> A -> bool).
  Context (leA_total : forall x y, leA x y = true \/ leA y x = true).
  Context (leA_trans : forall x y z, leA x y = true -> leA y z = true -> leA x z = true).
  Lemma fit_data auto log mine m : fit leA auto log mine = Ret m -> exists cb, dataseq_of_list leA cb = Ret (m_ds m).
  Proof.
    unfold fit. destruct (if auto then _ else _) as [[ts' n] d]. intros E. exists (combine ts' (map snd (nodup eq_dec log))). unfold dataseq_of_list.
    destruct (dataseq_of_dict leA _) as [ds|e|]; cbn [bind] in E; try discriminate. injection E as <-. reflexivity.
  Qed.
  Lemma ds_flat d ds : dataseq_of_dict leA d = Ret ds ->
    Permutation (ds_seql ds) (concat (map (fun p => map (fun t => (t, fst p)) (snd p)) (ds_seqd ds))) /\ map fst (ds_counts ds) = map fst (ds_seqd ds).
  Proof.
    unfold dataseq_of_dict. destruct (existsb _ _); [discriminate|]. intros E. injection E as <-. cbn [ds_seql ds_seqd ds_counts]. split; [apply sort_perm|]. rewrite !map_map. reflexivity.
  Qed.
  Lemma fit_good auto log mine m : fit leA auto log mine = Ret m -> log <> [] -> good_details (details_of (m_ds m)) /\
    (forall x, In x (ds_seql (m_ds m)) -> ds_start (m_ds m) <= fst x <= ds_end (m_ds m) /\ In (snd x) (map fst (ds_counts (m_ds m)))).
  Proof.
    intros Hf Hne. destruct (fit_facts leA leA_total leA_trans auto log mine m Hf) as (_ & _ & F1 & F2 & _). destruct (fit_data auto log mine m Hf) as (cb & Ed).
    destruct (C38_sequence leA leA_total leA_trans cb) as (s & Es & R). rewrite Ed in Es. injection Es as <-.
    assert (Hcb : cb <> []).
    { intros ->. destruct log as [|u log]; [congruence|]. destruct (F2 u (or_introl eq_refl)) as (x & _ & I). pose proof (rp_log _ _ _ R) as P. cbn [map] in P. apply Permutation_sym, Permutation_nil, map_eq_nil in P. rewrite P in I. destruct I. }
    split; [eapply C83_of_log; eassumption|]. intros x I. split.
    - pose proof (rp_log _ _ _ R) as P. apply (in_map (fun p => (fst p, nth_error (ds_events (m_ds m)) (snd p)))) in I. apply (Permutation_in _ P) in I. apply in_map_iff in I.
      destruct I as ([t e] & E & I). cbn [fst snd] in E. injection E as E1 _. rewrite <- E1. apply (rp_extent _ _ _ R t e I).
    - unfold dataseq_of_list in Ed. apply ds_flat in Ed. destruct Ed as [P ->]. apply (Permutation_in _ P) in I. apply in_concat in I. destruct I as (l & Il & I). apply in_map_iff in Il. destruct Il as (p & <- & Ip).
      apply in_map_iff in I. destruct I as (t & <- & _). cbn [snd]. apply in_map, Ip.
  Qed.
  Lemma log_length auto log mine m : fit leA auto log mine = Ret m -> length (ds_seql (m_ds m)) = length (nodup eq_dec log).
  Proof.
    intros Hf. destruct (fit_facts leA leA_total leA_trans auto log mine m Hf) as (Ne & Ns & F1 & F2 & Inj & _).
    assert (G : forall l, NoDup l -> (forall x, In x l -> In x (ds_seql (m_ds m))) -> forall q, NoDup q -> (forall u, In u q <-> exists x, In x l /\ seen_as m x u) -> length l = length q).
    { induction l as [|x l IH]; intros Nl Sl q Nq Hq.
      - destruct q as [|u q]; [reflexivity|]. destruct (proj1 (Hq u) (or_introl eq_refl)) as (x & [] & _).
      - inversion Nl as [|? ? Nx Nl']; subst. destruct (F1 x (Sl x (or_introl eq_refl))) as (u & Su & _).
        assert (Iu : In u q) by (apply Hq; exists x; split; [left; reflexivity | exact Su]). apply in_split in Iu. destruct Iu as (q1 & q2 & ->).
        rewrite app_length. cbn [length]. rewrite (IH Nl' ltac:(intros y Iy; apply Sl; right; exact Iy) (q1 ++ q2)); [rewrite app_length; lia | apply NoDup_remove_1 in Nq; exact Nq|].
        intros v. split.
        + intros Iv. destruct (proj1 (Hq v)) as (y & [<-|Iy] & Sy); [rewrite in_app_iff in *; cbn [In]; tauto| |eauto].
          exfalso. apply NoDup_remove_2 in Nq. apply Nq. assert (v = u) as <-; [|exact Iv]. destruct Su as [U1 U2], Sy as [V1 V2]. destruct u as [tu eu], v as [tv ev]. cbn [fst snd] in *. congruence.
        + intros (y & Iy & Sy). assert (Iv : In v (q1 ++ u :: q2)) by (apply Hq; exists y; split; [right; exact Iy | exact Sy]). rewrite in_app_iff in *. cbn [In] in Iv.
          destruct Iv as [Iv|[Iv|Iv]]; [auto | subst v | auto]. exfalso. apply Nx. assert (x = y) as ->; [|exact Iy]. destruct Su as [U1 U2], Sy as [V1 V2]. rewrite U1 in V1. apply Inj in V1.
          assert (snd x = snd y). { apply (proj1 (NoDup_nth_error (ds_events (m_ds m))) Ne); [apply nth_error_Some; congruence | congruence]. } destruct x, y; cbn [fst snd] in *; congruence. }
    apply G; [exact Ns | auto | apply NoDup_nodup|]. intros u. rewrite nodup_In. split.
    - intros I. destruct (F2 u I) as (x & S & Ix). eauto.
    - intros (x & Ix & S). destruct (F1 x Ix) as (v & Sv & Iv). assert (u = v) as ->; [|exact Iv]. destruct S as [U1 U2], Sv as [V1 V2]. destruct u as [tu eu], v as [tv ev]. cbn [fst snd] in *. congruence.
  Qed.
  Lemma only_value ds (c : nat -> R) d : dataseq_of_dict leA d = Ret ds -> (forall k, In k (map fst (ds_seqd ds)) -> cost_one (details_of ds) k = Ret (c k)) ->
    code_residuals ds = Ret (rsum (map (fun x => c (snd x)) (ds_seql ds))).
  Proof.
    intros Ed Hc. apply ds_flat in Ed. destruct Ed as [P _]. rewrite (rsum_perm _ _ (Permutation_map (fun x => c (snd x)) P)). unfold code_residuals. clear P. revert Hc.
    generalize (details_of ds) as dd. generalize (ds_seqd ds) as l. intros l dd. induction l as [|[k ts] l IH]; intros Hc; cbn [map osum concat rsum fst snd]; [reflexivity|].
    rewrite (Hc k) by (left; reflexivity). cbn [bind]. rewrite IH by (intros j I; apply Hc; right; exact I). cbn [bind]. f_equal. rewrite map_app, rsum_app, map_map. cbn [snd]. rewrite (rsum_const ts (c k)). reflexivity.
  Qed.
  Lemma costs_list d (c : nat -> R) (l : list (Z * nat)) : (forall x, In x l -> cost_one d (snd x) = Ret (c (snd x))) -> Forall2 (fun x U => cost_one d (snd x) = Ret U) l (map (fun x => c (snd x)) l).
  Proof. induction l as [|x l IH]; intros Hc; cbn [map]; constructor; [apply Hc; left; reflexivity | apply IH; intros y I; apply Hc; right; exact I]. Qed.
  (* the patterns of a fit speak about the log and are shaped as mined ones are *)
  Definition sound (m : miner A) : Prop :=
    about_log m /\ Forall (fun q => pattern_ok (details_of (m_ds m)) (fst (fst q)) /\ length (snd q) = (nb_occs (fst (fst q)) - 1)%nat) (m_patts m).
  Lemma all_parts auto log mine m : fit leA auto log mine = Ret m -> log <> [] -> sound m ->
    exists Ls un Us Os cov, Forall2 (fun q L => code_length (details_of (m_ds m)) (fst (fst q)) (snd (fst q)) (Some (snd q)) = Ret L) (m_patts m) Ls /\
      NoDup un /\ (forall x, In x un <-> In x (ds_seql (m_ds m)) /\ ~ covered m x) /\ NoDup cov /\ (forall x, In x cov <-> covered m x) /\
      (length cov + length un)%nat = length (nodup eq_dec log) /\
      Forall2 (fun x U => cost_one (details_of (m_ds m)) (snd x) = Ret U) un Us /\ Forall2 (fun x U => cost_one (details_of (m_ds m)) (snd x) = Ret U) (ds_seql (m_ds m)) Os /\
      patterns_length m = Ret (rsum Ls) /\ uncovered m = Ret un /\ residual_sums (details_of (m_ds m)) (nb_uncovered un) = Ret (length un, rsum Us) /\ code_residuals (m_ds m) = Ret (rsum Os).
  Proof.
    intros Hf Hne [Hab Hok]. destruct (fit_good auto log mine m Hf Hne) as [Hd Hin]. destruct (fit_facts leA leA_total leA_trans auto log mine m Hf) as (_ & Ns & _ & _ & _ & _).
    pose (c := fun k => match cost_one (details_of (m_ds m)) k with Ret x => x | _ => 0%R end).
    assert (Hc : forall k, In k (map fst (ds_counts (m_ds m))) -> cost_one (details_of (m_ds m)) k = Ret (c k)).
    { intros k Ik. destruct (proj1 (C83_occurrences _ Hd) k Ik) as (L & E & _). unfold c. rewrite E. reflexivity. }
    assert (Hl : exists Ls, Forall2 (fun (q : patt) L => code_length (details_of (m_ds m)) (fst (fst q)) (snd (fst q)) (Some (snd q)) = Ret L) (m_patts m) Ls /\ patterns_length m = Ret (rsum Ls)).
    { unfold patterns_length. assert (G : forall ps, incl ps (m_patts m) -> exists Ls, Forall2 (fun (q : patt) L => code_length (details_of (m_ds m)) (fst (fst q)) (snd (fst q)) (Some (snd q)) = Ret L) ps Ls /\
      osum (map (fun q : patt => code_length (details_of (m_ds m)) (fst (fst q)) (snd (fst q)) (Some (snd q))) ps) = Ret (rsum Ls)); [|apply G, incl_refl].
      induction ps as [|q ps IH]; intros Hi; [exists []; split; [constructor | reflexivity]|]. destruct IH as (Ls & I1 & I2); [intros y Iy; apply Hi; right; exact Iy|].
      assert (Iq : In q (m_patts m)) by (apply Hi; left; reflexivity). rewrite Forall_forall in Hok. destruct (Hok q Iq) as [O1 O2]. destruct (Hab q Iq) as (cs & C1 & _ & C3).
      destruct (C84_defined (details_of (m_ds m)) (fst (fst q)) (snd (fst q)) (snd q) Hd O1) as (L & EL).
      { split; [exact O2|]. exists cs. split; [exact C1|]. apply Forall_forall. intros x Ix. apply Hin, C3, Ix. }
      exists (L :: Ls). split; [constructor; assumption|]. cbn [map osum]. rewrite EL. cbn [bind]. rewrite I2. reflexivity. }
    destruct Hl as (Ls & L1 & L2).
    assert (Hcov : exists ls, all_some (map (fun p => get_cov_seq (fst (fst p)) (snd (fst p)) (snd p)) (m_patts m)) = Some ls /\
      (forall x, In x (concat ls) <-> covered m x) /\ incl (concat ls) (ds_seql (m_ds m))).
    { destruct log as [|[t0 e0] log]; [congruence|]. destruct (cov_lists m e0) as (ls & C1 & C2 & C3 & _); [|exact Hab | eauto].
      intros x Ix. destruct (fit_facts leA leA_total leA_trans auto _ mine m Hf) as (_ & _ & F1 & _). destruct (F1 x Ix) as (u & [_ E] & _). congruence. }
    destruct Hcov as (ls & C1 & C2 & C3).
    assert (Eu : uncovered m = Ret (filter (fun x => negb (mem x (concat ls))) (ds_seql (m_ds m)))).
    { unfold uncovered. unfold patt in *. rewrite C1. rewrite nodup_fixed_point by exact Ns. reflexivity. }
    set (un := filter (fun x => negb (mem x (concat ls))) (ds_seql (m_ds m))) in *.
    assert (Hun : forall x, In x un <-> In x (ds_seql (m_ds m)) /\ ~ covered m x).
    { intros x. unfold un. rewrite filter_In, <- C2. destruct (mem_spec x (concat ls)) as [I|I]; cbn [negb]; intuition congruence. }
    exists Ls, un, (map (fun x => c (snd x)) un), (map (fun x => c (snd x)) (ds_seql (m_ds m))), (filter (fun x => mem x (concat ls)) (ds_seql (m_ds m))).
    split; [exact L1|]. split; [apply NoDup_filter, Ns|]. split; [exact Hun|]. split; [apply NoDup_filter, Ns|]. split.
    { intros x. rewrite filter_In, <- C2. destruct (mem_spec x (concat ls)) as [I|I]; [|intuition congruence]. split; [auto|]. intros _. split; [apply C3, I | reflexivity]. }
    split.
    { rewrite <- (log_length auto log mine m Hf). unfold un. clear. induction (ds_seql (m_ds m)) as [|x l IH]; cbn [filter length]; [reflexivity|]. destruct (mem x (concat ls)); cbn [negb length]; lia. }
    split; [apply costs_list; intros x Ix; apply Hc, Hin, Hun, Ix|]. split; [apply costs_list; intros x Ix; apply Hc, Hin, Ix|].
    split; [exact L2|]. split; [exact Eu|]. split.
    - unfold nb_uncovered. rewrite count_by_counter. rewrite (residual_sums_spec _ c).
      + rewrite counted_sum, map_map. destruct (counter_total (map snd un)) as [_ T]. do 2 f_equal. etransitivity; [exact T | apply map_length].
      + intros k Ik. apply Hc. apply dget_Some_key in Ik. destruct Ik as (v & Ev). apply VerticalProofs.dget_In, counter_In in Ev. destruct Ev as [Lv Ev].
        assert (I : In k (map snd un)) by (apply (count_occ_In eq_dec); lia). apply in_map_iff in I. destruct I as (x & <- & Ix). apply Hin, Hun, Ix.
    - destruct (fit_data auto log mine m Hf) as (cb & Ed). apply (only_value (m_ds m) c _ Ed). intros k Ik. apply Hc. destruct (ds_flat _ _ Ed) as [_ ->]. exact Ik.
  Qed.
End Fitted.

(* C102: the figures of a fit.  The code lengths of the patterns, the number and the code lengths of
   the occurrences they leave, and, when listing every occurrence of the log costs something, the total,
   that cost and the one in per cent of the other.  What the patterns cover and what is left are
   together the different occurrences of the log. *)
Theorem C102_figures : forall (A : Type) (dec : EqDec A) (leA : A -> A -> bool), (forall x y, leA x y = true \/ leA y x = true) -> (forall x y z, leA x y = true -> leA y z = true -> leA x z = true) ->
  forall auto log mine m, fit leA auto log mine = Ret m -> log <> [] -> sound m ->
  exists st Ls un Us Os cov, global_stats m = Ret st /\
    Forall2 (fun q L => code_length (details_of (m_ds m)) (fst (fst q)) (snd (fst q)) (Some (snd q)) = Ret L) (m_patts m) Ls /\
    NoDup un /\ (forall x, In x un <-> In x (ds_seql (m_ds m)) /\ ~ covered m x) /\ NoDup cov /\ (forall x, In x cov <-> covered m x) /\
    (length cov + length un)%nat = length (nodup eq_dec log) /\
    Forall2 (fun x U => cost_one (details_of (m_ds m)) (snd x) = Ret U) un Us /\
    Forall2 (fun x U => cost_one (details_of (m_ds m)) (snd x) = Ret U) (ds_seql (m_ds m)) Os /\
    dget st (lit "Code length patterns") = Some (Num (rsum Ls)) /\
    dget st (lit "Code length residuals") = Some (Num (rsum Us)) /\
    dget st (lit "Total residual nb") = Some (Count (length un)) /\
    code_collection (details_of (m_ds m)) (m_patts m) un = Ret (rsum Ls + rsum Us)%R /\
    ((exists u v, In u log /\ In v log /\ u <> v) -> (0 < rsum Os)%R /\
       dget st (lit "Code length total") = Some (Num (rsum Ls + rsum Us)%R) /\
       dget st (lit "Total compression ratio") = Some (Num (100 * (rsum Ls + rsum Us) / rsum Os)%R) /\
       dget st (lit "Code length residuals only") = Some (Num (rsum Os))) /\
    ((forall u v, In u log -> In v log -> u = v) -> rsum Os = 0%R /\
       dget st (lit "Code length total") = None /\ dget st (lit "Total compression ratio") = None /\ dget st (lit "Code length residuals only") = None).
Proof.
  intros A dec leA leA_total leA_trans auto log mine m Hf Hne Hs.
  destruct (all_parts leA leA_total leA_trans auto log mine m Hf Hne Hs) as (Ls & un & Us & Os & cov & F1 & N1 & Hun & N2 & Hcov & Hlen & F2 & F3 & E1 & E2 & E3 & E4).
  pose proof (global_shape m _ _ _ _ E1 E2 E3 E4) as G. cbn [fst snd] in G. eexists. exists Ls, un, Us, Os, cov. split; [exact G|].
  do 8 (split; [assumption|]).
  assert (Hget : forall k, ~ In k type_names -> k <> lit "Total patterns nb" ->
    dget ((lit "Total patterns nb", Count (Datatypes.length (m_patts m))) :: map (fun kv => (fst kv, Count (snd kv))) (sorted_types (m_patts m)) ++ tail_stats (rsum Ls) (rsum Us) (Datatypes.length un) (rsum Os)) k
    = dget (tail_stats (rsum Ls) (rsum Us) (Datatypes.length un) (rsum Os)) k).
  { intros k Nk Tk. cbn [dget]. destruct (eq_dec k (lit "Total patterns nb")); [contradiction|]. rewrite dget_app, dget_types. destruct (sorted_types_spec (m_patts m)) as (_ & I & _).
    destruct (dget (sorted_types (m_patts m)) k) as [nn|] eqn:E; [|reflexivity]. exfalso. apply Nk, I. apply dget_Some_key. eauto. }
  assert (NI : forall (k : text) l, forallb (fun j => negb (eqd k j)) l = true -> ~ In k l).
  { intros k l F C. rewrite forallb_forall in F. apply F in C. rewrite (proj2 (eqd_true k k) eq_refl) in C. discriminate. }
  rewrite !Hget by (solve [apply NI; vm_compute; reflexivity | discriminate]).
  split; [reflexivity|]. split; [reflexivity|]. split; [reflexivity|]. split.
  - unfold code_collection. unfold patterns_length in E1. unfold patt in *. rewrite E1. cbn [bind]. clear -F2. assert (E : osum (map (fun o => cost_one (details_of (m_ds m)) (snd o)) un) = Ret (rsum Us)).
    { induction F2 as [|x U l Us E _ IH]; cbn [map osum rsum]; [reflexivity|]. rewrite E. cbn [bind]. rewrite IH. reflexivity. } rewrite E. reflexivity.
  - destruct (fit_good leA leA_total leA_trans auto log mine m Hf Hne) as [Hd Hin].
    destruct (fit_facts leA leA_total leA_trans auto log mine m Hf) as (_ & Ns & S1 & S2 & Inj & _). set (dd := details_of (m_ds m)) in *.
    assert (Hsum : forall l a n, In (a, n) l -> (forall b k, In (b, k) l -> 0 < k) -> n <= total_occs l /\ forall b k, In (b, k) l -> b <> a -> n + k <= total_occs l).
    { clear. unfold total_occs. induction l as [|[b k] l IH]; intros a n I Hp; [destruct I|]. cbn [map fold_right snd].
      assert (Hq : forall b k, In (b, k) l -> 0 < k) by (intros b' k' I'; eapply Hp; right; exact I'). assert (Hk : 0 < k) by (eapply Hp; left; reflexivity).
      assert (H0 : 0 <= fold_right Z.add 0 (map snd l)). { clear -Hq. induction l as [|[b k] l IH]; cbn [map fold_right snd]; [lia|]. assert (0 < k) by (eapply Hq; left; reflexivity). specialize (IH ltac:(intros b' k' I'; eapply Hq; right; exact I')). lia. }
      destruct I as [E|I].
      - injection E as -> ->. split; [lia|]. intros b' k' [E|I'] Nb; [congruence|]. destruct (IH b' k' I' Hq) as [L _]. lia.
      - destruct (IH a n I Hq) as [L1 L2]. split; [lia|]. intros b' k' [E|I'] Nb; [injection E as -> ->; lia | specialize (L2 b' k' I' Nb); lia]. }
    assert (Hcost : forall x, In x (ds_seql (m_ds m)) -> exists n, In (snd x, n) (d_counts dd) /\ 0 < n <= PropCodeLength.total dd /\ cost_one dd (snd x) = Ret (lg (IZR (PropCodeLength.total dd) / IZR n) + lg (IZR (delta_t dd + 1)))%R).
    { intros x Ix. destruct (Hin x Ix) as [_ Ic]. apply in_map_iff in Ic. destruct Ic as ([a n] & Ea & Ic). cbn [fst] in Ea. subst a. exists n. split; [exact Ic|].
      pose proof (gd_pos _ Hd _ _ Ic). split; [split; [assumption | apply (Hsum _ _ _ Ic), (gd_pos _ Hd)]|]. apply cost_one_value; assumption. }
    assert (Hlg : forall q, (1 <= q)%R -> (0 <= lg q)%R) by (intros q Lq; destruct (Rle_lt_or_eq_dec _ _ Lq) as [Q|<-]; [left; rewrite <- lg_1; apply lg_lt; lra | rewrite lg_1; lra]).
    assert (Hlg1 : forall q, (1 < q)%R -> (0 < lg q)%R) by (intros q Lq; rewrite <- lg_1; apply lg_lt; lra).
    pose proof (gd_window _ Hd) as Hw. unfold tail_stats.
    assert (Hnn : forall x U, In x (ds_seql (m_ds m)) -> cost_one dd (snd x) = Ret U -> (0 <= U)%R).
    { intros x U Ix E. destruct (proj1 (C83_occurrences dd Hd) (snd x)) as (L & EL & P); [apply Hin, Ix|]. rewrite E in EL. injection EL as ->. exact P. }
    split.
    + intros (u & v & Iu & Iv & Nuv). destruct (S2 u Iu) as (x & Sx & Ix), (S2 v Iv) as (y & Sy & Iy).
      assert (Nxy : x <> y). { intros <-. apply Nuv. destruct Sx as [X1 X2], Sy as [Y1 Y2]. destruct u, v; cbn [fst snd] in *. congruence. }
      assert (Hx : exists U, cost_one dd (snd x) = Ret U /\ (0 < U)%R).
      { destruct (Hcost x Ix) as (n & In1 & Ln & E). eexists. split; [exact E|]. pose proof (IZR_lt 0 n (proj1 Ln)) as Rn.
        assert (R1 : (1 <= IZR (PropCodeLength.total dd) / IZR n)%R). { apply (Rmult_le_reg_r (IZR n)); [exact Rn|]. unfold Rdiv. rewrite Rmult_assoc, Rinv_l by lra. rewrite Rmult_1_l, Rmult_1_r. apply IZR_le. lia. }
        assert (R2 : (1 <= IZR (delta_t dd + 1))%R) by (apply IZR_le; unfold delta_t; lia).
        destruct (Z.eq_dec (fst x) (fst y)) as [Et|Nt].
        - destruct (Hcost y Iy) as (k & Ik & Lk & _). assert (snd y <> snd x) as Ne by (intros Es; apply Nxy; destruct x, y; cbn [fst snd] in *; congruence).
          pose proof (proj2 (Hsum _ _ _ In1 (gd_pos _ Hd)) _ _ Ik Ne) as Lt. fold (PropCodeLength.total dd) in Lt.
          assert (R3 : (1 < IZR (PropCodeLength.total dd) / IZR n)%R). { apply (Rmult_lt_reg_r (IZR n)); [exact Rn|]. unfold Rdiv. rewrite Rmult_assoc, Rinv_l by lra. rewrite Rmult_1_l, Rmult_1_r. apply IZR_lt. lia. }
          apply Hlg1 in R3. apply Hlg in R2. lra.
        - destruct (Hin x Ix) as [B1 _], (Hin y Iy) as [B2 _]. assert (R3 : (1 < IZR (delta_t dd + 1))%R) by (apply IZR_lt; unfold delta_t, dd, details_of; cbn [d_start d_end]; lia).
          apply Hlg1 in R3. apply Hlg in R1. lra. }
      assert (Hpos : (0 < rsum Os)%R).
      { destruct Hx as (U & EU & PU). clear -F3 Hnn Ix EU PU. revert Ix Hnn. induction F3 as [|z V l Os EV F3' IH]; intros Ix Hnn; [destruct Ix|]. cbn [rsum].
        assert (Hr : (0 <= rsum Os)%R). { apply rsum_nonneg. clear -F3' Hnn. apply Forall_forall. intros W IW. assert (Hz : exists z', In z' l /\ cost_one dd (snd z') = Ret W). { clear Hnn. induction F3' as [|a b l Os Eab _ IH]; [destruct IW|]. destruct IW as [<-|IW]; [exists a; split; [left; reflexivity | exact Eab]|]. destruct (IH IW) as (z' & I' & E'). exists z'. split; [right; exact I' | exact E']. }
          destruct Hz as (z' & Iz & Ez). apply (Hnn z'); [right; exact Iz | exact Ez]. }
        destruct Ix as [->|Ix].
        - rewrite EU in EV. injection EV as <-. lra.
        - assert (0 <= V)%R by (apply (Hnn z); [left; reflexivity | exact EV]). specialize (IH Ix ltac:(intros a b Ia Eb; apply (Hnn a); [right; exact Ia | exact Eb])). lra. }
      split; [exact Hpos|]. destruct (Rlt_dec 0 (rsum Os)) as [_|C]; [|contradiction]. repeat split.
    + intros Hall. assert (L1 : length (ds_seql (m_ds m)) = 1%nat).
      { rewrite (log_length leA leA_total leA_trans auto log mine m Hf). destruct log as [|u log]; [congruence|]. assert (Nd := NoDup_nodup eq_dec (u :: log)). assert (Hi : forall v, In v (nodup eq_dec (u :: log)) -> v = u).
        { intros v Iv. apply nodup_In in Iv. apply Hall; [exact Iv | left; reflexivity]. }
        assert (Iu : In u (nodup eq_dec (u :: log))) by (apply nodup_In; left; reflexivity). destruct (nodup eq_dec (u :: log)) as [|a [|b q]]; [destruct Iu | reflexivity|].
        exfalso. inversion Nd as [|? ? Na _]; subst. apply Na. rewrite (Hi a), (Hi b) by (cbn; auto). left. reflexivity. }
      destruct (fit_data leA auto log mine m Hf) as (cb & Ed). destruct (C38_sequence leA leA_total leA_trans cb) as (s & Es & R). rewrite Ed in Es. injection Es as <-.
      assert (Lc : length cb = 1%nat) by (pose proof (Permutation_length (rp_log _ _ _ R)) as P; rewrite !map_length in P; lia). destruct cb as [|[t0 e0] [|]]; try discriminate Lc.
      destruct (rp_extent _ _ _ R t0 e0 (or_introl eq_refl)) as ((e1 & [X1|[]]) & (e2 & [X2|[]]) & _). injection X1 as X1 _. injection X2 as X2 _.
      pose proof (rp_total _ _ _ R) as Ht. change (total_occs (ds_counts (m_ds m))) with (PropCodeLength.total dd) in Ht. cbn [length] in Ht. change (Z.of_nat 1) with 1 in Ht.
      assert (H0 : rsum Os = 0%R).
      { destruct F3 as [|x U [|] Os EU F3']; [reflexivity | | discriminate L1]. inversion F3'; subst. cbn [rsum]. destruct (Hcost x (or_introl eq_refl)) as (n & _ & Ln & E). rewrite EU in E. injection E as ->.
        rewrite Ht in *. assert (n = 1) as -> by lia. replace (delta_t dd + 1) with 1 by (unfold delta_t, dd, details_of; cbn [d_start d_end]; lia). unfold Rdiv. rewrite Rinv_1, Rmult_1_r, lg_1. lra. }
      split; [exact H0|]. rewrite H0. destruct (Rlt_dec 0 0) as [C|_]; [lra|]. repeat split.
Qed.
Print Assumptions C102_figures.

(* C102: strDetailed gives the same figures when some pattern is simple and raises KeyError otherwise *)
Theorem C102_str_detailed : forall (A : Type) (m : miner A) st, Forall (fun q => full (fst (fst q))) (m_patts m) -> global_stats m = Ret st ->
  ((exists q, In q (m_patts m) /\ chain 1 (fst (fst q))) -> exists cl only clR n nbR, str_detailed m = Ret (cl + clR, only, clR, n, nbR, length (m_patts m))%R /\
     dget st (lit "Code length patterns") = Some (Num cl) /\ dget st (lit "Code length residuals") = Some (Num clR) /\
     dget st (lit "simple") = Some (Count n) /\ dget st (lit "Total residual nb") = Some (Count nbR) /\
     dget st (lit "Code length residuals only") = if Rlt_dec 0 only then Some (Num only) else None) /\
  ((forall q, In q (m_patts m) -> ~ chain 1 (fst (fst q))) -> str_detailed m = Exn KeyError).
Proof.
  intros A m st F E. destruct (global_parts m st E) as (cl & un & r & only & E1 & E2 & E3 & E4). rewrite (global_shape m cl un r only E1 E2 E3 E4) in E. injection E as <-.
  assert (Es : dget (by_type (m_patts m)) (lit "simple") = dget (sorted_types (m_patts m)) (lit "simple")).
  { rewrite dget_sorted_types. unfold by_type. rewrite count_by_counter, counter_spec. unfold occurs. reflexivity. }
  assert (Hk : forall q, In q (m_patts m) -> (chain 1 (fst (fst q)) <-> type_str (fst (fst q)) = lit "simple")).
  { intros q Iq. rewrite Forall_forall in F. rewrite (C102_types _ _ (F q Iq)). unfold kind. split; [auto|]. intros [[_ C]|[[C _]|[[C _]|[C _]]]]; [exact C | discriminate C | discriminate C | discriminate C]. }
  unfold str_detailed. rewrite E1. cbn [bind]. rewrite E2. cbn [bind]. rewrite E3. cbn [bind]. rewrite E4. cbn [bind]. rewrite Es. rewrite dget_sorted_types.
  assert (Hget : forall k, ~ In k type_names -> k <> lit "Total patterns nb" ->
    dget ((lit "Total patterns nb", Count (Datatypes.length (m_patts m))) :: map (fun kv => (fst kv, Count (snd kv))) (sorted_types (m_patts m)) ++ tail_stats cl (snd r) (fst r) only) k
    = dget (tail_stats cl (snd r) (fst r) only) k).
  { intros k Nk Tk. cbn [dget]. destruct (eq_dec k (lit "Total patterns nb")); [contradiction|]. rewrite dget_app, dget_types. destruct (sorted_types_spec (m_patts m)) as (_ & I & _).
    destruct (dget (sorted_types (m_patts m)) k) as [nn|] eqn:Ek; [|reflexivity]. exfalso. apply Nk, I. apply dget_Some_key. eauto. }
  assert (NI : forall (k : text) l, forallb (fun j => negb (eqd k j)) l = true -> ~ In k l).
  { intros k l Fl C. rewrite forallb_forall in Fl. apply Fl in C. rewrite (proj2 (eqd_true k k) eq_refl) in C. discriminate. }
  split.
  - intros (q & Iq & Cq). destruct (count_occ eq_dec (map (fun q : patt => type_str (fst (fst q))) (m_patts m)) (lit "simple")) as [|n] eqn:Ec.
    { exfalso. apply (count_occ_not_In eq_dec) in Ec. apply Ec. apply in_map_iff. exists q. split; [apply Hk; assumption | exact Iq]. }
    exists cl, only, (snd r), (S n), (fst r). split; [reflexivity|]. rewrite (Hget (lit "Code length patterns")), (Hget (lit "Code length residuals")), (Hget (lit "Total residual nb")), (Hget (lit "Code length residuals only")) by (solve [apply NI; vm_compute; reflexivity | discriminate]).
    split; [reflexivity|]. split; [reflexivity|]. split.
    + cbn [dget]. destruct (eq_dec (lit "simple") (lit "Total patterns nb")) as [C|_]; [discriminate C|]. rewrite dget_app, dget_types, dget_sorted_types. unfold patt in *. rewrite Ec. reflexivity.
    + split; [reflexivity|]. unfold tail_stats. destruct (Rlt_dec 0 only); reflexivity.
  - intros Hno. destruct (count_occ eq_dec (map (fun q : patt => type_str (fst (fst q))) (m_patts m)) (lit "simple")) as [|n] eqn:Ec; [reflexivity|].
    exfalso. assert (I : In (lit "simple") (map (fun q : patt => type_str (fst (fst q))) (m_patts m))) by (apply (count_occ_In eq_dec); unfold patt in *; lia).
    apply in_map_iff in I. destruct I as (q & Eq & Iq). apply (Hno q Iq), Hk; assumption.
Qed.
Print Assumptions C102_str_detailed.

(* C102: a fit with complex=False of a log in chronological order meets the hypotheses of C102_figures,
   and all its patterns are of type simple *)
Lemma period_positive l p : StronglySorted Z.lt l -> compute_period l = Some p -> 1 <= p.
Proof.
  intros Hs E. apply period_bounds in E. destruct E as [Hne [B1 _]]. set (ds := diffs l) in *.
  assert (Hd : forall d, In d ds -> 1 <= d).
  { unfold ds. clear -Hs. induction Hs as [|a l Hs IH Ha]; intros d I; [destruct I|]. destruct l as [|b l]; [destruct I|]. destruct I as [<-|I]; [inversion Ha; subst; lia | apply IH, I]. }
  assert (0 < length ds)%nat by (destruct ds; [congruence | cbn; lia]). assert ((length ds - 1) / 2 < length ds)%nat by (apply Nat.div_lt_upper_bound; lia).
  assert (1 <= nth ((length ds - 1) / 2) (sort Z.leb ds) 0); [|lia]. apply Hd. apply (Permutation_in _ (sort_perm Z.leb ds)). apply nth_In. rewrite (Permutation_length (sort_perm Z.leb ds)). assumption.
Qed.
Theorem C102_mined : forall (A : Type) (dec : EqDec A) (leA : A -> A -> bool), (forall x y, leA x y = true \/ leA y x = true) -> (forall x y z, leA x y = true -> leA y z = true -> leA x z = true) ->
  forall cyc trip one auto log sfuel m r, StronglySorted (fun u v => fst u <= fst v) log -> fit leA auto log (miner_of cyc trip one sfuel) = Ret m ->
  mine_simple cyc trip one sfuel (m_ds m) = Ret r -> log <> [] -> sound m /\ Forall (fun q => full (fst (fst q)) /\ chain 1 (fst (fst q))) (m_patts m).
Proof.
  intros A dec leA leA_total leA_trans cyc trip one auto log sfuel m [[cands sel] ps] Hs Hfit Hmine Hne.
  destruct (fit_sequence leA leA_total leA_trans cyc trip one auto log (miner_of cyc trip one sfuel)) as (m' & cb & E & Hrep & Ep & Hshow & Hmono). rewrite Hfit in E. injection E as <-.
  assert (Hch : forall a, chronological (times (m_ds m) a)).
  { intros a. apply chrono_sorted. unfold times. destruct (nth_error (ds_events (m_ds m)) a) as [e|] eqn:Ee.
    - rewrite (rp_one _ _ _ Hrep a e Ee). eapply sequence_chrono; eassumption.
    - rewrite (rp_none _ _ _ Hrep a Ee). constructor. }
  unfold miner_of in Ep. rewrite Hmine in Ep. destruct (C82_patterns leA cyc trip one cb (m_ds m) sfuel cands sel ps Hrep Hmine) as (chosen & Ec & Hcy & _).
  destruct (fit_good leA leA_total leA_trans auto log _ m Hfit Hne) as [Hd Hin].
  split; [split|].
  - eapply C82_about_log; eassumption.
  - rewrite Ep, Ec. apply Forall_forall. intros q Iq. apply in_map_iff in Iq. destruct Iq as ([a c] & <- & Ia). rewrite Forall_forall in Hcy. destruct (Hcy _ Ia) as (La & L3 & Hp & Hi & Hso & _).
    cbn [fst snd] in *. unfold chosen_patt. cbn [fst snd]. split.
    + exists (length (y_occs c)), (y_p c), [(Leaf 1 a, 0)]. split; [reflexivity|]. split; [lia|]. split; [eapply period_positive; [apply Hso, Hch | exact Hp]|]. split; [eauto|].
      constructor; [|constructor]. cbn [fst snd]. split; [lia|]. constructor; [lia|]. destruct (y_occs c) as [|o os] eqn:Eo; [cbn in L3; lia|].
      change (In (snd (o, a)) (map fst (ds_counts (m_ds m)))). apply Hin. eapply times_log; [eassumption..|]. apply Hi. left. reflexivity.
    + rewrite simple_nb. clear. induction (y_occs c) as [|x [|y l] IH]; [reflexivity | reflexivity|]. unfold compute_E in *. cbn [diffs map length] in *. rewrite IH. lia.
  - rewrite Ep, Ec. apply Forall_forall. intros q Iq. apply in_map_iff in Iq. destruct Iq as ([a c] & <- & Ia). unfold chosen_patt, simple_tree. cbn [fst snd]. split; [|constructor; constructor].
    constructor; [discriminate|]. constructor; [constructor | constructor].
Qed.
Print Assumptions C102_mined.

(* the events of a pattern *)
Inductive has_event {A} (a : A) : tree A -> Prop :=
| event_here n : has_event a (Leaf n a)
| event_inside n r p ch c ds : In (c, ds) ch -> has_event a c -> has_event a (Node n r p ch).
Theorem C102_alphabet : forall (A : Type) (dec : EqDec A) (t : tree A), NoDup (alphabet t) /\ forall a, In a (alphabet t) <-> has_event a t.
Proof.
  intros A dec t. split; [apply NoDup_nodup|]. intros a. unfold alphabet. rewrite nodup_In. induction t as [n b|n r p ch IH] using tree_ind_full; cbn [alphabet_all].
  - split; [intros [->|[]]; constructor | intros E; inversion E; left; reflexivity].
  - rewrite in_flat_map. rewrite Forall_forall in IH. split.
    + intros ([c ds] & Ic & I). apply (event_inside _ _ _ _ _ c ds Ic). apply (IH (c, ds) Ic), I.
    + intros E. inversion E as [|? ? ? ? c ds Ic I]; subst. exists (c, ds). split; [exact Ic | apply (IH (c, ds) Ic), I].
Qed.
Print Assumptions C102_alphabet.

(* A concrete case: four occurrences of event 0 described by a nested pattern and one of event 1 left. *)
Definition C102_tree : tree nat := Node 0 2 10 [(Node 1 2 2 [(Leaf 2 0%nat, 0)], 0)].
Definition C102_log : list (Z * nat) := [(0, 0%nat); (2, 0%nat); (5, 1%nat); (10, 0%nat); (12, 0%nat)].
Definition C102_mine (_ : @dataseq nat) : list patt := [(C102_tree, 0, [0; 0; 0])].
Example C102_case : exists m st, fit Nat.leb false C102_log C102_mine = Ret m /\ sound m /\ Forall (fun q => full (fst (fst q))) (m_patts m) /\ global_stats m = Ret st /\
  dget st (lit "nested") = Some (Count 1) /\ dget st (lit "simple") = None /\ dget st (lit "Total residual nb") = Some (Count 1) /\ dget st (lit "Total compression ratio") <> None /\
  str_detailed m = Exn KeyError.
Proof.
  destruct (fit Nat.leb false C102_log C102_mine) as [m|e|] eqn:Ef; [| vm_compute in Ef; discriminate Ef | vm_compute in Ef; discriminate Ef].
  assert (Em : m_patts m = [(C102_tree, 0, [0; 0; 0])]) by (vm_compute in Ef; injection Ef as <-; reflexivity).
  assert (Ed : ds_seql (m_ds m) = [(0, 0%nat); (2, 0%nat); (5, 1%nat); (10, 0%nat); (12, 0%nat)]) by (vm_compute in Ef; injection Ef as <-; reflexivity).
  assert (Ec : map fst (ds_counts (m_ds m)) = [0%nat; 1%nat]) by (vm_compute in Ef; injection Ef as <-; reflexivity).
  assert (Hs : sound m).
  { split.
    - intros p I. rewrite Em in I. destruct I as [<-|[]]. eexists. split; [vm_compute; reflexivity|]. split; [discriminate|]. rewrite Ed. intros x Ix. cbn [In] in *. tauto.
    - rewrite Em. constructor; [|constructor]. cbn [fst snd]. split; [|reflexivity]. exists 2%nat, 10, [(Node 1 2 2 [(Leaf 2 0%nat, 0)], 0)]. split; [reflexivity|]. split; [lia|]. split; [lia|]. split; [eauto|].
      constructor; [|constructor]. cbn [fst snd]. split; [lia|]. constructor; [lia | lia | lia | eauto |]. constructor; [|constructor]. cbn [fst snd]. split; [lia|]. constructor; [lia|].
      change (In 0%nat (map fst (ds_counts (m_ds m)))). rewrite Ec. left. reflexivity. }
  assert (Hfull : Forall (fun q => full (fst (fst q))) (m_patts m)).
  { rewrite Em. constructor; [|constructor]. cbn [fst]. constructor; [discriminate|]. constructor; [|constructor]. constructor; [discriminate|]. constructor; constructor. }
  assert (L1 : forall x y, Nat.leb x y = true \/ Nat.leb y x = true) by (intros x y; rewrite !Nat.leb_le; lia).
  assert (L2 : forall x y z, Nat.leb x y = true -> Nat.leb y z = true -> Nat.leb x z = true) by (intros x y z; rewrite !Nat.leb_le; lia).
  destruct (C102_figures nat _ Nat.leb L1 L2 false C102_log C102_mine m Ef ltac:(discriminate) Hs) as (st & Ls & un & Us & Os & cov & Eg & _ & N1 & Hun & _ & _ & _ & _ & _ & _ & _ & Er & _ & Hr & _).
  destruct (C102_counts nat m st Hfull Eg) as (_ & Hc & _). exists m, st. split; [reflexivity|]. split; [exact Hs|]. split; [exact Hfull|]. split; [exact Eg|].
  assert (Hch : forall k, (1 <= k)%nat -> chain k C102_tree -> k = 2%nat) by (intros k _ C; apply chain_depth in C; destruct C as [<- _]; reflexivity).
  assert (Ch2 : chain 2 C102_tree) by (repeat constructor).
  split; [|split; [|split; [|split]]].
  - destruct (Hc (lit "nested") ltac:(cbn; tauto)) as (is & Ni & Hi & ->). rewrite Em in Hi. assert (E : forall i, In i is <-> i = O).
    { intros i. rewrite Hi. split; [intros (q & E & _); destruct i as [|[|i]]; [reflexivity | discriminate | destruct i; discriminate]|]. intros ->. eexists. split; [reflexivity|]. cbn [fst]. right. left. split; [reflexivity|]. exists 2%nat. auto. }
    destruct is as [|a [|b is]]; [exfalso; apply (proj2 (E O) eq_refl) | reflexivity|]. exfalso. inversion Ni as [|? ? Na _]; subst. apply Na. left. rewrite (proj1 (E a)), (proj1 (E b)); [reflexivity | right; left; reflexivity | left; reflexivity].
  - destruct (Hc (lit "simple") ltac:(cbn; tauto)) as (is & Ni & Hi & ->). destruct is as [|i is]; [reflexivity|]. exfalso. destruct (proj1 (Hi i) (or_introl eq_refl)) as (q & Eq & K). rewrite Em in Eq. destruct i as [|[|i]]; [|discriminate Eq|discriminate Eq].
    injection Eq as <-. cbn [fst] in K. destruct K as [[_ C]|[[C _]|[[C _]|[C _]]]]; try discriminate C. apply Hch in C; [discriminate C | lia].
  - rewrite Er. do 2 f_equal. assert (Hx : forall x, In x un <-> x = (5, 1%nat)).
    { intros x. rewrite Hun, Ed. split.
      - intros [I Nc]. cbn [In] in I. assert (Hcv : forall y, In y [(0, 0%nat); (2, 0%nat); (10, 0%nat); (12, 0%nat)] -> covered m y).
        { intros y Iy. exists (C102_tree, 0, [0; 0; 0]). eexists. rewrite Em. split; [left; reflexivity|]. split; [vm_compute; reflexivity|]. cbn [In] in *. tauto. }
        destruct I as [<-|[<-|[<-|[<-|[<-|[]]]]]]; try reflexivity; exfalso; apply Nc, Hcv; cbn [In]; tauto.
      - intros ->. split; [cbn [In]; tauto|]. intros (p & cs & Ip & Ecs & Ics). rewrite Em in Ip. destruct Ip as [<-|[]]. vm_compute in Ecs. injection Ecs as <-. cbn [In] in Ics. intuition discriminate. }
    destruct un as [|a [|b un]]; [exfalso; apply (proj2 (Hx _) eq_refl) | reflexivity|]. exfalso. inversion N1 as [|? ? Na _]; subst. apply Na. left. rewrite (proj1 (Hx a)), (proj1 (Hx b)); [reflexivity | right; left; reflexivity | left; reflexivity].
  - destruct Hr as (_ & _ & -> & _); [|discriminate]. exists (0, 0%nat), (2, 0%nat). split; [left; reflexivity|]. split; [right; left; reflexivity | discriminate].
  - apply (C102_str_detailed nat m st Hfull Eg). intros q Iq C. rewrite Em in Iq. destruct Iq as [<-|[]]. cbn [fst] in C. apply Hch in C; [discriminate C | lia].
Qed.
