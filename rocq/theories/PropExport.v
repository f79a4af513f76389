(* C48: exporting and importing patterns. *)
From Coq Require Import String NArith.
From Verif Require Import Prelude CheckModel LCMModel VerticalProofs TextModel SplitModel SplitProofs ArrayModel PeriodModel PropPeriod TreeModel TreeProofs CyclesModel PropCycles ExportModel.
Local Open Scope Z_scope.

(* -------------------------------------------------------------- specification *)
Definition special (k : jkey) : Prop := k = KS (lit "next_id") \/ k = KS (lit "t0") \/ k = KS (lit "E").
(* Pattern.nodes: each node id once, each record of the documented form; the three keys that an
   earlier export left behind may be there too *)
Definition proper (o : opatt) : Prop :=
  NoDup (dkeys (op_nodes o)) /\
  forall k v, In (k, v) (op_nodes o) -> special k \/ exists n pn, k = KI (Z.of_nat n) /\ v = enc_node pn.
Definition string_events (log : list (Z * evname)) : Prop := forall t e, In (t, e) log -> exists s, e = EStr s.

(* --------------------------------------------------------------------- proofs *)
Lemma dset_In {K V} `{EqDec K} (d : dict K V) k v k' v' : NoDup (dkeys d) ->
  In (k', v') (dset d k v) -> (k' = k /\ v' = v) \/ In (k', v') d.
Proof.
  intros Hn Hi. apply (In_dget _ _ _ (NoDup_dset d k v Hn)) in Hi. rewrite VerticalProofs.dget_dset in Hi.
  destruct (eq_dec k' k); [left; split; congruence | right; apply VerticalProofs.dget_In, Hi].
Qed.
Lemma dset_has {K V} `{EqDec K} (d : dict K V) k v : NoDup (dkeys d) -> In (k, v) (dset d k v).
Proof. intros Hn. apply VerticalProofs.dget_In. rewrite VerticalProofs.dget_dset. destruct (eq_dec k k); congruence. Qed.
Lemma dset_keeps {K V} `{EqDec K} (d : dict K V) k v k' v' : NoDup (dkeys d) -> k' <> k -> In (k', v') d -> In (k', v') (dset d k v).
Proof.
  intros Hn Hk Hi. apply VerticalProofs.dget_In. rewrite VerticalProofs.dget_dset. destruct (eq_dec k' k); [contradiction|]. apply In_dget; assumption.
Qed.
Lemma NoDup_map_on {X Y} (f : X -> Y) l : (forall x y, In x l -> In y l -> f x = f y -> x = y) -> NoDup l -> NoDup (map f l).
Proof.
  intros Hf Hn. induction Hn as [|x l Hx Hl IH]; simpl; constructor.
  - intros Hc. apply in_map_iff in Hc. destruct Hc as (y & E & Hy). apply Hf in E; [congruence | right; exact Hy | left; reflexivity].
  - apply IH. intros a b Ha Hb. apply Hf; right; assumption.
Qed.
Lemma NoDup_of_keys {K V} (d : list (K * V)) : NoDup (map fst d) -> NoDup d.
Proof. apply NoDup_map_inv. Qed.
(* keys mapped injectively *)
Lemma NoDup_keys_map {K K' V V'} (f : K * V -> K' * V') (d : list (K * V)) : NoDup (map fst d) ->
  (forall x y, In x d -> In y d -> fst (f x) = fst (f y) -> fst x = fst y) -> NoDup (map fst (map f d)).
Proof.
  intros Hn Hf. rewrite map_map. apply NoDup_map_on; [|apply NoDup_of_keys, Hn].
  intros x y Hx Hy E. apply Hf in E; auto. destruct x as [k v], y as [k' v']. simpl in E; subst k'. f_equal.
  clear Hf. induction d as [|[a b] d IH]; [destruct Hx|]. simpl in Hn. inversion Hn as [|? ? Ha Hn']; subst.
  destruct Hx as [Hx|Hx], Hy as [Hy|Hy].
  - congruence.
  - injection Hx as -> ->. exfalso. apply Ha. apply (in_map fst _ _ Hy).
  - injection Hy as -> ->. exfalso. apply Ha. apply (in_map fst _ _ Hx).
  - apply IH; assumption.
Qed.
Lemma str_z_inj a b : str_z a = str_z b -> a = b.
Proof. intros E. apply (f_equal parse_int) in E. rewrite !parse_str_z in E. congruence. Qed.
Lemma special_text k : special k -> exists s, k = KS s /\ parse_int s = None.
Proof. intros [-> | [-> | ->]]; eexists; (split; [reflexivity | vm_compute; reflexivity]). Qed.

Definition inner_conv (w : jv) : jv :=
  match w with
  | JList l => JList (map (fun x => match x with JDict _ => to_int_keys x | _ => x end) l)
  | JDict _ => to_int_keys w
  | _ => w
  end.
Lemma conv_node pn : read_node (inner_conv (jsonify (enc_node pn))) = read_node (enc_node pn).
Proof.
  destruct pn as [pa e | pa p r ch]; [reflexivity|].
  unfold enc_node, read_node. cbn [jsonify map]. 
  assert (E : forall l, map (fun x => match x with JDict _ => to_int_keys x | _ => x end)
                 (map jsonify (map (fun c : nat * Z => JTuple [jnat (fst c); JInt (snd c)]) l))
               = map (fun c => JList [jnat (fst c); JInt (snd c)]) l).
  { induction l as [|c l IH]; [reflexivity|]. cbn [map]. rewrite IH. reflexivity. }
  assert (E2 : forall l, map as_child (map (fun c : nat * Z => JList [jnat (fst c); JInt (snd c)]) l)
               = map as_child (map (fun c : nat * Z => JTuple [jnat (fst c); JInt (snd c)]) l)) by (intros l; rewrite !map_map; reflexivity).
  assert (E3 : forall L, inner_conv (JDict (dict_of [(KS (lit "parent"), jsonify (jparent pa)); (KS (lit "p"), JInt p); (KS (lit "r"), jsonify (jnat r)); (KS (lit "children"), JList L)]))
      = JDict [(KS (lit "parent"), jparent pa); (KS (lit "p"), JInt p); (KS (lit "r"), jnat r);
          (KS (lit "children"), JList (map (fun x => match x with JDict _ => to_int_keys x | _ => x end) L))]).
  { intros L. destruct pa; reflexivity. }
  cbn [key_str jsonify] in *. rewrite E3, E. unfold get. simpl. rewrite <- E2. reflexivity.
Qed.

Lemma as_ints_JInt l : as_ints (jsonify (JList (map JInt l))) = Some l.
Proof. simpl. apply all_some_inv. rewrite !map_map. reflexivity. Qed.
Lemma mark_nodup o : NoDup (dkeys (op_nodes o)) -> NoDup (dkeys (op_nodes (mark o))).
Proof. intros Hn. simpl. repeat apply NoDup_dset. exact Hn. Qed.
Lemma mark_proper o : proper o -> proper (mark o).
Proof.
  intros [Hn Hk]. split; [apply mark_nodup, Hn|]. intros k v Hi. simpl in Hi. unfold special.
  apply dset_In in Hi; [|repeat apply NoDup_dset; exact Hn]. destruct Hi as [[-> _]|Hi]; [auto|].
  apply dset_In in Hi; [|repeat apply NoDup_dset; exact Hn]. destruct Hi as [[-> _]|Hi]; [auto|].
  apply dset_In in Hi; [|exact Hn]. destruct Hi as [[-> _]|Hi]; [auto|]. apply Hk, Hi.
Qed.
Definition node_at (d : jdict) (n : nat) := match dget d (KI (Z.of_nat n)) with Some v => read_node v | None => None end.
Lemma read_tree_ext d d' : (forall n, node_at d n = node_at d' n) -> forall fuel n, read_tree d fuel n = read_tree d' fuel n.
Proof.
  intros Hx. induction fuel as [|fuel IH]; intros n; [reflexivity|]. simpl. specialize (Hx n). unfold node_at in Hx.
  assert (Hm : forall ch : list (nat * Z), map (fun c => option_map (fun t => (t, snd c)) (read_tree d fuel (fst c))) ch
             = map (fun c => option_map (fun t => (t, snd c)) (read_tree d' fuel (fst c))) ch) by (intros ch; apply map_ext; intros c; rewrite IH; reflexivity).
  assert (Hg : forall d0 : jdict, match dget d0 (KI (Z.of_nat n)) with
      | Some v => match read_node v with
          | Some (inl e) => Some (Leaf n e)
          | Some (inr (p, r, ch)) => match all_some (map (fun c => option_map (fun t => (t, snd c)) (read_tree d0 fuel (fst c))) ch) with
              | Some l => Some (Node n r p l) | None => None end
          | None => None end
      | None => None end =
      match (match dget d0 (KI (Z.of_nat n)) with Some v => read_node v | None => None end) with
      | Some (inl e) => Some (Leaf n e)
      | Some (inr (p, r, ch)) => match all_some (map (fun c => option_map (fun t => (t, snd c)) (read_tree d0 fuel (fst c))) ch) with
          | Some l => Some (Node n r p l) | None => None end
      | None => None end).
  { intros d0. destruct (dget d0 _); reflexivity. }
  rewrite (Hg d), (Hg d'), Hx. destruct (match dget d' (KI (Z.of_nat n)) with Some v => read_node v | None => None end) as [[e|[[p r] ch]]|]; auto.
  rewrite Hm. reflexivity.
Qed.
Lemma mark_reads o fuel : NoDup (dkeys (op_nodes o)) -> read_patt fuel (mark o) = read_patt fuel o.
Proof.
  intros Hn. unfold read_patt. simpl op_t0. simpl op_E. f_equal. apply read_tree_ext. intros n. unfold node_at. simpl op_nodes.
  rewrite !VerticalProofs.dget_dset. repeat match goal with |- context [eq_dec ?a ?b] => destruct (eq_dec a b); [congruence|] end. reflexivity.
Qed.
Lemma import_patt_spec o : proper o -> exists o', import_patt (jsonify (JDict (op_nodes (mark o)))) = Ret o' /\
  op_next o' = op_next o /\ op_t0 o' = op_t0 o /\ op_E o' = op_E o /\ forall n, node_at (op_nodes o') n = node_at (op_nodes o) n.
Proof.
  intros Hp. pose proof (mark_proper o Hp) as [Hn2 Hk2]. destruct Hp as [Hn Hk]. set (nd2 := op_nodes (mark o)) in *.
  cbn [jsonify]. set (f := fun kv : jkey * jv => match kv with (k, w) => (key_str k, jsonify w) end).
  assert (Hnj : NoDup (map fst (map f nd2))).
  { apply NoDup_keys_map; [exact Hn2|]. intros [k v] [k' v'] H1 H2. simpl. apply Hk2 in H1. apply Hk2 in H2.
    destruct H1 as [H1|(n & pn & -> & _)], H2 as [H2|(n' & pn' & -> & _)]; simpl.
    - apply special_text in H1. apply special_text in H2. destruct H1 as (s & -> & _), H2 as (s' & -> & _). simpl. auto.
    - apply special_text in H1. destruct H1 as (s & -> & Hs). simpl. intros E. injection E as ->. rewrite parse_str_z in Hs. discriminate.
    - apply special_text in H2. destruct H2 as (s & -> & Hs). simpl. intros E. injection E as <-. rewrite parse_str_z in Hs. discriminate.
    - intros E. injection E as E. apply str_z_inj in E. congruence. }
  rewrite dict_of_NoDup by exact Hnj. set (js := map f nd2) in *.
  assert (Hjs : forall k v, In (k, v) nd2 -> dget js (key_str k) = Some (jsonify v)).
  { intros k v Hi. apply In_dget; [exact Hnj|]. apply (in_map f) in Hi. exact Hi. }
  assert (G1 : get js "next_id" = Some (JInt (op_next o))).
  { apply (Hjs (KS (lit "next_id")) (JInt (op_next o))). unfold nd2; simpl. apply dset_keeps; [repeat apply NoDup_dset; exact Hn | discriminate|].
    apply dset_keeps; [repeat apply NoDup_dset; exact Hn | discriminate|]. apply dset_has, Hn. }
  assert (G2 : get js "t0" = Some (JInt (op_t0 o))).
  { apply (Hjs (KS (lit "t0")) (JInt (op_t0 o))). unfold nd2; simpl. apply dset_keeps; [repeat apply NoDup_dset; exact Hn | discriminate|].
    apply dset_has, NoDup_dset, Hn. }
  assert (G3 : get js "E" = Some (jsonify (JList (map JInt (op_E o))))).
  { apply (Hjs (KS (lit "E")) (JList (map JInt (op_E o)))). unfold nd2; simpl. apply dset_has, NoDup_dset, NoDup_dset, Hn. }
  unfold import_patt. rewrite G1, G2, G3. rewrite as_ints_JInt. cbn [to_int_keys].
  set (rest := ddel (ddel (ddel js (KS (lit "next_id"))) (KS (lit "t0"))) (KS (lit "E"))).
  assert (Hrest : forall kv, In kv rest <-> In kv js /\ ~ special (fst kv)).
  { intros kv. unfold rest, ddel, special. rewrite !filter_In, !negb_true_iff, !eqd_false. intuition congruence. }
  assert (Hnr : NoDup (map fst rest)).
  { apply NoDup_map_on; [|unfold rest, ddel; repeat apply NoDup_filter; apply NoDup_of_keys, Hnj].
    intros [k v] [k' v'] H1 H2 E. simpl in E. subst k'. apply Hrest in H1. apply Hrest in H2. f_equal.
    apply proj1 in H1. apply proj1 in H2. apply (In_dget _ _ _ Hnj) in H1. apply (In_dget _ _ _ Hnj) in H2. congruence. }
  assert (Hform : forall k v, In (k, v) rest <-> exists n pn, k = KS (str_z (Z.of_nat n)) /\ v = jsonify (enc_node pn) /\ In (KI (Z.of_nat n), enc_node pn) (op_nodes o)).
  { intros k v. rewrite Hrest. split.
    - intros [Hi Hs]. apply in_map_iff in Hi. destruct Hi as ([k0 v0] & E & Hi). simpl in E. injection E as <- <-.
      pose proof (Hk2 _ _ Hi) as [Hsp|(n & pn & -> & ->)].
      + exfalso. apply Hs. simpl. apply special_text in Hsp as Hx. destruct Hx as (s & -> & _). simpl. exact Hsp.
      + exists n, pn. repeat split. unfold nd2 in Hi. simpl in Hi.
        apply dset_In in Hi; [|repeat apply NoDup_dset; exact Hn]. destruct Hi as [[Hc _]|Hi]; [discriminate|].
        apply dset_In in Hi; [|repeat apply NoDup_dset; exact Hn]. destruct Hi as [[Hc _]|Hi]; [discriminate|].
        apply dset_In in Hi; [|exact Hn]. destruct Hi as [[Hc _]|Hi]; [discriminate|]. exact Hi.
    - intros (n & pn & -> & -> & Hi). split.
      + change (KS (str_z (Z.of_nat n)), jsonify (enc_node pn)) with (f (KI (Z.of_nat n), enc_node pn)). apply in_map.
        unfold nd2; simpl. repeat (apply dset_keeps; [repeat apply NoDup_dset; exact Hn | discriminate|]). exact Hi.
      + intros Hs. apply special_text in Hs. destruct Hs as (s & E & Hs). simpl in E. injection E as <-. rewrite parse_str_z in Hs. discriminate. }
  set (g := fun kv : jkey * jv => match kv with (k, w) => (key_int k, match w with
      | JList l => JList (map (fun x => match x with JDict _ => to_int_keys x | _ => x end) l)
      | JDict _ => to_int_keys w | _ => w end) end).
  assert (Hng : NoDup (map fst (map g rest))).
  { apply NoDup_keys_map; [exact Hnr|]. intros [k v] [k' v'] H1 H2. apply Hform in H1. apply Hform in H2.
    destruct H1 as (n & pn & -> & _ & _), H2 as (n' & pn' & -> & _ & _). simpl. rewrite !parse_str_z. intros E. injection E as E. rewrite E. reflexivity. }
  rewrite (dict_of_NoDup (map g rest) Hng). eexists. split; [reflexivity|]. cbn [op_next op_t0 op_E op_nodes]. repeat split.
  intros n. unfold node_at.
  destruct (dget (op_nodes o) (KI (Z.of_nat n))) as [v|] eqn:Eo.
  - apply VerticalProofs.dget_In in Eo. destruct (Hk _ _ Eo) as [Hs|(n' & pn & E & ->)]; [apply special_text in Hs; destruct Hs as (s & E & _); discriminate|].
    assert (Hi : In (KS (str_z (Z.of_nat n)), jsonify (enc_node pn)) rest) by (apply Hform; eauto).
    apply (in_map g) in Hi. apply (In_dget _ _ _ Hng) in Hi.
    assert (E1 : fst (g (KS (str_z (Z.of_nat n)), jsonify (enc_node pn))) = KI (Z.of_nat n)) by (simpl; rewrite parse_str_z; reflexivity).
    simpl in Hi. rewrite parse_str_z in Hi. rewrite Hi. apply (conv_node pn).
  - destruct (dget (map g rest) (KI (Z.of_nat n))) as [w|] eqn:Eg; [|reflexivity].
    apply VerticalProofs.dget_In in Eg. apply in_map_iff in Eg. destruct Eg as ([k v] & E & Hi). apply Hform in Hi.
    destruct Hi as (n' & pn & -> & _ & Hi). simpl in E. rewrite parse_str_z in E. injection E as E _. apply Nat2Z.inj in E. subst n'.
    apply (In_dget _ _ _ Hn) in Hi. congruence.
Qed.
Lemma map_out_app {X Y} (f : X -> outcome Y) (P : X -> Y -> Prop) l : (forall x, In x l -> exists y, f x = Ret y /\ P x y) ->
  exists ys, map_out f l = Ret ys /\ Forall2 P l ys.
Proof.
  induction l as [|x l IH]; intros Hf; [exists []; split; [reflexivity | constructor]|].
  destruct (Hf x (or_introl eq_refl)) as (y & E & Hy). destruct IH as (ys & E' & Hys); [intros z Hz; apply Hf; right; exact Hz|].
  exists (y :: ys). simpl. rewrite E. simpl. rewrite E'. split; [reflexivity | constructor; assumption].
Qed.
Lemma map_out_map_in {X Y W} (f : Y -> outcome W) (g : X -> Y) l : map_out f (map g l) = map_out (fun x => f (g x)) l.
Proof. induction l as [|x l IH]; simpl; [reflexivity|]. rewrite IH. reflexivity. Qed.

Section ExportProofs.
  Variable leE : evname -> evname -> bool.
  Hypothesis leE_total : forall x y, leE x y = true \/ leE y x = true.
  Hypothesis leE_trans : forall x y z, leE x y = true -> leE y z = true -> leE x z = true.
  Variable sort_t0 : list opatt -> list opatt.
  Hypothesis sort_t0_perm : forall l, Permutation (sort_t0 l) l.

  Lemma xfit_inv auto log mine m fuel v : xfit leE auto log mine = Ret m -> view fuel m = Some v ->
    fit leE auto log (fun _ => m_patts v) = Ret v /\
    exists n d groups, (auto = true -> x_scale m = Some (n, d)) /\ x_groups m = Some groups /\ NoDup (dkeys groups) /\
      (forall e ts, In (e, ts) groups -> exists t, In (t, e) log) /\ dataseq_of_dict leE groups = Ret (x_ds m) /\ x_auto m = auto.
  Proof.
    unfold xfit, fit. set (serie := nodup eq_dec log).
    assert (Hserie : forall u, In u serie -> In u log) by (intros u; apply nodup_In). clearbody serie.
    assert (Hgrp : forall ts', (forall e ts, In (e, ts) (group_occs (combine ts' (map snd serie))) -> exists t, In (t, e) log) /\ NoDup (dkeys (group_occs (combine ts' (map snd serie))))).
    { intros ts'. destruct (group_spec (combine ts' (map snd serie))) as (G1 & G2 & G3). split; [|exact G1].
      intros e ts Hi. destruct ts as [|t ts].
      - exfalso. apply (In_dget _ _ _ G1) in Hi. rewrite G3 in Hi. destruct (times_of _ _); discriminate.
      - assert (Hf : In (t, e) (flat (group_occs (combine ts' (map snd serie))))).
        { unfold flat. apply in_concat. exists (map (fun t => (t, e)) (t :: ts)). split; [|left; reflexivity].
          apply in_map_iff. exists (e, t :: ts). auto. }
        apply (Permutation_in _ G2) in Hf. apply in_combine_r in Hf. apply in_map_iff in Hf. destruct Hf as ([t' e'] & E & Hi'). simpl in E. subst e'.
        exists t'. apply Hserie, Hi'. }
    destruct auto.
    - destruct (autoscale (map fst serie)) as [[[conv n] res] d]. simpl. destruct (dataseq_of_dict leE _) as [ds| |] eqn:Ed; simpl; try discriminate.
      intros E. injection E as <-. unfold view. simpl. destruct (all_some _) as [ps|]; [|discriminate]. intros E. injection E as <-. simpl. split; [reflexivity|].
      exists n, d. eexists. split; [reflexivity|]. split; [reflexivity|]. split; [apply Hgrp|]. split; [apply Hgrp|]. split; [exact Ed | reflexivity].
    - simpl. destruct (dataseq_of_dict leE _) as [ds| |] eqn:Ed; simpl; try discriminate.
      intros E. injection E as <-. unfold view. simpl. destruct (all_some _) as [ps|]; [|discriminate]. intros E. injection E as <-. simpl. split; [reflexivity|].
      exists O, 1. eexists. split; [discriminate|]. split; [reflexivity|]. split; [apply Hgrp|]. split; [apply Hgrp|]. split; [exact Ed | reflexivity].
  Qed.

  (* A miner with automatic time scale, fitted on a log whose events are strings, that found at
     least one pattern: export succeeds, import into another such miner succeeds, the imported
     miner is the one fit would have made on the same log with the same patterns in another
     order, and the exporting miner's patterns read as before. *)
  Theorem C48_roundtrip_partial : forall log mine m fuel v, xfit leE true log mine = Ret m -> string_events log ->
    x_patts m <> [] -> Forall proper (x_patts m) -> view fuel m = Some v ->
    exists file m2 m' v', export sort_t0 m = Ret (file, m2) /\ view fuel m2 = Some v /\ Forall proper (x_patts m2) /\
      import leE true file = Ret m' /\ view fuel m' = Some v' /\ Permutation (m_patts v') (m_patts v) /\
      m_ds v' = m_ds v /\ m_n v' = m_n v /\ m_div v' = m_div v /\ m_auto v' = m_auto v.
  Proof.
    intros log mine m fuel v Hf Hstr Hne Hprop Hv.
    destruct (xfit_inv _ _ _ _ _ _ Hf Hv) as (_ & n & d & groups & H1 & H2 & H3 & H4 & H5 & H6). specialize (H1 eq_refl).
    unfold export. rewrite H1, H2. destruct (x_patts m) as [|o0 os0] eqn:Eps; [congruence|]. rewrite <- Eps in *. clear Hne.
    eexists. eexists.
    (* the patterns *)
    set (srt := sort_t0 (map mark (x_patts m))).
    assert (Hperm : exists os, srt = map mark os /\ Permutation os (x_patts m)).
    { destruct (Permutation_map_inv mark (x_patts m) (sort_t0_perm (map mark (x_patts m)))) as (os & E & Hp). exists os. split; [exact E | symmetry; exact Hp]. }
    destruct Hperm as (os & Es & Hos).
    assert (Hpo : Forall proper os) by (rewrite Forall_forall in *; intros o Ho; apply Hprop; apply (Permutation_in _ Hos), Ho).
    destruct (map_out_app (fun o => import_patt (jsonify (JDict (op_nodes (mark o)))))
      (fun o o' => op_next o' = op_next o /\ op_t0 o' = op_t0 o /\ op_E o' = op_E o /\ forall n, node_at (op_nodes o') n = node_at (op_nodes o) n) os) as (os' & Eos & Hos').
    { intros o Ho. rewrite Forall_forall in Hpo. destruct (import_patt_spec o (Hpo o Ho)) as (o' & I1 & I2 & I3 & I4 & I5). exists o'. auto. }
    assert (Hread : map (read_patt fuel) os' = map (read_patt fuel) os).
    { clear -Hos'. induction Hos' as [|o o' os os' (A1 & A2 & A3 & A4) Hr IH]; [reflexivity|]. simpl. rewrite IH. f_equal.
      unfold read_patt. rewrite A2, A3. f_equal. apply read_tree_ext, A4. }
    assert (Hview : exists ps', all_some (map (read_patt fuel) os) = Some ps' /\ Permutation ps' (m_patts v)).
    { unfold view in Hv. destruct (all_some (map (read_patt fuel) (x_patts m))) as [ps|] eqn:Ea; [|discriminate]. injection Hv as <-. simpl.
      apply all_some_inv in Ea. pose proof (Permutation_map (read_patt fuel) Hos) as Hp. rewrite Ea in Hp.
      destruct (Permutation_map_inv Some ps Hp) as (ps' & E & Hp'). exists ps'. split; [apply all_some_inv, E | symmetry; exact Hp']. }
    destruct Hview as (ps' & Hps' & Hpp).
    (* the groups *)
    assert (Hkeys : NoDup (map fst (map (fun p : evname * list Z => (ev_key (fst p), JList (map JInt (snd p)))) groups))).
    { apply NoDup_keys_map; [exact H3|]. intros [e ts] [e' ts'] I1 I2. simpl. destruct e, e'; simpl; congruence. }
    assert (Hgr : map_out import_group (dict_of (map (fun kv : jkey * jv => match kv with (k, w) => (key_str k, jsonify w) end)
        (map (fun p : evname * list Z => (ev_key (fst p), JList (map JInt (snd p)))) groups))) = Ret groups).
    { assert (Eg : map (fun kv : jkey * jv => match kv with (k, w) => (key_str k, jsonify w) end)
        (map (fun p : evname * list Z => (ev_key (fst p), JList (map JInt (snd p)))) groups)
        = map (fun p : evname * list Z => (ev_key (fst p), jsonify (JList (map JInt (snd p))))) groups).
      { rewrite map_map. apply map_ext_in. intros [e ts] Hi. destruct (H4 e ts Hi) as (t & Ht). destruct (Hstr t e Ht) as (s & ->). reflexivity. }
      rewrite Eg. rewrite dict_of_NoDup.
      2: { rewrite map_map in *. exact Hkeys. }
      rewrite map_out_map_in. rewrite <- (map_id groups) at 2. apply map_out_map. intros [e ts] Hi. destruct (H4 e ts Hi) as (t & Ht).
      destruct (Hstr t e Ht) as (s & ->). unfold import_group. cbn [fst snd ev_key]. rewrite as_ints_JInt. reflexivity. }
    assert (Himp : import leE true (JDict [(KS (lit "n_zeros_"), jnat n); (KS (lit "div_nb_sec_"), JInt d);
       (KS (lit "data_details"), JDict (map (fun p : evname * list Z => (ev_key (fst p), JList (map JInt (snd p)))) groups));
       (KS (lit "patterns"), JList (map (fun o => JDict (op_nodes o)) srt))])
       = Ret {| x_auto := true; x_scale := Some (n, d); x_groups := None; x_ds := x_ds m; x_patts := os' |}).
    { unfold import. cbn [jsonify map key_str].
      set (G := dict_of (map (fun kv : jkey * jv => match kv with (k, w) => (key_str k, jsonify w) end) (map (fun p : evname * list Z => (ev_key (fst p), JList (map JInt (snd p)))) groups))) in *.
      set (P := map jsonify (map (fun o => JDict (op_nodes o)) srt)).
      match goal with |- context [dict_of ?l] => change (dict_of l) with l end.
      unfold get.
      change (dget _ (KS (lit "n_zeros_"))) with (Some (jnat n)). change (dget _ (KS (lit "div_nb_sec_"))) with (Some (JInt d)).
      change (dget _ (KS (lit "data_details"))) with (Some (JDict G)). change (dget _ (KS (lit "patterns"))) with (Some (JList P)).
      cbv iota. assert (Hn : as_nat (jnat n) = Some n).
      { simpl. destruct (Z.leb_spec 0 (Z.of_nat n)); [|lia]. rewrite Nat2Z.id. reflexivity. }
      rewrite Hn, Hgr. cbn [bind]. rewrite H5. cbn [bind].
      assert (HP : map_out import_patt P = Ret os').
      { unfold P. rewrite Es, !map_out_map_in. exact Eos. }
      rewrite HP. reflexivity. }
    eexists. exists {| m_auto := true; m_n := n; m_div := d; m_groups := []; m_ds := x_ds m; m_patts := ps' |}.
    assert (Hv0 : m_ds v = x_ds m /\ m_n v = n /\ m_div v = d /\ m_auto v = true).
    { unfold view in Hv. destruct (all_some _); [|discriminate]. injection Hv as <-. simpl. rewrite H1, H6. auto. }
    destruct Hv0 as (V1 & V2 & V3 & V4).
    split; [reflexivity|]. split.
    { rewrite <- Hv. unfold view. simpl. rewrite ?H1, ?H2, map_map.
      rewrite (map_ext_in (fun o => read_patt fuel (mark o)) (read_patt fuel)); [reflexivity|].
      intros o Ho. apply mark_reads. rewrite Forall_forall in Hprop. apply (Hprop o Ho). }
    split. { simpl. apply Forall_forall. intros o Ho. apply in_map_iff in Ho. destruct Ho as (o' & <- & Ho'). apply mark_proper. rewrite Forall_forall in Hprop. apply Hprop, Ho'. }
    split; [exact Himp|]. split; [unfold view; simpl; rewrite Hread, Hps'; reflexivity|]. simpl.
    repeat split; auto.
  Qed.

  Section SameAnswers.
  Variable sort_time sort_event : frame evname -> frame evname.
  Hypothesis Hsort : sorts sort_time.
  Lemma covered_perm (v v' : miner evname) x : Permutation (m_patts v') (m_patts v) -> covered v x <-> covered v' x.
  Proof.
    intros Hp. unfold covered. split; intros (p & cs & P1 & P2 & P3); exists p, cs; split; auto; [apply (Permutation_in _ (Permutation_sym Hp)), P1 | apply (Permutation_in _ Hp), P1].
  Qed.
  (* the answers of the imported miner: the same events, in time order *)
  Theorem C48_same_answers_partial : forall log mine m fuel v file m2 m' v',
    xfit leE true log mine = Ret m -> string_events log -> Forall proper (x_patts m) -> view fuel m = Some v -> about_log v -> m_patts v <> [] ->
    export sort_t0 m = Ret (file, m2) -> import leE true file = Ret m' -> view fuel m' = Some v' ->
    exists R R', reconstruct sort_time sort_event v None ByTime true = Ret R /\ reconstruct sort_time sort_event v' None ByTime true = Ret R' /\
      Permutation (map snd R) (map snd R') /\ by_time R /\ by_time R' /\
      ((exists x, In x (ds_seql (m_ds v)) /\ ~ covered v x) ->
       exists S S', get_residuals sort_time sort_event v None ByTime = Ret S /\ get_residuals sort_time sort_event v' None ByTime = Ret S' /\
         Permutation (map snd S) (map snd S') /\ by_time S /\ by_time S').
  Proof.
    intros log mine m fuel v file m2 m' v' Hf Hstr Hprop Hv Hab Hne He Hi Hv'.
    assert (Hne0 : x_patts m <> []). { intros E. unfold view in Hv. rewrite E in Hv. simpl in Hv. injection Hv as <-. apply Hne. reflexivity. }
    destruct (C48_roundtrip_partial log mine m fuel v Hf Hstr Hne0 Hprop Hv) as (file0 & m20 & m'0 & v'0 & A1 & _ & _ & A2 & A3 & A4 & A5 & A6 & A7 & A8).
    rewrite A1 in He. injection He as <- <-. rewrite A2 in Hi. injection Hi as <-. rewrite A3 in Hv'. injection Hv' as <-. rename v'0 into v'.
    destruct (xfit_inv _ _ _ _ _ _ Hf Hv) as (Hfit & _).
    set (w := {| m_auto := m_auto v; m_n := m_n v; m_div := m_div v; m_groups := m_groups v; m_ds := m_ds v; m_patts := m_patts v' |}).
    assert (Hfit' : fit leE true log (fun _ => m_patts v') = Ret w).
    { revert Hfit. unfold fit. destruct (autoscale _) as [[[conv n] res] d]. destruct (dataseq_of_dict leE _) as [ds| |]; simpl; try discriminate.
      intros E. injection E as E. unfold w. rewrite <- E. reflexivity. }
    assert (Hrec : forall ids s b, reconstruct sort_time sort_event w ids s b = reconstruct sort_time sort_event v' ids s b).
    { intros ids s b. unfold reconstruct, patt_rows, shown_time, w. simpl. rewrite A5, A6, A7, A8. reflexivity. }
    assert (Hres : forall ids s, get_residuals sort_time sort_event w ids s = get_residuals sort_time sort_event v' ids s).
    { intros ids s. unfold get_residuals. rewrite !Hrec. unfold uncovered, shown_time, w. simpl. rewrite A5, A6, A7, A8. reflexivity. }
    assert (Hcov : forall x, covered w x <-> covered v x) by (intros x; symmetry; apply covered_perm; exact A4).
    assert (Habw : about_log w). { intros p Hp. apply Hab. apply (Permutation_in _ A4). exact Hp. }
    assert (Hnew : m_patts w <> []). { intros E. simpl in E. rewrite E in A4. apply Permutation_nil in A4. contradiction. }
    destruct (C43_reconstruct leE leE_total leE_trans sort_time sort_event _ _ _ v Hsort Hfit Hab Hne) as (R & R1 & R2 & R3 & R4 & _).
    destruct (C43_reconstruct leE leE_total leE_trans sort_time sort_event _ _ _ w Hsort Hfit' Habw Hnew) as (R' & R1' & R2' & R3' & R4' & _).
    rewrite Hrec in R1'. exists R, R'. split; [exact R1|]. split; [exact R1'|]. split.
    { apply NoDup_Permutation; auto. intros u. rewrite R4, R4'. split; intros (x & X1 & X2); exists x; (split; [apply Hcov; exact X1 | exact X2]). }
    split; [exact R2|]. split; [exact R2'|]. intros (x & X1 & X2).
    destruct (C43_lossless_partial leE leE_total leE_trans sort_time sort_event _ _ _ v Hsort Hfit Hab Hne) as (R0 & S & B1 & B2 & B3 & B4 & B5 & B6 & B7 & B8); [exists x; auto|].
    destruct (C43_lossless_partial leE leE_total leE_trans sort_time sort_event _ _ _ w Hsort Hfit' Habw Hnew) as (R0' & S' & B1' & B2' & B3' & B4' & B5' & B6' & B7' & B8').
    { exists x. split; [exact X1|]. intros Hc. apply X2, Hcov, Hc. }
    rewrite Hres in B2'. rewrite Hrec in B1'. rewrite R1 in B1. injection B1 as <-. rewrite R1' in B1'. injection B1' as <-.
    exists S, S'. repeat split; auto. apply NoDup_Permutation; auto. intros u.
    assert (HRR : In u (map snd R) <-> In u (map snd R')).
    { rewrite R4, R4'. split; intros (y & Y1 & Y2); exists y; (split; [apply Hcov; exact Y1 | exact Y2]). }
    specialize (B3 u). specialize (B3' u). specialize (B4 u). specialize (B4' u). tauto.
  Qed.
  End SameAnswers.

  (* import_patterns never restores alpha_groups_: the imported miner cannot export again *)
  Theorem C48_reexport_refuted : forall auto file m', import leE auto file = Ret m' -> export sort_t0 m' = Exn AttributeError.
  Proof.
    intros auto file m'. unfold import. destruct (jsonify file) as [| | | |f]; try discriminate.
    destruct (get f "n_zeros_") as [jn|]; try discriminate. destruct (get f "div_nb_sec_") as [[]|]; try discriminate.
    destruct (get f "data_details") as [[]|]; try discriminate. destruct (get f "patterns") as [[]|]; try discriminate.
    destruct (as_nat jn); try discriminate. destruct (map_out import_group _) as [gs| |]; simpl; try discriminate.
    destruct (dataseq_of_dict leE gs); simpl; try discriminate. destruct (map_out import_patt _) as [ps| |]; simpl; try discriminate.
    intros E. injection E as <-. unfold export. simpl. destruct ps; reflexivity.
  Qed.
  (* without automatic time scale, or without patterns, export raises AttributeError *)
  Theorem C48_export_refuted : forall auto log mine m, xfit leE auto log mine = Ret m -> auto = false \/ x_patts m = [] ->
    export sort_t0 m = Exn AttributeError.
  Proof.
    intros auto log mine m Hf [->|Hp].
    - unfold xfit in Hf. destruct (dataseq_of_dict leE _) as [ds| |]; simpl in Hf; try discriminate. injection Hf as <-. reflexivity.
    - unfold export. destruct (x_scale m) as [[n d]|]; [|reflexivity]. rewrite Hp. reflexivity.
  Qed.
End ExportProofs.

(* ------------------------------------------------------------------- examples *)
Fixpoint text_leb (a b : text) : bool :=
  match a, b with
  | [], _ => true
  | _, [] => false
  | x :: a', y :: b' => N.ltb x y || (N.eqb x y && text_leb a' b')
  end.
Definition ev_leb (a b : evname) : bool :=
  match a, b with
  | EInt x, EInt y => x <=? y
  | EInt _, EStr _ => true
  | EStr _, EInt _ => false
  | EStr x, EStr y => text_leb x y
  end.
Lemma text_leb_total a b : text_leb a b = true \/ text_leb b a = true.
Proof.
  revert b; induction a as [|x a IH]; intros [|y b]; simpl; auto.
  destruct (N.lt_trichotomy x y) as [Hl|[->|Hl]].
  - left. apply N.ltb_lt in Hl. rewrite Hl. reflexivity.
  - rewrite N.eqb_refl. destruct (IH b) as [E|E]; rewrite E, orb_true_r; auto.
  - right. apply N.ltb_lt in Hl. rewrite Hl. reflexivity.
Qed.
Lemma text_leb_trans a b c : text_leb a b = true -> text_leb b c = true -> text_leb a c = true.
Proof.
  revert b c; induction a as [|x a IH]; intros [|y b] [|z c]; simpl; auto; try discriminate.
  rewrite !orb_true_iff, !andb_true_iff, !N.ltb_lt, !N.eqb_eq. intros [H1|[-> H1]] [H2|[-> H2]]; auto; [left; lia | right; split; [reflexivity | eapply IH; eauto]].
Qed.
Lemma ev_leb_total a b : ev_leb a b = true \/ ev_leb b a = true.
Proof. destruct a, b; simpl; auto; [apply text_leb_total | rewrite !Z.leb_le; lia]. Qed.
Lemma ev_leb_trans a b c : ev_leb a b = true -> ev_leb b c = true -> ev_leb a c = true.
Proof. destruct a, b, c; simpl; try congruence; [apply text_leb_trans | rewrite !Z.leb_le; lia]. Qed.

Definition demo_t0 (l : list opatt) : list opatt := sort (fun a b => op_t0 a <=? op_t0 b) l.
(* two patterns: a nested one starting late and a simple cycle starting early *)
Definition demo_nested : opatt :=
  {| op_nodes := [(KI 0, enc_node (NInner None 100 2 [(1%nat, 0); (10%nat, 5)]));
                  (KI 1, enc_node (NInner (Some 0%nat) 20 2 [(2%nat, 0)]));
                  (KI 2, enc_node (NLeaf (Some 1%nat) 0)); (KI 10, enc_node (NLeaf (Some 0%nat) 1))];
     op_next := 11; op_t0 := 50; op_E := [0; 0; 0; 0; 0] |}.
Definition demo_simple : opatt :=
  {| op_nodes := [(KI 1, enc_node (NLeaf (Some 0%nat) 1)); (KI 0, enc_node (NInner None 10 3 [(1%nat, 0)]))];
     op_next := 2; op_t0 := 1; op_E := [1; -1] |}.
Definition demo_events (a b : evname) : list (Z * evname) :=
  [(1, b); (12, b); (21, b); (50, a); (70, a); (55, b); (150, a); (170, a); (155, b); (203, a)].
Lemma demo_proper : Forall proper [demo_nested; demo_simple].
Proof.
  constructor; [|constructor; [|constructor]]; (split; [repeat constructor; simpl; intuition discriminate|]); intros k v Hi; simpl in Hi; right.
  - destruct Hi as [E|[E|[E|[E|[]]]]]; injection E as <- <-.
    + exists 0%nat, (NInner None 100 2 [(1%nat, 0); (10%nat, 5)]). auto.
    + exists 1%nat, (NInner (Some 0%nat) 20 2 [(2%nat, 0)]). auto.
    + exists 2%nat, (NLeaf (Some 1%nat) 0). auto.
    + exists 10%nat, (NLeaf (Some 0%nat) 1). auto.
  - destruct Hi as [E|[E|[]]]; injection E as <- <-.
    + exists 1%nat, (NLeaf (Some 0%nat) 1). auto.
    + exists 0%nat, (NInner None 10 3 [(1%nat, 0)]). auto.
Qed.
Definition ev_a := EStr (lit "a"). Definition ev_b := EStr (lit "b").
Example C48_case : exists m v file m2 m' v',
  xfit ev_leb true (demo_events ev_a ev_b) (fun _ => [demo_nested; demo_simple]) = Ret m /\ Forall proper (x_patts m) /\
  view 3 m = Some v /\ about_log v /\ m_patts v <> [] /\ (exists x, In x (ds_seql (m_ds v)) /\ ~ covered v x) /\
  export demo_t0 m = Ret (file, m2) /\ import ev_leb true file = Ret m' /\ view 3 m' = Some v' /\
  map (fun p => snd (fst p)) (m_patts v) = [50; 1] /\ map (fun p => snd (fst p)) (m_patts v') = [1; 50].
Proof.
  eexists. eexists. eexists. eexists. eexists. eexists.
  split; [vm_compute; reflexivity|]. split; [exact demo_proper|]. split; [vm_compute; reflexivity|].
  split; [|split; [discriminate|]]; [|split; [|split; [vm_compute; reflexivity|]; split; [vm_compute; reflexivity|]; split; [vm_compute; reflexivity|]; split; reflexivity]].
  - intros p [<-|[<-|[]]].
    + exists [(50, 0%nat); (70, 0%nat); (55, 1%nat); (150, 0%nat); (170, 0%nat); (155, 1%nat)]. split; [vm_compute; reflexivity|]. split; [discriminate|].
      intros x Hx. simpl in *. intuition.
    + exists [(1, 1%nat); (12, 1%nat); (21, 1%nat)]. split; [vm_compute; reflexivity|]. split; [discriminate|].
      intros x Hx. simpl in *. intuition.
  - exists (203, 0%nat). split; [simpl; tauto|]. intros (p & cs & [<-|[<-|[]]] & Hc & Hx); vm_compute in Hc; injection Hc as <-; simpl in Hx; intuition discriminate.
Qed.
(* pattern ids are not kept: reconstruct([0]) answers about another pattern after the import *)
Theorem C48_pattern_ids_refuted : exists m v file m2 m' v' R R',
  xfit ev_leb true (demo_events ev_a ev_b) (fun _ => [demo_nested; demo_simple]) = Ret m /\ view 3 m = Some v /\
  export demo_t0 m = Ret (file, m2) /\ import ev_leb true file = Ret m' /\ view 3 m' = Some v' /\
  reconstruct demo_sort demo_sort v (Some [0]) ByTime true = Ret R /\ reconstruct demo_sort demo_sort v' (Some [0]) ByTime true = Ret R' /\
  (forall u, In u (map snd R) -> ~ In u (map snd R')) /\ R <> [].
Proof.
  do 8 eexists. repeat (split; [vm_compute; reflexivity|]). split; [|discriminate].
  intros u Hu Hu'. simpl in Hu, Hu'. intuition congruence.
Qed.
(* integer events come back as strings and are numbered anew: 2 and 10 change places *)
Theorem C48_integer_events_refuted : exists m v file m2 m' v' R R',
  xfit ev_leb true (demo_events (EInt 2) (EInt 10)) (fun _ => [demo_nested; demo_simple]) = Ret m /\ view 3 m = Some v /\
  export demo_t0 m = Ret (file, m2) /\ import ev_leb true file = Ret m' /\ view 3 m' = Some v' /\
  reconstruct demo_sort demo_sort v None ByTime true = Ret R /\ reconstruct demo_sort demo_sort v' None ByTime true = Ret R' /\
  In (1, EInt 10) (map snd R) /\ In (1, EStr (lit "2")) (map snd R').
Proof.
  do 8 eexists. repeat (split; [vm_compute; reflexivity|]). split; simpl; auto.
Qed.
(* the time scale option is not in the file: a miner made without it shows rescaled times *)
Theorem C48_time_scale_refuted : exists m v file m2 m' v' R R',
  xfit ev_leb true (map (fun p => (10 * fst p, snd p)) (demo_events ev_a ev_b)) (fun _ => [demo_nested; demo_simple]) = Ret m /\ view 3 m = Some v /\
  export demo_t0 m = Ret (file, m2) /\ import ev_leb false file = Ret m' /\ view 3 m' = Some v' /\
  reconstruct demo_sort demo_sort v None ByTime true = Ret R /\ reconstruct demo_sort demo_sort v' None ByTime true = Ret R' /\
  In (120, ev_b) (map snd R) /\ ~ In (120, ev_b) (map snd R') /\ In (12, ev_b) (map snd R').
Proof.
  do 8 eexists. repeat (split; [vm_compute; reflexivity|]). simpl. repeat split; auto. intuition congruence.
Qed.
Print Assumptions C48_roundtrip_partial.
Print Assumptions C48_same_answers_partial.
Print Assumptions C48_reexport_refuted.
Print Assumptions C48_export_refuted.
Print Assumptions C48_pattern_ids_refuted.
Print Assumptions C48_integer_events_refuted.
Print Assumptions C48_time_scale_refuted.
