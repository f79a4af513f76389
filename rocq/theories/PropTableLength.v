(* C80: code lengths and description lengths of graph code tables.  Real
   numbers of the standard library. *)
From Coq Require Import Reals QArith Qreals Lra.
From Verif Require Import Prelude CheckModel LCMModel VerticalProofs GraphUtilModel GraphCoverModel RewriteModel.
From Verif Require Import PrequentialModel GraphLengthModel PropGraphUtil PropPrequential KraftProofs PropGraphLength.
From Verif Require Import PropGraphCover RewriteProofs PropRewrite.
Open Scope nat_scope.

(* ---- logarithms *)
Lemma math_log2_ok x : (0 < x)%R -> math_log2 x = Ret (ln x / ln 2)%R.
Proof. intros Hx. unfold math_log2. destruct (Rlt_dec 0 x); [reflexivity | contradiction]. Qed.
Lemma lg_nonneg x : (1 <= x)%R -> (0 <= ln x / ln 2)%R.
Proof.
  intros Hx. pose proof ln2_pos. unfold Rdiv. apply Rmult_le_pos; [|left; apply Rinv_0_lt_compat; lra].
  rewrite <- ln_1. destruct Hx as [Hx|Hx]; [left; apply ln_increasing; lra | right; rewrite <- Hx; reflexivity].
Qed.
Lemma one_le_INR n : 1 <= n -> (1 <= INR n)%R.
Proof. intros Hn. apply le_INR in Hn. simpl in Hn. exact Hn. Qed.

Lemma emit_nonneg v : forall code eps total, (0 < eps)%R -> (eps <= total)%R ->
  let '(code', _, total') := emit v (code, eps, total) in (code <= code')%R /\ (total <= total')%R.
Proof.
  induction v as [|v IH]; intros code eps total He Ht; cbn [emit]; [lra|].
  specialize (IH (code + log2 eps total)%R (eps + 1)%R (total + 1)%R ltac:(lra) ltac:(lra)).
  destruct (emit v _) as [[code' eps'] total']. destruct IH as [I1 I2].
  assert (0 <= log2 eps total)%R as Hl.
  { unfold log2. pose proof ln2_pos.
    assert (ln (eps / total) <= ln 1)%R as Hln.
    { assert (eps / total <= 1)%R as Hd.
      { apply Rmult_le_reg_r with total; [lra|]. unfold Rdiv. rewrite Rmult_assoc, Rinv_l by lra. lra. }
      destruct Hd as [Hd|Hd]; [left; apply ln_increasing; [apply Rdiv_lt_0_compat; lra | exact Hd] | right; rewrite Hd; reflexivity]. }
    rewrite ln_1 in Hln. apply Ropp_le_cancel. rewrite Ropp_involutive, Ropp_0.
    apply Rmult_le_reg_r with (ln 2); [lra|]. unfold Rdiv. rewrite Rmult_assoc, Rinv_l by lra. lra. }
  lra.
Qed.
Lemma prequential_nonneg s e : (0 < e)%R -> (0 <= prequential_code s e)%R.
Proof.
  intros He. unfold prequential_code. destruct s as [|v0 s0]; [simpl; lra|].
  set (s := v0 :: s0). assert (e <= INR (length s) * e)%R as Ht.
  { assert (1 <= INR (length s))%R by (apply one_le_INR; simpl; lia).
    rewrite <- (Rmult_1_l e) at 1. apply Rmult_le_compat_r; lra. }
  revert Ht. generalize (INR (length s) * e)%R. intros total Ht.
  assert (forall l code total, (e <= total)%R -> (0 <= code)%R ->
    let '(code', _) := fold_left (fun st value => let '(code, total) := st in
       let '(code', _, total') := emit value (code, e, total) in (code', total')) l (code, total) in (0 <= code')%R) as F.
  { induction l as [|v l IH]; intros code tot H1 H2; cbn [fold_left]; [exact H2|].
    pose proof (emit_nonneg v code e tot He H1) as E. destruct (emit v (code, e, tot)) as [[c' e'] t'].
    apply IH; lra. }
  pose proof (F s 0%R total Ht ltac:(lra)) as G.
  destruct (fold_left _ s (0%R, total)) as [c' t']. exact G.
Qed.

Section C80.
  Context {L : Type} `{EqDec L}.

  (* ------------------------------------------------ codes of the patterns *)
  (* the usages counted after a cover: one entry per use *)
  Definition use_counts (c : table L) : list nat :=
    map c_usage (used_rows c) ++ map snd (t_vertex c) ++ map snd (t_edge c).

  Lemma used_rows_sum (c : table L) : list_sum (map c_usage (used_rows c)) = list_sum (map c_usage (t_rows c)).
  Proof.
    unfold used_rows. induction (t_rows c) as [|r l IH]; [reflexivity|]. simpl.
    destruct (c_usage r =? 0) eqn:E; simpl; [apply Nat.eqb_eq in E; lia | lia].
  Qed.
  Lemma list_sum_app a b : list_sum (a ++ b) = list_sum a + list_sum b.
  Proof. induction a as [|x a IH]; simpl; [reflexivity | lia]. Qed.
  Lemma use_counts_sum c : list_sum (use_counts c) = usage_sum c.
  Proof. unfold use_counts, usage_sum. rewrite !list_sum_app, used_rows_sum. lia. Qed.

  Lemma shares_sum l : Forall (fun n => 0 < n) l -> l <> [] ->
    rsum (map (fun n => share (optimal_length n (list_sum l))) l) = 1%R.
  Proof.
    intros Hp Hne.
    assert (0 < list_sum l) as Hs.
    { destruct l as [|x l]; [contradiction|]. inversion Hp; subst. simpl. lia. }
    assert (forall k t, Forall (fun n => 0 < n) k -> 0 < t ->
      rsum (map (fun n => share (optimal_length n t)) k) = (INR (list_sum k) / INR t)%R) as A.
    { intros k t Hk Ht. induction Hk as [|x k Hx Hk IH]; [simpl; unfold Rdiv; ring|].
      cbn [map rsum]. rewrite IH, share_optimal by assumption.
      change (list_sum (x :: k)) with (x + list_sum k). rewrite plus_INR. unfold Rdiv. ring. }
    rewrite A by assumption. apply lt_0_INR in Hs. field. lra.
  Qed.

  Lemma fold_add_codes total (us : list (L * nat)) : forall d, NoDup (map fst us) ->
    (forall l, In l (map fst us) -> ~ In l (dkeys d)) ->
    fold_left (fun d uv => dset d (fst uv) (log2 (INR (snd uv)) (INR total))) us d
    = d ++ map (fun uv => (fst uv, optimal_length (snd uv) total)) us.
  Proof.
    induction us as [|[l n] us IH]; intros d Hn Hd; cbn [fold_left map]; [rewrite app_nil_r; reflexivity|].
    inversion Hn as [|? ? Hx Hn']; subst. cbn [fst snd] in *.
    assert (dset d l (log2 (INR n) (INR total)) = d ++ [(l, log2 (INR n) (INR total))]) as ->.
    { pose proof (Hd l (or_introl eq_refl)) as Hl. clear -Hl. induction d as [|[k v] d IH]; [reflexivity|].
      simpl in *. destruct (eq_dec l k) as [->|]; [elim Hl; left; reflexivity|]. f_equal. apply IH. tauto. }
    rewrite IH; [rewrite <- app_assoc; reflexivity | exact Hn' |].
    intros k Hk F. unfold dkeys in F. rewrite map_app, in_app_iff in F. destruct F as [F|[F|[]]].
    - apply (Hd k); [right; exact Hk | exact F].
    - simpl in F. subst k. contradiction.
  Qed.

  (* After a cover, every used row and every singleton has the optimal code
     length for its share of all uses, and the lengths fill the code space. *)
  Theorem C80_usage_codes_partial (c : table L) :
    Forall (fun uv => 0 < snd uv) (t_vertex c ++ t_edge c) ->
    NoDup (map fst (t_vertex c ++ t_edge c)) -> 0 < usage_sum c ->
    (forall r, In r (t_rows c) -> 0 < c_usage r -> row_code_length r (usage_sum c) = optimal_length (c_usage r) (usage_sum c))
    /\ (forall l n, In (l, n) (t_vertex c ++ t_edge c) ->
          dget (singleton_code_length c) l = Some (optimal_length n (usage_sum c)))
    /\ Forall (fun x => 0 <= x)%R (map (fun r => row_code_length r (usage_sum c)) (used_rows c) ++ map snd (singleton_code_length c))
    /\ rsum (map share (map (fun r => row_code_length r (usage_sum c)) (used_rows c) ++ map snd (singleton_code_length c))) = 1%R.
  Proof.
    intros Hp Hn Hs.
    assert (singleton_code_length c = map (fun uv => (fst uv, optimal_length (snd uv) (usage_sum c))) (t_vertex c ++ t_edge c)) as Es.
    { unfold singleton_code_length. cbv zeta. rewrite map_app in Hn. apply NoDup_app_elim in Hn as (N1 & N2 & N3).
      rewrite (fold_add_codes _ (t_vertex c) []); [|exact N1 | intros l _ []]. cbn [app].
      rewrite fold_add_codes; [rewrite map_app; reflexivity | exact N2 |].
      intros l Hl F. unfold dkeys in F. rewrite map_map in F. cbn [fst] in F. exact (N3 l F Hl). }
    assert (map (fun r => row_code_length r (usage_sum c)) (used_rows c) ++ map snd (singleton_code_length c)
            = map (fun n => optimal_length n (usage_sum c)) (use_counts c)) as Ec.
    { rewrite Es. unfold use_counts. rewrite !map_app, !map_map. cbn [snd]. f_equal.
      apply map_ext_in. intros r Hr. unfold used_rows in Hr. apply filter_In in Hr as [_ Hr].
      unfold row_code_length. destruct (c_usage r =? 0); [discriminate | reflexivity]. }
    assert (Forall (fun n => 0 < n) (use_counts c)) as Hpos.
    { unfold use_counts. rewrite <- map_app. apply Forall_app. split.
      - rewrite Forall_map. apply Forall_forall. intros r Hr. unfold used_rows in Hr. apply filter_In in Hr as [_ Hr].
        destruct (c_usage r); [discriminate | lia].
      - rewrite Forall_map. exact Hp. }
    split; [|split; [|split]].
    - intros r _ Hr. unfold row_code_length. rewrite (proj2 (Nat.eqb_neq (c_usage r) 0)) by lia. reflexivity.
    - intros l n Hi. rewrite Es. apply In_dget.
      + unfold dkeys. rewrite map_map. cbn [fst]. exact Hn.
      + apply in_map_iff. exists (l, n). auto.
    - rewrite Ec, Forall_map. apply Forall_forall. intros n Hi. rewrite Forall_forall in Hpos. apply optimal_nonneg; [apply Hpos, Hi|].
      rewrite <- use_counts_sum. clear -Hi. induction (use_counts c) as [|x l IH]; [destruct Hi|]. simpl.
      destruct Hi as [->|Hi]; [lia | specialize (IH Hi); lia].
    - rewrite Ec, map_map. rewrite <- use_counts_sum. apply shares_sum; [exact Hpos|].
      intros E. rewrite <- use_counts_sum, E in Hs. simpl in Hs. lia.
  Qed.

  (* the ports of a row that is used *)
  Theorem C80_port_codes (r : ct_row L) : Forall (fun pu => 0 < snd pu) (c_ports r) -> c_ports r <> [] ->
    map fst (port_code_length r) = map fst (c_ports r)
    /\ Forall (fun pc => 0 <= snd pc)%R (port_code_length r)
    /\ rsum (map (fun pc => share (snd pc)) (port_code_length r)) = 1%R.
  Proof.
    intros Hp Hne. unfold port_code_length. cbv zeta. rewrite !map_map. cbn [fst snd]. split; [reflexivity|].
    set (total := list_sum (map snd (c_ports r))).
    assert (forall pu, In pu (c_ports r) -> (if snd pu =? 0 then 0%R else log2 (INR (snd pu)) (INR total)) = optimal_length (snd pu) total) as E.
    { intros pu Hi. rewrite Forall_forall in Hp. rewrite (proj2 (Nat.eqb_neq _ _)); [reflexivity|]. pose proof (Hp pu Hi). lia. }
    split.
    - rewrite Forall_map. apply Forall_forall. intros pu Hi. cbn [snd]. rewrite E by exact Hi.
      rewrite Forall_forall in Hp. apply optimal_nonneg; [apply Hp, Hi|]. unfold total. clear -Hi.
      induction (c_ports r) as [|x l IH]; [destruct Hi|]. simpl. destruct Hi as [->|Hi]; [lia | specialize (IH Hi); lia].
    - rewrite (map_ext_in _ (fun pu => share (optimal_length (snd pu) total))) by (intros pu Hi; rewrite E by exact Hi; reflexivity).
      rewrite <- (map_map snd (fun n => share (optimal_length n total))). apply shares_sum.
      + rewrite Forall_map. exact Hp.
      + intros F. apply map_eq_nil in F. contradiction.
  Qed.
End C80.

(* ------------------------------------------------ the table after a cover *)
Section Cover.
  Context {L : Type} `{EqDec L}.
  Context (substr : L -> L -> bool) (set_order : list (nat * nat) -> list (nat * nat)) (multi : bool).
  Context (row_name node_name : nat -> L) (blank : L -> bool).

  Definition patterns_of (rows : list (row L)) : list (graph L) := map (fun r => pattern_graph (r_pattern r)) rows.

  Lemma covered_In ps log (g : rgraph L) r : In r (t_rows (covered ps log g)) <->
    exists i p, nth_error ps i = Some p /\ r = {| c_pattern := p; c_usage := row_usage log i; c_ports := port_usage log i |}.
  Proof.
    unfold covered. cbn [t_rows]. rewrite in_map_iff.
    assert (forall k i p, In (i, p) (combine (seq k (length ps)) ps) <-> k <= i /\ nth_error ps (i - k) = Some p) as A.
    { induction ps as [|q ps IH]; intros k i p; cbn [length seq combine].
      - split; [intros [] | intros [_ E]; destruct (i - k); discriminate].
      - cbn [In]. rewrite IH. split.
        + intros [E|[Hk E]].
          * injection E as -> ->. rewrite Nat.sub_diag. auto.
          * split; [lia|]. replace (i - k) with (S (i - S k)) by lia. exact E.
        + intros [Hk E]. destruct (Nat.eq_dec i k) as [->|Hne].
          * rewrite Nat.sub_diag in E. injection E as ->. auto.
          * right. split; [lia|]. replace (i - k) with (S (i - S k)) in E by lia. exact E. }
    split.
    - intros ([i p] & <- & Hi). apply A in Hi as [_ E]. rewrite Nat.sub_0_r in E. exists i, p. auto.
    - intros (i & p & E & ->). exists (i, p). split; [reflexivity|]. apply A. rewrite Nat.sub_0_r. auto with arith.
  Qed.

  Definition row_use (x : entry L) : bool := match e_use x with RowUse _ _ => true | _ => false end.
  Lemma row_usage_sum n log : (forall x, In x log -> if row_use x then exists i, e_row x = Some i /\ i < n else e_row x = None) ->
    list_sum (map (row_usage log) (seq 0 n)) = length (filter row_use log).
  Proof.
    assert (forall l, list_sum (map (fun _ : nat => 0) l) = 0) as Z0 by (induction l as [|a l IH]; [reflexivity | exact IH]).
    induction log as [|x log IH]; intros Hx.
    - unfold row_usage, uses_of. simpl. apply Z0.
    - specialize (IH (fun y Hy => Hx y (or_intror Hy))). specialize (Hx x (or_introl eq_refl)).
      assert (forall i, row_usage (x :: log) i = (if eqd (e_row x) (Some i) then 1 else 0) + row_usage log i) as E.
      { intros i. unfold row_usage, uses_of. cbn [filter]. destruct (eqd (e_row x) (Some i)); reflexivity. }
      assert (list_sum (map (row_usage (x :: log)) (seq 0 n))
        = list_sum (map (fun i => if eqd (e_row x) (Some i) then 1 else 0) (seq 0 n)) + list_sum (map (row_usage log) (seq 0 n))) as ->.
      { clear -E. induction (seq 0 n) as [|i l IH]; [reflexivity|]. cbn [map list_sum fold_right].
        change (fold_right Nat.add 0) with list_sum. rewrite IH, E. lia. }
      rewrite IH. cbn [filter]. destruct (row_use x).
      + destruct Hx as (i & Ei & Hi). cbn [length].
        enough (list_sum (map (fun j => if eqd (e_row x) (Some j) then 1 else 0) (seq 0 n)) = 1) by lia.
        rewrite Ei.
        assert (forall k m, list_sum (map (fun j => if eqd (Some i) (Some j) then 1 else 0) (seq k m))
                            = if (k <=? i) && (i <? k + m) then 1 else 0) as S.
        { intros k m. revert k. induction m as [|m IHm]; intros k; cbn [seq map list_sum fold_right].
          - destruct (k <=? i) eqn:E1; [|reflexivity]. destruct (i <? k + 0) eqn:E2; [|reflexivity].
            apply Nat.leb_le in E1. apply Nat.ltb_lt in E2. lia.
          - change (fold_right Nat.add 0) with list_sum. rewrite IHm.
            destruct (eqd (Some i) (Some k)) eqn:E1.
            + apply (proj1 (eqd_true _ _)) in E1. injection E1 as ->.
              rewrite (proj2 (Nat.leb_gt (S k) k)), Nat.leb_refl, (proj2 (Nat.ltb_lt k (k + S m))) by lia. reflexivity.
            + assert (i <> k) by (intros ->; rewrite eqd_refl in E1; discriminate).
              replace (k <=? i) with (S k <=? i); [replace (k + S m) with (S k + m) by lia; reflexivity|].
              destruct (S k <=? i) eqn:E2, (k <=? i) eqn:E3; try reflexivity.
              * apply Nat.leb_le in E2. apply Nat.leb_gt in E3. lia.
              * apply Nat.leb_gt in E2. apply Nat.leb_le in E3. lia. }
        rewrite S. cbn [Nat.leb andb Nat.add]. rewrite (proj2 (Nat.ltb_lt i n)) by exact Hi. reflexivity.
      + rewrite Hx. rewrite Z0. reflexivity.
  Qed.

  Lemma covered_usage_sum rows log (g : rgraph L) : Forall (tagged rows) log ->
    usage_sum (covered (patterns_of rows) log g) = length log.
  Proof.
    intros Ht. unfold usage_sum, covered. cbn [t_rows t_vertex t_edge]. rewrite map_map. cbn [c_usage].
    assert (length (patterns_of rows) = length rows) as El by apply map_length.
    assert (map (fun ip : nat * graph L => row_usage log (fst ip)) (combine (seq 0 (length (patterns_of rows))) (patterns_of rows))
            = map (row_usage log) (seq 0 (length rows))) as ->.
    { rewrite <- El. clear. generalize 0. induction (patterns_of rows) as [|p ps IH]; intros k; [reflexivity|].
      cbn [length seq combine map fst]. rewrite IH. reflexivity. }
    rewrite row_usage_sum.
    2:{ intros x Hx. rewrite Forall_forall in Ht. specialize (Ht x Hx). unfold tagged in Ht. unfold row_use.
        destruct (e_use x); [|exact Ht|exact Ht]. destruct Ht as (i & r & E1 & E2 & _). exists i. split; [exact E1|].
        apply nth_error_Some. congruence. }
    assert (forall ls : list L, list_sum (map snd (counter ls)) = length ls) as C.
    { intros ls. exact (proj2 (counter_total ls)). }
    unfold vertex_usage, edge_usage. rewrite !C. clear. induction log as [|x log IH]; [reflexivity|].
    cbn [filter flat_map]. unfold row_use at 1. rewrite !app_length. destruct (e_use x); cbn [length]; lia.
  Qed.

  Context (substr_refl : forall l, substr l l = true)
          (set_order_In : forall l x, In x (set_order l) <-> In x l).

  (* names of vertices and of edges do not meet *)
  Definition told_apart (g : data L) : Prop :=
    forall l, In l (edge_names (graph_of g)) -> ~ In l (vertex_names (graph_of g)).
  Definition has_labels (g : data L) : Prop := vertex_names (graph_of g) ++ edge_names (graph_of g) <> [].

  Lemma edge_names_of (g : data L) l : In l (edge_names (graph_of g)) <-> exists u v, In (u, v, l) (d_edges g).
  Proof.
    unfold edge_names, graph_of. cbn [edges]. rewrite in_flat_map. split.
    - intros (e & He & Hl). apply in_map_iff in He as ([[u v] l'] & <- & He). cbn in Hl. destruct Hl as [->|[]]. eauto.
    - intros (u & v & He). exists ((u, v), Some (Name l)). split; [apply in_map_iff; exists (u, v, l); auto | left; reflexivity].
  Qed.
  Lemma vertex_names_of (g : data L) l : NoDup (dkeys (d_nodes g)) ->
    In l (vertex_names (graph_of g)) <-> exists n, In l (node_names (d_nodes g) n).
  Proof.
    intros Hn. unfold vertex_names, graph_of, node_names. cbn [nodes]. rewrite in_flat_map. split.
    - intros ([n o] & Hi & Hl). exists n. rewrite (In_dget _ _ _ Hn Hi). exact Hl.
    - intros [n Hl]. destruct (dget (d_nodes g) n) as [o|] eqn:E; [|destruct Hl]. apply dget_In in E. exists (n, o). auto.
  Qed.

  Lemma vertex_usage_keys log l : In l (map fst (vertex_usage log)) <-> exists x n, In x log /\ e_use x = VertexUse n l.
  Proof.
    unfold vertex_usage. rewrite (counter_keys _ l), in_flat_map. split.
    - intros (x & Hx & Hl). destruct (e_use x) as [| |n l'] eqn:E; cbn [In] in Hl; try contradiction.
      destruct Hl as [Hl|[]]. subst l'. eauto.
    - intros (x & n & Hx & E). exists x. rewrite E. split; [exact Hx | left; reflexivity].
  Qed.
  Lemma edge_usage_keys log l : In l (map fst (edge_usage log)) <-> exists x u v, In x log /\ e_use x = EdgeUse u v l.
  Proof.
    unfold edge_usage. rewrite (counter_keys _ l), in_flat_map. split.
    - intros (x & Hx & Hl). destruct (e_use x) as [|u v l'|] eqn:E; cbn [In] in Hl; try contradiction.
      destruct Hl as [Hl|[]]. subst l'. eauto.
    - intros (x & u & v & Hx & E). exists x. rewrite E. split; [exact Hx | left; reflexivity].
  Qed.
  Lemma counter_positive {A} `{EqDec A} (ls : list A) : Forall (fun uv => 0 < snd uv) (counter ls).
  Proof. apply Forall_forall. intros [l n] Hi. apply counter_In in Hi as [Hp _]. exact Hp. Qed.

  Lemma run_some g rows log ids r : NoDup (dkeys (d_nodes g)) -> has_labels g ->
    run row_name node_name g rows log ids r -> log <> [].
  Proof.
    intros Hn Hl R E. subst log. apply Hl. destruct (vertex_names (graph_of g)) as [|l ls] eqn:Ev.
    - destruct (edge_names (graph_of g)) as [|l ls] eqn:Ee; [reflexivity|].
      assert (In l (edge_names (graph_of g))) as Hi by (rewrite Ee; left; reflexivity).
      apply edge_names_of in Hi as (u & v & Hi). pose proof (ru_once _ _ _ _ _ _ _ R _ Hi) as F. discriminate.
    - assert (In l (vertex_names (graph_of g))) as Hi by (rewrite Ev; left; reflexivity).
      apply vertex_names_of in Hi as (n & Hi); [|exact Hn]. destruct (ru_vertex _ _ _ _ _ _ _ R n l Hi) as (x & [] & _).
  Qed.

  (* After a cover the code of every used row and singleton is optimal for its
     share of the uses. *)
  Theorem C80_cover_codes_partial (g : data L) (rows : list (row L)) (m : marks L) :
    admissible g rows -> readable row_name node_name g -> marks_ok m -> told_apart g -> has_labels g ->
    exists m' log, cover' substr set_order multi g rows m = Ret (m', log)
    /\ let c := covered (patterns_of rows) log (rewrite row_name node_name log) in
       usage_sum c = length log
       /\ (forall r, In r (t_rows c) -> 0 < c_usage r -> row_code_length r (usage_sum c) = optimal_length (c_usage r) (length log))
       /\ (forall l n, In (l, n) (t_vertex c ++ t_edge c) ->
             dget (singleton_code_length c) l = Some (optimal_length n (length log)))
       /\ Forall (fun x => 0 <= x)%R (map (fun r => row_code_length r (usage_sum c)) (used_rows c) ++ map snd (singleton_code_length c))
       /\ rsum (map share (map (fun r => row_code_length r (usage_sum c)) (used_rows c) ++ map snd (singleton_code_length c))) = 1%R
       /\ (forall r, In r (t_rows c) -> c_ports r <> [] ->
             map fst (port_code_length r) = map fst (c_ports r)
             /\ Forall (fun pc => 0 <= snd pc)%R (port_code_length r)
             /\ rsum (map (fun pc => share (snd pc)) (port_code_length r)) = 1%R).
  Proof.
    intros Ha Hr Hm Hd Hl.
    destruct (run_exists substr set_order multi substr_refl set_order_In row_name node_name g rows m Ha Hr Hm)
      as (m' & log & ids & E & _ & _ & R).
    exists m', log. split; [exact E|]. cbv zeta. set (c := covered _ _ _).
    pose proof (cover_tagged substr set_order multi g rows m _ E) as Ht. cbn [snd] in Ht.
    pose proof (covered_usage_sum rows log (rewrite row_name node_name log) Ht) as Eu. fold c in Eu.
    assert (0 < length log) as Hpos.
    { pose proof (run_some _ _ _ _ _ (ad_nodes _ _ Ha) Hl R) as Hne. destruct log; [contradiction | simpl; lia]. }
    destruct (C80_usage_codes_partial c) as (C1 & C2 & C3 & C4).
    - unfold c, covered. cbn [t_vertex t_edge]. apply Forall_app. split; apply counter_positive.
    - rewrite map_app. apply NoDup_app_intro; [apply (proj1 (counter_total _)) | apply (proj1 (counter_total _))|].
      intros l H1 H2. unfold c, covered in H1, H2. cbn [t_vertex t_edge] in H1, H2.
      apply vertex_usage_keys in H1 as (x & n & Hx & Ex). apply edge_usage_keys in H2 as (y & u & v & Hy & Ey).
      pose proof (ru_from _ _ _ _ _ _ _ R x Hx) as Fx. rewrite Ex in Fx.
      pose proof (ru_from _ _ _ _ _ _ _ R y Hy) as Fy. rewrite Ey in Fy.
      apply (Hd l); [apply edge_names_of; eauto | apply vertex_names_of; [apply (ad_nodes _ _ Ha) | eauto]].
    - rewrite Eu. exact Hpos.
    - rewrite Eu in *. split; [reflexivity|]. split; [exact C1|]. split; [exact C2|]. split; [exact C3|]. split; [exact C4|].
      intros r Hir Hne. apply C80_port_codes; [|exact Hne]. apply covered_In in Hir as (i & p & _ & ->). cbn [c_ports].
      apply counter_positive.
  Qed.

  (* ------------------------------------------- total description length *)
  (* the patterns of the table are coded as C79 wants them *)
  Definition codable (rows : list (row L)) : Prop :=
    forall r, In r rows -> proper (pattern_graph (r_pattern r)) /\ NoDup (dkeys (p_nodes (r_pattern r))).
  Definition not_blank (g : data L) : Prop :=
    forall l, In l (vertex_names (graph_of g)) \/ In l (edge_names (graph_of g)) -> blank l = false.

  Lemma row_used (log : list (entry L)) i : 0 < row_usage log i -> exists x, In x log /\ e_row x = Some i.
  Proof.
    unfold row_usage, uses_of. destruct (filter _ log) as [|x l] eqn:E; [simpl; lia|]. intros _.
    assert (In x (filter (fun x => eqd (e_row x) (Some i)) log)) as Hx by (rewrite E; left; reflexivity).
    apply filter_In in Hx as [Hx Hr]. apply (proj1 (eqd_true _ _)) in Hr. eauto.
  Qed.

  Lemma used_known g rows log ids r i row : NoDup (dkeys (d_nodes g)) -> codable rows ->
    run row_name node_name g rows log ids r ->
    Forall (tagged rows) log -> 0 < row_usage log i -> nth_error rows i = Some row ->
    known (graph_of g) (pattern_graph (r_pattern row)).
  Proof.
    intros Hn Hc R Ht Hu Hi. apply row_used in Hu as (x & Hx & Er).
    rewrite Forall_forall in Ht. specialize (Ht x Hx). unfold tagged in Ht.
    pose proof (ru_from _ _ _ _ _ _ _ R x Hx) as F.
    destruct (e_use x) as [p e|u v l|n l]; [|congruence|congruence].
    destruct F as (i' & r' & E1 & E2 & -> & I2 & Ho & Hd & Hs & _ & _).
    rewrite Er in E1. injection E1 as <-. rewrite Hi in E2. injection E2 as <-.
    destruct (Hc row I2) as [_ Nd]. split; intros l Hl.
    - unfold vertex_names, pattern_graph in Hl. cbn [nodes] in Hl. apply in_flat_map in Hl as ([a o] & Ha & Hl).
      assert (In a (map snd e)) as Hia by (apply Hs; exact (in_map fst _ _ Ha)).
      apply in_map_iff in Hia as ([n a'] & Ea & Hna). cbn [snd] in Ea. subst a'.
      destruct o as [lab|]; [|destruct Hl]. pose proof (In_dget _ _ _ Nd Ha) as G.
      destruct (oc_labels _ _ _ Ho n a lab Hna G) as (_ & dl & Hdl & Hincl).
      apply vertex_names_of; [exact Hn|]. exists n. unfold node_names. rewrite Hdl. apply Hincl. exact Hl.
    - unfold edge_names, pattern_graph in Hl. cbn [edges] in Hl. apply in_flat_map in Hl as ([k o] & Ha & Hl).
      apply in_flat_map in Ha as ([[a b] ls] & Hpe & Ha). apply in_map_iff in Ha as (l' & El & Hl'). injection El as <- <-.
      cbn [snd names_of In] in Hl. destruct Hl as [<-|[]]. cbn [snd] in Hl'.
      destruct (oc_ends _ _ _ Ho _ _ _ Hpe) as [O1 O2].
      apply in_map_iff in O1 as ([n a'] & Ea & O1), O2 as ([n' b'] & Eb & O2). cbn [snd] in Ea, Eb. subst a' b'.
      apply edge_names_of. exists n, n'. exact (oc_edges _ _ _ Ho a b ls n n' l' Hpe O1 O2 Hl').
  Qed.

  Lemma used_ports g rows log ids r i row :
    run row_name node_name g rows log ids r -> Forall (tagged rows) log -> nth_error rows i = Some row ->
    length (port_usage log i) <= length (p_nodes (r_pattern row)).
  Proof.
    intros R Ht Hi. unfold port_usage.
    rewrite <- (map_length fst (counter _)), <- (map_length fst (p_nodes _)).
    apply NoDup_incl_length; [apply (proj1 (counter_total _))|]. intros a Ha. apply (proj1 (counter_keys _ _)) in Ha.
    apply in_flat_map in Ha as (x & Hx & Ha). unfold uses_of in Hx. apply filter_In in Hx as [Hx Er].
    apply (proj1 (eqd_true _ _)) in Er. apply in_map_iff in Ha as ([n a'] & Ea & Hna). cbn [snd] in Ea. subst a'.
    pose proof (ru_ports _ _ _ _ _ _ _ R x Hx (n, a) Hna) as Hu. pose proof (ru_from _ _ _ _ _ _ _ R x Hx) as F.
    destruct (e_use x) as [p e|u v l|n0 l] eqn:Eu; cbn [use_nodes] in Hu.
    - destruct F as (i' & r' & E1 & E2 & -> & _ & _ & _ & Hs & _). rewrite Er in E1. injection E1 as <-.
      rewrite Hi in E2. injection E2 as <-. apply Hs. exact (in_map snd _ _ Hu).
    - rewrite Forall_forall in Ht. specialize (Ht x Hx). unfold tagged in Ht. rewrite Eu in Ht. congruence.
    - rewrite Forall_forall in Ht. specialize (Ht x Hx). unfold tagged in Ht. rewrite Eu in Ht. congruence.
  Qed.

  Lemma map_out_all {A B} (f : A -> outcome B) (P : B -> Prop) l :
    (forall a, In a l -> exists b, f a = Ret b /\ P b) -> exists bs, map_out f l = Ret bs /\ Forall P bs.
  Proof.
    induction l as [|a l IH]; intros Hf; [exists []; split; [reflexivity | constructor]|].
    destruct (Hf a (or_introl eq_refl)) as (b & Eb & Pb). destruct IH as (bs & Es & Ps); [intros x Hx; apply Hf; right; exact Hx|].
    exists (b :: bs). cbn [map_out]. rewrite Eb. cbn [bind]. rewrite Es. split; [reflexivity | constructor; assumption].
  Qed.
  Lemma float_sum_nonneg l : Forall (fun x => 0 <= x)%R l -> (0 <= float_sum l)%R.
  Proof. rewrite float_sum_rsum. apply rsum_nonneg. Qed.

  (* Covering a data graph that has a label gives a table whose total
     description length is a positive number. *)
  Theorem C80_total_partial (g : data L) (rows : list (row L)) (m : marks L) (t : label_codes L) :
    admissible g rows -> readable row_name node_name g -> marks_ok m -> told_apart g -> has_labels g ->
    codable rows -> not_blank g -> plain (graph_of g) -> LabelCodes (graph_of g) = Ret t ->
    exists m' log a b, cover' substr set_order multi g rows m = Ret (m', log)
    /\ let c := covered (patterns_of rows) log (rewrite row_name node_name log) in
       ct_description_length blank t c = Ret a /\ rewritten_description_length c = Ret b
       /\ total_description_length blank t c = Ret (a + b)%R /\ (0 < a)%R /\ (0 < b)%R.
  Proof.
    intros Ha Hr Hm Hd Hl Hc Hb Hp Et.
    destruct (run_exists substr set_order multi substr_refl set_order_In row_name node_name g rows m Ha Hr Hm)
      as (m' & log & ids & E & _ & _ & R).
    pose proof (cover_tagged substr set_order multi g rows m _ E) as Ht. cbn [snd] in Ht.
    pose proof (run_some _ _ _ _ _ (ad_nodes _ _ Ha) Hl R) as Hne.
    set (c := covered (patterns_of rows) log (rewrite row_name node_name log)).
    destruct (C78_label_codes_partial (graph_of g) Hp Hd) as (t' & Et' & Nv & Nn & Iv & Ie & Hnn & _).
    rewrite Et in Et'. injection Et' as <-.
    assert (Kv : incl (vertex_names (graph_of g)) (map fst (vertex_lc t))).
    { intros l Hi. apply in_map_iff. eexists (l, _). split; [reflexivity|]. apply Iv. split; [exact Hi | reflexivity]. }
    assert (Ke : incl (edge_names (graph_of g)) (map fst (edges_lc t))).
    { intros l Hi. apply in_map_iff. eexists (l, _). split; [reflexivity|]. apply Ie. split; [exact Hi | reflexivity]. }
    assert (Hcount : 0 < label_count t).
    { unfold label_count. unfold has_labels in Hl. rewrite <- (map_length fst (vertex_lc t)), <- (map_length fst (edges_lc t)).
      destruct (vertex_names (graph_of g)) as [|l ls].
      - destruct (edge_names (graph_of g)) as [|l ls]; [elim Hl; reflexivity|].
        specialize (Ke l (or_introl eq_refl)). destruct (map fst (edges_lc t)); [destruct Ke | simpl; lia].
      - specialize (Kv l (or_introl eq_refl)). destruct (map fst (vertex_lc t)); [destruct Kv | simpl; lia]. }
    assert (Enc : forall p, proper p -> known (graph_of g) p -> exists x, encode p t = Ret x /\ (0 < x)%R).
    { intros p Pp [K1 K2]. exists (encode_bits p t). split.
      - apply encode_ok; [exact Pp | exact Hcount | |]; intros l Hi; [apply Kv, K1, Hi | apply Ke, K2, Hi].
      - apply encode_bits_pos; assumption. }
    assert (Hnodes : r_nodes (t_rewritten c) <> []).
    { cbn [c covered t_rewritten]. intros F. pose proof (ru_repr _ _ _ _ _ _ _ R) as Rr. destruct log as [|x0 log0]; [contradiction|].
      destruct ids as [|q ids0]; [discriminate (re_length _ _ _ _ _ Rr)|].
      pose proof (re_use _ _ _ _ _ Rr 0 x0 q eq_refl eq_refl) as G. apply node_at_bound in G. rewrite F in G. simpl in G. lia. }
    assert (Rows : forall r, In r (used_rows c) -> exists p, In p (patterns_of rows) /\ c_pattern r = p /\ proper p
                     /\ known (graph_of g) p /\ length (port_code_length r) <= length (nodes p)).
    { intros r Hi. unfold used_rows in Hi. apply filter_In in Hi as [Hi Hu]. apply covered_In in Hi as (i & p & Ei & ->).
      cbn [c_usage c_ports c_pattern] in *. exists p. split; [exact (nth_error_In _ _ Ei)|]. split; [reflexivity|].
      unfold patterns_of in Ei. rewrite nth_error_map in Ei. destruct (nth_error rows i) as [row|] eqn:Er; [|discriminate].
      cbn [option_map] in Ei. injection Ei as <-. pose proof (nth_error_In _ _ Er) as Hin.
      split; [apply (Hc row Hin)|]. split.
      - apply (used_known g rows log ids _ i row (ad_nodes _ _ Ha) Hc R Ht); [|exact Er].
        destruct (row_usage log i); [discriminate | lia].
      - unfold port_code_length. cbn [c_ports]. rewrite map_length. apply (used_ports g rows log ids _ i row R Ht Er). }
    assert (A : exists a, ct_description_length blank t c = Ret a /\ (0 < a)%R).
    { unfold ct_description_length. destruct (r_nodes (t_rewritten c)) as [|z0 zs] eqn:Ez; [contradiction|]. clear Ez Hnodes.
      destruct (map_out_all (row_description_length t) (fun x => 0 < x)%R (used_rows c)) as (ds & Eds & Pds).
      { intros r Hi. destruct (Rows r Hi) as (p & _ & Ep & Pp & Kp & Hle). unfold row_description_length. rewrite Ep.
        destruct (Enc p Pp Kp) as (x & Ex & Px). rewrite math_log2_ok by (apply lt_0_INR; lia). cbn [bind].
        rewrite log2_binomial_ok by exact Hle. cbn [bind]. rewrite Ex. cbn [bind]. eexists. split; [reflexivity|].
        pose proof (lg_nonneg (INR (length (nodes p) + 1)) (one_le_INR (length (nodes p) + 1) ltac:(lia))).
        pose proof (lg_nonneg (INR (choose (length (nodes p)) (length (port_code_length r)))) (one_le_INR _ (choose_pos _ _ Hle))). lra. }
      rewrite Eds. cbn [bind]. unfold singleton_description_length. rewrite !math_log2_ok by lra. cbn [bind].
      destruct (map_out_all (fun uv : L * nat => bind (encode_singleton blank t 1 (fst uv)) (fun e => Ret (e + ln 2 / ln 2)%R))
                  (fun x => 0 < x)%R (t_vertex c)) as (vs & Evs & Pvs).
      { intros [l n] Hi. cbn [fst].
        assert (In l (vertex_names (graph_of g))) as Hv.
        { apply (in_map fst) in Hi. cbn [fst] in Hi. apply vertex_usage_keys in Hi as (x & k & Hx & Ex).
          pose proof (ru_from _ _ _ _ _ _ _ R x Hx) as Fx. rewrite Ex in Fx. apply vertex_names_of; [apply (ad_nodes _ _ Ha) | eauto]. }
        rewrite (proj1 (C79_singleton blank t l (Hb l (or_introl Hv)))).
        destruct (Enc {| nodes := [(1, Some (Name l))]; edges := [] |}) as (x & Ex & Px).
        - split; cbn.
          + split; repeat constructor.
          + intros u [<-|[]]. lia.
          + intros e [].
          + repeat constructor. intros [].
          + constructor.
        - split; cbn; [intros k [<-|[]]; exact Hv | intros k []].
        - rewrite Ex. cbn [bind]. eexists. split; [reflexivity|]. pose proof (lg_nonneg 2 ltac:(lra)). lra. }
      rewrite Evs. cbn [bind].
      destruct (map_out_all (fun uv : L * nat => bind (encode_singleton blank t 2 (fst uv)) (fun e => Ret (e + (ln 3 / ln 2 + 2))%R))
                  (fun x => 0 < x)%R (t_edge c)) as (es & Ees & Pes).
      { intros [l n] Hi. cbn [fst].
        assert (In l (edge_names (graph_of g))) as Hv.
        { apply (in_map fst) in Hi. cbn [fst] in Hi. apply edge_usage_keys in Hi as (x & u & v & Hx & Ex).
          pose proof (ru_from _ _ _ _ _ _ _ R x Hx) as Fx. rewrite Ex in Fx. apply edge_names_of. eauto. }
        rewrite (proj1 (proj2 (C79_singleton blank t l (Hb l (or_intror Hv))))).
        destruct (Enc {| nodes := [(1, None); (2, None)]; edges := [(1, 2, Some (Name l))] |}) as (x & Ex & Px).
        - split; cbn.
          + split; repeat constructor.
          + intros u [<-|[<-|[]]]; lia.
          + intros e [<-|[]]. cbn. auto.
          + constructor.
          + repeat constructor. intros [].
        - split; cbn; [intros k [] | intros k [<-|[]]; exact Hv].
        - rewrite Ex. cbn [bind]. eexists. split; [reflexivity|]. pose proof (lg_nonneg 3 ltac:(lra)). lra. }
      rewrite Ees. cbn [bind]. eexists. split; [reflexivity|].
      (* some part is present *)
      assert (Mono : forall l, Forall (fun x => 0 < x)%R l -> (0 <= float_sum l)%R /\ (l <> [] -> 0 < float_sum l)%R).
      { intros l Pl. rewrite !float_sum_rsum. split.
        - apply rsum_nonneg. eapply Forall_impl; [|exact Pl]. intros x Hx. cbn beta in Hx. lra.
        - intros Hl0. destruct Pl as [|x l Px Pl]; [contradiction|]. cbn [rsum].
          assert (0 <= rsum l)%R by (apply rsum_nonneg; eapply Forall_impl; [|exact Pl]; intros y Hy; cbn beta in Hy; lra). lra. }
      destruct (Mono _ Pds) as [M1 M1'], (Mono _ Pvs) as [M2 M2'], (Mono _ Pes) as [M3 M3'].
      assert (Len : forall {X Y} (f : X -> outcome Y) l l', map_out f l = Ret l' -> length l' = length l).
      { clear. intros X Y f l. induction l as [|x l IH]; intros l' Ex; cbn [map_out] in Ex; [injection Ex as <-; reflexivity|].
        destruct (f x) as [y|e|]; try discriminate. cbn [bind] in Ex. destruct (map_out f l) as [r|e|]; try discriminate.
        cbn [bind] in Ex. injection Ex as <-. simpl. rewrite (IH r eq_refl). reflexivity. }
      pose proof (covered_usage_sum rows log (rewrite row_name node_name log) Ht) as Eu. fold c in Eu.
      rewrite <- use_counts_sum in Eu. unfold use_counts in Eu.
      destruct ds as [|d0 ds]; [|specialize (M1' ltac:(discriminate)); lra].
      destruct vs as [|v0 vs]; [|specialize (M2' ltac:(discriminate)); lra].
      destruct es as [|e0 es]; [|specialize (M3' ltac:(discriminate)); lra].
      apply Len in Eds, Evs, Ees. destruct (used_rows c); [|discriminate]. destruct (t_vertex c); [|discriminate].
      destruct (t_edge c); [|discriminate]. simpl in Eu. destruct log; [contradiction | discriminate]. }
    assert (B : exists b, rewritten_description_length c = Ret b /\ (0 < b)%R).
    { unfold rewritten_description_length. cbv zeta. destruct (r_nodes (t_rewritten c)) as [|z0 zs] eqn:Ez; [contradiction|].
      rewrite <- Ez. clear Ez Hnodes. rewrite integer_length_ok. cbn [bind]. rewrite math_log2_ok by (apply lt_0_INR; lia). cbn [bind].
      destruct (map_out_all (fun r => bind (math_log2 (INR (length (port_code_length r) + 1)))
                                   (fun x => Ret (INR (c_usage r) * x)%R)) (fun x => 0 <= x)%R (used_rows c)) as (ps & Eps & Pps).
      { intros r _. rewrite math_log2_ok by (apply lt_0_INR; lia). cbn [bind]. eexists. split; [reflexivity|].
        apply Rmult_le_pos; [apply pos_INR | apply lg_nonneg, one_le_INR; lia]. }
      rewrite Eps. cbn [bind]. rewrite !math_log2_ok by lra. cbn [bind]. eexists. split; [reflexivity|].
      destruct (int_bits_ok (length (filter is_pattern (r_nodes (t_rewritten c))))) as [_ Hi]. apply IZR_lt in Hi.
      pose proof (lg_nonneg (INR (length (port_vertices (t_rewritten c)) + 1)) (one_le_INR (length (port_vertices (t_rewritten c)) + 1) ltac:(lia))) as G1.
      match goal with |- (0 < _ + _ + float_sum ?x + prequential_code ?y _ + prequential_code ?z _ + float_sum ?w)%R =>
        assert (0 <= float_sum x)%R as G2; [|assert (0 <= float_sum w)%R as G3;
          [|pose proof (prequential_nonneg y (1 / 2) ltac:(lra)); pose proof (prequential_nonneg z (1 / 2) ltac:(lra)); lra]] end.
      - apply float_sum_nonneg. apply Forall_app. split; [exact Pps|]. apply Forall_app.
        split; rewrite Forall_map; apply Forall_forall; intros uv _;
          (apply Rmult_le_pos; [apply pos_INR | apply lg_nonneg; lra]).
      - apply float_sum_nonneg. apply Forall_app. split; rewrite Forall_map; apply Forall_forall; intros r _; apply prequential_nonneg; lra. }
    destruct A as (a & Ea & Pa), B as (b & Eb & Pb). exists m', log, a, b. split; [exact E|]. cbv zeta. fold c.
    split; [exact Ea|]. split; [exact Eb|]. split; [|split; assumption].
    unfold total_description_length. rewrite Ea. cbn [bind]. rewrite Eb. reflexivity.
  Qed.

  (* Without any label there is nothing to describe: ValueError. *)
  Theorem C80_no_label (g : data L) (m : marks L) (t : label_codes L) : ~ has_labels g ->
    exists m', cover' substr set_order multi g [] m = Ret (m', [])
    /\ total_description_length blank t (covered [] [] (rewrite row_name node_name [])) = Exn ValueError.
  Proof.
    intros Hl. unfold has_labels in Hl.
    assert (d_edges g = []) as Ee.
    { destruct (d_edges g) as [|[[u v] l] es] eqn:E; [reflexivity|]. exfalso. apply Hl. intros F.
      apply app_eq_nil in F as [_ F]. assert (In l (edge_names (graph_of g))) as Hi by (apply edge_names_of; exists u, v; rewrite E; left; reflexivity).
      rewrite F in Hi. destruct Hi. }
    assert (forall no, In no (d_nodes g) -> names_of (snd no) = []) as En.
    { intros no Hi. destruct (names_of (snd no)) as [|l ls] eqn:E; [reflexivity|]. exfalso. apply Hl. intros F.
      apply app_eq_nil in F as [F _]. assert (In l (vertex_names (graph_of g))) as Hv.
      { unfold vertex_names. apply in_flat_map. exists no. split; [exact Hi | rewrite E; left; reflexivity]. }
      rewrite F in Hv. destruct Hv. }
    eexists. split; [|reflexivity]. unfold cover'. cbn [length seq combine fold_out bind]. unfold singleton_cover'. rewrite Ee. cbn [fold_out bind].
    assert (forall ns s, (forall no, In no ns -> names_of (snd no) = []) -> fold_out (node_singleton_turn' substr g) ns s = Ret s) as F.
    { induction ns as [|[n o] ns IH]; intros s Hs; [reflexivity|]. cbn [fold_out].
      assert (node_singleton_turn' substr g s (n, o) = Ret s) as ->.
      { specialize (Hs (n, o) (or_introl eq_refl)). cbn [snd] in Hs. unfold node_singleton_turn'. cbn [snd fst].
        destruct o as [[l|ls|ls]|]; cbn [names_of] in Hs; subst; try discriminate; reflexivity. }
      cbn [bind]. apply IH. intros no Hi. apply Hs. right. exact Hi. }
    apply F. exact En.
  Qed.
End Cover.

(* -------------------------------------------------- what the length ignores *)
(* Line 177 codes the numbers of the ports instead of their usages: the total
   length does not change when the usages of the ports change. *)
Section Ignored.
  Context {L : Type} `{EqDec L}.

  Definition same_but_port_usage (r r' : ct_row L) : Prop :=
    c_pattern r = c_pattern r' /\ c_usage r = c_usage r' /\ map fst (c_ports r) = map fst (c_ports r').

  Lemma map_out_ext {A B} (f : A -> outcome B) (P : A -> A -> Prop) l l' : Forall2 P l l' ->
    (forall a b, P a b -> f a = f b) -> map_out f l = map_out f l'.
  Proof. intros F E. induction F as [|a b l l' Hab F IH]; [reflexivity|]. cbn [map_out]. rewrite (E a b Hab), IH. reflexivity. Qed.
  Lemma map_ext2 {A B} (f : A -> B) (P : A -> A -> Prop) l l' : Forall2 P l l' ->
    (forall a b, P a b -> f a = f b) -> map f l = map f l'.
  Proof. intros F E. induction F as [|a b l l' Hab F IH]; [reflexivity|]. cbn [map]. rewrite (E a b Hab), IH. reflexivity. Qed.

  Theorem C80_port_usage_refuted (blank : L -> bool) (t : label_codes L) (c c' : table L) :
    Forall2 same_but_port_usage (t_rows c) (t_rows c') ->
    t_vertex c = t_vertex c' -> t_edge c = t_edge c' -> t_rewritten c = t_rewritten c' ->
    total_description_length blank t c = total_description_length blank t c'.
  Proof.
    intros Hr Hv He Hg.
    assert (Forall2 same_but_port_usage (used_rows c) (used_rows c')) as Hu.
    { unfold used_rows. clear -Hr. induction Hr as [|r r' l l' (E1 & E2 & E3) F IH]; [constructor|]. cbn [filter].
      rewrite E2. destruct (negb (c_usage r' =? 0)); [constructor; [split; auto | exact IH] | exact IH]. }
    assert (forall r r', same_but_port_usage r r' -> length (port_code_length r) = length (port_code_length r')) as Hl.
    { intros r r' (_ & _ & E). unfold port_code_length. rewrite !map_length.
      rewrite <- (map_length fst (c_ports r)), E, map_length. reflexivity. }
    unfold total_description_length.
    assert (ct_description_length blank t c = ct_description_length blank t c') as ->.
    { unfold ct_description_length. rewrite Hg.
      rewrite (map_out_ext (row_description_length t) _ _ _ Hu).
      2:{ intros r r' S. unfold row_description_length. rewrite (Hl r r' S). destruct S as (-> & _). reflexivity. }
      unfold singleton_description_length. rewrite Hv, He. reflexivity. }
    assert (rewritten_description_length c = rewritten_description_length c') as ->; [|reflexivity].
    unfold rewritten_description_length. rewrite Hg, Hv, He.
    rewrite (map_out_ext (fun r => bind (math_log2 (INR (length (port_code_length r) + 1))) (fun x => Ret (INR (c_usage r) * x)%R)) _ _ _ Hu).
    2:{ intros r r' S. rewrite (Hl r r' S). destruct S as (_ & -> & _). reflexivity. }
    rewrite (map_ext2 c_usage _ _ _ Hu) by (intros r r' (_ & E & _); exact E).
    rewrite (map_ext2 (fun r => prequential_code (map fst (c_ports r)) (1 / 2)) _ _ _ Hu) by (intros r r' (_ & _ & ->); reflexivity).
    reflexivity.
  Qed.
End Ignored.

(* The length depends on the numbering of the nodes of a pattern. *)
Definition renumber_row {L} (f : nat -> nat) (r : row L) : row L :=
  {| r_pattern := {| p_nodes := map (fun v => (f (fst v), snd v)) (p_nodes (r_pattern r));
                     p_edges := map (fun e => ((f (fst (fst e)), f (snd (fst e))), snd e)) (p_edges (r_pattern r)) |};
     r_embeddings := map (map (fun kv => (fst kv, f (snd kv)))) (r_embeddings r) |}.

Definition fork : data nat :=
  {| d_nodes := [(1, Some (Name 10)); (2, None); (3, None); (4, None)];
     d_edges := [(1, 2, 7); (2, 3, 8); (1, 4, 9); (2, 4, 9)] |}.
Definition fork_rows : list (row nat) :=
  [{| r_pattern := {| p_nodes := [(1, Some (Name 10)); (2, None); (3, None)]; p_edges := [((1, 2), [7]); ((2, 3), [8])] |};
      r_embeddings := [[(1, 1); (2, 2); (3, 3)]] |}].
Definition swap23 (n : nat) : nat := match n with 2 => 3 | 3 => 2 | _ => n end.
Definition fresh_marks : marks nat := {| marker := 0; edge_mark := []; node_mark := [] |}.

Lemma fork_readable : readable row_no node_no fork.
Proof.
  apply readable_small.
  - intros u v l. simpl. intuition (try congruence); repeat match goal with H : (_, _) = (_, _) |- _ => injection H; clear H; intros; subst end; lia.
  - apply names_small. repeat constructor.
Qed.
Lemma fork_admissible : admissible fork fork_rows.
Proof.
  split; [unfold fork, fork_rows; tidy_tac | intros u l; simpl; intuition congruence |].
  exists fork_rows, []. split; [reflexivity|]. split; repeat constructor; discriminate.
Qed.
Lemma fork_admissible' : admissible fork (map (renumber_row swap23) fork_rows).
Proof.
  unfold fork_rows, renumber_row. cbn [map r_pattern p_nodes p_edges r_embeddings fst snd swap23].
  split; [unfold fork; tidy_tac | intros u l; simpl; intuition congruence |].
  eexists _, []. split; [rewrite app_nil_r; reflexivity|]. split; repeat constructor; discriminate.
Qed.

Lemma rewritten_one {L} `{EqDec L} (c c' : table L) r r' b b' : used_rows c = [r] -> used_rows c' = [r'] ->
  c_usage r = c_usage r' -> length (c_ports r) = length (c_ports r') ->
  t_vertex c = t_vertex c' -> t_edge c = t_edge c' -> r_nodes (t_rewritten c) = r_nodes (t_rewritten c') ->
  map (in_degree (t_rewritten c)) (port_vertices (t_rewritten c)) = map (in_degree (t_rewritten c')) (port_vertices (t_rewritten c')) ->
  rewritten_description_length c = Ret b -> rewritten_description_length c' = Ret b' ->
  (b - b' = prequential_code (map fst (c_ports r)) (1 / 2) - prequential_code (map fst (c_ports r')) (1 / 2))%R.
Proof.
  intros U U' Eu El Ev Ee En Ed. unfold rewritten_description_length. cbv zeta. rewrite U, U', Ed, <- Ev, <- Ee, <- En.
  assert (length (port_vertices (t_rewritten c')) = length (port_vertices (t_rewritten c))) as ->.
  { rewrite <- (map_length (in_degree (t_rewritten c'))), <- Ed, map_length. reflexivity. }
  unfold port_code_length. cbn [map_out]. cbv zeta. rewrite !map_length, <- El.
  destruct (r_nodes (t_rewritten c)) as [|z zs]; [discriminate|]. cbn [map]. rewrite <- Eu.
  destruct (integer_length _) as [x1|e|]; try discriminate. cbn [bind].
  destruct (math_log2 _) as [x2|e|]; try discriminate. cbn [bind].
  destruct (math_log2 (INR (length (c_ports r) + 1))) as [x3|e|]; try discriminate. cbn [bind].
  destruct (math_log2 2) as [x4|e|]; try discriminate. cbn [bind].
  destruct (math_log2 3) as [x5|e|]; try discriminate. cbn [bind].
  intros E E'. injection E as <-. injection E' as <-.
  rewrite !float_sum_rsum. cbn [rsum app]. rewrite ?rsum_app. ring.
Qed.

Lemma ct_one {L} `{EqDec L} (blank : L -> bool) (t : label_codes L) (c c' : table L) r r' : used_rows c = [r] -> used_rows c' = [r'] ->
  length (c_ports r) = length (c_ports r') -> length (nodes (c_pattern r)) = length (nodes (c_pattern r')) ->
  encode (c_pattern r) t = encode (c_pattern r') t ->
  t_vertex c = t_vertex c' -> t_edge c = t_edge c' -> r_nodes (t_rewritten c) = r_nodes (t_rewritten c') ->
  ct_description_length blank t c = ct_description_length blank t c'.
Proof.
  intros U U' El En Ec Ev Ee Eg. unfold ct_description_length. rewrite Eg, U, U'. cbn [map_out].
  unfold row_description_length, port_code_length. cbv zeta. rewrite !map_length, El, En, Ec.
  unfold singleton_description_length. rewrite Ev, Ee. reflexivity.
Qed.

Lemma one_three : (prequential_code [1; 2]%nat (1 / 2) < prequential_code [1; 3]%nat (1 / 2))%R.
Proof.
  unfold prequential_code. cbn [length fold_left emit].
  assert (0 < log2 (1 / 2 + 1 + 1) (INR 2 * (1 / 2) + 1 + 1 + 1))%R as Hp.
  { unfold log2. pose proof ln2_pos. simpl.
    assert (ln ((1 / 2 + 1 + 1) / ((1 + 1) * (1 / 2) + 1 + 1 + 1)) < 0)%R as Hn.
    { rewrite <- ln_1. apply ln_increasing; lra. }
    assert (0 < - (ln ((1 / 2 + 1 + 1) / ((1 + 1) * (1 / 2) + 1 + 1 + 1))) * / ln 2)%R.
    { apply Rmult_lt_0_compat; [lra | apply Rinv_0_lt_compat; lra]. }
    unfold Rdiv in *. lra. }
  lra.
Qed.

(* One row, used once, with two ports; the second port has number 2 or 3. *)
Theorem C80_numbering_refuted : exists (g : data nat) (rows : list (row nat)) (f : nat -> nat) (t : label_codes nat) x x',
  (forall n, f (f n) = n)
  /\ admissible g rows /\ admissible g (map (renumber_row f) rows) /\ codable rows /\ codable (map (renumber_row f) rows)
  /\ LabelCodes (graph_of g) = Ret t
  /\ (let total rows := bind (cover' eqd (fun l => l) false g rows fresh_marks) (fun s =>
        total_description_length (fun _ => false) t (covered (patterns_of rows) (snd s) (rewrite row_no node_no (snd s)))) in
      total rows = Ret x /\ total (map (renumber_row f) rows) = Ret x' /\ x <> x').
Proof.
  assert (told_apart fork) as Ht.
  { intros l Hl Hv. simpl in Hl, Hv. intuition congruence. }
  assert (has_labels fork) as Hl by discriminate.
  assert (not_blank (fun _ : nat => false) fork) as Hb by (intros l _; reflexivity).
  assert (plain (graph_of fork)) as Hp by (split; repeat constructor).
  assert (codable fork_rows) as Hc.
  { intros r [<-|[]]. split; [|repeat constructor; simpl; intuition congruence]. split; simpl.
    - split; repeat constructor.
    - intuition lia.
    - intros e. intuition (subst; simpl; auto).
    - repeat constructor; simpl; intuition congruence.
    - repeat constructor; simpl; intuition congruence. }
  assert (codable (map (renumber_row swap23) fork_rows)) as Hc'.
  { intros r [<-|[]]. split; [|repeat constructor; simpl; intuition congruence]. split; simpl.
    - split; repeat constructor.
    - intuition lia.
    - intros e. intuition (subst; simpl; auto).
    - repeat constructor; simpl; intuition congruence.
    - repeat constructor; simpl; intuition congruence. }
  destruct (C78_label_codes (graph_of fork) Hp) as (t & total & Et & _).
  assert (marks_ok fresh_marks) as Hm by (split; intros k c; discriminate).
  assert (forall l : nat, eqd l l = true) as Hr by (intros; apply eqd_refl).
  destruct (C80_total_partial eqd (fun l => l) false row_no node_no (fun _ => false) Hr (fun l x => iff_refl _)
              fork fork_rows fresh_marks t fork_admissible fork_readable Hm Ht Hl Hc Hb Hp Et) as (m1 & log & a & b & E & D).
  destruct (C80_total_partial eqd (fun l => l) false row_no node_no (fun _ => false) Hr (fun l x => iff_refl _)
              fork (map (renumber_row swap23) fork_rows) fresh_marks t fork_admissible' fork_readable Hm Ht Hl Hc' Hb Hp Et) as (m1' & log' & a' & b' & E' & D').
  exists fork, fork_rows, swap23, t, (a + b)%R, (a' + b')%R.
  split; [intros [|[|[|[|n]]]]; reflexivity|]. split; [exact fork_admissible|]. split; [exact fork_admissible'|].
  split; [exact Hc|]. split; [exact Hc'|]. split; [exact Et|]. cbv zeta beta. rewrite E, E'. cbn [bind snd].
  cbv zeta in D, D'. destruct D as (D1 & D2 & D3 & _), D' as (D1' & D2' & D3' & _).
  split; [exact D3|]. split; [exact D3'|].
  vm_compute in E. injection E as _ El. vm_compute in E'. injection E' as _ El'.
  set (c := covered (patterns_of fork_rows) log (rewrite row_no node_no log)) in *.
  set (c' := covered (patterns_of (map (renumber_row swap23) fork_rows)) log' (rewrite row_no node_no log')) in *.
  assert (exists r r', used_rows c = [r] /\ used_rows c' = [r'] /\ c_usage r = c_usage r'
     /\ c_pattern r = pattern_graph (r_pattern (hd {| r_pattern := {| p_nodes := []; p_edges := [] |}; r_embeddings := [] |} fork_rows))
     /\ c_pattern r' = pattern_graph (r_pattern (hd {| r_pattern := {| p_nodes := []; p_edges := [] |}; r_embeddings := [] |} (map (renumber_row swap23) fork_rows)))
     /\ map fst (c_ports r) = [1; 2] /\ map fst (c_ports r') = [1; 3]) as (r & r' & U & U' & Eu & Ep & Ep' & K & K').
  { subst c c'. subst log log'. eexists. eexists. repeat (split; [vm_compute; reflexivity|]). vm_compute. reflexivity. }
  assert (t_vertex c = t_vertex c' /\ t_edge c = t_edge c' /\ r_nodes (t_rewritten c) = r_nodes (t_rewritten c')
    /\ map (in_degree (t_rewritten c)) (port_vertices (t_rewritten c)) = map (in_degree (t_rewritten c')) (port_vertices (t_rewritten c')))
    as (V1 & V2 & V3 & V4).
  { subst c c'. subst log log'. repeat split. }
  assert (length (c_ports r) = length (c_ports r')) as El2.
  { rewrite <- (map_length fst (c_ports r)), K, <- (map_length fst (c_ports r')), K'. reflexivity. }
  pose proof (rewritten_one c c' r r' b b' U U' Eu El2 V1 V2 V3 V4 D2 D2') as Db. rewrite K, K' in Db.
  assert (a = a') as Ea.
  { rewrite (ct_one (fun _ => false) t c c' r r' U U' El2) in D1; [congruence| | |exact V1|exact V2|exact V3].
    - rewrite Ep, Ep'. reflexivity.
    - rewrite Ep, Ep'. unfold encode. reflexivity. }
  pose proof one_three. lra.
Qed.

(* A name on two nodes and on an edge: the codes are kept in one dictionary,
   where the edge replaces the vertex, and the vertex gets the wrong length. *)
Theorem C80_shared_name_refuted : exists (g : data nat) m' log n x, admissible g []
  /\ cover' eqd (fun l => l) false g [] fresh_marks = Ret (m', log)
  /\ (let c := covered [] log (rewrite row_no node_no log) in
      In (7, n) (t_vertex c) /\ dget (singleton_code_length c) 7 = Some x
      /\ x <> optimal_length n (length log)).
Proof.
  set (g := {| d_nodes := [(1, Some (Name 7)); (2, Some (Name 7))]; d_edges := [(1, 2, 7)] |}).
  exists g. eexists. eexists. exists 2, (optimal_length 1 3).
  split.
  { split; [unfold g; tidy_tac | intros u l; simpl; intuition congruence |].
    exists [], []. repeat split; constructor. }
  split; [vm_compute; reflexivity|]. cbv zeta. split; [left; reflexivity|]. split; [reflexivity|].
  cbn [length]. intros E. apply (f_equal share) in E. rewrite !share_optimal in E by lia.
  simpl in E. lra.
Qed.

(* the data graph and the table of C76_case meet the hypotheses *)
Example C80_case : admissible demo_graph demo_rows /\ readable row_no node_no demo_graph
  /\ told_apart demo_graph /\ has_labels demo_graph /\ codable demo_rows /\ plain (graph_of demo_graph)
  /\ not_blank (fun _ => false) demo_graph.
Proof.
  split; [exact demo_admissible|]. split; [exact demo_readable|].
  split; [intros l Hl Hv; simpl in Hl, Hv; intuition congruence|].
  split; [discriminate|]. split; [|split; [split; repeat constructor | intros l _; reflexivity]].
  intros r Hr. simpl in Hr. rows_tac Hr; (split; [|repeat constructor; simpl; intuition congruence]); split; simpl;
    first [ solve [split; repeat constructor] | solve [intuition lia] | solve [intros e; intuition (subst; simpl; auto)]
          | solve [repeat constructor; simpl; intuition congruence] ].
Qed.

Print Assumptions C80_usage_codes_partial.
Print Assumptions C80_port_codes.
Print Assumptions C80_cover_codes_partial.
Print Assumptions C80_total_partial.
Print Assumptions C80_no_label.
Print Assumptions C80_port_usage_refuted.
Print Assumptions C80_numbering_refuted.
Print Assumptions C80_shared_name_refuted.
