(* C80, continued: the parts of the description lengths of graph code tables. *)
From Coq Require Import Reals QArith Qreals Lra.
From Verif Require Import Prelude CheckModel LCMModel VerticalProofs GraphUtilModel GraphCoverModel RewriteModel.
From Verif Require Import PrequentialModel GraphLengthModel PropGraphUtil PropPrequential KraftProofs PropGraphLength.
From Verif Require Import PropGraphCover RewriteProofs PropRewrite MergeModel GenerateModel PropGenerate PropTableLength.
Open Scope nat_scope.

Lemma nodup_same_length {X} (a b : list X) : NoDup a -> NoDup b -> (forall x, In x a <-> In x b) -> length a = length b.
Proof. intros Na Nb H. apply Permutation_length, NoDup_Permutation; assumption. Qed.
Lemma ones_mem {X} `{EqDec X} (l ids : list X) : NoDup l -> NoDup ids -> incl l ids -> ones (map (fun v => mem v l) ids) true = length l.
Proof.
  intros Nl Ni Hi. rewrite (nodup_same_length l (filter (fun v => mem v l) ids)); [|exact Nl | apply NoDup_filter, Ni|].
  - clear. induction ids as [|v ids IH]; cbn [map filter count_occ]; [reflexivity|]. destruct (mem v l); cbn [length]; [|exact IH].
    destruct (bool_dec true true) as [_|N]; [f_equal; exact IH | elim N; reflexivity].
  - intros x. rewrite filter_In, mem_In. split; [auto | tauto].
Qed.

(* --------------------------------------------------- which nodes are ports *)
Section PortSets.
  Context {L : Type} `{EqDec L}.
  Definition ports (r : ct_row L) : list nat := map fst (c_ports r).
  Definition port_set_of (p : graph L) (r : ct_row L) : Prop :=
    c_pattern r = p /\ NoDup (ports r) /\ incl (ports r) (map fst (nodes p)).
  (* a row is described by its pattern and by which of its nodes are ports: over rows with the
     same pattern and different sets of ports, the second part is a code *)
  Theorem C80_port_sets (t : label_codes L) (p : graph L) e (rs : list (ct_row L)) :
    NoDup (map fst (nodes p)) -> encode p t = Ret e -> Forall (port_set_of p) rs ->
    ForallOrdPairs (fun r r' => ~ (forall v, In v (ports r) <-> In v (ports r'))) rs ->
    exists lens, map (row_description_length t) rs = map Ret lens
      /\ Forall (fun x => e <= x)%R lens /\ (rsum (map share lens) <= share e)%R.
  Proof.
    intros Np Ee Hf Hd. set (ids := map fst (nodes p)) in *. set (n := length (nodes p)).
    set (vec := fun r => map (fun v => mem v (ports r)) ids).
    set (len := fun r => (0 + e + (ln (INR (n + 1)) / ln 2 + ln (INR (choose n (ones (vec r) true))) / ln 2))%R).
    assert (Hone : forall r, port_set_of p r -> ones (vec r) true = length (c_ports r) /\ ones (vec r) true <= n).
    { intros r (_ & N & I). unfold vec. rewrite (ones_mem _ _ N Np I). unfold ports. rewrite map_length. split; [reflexivity|].
      rewrite <- (map_length fst (c_ports r)). fold (ports r). transitivity (length ids); [apply NoDup_incl_length; assumption|]. unfold ids. rewrite map_length. apply le_n. }
    assert (Hlen : forall r, port_set_of p r -> row_description_length t r = Ret (len r)).
    { intros r Pr. pose proof (Hone r Pr) as [E1 E2]. destruct Pr as (Ep & _). unfold row_description_length. rewrite Ep. fold n.
      rewrite math_log2_ok by (apply lt_0_INR; lia). cbn [bind]. unfold port_code_length. rewrite map_length, <- E1, log2_binomial_ok by exact E2.
      cbn [bind]. rewrite Ee. reflexivity. }
    exists (map len rs). split; [|split].
    - rewrite map_map. apply map_ext_in. intros r Hr. rewrite Forall_forall in Hf. apply Hlen, Hf, Hr.
    - apply Forall_map. apply Forall_forall. intros r Hr. rewrite Forall_forall in Hf. destruct (Hone r (Hf r Hr)) as [_ Hk]. unfold len.
      pose proof (lg_nonneg (INR (n + 1)) (one_le_INR (n + 1) ltac:(lia))).
      pose proof (lg_nonneg (INR (choose n (ones (vec r) true))) (one_le_INR _ (choose_pos _ _ Hk))). lra.
    - assert (K : kraft (fun b => length b = n) (fun b => (/ INR (n + 1) * / INR (choose n (ones b true)))%R)).
      { assert (Ku : kraft (fun k => k <= n) (fun _ => (/ INR (n + 1))%R)).
        { apply kraft_uniform; [lia|]. intros xs Nx Fx. rewrite <- (seq_length (n + 1) 0). apply NoDup_incl_length; [exact Nx|].
          intros k Hk. rewrite Forall_forall in Fx. specialize (Fx k Hk). apply in_seq. lia. }
        apply (kraft_via (fun b => (ones b true, b)) _ _ _ _
          (kraft_pair (fun k => k <= n) (fun k b => length b = n /\ ones b true = k) (fun _ => (/ INR (n + 1))%R) (fun k _ => (/ INR (choose n k))%R) Ku
             (fun k Hk => kraft_uniform _ _ (choose_pos n k Hk) (ones_bound n k)))).
        - intros b Hb. simpl. pose proof (ones_le b). rewrite <- Hb at 1. auto.
        - reflexivity.
        - intros x y _ _ E. congruence. }
      destruct K as [_ K]. specialize (K (map vec rs)).
      assert (Hv : NoDup (map vec rs)).
      { clear K. induction Hd as [|r rs Hr Hd IH]; [constructor|]. inversion_clear Hf as [|? ? Pr Prs]. cbn [map]. constructor; [|apply IH, Prs].
        intros I. apply in_map_iff in I as (r' & E & I). rewrite Forall_forall in Hr, Prs. apply (Hr r' I). intros v.
        assert (Hiff : In v ids -> (In v (ports r) <-> In v (ports r'))).
        { intros Iv. unfold vec in E. assert (mem v (ports r') = mem v (ports r)) as Em.
          { clear -E Iv. induction ids as [|w l IH]; [destruct Iv|]. cbn [map] in E. injection E as E1 E2. destruct Iv as [->|Iv]; auto. }
          rewrite <- !mem_In, Em. reflexivity. }
        split; intros Iv; apply Hiff; try assumption; [apply Pr, Iv | apply (Prs r' I), Iv]. }
      assert (Hl : Forall (fun b => length b = n) (map vec rs)).
      { apply Forall_map, Forall_forall. intros r _. unfold vec, ids. rewrite !map_length. reflexivity. }
      specialize (K Hv Hl).
      assert (E : rsum (map share (map len rs)) = (share e * rsum (map (fun b => (/ INR (n + 1) * / INR (choose n (ones b true)))%R) (map vec rs)))%R).
      { clear -Hone Hf. induction Hf as [|r rs Pr Hf IH]; cbn [map rsum]; [ring|]. rewrite IH, Rmult_plus_distr_l. f_equal.
        unfold len. rewrite !share_plus, share_0. destruct (Hone r Pr) as [_ Hk].
        rewrite !share_lg; [ring | apply lt_0_INR, choose_pos, Hk | apply lt_0_INR; lia]. }
      rewrite E. rewrite <- (Rmult_1_r (share e)) at 2. apply Rmult_le_compat_l; [left; apply share_pos | exact K].
  Qed.
End PortSets.

(* -------------------------------------------------- the rewritten graph *)
Section Rewritten.
  Context {L : Type} `{EqDec L}.
  Context (substr : L -> L -> bool) (set_order : list (nat * nat) -> list (nat * nat)) (multi : bool).
  Context (substr_refl : forall l, substr l l = true) (set_order_In : forall l x, In x (set_order l) <-> In x l).
  Context (row_name node_name : nat -> L).

  Section Run.
    Context (g : data L) (rows : list (row L)) (log : list (entry L)) (ids : list nat) (r : rgraph L).
    Context (R : run row_name node_name g rows log ids r) (Hkeys : NoDup (dkeys (r_edges r))).
    Context (Hinj : forall n n', node_name n = node_name n' -> n = n').
    Let Rr := ru_repr _ _ _ _ _ _ _ R.

    Lemma sorted_nodup l : StronglySorted lt l -> NoDup l.
    Proof.
      induction 1 as [|x l S IH F]; constructor; [|exact IH]. intros I. rewrite Forall_forall in F. specialize (F x I). lia.
    Qed.
    Lemma numbered_In (f : rnode L -> bool) t : In t (map fst (filter (fun xz => f (snd xz)) (combine (seq 1 (length (r_nodes r))) (r_nodes r))))
      <-> exists z, node_at r t = Some z /\ f z = true.
    Proof.
      assert (A : forall (ns : list (rnode L)) k t, In t (map fst (filter (fun v => f (snd v)) (combine (seq k (length ns)) ns)))
        <-> exists i z, nth_error ns i = Some z /\ f z = true /\ t = k + i).
      { induction ns as [|z ns IH]; intros k u; cbn [length seq combine filter].
        - cbn. split; [intros [] | intros ([|i] & z & E & _); discriminate].
        - cbn [snd]. destruct (f z) eqn:Ez; cbn [map In fst]; rewrite IH; split.
          + intros [<-|(i & w & E & Ew & ->)]; [exists 0, z; repeat split; [exact Ez | lia]|].
            exists (S i), w. split; [exact E|]. split; [exact Ew | lia].
          + intros ([|i] & w & E & Ew & ->); [left; lia | right]. exists i, w. split; [exact E|]. split; [exact Ew | lia].
          + intros (i & w & E & Ew & ->). exists (S i), w. split; [exact E|]. split; [exact Ew | lia].
          + intros ([|i] & w & E & Ew & ->); [cbn in E; congruence|]. exists i, w. split; [exact E|]. split; [exact Ew | lia]. }
      rewrite A. unfold node_at. split.
      - intros (i & z & E & Ez & ->). exists z. auto.
      - intros (z & E & Ez). destruct t as [|i]; [discriminate|]. exists i, z. auto.
    Qed.
    Lemma numbered_nodup (f : rnode L -> bool) : NoDup (map fst (filter (fun xz => f (snd xz)) (combine (seq 1 (length (r_nodes r))) (r_nodes r)))).
    Proof.
      generalize 1. induction (r_nodes r) as [|z ns IH]; intros k; [constructor|].
      cbn [length seq combine filter snd]. destruct (f z); [|apply IH]. cbn [map fst]. constructor; [|apply IH].
      intros Hi. apply in_map_iff in Hi as ([a b] & E & Hi). cbn in E. subst a. apply filter_In in Hi as [Hi _].
      apply in_combine_l, in_seq in Hi. lia.
    Qed.
    Lemma numbered_length (f : rnode L -> bool) : length (map fst (filter (fun xz => f (snd xz)) (combine (seq 1 (length (r_nodes r))) (r_nodes r)))) = length (filter f (r_nodes r)).
    Proof.
      rewrite map_length. generalize 1. induction (r_nodes r) as [|z ns IH]; intros k; [reflexivity|].
      cbn [length seq combine filter snd]. destruct (f z); cbn [length]; rewrite IH; reflexivity.
    Qed.
    Lemma use_is_pattern x : is_pattern (use_node row_name x) = true.
    Proof. unfold use_node. destruct (e_use x); reflexivity. Qed.
    Lemma id_use q : In q ids -> exists x, node_at r q = Some (use_node row_name x).
    Proof.
      intros I. apply In_nth_error in I as [i Hi].
      destruct (nth_error log i) as [x|] eqn:Hx; [exists x; exact (re_use _ _ _ _ _ Rr i x q Hx Hi)|].
      apply nth_error_None in Hx. assert (i < length ids) by (apply nth_error_Some; congruence). rewrite (re_length _ _ _ _ _ Rr) in *. lia.
    Qed.
    (* one pattern node per use *)
    Lemma pattern_count : length (filter is_pattern (r_nodes r)) = length log.
    Proof.
      rewrite <- numbered_length, <- (re_length _ _ _ _ _ Rr). apply nodup_same_length.
      - apply numbered_nodup.
      - apply sorted_nodup, (re_sorted _ _ _ _ _ Rr).
      - intros q. rewrite numbered_In. split.
        + intros (z & E & Ez). destruct (re_node _ _ _ _ _ Rr q z E) as [I|(n & x & -> & _)]; [exact I | discriminate].
        + intros I. destruct (id_use q I) as [x E]. exists (use_node row_name x). split; [exact E | apply use_is_pattern].
    Qed.
    (* the data nodes that are ports, in the order of their nodes *)
    Lemma port_data : exists D, Forall2 (fun t n => node_at r t = Some (port_node node_name n)) (port_vertices r) D
      /\ NoDup D /\ forall n, In n D <-> exists x, In x log /\ In n (map fst (e_ports x)).
    Proof.
      assert (P : forall t, In t (port_vertices r) -> exists n, node_at r t = Some (port_node node_name n) /\ exists x, In x log /\ In n (map fst (e_ports x))).
      { intros t I. apply (numbered_In (fun z => negb (is_pattern z))) in I as (z & E & Ez).
        destruct (re_node _ _ _ _ _ Rr t z E) as [Iq|(n & x & -> & Ix & In_)]; [|exists n; eauto].
        destruct (id_use t Iq) as [x Ex]. rewrite E in Ex. injection Ex as ->. rewrite use_is_pattern in Ez. discriminate. }
      assert (Q : exists D, Forall2 (fun t n => node_at r t = Some (port_node node_name n) /\ exists x, In x log /\ In n (map fst (e_ports x))) (port_vertices r) D).
      { revert P. generalize (port_vertices r). induction l as [|t l IH]; intros P; [exists []; constructor|].
        destruct (P t (or_introl eq_refl)) as [n Hn]. destruct IH as [D HD]; [intros t' I; apply P; right; exact I|]. exists (n :: D). constructor; assumption. }
      destruct Q as [D HD]. exists D. split; [|split].
      - clear -HD. induction HD as [|t n l D [Ht _] HD IH]; constructor; assumption.
      - pose proof (numbered_nodup (fun z => negb (is_pattern z))) as N. change (NoDup (port_vertices r)) in N. clear P.
        induction HD as [|t n l D [Ht _] HD IH]; [constructor|]. inversion_clear N as [|? ? Nt Nl]. constructor; [|apply IH, Nl].
        intros I. apply Nt. clear -I HD Ht Rr. induction HD as [|t' n' l D [Ht' _] HD IH]; [destruct I|]. destruct I as [->|I]; [left|right; apply IH, I].
        symmetry. exact (re_once _ _ _ _ _ Rr t t' n Ht Ht').
      - intros n. split.
        + clear -HD. intros I. induction HD as [|t n' l D [_ Hx] HD IH]; [destruct I|]. destruct I as [->|I]; [exact Hx | apply IH, I].
        + intros (x & Ix & In_). destruct (re_port _ _ _ _ _ Rr x n Ix In_) as [q Hq].
          assert (Iq : In q (port_vertices r)) by (apply (numbered_In (fun z => negb (is_pattern z))); eexists; split; [exact Hq | reflexivity]).
          clear -Iq HD Hq Hinj. induction HD as [|t n' l D [Ht _] HD IH]; [destruct Iq|]. destruct Iq as [->|Iq]; [left|right; apply IH, Iq].
          rewrite Ht in Hq. injection Hq as E. apply Hinj, E.
    Qed.
    (* the edges into a port node: one per use with that port *)
    Lemma port_degree t n : node_at r t = Some (port_node node_name n) ->
      in_degree r t = length (filter (fun x => mem n (map fst (e_ports x))) log).
    Proof.
      intros Ht. unfold in_degree. rewrite <- (map_length (fun e => fst (fst e))).
      assert (E : length (filter (fun x => mem n (map fst (e_ports x))) log) = length (map snd (filter (fun xi => mem n (map fst (e_ports (fst xi)))) (combine log ids)))).
      { rewrite map_length. pose proof (re_length _ _ _ _ _ Rr) as El. clear -El. revert ids El. induction log as [|x l IH]; intros [|i ids] El; try discriminate; [reflexivity|].
        cbn [combine filter fst]. injection El as El. destruct (mem _ _); cbn [length]; rewrite (IH ids El); reflexivity. }
      rewrite E. apply nodup_same_length.
      - clear -Hkeys. induction (r_edges r) as [|[[a b] v] es IH]; cbn [filter map]; [constructor|]. unfold dkeys in *. cbn [map fst] in Hkeys. inversion_clear Hkeys as [|? ? N1 N2].
        cbn [fst snd]. destruct (b =? t) eqn:Eb; [|apply IH, N2]. apply Nat.eqb_eq in Eb. subst b. cbn [map fst]. constructor; [|apply IH, N2].
        intros I. apply in_map_iff in I as ([[a' b'] v'] & Ea & I). cbn in Ea. subst a'. apply filter_In in I as [I Eb]. cbn in Eb. apply Nat.eqb_eq in Eb. subst b'.
        apply N1. exact (in_map fst _ _ I).
      - pose proof (sorted_nodup _ (re_sorted _ _ _ _ _ Rr)) as N. clear -N. revert ids N. induction log as [|x l IH]; intros [|i ids] N; try constructor. cbn [combine filter fst].
        inversion_clear N as [|? ? N1 N2]. destruct (mem _ _); [|apply IH, N2]. cbn [map snd]. constructor; [|apply IH, N2].
        intros I. apply in_map_iff in I as ([x' i'] & Ei & I). cbn in Ei. subst i'. apply filter_In in I as [I _]. apply in_combine_r in I. exact (N1 I).
      - intros p. rewrite !in_map_iff. split.
        + intros ([[a b] v] & Ea & I). cbn in Ea. subst a. apply filter_In in I as [I Eb]. cbn in Eb. apply Nat.eqb_eq in Eb. subst b.
          apply (re_edge _ _ _ _ _ Rr) in I as (i & x & n' & Hx & Hp & Hv & Ht'). rewrite Ht in Ht'. injection Ht' as En. apply Hinj in En. subst n'.
          exists (x, p). split; [reflexivity|]. apply filter_In. split; [|cbn [fst]; apply mem_In; exact (in_map fst _ _ Hv)].
          clear -Hx Hp. revert log ids Hx Hp. induction i as [|i IH]; intros [|y l] [|q ids] Hx Hp; try discriminate; cbn [nth_error] in *.
          * injection Hx as ->. injection Hp as ->. left. reflexivity.
          * right. apply (IH l ids Hx Hp).
        + intros ([x p'] & Ep & I). cbn in Ep. subst p'. apply filter_In in I as [I Hn]. cbn [fst] in Hn. apply mem_In in Hn. apply in_map_iff in Hn as ([n' v] & En & Hv). cbn in En. subst n'.
          exists ((p, t), v). split; [reflexivity|]. apply filter_In. cbn [fst snd]. rewrite Nat.eqb_refl. split; [|reflexivity].
          apply (re_edge _ _ _ _ _ Rr). assert (Hi : exists i, nth_error log i = Some x /\ nth_error ids i = Some p).
          { clear -I. revert ids I. induction log as [|y l IH]; intros [|q ids] I; try (destruct I; fail). destruct I as [E|I].
            - injection E as -> ->. exists 0. auto.
            - destruct (IH ids I) as (i & A & B). exists (S i). auto. }
          destruct Hi as (i & A & B). exists i, x, n. auto.
    Qed.
  End Run.

  Definition lg (x : R) : R := (ln x / ln 2)%R.
  (* how many uses have the data node as a port *)
  Definition uses_at (log : list (entry L)) (n : nat) : nat := length (filter (fun x => mem n (map fst (e_ports x))) log).
  (* The length of the rewritten graph: the number of uses; how many data nodes are ports; for
     every use, how many of its ports are used; which pattern each use is of; how many uses meet
     at every port; and (in place of which port each edge is for, see C80_port_usage_refuted)
     the numbers of the ports. *)
  Theorem C80_rewritten_parts_partial (g : data L) (rows : list (row L)) (m : marks L) :
    admissible g rows -> readable row_name node_name g -> marks_ok m -> has_labels g ->
    exists m' log D, cover' substr set_order multi g rows m = Ret (m', log)
      /\ NoDup D /\ (forall n, In n D <-> exists x, In x log /\ In n (map fst (e_ports x)))
      /\ let c := covered (patterns_of rows) log (rewrite row_name node_name log) in
         rewritten_description_length c = Ret (
           IZR (int_bits (length log)) + lg (INR (length D + 1))
           + (rsum (map (fun r => INR (c_usage r) * lg (INR (length (c_ports r) + 1))) (used_rows c))
              + rsum (map (fun uv => INR (snd uv) * lg 2) (t_vertex c)) + rsum (map (fun uv => INR (snd uv) * lg 3) (t_edge c)))
           + prequential_code (map c_usage (used_rows c) ++ map snd (t_vertex c) ++ map snd (t_edge c)) (1 / 2)
           + prequential_code (map (uses_at log) D) (1 / 2)
           + (rsum (map (fun r => prequential_code (map fst (c_ports r)) (1 / 2)) (used_rows c))
              + rsum (map (fun uv => prequential_code [snd uv; snd uv] (1 / 2)) (t_edge c))))%R.
  Proof.
    intros Ha Hr Hm Hl.
    destruct (run_exists substr set_order multi substr_refl set_order_In row_name node_name g rows m Ha Hr Hm)
      as (m' & log & ids & E & _ & _ & R).
    pose proof (rewrite_keys row_name node_name log) as Hk.
    pose proof (rd_nodes _ _ _ Hr) as Hinj.
    destruct (port_data g rows log ids _ R Hinj) as (D & HD & ND & ID).
    exists m', log, D. split; [exact E|]. split; [exact ND|]. split; [exact ID|]. cbv zeta.
    set (c := covered (patterns_of rows) log (rewrite row_name node_name log)).
    assert (Hne : log <> []) by (eapply run_some; [exact (ad_nodes _ _ Ha) | exact Hl | exact R]).
    unfold rewritten_description_length. cbv zeta. change (t_rewritten c) with (rewrite row_name node_name log).
    destruct (r_nodes (rewrite row_name node_name log)) as [|z0 zs] eqn:Ez.
    { exfalso. pose proof (pattern_count g rows log ids _ R Hinj) as P. rewrite Ez in P. destruct log; [apply Hne; reflexivity | discriminate P]. }
    rewrite <- Ez, (pattern_count g rows log ids _ R Hinj), integer_length_ok. cbn [bind].
    assert (EL : length (port_vertices (rewrite row_name node_name log)) = length D) by (clear -HD; induction HD; cbn [length]; congruence).
    rewrite EL, math_log2_ok by (apply lt_0_INR; lia). cbn [bind].
    assert (EM : map_out (fun r => bind (math_log2 (INR (length (port_code_length r) + 1))) (fun x => Ret (INR (c_usage r) * x)%R)) (used_rows c)
                 = Ret (map (fun r => (INR (c_usage r) * lg (INR (length (c_ports r) + 1)))%R) (used_rows c))).
    { generalize (used_rows c). induction l as [|x l IH]; cbn [map_out map]; [reflexivity|].
      rewrite math_log2_ok by (apply lt_0_INR; lia). cbn [bind]. rewrite IH. cbn [bind]. unfold port_code_length. rewrite map_length. reflexivity. }
    rewrite EM. cbn [bind]. rewrite !math_log2_ok by lra. cbn [bind].
    assert (ED : map (in_degree (rewrite row_name node_name log)) (port_vertices (rewrite row_name node_name log)) = map (uses_at log) D).
    { clear -HD R Hk Hinj. induction HD as [|t n l D Ht HD IH]; [reflexivity|]. cbn [map]. rewrite IH. f_equal.
      exact (port_degree g rows log ids _ R Hk Hinj t n Ht). }
    rewrite ED, !float_sum_rsum, !rsum_app. f_equal. unfold lg. ring.
  Qed.
End Rewritten.
Print Assumptions C80_port_sets.
Print Assumptions C80_rewritten_parts_partial.

(* two nodes in one pattern: no port, the first, the second or both *)
Definition no_row_graph : graph nat := {| nodes := []; edges := [] |}.
Definition port_rows : list (ct_row nat) :=
  map (fun ps => {| c_pattern := hd no_row_graph small_patterns; c_usage := 1; c_ports := ps |}) [[]; [(1, 2)]; [(2, 5)]; [(1, 1); (2, 1)]].
Example C80_port_sets_case : NoDup (map fst (nodes (hd no_row_graph small_patterns)))
  /\ (exists t e, LabelCodes small_data = Ret t /\ encode (hd no_row_graph small_patterns) t = Ret e)
  /\ Forall (port_set_of (hd no_row_graph small_patterns)) port_rows
  /\ ForallOrdPairs (fun r r' => ~ (forall v, In v (ports r) <-> In v (ports r'))) port_rows.
Proof.
  split; [repeat constructor; simpl; intuition congruence|]. split; [|split].
  - destruct C79_case as (A & B & F & D). destruct (LabelCodes small_data) as [t|e|] eqn:Et; [|vm_compute in Et; discriminate..].
    destruct (C79_encode_kraft_partial small_data t small_patterns A B Et F D) as (lens & E & _). exists t.
    destruct lens as [|e lens]; [discriminate|]. exists e. injection E as E _. split; [reflexivity | exact E].
  - unfold port_rows. cbn [map]. repeat apply Forall_cons; try apply Forall_nil; split; try reflexivity; (split; [repeat constructor; simpl; intuition congruence | intros v; simpl; tauto]).
  - unfold port_rows. cbn [map]. repeat (apply FOP_cons; [repeat apply Forall_cons; try apply Forall_nil|]); try apply FOP_nil; intros E; first [ pose proof (proj1 (E 1)) as E1; simpl in E1; intuition congruence
      | pose proof (proj2 (E 1)) as E1; simpl in E1; intuition congruence | pose proof (proj2 (E 2)) as E1; simpl in E1; intuition congruence ].
Qed.
