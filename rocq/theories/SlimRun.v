(* Pruning, evaluate, update and the fit loop keep the invariant; termination. *)
From Verif Require Import Prelude CheckModel LCMModel LCMProofs ItemsetSpec VerticalProofs LCMLift
  SlimModel SlimProofs SlimInv.

Section Run.
  Context {A : Type} `{EqDec A}.
  Context {T : Type} (total : ktable A (list nat) -> T) (tlt : T -> T -> bool).
  Context (ord : list A -> list A -> bool).
  Context (iter : list (list A) -> list (list A)).
  Context (iter_perm : forall l, Permutation (iter l) l).
  Implicit Types (std : dict A (list nat)) (c : ktable A (list nat)).

  Lemma kget_used c k : kdistinct c ->
    kget (used c) k = match kget c k with Some v => if length v =? 0 then None else Some v | None => None end.
  Proof.
    intros Hd; destruct (kget c k) as [v|] eqn:E.
    - apply kget_Some in E; destruct E as [k' [Hi Hs]].
      destruct (Nat.eqb_spec (length v) 0) as [Hz|Hz].
      + apply kget_None, kmem_false; intros q Hq; apply in_map_iff in Hq; destruct Hq as [[q' w] [<- Hq]].
        apply filter_In in Hq; destruct Hq as [Hq Hp]; simpl in *.
        destruct (seteq k q') eqn:F; [|reflexivity]; exfalso.
        apply Nat.ltb_lt in Hp.
        assert (E1 : kget c k = Some v) by (apply kget_In_iff; [exact Hd | exists k'; auto]).
        assert (E2 : kget c k = Some w) by (apply kget_In_iff; [exact Hd | exists q'; auto]).
        rewrite E1 in E2; injection E2 as <-; lia.
      + apply kget_In_iff; [apply kdistinct_filter, Hd|]; exists k'; split; [|exact Hs].
        apply filter_In; split; [exact Hi|]; simpl; apply Nat.ltb_lt; lia.
    - apply kget_None in E; apply kget_None; rewrite kmem_false in *; intros q Hq; apply E.
      apply in_map_iff in Hq; destruct Hq as [p [<- Hq]]; apply filter_In in Hq; apply in_map, Hq.
  Qed.
  (* [t] is the total of a table that, as a mapping, has the same used part as [c] *)
  Definition sized std c (t : T) : Prop :=
    exists c0, good std c0 /\ t = total (used c0) /\ forall k, kget (used c0) k = kget (used c) k.
  Lemma sized_self std c : good std c -> sized std c (total (used c)).
  Proof. intros G; exists c; auto. Qed.
  Lemma sized_ext std c c' t : kdistinct c -> kdistinct c' -> (forall k, kget c k = kget c' k) ->
    sized std c t -> sized std c' t.
  Proof.
    intros Hd Hd' Hg [c0 [G [E Hk]]]; exists c0; split; [exact G|]; split; [exact E|].
    intros k; rewrite Hk, !kget_used, Hg by assumption; reflexivity.
  Qed.

  Lemma compute_sizes_good std c : good std c -> occupied std ->
    compute_sizes total c = Ret (total (used c)).
  Proof.
    intros G Ho; apply (good_used std c G) in Ho; unfold compute_sizes; destruct (used c); [congruence | reflexivity].
  Qed.
  Lemma compute_sizes_raises std c t : good std c -> compute_sizes total c = Ret t -> occupied std /\ sized std c t.
  Proof.
    intros G E; unfold compute_sizes in E.
    assert (Hu : used c <> []) by (destruct (used c); [discriminate | congruence]).
    split; [apply (good_used std c G), Hu|].
    assert (E' : t = total (used c)) by (destruct (used c); [discriminate | congruence]).
    subst t; apply sized_self, G.
  Qed.

  Lemma long_not_single std s x : key_ok std s -> 1 < length s -> seteq [x] s = false.
  Proof.
    intros [Hn _] Hl; destruct (seteq [x] s) eqn:E; [|reflexivity].
    apply seteq_single in E; [|exact Hn]; subst; simpl in Hl; lia.
  Qed.

  Lemma length_filter_le {B} (f : B -> bool) l : length (filter f l) <= length l.
  Proof. induction l as [|x l IH]; simpl; [lia | destruct (f x); simpl; lia]. Qed.
  Lemma length_filter_lt {B} (f : B -> bool) l x : In x l -> f x = false -> length (filter f l) < length l.
  Proof.
    induction l as [|y l IH]; intros Hx Hf; [destruct Hx|]; simpl; destruct Hx as [->|Hx].
    - rewrite Hf; pose proof (length_filter_le f l); lia.
    - specialize (IH Hx Hf); destruct (f y); simpl; lia.
  Qed.
  Lemma In_kupdate_keys (e : ktable A (list nat)) : forall d q, In q (map fst (kupdate d e)) ->
    In q (map fst d) \/ In q (map fst e).
  Proof.
    unfold kupdate; induction e as [|p e IH]; intros d q Hq; simpl in *; [auto|].
    apply IH in Hq; destruct Hq as [Hq|Hq]; [|auto].
    rewrite kset_keys in Hq; destruct (kmem (map fst d) (fst p)); [auto|].
    apply in_app_iff in Hq; destruct Hq as [Hq|[<-|[]]]; auto.
  Qed.
  Lemma In_kdel_keys c k q : In q (map fst (kdel c k)) -> In q (map fst c) /\ seteq k q = false.
  Proof.
    intros Hq; apply in_map_iff in Hq; destruct Hq as [p [<- Hp]]; apply filter_In in Hp.
    rewrite negb_true_iff in Hp; split; [apply in_map|]; apply Hp.
  Qed.

  (* removing an unused long itemset *)
  Lemma kdel_unused_good std c s : good std c -> key_ok std s -> 1 < length s -> kget c s = Some [] ->
    good std (kdel c s).
  Proof.
    intros G Hs Hl Hg; constructor.
    - apply kdel_distinct, (g_distinct _ _ G).
    - intros q Hq; apply In_kdel_keys in Hq; apply (g_keys _ _ G), Hq.
    - intros x Hx; destruct (kmem (map fst (kdel c s)) [x]) eqn:E; [reflexivity|].
      apply kget_None in E; rewrite kdel_get in E.
      rewrite seteq_sym, (long_not_single std s x Hs Hl) in E.
      apply kget_None in E; rewrite (g_singles _ _ G x Hx) in E; discriminate.
    - apply exact_filter; [apply (g_exact _ _ G)|]; intros [k v] He F; simpl in *.
      rewrite negb_false_iff in F; apply kget_In in He; [|apply (g_distinct _ _ G)].
      rewrite <- (kget_ext c s k F), Hg in He; congruence.
    - intros e He; apply filter_In in He; apply (g_nodup _ _ G), He.
  Qed.

  (* candidates waiting to be pruned *)
  Definition pset c (ps : list (list A)) : Prop :=
    distinct ps /\ (forall k, In k ps -> kmem (map fst c) k = true /\ NoDup k /\ 1 < length k).

  Lemma prune_init_spec std old : forall c ps,
    kdistinct old -> (forall s, In s (map fst old) -> key_ok std s) ->
    (forall s, In s (map fst old) -> 1 < length s -> kmem (map fst c) s = true) ->
    good std c -> distinct ps ->
    (forall k, In k ps -> (NoDup k /\ 1 < length k) /\ (forall s, In s (map fst old) -> seteq k s = false)
                          /\ exists v, kget c k = Some v /\ v <> []) ->
    exists c' ps', prune_init old c ps = Ret (c', ps') /\ good std c' /\ pset c' ps'
      /\ length c' <= length c
      /\ (forall k, kmem (map fst c') k = true -> kmem (map fst c) k = true)
      /\ (forall k, kget (used c') k = kget (used c) k).
  Proof.
    induction old as [|[s u] old IH]; intros c ps Hd Hk Hin G Hdp Hps; simpl.
    - exists c, ps; split; [reflexivity|]; split; [exact G|]; split; [|auto].
      split; [exact Hdp|]; intros k Hkp; destruct (Hps k Hkp) as [Hl [_ [v [Hv _]]]]; split; [|exact Hl].
      destruct (kmem (map fst c) k) eqn:E; [reflexivity|]; apply kget_None in E; congruence.
    - apply distinct_cons in Hd; destruct Hd as [Hks Hd]; rewrite kmem_false in Hks; simpl in Hks.
      assert (Hk' : forall s, In s (map fst old) -> key_ok std s) by (intros; apply Hk; right; assumption).
      assert (Hin' : forall s0, In s0 (map fst old) -> 1 < length s0 -> kmem (map fst c) s0 = true)
        by (intros; apply Hin; [right|]; assumption).
      destruct (Nat.ltb_spec 1 (length s)) as [Hl|Hl].
      + destruct (kget_mem c s (Hin s (or_introl eq_refl) Hl)) as [v Hv]; rewrite Hv.
        destruct (Nat.eqb_spec (length v) 0) as [H0|H0].
        * destruct v; [|discriminate].
          assert (Gd : good std (kdel c s)).
          { apply kdel_unused_good; auto; apply Hk; left; reflexivity. }
          destruct (IH (kdel c s) ps) as [c' [ps' [E [G' [P' [L' [M' U']]]]]]]; auto.
          -- intros q Hq Hlq; specialize (Hin' q Hq Hlq).
             destruct (kmem (map fst (kdel c s)) q) eqn:E; [reflexivity|].
             apply kget_None in E; rewrite kdel_get, (Hks q Hq) in E.
             apply kget_None in E; congruence.
          -- intros k Hkp; destruct (Hps k Hkp) as [Hlk [Hno [w [Hw Hne]]]]; split; [exact Hlk|]; split.
             ++ intros q Hq; apply Hno; right; exact Hq.
             ++ exists w; split; [|exact Hne]; rewrite kdel_get, seteq_sym.
                rewrite (Hno s) by (left; reflexivity); exact Hw.
          -- exists c', ps'; split; [exact E|]; split; [exact G'|]; split; [exact P'|]; split.
             ++ assert (length (kdel c s) <= length c) by apply length_filter_le; lia.
             ++ split.
                ** intros k Hkc; apply M' in Hkc; apply kmem_true in Hkc; destruct Hkc as [q [Hq Hs]].
                   apply kmem_true; exists q; split; [apply (In_kdel_keys c s q Hq) | exact Hs].
                ** intros k; rewrite U', !kget_used by (first [apply (g_distinct _ _ Gd) | apply (g_distinct _ _ G)]).
                   rewrite kdel_get; destruct (seteq s k) eqn:F; [|reflexivity].
                   rewrite <- (kget_ext c s k F), Hv; reflexivity.
        * destruct (Nat.ltb_spec (length v) (length u)) as [Hlt|Hlt].
          -- apply IH; auto.
             ++ eapply distinct_perm; [apply Permutation_cons_append|]; apply distinct_cons; split; [|exact Hdp].
                apply kmem_false; intros q Hq; rewrite seteq_sym.
                destruct (Hps q Hq) as [_ [Hno _]]; apply Hno; left; reflexivity.
             ++ intros k Hkp; apply in_app_iff in Hkp; destruct Hkp as [Hkp|[<-|[]]].
                ** destruct (Hps k Hkp) as [Hlk [Hno Hw]]; split; [exact Hlk|]; split; [|exact Hw].
                   intros q Hq; apply Hno; right; exact Hq.
                ** split; [split; [apply (Hk s (or_introl eq_refl)) | exact Hl]|]; split; [exact Hks|]; exists v; split; [exact Hv|].
                   intros ->; apply H0; reflexivity.
          -- apply IH; auto; intros k Hkp; destruct (Hps k Hkp) as [Hlk [Hno Hw]].
             split; [exact Hlk|]; split; [|exact Hw]; intros q Hq; apply Hno; right; exact Hq.
      + apply IH; auto; intros k Hkp; destruct (Hps k Hkp) as [Hlk [Hno Hw]].
        split; [exact Hlk|]; split; [|exact Hw]; intros q Hq; apply Hno; right; exact Hq.
  Qed.

  Lemma argmin_In f l : forall x : list A, In (argmin f x l) (x :: l).
  Proof.
    induction l as [|y l IH]; intros x; simpl; [auto|].
    destruct (IH (if f y <? f x then y else x)) as [E|E]; [|auto].
    destruct (f y <? f x); rewrite <- E; auto.
  Qed.
  Lemma lremove_spec k l : kmem l k = true ->
    exists k' ks, lremove k l = Some ks /\ Permutation l (k' :: ks) /\ seteq k' k = true.
  Proof.
    induction l as [|x l IH]; simpl; [discriminate|]; intros Hm.
    rewrite (seteq_sym x k); destruct (seteq k x) eqn:E; simpl in Hm.
    - exists x, l; split; [reflexivity|]; split; [reflexivity|]; rewrite seteq_sym; exact E.
    - destruct (IH Hm) as [k' [ks [E1 [E2 E3]]]]; rewrite E1; exists k', (x :: ks); split; [reflexivity|].
      split; [|exact E3]; rewrite E2; apply perm_swap.
  Qed.

  Lemma distinct_app (l l' : list (list A)) : distinct l -> distinct l' ->
    (forall k, In k l' -> kmem l k = false) -> distinct (l ++ l').
  Proof.
    intros Hl Hl' Hf; induction l as [|p q IH]; [exact Hl'|].
    simpl; apply distinct_cons in Hl; destruct Hl as [Hk Hd]; apply distinct_cons; split.
    - rewrite kmem_app, Hk; apply kmem_false; intros k Hkd; apply Hf in Hkd.
      simpl in Hkd; apply orb_false_iff in Hkd; rewrite seteq_sym; apply Hkd.
    - apply IH; [exact Hd|]; intros k Hkd; apply Hf in Hkd.
      simpl in Hkd; apply orb_false_iff in Hkd; apply Hkd.
  Qed.
  Lemma seteq_length (k k' : list A) : NoDup k -> NoDup k' -> seteq k k' = true -> length k = length k'.
  Proof.
    rewrite seteq_spec; intros Hk Hk' [H1 H2].
    pose proof (NoDup_incl_length Hk H1); pose proof (NoDup_incl_length Hk' H2); lia.
  Qed.

  Lemma prune_step std c cand : std_ok std -> good std c -> kmem (map fst c) cand = true ->
    NoDup cand -> 1 < length cand ->
    exists ks ctp std', lremove cand (map fst c) = Some ks /\ cover std ks = Some (ctp, std')
      /\ good std ctp
      /\ (forall k, kget ctp k = kget (kdel (kupdate c ctp) cand) k)
      /\ good std (kdel (kupdate c ctp) cand)
      /\ length (kdel (kupdate c ctp) cand) < length c
      /\ (forall k, kmem (map fst (kdel (kupdate c ctp) cand)) k = kmem (map fst c) k && negb (seteq cand k)).
  Proof.
    intros Hn G Hm Hnc Hl; destruct (lremove_spec cand (map fst c) Hm) as [k' [ks [E [Hp Hs]]]].
    pose proof (g_distinct _ _ G) as Hd.
    pose proof (distinct_perm _ _ Hp Hd) as Hd'; apply distinct_cons in Hd'; destruct Hd' as [Hk' Hd'].
    assert (Hin : forall q, In q ks -> In q (map fst c)).
    { intros q Hq; apply (Permutation_in _ (Permutation_sym Hp)); right; exact Hq. }
    assert (Hkk : key_ok std k').
    { apply (g_keys _ _ G), (Permutation_in _ (Permutation_sym Hp)); left; reflexivity. }
    assert (Hlk : 1 < length k').
    { rewrite (seteq_length k' cand); auto; apply Hkk. }
    destruct (cover_good std ks Hn Hd') as [ctp [std' [Ec [Emk Gp]]]].
    { intros q Hq; apply (g_keys _ _ G), Hin, Hq. }
    { intros x Hx; pose proof (g_singles _ _ G x Hx) as Hx1; rewrite (kmem_perm _ _ _ Hp) in Hx1.
      simpl in Hx1; rewrite (long_not_single std k' x Hkk Hlk) in Hx1; exact Hx1. }
    exists ks, ctp, std'; split; [exact E|]; split; [exact Ec|]; split; [exact Gp|].
    assert (Hm' : forall k, kmem (map fst c) k = seteq k cand || kmem ks k).
    { intros k; rewrite (kmem_perm _ _ k Hp); simpl; f_equal.
      rewrite (seteq_sym k k'), (seteq_sym k cand); apply seteq_false_l, Hs. }
    assert (Hnk : forall k, seteq cand k = true -> kmem ks k = false).
    { intros k Hc; rewrite <- (kmem_ext ks k' k); [exact Hk'|]; eapply seteq_trans; eassumption. }
    assert (Hg : forall k, kget ctp k = kget (kdel (kupdate c ctp) cand) k).
    { intros k; rewrite kdel_get, kupdate_get by apply (g_distinct _ _ Gp).
      destruct (seteq cand k) eqn:Ek.
      - apply kget_None; rewrite Emk; apply Hnk, Ek.
      - destruct (kget ctp k) as [v|] eqn:Ev; [reflexivity|].
        apply kget_None in Ev; rewrite Emk in Ev; symmetry; apply kget_None.
        rewrite Hm', (seteq_sym k cand), Ek, Ev; reflexivity. }
    assert (Hdn : kdistinct (kdel (kupdate c ctp) cand)) by (apply kdel_distinct, kupdate_distinct, Hd).
    assert (Hmm : forall k, kmem (map fst (kdel (kupdate c ctp) cand)) k = kmem (map fst c) k && negb (seteq cand k)).
    { intros k; rewrite <- (kget_mem_iff ctp _ k (Hg k)), Emk, Hm', (seteq_sym k cand).
      destruct (seteq cand k) eqn:Ek; simpl; [apply Hnk, Ek | rewrite andb_true_r; reflexivity]. }
    split; [exact Hg|]; split; [|split; [|exact Hmm]].
    - apply (good_ext std ctp); auto; intros q Hq; apply In_kdel_keys in Hq; destruct Hq as [Hq _].
      apply In_kupdate_keys in Hq; destruct Hq as [Hq|Hq]; [apply (g_keys _ _ G), Hq | apply (g_keys _ _ Gp), Hq].
    - apply Permutation_length in Hp; rewrite map_length in Hp; simpl in Hp; rewrite Hp.
      apply Nat.lt_succ_r; rewrite <- (map_length fst (kdel _ _)); apply distinct_length; [exact Hdn|].
      intros q Hq; rewrite <- Emk, (kget_mem_iff ctp _ q (Hg q)); apply kmem_true; exists q; split; [exact Hq | apply seteq_refl].
  Qed.

  Context (tlt_trans : forall t1 t2 t3, tlt t1 t2 = true -> tlt t2 t3 = true -> tlt t1 t3 = true).

  Lemma prune_loop_spec std N : std_ok std -> occupied std ->
    forall fuel c ps t, good std c -> pset c ps -> length c <= N -> length c * S N + length ps < fuel ->
    sized std c t ->
    exists c' t', prune_loop total tlt iter fuel std c ps t = Ret (c', t') /\ good std c'
      /\ (t' = t \/ tlt t' t = true) /\ sized std c' t'
      /\ (forall k, kmem (map fst c') k = true -> kmem (map fst c) k = true)
      /\ length c' <= length c.
  Proof.
    intros Hn Ho; induction fuel as [|fuel IH]; intros c ps t G [Hdp Hps] HN Hf Ht; [lia|].
    cbn [prune_loop]; destruct (iter ps) as [|x l] eqn:Ei.
    - exists c, t; auto 7.
    - set (cand := argmin (usage_of c) x l).
      assert (Hc : In cand ps).
      { apply (Permutation_in _ (iter_perm ps)); rewrite Ei; apply argmin_In. }
      destruct (Hps cand Hc) as [Hkc [Hnc Hlc]].
      destruct (prune_step std c cand Hn G Hkc Hnc Hlc) as [ks [ctp [std' [E1 [E2 [Gp [Hg [Gn [Hln Hmm]]]]]]]]].
      rewrite E1, E2, (compute_sizes_good std ctp Gp Ho); cbn [bind].
      set (ps' := filter (fun k => negb (seteq cand k)) ps).
      assert (Hdp' : distinct ps') by (apply distinct_filter, Hdp).
      assert (Hps' : forall k, In k ps' -> In k ps /\ seteq cand k = false).
      { intros k Hk; apply filter_In in Hk; rewrite negb_true_iff in Hk; exact Hk. }
      assert (Hlt : length ps' < length ps).
      { apply (length_filter_lt _ _ cand Hc); rewrite seteq_refl; reflexivity. }
      destruct (tlt (total (used ctp)) t) eqn:Et.
      + set (dec := filter (fun k => negb (kmem ps' k)) (decreased ctp c)).
        assert (Hdec : forall k, In k dec -> kmem ps' k = false /\ In k (map fst ctp) /\ 1 < length k).
        { intros k Hk; apply filter_In in Hk; rewrite negb_true_iff in Hk; destruct Hk as [Hk Hk2].
          split; [exact Hk2|]; apply in_map_iff in Hk; destruct Hk as [p [<- Hp]].
          apply filter_In in Hp; destruct Hp as [Hp Hp2]; apply andb_true_iff in Hp2.
          split; [apply in_map, Hp | apply Nat.ltb_lt, Hp2]. }
        assert (Hds : distinct (ps' ++ dec)).
        { apply distinct_app; [exact Hdp'| |intros k Hk; apply Hdec, Hk].
          apply distinct_filter; unfold decreased; apply kdistinct_filter, (g_distinct _ _ Gp). }
        assert (Hpn : pset (kdel (kupdate c ctp) cand) (ps' ++ dec)).
        { split; [exact Hds|]; intros k Hk; apply in_app_iff in Hk; destruct Hk as [Hk|Hk].
          - apply Hps' in Hk; destruct Hk as [Hk Hne]; rewrite Hmm, Hne.
            destruct (Hps k Hk) as [H1 H2]; rewrite H1; auto.
          - apply Hdec in Hk; destruct Hk as [_ [Hk Hlk]].
            rewrite <- (kget_mem_iff ctp _ k (Hg k)).
            split; [apply kmem_true; exists k; split; [exact Hk | apply seteq_refl]|].
            split; [apply (g_keys _ _ Gp k Hk) | exact Hlk]. }
        assert (Hle : length (ps' ++ dec) <= length (kdel (kupdate c ctp) cand)).
        { rewrite <- (map_length fst (kdel _ _)); apply distinct_length; [apply Hpn|].
          intros k Hk; apply Hpn, Hk. }
        destruct (IH (kdel (kupdate c ctp) cand) (ps' ++ dec) (total (used ctp))) as [c' [t' [E [G' [Htt [Ht' [Hsub Hlen]]]]]]]; auto.
        * lia.
        * nia.
        * apply (sized_ext std ctp); [apply (g_distinct _ _ Gp) | apply (g_distinct _ _ Gn) | exact Hg | apply sized_self, Gp].
        * exists c', t'; split; [exact E|]; split; [exact G'|]; split.
          { right; destruct Htt as [->|Htt]; [exact Et | eapply tlt_trans; eassumption]. }
          split; [exact Ht'|]; split; [|lia].
          intros k Hk; apply Hsub in Hk; rewrite Hmm in Hk; apply andb_true_iff in Hk; apply Hk.
      + apply IH; auto; [|lia]; split; [exact Hdp'|]; intros k Hk; apply Hps, Hps', Hk.
  Qed.

  Lemma prune_spec st c t : inv st -> occupied (sct st) -> good (sct st) c ->
    (forall s, In s (map fst (ct st)) -> kmem (map fst c) s = true) -> sized (sct st) c t ->
    exists c' t', prune total tlt iter (prune_fuel c) st c t = Ret (c', t') /\ good (sct st) c'
      /\ (t' = t \/ tlt t' t = true) /\ sized (sct st) c' t'
      /\ (forall k, kmem (map fst c') k = true -> kmem (map fst c) k = true).
  Proof.
    intros [Hn G0] Ho G Hin Ht; unfold prune.
    destruct (prune_init_spec (sct st) (ct st) c []) as [c1 [ps [E [G1 [P1 [L1 [M1 U1]]]]]]]; auto.
    - apply (g_distinct _ _ G0).
    - apply (g_keys _ _ G0).
    - constructor.
    - intros k [].
    - rewrite E; cbn [bind fst snd].
      assert (Hlp : length ps <= length c1).
      { rewrite <- (map_length fst c1); apply distinct_length; [apply P1 | intros k Hk; apply P1, Hk]. }
      destruct (prune_loop_spec (sct st) (length c) Hn Ho (prune_fuel c) c1 ps t) as [c' [t' [E' [G' [Htt [Ht' [Hs _]]]]]]]; auto.
      + unfold prune_fuel; nia.
      + destruct Ht as [c0 [K1 [K2 K3]]]; exists c0; split; [exact K1|]; split; [exact K2|]; intros k; rewrite U1; apply K3.
      + exists c', t'; rewrite E'; auto 8.
  Qed.

  Definition fresh (st : slim A T) (cand : list A) : Prop := kmem (map fst (ct st)) cand = false.

  Lemma evaluate_cover st cand : inv st -> key_ok (sct st) cand -> fresh st cand ->
    exists c std', cover (sct st) (insert_right ord cand (map fst (ct st))) = Some (c, std')
      /\ map fst c = insert_right ord cand (map fst (ct st)) /\ good (sct st) c.
  Proof.
    intros [Hn G] Hk Hf; pose proof (insert_right_perm ord cand (map fst (ct st))) as Hp.
    apply cover_good; auto.
    - apply (distinct_perm _ _ (Permutation_sym Hp)), distinct_cons; split; [exact Hf | apply (g_distinct _ _ G)].
    - intros s Hs; apply (Permutation_in _ Hp) in Hs; destruct Hs as [<-|Hs]; [exact Hk | apply (g_keys _ _ G), Hs].
    - intros x Hx; rewrite (kmem_perm _ _ _ Hp); simpl; rewrite (g_singles _ _ G x Hx); apply orb_true_r.
  Qed.

  Lemma evaluate_spec pruning st cand : inv st -> key_ok (sct st) cand -> fresh st cand -> occupied (sct st) ->
    exists t c, evaluate total tlt ord iter pruning st cand = Ret (t, c) /\ good (sct st) c /\ sized (sct st) c t
      /\ (forall k, kmem (map fst c) k = true -> kmem (map fst (ct st)) k = true \/ seteq k cand = true).
  Proof.
    intros I Hk Hf Ho; destruct (evaluate_cover st cand I Hk Hf) as [c [std' [E [Em G]]]].
    unfold evaluate; rewrite E, (compute_sizes_good _ c G Ho); cbn [bind].
    pose proof (insert_right_perm ord cand (map fst (ct st))) as Hp.
    assert (Hsub : forall k, kmem (map fst c) k = true -> kmem (map fst (ct st)) k = true \/ seteq k cand = true).
    { intros k Hkc; rewrite Em, (kmem_perm _ _ _ Hp) in Hkc; simpl in Hkc; apply orb_true_iff in Hkc; tauto. }
    destruct pruning.
    - destruct (prune_spec st c (total (used c))) as [c' [t' [E' [G' [Htt [Ht' Hs]]]]]]; auto.
      + intros s Hs; rewrite Em, (kmem_perm _ _ _ Hp); apply kmem_true; exists s; split; [right; exact Hs | apply seteq_refl].
      + apply sized_self, G.
      + exists t', c'; rewrite E'; cbn [bind fst snd]; auto 6.
    - exists (total (used c)), c; split; [reflexivity|]; split; [exact G|]; split; [apply sized_self, G | exact Hsub].
  Qed.
  Lemma evaluate_empty pruning st cand : inv st -> key_ok (sct st) cand -> fresh st cand -> ~ occupied (sct st) ->
    evaluate total tlt ord iter pruning st cand = Exn ValueError.
  Proof.
    intros I Hk Hf Ho; destruct (evaluate_cover st cand I Hk Hf) as [c [std' [E [Em G]]]].
    unfold evaluate; rewrite E; unfold compute_sizes.
    destruct (used c) as [|e u] eqn:Eu; [reflexivity|].
    exfalso; apply Ho, (good_used _ c G); congruence.
  Qed.

  Lemma fold_kput_spec (us : ktable A (list nat)) : forall c, kdistinct us -> kdistinct c ->
    let c' := fold_left (fun c p => kput ord c (fst p) (snd p)) us c in
    kdistinct c' /\ (forall q, In q (map fst c') -> In q (map fst c) \/ In q (map fst us))
    /\ (forall k, kget c' k = match kget us k with Some v => Some v | None => kget c k end).
  Proof.
    induction us as [|[q w] us IH]; intros c Hu Hc; simpl; [auto|].
    apply distinct_cons in Hu; destruct Hu as [Hq Hu].
    destruct (IH (kput ord c q w) Hu (kput_distinct ord c q w Hc)) as [H1 [H2 H3]]; split; [exact H1|]; split.
    - intros k Hk; apply H2 in Hk; destruct Hk as [Hk|Hk]; [|auto].
      apply kput_In in Hk; destruct Hk as [->|Hk]; auto.
    - intros k; rewrite H3, kput_get by exact Hc; destruct (seteq k q) eqn:E; [|reflexivity].
      rewrite (kget_ext us k q E); destruct (kget us q) eqn:F; [|reflexivity].
      assert (Hx : kget us q = None) by (apply kget_None, Hq); congruence.
  Qed.
  Lemma fold_kdel_spec (ks : list (list A)) : forall c, kdistinct c ->
    let c' := fold_left kdel ks c in
    kdistinct c' /\ (forall q, In q (map fst c') -> In q (map fst c))
    /\ (forall k, kget c' k = if kmem ks k then None else kget c k).
  Proof.
    induction ks as [|s ks IH]; intros c Hc; simpl; [auto|].
    destruct (IH (kdel c s) (kdel_distinct c s Hc)) as [H1 [H2 H3]]; split; [exact H1|]; split.
    - intros q Hq; apply H2 in Hq; apply (In_kdel_keys c s q Hq).
    - intros k; rewrite H3, kdel_get, (seteq_sym k s); destruct (kmem ks k), (seteq s k); reflexivity.
  Qed.

  (* the table installed by update is, as a mapping, exactly the evaluated one *)
  Lemma update_with_spec (st : slim A T) t us : inv st -> good (sct st) us ->
    inv (update_with ord st t us) /\ (forall k, kget (ct (update_with ord st t us)) k = kget us k).
  Proof.
    intros [Hn G] Gu; unfold update_with; simpl.
    set (dr := filter _ (map fst (ct st))).
    destruct (fold_kput_spec us (ct st) (g_distinct _ _ Gu) (g_distinct _ _ G)) as [P1 [P2 P3]].
    destruct (fold_kdel_spec dr _ P1) as [D1 [D2 D3]].
    assert (Hg : forall k, kget (fold_left kdel dr (fold_left (fun c p => kput ord c (fst p) (snd p)) us (ct st))) k = kget us k).
    { intros k; rewrite D3, P3; destruct (kmem dr k) eqn:E.
      - apply kmem_true in E; destruct E as [q [Hq Hs]]; apply filter_In in Hq; destruct Hq as [Hq Hb].
        apply andb_true_iff in Hb; destruct Hb as [_ Hb]; apply negb_true_iff in Hb.
        rewrite (kget_ext us k q Hs); symmetry; apply kget_None, Hb.
      - destruct (kget us k) as [v|] eqn:Ev; [reflexivity|].
        destruct (kget (ct st) k) as [w|] eqn:Ew; [|reflexivity]; exfalso.
        apply kget_Some in Ew; destruct Ew as [q [Hq Hs]]; apply (in_map fst) in Hq; simpl in Hq.
        rewrite kmem_false in E; specialize (E q); rewrite Hs in E; discriminate E.
        apply filter_In; split; [exact Hq|]; rewrite (kget_ext us k q Hs) in Ev.
        apply kget_None in Ev; rewrite Ev, andb_true_r; apply Nat.ltb_lt.
        destruct (g_keys _ _ G q Hq) as [Hnq [Hne Hkn]].
        destruct q as [|a [|b q]]; [congruence | | simpl; lia].
        rewrite (g_singles _ _ Gu a) in Ev; [discriminate | apply Hkn; left; reflexivity]. }
    split; [|exact Hg]; split; [exact Hn|].
    simpl; apply (good_ext (sct st) us); auto.
    intros s Hs; apply D2, P2 in Hs; destruct Hs as [Hs|Hs]; [apply (g_keys _ _ G), Hs | apply (g_keys _ _ Gu), Hs].
  Qed.

  Lemma update_spec pruning st cand : inv st -> key_ok (sct st) cand -> fresh st cand ->
    match update total tlt ord iter pruning st cand with
    | Ret st' => inv st' /\ sct st' = sct st
    | Exn e => e = ValueError /\ ~ occupied (sct st)
    | NoFuel => False
    end.
  Proof.
    intros I Hk Hf; unfold update; destruct cand as [|a cand]; [destruct Hk as [_ [Hk _]]; congruence|].
    destruct (used (ct st)) as [|e u] eqn:Eu.
    - rewrite evaluate_empty; auto; cbn [bind]; [split; [reflexivity|]|]; intros Ho; apply (good_used _ _ (proj2 I)) in Ho; auto.
    - destruct (evaluate_spec pruning st (a :: cand) I Hk Hf) as [t [c [E [G [Ht Hs]]]]].
      { apply (good_used _ _ (proj2 I)); congruence. }
      rewrite E; cbn [bind fst snd]; split; [apply update_with_spec; auto | reflexivity].
  Qed.
End Run.
