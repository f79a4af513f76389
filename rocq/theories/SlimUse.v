(* The greedy meaning of cover; SLIM.cover on new data; reconstruct. *)
From Verif Require Import Prelude CheckModel LCMModel LCMProofs ItemsetSpec VerticalProofs LCMLift
  SlimModel SlimProofs SlimInv SlimRun.

Section Use.
  Context {A : Type} `{EqDec A}.
  Implicit Types (std : dict A (list nat)).

  (* an itemset is used exactly where it fits and no earlier used itemset took one of its items *)
  Lemma cover_list_greedy isets : forall std l std', cover_list std isets = Some (l, std') ->
    forall l1 s u l2, l = l1 ++ (s, u) :: l2 -> forall t,
    In t u <-> s <> [] /\ forall x, In x s -> In t (tids std x) /\ ~ covers_at l1 t x.
  Proof.
    induction isets as [|q rest IH]; intros std l std'; simpl.
    - intros E; injection E as <- <-; intros l1 s u l2 E; destruct l1; discriminate.
    - destruct (lookups std q) as [it|] eqn:El; [|discriminate].
      assert (Hk : known std q).
      { intros x Hx; destruct (mem_spec x (dkeys std)) as [|Hn]; [assumption|].
        rewrite (lookups_unknown std q x Hx Hn) in El; discriminate. }
      rewrite (lookups_known std q Hk) in El; injection El as <-.
      set (m := meet (map (tids std) q)).
      destruct (cover_list (fold_left (subtract m) q std) rest) as [[l' std'']|] eqn:Ec; [|discriminate].
      intros E; injection E as <- <-; intros l1 s u l2 E t.
      destruct l1 as [|p l1]; simpl in E.
      + injection E as <- <- <-; destruct q as [|y q].
        * unfold m; simpl; split; [intros [] | intros [Hc _]; congruence].
        * unfold m; rewrite meet_spec by discriminate; split.
          -- intros Ht; split; [discriminate|]; intros x Hx; split; [apply Ht, Hx|]; intros [e [[] _]].
          -- intros [_ Ht] x Hx; apply Ht, Hx.
      + injection E as <- ->.
        rewrite (IH _ _ _ Ec l1 s u l2 eq_refl t).
        split; intros [Hs Hx]; (split; [exact Hs|]); intros x Hxs; specialize (Hx x Hxs);
          rewrite subtract_all_tids in *.
        * destruct Hx as [[Hx1 Hx2] Hx3]; split; [exact Hx1|].
          intros [e [[<-|He] [He1 He2]]]; [exact (Hx2 He1 He2) | apply Hx3; exists e; auto].
        * destruct Hx as [Hx1 Hx2]; split; [split; [exact Hx1|]|].
          -- intros Hq Ht; apply Hx2; exists (q, m); simpl; auto.
          -- intros [e [He1 He2]]; apply Hx2; exists e; simpl; auto.
  Qed.
  Lemma cover_greedy std isets c std' : distinct isets -> cover std isets = Some (c, std') ->
    map fst c = isets /\
    forall l1 s u l2, c = l1 ++ (s, u) :: l2 -> forall t,
    In t u <-> s <> [] /\ forall x, In x s -> In t (tids std x) /\ ~ covers_at l1 t x.
  Proof.
    intros Hd E; unfold cover in E; destruct (cover_list std isets) as [[l sd]|] eqn:El; [|discriminate].
    injection E as <- <-.
    assert (Hm : map fst l = isets).
    { clear Hd; revert std l sd El; induction isets as [|q rest IH]; intros std l sd El; simpl in El.
      - injection El as <- <-; reflexivity.
      - destruct (lookups std q); [|discriminate].
        destruct (cover_list _ rest) as [[l' sd']|] eqn:Ec; [|discriminate].
        injection El as <- <-; simpl; f_equal; eapply IH, Ec. }
    assert (Ek : kupdate [] l = l).
    { rewrite kupdate_fresh; [reflexivity | unfold kdistinct; rewrite Hm; exact Hd | intros; reflexivity]. }
    rewrite Ek; split; [exact Hm|]; eapply cover_list_greedy, El.
  Qed.
  (* cover raises KeyError exactly when an itemset has an unknown item *)
  Lemma cover_defined std isets : (exists r, cover std isets = Some r) <-> forall s, In s isets -> known std s.
  Proof.
    unfold cover; split.
    - intros [r E]; destruct (cover_list std isets) as [[l sd]|] eqn:El; [|discriminate]; clear E.
      revert std l sd El; induction isets as [|q rest IH]; intros std l sd El; [intros s []|]; simpl in El.
      destruct (lookups std q) as [it|] eqn:Eq; [|discriminate].
      destruct (cover_list _ rest) as [[l' sd']|] eqn:Ec; [|discriminate].
      intros s [<-|Hs] x Hx.
      + destruct (mem_spec x (dkeys std)) as [|Hn]; [assumption|].
        rewrite (lookups_unknown std q x Hx Hn) in Eq; discriminate.
      + pose proof (IH _ _ _ Ec s Hs x Hx) as Hk; rewrite subtract_all_keys in Hk; exact Hk.
    - intros Hk; destruct (cover_list_spec isets std Hk) as [l [sd [E _]]]; rewrite E; eauto.
  Qed.

  Context {T : Type} (leA : A -> A -> bool).

  Lemma seteq_sort s : seteq (sort leA s) s = true.
  Proof. apply seteq_spec; split; intros x; apply In_sort. Qed.
  Lemma kmem_map_sort l k : kmem (map (sort leA) l) k = kmem l k.
  Proof.
    induction l as [|x l IH]; simpl; [reflexivity|]; rewrite IH; f_equal.
    rewrite (seteq_sym k (sort leA x)), (seteq_sym k x); apply seteq_false_l, seteq_sort.
  Qed.
  Lemma distinct_map_sort l : distinct l -> distinct (map (sort leA) l).
  Proof.
    induction l as [|x l IH]; intros Hd; [constructor|]; simpl; apply distinct_cons in Hd; destruct Hd as [Hk Hd].
    apply distinct_cons; split; [|auto]; rewrite kmem_map_sort, (kmem_ext l (sort leA x) x); [exact Hk | apply seteq_sort].
  Qed.
  Lemma transform_all (st : slim A T) :
    (forall s, In s (map fst (ct st)) -> s <> []) ->
    map fst (slim_transform leA true true false st) = map (sort leA) (map fst (ct st)).
  Proof.
    unfold slim_transform; intros Hne; rewrite !map_map; simpl.
    f_equal; induction (ct st) as [|p c IH]; simpl; [reflexivity|].
    destruct (Nat.ltb_spec 0 (length (fst p))) as [Hl|Hl].
    - simpl; f_equal; apply IH; intros s Hs; apply Hne; right; exact Hs.
    - exfalso; apply (Hne (fst p)); [left; reflexivity | destruct (fst p); [reflexivity | simpl in Hl; lia]].
  Qed.

  Lemma cover_dict_spec (st : slim A T) dsct : inv st -> NoDup (dkeys dsct) ->
    exists c, cover_dict leA st dsct = Some c
      /\ (forall e, In e c -> NoDup (fst e) /\ exists k, In k (map fst (ct st)) /\ fst e = sort leA k)
      /\ (forall e, In e c -> forall t x, In t (snd e) -> In x (fst e) -> In t (tids dsct x))
      /\ ForallOrdPairs (fun e f => ~ clash e f) c
      /\ kdistinct c
      /\ (forall x t, In t (tids dsct x) -> In x (dkeys (sct st)) -> covers_at c t x).
  Proof.
    intros [Hn G] Hnd; unfold cover_dict.
    assert (Hne : forall s, In s (map fst (ct st)) -> s <> []) by (intros s Hs; apply (g_keys _ _ G s Hs)).
    rewrite transform_all by exact Hne.
    set (isets := filter (fun s => subset s (dkeys dsct)) (map (sort leA) (map fst (ct st)))).
    assert (Hd : distinct isets) by (apply distinct_filter, distinct_map_sort, (g_distinct _ _ G)).
    assert (Hk : forall s, In s isets -> NoDup s /\ known dsct s).
    { intros s Hs; apply filter_In in Hs; destruct Hs as [Hs Hsub]; split.
      - apply in_map_iff in Hs; destruct Hs as [k [<- Hk]]; apply NoDup_sort, (g_keys _ _ G k Hk).
      - apply subset_incl in Hsub; exact Hsub. }
    destruct (cover_list_spec isets dsct (fun s Hs => proj2 (Hk s Hs))) as [l [sd [E [Hm [Hs [Hdj [Hl [Hc _]]]]]]]].
    unfold cover; rewrite E.
    assert (El : kupdate [] l = l).
    { rewrite kupdate_fresh; [reflexivity | unfold kdistinct; rewrite Hm; exact Hd | intros; reflexivity]. }
    rewrite El; exists l; split; [reflexivity|]; split; [|split; [exact Hs|]; split; [exact Hdj|]; split].
    - intros e He; apply (in_map fst) in He; rewrite Hm in He; split; [apply (Hk _ He)|].
      apply filter_In in He; destruct He as [He _]; apply in_map_iff in He; destruct He as [k [E1 Hk1]]; eauto.
    - unfold kdistinct; rewrite Hm; exact Hd.
    - intros x t Ht Hx; apply Hc; [|exact Ht].
      assert (Hxd : In x (dkeys dsct)).
      { unfold tids in Ht; destruct (dget dsct x) as [v|] eqn:F; [|destruct Ht]; apply dget_Some_key; eauto. }
      apply filter_In; split; [|apply subset_incl; intros y [<-|[]]; exact Hxd].
      pose proof (g_singles _ _ G x Hx) as Hm1; apply kmem_true in Hm1; destruct Hm1 as [s [Hs1 Hs2]].
      apply in_map_iff; exists s; split; [|exact Hs1].
      rewrite (seteq_single x s); [reflexivity | apply (g_keys _ _ G s Hs1) | exact Hs2].
  Qed.

  (* ---------------------------------------------------------- reconstruct *)
  Definition add_entry (n : nat) (R : list (list A)) (p : list A * list nat) : list (list A) :=
    map (fun i => if mem i (snd p) then union (fst p) (nth i R []) else nth i R []) (seq 0 n).
  Lemma nth_map_seq {B} (f : nat -> B) n i d : i < n -> nth i (map f (seq 0 n)) d = f i.
  Proof.
    intros Hi; rewrite (nth_indep _ d (f 0)) by (rewrite map_length, seq_length; exact Hi).
    rewrite (map_nth f (seq 0 n) 0 i), seq_nth; [reflexivity | exact Hi].
  Qed.
  Lemma add_entries_spec n c : forall R, length R = n -> (forall r, In r R -> NoDup r) ->
    (forall e, In e c -> NoDup (fst e)) ->
    let R' := fold_left (add_entry n) c R in
    length R' = n /\ (forall r, In r R' -> NoDup r) /\
    (forall i x, i < n -> In x (nth i R' []) <-> In x (nth i R []) \/ covers_at c i x).
  Proof.
    induction c as [|p c IH]; intros R Hl Hn Hc; simpl.
    - split; [exact Hl|]; split; [exact Hn|]; intros i x Hi; split; [auto|]; intros [Hx|[e [[] _]]]; exact Hx.
    - assert (Hg : forall i, i < n -> nth i (add_entry n R p) [] = if mem i (snd p) then union (fst p) (nth i R []) else nth i R []).
      { intros i Hi; unfold add_entry; rewrite nth_map_seq by exact Hi; reflexivity. }
      assert (Hl' : length (add_entry n R p) = n) by (unfold add_entry; rewrite map_length; apply seq_length).
      destruct (IH (add_entry n R p)) as [I1 [I2 I3]].
      + exact Hl'.
      + intros r Hr; destruct (In_nth _ _ [] Hr) as [i [Hi <-]]; rewrite Hl' in Hi; rewrite Hg by exact Hi.
        assert (Hni : NoDup (nth i R [])) by (apply Hn, nth_In; lia).
        destruct (mem i (snd p)); [|exact Hni]; unfold union; apply NoDup_app_intro.
        * apply Hc; left; reflexivity.
        * apply NoDup_diff, Hni.
        * intros x Hx Hd; apply In_diff in Hd; tauto.
      + intros e He; apply Hc; right; exact He.
      + split; [exact I1|]; split; [exact I2|]; intros i x Hi; rewrite I3, Hg by exact Hi.
        destruct (mem_spec i (snd p)) as [Hm|Hm].
        * rewrite In_union; unfold covers_at; split.
          -- intros [[Hx|Hx]|[e [He Hr]]]; [right; exists p; simpl; auto | auto | right; exists e; simpl; auto].
          -- intros [Hx|[e [[<-|He] [Hr1 Hr2]]]]; [auto | auto | right; exists e; auto].
        * unfold covers_at; split.
          -- intros [Hx|[e [He Hr]]]; [auto | right; exists e; simpl; auto].
          -- intros [Hx|[e [[<-|He] [Hr1 Hr2]]]]; [auto | contradiction | right; exists e; auto].
  Qed.

  Lemma list_max_In l : l <> [] -> In (list_max l) l.
  Proof.
    induction l as [|x l IH]; [congruence|]; intros _; simpl.
    destruct l as [|y l]; [left; simpl; lia|].
    destruct (Nat.max_spec x (list_max (y :: l))) as [[_ E]|[_ E]]; simpl in *; rewrite E; [right; apply IH; discriminate | left; reflexivity].
  Qed.
  Lemma list_max_ge l x : In x l -> x <= list_max l.
  Proof. intros Hx; assert (Hf : Forall (fun k => k <= list_max l) l) by (apply list_max_le; lia). rewrite Forall_forall in Hf; auto. Qed.

  (* the number of reconstructed transactions is one more than the last non-empty position *)
  Lemma reconstruct_spec (st : slim A T) : inv st -> occupied (sct st) ->
    exists R last, reconstruct leA st = Ret R /\ length R = S last
      /\ (exists x, In last (tids (sct st) x))
      /\ (forall x t, In t (tids (sct st) x) -> t <= last)
      /\ (forall t x, t <= last -> In x (nth t R []) <-> In t (tids (sct st) x))
      /\ (forall r, In r R -> NoDup r /\ exists q, r = sort leA q).
  Proof.
    intros [Hn G] Ho; unfold reconstruct.
    set (us := filter (fun tids => negb (length tids =? 0)) (map snd (ct st))).
    assert (Hus : forall v, In v us <-> v <> [] /\ exists k, In (k, v) (ct st)).
    { intros v; unfold us; rewrite filter_In, negb_true_iff, Nat.eqb_neq, in_map_iff; split.
      - intros [[[k w] [E Hi]] Hl]; simpl in E; subst w; split; [intros ->; apply Hl; reflexivity | eauto].
      - intros [Hv [k Hk]]; split; [exists (k, v); auto | destruct v; [congruence | discriminate]]. }
    assert (Hune : us <> []).
    { destruct Ho as [x [t Ht]]; destruct (ex_total _ _ (g_exact _ _ G) x t Ht) as [[k v] [He [_ Hv]]]; simpl in *.
      assert (Hin : In v us) by (apply Hus; split; [intros ->; destruct Hv | eauto]).
      intros E; rewrite E in Hin; destruct Hin. }
    set (last := list_max (map list_max us)).
    assert (Hlast : exists v, In v us /\ In last v).
    { assert (Hin : In last (map list_max us)) by (apply list_max_In; destruct us; [congruence | discriminate]).
      apply in_map_iff in Hin; destruct Hin as [v [E Hv]]; exists v; split; [exact Hv|].
      rewrite <- E; apply list_max_In; apply Hus, Hv. }
    assert (Hmax : forall v t, In v us -> In t v -> t <= last).
    { intros v t Hv Ht; apply Nat.le_trans with (list_max v); [apply list_max_ge, Ht|].
      apply list_max_ge, in_map, Hv. }
    assert (Hcov : forall t x, covers_at (ct st) t x <-> In t (tids (sct st) x)).
    { intros t x; split; [|apply (ex_total _ _ (g_exact _ _ G))].
      intros [e [He [Hx Ht]]]; apply (ex_sound _ _ (g_exact _ _ G) e He t x Ht Hx). }
    destruct (add_entries_spec (S last) (ct st) (repeat [] (S last))) as [R1 [R2 R3]].
    { apply repeat_length. }
    { intros r Hr; apply repeat_spec in Hr; subst r; constructor. }
    { intros e He; apply (g_keys _ _ G (fst e)), in_map, He. }
    exists (map (sort leA) (fold_left (add_entry (S last)) (ct st) (repeat [] (S last)))), last.
    split; [|split; [|split; [|split; [|split]]]].
    - destruct us as [|u us'] eqn:Eu; [congruence|]; reflexivity.
    - rewrite map_length; exact R1.
    - destruct Hlast as [v [Hv Hl]]; apply Hus in Hv; destruct Hv as [_ [k Hk]].
      destruct (g_keys _ _ G k (in_map fst _ _ Hk)) as [_ [Hke _]]; destruct k as [|x k]; [congruence|].
      exists x; apply Hcov; exists (x :: k, v); simpl; auto.
    - intros x t Ht; apply Hcov in Ht; destruct Ht as [[k v] [He [_ Hv]]]; simpl in Hv.
      apply (Hmax v t); [|exact Hv]; apply Hus; split; [intros ->; destruct Hv | eauto].
    - intros t x Ht; rewrite (nth_indep _ [] (sort leA [])) by (rewrite map_length, R1; lia).
      rewrite map_nth, In_sort, R3 by lia; rewrite nth_repeat, <- Hcov; simpl; tauto.
    - intros r Hr; apply in_map_iff in Hr; destruct Hr as [q [<- Hq]]; split; [apply NoDup_sort, R2, Hq | eauto].
  Qed.
  Lemma reconstruct_empty (st : slim A T) : inv st -> ~ occupied (sct st) -> reconstruct leA st = Exn ValueError.
  Proof.
    intros [Hn G] Ho; unfold reconstruct.
    destruct (filter (fun tids => negb (length tids =? 0)) (map snd (ct st))) as [|v l] eqn:E; [reflexivity|].
    exfalso; apply Ho, (good_used _ _ G); intros Eu.
    assert (Hv : In v (v :: l)) by (left; reflexivity); rewrite <- E in Hv.
    apply filter_In in Hv; destruct Hv as [Hv Hl]; apply in_map_iff in Hv; destruct Hv as [p [<- Hp]].
    assert (Hin : In p (used (ct st))).
    { apply filter_In; split; [exact Hp|]; apply Nat.ltb_lt; rewrite negb_true_iff, Nat.eqb_neq in Hl; lia. }
    rewrite Eu in Hin; destruct Hin.
  Qed.
End Use.
