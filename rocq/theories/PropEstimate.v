(* C95: how GraphMDL rates its candidates, and the order in which it tries
   them. *)
From Verif Require Import Prelude CheckModel LCMModel VerticalProofs GraphUtilModel PropGraphUtil
  GraphCoverModel PropGraphCover MergeModel PropMerge RewriteModel RewriteProofs PropRewrite GenerateModel PropGenerate
  SplitModel EstimateModel.
From Coq Require Import QArith Qround.
Close Scope Q_scope.
Open Scope nat_scope.

(* ------------------------------------------------------- specification *)
Section Spec.
  Context {L : Type} `{EqDec L}.
  Context (row_name : nat -> L).

  (* the name of the pattern that a use is a use of *)
  Definition named (x : entry L) : L :=
    match e_use x with
    | RowUse _ _ => row_name (match e_row x with Some i => i | None => 0 end)
    | EdgeUse _ _ l => l
    | VertexUse _ l => l
    end.
  (* the uses x and y are uses of the two patterns of the candidate, and the
     nodes they have in common are those at which the candidate joins them *)
  Definition meets_as (c : candidate L nat) (x y : entry L) : Prop :=
    first_label c = named x /\ second_label c = named y
    /\ forall a b, In (a, b) (port c) <-> meet (e_use x) (e_use y) a b.
  (* the candidate reads the same in both directions *)
  Definition reversible (c : candidate L nat) : Prop :=
    forall a b, In (a, b) (port c) -> In (b, a) (port c).
  (* pairs of positions in the cover, no use in two of them, that all meet as
     the candidate says *)
  Definition disjoint_meetings (log : list (entry L)) (c : candidate L nat) (ps : list (nat * nat)) : Prop :=
    NoDup (map fst ps ++ map snd ps)
    /\ forall i j, In (i, j) ps -> exists x y, nth_error log i = Some x /\ nth_error log j = Some y /\ meets_as c x y.
  Definition uses_named (log : list (entry L)) (l : L) : nat := length (filter (fun x => eqd (named x) l) log).
  (* the data node n belongs to the use *)
  Definition touches (x : entry L) (n : nat) : Prop := In n (map fst (use_nodes (e_use x))).
  (* two uses have n in common, and whichever two have, meet as the candidate
     says *)
  Definition only_meeting (log : list (entry L)) (c : candidate L nat) (n : nat) : Prop :=
    (exists i j x y, nth_error log i = Some x /\ nth_error log j = Some y /\ i <> j /\ touches x n /\ touches y n)
    /\ forall i j x y, nth_error log i = Some x -> nth_error log j = Some y -> i <> j -> touches x n -> touches y n ->
         meets_as c x y \/ meets_as c y x.
  (* two uses that have n in common meet as the candidate says *)
  Definition joined_at (log : list (entry L)) (c : candidate L nat) (n : nat) : Prop :=
    exists i j x y, nth_error log i = Some x /\ nth_error log j = Some y /\ i <> j /\ touches x n /\ touches y n /\ meets_as c x y.
  (* [hs] lists the pairs of a use of the pattern l and a node n where the
     candidate is joined, which is one of the nodes vs of the pattern *)
  Definition ends_at_joins (log : list (entry L)) (c : candidate L nat) (l : L) (vs : list nat) (hs : list (nat * nat)) : Prop :=
    NoDup hs /\ forall i n, In (i, n) hs <->
      joined_at log c n /\ exists x v, nth_error log i = Some x /\ named x = l /\ In (n, v) (use_nodes (e_use x)) /\ In v vs.
  Definition share (hs : list (nat * nat)) (c : candidate L nat) : Q := (inject_Z (Z.of_nat (length hs)) / inject_Z (Z.of_nat (length (port c))))%Q.
  (* the smaller of two numbers *)
  Definition least (u u1 u2 : Q) : Prop := (u == u1 /\ u1 <= u2)%Q \/ (u == u2 /\ u2 <= u1)%Q.
  (* the estimate u of the join of the patterns p and q, from their shares u1
     and u2: a pattern with edges says more than one without *)
  Definition by_rule (log : list (entry L)) (c : candidate L nat) (p q : net L) (u u1 u2 : Q) : Prop :=
    (first_label c = second_label c -> (u == inject_Z (Qfloor (u1 / 2)))%Q)
    /\ (first_label c <> second_label c ->
         (n_edges p <> [] -> n_edges q <> [] -> least u u1 u2)
         /\ (n_edges p <> [] -> n_edges q = [] -> (u == u1)%Q)
         /\ (n_edges p = [] -> n_edges q <> [] -> (u == u2)%Q)
         /\ (n_edges p = [] -> n_edges q = [] ->
              (u == u1)%Q \/ least u u1 u2 \/ (u == inject_Z (Z.of_nat (uses_named log (first_label c))))%Q)).
End Spec.

(* --------------------------------------------------------------- proofs *)
Lemma forall2_exists {A B} (P : A -> B -> Prop) l : (forall a, In a l -> exists b, P a b) -> exists bs, Forall2 P l bs.
Proof.
  induction l as [|a l IH]; intros Hl; [exists []; constructor|].
  destruct (Hl a (or_introl eq_refl)) as [b Hb]. destruct IH as [bs F]; [intros z Hz; apply Hl; right; exact Hz|].
  exists (b :: bs). constructor; assumption.
Qed.
Lemma forall2_in_r {A B} (P : A -> B -> Prop) l bs : Forall2 P l bs -> forall b, In b bs -> exists a, In a l /\ P a b.
Proof.
  induction 1 as [|a b l bs Hab F IH]; intros z Hz; [destruct Hz|]. destruct Hz as [<-|Hz]; [exists a; cbn; auto|].
  destruct (IH z Hz) as (a' & H1 & H2). exists a'. cbn; auto.
Qed.
Lemma forall2_in_l {A B} (P : A -> B -> Prop) l bs : Forall2 P l bs -> forall a, In a l -> exists b, In b bs /\ P a b.
Proof.
  induction 1 as [|a b l bs Hab F IH]; intros z Hz; [destruct Hz|]. destruct Hz as [<-|Hz]; [exists b; cbn; auto|].
  destruct (IH z Hz) as (a' & H1 & H2). exists a'. cbn; auto.
Qed.
Lemma forall2_nodup {A B} (P : A -> B -> Prop) l bs : Forall2 P l bs -> NoDup l ->
  (forall a a' b, In a l -> In a' l -> P a b -> P a' b -> a = a') -> NoDup bs.
Proof.
  induction 1 as [|a b l bs Hab F IH]; intros Hn Hi; [constructor|]. inversion_clear Hn as [|? ? Ha Hl]. constructor.
  - intros Hb. destruct (forall2_in_r _ _ _ F b Hb) as (a' & H1 & H2).
    rewrite (Hi a a' b (or_introl eq_refl) (or_intror H1) Hab H2) in Ha. exact (Ha H1).
  - apply IH; [exact Hl|]. intros x y z Hx Hy. apply Hi; right; assumption.
Qed.
Lemma ordpairs_same {A} (P : A -> A -> Prop) l : ForallOrdPairs P l -> forall a b, In a l -> In b l ->
  a = b \/ P a b \/ P b a.
Proof.
  induction 1 as [|x l Hx Hl IH]; intros a b Ha Hb; [destruct Ha|]. rewrite Forall_forall in Hx.
  destruct Ha as [<-|Ha], Hb as [<-|Hb]; auto.
Qed.

Section Rating.
  Context {L : Type} `{EqDec L}.
  Context (ltb : L -> L -> bool) (row_index : L -> outcome nat).
  Context (pair_order : list (nat * nat) -> list (nat * nat)) (port_order : list nat -> list nat).
  Context (pair_order_In : forall l x, In x (pair_order l) <-> In x l)
          (port_order_perm : forall l, Permutation (port_order l) l).
  Context (multi : bool) (row_name node_name : nat -> L).
  Context (ltb_total : forall a b, a <> b -> ltb a b = negb (ltb b a)).

  Section Run.
    Context (g : data L) (rows : list (row L)) (log : list (entry L)) (ids : list nat) (r : rgraph L).
    Context (Hadm : admissible g rows) (Hread : readable row_name node_name g)
            (Hjoin : joinable multi row_name row_index g rows)
            (R : run row_name node_name g rows log ids r) (Hkeys : NoDup (dkeys (r_edges r))).
    Let Rr := ru_repr _ _ _ _ _ _ _ R.
    Notation all_ports := (get_two_nodes_all_port port_order r).
    Notation label_of x := (r_label (use_node row_name x)).
    Notation looked := (looked_at pair_order r).
    Notation joinp := (join ltb row_index port_order r).
    Notation collectp := (collect ltb row_index pair_order port_order r).
    Notation orient := (oriented row_name).

    Lemma named_label x : named row_name x = label_of x.
    Proof. unfold named, use_node. destruct (e_use x); reflexivity. Qed.

    (* ---- an invariant of the list of candidates *)
    Lemma collect_inv (G : joined L -> Prop) :
      (forall pq c, In pq looked -> joinp pq = Ret c -> G c) ->
      (forall x c, G x -> G c -> candidate_eq (j_cand x) (j_cand c) = true ->
         G {| j_cand := j_cand x; j_first := j_first x; j_second := j_second x;
              j_data := union (j_data x) (j_data c); j_early := j_early x |}) ->
      forall cs, collectp = Ret cs -> forall c, In c cs -> G c.
    Proof.
      intros Hj Hu cs. unfold collect. rewrite (fold_flat _ (fun t => get_port_candidates pair_order (in_nodes r t))).
      fold looked. intros E.
      assert (forall ps acc cs, incl ps looked -> (forall c, In c acc -> G c) ->
        fold_out (fun cs c => bind (joinp c) (fun j => Ret (add_joined cs j))) ps acc = Ret cs -> forall c, In c cs -> G c) as A.
      { induction ps as [|pq ps IH]; intros acc cs0 Hin Hg E0; cbn [fold_out] in E0.
        - injection E0 as <-. exact Hg.
        - apply bind_Ret in E0 as (acc' & E1 & E2). apply bind_Ret in E1 as (c & Ec & E1). injection E1 as <-.
          refine (IH (add_joined acc c) cs0 (fun z Hz => Hin z (or_intror Hz)) _ E2).
          pose proof (Hj pq c (Hin pq (or_introl eq_refl)) Ec) as Gc. clear -Hg Gc Hu.
          induction acc as [|x acc IHa]; intros d Hd; cbn [add_joined] in Hd.
          + destruct Hd as [<-|[]]. exact Gc.
          + destruct (candidate_eq (j_cand x) (j_cand c)) eqn:Ee.
            * destruct Hd as [<-|Hd]; [|apply Hg; right; exact Hd]. apply Hu; [apply Hg; left; reflexivity | exact Gc | exact Ee].
            * destruct Hd as [<-|Hd]; [apply Hg; left; reflexivity|]. apply IHa; [intros z Hz; apply Hg; right; exact Hz | exact Hd]. }
      exact (A looked [] cs (incl_refl _) (fun c F => match F with end) E).
    Qed.

    (* ---- in which order a candidate names its patterns *)
    Definition ahead (s t : side L) : bool :=
      match s, t with
      | RowSide i, RowSide j => i <? j
      | RowSide _, SingleSide _ => true
      | SingleSide _, RowSide _ => false
      | SingleSide a, SingleSide b => ltb a b
      end.
    Lemma ahead_total s t : s <> t -> ahead s t = negb (ahead t s).
    Proof.
      destruct s as [i|a], t as [j|b]; cbn [ahead]; intros Hne; try reflexivity.
      - destruct (Nat.ltb_spec i j), (Nat.ltb_spec j i); try reflexivity; [lia|]. destruct Hne. f_equal. lia.
      - apply ltb_total. congruence.
    Qed.
    Lemma join_sides i j x y p q c : nth_error log i = Some x -> nth_error log j = Some y ->
      nth_error ids i = Some p -> nth_error ids j = Some q -> joinp (p, q) = Ret c ->
      (j_first c, j_second c) = (if ahead (side_of x) (side_of y) then (side_of x, side_of y) else (side_of y, side_of x))
      /\ (j_early c = true -> exists i, j_first c = RowSide i).
    Proof.
      intros Hx Hy Hp Hq. unfold join. cbn [fst snd].
      rewrite (node_ok row_name node_name g rows log ids r R i x p Hx Hp), (node_ok row_name node_name g rows log ids r R j y q Hy Hq). cbn [bind].
      pose proof (nth_error_In _ _ Hx) as Ix. pose proof (nth_error_In _ _ Hy) as Iy.
      destruct (is_singleton (use_node row_name x)) eqn:Sx, (is_singleton (use_node row_name y)) eqn:Sy; intros E.
      - rewrite (single_label row_name x Sx), (single_label row_name y Sy). cbn [ahead].
        destruct (ltb _ _); apply bind_Ret in E as (ps & _ & E); injection E as <-; (split; [reflexivity | first [discriminate | intros _; eexists; reflexivity]]).
      - rewrite (single_label row_name x Sx). destruct (row_label row_index multi row_name g rows log Hjoin y Iy Sy) as (k & _ & Ly & Ek).
        rewrite Ek in E. cbn [bind] in E. rewrite Ly. cbn [ahead]. apply bind_Ret in E as (ps & _ & E). injection E as <-. (split; [reflexivity | first [discriminate | intros _; eexists; reflexivity]]).
      - rewrite (single_label row_name y Sy). destruct (row_label row_index multi row_name g rows log Hjoin x Ix Sx) as (k & _ & Lx & Ek).
        rewrite Ek in E. cbn [bind] in E. rewrite Lx. cbn [ahead]. apply bind_Ret in E as (ps & _ & E). injection E as <-. (split; [reflexivity | first [discriminate | intros _; eexists; reflexivity]]).
      - destruct (row_label row_index multi row_name g rows log Hjoin x Ix Sx) as (k & _ & Lx & Ek).
        destruct (row_label row_index multi row_name g rows log Hjoin y Iy Sy) as (k' & _ & Ly & Ek').
        rewrite Ek in E. cbn [bind] in E. rewrite Ek' in E. cbn [bind] in E. rewrite Lx, Ly. cbn [ahead].
        destruct (k <? k'); apply bind_Ret in E as (ps & _ & E); injection E as <-; (split; [reflexivity | first [discriminate | intros _; eexists; reflexivity]]).
    Qed.

    (* what every candidate of the list is *)
    Definition sound (c : joined L) : Prop :=
      ((j_first c = j_second c \/ ahead (j_first c) (j_second c) = true) /\ (j_early c = true -> exists i, j_first c = RowSide i))
      /\ NoDup (j_data c)
      /\ forall t, In t (j_data c) -> exists p q c0, In (p, q) looked /\ joinp (p, q) = Ret c0
           /\ candidate_eq (j_cand c) (j_cand c0) = true /\ In t (all_ports p q).
    Lemma collect_sound cs : collectp = Ret cs -> forall c, In c cs -> sound c.
    Proof.
      apply collect_inv.
      - intros [p q] c Hl E. pose proof (join_data _ _ _ _ _ _ _ E) as Ed. split; [|split].
        + destruct (looked_at_uses pair_order pair_order_In row_name node_name g rows log ids r Hread R Hkeys p q Hl)
            as (i & j & x & y & Hx & Hy & Hp & Hq & _).
          destruct (join_sides i j x y p q c Hx Hy Hp Hq E) as [Es Ee]. split; [clear Ee | exact Ee].
          destruct (ahead (side_of x) (side_of y)) eqn:Ea;
            pose proof (f_equal fst Es) as E1; pose proof (f_equal snd Es) as E2; cbn [fst snd] in E1, E2; rewrite E1, E2; [right; exact Ea|].
          assert (forall s t : side L, {s = t} + {s <> t}) as Dec by (decide equality; apply eq_dec).
          destruct (Dec (side_of y) (side_of x)) as [Hs|Hs]; [left; exact Hs | right].
          rewrite (ahead_total _ _ Hs), Ea. reflexivity.
        + rewrite Ed. apply (all_ports_nodup port_order port_order_perm).
        + intros t Ht. rewrite Ed in Ht. exists p, q, c. repeat (split; [solve [assumption | apply C59_reflexive]|]). exact Ht.
      - intros x c (A1 & A2 & A3) (B1 & B2 & B3) E. split; [exact A1|]. split.
        + cbn [j_data]. unfold union. apply NoDup_app_intro; [exact A2 | apply NoDup_diff, B2|].
          intros t Ht Hd. apply In_diff in Hd as [_ Hd]. exact (Hd Ht).
        + intros t Ht. cbn [j_data] in Ht. apply In_union in Ht as [Ht|Ht]; [exact (A3 t Ht)|].
          destruct (B3 t Ht) as (p & q & c0 & H1 & H2 & H3 & H4). exists p, q, c0. repeat (split; [assumption|]). split; [|exact H4].
          exact (C59_transitive _ _ _ E H3).
    Qed.

    Context (cs : list (joined L)) (Hcs : collectp = Ret cs).
    Lemma collected : (forall c, In c cs -> exists i j x y, nth_error log i = Some x /\ nth_error log j = Some y /\ i <> j
            /\ (exists a b, meet (e_use x) (e_use y) a b) /\ orient c x y)
      /\ (forall p q, In (p, q) looked -> exists c d, joinp (p, q) = Ret c /\ In d cs
            /\ candidate_eq (j_cand d) (j_cand c) = true /\ incl (j_data c) (j_data d))
      /\ distinct_cands cs.
    Proof.
      destruct (collect_ok ltb row_index pair_order port_order pair_order_In port_order_perm multi row_name node_name g rows log ids r Hread Hjoin R Hkeys)
        as (cs' & E & A). rewrite Hcs in E. injection E as <-. exact A.
    Qed.
    Lemma cand_nodup c : In c cs -> NoDup (port (j_cand c)).
    Proof. intros Hc. destruct (proj1 collected c Hc) as (i & j & x & y & _ & _ & _ & _ & Ho). apply Ho. Qed.
    Lemma same_cand c d : In c cs -> In d cs -> same_way (j_cand c) (j_cand d) -> c = d.
    Proof.
      intros Hc Hd Hs. destruct collected as (_ & _ & D).
      assert (candidate_eq (j_cand c) (j_cand d) = true) as E1 by (apply C59_equal_partial; [apply cand_nodup, Hc | apply cand_nodup, Hd | exact Hs]).
      assert (candidate_eq (j_cand d) (j_cand c) = true) as E2
        by (rewrite C59_symmetric; [exact E1 | apply cand_nodup, Hd | apply cand_nodup, Hc]).
      destruct (ordpairs_same _ _ D c d Hc Hd) as [E|[E|E]]; [exact E | congruence | congruence].
    Qed.
    Lemma first_side c x : In c cs -> In x log -> first_label (j_cand c) = label_of x -> j_first c = side_of x.
    Proof.
      intros Hc Ix E. destruct (proj1 collected c Hc) as (i & j & x' & y' & Hx & Hy & _ & _ & O1 & O2 & O3 & O4 & _).
      rewrite O3. apply (side_label row_index multi row_name node_name g rows log ids r Hread Hjoin R);
        [eapply nth_error_In; eassumption | exact Ix | congruence].
    Qed.
    Lemma second_side c x : In c cs -> In x log -> second_label (j_cand c) = label_of x -> j_second c = side_of x.
    Proof.
      intros Hc Ix E. destruct (proj1 collected c Hc) as (i & j & x' & y' & Hx & Hy & _ & _ & O1 & O2 & O3 & O4 & _).
      rewrite O4. apply (side_label row_index multi row_name node_name g rows log ids r Hread Hjoin R);
        [eapply nth_error_In; eassumption | exact Ix | congruence].
    Qed.

    (* two candidates, one of them possibly read backwards *)
    Lemma same_meeting c d x y : In c cs -> In d cs -> In x log -> In y log ->
      first_label (j_cand c) <> second_label (j_cand c) \/ reversible (j_cand c) ->
      meets_as row_name (j_cand c) x y -> orient d x y \/ orient d y x -> c = d.
    Proof.
      intros Hc Hd Ix Iy Hor (M1 & M2 & M3) Ho. rewrite !named_label in *. apply same_cand; [assumption | assumption|].
      destruct Ho as [(O1 & O2 & O3 & O4 & O5 & _)|(O1 & O2 & O3 & O4 & O5 & _)].
      - split; [congruence|]. split; [congruence|]. intros [a b]. rewrite M3, O5. reflexivity.
      - destruct Hor as [Hne|Hrev].
        + exfalso. pose proof (first_side c x Hc Ix M1) as F1. pose proof (second_side c y Hc Iy M2) as F2.
          destruct (collect_sound cs Hcs c Hc) as ((Ac & _) & _). destruct (collect_sound cs Hcs d Hd) as ((Ad & _) & _).
          rewrite F1, F2 in Ac. rewrite O3, O4 in Ad.
          assert (side_of x <> side_of y) as Hs.
          { intros Es. apply Hne. rewrite M1, M2. clear -Es R Hjoin Ix Iy.
            pose proof (ru_from _ _ _ _ _ _ _ R x Ix) as Fx. pose proof (ru_from _ _ _ _ _ _ _ R y Iy) as Fy.
            unfold side_of, use_node in *. destruct (e_use x), (e_use y); cbn [r_label]; congruence. }
          destruct Ac as [Ac|Ac]; [exact (Hs Ac)|]. destruct Ad as [Ad|Ad]; [exact (Hs (eq_sym Ad))|].
          rewrite (ahead_total _ _ Hs), Ad in Ac. discriminate.
        + assert (forall a b, meet (e_use x) (e_use y) a b <-> meet (e_use y) (e_use x) a b) as Sym.
          { intros a b. split; intros Hm.
            - apply M3 in Hm. apply Hrev, M3 in Hm. destruct Hm as (n & H1 & H2). exists n. auto.
            - assert (meet (e_use x) (e_use y) b a) as Hm' by (destruct Hm as (n & H1 & H2); exists n; auto).
              apply M3, Hrev, M3 in Hm'. exact Hm'. }
          assert (label_of x = label_of y \/ label_of x <> label_of y) as [El|El] by (destruct (eq_dec (label_of x) (label_of y)); auto).
          * split; [congruence|]. split; [congruence|]. intros [a b]. rewrite M3, O5. apply Sym.
          * exfalso. pose proof (first_side c x Hc Ix M1) as F1. pose proof (second_side c y Hc Iy M2) as F2.
            destruct (collect_sound cs Hcs c Hc) as ((Ac & _) & _). destruct (collect_sound cs Hcs d Hd) as ((Ad & _) & _).
            rewrite F1, F2 in Ac. rewrite O3, O4 in Ad.
            assert (side_of x <> side_of y) as Hs.
            { intros Es. apply El. clear -Es. unfold side_of, use_node in *. destruct (e_use x), (e_use y); cbn [r_label]; congruence. }
            destruct Ac as [Ac|Ac]; [exact (Hs Ac)|]. destruct Ad as [Ad|Ad]; [exact (Hs (eq_sym Ad))|].
            rewrite (ahead_total _ _ Hs), Ad in Ac. discriminate.
    Qed.

    (* two uses with a node in common are recorded under some candidate *)
    Lemma recorded i j x y p q : nth_error log i = Some x -> nth_error log j = Some y -> i <> j ->
      nth_error ids i = Some p -> nth_error ids j = Some q -> (exists a b, meet (e_use x) (e_use y) a b) ->
      exists d, In d cs /\ (orient d x y \/ orient d y x) /\ incl (all_ports p q) (j_data d).
    Proof.
      intros Hx Hy Hij Hp Hq Hm. pose proof (nth_error_In _ _ Hx) as Ix. pose proof (nth_error_In _ _ Hy) as Iy.
      destruct (uses_looked_at pair_order pair_order_In row_name node_name g rows log ids r Hread R i j x y Hx Hy Hij Hm)
        as (p' & q' & Hp' & Hq' & Hl).
      rewrite Hp in Hp'. injection Hp' as <-. rewrite Hq in Hq'. injection Hq' as <-.
      assert (p <> q) as Hpq by (intros <-; exact (Hij (sorted_nth _ _ _ _ (re_sorted _ _ _ _ _ Rr) Hp Hq))).
      assert (forall c d, In d cs -> candidate_eq (j_cand d) (j_cand c) = true -> orient c x y \/ orient c y x -> orient d x y \/ orient d y x) as Tr.
      { intros c d Hd He Ho. destruct (proj1 collected d Hd) as (i' & j' & x' & y' & Hx' & Hy' & _ & _ & Ho').
        assert (exists x' y', In x' log /\ In y' log /\ orient d x' y') as Hex.
        { exists x', y'. split; [eapply nth_error_In; eassumption|]. split; [eapply nth_error_In; eassumption | exact Ho']. }
        destruct Ho as [Ho|Ho]; [left | right];
          refine (oriented_equal row_index multi row_name node_name g rows log ids r Hread Hjoin R c d _ _ _ _ Hex Ho He); assumption. }
      destruct collected as (_ & B & _). destruct Hl as [Hl|Hl]; destruct (B _ _ Hl) as (c & d & Ej & Hd & He & Hi);
        rewrite (join_data _ _ _ _ _ _ _ Ej) in Hi; exists d; (split; [exact Hd|]).
      - destruct (join_ok ltb row_index port_order port_order_perm multi row_name node_name g rows log ids r Hread Hjoin R Hkeys i j x y p q Hx Hy Hp Hq Hij)
          as (c' & Ec' & Ho). rewrite Ej in Ec'. injection Ec' as <-. split; [exact (Tr c d Hd He Ho) | exact Hi].
      - destruct (join_ok ltb row_index port_order port_order_perm multi row_name node_name g rows log ids r Hread Hjoin R Hkeys j i y x q p Hy Hx Hq Hp (not_eq_sym Hij))
          as (c' & Ec' & Ho). rewrite Ej in Ec'. injection Ec' as <-. split; [apply (Tr c d Hd He); tauto|].
        intros t Ht. apply Hi.
        apply (all_ports_In port_order port_order_perm row_name node_name g rows log ids r R Hkeys q p (not_eq_sym Hpq)).
        apply (all_ports_In port_order port_order_perm row_name node_name g rows log ids r R Hkeys p q Hpq) in Ht as (a & b & Ha & Hb). eauto.
    Qed.

    (* where the uses meet as the candidate says, their ports are recorded
       with it *)
    Lemma located c i j x y p q : In c cs -> nth_error log i = Some x -> nth_error log j = Some y -> i <> j ->
      nth_error ids i = Some p -> nth_error ids j = Some q ->
      first_label (j_cand c) <> second_label (j_cand c) \/ reversible (j_cand c) ->
      meets_as row_name (j_cand c) x y -> port (j_cand c) <> [] -> incl (all_ports p q) (j_data c).
    Proof.
      intros Hc Hx Hy Hij Hp Hq Hor Hm Hne.
      assert (exists a b, meet (e_use x) (e_use y) a b) as Hab.
      { destruct (port (j_cand c)) as [|[a b] ps] eqn:E; [destruct (Hne eq_refl)|]. exists a, b. apply Hm. rewrite E. left; reflexivity. }
      destruct (recorded i j x y p q Hx Hy Hij Hp Hq Hab) as (d & Hd & Ho & Hi).
      rewrite (same_meeting c d x y Hc Hd (nth_error_In _ _ Hx) (nth_error_In _ _ Hy) Hor Hm Ho). exact Hi.
    Qed.
    Lemma ports_some c : In c cs -> port (j_cand c) <> [].
    Proof.
      intros Hc E. destruct (proj1 collected c Hc) as (i & j & x & y & _ & _ & _ & (a & b & Hm) & Ho).
      apply Ho in Hm. rewrite E in Hm. destruct Hm.
    Qed.

    (* ---- counting *)
    Definition hit (fmt : list (L * nat)) (e : (nat * nat) * nat) : bool :=
      match node r (fst (fst e)) with Ret z => mem (r_label z, snd e) fmt | _ => false end.
    Definition hits (fmt : list (L * nat)) (ports : list nat) : list ((nat * nat) * nat) :=
      flat_map (fun q => filter (fun e => (snd (fst e) =? q) && hit fmt e) (r_edges r)) ports.

    Lemma source_ok e : In e (r_edges r) -> exists z, node r (fst (fst e)) = Ret z.
    Proof.
      destruct e as [[p q] v]. intros He. apply (re_edge _ _ _ _ _ Rr) in He as (i & x & n & Hx & Hp & _).
      cbn [fst]. rewrite (node_ok row_name node_name g rows log ids r R i x p Hx Hp). eauto.
    Qed.
    Lemma port_infos_ok q : (exists p v, In ((p, q), v) (r_edges r)) -> exists is, port_infos r q = Ret is
      /\ forall fmt, length (filter (fun i => mem i fmt) is) = length (filter (fun e => (snd (fst e) =? q) && hit fmt e) (r_edges r)).
    Proof.
      intros (p & v & He). unfold port_infos.
      rewrite (proj2 (mem_In q (port_nodes r)) (edge_port row_name node_name g rows log ids r R p q v He)).
      assert (forall es, incl es (r_edges r) -> exists is,
        map_out (fun e : nat * nat * nat => bind (node r (fst (fst e))) (fun z => Ret (r_label z, snd e))) es = Ret is
        /\ forall fmt, length (filter (fun i => mem i fmt) is) = length (filter (hit fmt) es)) as A.
      { induction es as [|e es IH]; intros Hi; [exists []; split; reflexivity|]. cbn [map_out].
        destruct (source_ok e (Hi e (or_introl eq_refl))) as [z Ez]. rewrite Ez. cbn [bind].
        destruct IH as (is & E & C); [intros w Hw; apply Hi; right; exact Hw|]. rewrite E. cbn [bind].
        exists ((r_label z, snd e) :: is). split; [reflexivity|]. intros fmt. cbn [filter]. unfold hit at 1. rewrite Ez.
        destruct (mem _ fmt); cbn [length]; rewrite C; reflexivity. }
      destruct (A (filter (fun e => snd (fst e) =? q) (r_edges r))) as (is & E & C).
      { intros e Hi. apply filter_In in Hi. apply Hi. }
      destruct (filter (fun e => snd (fst e) =? q) (r_edges r)) as [|e0 es] eqn:Ef.
      - exfalso. assert (In ((p, q), v) []) as Hin by (rewrite <- Ef; apply filter_In; split; [exact He | apply Nat.eqb_refl]). destruct Hin.
      - rewrite <- Ef in *. exists is. split; [exact E|]. intros fmt. rewrite C. f_equal. clear.
        induction (r_edges r) as [|e es IH]; [reflexivity|]. cbn [filter]. destruct (snd (fst e) =? q); cbn [andb filter]; [|exact IH].
        destruct (hit fmt e); [f_equal|]; exact IH.
    Qed.
    Lemma pattern_usage_ok fmt ports : fmt <> [] -> (forall q, In q ports -> exists p v, In ((p, q), v) (r_edges r)) ->
      exists u, pattern_usage r fmt ports = Ret u /\ (u * inject_Z (Z.of_nat (length fmt)) == inject_Z (Z.of_nat (length (hits fmt ports))))%Q.
    Proof.
      intros Hf Hq. unfold pattern_usage.
      assert (forall n, fold_out (fun n q => bind (port_infos r q) (fun is => Ret (n + length (filter (fun i => mem i fmt) is)))) ports n
        = Ret (n + length (hits fmt ports))) as A.
      { unfold hits. induction ports as [|q ports IH]; intros n; [cbn; f_equal; lia|]. cbn [fold_out].
        destruct (port_infos_ok q (Hq q (or_introl eq_refl))) as (is & E & C). rewrite E. cbn [bind].
        rewrite IH by (intros z Hz; apply Hq; right; exact Hz). cbn [flat_map]. rewrite app_length, C. f_equal. lia. }
      rewrite A. cbn [bind]. destruct fmt as [|f0 fmt]; [destruct (Hf eq_refl)|]. cbn [length].
      eexists. split; [reflexivity|]. cbn [Nat.add].
      unfold Qeq. cbn [Qnum Qden Qmult inject_Z]. rewrite Pos.mul_1_r, Z.mul_1_r. f_equal.
    Qed.
    (* distinct edges that are counted *)
    Lemma hits_at_least fmt ports es : NoDup es ->
      (forall e, In e es -> In e (r_edges r) /\ In (snd (fst e)) ports /\ hit fmt e = true) -> length es <= length (hits fmt ports).
    Proof.
      intros Hn He. apply NoDup_incl_length; [exact Hn|]. intros e Hi. destruct (He e Hi) as (H1 & H2 & H3).
      unfold hits. apply in_flat_map. exists (snd (fst e)). split; [exact H2|]. apply filter_In. rewrite Nat.eqb_refl, H3. auto.
    Qed.
    Lemma edges_nodup : NoDup (r_edges r).
    Proof. unfold dkeys in Hkeys. exact (NoDup_map_inv _ _ Hkeys). Qed.
    Lemma hits_nodup fmt ports : NoDup ports -> NoDup (hits fmt ports).
    Proof.
      intros Hn. unfold hits. induction Hn as [|q ports Hq Hp IH]; [constructor|]. cbn [flat_map].
      apply NoDup_app_intro; [apply NoDup_filter, edges_nodup | exact IH|].
      intros e H1 H2. apply filter_In in H1 as [_ H1]. apply andb_true_iff in H1 as [H1 _]. apply Nat.eqb_eq in H1.
      apply in_flat_map in H2 as (q' & Hq' & H2). apply filter_In in H2 as [_ H2]. apply andb_true_iff in H2 as [H2 _].
      apply Nat.eqb_eq in H2. rewrite H1 in H2. subst q'. exact (Hq Hq').
    Qed.

    (* the edges of the rewritten graph at which uses meet *)
    Definition at_use (fmt : list (L * nat)) (ports : list nat) (k : nat) (i : nat) : Prop :=
      exists p es, nth_error ids i = Some p /\ length es = k /\ NoDup es
        /\ forall e, In e es -> fst (fst e) = p /\ In e (r_edges r) /\ In (snd (fst e)) ports /\ hit fmt e = true.
    Lemma hits_of_uses fmt ports k is : NoDup is -> (forall i, In i is -> at_use fmt ports k i) ->
      k * length is <= length (hits fmt ports).
    Proof.
      intros Hn Ha.
      assert (exists es, NoDup es /\ length es = k * length is /\ forall e, In e es ->
        (exists i p, In i is /\ nth_error ids i = Some p /\ fst (fst e) = p) /\ In e (r_edges r) /\ In (snd (fst e)) ports /\ hit fmt e = true)
        as (es & E1 & E2 & E3).
      { induction Hn as [|i is Hi Hn IH].
        - exists []. split; [constructor|]. split; [cbn; lia | intros e []].
        - destruct IH as (es & N1 & N2 & N3); [intros z Hz; apply Ha; right; exact Hz|].
          destruct (Ha i (or_introl eq_refl)) as (p & es' & Hp & Hl & Hn' & He). exists (es' ++ es). split; [|split].
          + apply NoDup_app_intro; [exact Hn' | exact N1|]. intros e H1 H2. destruct (He e H1) as (S1 & _).
            destruct (N3 e H2) as ((i' & p' & Hi' & Hp' & S2) & _). rewrite S1 in S2. subst p'.
            rewrite (sorted_nth _ _ _ _ (re_sorted _ _ _ _ _ Rr) Hp Hp') in Hi. exact (Hi Hi').
          + rewrite app_length, Hl, N2. cbn [length]. lia.
          + intros e Hi'. apply in_app_iff in Hi' as [Hi'|Hi'].
            * destruct (He e Hi') as (S1 & S2 & S3 & S4). split; [exists i, p; cbn; auto | auto].
            * destruct (N3 e Hi') as ((i' & p' & H1 & H2 & H3) & H4). split; [exists i', p'; cbn; auto | exact H4]. }
      rewrite <- E2. apply hits_at_least; [exact E1|]. intros e He. apply E3, He.
    Qed.
    (* two uses that meet give one edge per port, on each side *)
    Lemma use_edges ports fmt (prs : list (nat * nat)) i j x y p q : NoDup prs -> i <> j ->
      nth_error log i = Some x -> nth_error log j = Some y -> nth_error ids i = Some p -> nth_error ids j = Some q ->
      (forall a b, In (a, b) prs -> meet (e_use x) (e_use y) a b /\ In (label_of x, a) fmt) ->
      incl (all_ports p q) ports -> at_use fmt ports (length prs) i.
    Proof.
      intros Hn Hij Hx Hy Hp Hq Hm Hi.
      assert (p <> q) as Hpq by (intros <-; exact (Hij (sorted_nth _ _ _ _ (re_sorted _ _ _ _ _ Rr) Hp Hq))).
      destruct (forall2_exists (fun (ab : nat * nat) (e : (nat * nat) * nat) => fst (fst e) = p /\ In e (r_edges r) /\ In (snd (fst e)) ports
                  /\ hit fmt e = true /\ snd e = fst ab /\ In ((q, snd (fst e)), snd ab) (r_edges r)) prs) as [es F].
      { intros [a b] Hab. destruct (Hm a b Hab) as [Hmt Hfm].
        apply (meet_ports row_name node_name g rows log ids r Hread R i j x y p q Hx Hy Hp Hq Hij) in Hmt as (t & H1 & H2).
        exists ((p, t), a). cbn [fst snd]. split; [reflexivity|]. split; [exact H1|]. split; [|split; [|split; [reflexivity | exact H2]]].
        - apply Hi. apply (all_ports_In port_order port_order_perm row_name node_name g rows log ids r R Hkeys p q Hpq). eauto.
        - unfold hit. cbn [fst snd]. rewrite (node_ok row_name node_name g rows log ids r R i x p Hx Hp). apply mem_In, Hfm. }
      exists p, es. split; [exact Hp|]. split; [|split].
      - clear -F. induction F; cbn [length]; congruence.
      - refine (forall2_nodup _ _ _ F Hn _). intros [a b] [a' b'] e _ _ (A1 & A2 & _ & _ & A3 & A4) (_ & _ & _ & _ & B3 & B4).
        cbn [fst snd] in *. f_equal; [congruence|].
        pose proof (In_dget _ _ _ Hkeys A4) as D1. pose proof (In_dget _ _ _ Hkeys B4) as D2. congruence.
      - intros e He. destruct (forall2_in_r _ _ _ F e He) as (ab & _ & S1 & S2 & S3 & S4 & _). auto.
    Qed.

    Lemma data_edges c : In c cs -> forall q, In q (j_data c) -> exists p v, In ((p, q), v) (r_edges r).
    Proof.
      intros Hc q Hq. destruct (collect_sound cs Hcs c Hc) as (_ & _ & A). destruct (A q Hq) as (p & p' & c0 & Hl & _ & _ & Hi).
      destruct (looked_at_uses pair_order pair_order_In row_name node_name g rows log ids r Hread R Hkeys p p' Hl)
        as (i & j & x & y & Hx & Hy & Hp & Hq' & Hij & _).
      assert (p <> p') as Hpq by (intros <-; exact (Hij (sorted_nth _ _ _ _ (re_sorted _ _ _ _ _ Rr) Hp Hq'))).
      apply (all_ports_In port_order port_order_perm row_name node_name g rows log ids r R Hkeys p p' Hpq) in Hi as (a & b & Ha & _). eauto.
    Qed.

    Notation fmt1 c := (map (fun p => (first_label (j_cand c), fst p)) (port (j_cand c))).
    Notation fmt2 c := (map (fun p => (second_label (j_cand c), snd p)) (port (j_cand c))).
    Lemma fmts_ok c : In c cs -> exists u1 u2,
      pattern_usage r (fmt1 c) (j_data c) = Ret u1 /\ pattern_usage r (fmt2 c) (j_data c) = Ret u2
      /\ (u1 * inject_Z (Z.of_nat (length (port (j_cand c)))) == inject_Z (Z.of_nat (length (hits (fmt1 c) (j_data c)))))%Q
      /\ (u2 * inject_Z (Z.of_nat (length (port (j_cand c)))) == inject_Z (Z.of_nat (length (hits (fmt2 c) (j_data c)))))%Q.
    Proof.
      intros Hc. pose proof (ports_some c Hc) as Hne.
      destruct (pattern_usage_ok (fmt1 c) (j_data c)) as (u1 & E1 & F1).
      { intros E. apply Hne. destruct (port (j_cand c)); [reflexivity | discriminate]. }
      { exact (data_edges c Hc). }
      destruct (pattern_usage_ok (fmt2 c) (j_data c)) as (u2 & E2 & F2).
      { intros E. apply Hne. destruct (port (j_cand c)); [reflexivity | discriminate]. }
      { exact (data_edges c Hc). }
      rewrite map_length in F1, F2. exists u1, u2. auto.
    Qed.
    Lemma side_bound (u : Q) k n h : 0 < k -> (u * inject_Z (Z.of_nat k) == inject_Z (Z.of_nat h))%Q -> k * n <= h -> (inject_Z (Z.of_nat n) <= u)%Q.
    Proof.
      intros Hk E Hn. apply Qmult_lt_0_le_reg_r with (inject_Z (Z.of_nat k)).
      - unfold Qlt; cbn; lia.
      - rewrite E. rewrite <- inject_Z_mult, <- Zle_Qle. lia.
    Qed.
    Lemma side_bound_above (u : Q) k n h : 0 < k -> (u * inject_Z (Z.of_nat k) == inject_Z (Z.of_nat h))%Q -> h <= k * n -> (u <= inject_Z (Z.of_nat n))%Q.
    Proof.
      intros Hk E Hn. apply Qmult_lt_0_le_reg_r with (inject_Z (Z.of_nat k)).
      - unfold Qlt; cbn; lia.
      - rewrite E. rewrite <- inject_Z_mult, <- Zle_Qle. lia.
    Qed.

    (* ---- bounds from above *)
    Lemma filter_positions {A} (P : A -> bool) (l : list A) :
      length (filter P l) = length (filter (fun i => match nth_error l i with Some z => P z | None => false end) (seq 0 (length l))).
    Proof.
      induction l as [|a l IH]; [reflexivity|]. cbn [length]. rewrite <- cons_seq. cbn [filter nth_error].
      assert (length (filter P l) = length (filter (fun i => match nth_error (a :: l) i with Some z => P z | None => false end) (seq 1 (length l)))) as E.
      { rewrite IH, <- seq_shift. clear. induction (seq 0 (length l)) as [|i is IHi]; [reflexivity|]. cbn [map filter nth_error].
        destruct (nth_error l i) as [z|]; [destruct (P z)|]; cbn [length]; rewrite IHi; reflexivity. }
      destruct (P a); cbn [length]; rewrite E; reflexivity.
    Qed.
    Definition positions (l : L) : list nat :=
      filter (fun i => match nth_error log i with Some x => eqd (named row_name x) l | None => false end) (seq 0 (length log)).
    Lemma positions_In l i : In i (positions l) <-> exists x, nth_error log i = Some x /\ named row_name x = l.
    Proof.
      unfold positions. rewrite filter_In, in_seq. split.
      - intros [_ Hi]. destruct (nth_error log i) as [x|]; [|discriminate]. exists x. split; [reflexivity|]. apply (proj1 (eqd_true _ _)), Hi.
      - intros (x & E & Hx). rewrite E. split; [|apply eqd_true, Hx]. split; [lia|]. cbn [Nat.add].
        apply nth_error_Some. rewrite E. discriminate.
    Qed.
    Lemma positions_count l : length (positions l) = uses_named row_name log l.
    Proof. unfold positions, uses_named. symmetry. apply (filter_positions (fun x => eqd (named row_name x) l)). Qed.
    Lemma hits_above l (as_ : list nat) ports : NoDup ports ->
      length (hits (map (fun a => (l, a)) as_) ports) <= length as_ * uses_named row_name log l.
    Proof.
      intros Hn. set (fmt := map (fun a => (l, a)) as_).
      destruct (forall2_exists (fun (e : (nat * nat) * nat) (ia : nat * nat) =>
          nth_error ids (fst ia) = Some (fst (fst e)) /\ In (fst ia) (positions l) /\ snd ia = snd e /\ In (snd e) as_ /\ In e (r_edges r))
          (hits fmt ports)) as [ias F].
      { intros [[p q] v] He. unfold hits in He. apply in_flat_map in He as (q' & _ & He). apply filter_In in He as [He Hh].
        apply andb_true_iff in Hh as [_ Hh].
        pose proof (proj1 (re_edge _ _ _ _ _ Rr _ _ _) He) as (i & x & n & Hx & Hp & _).
        exists (i, v). cbn [fst snd]. split; [exact Hp|]. unfold hit in Hh. cbn [fst snd] in Hh.
        rewrite (node_ok row_name node_name g rows log ids r R i x p Hx Hp) in Hh. apply mem_In in Hh. unfold fmt in Hh.
        apply in_map_iff in Hh as (a & E & Ha). injection E as -> ->.
        split; [apply positions_In; exists x; split; [exact Hx | apply named_label]|]. auto. }
      assert (length ias = length (hits fmt ports)) as El by (clear -F; induction F; cbn [length]; congruence).
      rewrite <- El, <- positions_count, Nat.mul_comm, <- prod_length. apply NoDup_incl_length.
      - refine (forall2_nodup _ _ _ F (hits_nodup fmt ports Hn) _).
        intros [[p q] v] [[p' q'] v'] [i a] _ _ (A1 & A2 & A3 & _ & A4) (B1 & _ & B3 & _ & B4). cbn [fst snd] in *. subst v v'.
        rewrite A1 in B1. injection B1 as <-. f_equal. f_equal.
        apply positions_In in A2 as (x & Hx & _). pose proof (nth_error_In _ _ Hx) as Ix.
        apply (edge_fact row_name node_name g rows log ids r R i x p q a Hx A1) in A4 as (n & N1 & T1).
        apply (edge_fact row_name node_name g rows log ids r R i x p q' a Hx A1) in B4 as (n' & N2 & T2).
        apply (ru_ports _ _ _ _ _ _ _ R x Ix) in N1. apply (ru_ports _ _ _ _ _ _ _ R x Ix) in N2.
        destruct (ru_keys _ _ _ _ _ _ _ R x Ix) as [_ Hk]. rewrite (same_fst _ _ _ _ Hk N1 N2) in T1.
        exact (re_once _ _ _ _ _ Rr _ _ _ T1 T2).
      - intros [i a] Hi. destruct (forall2_in_r _ _ _ F _ Hi) as (e & _ & _ & A2 & A3 & A4 & _). cbn [fst snd] in *.
        apply in_prod; [exact A2 | rewrite A3; exact A4].
    Qed.

    (* ---- the nodes that carry a name *)
    Lemma nodes_named_above l : (exists x, In x log /\ named row_name x = l) -> nodes_named r l <= uses_named row_name log l.
    Proof.
      intros (x0 & Ix0 & E0). unfold nodes_named. rewrite (filter_positions (fun z => eqd (r_label z) l)), <- positions_count.
      set (js := filter _ _).
      destruct (forall2_exists (fun j i => nth_error ids i = Some (S j) /\ In i (positions l)) js) as [is F].
      { intros j Hj. unfold js in Hj. apply filter_In in Hj as [_ Hj]. destruct (nth_error (r_nodes r) j) as [z|] eqn:Ez; [|discriminate].
        apply (proj1 (eqd_true _ _)) in Hj.
        destruct (re_node _ _ _ _ _ Rr (S j) z Ez) as [Hi|(n & x & Hz & Ix & _)].
        - apply In_nth_error in Hi as [i Hi]. exists i. split; [exact Hi|]. apply positions_In.
          destruct (nth_both ids log i (S j) (re_length _ _ _ _ _ Rr) Hi) as [x Hx]. exists x. split; [exact Hx|].
          pose proof (re_use _ _ _ _ _ Rr i x (S j) Hx Hi) as Eu. unfold node_at in Eu. rewrite Ez in Eu. injection Eu as ->.
          rewrite named_label. exact Hj.
        - exfalso. subst z. cbn [port_node r_label] in Hj. rewrite <- E0 in Hj. rewrite named_label in Hj.
          pose proof (ru_from _ _ _ _ _ _ _ R x0 Ix0) as Fx. unfold use_node in Hj. destruct (e_use x0) as [pt e|u v l'|m l']; cbn [r_label] in Hj.
          + exact (rd_row_node _ _ _ Hread _ _ (eq_sym Hj)).
          + exact (rd_edge _ _ _ Hread _ _ _ _ Fx (eq_sym Hj)).
          + exact (rd_vertex _ _ _ Hread _ _ _ Fx (eq_sym Hj)). }
      assert (length is = length js) as El by (clear -F; induction F; cbn [length]; congruence).
      rewrite <- El. apply NoDup_incl_length.
      - refine (forall2_nodup _ _ _ F _ _); [apply NoDup_filter, seq_NoDup|]. intros a a' b _ _ [A _] [B _]. congruence.
      - intros i Hi. destruct (forall2_in_r _ _ _ F _ Hi) as (j & _ & _ & A). exact A.
    Qed.
    Lemma nodes_named_below l is : NoDup is -> incl is (positions l) -> length is <= nodes_named r l.
    Proof.
      intros Hn Hi. unfold nodes_named. rewrite (filter_positions (fun z => eqd (r_label z) l)). set (js := filter _ _).
      destruct (forall2_exists (fun i j => nth_error ids i = Some (S j) /\ In j js) is) as [ks F].
      { intros i Ii. apply Hi, positions_In in Ii as (x & Hx & E).
        destruct (nth_both log ids i x (eq_sym (re_length _ _ _ _ _ Rr)) Hx) as [p Hp].
        pose proof (re_use _ _ _ _ _ Rr i x p Hx Hp) as Eu. unfold node_at in Eu. destruct p as [|j]; [discriminate|].
        exists j. split; [exact Hp|]. unfold js. apply filter_In. split.
        - apply in_seq. split; [lia|]. cbn [Nat.add]. apply nth_error_Some. rewrite Eu. discriminate.
        - rewrite Eu. apply eqd_true. rewrite <- named_label. exact E. }
      assert (length ks = length is) as El by (clear -F; induction F; cbn [length]; congruence).
      rewrite <- El. apply NoDup_incl_length.
      - refine (forall2_nodup _ _ _ F Hn _). intros i i' j _ _ [A _] [B _].
        exact (sorted_nth _ _ _ _ (re_sorted _ _ _ _ _ Rr) A B).
      - intros j Hj. destruct (forall2_in_r _ _ _ F _ Hj) as (i & _ & _ & A). exact A.
    Qed.

    (* ---- the estimate *)
    Notation nets := (map (fun w : row L => net_of (r_pattern w)) rows).
    Notation enames := (edge_names_of log).
    Notation vnames := (vertex_names_of log).
    Notation usage_of := (candidate_usage multi nets enames vnames r).
    Notation sided := (side_pattern multi nets enames vnames).
    Definition fair (c : candidate L nat) (u : Q) : Prop :=
      (forall ps, disjoint_meetings row_name log c ps -> first_label c <> second_label c \/ reversible c ->
         (inject_Z (Z.of_nat (length ps)) <= u)%Q)
      /\ ((u <= inject_Z (Z.of_nat (uses_named row_name log (first_label c))))%Q
          \/ (u <= inject_Z (Z.of_nat (uses_named row_name log (second_label c))))%Q).

    Lemma hits_of_meetings c ps : In c cs -> disjoint_meetings row_name log (j_cand c) ps ->
      first_label (j_cand c) <> second_label (j_cand c) \/ reversible (j_cand c) ->
      length (port (j_cand c)) * length ps <= length (hits (fmt1 c) (j_data c))
      /\ length (port (j_cand c)) * length ps <= length (hits (fmt2 c) (j_data c))
      /\ (first_label (j_cand c) = second_label (j_cand c) -> reversible (j_cand c) ->
          length (port (j_cand c)) * (length ps + length ps) <= length (hits (fmt1 c) (j_data c))).
    Proof.
      intros Hc [Hn Hm] Hor.
      assert (forall i j, In (i, j) ps -> i <> j) as Hij.
      { intros i j Hi <-. apply NoDup_app_elim in Hn as (_ & _ & Hd). apply (Hd i); [apply (in_map fst _ _ Hi) | apply (in_map snd _ _ Hi)]. }
      pose proof (cand_nodup c Hc) as Np.
      assert (NoDup (map (fun ab => (snd ab, fst ab)) (port (j_cand c)))) as Np'.
      { apply nodup_map_inj; [exact Np|]. intros [a b] [a' b'] _ _ E. cbn in E. congruence. }
      assert (forall i j, In (i, j) ps -> exists x y p q, nth_error log i = Some x /\ nth_error log j = Some y
        /\ nth_error ids i = Some p /\ nth_error ids j = Some q /\ meets_as row_name (j_cand c) x y
        /\ incl (all_ports p q) (j_data c) /\ incl (all_ports q p) (j_data c)) as Look.
      { intros i j Hi. destruct (Hm i j Hi) as (x & y & Hx & Hy & Hxy).
        destruct (nth_both log ids i x (eq_sym (re_length _ _ _ _ _ Rr)) Hx) as [p Hp].
        destruct (nth_both log ids j y (eq_sym (re_length _ _ _ _ _ Rr)) Hy) as [q Hq].
        assert (p <> q) as Hpq by (intros <-; exact (Hij i j Hi (sorted_nth _ _ _ _ (re_sorted _ _ _ _ _ Rr) Hp Hq))).
        exists x, y, p, q. repeat (split; [assumption|]).
        assert (incl (all_ports p q) (j_data c)) as Hin
          by (exact (located c i j x y p q Hc Hx Hy (Hij i j Hi) Hp Hq Hor Hxy (ports_some c Hc))).
        split; [exact Hin|]. intros t Ht. apply Hin.
        apply (all_ports_In port_order port_order_perm row_name node_name g rows log ids r R Hkeys p q Hpq).
        apply (all_ports_In port_order port_order_perm row_name node_name g rows log ids r R Hkeys q p (not_eq_sym Hpq)) in Ht as (a & b & Ha & Hb). eauto. }
      assert (forall i j, In (i, j) ps -> at_use (fmt1 c) (j_data c) (length (port (j_cand c))) i) as A1.
      { intros i j Hi. destruct (Look i j Hi) as (x & y & p & q & Hx & Hy & Hp & Hq & (M1 & M2 & M3) & Hin & _).
        refine (use_edges _ _ _ i j x y p q Np (Hij i j Hi) Hx Hy Hp Hq _ Hin). intros a b Hab. split; [apply M3, Hab|].
        rewrite named_label in M1. rewrite <- M1. apply in_map_iff. exists (a, b). auto. }
      assert (forall i j, In (i, j) ps -> at_use (fmt2 c) (j_data c) (length (port (j_cand c))) j) as A2.
      { intros i j Hi. destruct (Look i j Hi) as (x & y & p & q & Hx & Hy & Hp & Hq & (M1 & M2 & M3) & _ & Hin).
        rewrite <- (map_length (fun ab => (snd ab, fst ab))).
        refine (use_edges _ _ _ j i y x q p Np' (not_eq_sym (Hij i j Hi)) Hy Hx Hq Hp _ Hin). intros a b Hab.
        apply in_map_iff in Hab as ([a' b'] & E & Hab). cbn in E. injection E as <- <-.
        split; [apply M3 in Hab as (n & H1 & H2); exists n; auto|].
        rewrite named_label in M2. rewrite <- M2. apply in_map_iff. exists (a', b'). auto. }
      assert (NoDup (map fst ps)) as N1 by (apply NoDup_app_elim in Hn; apply Hn).
      assert (NoDup (map snd ps)) as N2 by (apply NoDup_app_elim in Hn; apply Hn).
      split; [|split].
      - rewrite <- (map_length fst ps). apply hits_of_uses; [exact N1|]. intros i Hi. apply in_map_iff in Hi as ([i' j] & <- & Hi). exact (A1 i' j Hi).
      - rewrite <- (map_length snd ps). apply hits_of_uses; [exact N2|]. intros j Hj. apply in_map_iff in Hj as ([i j'] & <- & Hj). exact (A2 i j' Hj).
      - intros El Hrev. rewrite <- (map_length fst ps) at 1. rewrite <- (map_length snd ps), <- app_length. apply hits_of_uses; [exact Hn|].
        intros i Hi. apply in_app_iff in Hi as [Hi|Hi]; apply in_map_iff in Hi as ([i' j'] & <- & Hi); [exact (A1 i' j' Hi)|].
        cbn [snd]. destruct (A2 i' j' Hi) as (p & es & E1 & E2 & E3 & E4). exists p, es. repeat (split; [assumption|]).
        intros e He. destruct (E4 e He) as (S1 & S2 & S3 & S4). repeat (split; [assumption|]).
        unfold hit in *. destruct (node r (fst (fst e))); [|discriminate|discriminate]. apply mem_In. apply mem_In in S4.
        apply in_map_iff in S4 as ([a b] & E & Hab). apply in_map_iff. exists (b, a). split; [|apply Hrev, Hab].
        cbn [fst snd] in *. rewrite El. exact E.
    Qed.

    Definition edged_fair (c : joined L) (u : Q) : Prop :=
      (forall p, sided (j_first c) = Ret p -> n_edges p <> [] -> (u <= inject_Z (Z.of_nat (uses_named row_name log (first_label (j_cand c)))))%Q)
      /\ (forall p, sided (j_second c) = Ret p -> n_edges p <> [] -> (u <= inject_Z (Z.of_nat (uses_named row_name log (second_label (j_cand c)))))%Q).
    Lemma single_edge x l p : In x log -> side_of x = SingleSide l -> sided (side_of x) = Ret p -> n_edges p <> [] ->
      ct_edge enames (label_of x) = true.
    Proof.
      intros Ix Es Ep Hp. rewrite (side_ok row_index multi row_name node_name g rows log ids r Hjoin R x Ix) in Ep.
      injection Ep as <-. unfold side_of in Es. unfold use_node; destruct (e_use x) as [p e|u v l'|n l'] eqn:Ex; [discriminate| |exfalso; apply Hp; reflexivity].
      unfold ct_edge. apply mem_In. unfold edge_names_of. apply in_flat_map. exists x. rewrite Ex. split; [exact Ix | left; reflexivity].
    Qed.
    Lemma qmin_below (x y z : Q) : (x <= z)%Q \/ (y <= z)%Q -> (qmin x y <= z)%Q.
    Proof.
      unfold qmin. destruct (Qle_bool x y) eqn:E.
      - apply Qle_bool_iff in E. intros [Hz|Hz]; [exact Hz | exact (Qle_trans _ _ _ E Hz)].
      - assert (y <= x)%Q as E'.
        { destruct (Qlt_le_dec x y) as [Hl|Hl]; [|exact Hl]. apply Qlt_le_weak, Qle_bool_iff in Hl. congruence. }
        intros [Hz|Hz]; [exact (Qle_trans _ _ _ E' Hz) | exact Hz].
    Qed.
    Lemma usage_ok c : In c cs -> exists u, usage_of c = Ret u /\ fair (j_cand c) u /\ edged_fair c u.
    Proof.
      intros Hc. pose proof Hc as Hcc. unfold candidate_usage. destruct (fmts_ok c Hc) as (u1 & u2 & E1 & E2 & F1 & F2).
      rewrite E1. cbn [bind]. rewrite E2. cbn [bind]. rewrite C59_own_inverse. cbn [fst]. rewrite andb_true_r.
      assert (0 < length (port (j_cand c))) as Hk by (pose proof (ports_some c Hc); destruct (port (j_cand c)); [congruence | cbn; lia]).
      assert (exists x y, In x log /\ In y log /\ first_label (j_cand c) = label_of x /\ second_label (j_cand c) = label_of y
              /\ j_first c = side_of x /\ j_second c = side_of y) as (x0 & y0 & Ix & Iy & Lx & Ly & Sx & Sy).
      { destruct (proj1 collected c Hc) as (i & j & x & y & Hx & Hy & _ & _ & O1 & O2 & O3 & O4 & _).
        exists x, y. split; [eapply nth_error_In; eassumption|]. split; [eapply nth_error_In; eassumption|]. auto. }
      assert (forall ps, disjoint_meetings row_name log (j_cand c) ps -> first_label (j_cand c) <> second_label (j_cand c) \/ reversible (j_cand c) ->
        (inject_Z (Z.of_nat (length ps)) <= u1)%Q /\ (inject_Z (Z.of_nat (length ps)) <= u2)%Q
        /\ (inject_Z (Z.of_nat (length ps)) <= inject_Z (Z.of_nat (nodes_named r (first_label (j_cand c)))))%Q) as Low.
      { intros ps Hps Hor. destruct (hits_of_meetings c ps Hc Hps Hor) as (B1 & B2 & _).
        split; [exact (side_bound _ _ _ _ Hk F1 B1)|]. split; [exact (side_bound _ _ _ _ Hk F2 B2)|].
        rewrite <- Zle_Qle. apply inj_le. rewrite <- (map_length fst ps). apply nodes_named_below.
        - destruct Hps as [Hn _]. apply NoDup_app_elim in Hn. apply Hn.
        - intros i Hi. apply in_map_iff in Hi as ([i' j] & <- & Hi). destruct Hps as [_ Hm]. destruct (Hm i' j Hi) as (x & y & Hx & _ & M1 & _).
          apply positions_In. exists x. auto. }
      pose proof (proj1 (proj2 (collect_sound cs Hcs c Hc))) as Nd.
      assert (u1 <= inject_Z (Z.of_nat (uses_named row_name log (first_label (j_cand c)))))%Q as U1.
      { refine (side_bound_above _ _ _ _ Hk F1 _).
        rewrite <- (map_map fst (fun a => (first_label (j_cand c), a))).
        rewrite <- (map_length fst (port (j_cand c))). apply hits_above, Nd. }
      assert (u2 <= inject_Z (Z.of_nat (uses_named row_name log (second_label (j_cand c)))))%Q as U2.
      { refine (side_bound_above _ _ _ _ Hk F2 _).
        rewrite <- (map_map snd (fun a => (second_label (j_cand c), a))).
        rewrite <- (map_length snd (port (j_cand c))). apply hits_above, Nd. }
      assert (fair (j_cand c) u1) as G1 by (split; [intros ps A B; apply (Low ps A B) | left; exact U1]).
      assert (fair (j_cand c) u2) as G2 by (split; [intros ps A B; apply (Low ps A B) | right; exact U2]).
      assert (fair (j_cand c) (qmin u1 u2)) as G3.
      { unfold qmin. destruct (Qle_bool u1 u2); assumption. }
      assert (fair (j_cand c) (inject_Z (Z.of_nat (nodes_named r (first_label (j_cand c)))))) as G4.
      { split; [intros ps A B; apply (Low ps A B)|]. left. rewrite <- Zle_Qle. apply inj_le. apply nodes_named_above.
        exists x0. split; [exact Ix|]. rewrite named_label. symmetry. exact Lx. }
      destruct (eqd (first_label (j_cand c)) (second_label (j_cand c))) eqn:El.
      - apply (proj1 (eqd_true _ _)) in El.
        assert (inject_Z (Qfloor (u1 / 2)) <= inject_Z (Z.of_nat (uses_named row_name log (first_label (j_cand c)))))%Q as Half.
        { refine (Qle_trans _ _ _ (Qfloor_le _) _). refine (Qle_trans _ u1 _ _ U1).
          apply Qle_shift_div_r; [reflexivity|].
          assert (0 <= u1)%Q as Hpos.
          { apply Qmult_lt_0_le_reg_r with (inject_Z (Z.of_nat (length (port (j_cand c))))).
            - unfold Qlt; cbn; lia.
            - rewrite F1, Qmult_0_l. change 0%Q with (inject_Z 0). rewrite <- Zle_Qle. lia. }
          rewrite <- (Qmult_1_r u1) at 1. rewrite (Qmult_comm u1 1), (Qmult_comm u1 2).
          apply Qmult_le_compat_r; [discriminate | exact Hpos]. }
        eexists. split; [reflexivity|]. split; [split | split; intros p _ _; [exact Half | rewrite <- El; exact Half]].
        + intros ps Hps Hor. assert (reversible (j_cand c)) as Hrev by (destruct Hor; [contradiction | assumption]).
          destruct (hits_of_meetings c ps Hc Hps Hor) as (_ & _ & B3). specialize (B3 El Hrev).
          pose proof (side_bound _ _ _ _ Hk F1 B3) as B. rewrite <- Zle_Qle.
          rewrite <- (Qfloor_Z (Z.of_nat (length ps))). apply Qfloor_resp_le.
          apply Qle_shift_div_l; [reflexivity|]. refine (Qle_trans _ _ _ _ B).
          change 2%Q with (inject_Z 2). rewrite <- inject_Z_mult, <- Zle_Qle. lia.
        + left. exact Half.
      - pose proof (side_ok row_index multi row_name node_name g rows log ids r Hjoin R x0 Ix) as P1.
        pose proof (side_ok row_index multi row_name node_name g rows log ids r Hjoin R y0 Iy) as P2.
        pose proof (fun l p => single_edge x0 l p Ix) as T1. pose proof (fun l p => single_edge y0 l p Iy) as T2.
        rewrite <- Sx in P1, T1. rewrite <- Sy in P2, T2. rewrite <- Lx in T1. rewrite <- Ly in T2.
        destruct (collect_sound cs Hcs c Hc) as ((Ah & Early) & _).
        assert (exists o1, made multi nets enames vnames false (j_first c) = Ret o1 /\ (o1 = None -> exists l, j_first c = SingleSide l)
          /\ (forall p, o1 = Some p -> sided (j_first c) = Ret p)) as (o1 & M1 & N1 & V1).
        { unfold made. destruct (j_first c) as [i|l]; [rewrite P1; eexists; split; [reflexivity|]; split; [discriminate | intros p E; injection E as <-; reflexivity]|].
          eexists. split; [reflexivity|]. split; [eauto | discriminate]. }
        assert (exists o2, made multi nets enames vnames (j_early c) (j_second c) = Ret o2
          /\ (o2 <> None -> (exists i, j_second c = RowSide i) \/ j_early c = true)
          /\ (o2 = None -> exists l, j_second c = SingleSide l)
          /\ (forall p, o2 = Some p -> sided (j_second c) = Ret p)) as (o2 & M2 & N2 & W2 & V2).
        { unfold made. destruct (j_second c) as [i|l]; [rewrite P2; eexists; split; [reflexivity|]; split; [left; eauto|]; split; [discriminate | intros p E; injection E as <-; reflexivity]|].
          destruct (j_early c).
          - rewrite P2. eexists. split; [reflexivity|]. split; [auto|]. split; [discriminate | intros p E; injection E as <-; reflexivity].
          - eexists. split; [reflexivity|]. split; [congruence|]. split; [eauto | discriminate]. }
        assert (forall u, (forall p, sided (j_first c) = Ret p -> n_edges p <> [] -> u = u1 \/ u = qmin u1 u2) ->
          (forall p, sided (j_second c) = Ret p -> n_edges p <> [] -> u = u2 \/ u = qmin u1 u2) -> edged_fair c u) as EF.
        { intros u A B. split; intros p Hp Hn.
          - destruct (A p Hp Hn) as [->| ->]; [exact U1 | apply qmin_below; left; exact U1].
          - destruct (B p Hp Hn) as [->| ->]; [exact U2 | apply qmin_below; right; exact U2]. }
        assert (forall p : net L, without_edge p = true -> n_edges p <> [] -> False) as WE
          by (intros p; unfold without_edge; destruct (n_edges p); intros; [contradiction | discriminate]).
        rewrite M1. cbn [bind]. rewrite M2. cbn [bind]. destruct o1 as [p1|], o2 as [p2|].
        + specialize (V1 p1 eq_refl). specialize (V2 p2 eq_refl). eexists. split; [reflexivity|].
          destruct (without_edge p1) eqn:Q1, (without_edge p2) eqn:Q2; cbn [andb negb];
            (split; [assumption|]); apply EF; intros p Hp Hn; try rewrite V1 in Hp; try rewrite V2 in Hp; injection Hp as <-;
            try (exfalso; exact (WE _ Q1 Hn)); try (exfalso; exact (WE _ Q2 Hn)); auto.
        + specialize (V1 p1 eq_refl). destruct (W2 eq_refl) as [l El2]. eexists. split; [reflexivity|].
          destruct (ct_edge enames (second_label (j_cand c))) eqn:Q2; [destruct (without_edge p1) eqn:Q1|];
            (split; [assumption|]); apply EF; intros p Hp Hn; try (rewrite V1 in Hp; injection Hp as <-; exfalso; exact (WE _ Q1 Hn));
            try (pose proof (T2 l p El2 Hp Hn); congruence); auto.
        + exfalso. destruct (N1 eq_refl) as [l El1]. destruct N2 as [(i & Es)|Es]; [discriminate| |].
          * rewrite El1, Es in Ah. cbn [ahead] in Ah. destruct Ah; discriminate.
          * destruct (Early Es) as [i Ei]. congruence.
        + destruct (N1 eq_refl) as [l1 El1]. destruct (W2 eq_refl) as [l2 El2]. eexists. split; [reflexivity|].
          destruct (ct_edge enames (first_label (j_cand c))) eqn:Q1, (ct_edge enames (second_label (j_cand c))) eqn:Q2; cbn [andb negb];
            (split; [assumption|]); apply EF; intros p Hp Hn; try (pose proof (T1 l1 p El1 Hp Hn); congruence);
            try (pose proof (T2 l2 p El2 Hp Hn); congruence); auto.
    Qed.

    (* ---- the exclusive ports *)
    Lemma orient_meets c x y : orient c x y -> meets_as row_name (j_cand c) x y.
    Proof. intros (O1 & O2 & _ & _ & O5 & _). split; [rewrite named_label; exact O1|]. split; [rewrite named_label; exact O2 | exact O5]. Qed.
    Lemma touches_meet (x y : entry L) n : touches x n -> touches y n -> exists a b, In (n, a) (use_nodes (e_use x)) /\ In (n, b) (use_nodes (e_use y)).
    Proof.
      unfold touches. intros Hx Hy. apply in_map_iff in Hx as ([n1 a] & E1 & Hx). apply in_map_iff in Hy as ([n2 b] & E2 & Hy).
      cbn in E1, E2. subst. eauto.
    Qed.
    Lemma recorded_at d t : In d cs -> In t (j_data d) -> exists i j x y n, nth_error log i = Some x /\ nth_error log j = Some y /\ i <> j
      /\ node_at r t = Some (port_node node_name n) /\ touches x n /\ touches y n /\ (orient d x y \/ orient d y x).
    Proof.
      intros Hd Ht. destruct (collect_sound cs Hcs d Hd) as (_ & _ & A). destruct (A t Ht) as (p & q & c0 & Hl & Ej & He & Hi).
      destruct (looked_at_uses pair_order pair_order_In row_name node_name g rows log ids r Hread R Hkeys p q Hl)
        as (i & j & x & y & Hx & Hy & Hp & Hq & Hij & _).
      assert (p <> q) as Hpq by (intros <-; exact (Hij (sorted_nth _ _ _ _ (re_sorted _ _ _ _ _ Rr) Hp Hq))).
      apply (all_ports_In port_order port_order_perm row_name node_name g rows log ids r R Hkeys p q Hpq) in Hi as (a & b & Ha & Hb).
      apply (edge_fact row_name node_name g rows log ids r R i x p t a Hx Hp) in Ha as (n & N1 & T1).
      apply (edge_fact row_name node_name g rows log ids r R j y q t b Hy Hq) in Hb as (n' & N2 & T2).
      rewrite T1 in T2. injection T2 as T2. apply (rd_nodes _ _ _ Hread) in T2. subst n'.
      pose proof (nth_error_In _ _ Hx) as Ix. pose proof (nth_error_In _ _ Hy) as Iy.
      exists i, j, x, y, n. repeat (split; [assumption|]).
      split; [exact (in_map fst _ _ (ru_ports _ _ _ _ _ _ _ R x Ix _ N1))|].
      split; [exact (in_map fst _ _ (ru_ports _ _ _ _ _ _ _ R y Iy _ N2))|].
      destruct (join_ok ltb row_index port_order port_order_perm multi row_name node_name g rows log ids r Hread Hjoin R Hkeys i j x y p q Hx Hy Hp Hq Hij)
        as (c' & Ec' & Ho). rewrite Ej in Ec'. injection Ec' as <-.
      destruct (proj1 collected d Hd) as (i' & j' & x' & y' & Hx' & Hy' & _ & _ & Ho').
      assert (exists x' y', In x' log /\ In y' log /\ orient d x' y') as Hex.
      { exists x', y'. split; [eapply nth_error_In; eassumption|]. split; [eapply nth_error_In; eassumption | exact Ho']. }
      destruct Ho as [Ho|Ho]; [left | right];
        refine (oriented_equal row_index multi row_name node_name g rows log ids r Hread Hjoin R c0 d _ _ _ _ Hex Ho He); assumption.
    Qed.
    Lemma recorded_node i j x y n : nth_error log i = Some x -> nth_error log j = Some y -> i <> j -> touches x n -> touches y n ->
      exists d t, In d cs /\ In t (j_data d) /\ node_at r t = Some (port_node node_name n) /\ (orient d x y \/ orient d y x).
    Proof.
      intros Hx Hy Hij Tx Ty. destruct (touches_meet x y n Tx Ty) as (a & b & Ha & Hb).
      destruct (nth_both log ids i x (eq_sym (re_length _ _ _ _ _ Rr)) Hx) as [p Hp].
      destruct (nth_both log ids j y (eq_sym (re_length _ _ _ _ _ Rr)) Hy) as [q Hq].
      destruct (recorded i j x y p q Hx Hy Hij Hp Hq) as (d & Hd & Ho & Hi); [exists a, b, n; auto|].
      destruct (common_port port_order port_order_perm row_name node_name g rows log ids r R Hkeys i j x y p q Hx Hy Hp Hq Hij n a b Ha Hb)
        as (t & T1 & T2).
      exists d, t. split; [exact Hd|]. split; [apply Hi, T1|]. auto.
    Qed.
    Lemma inv_cand c : j_cand (inverted c) = if eqd (first_label (j_cand c)) (second_label (j_cand c)) then inverse (j_cand c) else j_cand c.
    Proof. unfold inverted. cbn [j_cand]. rewrite C59_own_inverse. reflexivity. Qed.
    Lemma inverse_nodup (c : candidate L nat) : NoDup (port c) -> NoDup (port (inverse c)).
    Proof.
      intros Hn. cbn [inverse port]. apply FinFun.Injective_map_NoDup; [|exact Hn]. intros [a b] [a' b'] E. cbn in E. congruence.
    Qed.
    Lemma inverse_port (c : candidate L nat) a b : In (a, b) (port (inverse c)) <-> In (b, a) (port c).
    Proof.
      cbn [inverse port]. rewrite in_map_iff. split; [intros ([x y] & E & Hi); cbn in E; injection E as <- <-; exact Hi | intros Hi; exists (b, a); auto].
    Qed.
    (* [d] is [c], or, for the join of a pattern with itself, [c] read backwards *)
    Definition either_way (c d : joined L) : Prop :=
      d = c \/ (first_label (j_cand c) = second_label (j_cand c) /\ same_way (j_cand d) (inverse (j_cand c))).
    Lemma either_meets c d x y : either_way c d -> orient d x y -> meets_as row_name (j_cand c) x y \/ meets_as row_name (j_cand c) y x.
    Proof.
      intros [->|(El & S1 & S2 & S3)] Ho; [left; apply orient_meets, Ho|]. right. apply orient_meets in Ho. destruct Ho as (M1 & M2 & M3).
      cbn [inverse first_label second_label] in S1, S2. split; [congruence|]. split; [congruence|]. intros a b.
      rewrite <- (inverse_port (j_cand c) b a), <- (S3 (b, a)), M3. unfold meet. split; intros (n & H1 & H2); exists n; auto.
    Qed.
    Lemma exclusive_ok c before after : cs = before ++ c :: after ->
      exists ns, NoDup ns /\ length ns = exclusive_ports (map inverted before ++ inverted c :: after) (inverted c)
        /\ (forall n, In n ns -> only_meeting row_name log (j_cand c) n)
        /\ (first_label (j_cand c) <> second_label (j_cand c) \/ reversible (j_cand c) -> forall n, only_meeting row_name log (j_cand c) n -> In n ns).
    Proof.
      intros Ecs. assert (In c cs) as Hc by (rewrite Ecs; apply in_app_iff; right; left; reflexivity).
      unfold exclusive_ports. change (j_data (inverted c)) with (j_data c).
      set (P := fun q => forallb _ _).
      assert (Nc : NoDup (port (j_cand (inverted c)))).
      { rewrite inv_cand. destruct (eqd _ _); [apply inverse_nodup|]; apply cand_nodup, Hc. }
      assert (forall q, In q (j_data c) -> P q = true -> forall d, In d cs -> In q (j_data d) -> either_way c d) as HP1.
      { intros q Hq. unfold P. rewrite forallb_forall. intros Hall d Hd Hqd.
        assert (forall d', In d' (map inverted before ++ inverted c :: after) -> j_data d' = j_data d -> candidate_eq (j_cand d') (j_cand (inverted c)) = true) as Hx.
        { intros d' Hd' E. specialize (Hall d' Hd'). rewrite E in Hall. rewrite (proj2 (mem_In q (j_data d)) Hqd) in Hall. exact Hall. }
        pose proof Hd as Hdc. rewrite Ecs in Hd. apply in_app_iff in Hd as [Hd|[->|Hd]]; [| left; reflexivity |].
        - left. assert (candidate_eq (j_cand (inverted d)) (j_cand (inverted c)) = true) as E
            by (apply Hx; [apply in_app_iff; left; apply in_map; exact Hd | reflexivity]).
          apply C59_equal_partial in E; [|rewrite inv_cand; destruct (eqd _ _); [apply inverse_nodup|]; apply cand_nodup, Hdc | exact Nc].
          rewrite !inv_cand in E. apply same_cand; [exact Hdc | exact Hc|].
          destruct (eqd (first_label (j_cand d)) (second_label (j_cand d))) eqn:El, (eqd (first_label (j_cand c)) (second_label (j_cand c))) eqn:El'; destruct E as (A1 & A2 & A3).
          + apply (proj1 (eqd_true _ _)) in El. apply (proj1 (eqd_true _ _)) in El'. cbn [inverse first_label second_label] in A1, A2.
            split; [congruence|]. split; [congruence|]. intros [a b]. rewrite <- (inverse_port (j_cand d) b a), <- (inverse_port (j_cand c) b a). apply A3.
          + exfalso. apply (proj1 (eqd_true _ _)) in El. apply (proj1 (eqd_false _ _)) in El'. cbn [inverse first_label second_label] in A1, A2. congruence.
          + exfalso. apply (proj1 (eqd_false _ _)) in El. apply (proj1 (eqd_true _ _)) in El'. cbn [inverse first_label second_label] in A1, A2. congruence.
          + split; auto.
        - assert (candidate_eq (j_cand d) (j_cand (inverted c)) = true) as E by (apply Hx; [apply in_app_iff; right; right; exact Hd | reflexivity]).
          apply C59_equal_partial in E; [|apply cand_nodup; assumption | exact Nc]. rewrite inv_cand in E.
          destruct (eqd (first_label (j_cand c)) (second_label (j_cand c))) eqn:El; [right | left; apply same_cand; assumption].
          split; [apply (proj1 (eqd_true _ _)) in El; exact El | exact E]. }
      assert (first_label (j_cand c) <> second_label (j_cand c) \/ reversible (j_cand c) -> forall q, In q (j_data c) -> (forall d, In d cs -> In q (j_data d) -> d = c) -> P q = true) as HP2.
      { intros Hor q Hq Hall. unfold P. rewrite forallb_forall. intros d' Hd'. destruct (mem q (j_data d')) eqn:Em; [|reflexivity]. cbn [negb orb]. apply mem_In in Em.
        apply in_app_iff in Hd' as [Hd'|[<-|Hd']].
        - apply in_map_iff in Hd' as (d & <- & Hd). change (j_data (inverted d)) with (j_data d) in Em.
          assert (In d cs) as Hdc by (rewrite Ecs; apply in_app_iff; left; exact Hd).
          rewrite (Hall d Hdc Em). apply C59_reflexive.
        - apply C59_reflexive.
        - assert (In d' cs) as Hdc by (rewrite Ecs; apply in_app_iff; right; right; exact Hd').
          rewrite (Hall d' Hdc Em). apply C59_equal_partial; [apply cand_nodup, Hc | exact Nc|]. rewrite inv_cand.
          destruct (eqd (first_label (j_cand c)) (second_label (j_cand c))) eqn:El; [|repeat split; auto].
          apply (proj1 (eqd_true _ _)) in El. destruct Hor as [Hne|Hrev]; [congruence|]. split; [exact El|]. split; [symmetry; exact El|].
          intros [a b]. rewrite inverse_port. split; apply Hrev. }
      destruct (forall2_exists (fun t n => node_at r t = Some (port_node node_name n)) (filter P (j_data c))) as [ns F].
      { intros t Ht. apply filter_In in Ht as [Ht _]. destruct (recorded_at c t Hc Ht) as (i & j & x & y & n & _ & _ & _ & T & _). eauto. }
      exists ns. split; [|split; [|split]].
      - refine (forall2_nodup _ _ _ F _ _).
        + apply NoDup_filter. apply (collect_sound cs Hcs c Hc).
        + intros t t' n _ _ A B. exact (re_once _ _ _ _ _ Rr _ _ _ A B).
      - clear -F. induction F; cbn [length]; congruence.
      - intros n Hn. destruct (forall2_in_r _ _ _ F n Hn) as (t & Ht & T). apply filter_In in Ht as [Ht HPt].
        pose proof (HP1 t Ht HPt) as Only. split.
        + destruct (recorded_at c t Hc Ht) as (i & j & x & y & n' & Hx & Hy & Hij & T' & Tx & Ty & _).
          rewrite T in T'. injection T' as T'. apply (rd_nodes _ _ _ Hread) in T'. subst n'. exists i, j, x, y. auto.
        + intros i j x y Hx Hy Hij Tx Ty. destruct (recorded_node i j x y n Hx Hy Hij Tx Ty) as (d & t' & Hd & Ht' & T' & Ho).
          rewrite (re_once _ _ _ _ _ Rr _ _ _ T' T) in Ht'. pose proof (Only d Hd Ht') as Hew.
          destruct Ho as [Ho|Ho]; destruct (either_meets c d _ _ Hew Ho); auto.
      - intros Hor n ((i & j & x & y & Hx & Hy & Hij & Tx & Ty) & Hall).
        assert (forall i j x y, nth_error log i = Some x -> nth_error log j = Some y -> i <> j -> touches x n -> touches y n ->
          forall d, In d cs -> orient d x y \/ orient d y x -> c = d) as Same.
        { intros i' j' x' y' Hx' Hy' Hij' Tx' Ty' d Hd Ho.
          pose proof (nth_error_In _ _ Hx') as Ix'. pose proof (nth_error_In _ _ Hy') as Iy'.
          destruct (Hall i' j' x' y' Hx' Hy' Hij' Tx' Ty') as [M|M].
          - exact (same_meeting c d x' y' Hc Hd Ix' Iy' Hor M Ho).
          - refine (same_meeting c d y' x' Hc Hd Iy' Ix' Hor M _). tauto. }
        destruct (recorded_node i j x y n Hx Hy Hij Tx Ty) as (d & t & Hd & Ht & T & Ho).
        pose proof (Same i j x y Hx Hy Hij Tx Ty d Hd Ho). subst d.
        assert (P t = true) as HPt.
        { apply (HP2 Hor t Ht). intros d Hd' Ht'. symmetry.
          destruct (recorded_at d t Hd' Ht') as (i' & j' & x' & y' & n' & Hx' & Hy' & Hij' & T' & Tx' & Ty' & Ho').
          rewrite T in T'. injection T' as T'. apply (rd_nodes _ _ _ Hread) in T'. subst n'.
          exact (Same i' j' x' y' Hx' Hy' Hij' Tx' Ty' d Hd' Ho'). }
        destruct (forall2_in_l _ _ _ F t) as (n' & Hn' & T'); [apply filter_In; auto|].
        rewrite T in T'. injection T' as T'. apply (rd_nodes _ _ _ Hread) in T'. subst n'. exact Hn'.
    Qed.

    (* ---- the exact estimate *)
    Lemma hits_exact c l vs : In c cs -> first_label (j_cand c) <> second_label (j_cand c) \/ reversible (j_cand c) ->
      exists hs, length hs = length (hits (map (fun a => (l, a)) vs) (j_data c)) /\ ends_at_joins row_name log (j_cand c) l vs hs.
    Proof.
      intros Hc Hor. set (fmt := map (fun a => (l, a)) vs).
      assert (Hfmt : forall a b, In (a, b) fmt <-> a = l /\ In b vs).
      { intros a b. unfold fmt. rewrite in_map_iff. split; [intros (v & E & I); injection E as <- <-; auto | intros [-> I]; exists b; auto]. }
      destruct (forall2_exists (fun (e : (nat * nat) * nat) (h : nat * nat) =>
          nth_error ids (fst h) = Some (fst (fst e)) /\ node_at r (snd (fst e)) = Some (port_node node_name (snd h))
          /\ exists x, nth_error log (fst h) = Some x /\ named row_name x = l /\ In (snd h, snd e) (e_ports x) /\ In (snd e) vs)
          (hits fmt (j_data c))) as [hs F].
      { intros [[p q] v] He. unfold hits in He. apply in_flat_map in He as (q' & _ & He). apply filter_In in He as [He Hh].
        apply andb_true_iff in Hh as [_ Hh]. pose proof (proj1 (re_edge _ _ _ _ _ Rr _ _ _) He) as (i & x & n & Hx & Hp & Hn & Hq).
        exists (i, n). cbn [fst snd]. split; [exact Hp|]. split; [exact Hq|]. exists x. unfold hit in Hh. cbn [fst snd] in Hh.
        rewrite (node_ok row_name node_name g rows log ids r R i x p Hx Hp) in Hh. apply mem_In, Hfmt in Hh as [Hl Hv].
        split; [exact Hx|]. split; [rewrite named_label; exact Hl|]. auto. }
      exists hs. split; [clear -F; induction F; cbn [length]; congruence|]. split.
      - refine (forall2_nodup _ _ _ F (hits_nodup fmt _ (proj1 (proj2 (collect_sound cs Hcs c Hc)))) _).
        intros [[p q] v] [[p' q'] v'] [i n] I I' (A1 & A2 & _) (B1 & B2 & _). cbn [fst snd] in *.
        rewrite A1 in B1. injection B1 as <-. pose proof (re_once _ _ _ _ _ Rr _ _ _ A2 B2). subst q'.
        unfold hits in I, I'. apply in_flat_map in I as (z & _ & I). apply in_flat_map in I' as (z' & _ & I'). apply filter_In in I as [I _]. apply filter_In in I' as [I' _].
        pose proof (In_dget _ _ _ Hkeys I) as D1. pose proof (In_dget _ _ _ Hkeys I') as D2. congruence.
      - intros i n. split.
        + intros Hi. destruct (forall2_in_r _ _ _ F _ Hi) as ([[p q] v] & He & _ & T & x & Hx & Hl & Hn & Hv). cbn [fst snd] in *. split.
          * unfold hits in He. apply in_flat_map in He as (q' & Hq & He). apply filter_In in He as [_ He]. apply andb_true_iff in He as [He _].
            cbn [fst snd] in He. apply Nat.eqb_eq in He. subst q'.
            destruct (recorded_at c q Hc Hq) as (i' & j' & x' & y' & n' & Hx' & Hy' & Hij & T' & Tx & Ty & Ho).
            rewrite T in T'. injection T' as T'. apply (rd_nodes _ _ _ Hread) in T'. subst n'.
            destruct Ho as [Ho|Ho]; apply orient_meets in Ho; [exists i', j', x', y' | exists j', i', y', x']; auto 7.
          * exists x, v. split; [exact Hx|]. split; [exact Hl|]. split; [|exact Hv].
            apply (ru_ports _ _ _ _ _ _ _ R x (nth_error_In _ _ Hx)), Hn.
        + intros ((i' & j' & x' & y' & Hx' & Hy' & Hij & Tx & Ty & M) & x & v & Hx & Hl & Hn & Hv).
          destruct (recorded_node i' j' x' y' n Hx' Hy' Hij Tx Ty) as (d & t & Hd & Ht & T & Ho).
          rewrite <- (same_meeting c d x' y' Hc Hd (nth_error_In _ _ Hx') (nth_error_In _ _ Hy') Hor M Ho) in Ht.
          assert (In (n, v) (e_ports x)) as Hp.
          { destruct (touches_meet x' y' n Tx Ty) as (a & b & Ha & Hb). destruct (Nat.eq_dec i i') as [->|Ni].
            - exact (ru_shared _ _ _ _ _ _ _ R i' j' x y' n v b Hx Hy' Hij Hn Hb).
            - exact (ru_shared _ _ _ _ _ _ _ R i i' x x' n v a Hx Hx' Ni Hn Ha). }
          destruct (nth_both log ids i x (eq_sym (re_length _ _ _ _ _ Rr)) Hx) as [p Hp'].
          assert (In ((p, t), v) (r_edges r)) as He.
          { apply (edge_fact row_name node_name g rows log ids r R i x p t v Hx Hp'). exists n. auto. }
          destruct (forall2_in_l _ _ _ F ((p, t), v)) as ([i2 n2] & Hh & A1 & A2 & _).
          { unfold hits. apply in_flat_map. exists t. split; [exact Ht|]. apply filter_In. split; [exact He|]. cbn [fst snd]. rewrite Nat.eqb_refl.
            unfold hit. cbn [fst snd]. rewrite (node_ok row_name node_name g rows log ids r R i x p Hx Hp'). apply mem_In, Hfmt.
            split; [rewrite named_label in Hl; exact Hl | exact Hv]. }
          cbn [fst snd] in A1, A2. rewrite (sorted_nth _ _ _ _ (re_sorted _ _ _ _ _ Rr) Hp' A1).
          rewrite T in A2. injection A2 as A2. apply (rd_nodes _ _ _ Hread) in A2. subst n2. exact Hh.
    Qed.
    Lemma qmin_least x y : least (qmin x y) x y.
    Proof.
      unfold qmin, least. destruct (Qle_bool x y) eqn:E; [left | right].
      - apply Qle_bool_iff in E. split; [reflexivity | exact E].
      - split; [reflexivity|]. destruct (Qlt_le_dec x y) as [Hl|Hl]; [|exact Hl]. apply Qlt_le_weak, Qle_bool_iff in Hl. congruence.
    Qed.
    Lemma least_compat u a b a' b' : (a == a')%Q -> (b == b')%Q -> least u a b -> least u a' b'.
    Proof. intros Ea Eb. unfold least. rewrite Ea, Eb. auto. Qed.
    Lemma single_kind x l : In x log -> side_of x = SingleSide l -> (ct_edge enames (label_of x) = true <-> n_edges (use_net multi (e_use x)) <> []).
    Proof.
      intros Ix Es. split.
      - intros Hct. unfold side_of in Es. unfold use_node in Hct. destruct (e_use x) as [p e|u v l'|n l'] eqn:Ex; [discriminate| |].
        + cbn [use_net]. unfold edge_singleton. destruct multi; discriminate.
        + exfalso. cbn [r_label] in Hct. unfold ct_edge in Hct. apply mem_In in Hct. unfold edge_names_of in Hct.
          apply in_flat_map in Hct as (y & Iy & Hy). pose proof (ru_from _ _ _ _ _ _ _ R x Ix) as Fx. pose proof (ru_from _ _ _ _ _ _ _ R y Iy) as Fy.
          rewrite Ex in Fx. destruct (e_use y) as [p' e'|u' v' l''|n' l'']; try destruct Hy as [|]; try contradiction. subst l''.
          exact (jn_kinds _ _ _ _ _ Hjoin _ _ _ _ Fy Fx).
      - apply (single_edge x l _ Ix Es). exact (side_ok row_index multi row_name node_name g rows log ids r Hjoin R x Ix).
    Qed.
    Lemma by_rule_compat c p q u a b a' b' : (a == a')%Q -> (b == b')%Q -> by_rule row_name log c p q u a b -> by_rule row_name log c p q u a' b'.
    Proof.
      intros Ea Eb [A B]. split; [intros El; rewrite (A El); rewrite Ea; reflexivity|]. intros Hne. destruct (B Hne) as (B1 & B2 & B3 & B4).
      split; [intros; apply (least_compat u a b); auto|]. split; [intros; rewrite <- Ea; auto|]. split; [intros; rewrite <- Eb; auto|].
      intros E1 E2. destruct (B4 E1 E2) as [X|[X|X]]; [left; rewrite <- Ea; exact X | right; left; apply (least_compat u a b); auto | right; right; exact X].
    Qed.
    Lemma value_ok c u p q : In c cs -> usage_of c = Ret u -> sided (j_first c) = Ret p -> sided (j_second c) = Ret q ->
      exists u1 u2, (u1 == inject_Z (Z.of_nat (length (hits (fmt1 c) (j_data c)))) / inject_Z (Z.of_nat (length (port (j_cand c)))))%Q
        /\ (u2 == inject_Z (Z.of_nat (length (hits (fmt2 c) (j_data c)))) / inject_Z (Z.of_nat (length (port (j_cand c)))))%Q
        /\ by_rule row_name log (j_cand c) p q u u1 u2.
    Proof.
      intros Hc. unfold candidate_usage. destruct (fmts_ok c Hc) as (u1 & u2 & E1 & E2 & F1 & F2).
      rewrite E1. cbn [bind]. rewrite E2. cbn [bind]. rewrite C59_own_inverse. cbn [fst]. rewrite andb_true_r. intros Eu Ep Eq.
      assert (~ (inject_Z (Z.of_nat (length (port (j_cand c)))) == 0)%Q) as Hk.
      { pose proof (ports_some c Hc). destruct (port (j_cand c)); [congruence|]. unfold Qeq. cbn. lia. }
      exists u1, u2. split; [rewrite <- F1; field; exact Hk|]. split; [rewrite <- F2; field; exact Hk|].
      assert (exists x y, In x log /\ In y log /\ first_label (j_cand c) = label_of x /\ second_label (j_cand c) = label_of y
              /\ j_first c = side_of x /\ j_second c = side_of y) as (x0 & y0 & Ix & Iy & Lx & Ly & Sx & Sy).
      { destruct (proj1 collected c Hc) as (i & j & x & y & Hx & Hy & _ & _ & O1 & O2 & O3 & O4 & _).
        exists x, y. split; [eapply nth_error_In; eassumption|]. split; [eapply nth_error_In; eassumption|]. auto. }
      pose proof (side_ok row_index multi row_name node_name g rows log ids r Hjoin R x0 Ix) as P1. rewrite <- Sx, Ep in P1. injection P1 as P1.
      pose proof (side_ok row_index multi row_name node_name g rows log ids r Hjoin R y0 Iy) as P2. rewrite <- Sy, Eq in P2. injection P2 as P2.
      destruct (eqd (first_label (j_cand c)) (second_label (j_cand c))) eqn:El.
      { apply (proj1 (eqd_true _ _)) in El. injection Eu as <-. split; [intros _; reflexivity | intros Hne; congruence]. }
      apply (proj1 (eqd_false _ _)) in El. split; [intros Ee; congruence|]. intros _.
      assert (Wn : forall z : net L, without_edge z = true <-> n_edges z = []) by (intros z; unfold without_edge; destruct (n_edges z); split; congruence).
      assert (Wf : forall z : net L, without_edge z = false <-> n_edges z <> []) by (intros z; unfold without_edge; destruct (n_edges z); split; congruence).
      assert (Nn : (inject_Z (Z.of_nat (nodes_named r (first_label (j_cand c)))) == inject_Z (Z.of_nat (uses_named row_name log (first_label (j_cand c)))))%Q).
      { replace (nodes_named r (first_label (j_cand c))) with (uses_named row_name log (first_label (j_cand c))); [reflexivity|].
        apply Nat.le_antisymm.
        - rewrite <- positions_count. apply nodes_named_below; [unfold positions; apply NoDup_filter, seq_NoDup | apply incl_refl].
        - apply nodes_named_above. exists x0. split; [exact Ix|]. rewrite named_label. symmetry. exact Lx. }
      assert (C1 : forall l, j_first c = SingleSide l -> (ct_edge enames (first_label (j_cand c)) = true <-> n_edges p <> []))
        by (intros l Hl; rewrite Lx, P1; apply (single_kind x0 l Ix); congruence).
      assert (C2 : forall l, j_second c = SingleSide l -> (ct_edge enames (second_label (j_cand c)) = true <-> n_edges q <> []))
        by (intros l Hl; rewrite Ly, P2; apply (single_kind y0 l Iy); congruence).
      assert (Cf : forall (b : bool) (z : net L), (b = true <-> n_edges z <> []) -> b = negb (without_edge z)).
      { intros b z Hb. unfold without_edge. destruct (n_edges z); cbn [negb]; [destruct b; [exfalso; apply (proj1 Hb); reflexivity | reflexivity]|].
        apply Hb. discriminate. }
      assert (Low : least (qmin u1 u2) u1 u2) by apply qmin_least.
      destruct (j_first c) as [i1|l1] eqn:S1; cbn [made] in Eu.
      - rewrite Ep in Eu. cbn [bind] in Eu.
        assert (M : forall s, j_second c = s -> made multi nets enames vnames (j_early c) s = Ret (Some q)
                   \/ (made multi nets enames vnames (j_early c) s = Ret None /\ exists l, s = SingleSide l)).
        { intros s Hs. rewrite Hs in Eq. unfold made. destruct s as [i2|l2]; [rewrite Eq; left; reflexivity|]. destruct (j_early c); [rewrite Eq; left; reflexivity | right; eauto]. }
        destruct (M _ eq_refl) as [M'|[M' (l2 & S2)]]; rewrite M' in Eu; cbn [bind] in Eu; injection Eu as <-.
        + destruct (without_edge p) eqn:Q1, (without_edge q) eqn:Q2; cbn [andb negb];
            (first [apply Wn in Q1 | apply Wf in Q1]); (first [apply Wn in Q2 | apply Wf in Q2]);
            (split; [|split; [|split]]); intros Ha Hb; try contradiction; try congruence; try reflexivity; auto.
        + rewrite (Cf _ _ (C2 l2 S2)). destruct (without_edge p) eqn:Q1, (without_edge q) eqn:Q2; cbn [andb negb];
            (first [apply Wn in Q1 | apply Wf in Q1]); (first [apply Wn in Q2 | apply Wf in Q2]);
            (split; [|split; [|split]]); intros Ha Hb; try contradiction; try congruence; try reflexivity; auto; left; reflexivity.
      - cbn [bind] in Eu. destruct (collect_sound cs Hcs c Hc) as ((Ah & Early) & _).
        assert (exists l2, j_second c = SingleSide l2) as [l2 S2].
        { rewrite S1 in Ah. destruct (j_second c) as [i2|l2]; [|eauto]. cbn [ahead] in Ah. destruct Ah; discriminate. }
        assert (j_early c = false) as Ee. { destruct (j_early c); [|reflexivity]. destruct (Early eq_refl) as [i Hi]. congruence. }
        rewrite S2, Ee in Eu. cbn [made bind] in Eu. injection Eu as <-.
        rewrite (Cf _ _ (C1 l1 eq_refl)), (Cf _ _ (C2 l2 S2)). destruct (without_edge p) eqn:Q1, (without_edge q) eqn:Q2; cbn [andb negb];
            (first [apply Wn in Q1 | apply Wf in Q1]); (first [apply Wn in Q2 | apply Wf in Q2]);
            (split; [|split; [|split]]); intros Ha Hb; try contradiction; try congruence; try reflexivity; auto.
    Qed.

    (* ---- the loop *)
    Notation finishp := (finish multi nets enames vnames).
    Definition rated_ok (c : joined L) (k : rated L) : Prop :=
      finishp c = Ret (k_gen k) /\ fair (j_cand c) (k_usage k) /\ edged_fair c (k_usage k)
      /\ exists ns, NoDup ns /\ length ns = k_exclusive k
            /\ (forall n, In n ns -> only_meeting row_name log (j_cand c) n)
            /\ (first_label (j_cand c) <> second_label (j_cand c) \/ reversible (j_cand c) -> forall n, only_meeting row_name log (j_cand c) n -> In n ns).
    Definition rated_exactly (c : joined L) (k : rated L) : Prop :=
      first_label (j_cand c) <> second_label (j_cand c) \/ reversible (j_cand c) ->
      exists h1 h2, ends_at_joins row_name log (j_cand c) (first_label (j_cand c)) (map fst (port (j_cand c))) h1
        /\ ends_at_joins row_name log (j_cand c) (second_label (j_cand c)) (map snd (port (j_cand c))) h2
        /\ by_rule row_name log (j_cand c) (g_first (k_gen k)) (g_second (k_gen k)) (k_usage k) (share h1 (j_cand c)) (share h2 (j_cand c)).
    Lemma rate_ok : forall todo before, cs = before ++ todo -> exists rs,
      rate_from multi nets enames vnames r (map inverted before) todo = Ret rs /\ Forall2 rated_ok todo rs /\ Forall2 rated_exactly todo rs.
    Proof.
      induction todo as [|c todo IH]; intros before E; [exists []; split; [reflexivity | split; constructor]|].
      assert (In c cs) as Hc by (rewrite E; apply in_app_iff; right; left; reflexivity).
      cbn [rate_from]. destruct (usage_ok c Hc) as (u & Eu & Fu & Fe). rewrite Eu. cbn [bind].
      destruct (proj1 collected c Hc) as (i & j & x & y & Hx & Hy & _ & _ & Ho).
      destruct (finish_ok row_index multi row_name node_name g rows log ids r Hread Hjoin R c x y (nth_error_In _ _ Hx) (nth_error_In _ _ Hy) Ho) as (d & Ed & _).
      unfold finish in Ed. apply bind_Ret in Ed as (p & E1 & Ed). apply bind_Ret in Ed as (q & E2 & Ed).
      rewrite E1. cbn [bind]. rewrite E2. cbn [bind].
      destruct (IH (before ++ [c])) as (rs & Er & F & X); [rewrite <- app_assoc; exact E|].
      rewrite map_app in Er. cbn [map] in Er. rewrite Er. cbn [bind].
      eexists. split; [reflexivity|]. split.
      2:{ constructor; [|exact X]. intros Hor. cbn [k_gen g_first g_second k_usage].
          destruct (value_ok c u p q Hc Eu E1 E2) as (u1 & u2 & V1 & V2 & Hr).
          destruct (hits_exact c (first_label (j_cand c)) (map fst (port (j_cand c))) Hc Hor) as (h1 & L1 & G1).
          destruct (hits_exact c (second_label (j_cand c)) (map snd (port (j_cand c))) Hc Hor) as (h2 & L2 & G2).
          rewrite map_map in L1, L2. exists h1, h2. split; [exact G1|]. split; [exact G2|]. unfold share.
          rewrite L1, L2. exact (by_rule_compat _ _ _ _ _ _ _ _ V1 V2 Hr). }
      constructor; [|exact F]. split; [|split; [|split; [exact Fe|]]].
      - unfold finish. rewrite E1. cbn [bind]. rewrite E2. cbn [bind k_gen]. reflexivity.
      - exact Fu.
      - cbn [k_exclusive]. exact (exclusive_ok c before todo E).
    Qed.
    Lemma finish_all : forall todo rs acc, Forall2 rated_ok todo rs ->
      fold_out (fun acc j => bind (finishp j) (fun x => Ret (acc ++ [x]))) todo acc = Ret (acc ++ map k_gen rs).
    Proof.
      intros todo rs acc F. revert acc. induction F as [|c k todo rs (E & _) F IH]; intros acc.
      - cbn [fold_out map]. rewrite app_nil_r. reflexivity.
      - cbn [fold_out]. rewrite E. cbn [bind]. rewrite IH, <- app_assoc. reflexivity.
    Qed.
  End Run.
End Rating.

(* ------------------------------------------------------------- theorems *)
Section Theorems.
  Context {L : Type} `{EqDec L}.

  (* what the rating of a candidate tells of the cover: at least as many as
     there are disjoint meetings, no more than one of the two patterns has
     uses, and than each has that has an edge; and the number of data nodes where nothing else is joined:
     all of them, or some of them for the join of a pattern with itself that reads otherwise backwards
     (C95_exclusive_refuted) *)
  Definition fair_rating (row_name : nat -> L) (log : list (entry L)) (k : rated L) : Prop :=
    let c := g_cand (k_gen k) in
    (forall ps, disjoint_meetings row_name log c ps -> first_label c <> second_label c \/ reversible c ->
       (inject_Z (Z.of_nat (length ps)) <= k_usage k)%Q)
    /\ ((k_usage k <= inject_Z (Z.of_nat (uses_named row_name log (first_label c))))%Q
        \/ (k_usage k <= inject_Z (Z.of_nat (uses_named row_name log (second_label c))))%Q)
    /\ (n_edges (g_first (k_gen k)) <> [] ->
        (k_usage k <= inject_Z (Z.of_nat (uses_named row_name log (first_label c))))%Q)
    /\ (n_edges (g_second (k_gen k)) <> [] ->
        (k_usage k <= inject_Z (Z.of_nat (uses_named row_name log (second_label c))))%Q)
    /\ exists ns, NoDup ns /\ length ns = k_exclusive k
          /\ (forall n, In n ns -> only_meeting row_name log c n)
          /\ (first_label c <> second_label c \/ reversible c -> forall n, only_meeting row_name log c n -> In n ns).

  (* [k] is tried before [k']: a larger estimate, or the same estimate and more
     exclusive nodes, or the same of both and a pattern that is not longer *)
  Definition tried_before {T} (leT : T -> T -> bool) (code : net L -> T) multi (k k' : rated L) : Prop :=
    (k_usage k' < k_usage k)%Q
    \/ ((k_usage k == k_usage k')%Q
        /\ (k_exclusive k' < k_exclusive k
            \/ (k_exclusive k = k_exclusive k' /\ exists p p',
                  merge multi (g_first (k_gen k)) (g_second (k_gen k)) (port (g_cand (k_gen k))) = Ok p
                  /\ merge multi (g_first (k_gen k')) (g_second (k_gen k')) (port (g_cand (k_gen k'))) = Ok p'
                  /\ leT (code p) (code p') = true))).

  Section Sorting.
    Context {T : Type} (leT : T -> T -> bool) (code : net L -> T) (multi : bool).
    Context (leT_total : forall a b, leT a b = true \/ leT b a = true).
    Context (leT_trans : forall a b c, leT a b = true -> leT b c = true -> leT a c = true).
    Notation keyf := (key_first T leT).

    Definition before_key (x y : Q * nat * T) : Prop :=
      (fst (fst y) < fst (fst x))%Q \/ ((fst (fst x) == fst (fst y))%Q
        /\ (snd (fst y) < snd (fst x) \/ (snd (fst x) = snd (fst y) /\ leT (snd x) (snd y) = true))).
    Lemma key_first_spec x y : keyf x y = true <-> before_key x y.
    Proof.
      destruct x as [[u e] l], y as [[u' e'] l']. unfold before_key. cbn [key_first fst snd].
      destruct (Qeq_bool u u') eqn:Eu.
      - apply Qeq_bool_iff in Eu. destruct (Nat.eqb e e') eqn:Ee.
        + apply Nat.eqb_eq in Ee. subst e'. split; [intros E; right; auto|].
          intros [E|(_ & [E|(_ & E)])]; [rewrite Eu in E; destruct (Qlt_irrefl _ E) | lia | exact E].
        + apply Nat.eqb_neq in Ee. rewrite Nat.ltb_lt. split; [intros E; right; auto|].
          intros [E|(_ & [E|(E & _)])]; [rewrite Eu in E; destruct (Qlt_irrefl _ E) | exact E | congruence].
      - assert (~ (u == u')%Q) as Hne by (intros E; apply Qeq_bool_iff in E; congruence).
        rewrite Qle_bool_iff. split.
        + intros E. left. apply Qle_lteq in E as [E|E]; [exact E|]. destruct Hne. symmetry. exact E.
        + intros [E|(E & _)]; [apply Qlt_le_weak, E | contradiction].
    Qed.
    Lemma key_total x y : keyf x y = true \/ keyf y x = true.
    Proof.
      rewrite !key_first_spec. destruct x as [[u e] l], y as [[u' e'] l']. unfold before_key. cbn [fst snd].
      destruct (Q_dec u u') as [[E|E]|E]; [right; left; exact E | left; left; exact E|].
      destruct (Nat.lt_trichotomy e e') as [Ee|[Ee|Ee]].
      - right. right. split; [symmetry; exact E | left; exact Ee].
      - destruct (leT_total l l') as [El|El]; [left | right]; right; (split; [try exact E; symmetry; exact E | right; auto]).
      - left. right. split; [exact E | left; exact Ee].
    Qed.
    Lemma key_trans x y z : keyf x y = true -> keyf y z = true -> keyf x z = true.
    Proof.
      rewrite !key_first_spec. destruct x as [[u e] l], y as [[u' e'] l'], z as [[v f] w]. unfold before_key. cbn [fst snd].
      intros [A|[A A2]] [B|[B B2]].
      - left. exact (Qlt_trans _ _ _ B A).
      - left. rewrite <- B. exact A.
      - left. rewrite A. exact B.
      - right. split; [rewrite A; exact B|]. destruct A2 as [A2|[A2 A3]], B2 as [B2|[B2 B3]]; [left; lia.. | right].
        split; [lia | eauto].
    Qed.
    Lemma with_keys_ok cs :
      (forall c, In c cs -> exists p, merge multi (g_first (k_gen c)) (g_second (k_gen c)) (port (g_cand (k_gen c))) = Ok p) ->
      exists ks, with_keys multi T code cs = Some ks /\ map snd ks = cs
        /\ forall k c, In (k, c) ks -> sort_key multi T code c = Some k.
    Proof.
      induction cs as [|c cs IH]; intros Hm; [exists []; cbn; repeat split; contradiction|].
      destruct (Hm c (or_introl eq_refl)) as [p Ep]. destruct IH as (ks & E & Em & Hk); [intros c' Hc'; apply Hm; right; exact Hc'|].
      eexists. split; [cbn [with_keys]; unfold sort_key at 1; rewrite Ep, E; reflexivity|].
      split; [cbn [map snd]; rewrite Em; reflexivity|]. intros k c' [E'|Hi]; [|apply Hk, Hi].
      injection E' as <- <-. unfold sort_key. rewrite Ep. reflexivity.
    Qed.
    Lemma ordered_ok cs :
      (forall c, In c cs -> exists p, merge multi (g_first (k_gen c)) (g_second (k_gen c)) (port (g_cand (k_gen c))) = Ok p) ->
      exists os, ordered multi T leT code cs = Some os /\ Permutation os cs /\ StronglySorted (tried_before leT code multi) os.
    Proof.
      intros Hm. destruct (with_keys_ok cs Hm) as (ks & E & Em & Hk). unfold ordered. rewrite E.
      set (le := fun x y => key_first T leT (fst x) (fst y)).
      eexists. split; [reflexivity|]. split; [rewrite <- Em; apply Permutation_map, sort_perm|].
      pose proof (sort_sorted le (fun x y => key_total (fst x) (fst y)) (fun x y z => key_trans (fst x) (fst y) (fst z)) ks) as Hs.
      assert (forall z, In z (sort le ks) -> sort_key multi T code (snd z) = Some (fst z)) as Hk'.
      { intros [k c] Hz. apply Hk. apply In_sort in Hz. exact Hz. }
      revert Hs Hk'. generalize (sort le ks). induction 1 as [|a l Hl IH Ha]; intros Hk'; [constructor|].
      cbn [map]. constructor; [apply IH; intros z Hz; apply Hk'; right; exact Hz|].
      rewrite Forall_forall in *. intros c Hc. apply in_map_iff in Hc as (b & <- & Hb). specialize (Ha b Hb).
      unfold le_rel, le in Ha. apply key_first_spec in Ha.
      pose proof (Hk' a (or_introl eq_refl)) as Ka. pose proof (Hk' b (or_intror Hb)) as Kb.
      destruct a as [[[u e] w] a], b as [[[u' e'] w'] b]. cbn [fst snd] in *. unfold sort_key in Ka, Kb.
      destruct (merge multi (g_first (k_gen a)) _ _) as [p|?] eqn:Ep; [|discriminate].
      destruct (merge multi (g_first (k_gen b)) _ _) as [p'|?] eqn:Ep'; [|discriminate].
      injection Ka as <- <- <-. injection Kb as <- <- <-. unfold before_key in Ha. cbn [fst snd] in Ha. unfold tried_before.
      destruct Ha as [Ha|(Ha & [Hb'|(Hb' & Hc')])]; [left; exact Ha | right; split; [exact Ha | left; exact Hb'] |].
      right. split; [exact Ha|]. right. split; [exact Hb'|]. exists p, p'. auto.
    Qed.
  End Sorting.

  Context (substr : L -> L -> bool) (set_order : list (nat * nat) -> list (nat * nat)).
  Context (pair_order : list (nat * nat) -> list (nat * nat)) (port_order : list nat -> list nat).
  Context (ltb : L -> L -> bool) (row_index : L -> outcome nat) (multi : bool) (row_name node_name : nat -> L).

  Lemma inverse_meets c ps log : first_label c = second_label c -> reversible (inverse c) ->
    disjoint_meetings row_name log (inverse c) ps -> disjoint_meetings row_name log c ps.
  Proof.
    intros El Hr [Hn Hm]. split; [exact Hn|]. intros i j Hi. destruct (Hm i j Hi) as (x & y & Hx & Hy & M1 & M2 & M3).
    exists x, y. split; [exact Hx|]. split; [exact Hy|]. cbn [inverse first_label second_label] in M1, M2.
    split; [congruence|]. split; [congruence|]. intros a b. rewrite <- M3. split.
    - intros Hab. apply Hr. cbn [inverse port]. apply in_map_iff. exists (a, b). auto.
    - intros Hab. apply Hr in Hab. cbn [inverse port] in Hab. apply in_map_iff in Hab as ([a' b'] & E & Hab).
      cbn in E. injection E as -> ->. exact Hab.
  Qed.

  (* Every candidate of GraphMDL is rated: the estimate is not below the number
     of its disjoint occurrences, not above the number of uses of one of its
     patterns, nor of those that have an edge, and the exclusive nodes are counted.  For the join of a
     pattern with itself the first holds only if the join reads the same in
     both directions (see C95_self_join_refuted). *)
  Theorem C95_estimate_partial (g : data L) (rows : list (row L)) (m : marks L) :
    (forall l, substr l l = true) -> (forall l x, In x (set_order l) <-> In x l) ->
    (forall l x, In x (pair_order l) <-> In x l) -> (forall l, Permutation (port_order l) l) ->
    (forall a b, a <> b -> ltb a b = negb (ltb b a)) ->
    admissible g rows -> readable row_name node_name g -> joinable multi row_name row_index g rows -> marks_ok m ->
    exists m' log rs, cover' substr set_order multi g rows m = Ret (m', log)
      /\ rated_candidates ltb row_index pair_order port_order multi (map (fun w => net_of (r_pattern w)) rows)
           (edge_names_of log) (vertex_names_of log) (rewrite row_name node_name log) = Ret rs
      /\ generate_candidates ltb row_index pair_order port_order multi (map (fun w => net_of (r_pattern w)) rows)
           (edge_names_of log) (vertex_names_of log) (rewrite row_name node_name log) = Ret (map k_gen rs)
      /\ forall k, In k rs -> fair_rating row_name log k.
  Proof.
    intros Hs Ho Hpair Hport Hltb Ha Hr Hj Hm.
    destruct (run_exists substr set_order multi Hs Ho row_name node_name g rows m Ha Hr Hm) as (m' & log & ids & E & _ & _ & R).
    pose proof (rewrite_keys row_name node_name log) as Hk.
    destruct (collect_ok ltb row_index pair_order port_order Hpair Hport multi row_name node_name g rows log ids _ Hr Hj R Hk) as (cs & Ec & _).
    destruct (rate_ok ltb row_index pair_order port_order Hpair Hport multi row_name node_name Hltb g rows log ids _ Hr Hj R Hk cs Ec cs [] eq_refl)
      as (rs & Er & F & _).
    exists m', log, rs. split; [exact E|]. split; [unfold rated_candidates; rewrite Ec; exact Er|]. split.
    - unfold generate_candidates. rewrite Ec. cbn [bind]. rewrite (finish_all _ _ _ _ _ _ _ F). reflexivity.
    - intros k Hkr. destruct (forall2_in_r _ _ _ F k Hkr) as (c & _ & Fc & (U1 & U2) & (V1 & V2) & X).
      unfold finish in Fc. apply bind_Ret in Fc as (p & Ep & Fc). apply bind_Ret in Fc as (q & Eq & Fc).
      specialize (V1 p Ep). specialize (V2 q Eq).
      assert (g_first (k_gen k) = p /\ g_second (k_gen k) = q) as [Ef Es] by (injection Fc as <-; auto).
      assert (g_cand (k_gen k) = if eqd (first_label (j_cand c)) (second_label (j_cand c)) then inverse (j_cand c) else j_cand c) as Eg.
      { rewrite C59_own_inverse in Fc. cbn [snd] in Fc. injection Fc as <-. reflexivity. }
      unfold fair_rating. rewrite Eg, Ef, Es. destruct (eqd (first_label (j_cand c)) (second_label (j_cand c))) eqn:El; [|auto].
      apply (proj1 (eqd_true _ _)) in El. cbn [inverse first_label second_label]. rewrite <- El in U2, V2 |- *. split; [|split; [tauto|split; [exact V1 | split; [exact V2|]]]].
      + intros ps Hps [Hne|Hrev]; [congruence|]. apply U1; [apply inverse_meets; assumption|]. right.
        intros a b Hab. assert (In (a, b) (port (inverse (j_cand c)))) as Hi; [|apply in_map_iff in Hi as ([a' b'] & E' & Hi); cbn in E'; injection E' as -> ->; exact Hi].
        apply Hrev. cbn [inverse port]. apply in_map_iff. exists (a, b). auto.
      + destruct X as (ns & X1 & X2 & X3 & X4). exists ns. split; [exact X1|]. split; [exact X2|].
        assert (Sw : forall x y, meets_as row_name (j_cand c) x y <-> meets_as row_name (inverse (j_cand c)) y x).
        { intros x y. unfold meets_as. cbn [inverse first_label second_label]. split; intros (M1 & M2 & M3); (split; [congruence|]; split; [congruence|]); intros a b.
          - rewrite inverse_port, M3. unfold meet. split; intros (n & H1 & H2); exists n; auto.
          - rewrite <- (inverse_port (j_cand c) b a), M3. unfold meet. split; intros (n & H1 & H2); exists n; auto. }
        assert (Om : forall n, only_meeting row_name log (j_cand c) n <-> only_meeting row_name log (inverse (j_cand c)) n).
        { intros n. unfold only_meeting. split; intros [A B]; (split; [exact A|]); intros i j x y Hx Hy Hij Tx Ty; destruct (B i j x y Hx Hy Hij Tx Ty) as [M|M]; apply Sw in M; auto. }
        split; [intros n Hn; apply Om, X3, Hn|]. intros [Hne|Hrev] n Hn; [congruence|]. apply X4; [|apply Om, Hn]. right.
        intros a b Hab. apply (proj1 (inverse_port (j_cand c) a b)), Hrev, (proj2 (inverse_port (j_cand c) b a)), Hab.
  Qed.

  (* What the estimate is.  [by_rule] is the same for a candidate and, when it
     reads the same in both directions, its inverse *)
  Lemma ends_inverse log c l hs : first_label c = second_label c -> reversible (inverse c) ->
    ends_at_joins row_name log c l (map fst (port c)) hs -> ends_at_joins row_name log (inverse c) l (map fst (port (inverse c))) hs
      /\ ends_at_joins row_name log (inverse c) l (map snd (port (inverse c))) hs.
  Proof.
    intros El Hrev [Hn Hh].
    assert (Rc : forall a b, In (a, b) (port c) -> In (b, a) (port c)).
    { intros a b Hab. apply (proj1 (inverse_port c a b)), Hrev, (proj2 (inverse_port c b a)), Hab. }
    assert (J : forall n, joined_at row_name log c n <-> joined_at row_name log (inverse c) n).
    { intros n. split; intros (i & j & x & y & Hx & Hy & Hij & Tx & Ty & M1 & M2 & M3); exists i, j, x, y; do 5 (split; [assumption|]);
        unfold meets_as; cbn [inverse first_label second_label] in *; (split; [congruence|]; split; [congruence|]); intros a b.
      - rewrite inverse_port, <- M3. split; apply Rc.
      - rewrite <- M3, inverse_port. split; apply Rc. }
    assert (V : forall v, (In v (map fst (port c)) <-> In v (map fst (port (inverse c)))) /\ (In v (map fst (port c)) <-> In v (map snd (port (inverse c))))).
    { intros v. cbn [inverse port]. rewrite !map_map. cbn [fst snd]. split; [|reflexivity]. rewrite !in_map_iff.
      split; intros ([a b] & E & Hi); cbn in E; subst; apply Rc in Hi; eexists; split; [|exact Hi | |exact Hi]; reflexivity. }
    split; (split; [exact Hn|]); intros i n; rewrite Hh, J; split; intros (A & x & v & Hx & Hl & Hv & Hi); (split; [exact A|]); exists x, v; do 3 (split; [assumption|]); destruct (V v) as [V1 V2]; tauto.
  Qed.
  Theorem C95_value (g : data L) (rows : list (row L)) (m : marks L) :
    (forall l, substr l l = true) -> (forall l x, In x (set_order l) <-> In x l) ->
    (forall l x, In x (pair_order l) <-> In x l) -> (forall l, Permutation (port_order l) l) ->
    (forall a b, a <> b -> ltb a b = negb (ltb b a)) ->
    admissible g rows -> readable row_name node_name g -> joinable multi row_name row_index g rows -> marks_ok m ->
    exists m' log rs, cover' substr set_order multi g rows m = Ret (m', log)
      /\ rated_candidates ltb row_index pair_order port_order multi (map (fun w => net_of (r_pattern w)) rows)
           (edge_names_of log) (vertex_names_of log) (rewrite row_name node_name log) = Ret rs
      /\ forall k, In k rs -> let c := g_cand (k_gen k) in
           first_label c <> second_label c \/ reversible c ->
           exists h1 h2, ends_at_joins row_name log c (first_label c) (map fst (port c)) h1
             /\ ends_at_joins row_name log c (second_label c) (map snd (port c)) h2
             /\ by_rule row_name log c (g_first (k_gen k)) (g_second (k_gen k)) (k_usage k) (share h1 c) (share h2 c).
  Proof.
    intros Hs Ho Hpair Hport Hltb Ha Hr Hj Hm.
    destruct (run_exists substr set_order multi Hs Ho row_name node_name g rows m Ha Hr Hm) as (m' & log & ids & E & _ & _ & R).
    pose proof (rewrite_keys row_name node_name log) as Hk.
    destruct (collect_ok ltb row_index pair_order port_order Hpair Hport multi row_name node_name g rows log ids _ Hr Hj R Hk) as (cs & Ec & _).
    destruct (rate_ok ltb row_index pair_order port_order Hpair Hport multi row_name node_name Hltb g rows log ids _ Hr Hj R Hk cs Ec cs [] eq_refl)
      as (rs & Er & F & X).
    exists m', log, rs. split; [exact E|]. split; [unfold rated_candidates; rewrite Ec; exact Er|].
    assert (B : Forall2 (fun c k => g_cand (k_gen k) = (if eqd (first_label (j_cand c)) (second_label (j_cand c)) then inverse (j_cand c) else j_cand c)
                                  /\ rated_exactly row_name log c k) cs rs).
    { clear -F X. induction F as [|c k cs rs (Fc & _) F IH]; [constructor|]. inversion X as [|? ? ? ? X1 X2]; subst. constructor; [|apply IH, X2].
      split; [|exact X1]. unfold finish in Fc. apply bind_Ret in Fc as (p & _ & Fc). apply bind_Ret in Fc as (q & _ & Fc).
      rewrite C59_own_inverse in Fc. cbn [snd] in Fc. injection Fc as <-. reflexivity. }
    intros k Hkr. destruct (forall2_in_r _ _ _ B k Hkr) as (c & _ & Eg & Hx). cbv zeta. rewrite Eg.
    destruct (eqd (first_label (j_cand c)) (second_label (j_cand c))) eqn:El; [|exact Hx].
    apply (proj1 (eqd_true _ _)) in El. intros [Hne|Hrev]; [exfalso; apply Hne; cbn [inverse first_label second_label]; auto|].
    destruct Hx as (h1 & h2 & G1 & _ & (V & _)).
    { right. intros a b Hab. apply (proj1 (inverse_port (j_cand c) a b)), Hrev, (proj2 (inverse_port (j_cand c) b a)), Hab. }
    destruct (ends_inverse log (j_cand c) _ h1 El Hrev G1) as [I1 I2]. cbn [inverse first_label second_label] in *.
    exists h1, h1. split; [rewrite <- El; exact I1|]. split; [exact I2|].
    split; [|intros Hne; exfalso; apply Hne; cbn [first_label second_label]; auto]. intros _. rewrite (V El).
    unfold share. cbn [inverse port]. rewrite map_length. reflexivity.
  Qed.

  (* The candidates are tried in the order of their estimates, each once. *)
  Theorem C95_order {T} (leT : T -> T -> bool) (code : net L -> T) (g : data L) (rows : list (row L)) (m : marks L) :
    (forall a b, leT a b = true \/ leT b a = true) ->
    (forall a b c, leT a b = true -> leT b c = true -> leT a c = true) ->
    (forall l, substr l l = true) -> (forall l x, In x (set_order l) <-> In x l) ->
    (forall l x, In x (pair_order l) <-> In x l) -> (forall l, Permutation (port_order l) l) ->
    (forall a b, a <> b -> ltb a b = negb (ltb b a)) ->
    admissible g rows -> readable row_name node_name g -> joinable multi row_name row_index g rows -> marks_ok m ->
    exists m' log rs os, cover' substr set_order multi g rows m = Ret (m', log)
      /\ rated_candidates ltb row_index pair_order port_order multi (map (fun w => net_of (r_pattern w)) rows)
           (edge_names_of log) (vertex_names_of log) (rewrite row_name node_name log) = Ret rs
      /\ ordered multi T leT code rs = Some os
      /\ Permutation os rs /\ StronglySorted (tried_before leT code multi) os.
  Proof.
    intros Ht Htr Hs Ho Hpair Hport Hltb Ha Hr Hj Hm.
    destruct (C95_estimate_partial g rows m Hs Ho Hpair Hport Hltb Ha Hr Hj Hm) as (m' & log & rs & E1 & E2 & E3 & _).
    destruct (C77_candidates_partial substr set_order pair_order port_order ltb row_index multi row_name node_name g rows m
                Hs Ho Hpair Hport Ha Hr Hj Hm) as (m2 & log2 & cs & F1 & F2 & _ & _ & F5 & _).
    rewrite E1 in F1. injection F1 as <- <-. rewrite E3 in F2. injection F2 as <-.
    destruct (ordered_ok leT code multi Ht Htr rs) as (os & O1 & O2 & O3).
    { intros c Hc. destruct (F5 (k_gen c) (in_map k_gen _ _ Hc)) as (p & e & Ep & _). exists p. exact Ep. }
    exists m', log, rs, os. auto.
  Qed.
End Theorems.
Print Assumptions C95_estimate_partial.
Print Assumptions C95_value.
Print Assumptions C95_order.

Lemma nat_ltb_total (a b : nat) : a <> b -> Nat.ltb a b = negb (Nat.ltb b a).
Proof. intros Hab. destruct (Nat.ltb_spec a b), (Nat.ltb_spec b a); cbn; lia. Qed.


(* five candidates over the four uses of C77_case: two of them with a node of
   their own, tried first; the join of the row with itself, which occurs once,
   is estimated at 0 and tried last *)
Example C95_case :
  admissible demo_graph demo_rows /\ readable row_no node_no demo_graph
  /\ joinable false row_no row_at demo_graph demo_rows
  /\ exists m' log rs os, cover' eqd (fun l => rev l) false demo_graph demo_rows
        {| marker := 3; edge_mark := [((1, 2, 7), 3)]; node_mark := [((1, 10), 2)] |} = Ret (m', log)
    /\ rated_candidates Nat.ltb row_at (fun l => rev l) (fun l => l) false (map (fun w => net_of (r_pattern w)) demo_rows)
         (edge_names_of log) (vertex_names_of log) (rewrite row_no node_no log) = Ret rs
    /\ map (fun k => (port (g_cand (k_gen k)), k_usage k, k_exclusive k)) rs =
         [([(1, 2)], 1%Q, 1); ([(2, 2); (3, 1)], 0%Q, 1); ([(1, 1)], 1%Q, 0); ([(3, 1)], 1%Q, 0); ([(3, 1)], 1%Q, 1)]
    /\ ordered false nat Nat.leb (fun n => length (n_edges n)) rs = Some os
    /\ map (fun k => (second_label (g_cand (k_gen k)), port (g_cand (k_gen k)))) os =
         [(9, [(1, 2)]); (9, [(3, 1)]); (row_no 1, [(1, 1)]); (row_no 1, [(3, 1)]); (row_no 0, [(2, 2); (3, 1)])].
Proof.
  split; [exact demo_admissible|]. split; [exact demo_readable|]. split; [apply C77_case|].
  do 4 eexists. split; [vm_compute; reflexivity|]. split; [vm_compute; reflexivity|]. split; [reflexivity|].
  split; vm_compute; reflexivity.
Qed.

(* Two paths of two edges, with nothing in common: the only candidate joins
   the end of an edge to the start of another one, and occurs twice; it is
   estimated at one occurrence. *)
Theorem C95_self_join_refuted :
  exists (g : data nat), admissible g [] /\ readable row_no node_no g /\ joinable false row_no row_at g [] /\
  exists m' log k ps, cover' eqd (fun l => l) false g [] {| marker := 0; edge_mark := []; node_mark := [] |} = Ret (m', log)
    /\ rated_candidates Nat.ltb row_at (fun l => l) (fun l => l) false []
         (edge_names_of log) (vertex_names_of log) (rewrite row_no node_no log) = Ret [k]
    /\ disjoint_meetings row_no log (g_cand (k_gen k)) ps
    /\ (k_usage k < inject_Z (Z.of_nat (length ps)))%Q.
Proof.
  exists {| d_nodes := [(1, None); (2, None); (3, None); (4, None); (5, None); (6, None)];
            d_edges := [(1, 2, 7); (2, 3, 7); (4, 5, 7); (5, 6, 7)] |}. split; [|split; [|split]].
  - split; [tidy_tac | intros u l; simpl; intuition congruence|]. exists [], []. split; [reflexivity | split; constructor].
  - apply readable_small.
    + intros u v l. simpl. intuition (try congruence); repeat match goal with H : (_, _) = (_, _) |- _ => injection H; clear H; intros; subst end; lia.
    + apply names_small. repeat constructor.
  - split.
    + exact row_at_no.
    + intros r [].
    + intros _. split; [nodup_tac | intros r []].
    + intros u v l n _ Hl. unfold node_names in Hl. cbn [d_nodes dget] in Hl.
      repeat match type of Hl with In _ (match (if ?c then _ else _) with _ => _ end) => destruct c; cbn in Hl end; exact Hl.
    + intros u v l i Hi. cbn in Hi. unfold row_no.
      intuition (try congruence); repeat match goal with H : (_, _) = (_, _) |- _ => injection H; clear H; intros; subst end; lia.
    + intros n l i Hl. unfold node_names in Hl. cbn [d_nodes dget] in Hl.
      repeat match type of Hl with In _ (match (if ?c then _ else _) with _ => _ end) => destruct c; cbn in Hl end; destruct Hl.
  - do 3 eexists. exists [(0, 1); (2, 3)]. split; [vm_compute; reflexivity|]. split; [vm_compute; reflexivity|]. split; [|reflexivity].
    split; [nodup_tac|]. intros i j [E|[E|[]]]; injection E as <- <-; (do 2 eexists; split; [reflexivity|]; split; [reflexivity|];
      split; [reflexivity|]; split; [reflexivity|]); intros a b; unfold meet, e_use, use_nodes; cbn; split;
      try (intros [E|[]]; injection E as <- <-; eexists; cbn; auto; fail);
      intros (n & Ha & Hb); destruct Ha as [Ha|[Ha|[]]], Hb as [Hb|[Hb|[]]]; injection Ha as <- <-; injection Hb; intros; subst; try discriminate; auto.
Qed.
Print Assumptions C95_self_join_refuted.

(* Two paths of two edges again, now with the edges of the second path listed
   in the other order: the join of the end of an edge to the start of another
   is a candidate twice, once for each direction.  Node 5 is one where only
   it is joined, and node 2 another, but each candidate counts one of them. *)
Theorem C95_exclusive_refuted :
  exists (g : data nat), admissible g [] /\ readable row_no node_no g /\ joinable false row_no row_at g [] /\
  exists m' log k k', cover' eqd (fun l => l) false g [] {| marker := 0; edge_mark := []; node_mark := [] |} = Ret (m', log)
    /\ rated_candidates Nat.ltb row_at (fun l => l) (fun l => l) false []
         (edge_names_of log) (vertex_names_of log) (rewrite row_no node_no log) = Ret [k; k']
    /\ k_exclusive k = 1 /\ k_exclusive k' = 1
    /\ only_meeting row_no log (g_cand (k_gen k)) 2 /\ only_meeting row_no log (g_cand (k_gen k)) 5.
Proof.
  exists {| d_nodes := [(1, None); (2, None); (3, None); (4, None); (5, None); (6, None)];
            d_edges := [(1, 2, 7); (2, 3, 7); (5, 6, 7); (4, 5, 7)] |}. split; [|split; [|split]].
  - split; [tidy_tac | intros u l; simpl; intuition congruence|]. exists [], []. split; [reflexivity | split; constructor].
  - apply readable_small.
    + intros u v l. simpl. intuition (try congruence); repeat match goal with H : (_, _) = (_, _) |- _ => injection H; clear H; intros; subst end; lia.
    + apply names_small. repeat constructor.
  - split.
    + exact row_at_no.
    + intros r [].
    + intros _. split; [nodup_tac | intros r []].
    + intros u v l n _ Hl. unfold node_names in Hl. cbn [d_nodes dget] in Hl.
      repeat match type of Hl with In _ (match (if ?c then _ else _) with _ => _ end) => destruct c; cbn in Hl end; exact Hl.
    + intros u v l i Hi. cbn in Hi. unfold row_no.
      intuition (try congruence); repeat match goal with H : (_, _) = (_, _) |- _ => injection H; clear H; intros; subst end; lia.
    + intros n l i Hl. unfold node_names in Hl. cbn [d_nodes dget] in Hl.
      repeat match type of Hl with In _ (match (if ?c then _ else _) with _ => _ end) => destruct c; cbn in Hl end; destruct Hl.
  - do 4 eexists. split; [vm_compute; reflexivity|]. split; [vm_compute; reflexivity|]. split; [reflexivity|]. split; [reflexivity|].
    split; (split;
      [first [exists 0, 1; do 2 eexists; do 2 (split; [reflexivity|]); split; [lia|]; split; unfold touches; cbn; auto; fail
             | exists 2, 3; do 2 eexists; do 2 (split; [reflexivity|]); split; [lia|]; split; unfold touches; cbn; auto; fail]|]);
      intros i j x y Hx Hy Hij Tx Ty;
      (destruct i as [|[|[|[|i]]]]; [..|destruct i; discriminate Hx]); injection Hx as <-; cbn in Tx; try (exfalso; lia);
      (destruct j as [|[|[|[|j]]]]; [..|destruct j; discriminate Hy]); injection Hy as <-; cbn in Ty; try (exfalso; lia);
      [left|right|right|left]; (split; [reflexivity|]; split; [reflexivity|]); intros a b; unfold meet; cbn; split;
      try (intros [E|[]]; injection E as <- <-; eexists; cbn; auto; fail);
      intros (n & Ha & Hb); destruct Ha as [Ha|[Ha|[]]], Hb as [Hb|[Hb|[]]]; injection Ha as <- <-; injection Hb; intros; subst; try discriminate; auto.
Qed.
Print Assumptions C95_exclusive_refuted.

