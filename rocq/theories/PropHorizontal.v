(* C87: combining candidates horizontally, the pairs that are tried and kept. *)
From Verif Require Import Prelude CheckModel LCMModel VerticalProofs TextModel SplitModel ArrayModel PropArray PeriodModel TreeModel TreeProofs PropTree TreeBlock NestModel NestProofs PropNest PropConcat FactorModel PropFactor PropMineEvent CoverModel PropCover PropTopK CliqueModel PropClique PoolModel FoldModel NestMineModel PropNestMine HorizontalModel.
From Coq Require Import QArith Lqa ListDec.
Local Open Scope nat_scope.

(* i comes before j in the list *)
Definition before (l : list nat) (i j : nat) : Prop := exists a b c, l = a ++ i :: b ++ j :: c.

Lemma before_cons x l i j : before (x :: l) i j <-> (x = i /\ In j l) \/ before l i j.
Proof.
  split.
  - intros (a & b & c & E). destruct a as [|y a]; injection E as -> E.
    + left. split; [reflexivity|]. rewrite E. apply in_elt.
    + right. exists a, b, c. exact E.
  - intros [[-> I]|(a & b & c & ->)].
    + apply in_split in I. destruct I as (b & c & ->). exists [], b, c. reflexivity.
    + exists (x :: a), b, c. reflexivity.
Qed.
Lemma before_in l i j : before l i j -> In i l /\ In j l.
Proof. intros (a & b & c & ->). split; [apply in_elt|]. apply in_or_app. right. right. apply in_elt. Qed.
Lemma before_filter f l i j : before (filter f l) i j <-> before l i j /\ f i = true /\ f j = true.
Proof.
  induction l as [|x l IH]; cbn [filter].
  - split; [intros (a & b & c & E); destruct a; discriminate | intros ((a & b & c & E) & _); destruct a; discriminate].
  - destruct (f x) eqn:Fx; rewrite ?before_cons, IH, ?before_cons, ?filter_In.
    + split; [intros [[-> [A B]]|[A B]]; tauto | intros [[[-> A]|A] [B C]]; tauto].
    + split; [tauto|]. intros [[[-> A]|A] [B C]]; [congruence | tauto].
Qed.
Lemma before_app_r a l i j : before l i j -> before (a ++ l) i j.
Proof. intros (u & v & w & ->). exists (a ++ u), v, w. rewrite <- app_assoc. reflexivity. Qed.
Lemma before_sorted (R : nat -> nat -> Prop) l i j : StronglySorted R l -> before l i j -> R i j.
Proof.
  intros Ss. induction Ss as [|x l Ss IH F]; intros B; [destruct B as (a & b & c & E); destruct a; discriminate|].
  apply before_cons in B. destruct B as [[-> I]|B]; [rewrite Forall_forall in F; auto | auto].
Qed.

Section Slice.
  Variable rows : list row.
  Notation t0 := (t0_at rows).
  Definition in_time_order (pids : list nat) : Prop := StronglySorted (fun a b => (t0 a <= t0 b)%Z) pids.

  Lemma first_over_spec v l : (exists x, In x l /\ (v < t0 x)%Z) -> exists k, first_over rows v l = Ret k /\ k < length l /\
    (v < t0 (nth k l O))%Z /\ forall i, i < k -> (t0 (nth i l O) <= v)%Z.
  Proof.
    induction l as [|x l IH]; intros (y & I & L); [destruct I|]. cbn [first_over]. destruct (Z.ltb_spec v (t0 x)) as [H|H].
    - exists 0. cbn [length nth]. repeat split; [lia | exact H | lia].
    - destruct I as [->|I]; [lia|]. destruct IH as (k & -> & K1 & K2 & K3); [eauto|]. exists (S k). cbn [bind length nth].
      repeat split; [lia | exact K2|]. intros [|i] Hi; [exact H | apply K3; lia].
  Qed.
  Lemma order_nth pids i j : in_time_order pids -> i <= j < length pids -> (t0 (nth i pids O) <= t0 (nth j pids O))%Z.
  Proof.
    intros Ss. revert i j. induction Ss as [|x l Ss IH F]; intros i j H; [cbn in H; lia|]. destruct i as [|i], j as [|j]; cbn [nth length] in *; try lia.
    - rewrite Forall_forall in F. apply F, nth_In. lia.
    - apply IH. lia.
  Qed.
  (* the rows of a list in time order that start at max_v or before are a prefix of it *)
  Lemma prefix_filter pids v n : in_time_order pids -> n <= length pids ->
    (forall i, i < n -> (t0 (nth i pids O) <= v)%Z) -> (n < length pids -> (v < t0 (nth n pids O))%Z) -> firstn n pids = filter (fun j => t0 j <=? v)%Z pids.
  Proof.
    intros Ss. revert n. induction Ss as [|x l Ss IH F]; intros n Hn Hb Ha; [destruct n; reflexivity|]. cbn [filter]. destruct n as [|n].
    - specialize (Ha ltac:(cbn; lia)). cbn [nth firstn] in *. destruct (Z.leb_spec (t0 x) v) as [H|H]; [lia|].
      clear -F Ha. induction l as [|y l IH]; [reflexivity|]. inversion F; subst. cbn [filter]. destruct (Z.leb_spec (t0 y) v); [lia | apply IH; assumption].
    - assert (H := Hb 0 ltac:(lia)). cbn [nth firstn length] in *. destruct (Z.leb_spec (t0 x) v) as [_|H']; [|lia]. f_equal. apply IH; [lia| |].
      + intros i Hi. apply (Hb (S i)). lia.
      + intros L. apply Ha. lia.
  Qed.
  Lemma nth_every size l k : k < (length l + size - 1) / size -> nth k (every size l) O = nth (k * size) l O.
  Proof.
    intros H. unfold every. rewrite (nth_indep _ 0 ((fun k => nth (k * size) l O) 0)) by (rewrite map_length, seq_length; exact H).
    rewrite (map_nth (fun k => nth (k * size) l O)), seq_nth by exact H. reflexivity.
  Qed.
  Lemma nth_last_eq (l : list nat) : nth (length l - 1) l O = last l O.
  Proof. induction l as [|x [|y l] IH]; [reflexivity | reflexivity|]. cbn [length Nat.sub nth last] in *. rewrite Nat.sub_0_r in *. exact IH. Qed.
  Lemma nth_skip {B} (l : list B) d a i : nth i (skipn a l) d = nth (a + i) l d.
  Proof. revert l. induction a as [|a IH]; intros l; [reflexivity|]. destruct l as [|x l]; [destruct i; reflexivity | apply IH]. Qed.
  Lemma nth_first {B} (l : list B) d n i : i < n -> nth i (firstn n l) d = nth i l d.
  Proof. revert n i. induction l as [|x l IH]; intros [|n] [|i] H; try lia; try reflexivity. apply IH. lia. Qed.

  (* C87: with any stride, the slice is the rows that start at max_v or before *)
  Theorem C87_slice : forall pids size max_v, pids <> [] -> 1 <= size -> in_time_order pids ->
    pids_slice rows pids size max_v = Ret (filter (fun j => t0 j <=? max_v)%Z pids).
  Proof.
    intros pids size v Hne Hs Ss. unfold pids_slice. destruct pids as [|x l] eqn:Ep; [contradiction|]. rewrite <- Ep in *. clear Hne.
    assert (Hlen : 0 < length pids) by (rewrite Ep; cbn; lia).
    assert (Hx : x = nth 0 pids O) by (rewrite Ep; reflexivity). rewrite <- nth_last_eq in *.
    destruct (Z.leb_spec (t0 (nth (length pids - 1) pids O)) v) as [L|L].
    - f_equal. rewrite <- (firstn_all pids) at 1. apply prefix_filter; [exact Ss | lia | | lia].
      intros i Hi. pose proof (order_nth pids i (length pids - 1) Ss ltac:(lia)). lia.
    - destruct (Z.ltb_spec v (t0 x)) as [Lx|Lx].
      + f_equal. change (@nil nat) with (firstn 0 pids). apply prefix_filter; [exact Ss | lia | lia | intros _; rewrite <- Hx; exact Lx].
      + set (ns := (length pids + size - 1) / size).
        assert (Hns : ns * size <= length pids + size - 1) by (unfold ns; rewrite Nat.mul_comm; apply Nat.mul_div_le; lia).
        assert (Hns2 : length pids <= ns * size).
        { unfold ns. pose proof (Nat.div_mod (length pids + size - 1) size ltac:(lia)). pose proof (Nat.mod_upper_bound (length pids + size - 1) size ltac:(lia)). nia. }
        assert (Lev : length (every size pids) = ns) by (unfold every; rewrite map_length, seq_length; reflexivity).
        destruct (first_over_spec v (every size pids ++ [nth (length pids - 1) pids O])) as (ii & -> & I1 & I2 & I3).
        { exists (nth (length pids - 1) pids O). split; [apply in_or_app; right; left; reflexivity | exact L]. }
        cbn [bind]. rewrite app_length, Lev in I1. cbn [length] in I1.
        assert (Hii : 1 <= ii).
        { destruct ii as [|ii]; [|lia]. exfalso. destruct ns as [|ns'] eqn:En; [lia|]. rewrite app_nth1 in I2 by lia.
          rewrite nth_every in I2 by (fold ns; lia). cbn [Nat.mul] in I2. rewrite <- Hx in I2. lia. }
        assert (Hlo : (t0 (nth ((ii - 1) * size) pids O) <= v)%Z /\ (ii - 1) * size < length pids).
        { split; [|nia]. specialize (I3 (ii - 1) ltac:(lia)). rewrite app_nth1 in I3 by lia. rewrite nth_every in I3 by (fold ns; lia). exact I3. }
        assert (Hhi : ii * size < length pids -> (v < t0 (nth (ii * size) pids O))%Z).
        { intros H. destruct (Nat.lt_ge_cases ii ns) as [C|C]; [|nia]. rewrite app_nth1 in I2 by lia. rewrite nth_every in I2 by (fold ns; lia). exact I2. }
        set (a := (ii - 1) * size) in *. set (blk := firstn (ii * size + 1 - a) (skipn a pids)).
        assert (Hblk : forall i, i < length blk -> nth i blk O = nth (a + i) pids O).
        { intros i Hi. unfold blk in *. rewrite firstn_length in Hi. rewrite nth_first by lia. apply nth_skip. }
        assert (Lb : length blk = Nat.min (size + 1) (length pids - a)).
        { unfold blk. rewrite firstn_length, skipn_length. f_equal. unfold a. nia. }
        destruct (first_over_spec v blk) as (k & -> & K1 & K2 & K3).
        { destruct (Nat.lt_ge_cases (ii * size) (length pids)) as [C|C].
          - exists (nth size blk O). assert (size < length blk) by (rewrite Lb; unfold a; nia). split; [apply nth_In; assumption|]. rewrite Hblk by assumption.
            replace (a + size) with (ii * size) by (unfold a; nia). apply Hhi, C.
          - exists (nth (length blk - 1) blk O). assert (0 < length blk) by (rewrite Lb; lia). split; [apply nth_In; lia|]. rewrite Hblk by lia.
            replace (a + (length blk - 1)) with (length pids - 1) by (rewrite Lb; unfold a in *; nia). exact L. }
        cbn [bind]. f_equal. rewrite Hblk in K2 by exact K1. apply prefix_filter; [exact Ss | lia | | intros _; exact K2].
        intros i Hi. destruct (Nat.lt_ge_cases i a) as [C|C].
        * pose proof (order_nth pids i a Ss ltac:(lia)). lia.
        * specialize (K3 (i - a) ltac:(lia)). rewrite Hblk in K3 by lia. replace (a + (i - a)) with i in K3 by lia. exact K3.
  Qed.
End Slice.
Print Assumptions C87_slice.

Section Pairs.
  Variable rows : list row.
  Variable cands : dict nat (ccand nat).
  Variable known : nat -> option Q.
  Variable cost : ccand nat -> option Q.
  Variable dcosts : dict nat Q.
  Variable new_num : nat.
  Variable nms : list (ccand nat) -> nat -> nat -> nat.
  Variable text_lt : list nat -> list nat -> bool.
  Notation t0 := (t0_at rows).
  Notation per0 := (p_at rows).
  Notation cid := (cid_at rows).
  Notation fresh := (is_new rows new_num).
  Notation try := (join rows cands known cost dcosts nms text_lt).

  (* Pb (row j) is to be compared with Pa (row i), by the conditions (1)-(3) of the code: at least one
     of the two candidates is new, they are two candidates, Pb starts before the second repetition of
     Pa is over, and the periods are close: the difference, summed over the repetitions that they
     have in common, is at most the corrections of Pb *)
  Definition near (i j : nat) : Prop :=
    let r := Z.min (r_r (row_at rows i) - Z.of_nat (r_off (row_at rows i))) (r_r (row_at rows j) - Z.of_nat (r_off (row_at rows j))) in
    let cum := r_cum (row_at rows j) in
    ((r * (r - 1) <> 0 -> Z.abs (per0 j - per0 i) * (r * (r - 1)) <= 2 * cum) /\ (r * (r - 1) = 0 -> 0 < cum))%Z.
  Lemma close_near i j : close rows i j (Z.min (left_at rows i) (left_at rows j)) = true <-> near i j.
  Proof.
    unfold close, near, left_at. set (r := Z.min _ _). destruct (Z.eqb_spec (r * (r - 1)) 0) as [E|E]; [rewrite Z.ltb_lt | rewrite Z.leb_le]; tauto.
  Qed.
  Definition comparable (i j : nat) : Prop :=
    (fresh i = true \/ fresh j = true) /\ cid j <> cid i /\ (t0 j <= t0 i + per0 i)%Z /\
    near i j.
  (* the candidate of row x was combined, from a row before i *)
  Definition taken (kept : keeping) (pids : list nat) (i x : nat) : Prop :=
    exists i' j' kc, before pids i' i /\ cid i' = cid x /\ before pids i' j' /\ comparable i' j' /\ try i' j' = Ret (Some kc) /\ In kc kept.

  Section Loop.
    Variable all : list nat.
    Hypothesis Htry : forall i j, In i all -> In j all -> cid j <> cid i -> exists o, try i j = Ret o /\ forall k c, o = Some (k, c) -> k = [i; j] \/ k = [j; i].

    Lemma advance_spec n0 pids : In n0 pids -> exists a r, pids = a ++ r /\ advance rows pids n0 = Ret r /\ ~ In n0 a /\ Forall (fun x => (t0 x + per0 x < t0 n0)%Z) a /\
      (exists x r', r = x :: r') /\ In n0 r.
    Proof.
      induction pids as [|x t IH]; intros I; [destruct I|]. cbn [advance]. destruct (Nat.eqb_spec x n0) as [->|N].
      - exists [], (n0 :: t). repeat split; [intros []| constructor | eauto | left; reflexivity].
      - destruct I as [E|I]; [contradiction|]. destruct (Z.ltb_spec (t0 x + per0 x) (t0 n0)) as [L|L].
        + destruct (IH I) as (a & r & -> & E & Na & F & X & I'). exists (x :: a), r. repeat split; [exact E | intros [E'|E']; [contradiction | apply Na, E'] | constructor; assumption | exact X | exact I'].
        + exists [], (x :: t). repeat split; [intros [] | constructor | eauto | right; exact I].
    Qed.
    Lemma kept_pairs_in {X} (f : X -> option (list nat * ccand nat)) l kc : In kc (kept_pairs (map f l)) <-> exists j, In j l /\ f j = Some kc.
    Proof.
      unfold kept_pairs. rewrite in_flat_map. split.
      - intros (o & I & K). apply in_map_iff in I. destruct I as (j & <- & I). exists j. split; [exact I|]. destruct (f j) as [kc'|]; [destruct K as [->|[]]; reflexivity | destruct K].
      - intros (j & I & E). exists (Some kc). split; [rewrite <- E; apply in_map, I | left; reflexivity].
    Qed.
    Lemma dset_fresh (d : keeping) k c : ~ In k (map fst d) -> dset d k c = d ++ [(k, c)].
    Proof.
      induction d as [|[k' c'] d IH]; intros N; [reflexivity|]. cbn [dset map fst app] in *. destruct (eq_dec k k') as [->|Ne]; [exfalso; apply N; left; reflexivity|].
      rewrite IH; [reflexivity|]. intros I. apply N. right. exact I.
    Qed.
    Lemma fold_fresh (l : list (list nat * ccand nat)) : forall d : keeping, NoDup (map fst d ++ map fst l) -> fold_left (fun d kc => dset d (fst kc) (snd kc)) l d = d ++ l.
    Proof.
      induction l as [|[k c] l IH]; intros d N; [rewrite app_nil_r; reflexivity|]. cbn [fold_left fst snd map] in *.
      assert (Nk : ~ In k (map fst d)). { intros I. apply NoDup_remove_2 in N. apply N, in_or_app. left. exact I. }
      rewrite (dset_fresh d k c Nk), IH; [rewrite <- app_assoc; reflexivity|]. rewrite map_app, <- app_assoc. exact N.
    Qed.
    Lemma in_order_app a b : in_time_order rows (a ++ b) -> in_time_order rows b.
    Proof. induction a as [|x a IH]; intros S0; [exact S0|]. apply IH. inversion S0; assumption. Qed.
    Lemma in_order_filter f l : in_time_order rows l -> in_time_order rows (filter f l).
    Proof.
      intros S0. induction S0 as [|x l S0 IH F]; [constructor|]. cbn [filter]. destruct (f x); [|exact IH]. constructor; [exact IH|].
      rewrite Forall_forall in *. intros y I. apply filter_In in I. apply F, I.
    Qed.

    (* what happens to the rows in front of the first one that is compared *)
    Lemma skip_spec pids news : in_time_order rows pids -> NoDup pids -> 1 < length pids ->
      (news = None \/ news = Some (filter fresh pids)) -> news <> Some [] ->
      exists a i pids1 news1, skip_old rows pids news = Ret (i :: pids1, news1) /\
        ((exists b, pids = a ++ i :: b /\ pids1 = [] /\ news <> None /\ fresh i = true /\ filter fresh b = []) \/
         (pids = a ++ i :: pids1 /\ (news1 = None <-> news = None) /\ (news1 = None \/ news1 = Some (filter fresh pids1)) /\ news1 <> Some [])) /\
        (forall x j, In x a -> before pids x j -> ~ comparable x j).
    Proof.
      intros S0 N0 L0 Hn Hne. destruct Hn as [->|En].
      - destruct pids as [|i pids1]; [cbn in L0; lia|]. exists [], i, pids1, None. cbn [skip_old]. split; [reflexivity|]. split; [|intros x j []].
        right. repeat split; auto; discriminate.
      - rewrite En in *. destruct (filter fresh pids) as [|n0 ns] eqn:Ef; [congruence|].
        assert (I0 : In n0 (filter fresh pids)) by (rewrite Ef; left; reflexivity). apply filter_In in I0. destruct I0 as [I0 F0].
        destruct (advance_spec n0 pids I0) as (a & r & E & Ea & Na & Fa & (x & r' & Er) & Ir). subst r. cbn [skip_old]. rewrite Ea. cbn [bind].
        assert (Olda : filter fresh a = []).
        { rewrite E, filter_app in Ef. destruct (filter fresh a) as [|y l] eqn:Fa'; [reflexivity|]. exfalso. injection Ef as -> _. apply Na.
          assert (I : In n0 (filter fresh a)) by (rewrite Fa'; left; reflexivity). apply filter_In in I. apply I. }
        assert (Er : filter fresh (x :: r') = n0 :: ns) by (rewrite E, filter_app, Olda in Ef; exact Ef).
        assert (Hmin : forall j, In j pids -> fresh j = true -> (t0 n0 <= t0 j)%Z).
        { intros j I Fj. assert (J : In j (filter fresh pids)) by (apply filter_In; auto). rewrite Ef in J. destruct J as [->|J]; [lia|].
          pose proof (in_order_filter fresh pids S0) as S1. rewrite Ef in S1. inversion S1 as [|? ? _ F1]; subst. rewrite Forall_forall in F1. apply F1, J. }
        assert (Drop : forall y j, In y a -> before pids y j -> ~ comparable y j).
        { intros y j I B ([Fy|Fj] & _ & T & _).
          - assert (J : In y (filter fresh a)) by (apply filter_In; auto). rewrite Olda in J. destruct J.
          - rewrite Forall_forall in Fa. specialize (Fa y I). cbn beta in Fa. specialize (Hmin j (proj2 (before_in _ _ _ B)) Fj). lia. }
        destruct (Nat.eqb_spec x n0) as [->|Nx].
        + cbn [filter] in Er. rewrite F0 in Er. injection Er as Er. destruct ns as [|n1 ns].
          * exists a, n0, [], (Some []). split; [reflexivity|]. split; [|exact Drop]. left. exists r'. repeat split; auto; discriminate.
          * exists a, n0, r', (Some (n1 :: ns)). split; [reflexivity|]. split; [|exact Drop]. right. split; [exact E|]. split; [split; discriminate|]. split; [right; rewrite Er; reflexivity | discriminate].
        + assert (Fx : fresh x = false). { destruct (fresh x) eqn:Fx; [|reflexivity]. cbn [filter] in Er. rewrite Fx in Er. injection Er as Er _. congruence. }
          exists a, x, r', (Some (n0 :: ns)). split; [reflexivity|]. split; [|exact Drop]. right. split; [exact E|]. split; [split; discriminate|].
          split; [right; cbn [filter] in Er; rewrite Fx in Er; rewrite Er; reflexivity | discriminate].
    Qed.
    Lemma compare_spec i pids news : in_time_order rows (i :: pids) -> pids <> [] -> NoDup pids -> (news = None \/ news = Some (filter fresh pids)) -> news <> Some [] ->
      exists l, to_compare rows new_num i pids news = Ret l /\ NoDup l /\ forall j, In j l <-> In j pids /\ (t0 j <= t0 i + per0 i)%Z /\ (fresh i = true \/ fresh j = true).
    Proof.
      intros S0 Hp N0 Hn Hne. inversion S0 as [|? ? S1 _]; subst. unfold to_compare. rewrite (C87_slice rows pids 500 _ Hp ltac:(lia) S1). destruct (fresh i) eqn:Fi.
      - eexists. split; [reflexivity|]. split; [apply NoDup_filter; assumption|]. intros j. rewrite filter_In, Z.leb_le. tauto.
      - destruct Hn as [->|En].
        + cbn [bind]. eexists. split; [reflexivity|]. split; [apply NoDup_filter, NoDup_filter; assumption|]. intros j. rewrite !filter_In, Z.leb_le. intuition discriminate.
        + rewrite En in *. destruct (filter fresh pids) as [|n0 ns] eqn:Ef; [congruence|]. eexists. split; [reflexivity|]. rewrite <- Ef.
          split; [apply NoDup_filter, NoDup_filter; assumption|]. intros j. rewrite !filter_In, Z.leb_le. intuition discriminate.
    Qed.
    Lemma NoDup_tail (a : list nat) i b : NoDup (a ++ i :: b) -> NoDup b /\ ~ In i b.
    Proof. induction a as [|x a IH]; intros N; inversion N; subst; auto. Qed.
    Lemma taken_mono kept kept' pids pids' i x : incl kept kept' -> (forall u v, before pids u v -> before pids' u v) -> taken kept pids i x -> taken kept' pids' i x.
    Proof. intros H1 H2 (i' & j' & kc & A & B & C & D & E & F). exists i', j', kc. split; [auto|]. split; [exact B|]. split; [auto|]. split; [exact D|]. split; [exact E | auto]. Qed.

    Lemma filter_length_le' {X} (f : X -> bool) l : length (filter f l) <= length l.
    Proof. induction l as [|x l IHl]; [constructor|]. cbn [filter]. destruct (f x); cbn [length]; lia. Qed.
    Lemma filter_comm' {X} (f g : X -> bool) l : filter f (filter g l) = filter g (filter f l).
    Proof. induction l as [|x l IHl]; [reflexivity|]. cbn [filter]. destruct (f x) eqn:Ff, (g x) eqn:Fg; cbn [filter]; rewrite ?Ff, ?Fg, IHl; reflexivity. Qed.
    Lemma keys_distinct (J : nat -> option (list nat * ccand nat)) i q : NoDup q -> (forall j, In j q -> j <> i /\ forall k c, J j = Some (k, c) -> k = [i; j] \/ k = [j; i]) ->
      NoDup (map fst (kept_pairs (map J q))).
    Proof.
      induction q as [|j q IHq]; intros N H; [constructor|]. inversion N as [|? ? Nj Nq]; subst. pose proof (IHq Nq (fun j' I => H j' (or_intror I))) as IH'.
      change (kept_pairs (map J (j :: q))) with ((match J j with Some kc => [kc] | None => [] end) ++ kept_pairs (map J q)).
      destruct (J j) as [[k c]|] eqn:Ej; [|exact IH']. cbn [app map fst]. constructor; [|exact IH']. intros I. apply in_map_iff in I. destruct I as ([k' c'] & E & I). cbn [fst] in E. subst k'.
      apply kept_pairs_in in I. destruct I as (j' & I & E'). destruct (H j (or_introl eq_refl)) as [Nji Hk]. destruct (H j' (or_intror I)) as [Nji' Hk'].
      specialize (Hk k c Ej). specialize (Hk' k c' E'). destruct Hk as [-> | ->], Hk' as [E2|E2]; injection E2 as; subst; try congruence; contradiction.
    Qed.

    Lemma pairs_spec fuel : forall pids news keep seen, length pids < fuel -> in_time_order rows pids -> NoDup pids -> incl pids all ->
      (news = None \/ news = Some (filter fresh pids)) -> (news = Some [] -> length pids <= 1) ->
      (forall kc, In kc keep -> exists x, In x (fst kc) /\ ~ In x pids) -> NoDup (map fst keep) -> incl seen all ->
      exists added seen', pairs rows cands known cost dcosts new_num nms text_lt fuel pids news keep seen = Ret (keep ++ added, seen') /\
        incl seen' all /\ NoDup (map fst (keep ++ added)) /\ (added <> [] -> seen' <> []) /\ (seen <> [] -> seen' <> []) /\
        (forall kc, In kc added -> exists i j, before pids i j /\ comparable i j /\ try i j = Ret (Some kc)) /\
        (forall i j kc, before pids i j -> comparable i j -> try i j = Ret (Some kc) ->
           In kc added \/ taken added pids i i \/ taken added pids i j \/
           (news <> None /\ fresh i = true /\ forall x, before pids i x -> fresh x = true -> taken added pids i x)).
    Proof.
      induction fuel as [|f IH]; intros pids news keep seen Lf S0 N0 Ia Hn Hl Hk Nk Is; [lia|]. cbn [pairs].
      destruct (Nat.leb_spec (length pids) 1) as [L1|L1].
      { exists [], seen. rewrite app_nil_r. repeat split; auto; [intros kc [] |]. intros i j kc B. exfalso.
        destruct B as (a & b & c & ->). rewrite app_length in L1. cbn [length] in L1. rewrite app_length in L1. cbn [length] in L1. lia. }
      destruct (skip_spec pids news S0 N0 L1 Hn) as (a & i & pids1 & news1 & Es & Hcase & Hdrop); [intros E; specialize (Hl E); lia|]. rewrite Es. cbn [bind fst snd].
      destruct Hcase as [(b & Ep & -> & Nn & Fi & Fb)|(Ep & Hnn & Hn1 & Hne1)].
      { (* the last new row *)
        exists [], seen. rewrite app_nil_r. repeat split; auto; [intros kc [] |]. intros i' j kc B C _. right. right. right.
        assert (Hi : i' = i).
        { pose proof B as B'. rewrite Ep in B'. destruct (in_dec Nat.eq_dec i' a) as [Ia'|Na]; [exfalso; exact (Hdrop i' j Ia' B C)|].
          assert (Bb : before (i :: b) i' j).
          { clear -B' Na. induction a as [|y a IHa]; [exact B'|]. cbn [app] in B'. apply before_cons in B'. destruct B' as [[-> _]|B']; [exfalso; apply Na; left; reflexivity | apply IHa; [exact B' | intros I; apply Na; right; exact I]]. }
          apply before_cons in Bb. destruct Bb as [[-> _]|Bb]; [reflexivity|]. exfalso. destruct C as ([Fx|Fx] & _).
          - assert (J : In i' (filter fresh b)) by (apply filter_In; split; [apply (before_in _ _ _ Bb) | exact Fx]). rewrite Fb in J. destruct J.
          - assert (J : In j (filter fresh b)) by (apply filter_In; split; [apply (before_in _ _ _ Bb) | exact Fx]). rewrite Fb in J. destruct J. }
        subst i'. split; [exact Nn|]. split; [exact Fi|]. intros x Bx Fx. exfalso. rewrite Ep in Bx, N0.
        assert (Ixb : In x b).
        { clear -Bx N0. induction a as [|y a IHa]; cbn [app] in *; apply before_cons in Bx; inversion N0 as [|? ? Ny N1]; subst.
          - destruct Bx as [[_ I]|B]; [exact I|]. exfalso. apply Ny, (before_in _ _ _ B).
          - destruct Bx as [[-> _]|B]; [exfalso; apply Ny, in_elt | apply IHa; assumption]. }
        assert (J : In x (filter fresh b)) by (apply filter_In; auto). rewrite Fb in J. destruct J. }
      assert (S1 : in_time_order rows (i :: pids1)) by (rewrite Ep in S0; apply (in_order_app a _ S0)).
      destruct (NoDup_tail a i pids1) as [N1 Ni]; [rewrite <- Ep; exact N0|].
      assert (Iai : In i all) by (apply Ia; rewrite Ep; apply in_elt). assert (Ia1 : incl pids1 all) by (intros x I; apply Ia; rewrite Ep; apply in_or_app; right; right; exact I).
      (* pairs of the whole list: dropped, from i, or later *)
      assert (Hsplit : forall u v, before pids u v -> comparable u v -> (i = u /\ In v pids1) \/ before pids1 u v).
      { intros u v B C. apply before_cons. destruct (in_dec Nat.eq_dec u a) as [I|Nu]; [exfalso; exact (Hdrop u v I B C)|]. clear -B Nu Ep. rewrite Ep in B. clear Ep.
        induction a as [|y a IHa]; [exact B|]. cbn [app] in B. apply before_cons in B. destruct B as [[-> _]|B]; [exfalso; apply Nu; left; reflexivity | apply IHa; [exact B | intros I; apply Nu; right; exact I]]. }
      assert (Hup : forall u v, before (i :: pids1) u v -> before pids u v) by (intros u v B; rewrite Ep; apply before_app_r, B).
      assert (Hup1 : forall u v, before pids1 u v -> before pids u v) by (intros u v B; apply Hup, before_cons; right; exact B).
      destruct pids1 as [|y1 t1].
      { exists [], seen. rewrite app_nil_r. repeat split; auto; [intros kc [] |]. intros u v kc B C _. exfalso. destruct (Hsplit u v B C) as [[_ []]|(x & y & z & E')]. destruct x; discriminate. }
      set (pids1 := y1 :: t1) in *. assert (Hp1 : pids1 <> []) by discriminate. clearbody pids1. clear y1 t1.
      destruct (compare_spec i pids1 news1 S1 Hp1 N1 Hn1 Hne1) as (l & El & Nl & Hlj). rewrite El. cbn [bind].
      set (ps := partners rows i l). assert (Hps : forall j, In j ps <-> In j pids1 /\ comparable i j).
      { intros j. unfold ps, partners. rewrite !filter_In, Hlj, negb_true_iff, Nat.eqb_neq. rewrite close_near. unfold comparable. tauto. }
      assert (Nps : NoDup ps) by (apply NoDup_filter, NoDup_filter, Nl).
      set (J := fun j => match try i j with Ret o => o | _ => None end).
      assert (HJ : forall j, In j ps -> try i j = Ret (J j) /\ forall k c, J j = Some (k, c) -> k = [i; j] \/ k = [j; i]).
      { intros j I. apply Hps in I. destruct I as [I (_ & Cd & _)]. destruct (Htry i j Iai (Ia1 j I) Cd) as (o & Eo & Ho). unfold J. rewrite Eo. auto. }
      assert (Emap : map_out (fun j => try i j) ps = Ret (map J ps)).
      { clear -HJ. induction ps as [|j ps IHp]; [reflexivity|]. cbn [map_out map]. rewrite (proj1 (HJ j (or_introl eq_refl))). cbn [bind].
        rewrite IHp by (intros j' I; apply HJ; right; exact I). reflexivity. }
      fold ps. rewrite Emap. cbn [bind]. set (found := kept_pairs (map J ps)).
      assert (Hf : forall kc, In kc found <-> exists j, In j pids1 /\ comparable i j /\ try i j = Ret (Some kc)).
      { intros kc. unfold found. rewrite kept_pairs_in. split.
        - intros (j & I & E). exists j. pose proof (proj1 (HJ j I)) as T. rewrite E in T. apply Hps in I. tauto.
        - intros (j & I & C & E). assert (Ij : In j ps) by (apply Hps; auto). exists j. split; [exact Ij|]. destruct (HJ j Ij) as [T _]. congruence. }
      assert (Nf : NoDup (map fst found)).
      { apply (keys_distinct J i ps Nps). intros j I. split; [|apply HJ, I]. intros ->. apply Ni, Hps, I. }
      assert (Hfk : forall kc, In kc found -> In i (fst kc) /\ incl (fst kc) pids).
      { intros [k c] I. cbn [fst]. assert (I' := I). apply kept_pairs_in in I'. destruct I' as (j & Ij & Ej). destruct (HJ j Ij) as [_ Hkj]. specialize (Hkj k c Ej). apply Hps in Ij. destruct Ij as [Ij _].
        assert (Ii : In i pids) by (rewrite Ep; apply in_elt). assert (Ij' : In j pids) by (rewrite Ep; apply in_or_app; right; right; exact Ij).
        destruct Hkj as [-> | ->]; split; try (intros y [<-|[<-|[]]]; assumption); cbn; auto. }
      assert (Nkf : NoDup (map fst keep ++ map fst found)).
      { apply NoDup_app_intro; [exact Nk | exact Nf|]. intros k I1 I2. apply in_map_iff in I1, I2. destruct I1 as (kc1 & <- & I1), I2 as (kc2 & E & I2).
        destruct (Hk kc1 I1) as (x & Ix & Nx). apply Nx, (proj2 (Hfk kc2 I2)). rewrite E. exact Ix. }
      rewrite (fold_fresh found keep Nkf).
      set (seen1 := match rev ps with [] => seen | j :: _ => [i; j] end).
      assert (Is1 : incl seen1 all).
      { unfold seen1. destruct (rev ps) as [|j l'] eqn:Er; [exact Is|]. intros y [<-|[<-|[]]]; [exact Iai|]. apply Ia1. apply (Hps j). rewrite in_rev, Er. left. reflexivity. }
      assert (Ns1 : (seen <> [] -> seen1 <> []) /\ (found <> [] -> seen1 <> [])).
      { unfold seen1, found. destruct (rev ps) as [|j l'] eqn:Er; split; try discriminate; auto. intros Nf'. exfalso. apply Nf'.
        assert (E : ps = []) by (rewrite <- (rev_involutive ps), Er; reflexivity). rewrite E. reflexivity. }
      assert (Step : forall pids2 news2, (forall u v, before pids2 u v -> before pids1 u v) -> length pids2 <= length pids1 -> in_time_order rows pids2 -> NoDup pids2 -> incl pids2 pids1 ->
          (news2 = None \/ news2 = Some (filter fresh pids2)) -> (news2 = Some [] -> length pids2 <= 1) -> (news2 <> None -> news <> None) ->
          (forall u v, before pids1 u v -> comparable u v -> before pids2 u v \/ taken found pids u u \/ taken found pids u v) ->
          (forall u x, In u pids2 -> before pids1 u x -> before pids2 u x \/ taken found pids u x) ->
          exists added seen', pairs rows cands known cost dcosts new_num nms text_lt f pids2 news2 (keep ++ found) seen1 = Ret (keep ++ added, seen') /\
            incl seen' all /\ NoDup (map fst (keep ++ added)) /\ (added <> [] -> seen' <> []) /\ (seen <> [] -> seen' <> []) /\
            (forall kc, In kc added -> exists i j, before pids i j /\ comparable i j /\ try i j = Ret (Some kc)) /\
            (forall i j kc, before pids i j -> comparable i j -> try i j = Ret (Some kc) ->
               In kc added \/ taken added pids i i \/ taken added pids i j \/
               (news <> None /\ fresh i = true /\ forall x, before pids i x -> fresh x = true -> taken added pids i x))).
      { intros pids2 news2 P1 P2 P3 P4 P5 P6 P7 P8 P9 P10.
        assert (Lp : length pids1 < length pids) by (rewrite Ep, app_length; cbn [length]; lia).
        assert (I2 : incl pids1 pids) by (intros x Ix; rewrite Ep; apply in_or_app; right; right; exact Ix).
        destruct (IH pids2 news2 (keep ++ found) seen1) as (added & seen' & Er & R1 & R2 & R3 & R4 & R5 & R6); auto; [lia | intros x Ix; apply Ia1, P5, Ix | | rewrite map_app; exact Nkf |].
        { intros kc Ik. apply in_app_or in Ik. destruct Ik as [Ik|Ik].
          - destruct (Hk kc Ik) as (x & Ix & Nx). exists x. split; [exact Ix|]. intros Ix'. apply Nx, I2, P5, Ix'.
          - exists i. split; [apply (proj1 (Hfk kc Ik))|]. intros Ix'. apply Ni, P5, Ix'. }
        rewrite <- app_assoc in Er, R2. exists (found ++ added), seen'.
        split; [exact Er|]. split; [exact R1|]. split; [exact R2|].
        split; [intros Na; destruct found as [|kc0 fd]; [apply R3; exact Na | apply R4, (proj2 Ns1); discriminate]|].
        split; [intros Na; apply R4, (proj1 Ns1), Na|].
        split.
        { intros kc Ik. apply in_app_or in Ik. destruct Ik as [Ik|Ik].
          - apply Hf in Ik. destruct Ik as (j & Ij & C & T). exists i, j. split; [apply Hup, before_cons; auto | auto].
          - destruct (R5 kc Ik) as (u & v & B & C & T). exists u, v. split; [apply Hup1, P1, B | auto]. }
        assert (T1 : forall u x, taken found pids u x -> taken (found ++ added) pids u x) by (intros u x; apply taken_mono; [apply incl_appl, incl_refl | auto]).
        assert (T2 : forall u x, taken added pids2 u x -> taken (found ++ added) pids u x) by (intros u x; apply taken_mono; [apply incl_appr, incl_refl | auto]).
        intros u v kc B C T. destruct (Hsplit u v B C) as [[<- Iv]|B1].
        { left. apply in_or_app. left. apply Hf. exists v. auto. }
        destruct (P9 u v B1 C) as [B2|[Tk|Tk]]; [|right; left; auto | right; right; left; auto].
        destruct (R6 u v kc B2 C T) as [Ik|[Tk|[Tk|(Q1 & Q2 & Q3)]]]; [left; apply in_or_app; auto | auto | auto |]. right. right. right.
        split; [auto|]. split; [exact Q2|]. intros x Bx Fx.
        assert (Bx1 : before pids1 u x).
        { clear -Bx B1 Ep N0 Ni. rewrite Ep in Bx, N0. assert (Iu : In u pids1) by apply (before_in _ _ _ B1). clear B1 Ep. induction a as [|y a IHa]; cbn [app] in *; apply before_cons in Bx; inversion N0 as [|? ? Ny N1]; subst.
          - destruct Bx as [[-> _]|Bx]; [contradiction | exact Bx].
          - destruct Bx as [[-> _]|Bx]; [exfalso; apply Ny, in_or_app; right; right; exact Iu | apply IHa; assumption]. }
        destruct (P10 u x (proj1 (before_in _ _ _ B2)) Bx1) as [Bx2|Tk]; auto. }
      clear Emap El.
      assert (S1' : in_time_order rows pids1) by (inversion S1; assumption).
      destruct found as [|kc0 fd] eqn:Efound.
      - rewrite app_nil_r in *. apply (Step pids1 news1); auto; try (intros E; contradiction); try (intros E E2; apply E, Hnn, E2). apply incl_refl.
      - assert (Tki : forall u x, In u pids1 -> cid x = cid i -> taken (kc0 :: fd) pids u x).
        { intros u x Iu Ex. destruct (proj1 (Hf kc0) (or_introl eq_refl)) as (j & Ij & C & T). exists i, j, kc0. split; [apply Hup, before_cons; auto|].
          split; [auto|]. split; [apply Hup, before_cons; auto|]. split; [exact C|]. split; [exact T | left; reflexivity]. }
        assert (B1 : forall u v, before (others rows i pids1) u v -> before pids1 u v) by (intros u v B; apply before_filter in B; apply B).
        assert (B2 : forall u v, before pids1 u v -> before (others rows i pids1) u v \/ cid u = cid i \/ cid v = cid i).
        { intros u v B. destruct (Nat.eq_dec (cid u) (cid i)) as [E|Nu]; [auto|]. destruct (Nat.eq_dec (cid v) (cid i)) as [E|Nv]; [auto|]. left. apply before_filter.
          split; [exact B|]. rewrite !negb_true_iff, !Nat.eqb_neq. auto. }
        assert (Hoth : forall news2, (news2 = None \/ news2 = Some (filter fresh (others rows i pids1))) -> news2 <> Some [] -> (news2 <> None -> news <> None) ->
           exists added seen', pairs rows cands known cost dcosts new_num nms text_lt f (others rows i pids1) news2 (keep ++ kc0 :: fd) seen1 = Ret (keep ++ added, seen') /\
            incl seen' all /\ NoDup (map fst (keep ++ added)) /\ (added <> [] -> seen' <> []) /\ (seen <> [] -> seen' <> []) /\
            (forall kc, In kc added -> exists i j, before pids i j /\ comparable i j /\ try i j = Ret (Some kc)) /\
            (forall i j kc, before pids i j -> comparable i j -> try i j = Ret (Some kc) ->
               In kc added \/ taken added pids i i \/ taken added pids i j \/
               (news <> None /\ fresh i = true /\ forall x, before pids i x -> fresh x = true -> taken added pids i x))).
        { intros news2 G1 G2 G3. apply (Step (others rows i pids1) news2); auto.
          - apply filter_length_le'.
          - apply in_order_filter; assumption.
          - apply NoDup_filter; assumption.
          - intros x Ix. apply filter_In in Ix. apply Ix.
          - intros E. contradiction.
          - intros u v B C. destruct (B2 u v B) as [B'|[E|E]]; [auto | right; left; apply Tki; [apply (before_in _ _ _ B) | exact E] | right; right; apply Tki; [apply (before_in _ _ _ B) | exact E]].
          - intros u x Iu B. destruct (B2 u x B) as [B'|[E|E]]; [auto | | right; apply Tki; [apply (before_in _ _ _ B) | exact E]].
            exfalso. apply filter_In in Iu. destruct Iu as [_ Iu]. rewrite negb_true_iff, Nat.eqb_neq in Iu. congruence. }
        destruct news1 as [ns|].
        + destruct Hn1 as [E|E]; [discriminate|]. injection E as ->.
          assert (Eo : others rows i (filter fresh pids1) = filter fresh (others rows i pids1)) by apply filter_comm'.
          rewrite Eo. destruct (filter fresh (others rows i pids1)) as [|n0 ns'] eqn:Eff.
          * apply (Step [] (Some [])); auto; try solve [constructor | cbn; lia | discriminate].
            -- intros u v (x & y & z & E). destruct x; discriminate.
            -- intros x [].
            -- intros _. intros E. apply Hnn in E. discriminate.
            -- intros u v B C. right. destruct (B2 u v B) as [B'|[E|E]]; [|left; apply Tki; [apply (before_in _ _ _ B) | exact E] | right; apply Tki; [apply (before_in _ _ _ B) | exact E]].
               exfalso. destruct (before_in _ _ _ B') as [Iu Iv]. destruct C as ([F|F] & _).
               ++ assert (X : In u (filter fresh (others rows i pids1))) by (apply filter_In; auto). rewrite Eff in X. destruct X.
               ++ assert (X : In v (filter fresh (others rows i pids1))) by (apply filter_In; auto). rewrite Eff in X. destruct X.
          * apply Hoth; [right; reflexivity | discriminate |]. intros _ E. apply Hnn in E. discriminate.
        + apply Hoth; [left; reflexivity | discriminate | congruence].
    Qed.
  End Loop.
End Pairs.

(* ---------------------------------------------------------------- joining candidates *)
Fixpoint given_ids (nm : nat -> nat -> nat) (ci : nat) (cs : list (ccand nat)) : list nat :=
  match cs with [] => [] | c :: cs' => map (nm ci) (kid_ids c) ++ given_ids nm (S ci) cs' end.
Lemma concat_ids nm (l : list (ccand nat * nat)) : forall ci prev ch, concat_kids nm ci prev l = Ret ch -> concat (map (fun cd => node_ids (fst cd)) ch) = given_ids nm ci (map fst l).
Proof.
  induction l as [|[c f] l IH]; intros ci prev ch E; cbn [concat_kids] in E; [injection E as <-; reflexivity|].
  destruct (top_kids (nm ci) c) as [k| |] eqn:Ek; try discriminate. cbn [bind] in E.
  destruct (match prev with None => Ret k | Some pb => match k with [] => Exn IndexError | (k0, _) :: ch' => bind (head_at (blocks_O c f) 0) (fun a => bind (head_at pb 0) (fun b => Ret ((k0, (a - b)%Z) :: ch'))) end end) as [k1| |] eqn:E1; try discriminate. cbn [bind] in E.
  destruct (concat_kids nm (S ci) (Some (blocks_O c f)) l) as [rest| |] eqn:Er; try discriminate. cbn [bind] in E. injection E as <-.
  rewrite map_app, concat_app, (IH _ _ _ Er). cbn [map fst given_ids]. f_equal.
  assert (H1 : concat (map (fun cd => node_ids (fst cd)) k1) = concat (map (fun cd => node_ids (fst cd)) k)).
  { destruct prev as [pb|]; [|injection E1 as <-; reflexivity]. destruct k as [|[k0 d] k]; [discriminate|].
    destruct (head_at (blocks_O c f) 0) as [a| |]; try discriminate. destruct (head_at pb 0) as [b| |]; try discriminate. injection E1 as <-. reflexivity. }
  rewrite H1. unfold top_kids in Ek. unfold kid_ids. destruct (cc_P c) as [e p|t]; [injection Ek as <-; reflexivity|]. destruct t as [n e|n r p ch]; [discriminate|]. injection Ek as <-.
  unfold renum_kids. cbn [node_ids tl]. rewrite concat_map, !map_map. f_equal. apply map_ext. intros cd. apply renum_ids.
Qed.
Lemma swap_concat {X Y Z0} (f : X -> Y -> list Z0) (l : list X) (r : list Y) : Permutation (concat (map (fun y => concat (map (fun x => f x y) l)) r)) (concat (map (fun x => concat (map (f x) r)) l)).
Proof.
  induction r as [|y r IH]; cbn [map concat].
  - induction l as [|x l IHl]; [constructor | exact IHl].
  - rewrite IH. clear IH. induction l as [|x l IHl]; [constructor|]. cbn [map concat]. rewrite <- IHl, <- !app_assoc. apply Permutation_app_head.
    rewrite !app_assoc. apply Permutation_app_tail, Permutation_app_comm.
Qed.
(* consecutive repetitions are a stretch of the candidate *)
Lemma stretch (c : ccand nat) k : forall n, exists m, concat (map (repetition c) (List.seq k n)) = firstn m (skipn (k * (length (dated c) / reps_of c)) (dated c)).
Proof.
  unfold repetition. set (d := length (dated c) / reps_of c). set (L := dated c). clearbody d L. intros n. exists (n * d). revert k. induction n as [|n IH]; intros k; [reflexivity|].
  cbn [List.seq map concat]. rewrite IH. replace (S k * d) with (k * d + d) by lia. rewrite <- skipn_skipn'. set (M := skipn (k * d) L). clearbody M.
  clear. replace (S n * d) with (d + n * d) by lia. generalize (n * d). intros e. revert M. induction d as [|d IH]; intros M; [reflexivity|]. destruct M as [|x M]; [cbn; rewrite firstn_nil; reflexivity|].
  cbn [firstn skipn app Nat.add]. f_equal. apply IH.
Qed.
Lemma in_firstn {X} n (l : list X) x : In x (firstn n l) -> In x l.
Proof. intros I. rewrite <- (firstn_skipn n l). apply in_or_app. left. exact I. Qed.
Lemma in_skipn {X} n (l : list X) x : In x (skipn n l) -> In x l.
Proof. intros I. rewrite <- (firstn_skipn n l). apply in_or_app. right. exact I. Qed.
Lemma NoDup_firstn {X} n (l : list X) : NoDup l -> NoDup (firstn n l).
Proof. revert n. induction l as [|x l IH]; intros [|n] N; try constructor; inversion N; subst; [|apply IH; assumption]. intros I. apply in_firstn in I. contradiction. Qed.
Lemma NoDup_skipn {X} n (l : list X) : NoDup l -> NoDup (skipn n l).
Proof. revert n. induction l as [|x l IH]; intros [|n] N; try assumption. inversion N; subst. apply IH. assumption. Qed.
Lemma NoDup_concat_disjoint {X Y} (f : X -> list Y) l : NoDup l -> (forall x, In x l -> NoDup (f x)) -> (forall x y, In x l -> In y l -> x <> y -> forall o, In o (f x) -> ~ In o (f y)) ->
  NoDup (concat (map f l)).
Proof.
  induction l as [|x l IH]; intros N H1 H2; [constructor|]. inversion N as [|? ? Nx Nl]; subst. cbn [map concat]. apply NoDup_app_intro; [apply H1; left; reflexivity | |].
  - apply IH; [exact Nl | intros; apply H1; right; assumption | intros u v Iu Iv N2; apply (H2 u v (or_intror Iu) (or_intror Iv) N2)].
  - intros o I1 I2. apply in_concat in I2. destruct I2 as (L & IL & Io). apply in_map_iff in IL. destruct IL as (y & <- & Iy).
    apply (H2 x y (or_introl eq_refl) (or_intror Iy)) with (o := o); [intros ->; contradiction | exact I1 | exact Io].
Qed.

Section Join.
  Variable rows : list row.
  Variable cands : dict nat (ccand nat).
  Variable known : nat -> option Q.
  Variable cost : ccand nat -> option Q.
  Variable dcosts : dict nat Q.
  Variable nms : list (ccand nat) -> nat -> nat -> nat.
  Variable text_lt : list nat -> list nat -> bool.
  Notation t0 := (t0_at rows).
  Notation cid := (cid_at rows).
  Notation off := (fun i => r_off (row_at rows i)).
  Notation make := (on_order rows cands nms).
  (* the candidate of a row *)
  Definition cnd (i : nat) : ccand nat := match dget cands (cid i) with Some c => c | None => {| cc_P := Simple 0 0%Z; cc_O := []; cc_E := [] |} end.
  (* what is known of a row of the pool *)
  Record row_ok (i : nat) : Prop := {
    ro_cand : dget cands (cid i) = Some (cnd i);
    ro_shape : shaped (cnd i);
    ro_full : full (cnd i);
    ro_ids : NoDup (kid_ids (cnd i));
    ro_reps : r_r (row_at rows i) = Z.of_nat (reps_of (cnd i));
    ro_off : off i < reps_of (cnd i);
    ro_costs : forall o, In o (dated (cnd i)) -> dget dcosts (snd o) <> None }.
  (* the candidates of the rows take turns, from the offsets of the rows on, until the first of them
     has no repetition left *)
  Record alternates (pids : list nat) (c : ccand nat) : Prop := {
    al_turns : exists r0 ch, cc_P c = Patt (Node 0 r0 (p_at rows (hd 0 pids)) ch) /\ 1 <= r0 /\
      (forall i, In i pids -> off i + r0 <= reps_of (cnd i)) /\ (exists i, In i pids /\ off i + r0 = reps_of (cnd i)) /\
      dated c = concat (map (fun k => concat (map (fun i => repetition (cnd i) (off i + k)) pids)) (List.seq 0 r0));
    al_shape : shaped c;
    al_full : full c;
    al_sound : (forall i, In i pids -> sound (cnd i)) -> (forall i, In i (removelast pids) -> length (kids_of (cnd i)) = 1) -> sound c;
    al_ids : NoDup (node_ids (tree_of c)) }.
  Definition disjoint (i j : nat) : Prop := forall o, In o (dated (cnd i)) -> ~ In o (dated (cnd j)).
  Hypothesis Hids : forall cs, (forall c, In c cs -> NoDup (kid_ids c)) -> NoDup (0 :: given_ids (nms cs) 0 cs).

  Lemma cand_at_ok i : row_ok i -> cand_at rows cands i = Ret (cnd i).
  Proof. intros H. unfold cand_at. rewrite (ro_cand i H). reflexivity. Qed.
  Lemma cands_ok pids : Forall row_ok pids -> map_out (cand_at rows cands) pids = Ret (map cnd pids).
  Proof. induction 1 as [|i l H F IH]; [reflexivity|]. cbn [map_out map]. rewrite (cand_at_ok i H). cbn [bind]. rewrite IH. reflexivity. Qed.
  Lemma least_left pids i0 : let m := fold_right Z.min (left_at rows i0) (map (left_at rows) pids) in
    (forall i, In i (i0 :: pids) -> (m <= left_at rows i)%Z) /\ exists i, In i (i0 :: pids) /\ m = left_at rows i.
  Proof.
    induction pids as [|x l (IH1 & i & Ii & E)]; cbn [map fold_right].
    - split; [intros i [<-|[]]; lia | exists i0; split; [left|]; reflexivity].
    - set (m := fold_right Z.min _ _) in *. split.
      + intros j [<-|[<-|J]]; [specialize (IH1 i0 (or_introl eq_refl)); lia | lia | specialize (IH1 j (or_intror J)); lia].
      + destruct (Z.le_ge_cases (left_at rows x) m) as [L|L]; [exists x; split; [right; left; reflexivity | lia]|].
        exists i. split; [destruct Ii as [<-|Ii]; [left; reflexivity | right; right; exact Ii] | lia].
  Qed.
  Lemma removelast_map {X Y} (g : X -> Y) l y : In y (removelast (map g l)) -> exists x, g x = y /\ In x (removelast l).
  Proof.
    induction l as [|x l IH]; [intros []|]. destruct l as [|x' l]; [intros []|]. intros [E|I]; [exists x; split; [exact E | left; reflexivity]|].
    destruct (IH I) as (z & E & Iz). exists z. split; [exact E | right; exact Iz].
  Qed.
  Lemma on_order_ok pids : pids <> [] -> Forall row_ok pids -> exists c, make pids = Ret c /\ alternates pids c.
  Proof.
    intros Hne Hok. unfold on_order. rewrite (cands_ok pids Hok). cbn [bind]. destruct pids as [|i0 is_]; [congruence|].
    destruct (least_left is_ i0) as [Hmin (im & Im & Em)]. set (m := fold_right Z.min _ _) in *. clearbody m.
    rewrite Forall_forall in Hok.
    assert (Hl : forall i, In i (i0 :: is_) -> (left_at rows i = Z.of_nat (reps_of (cnd i)) - Z.of_nat (off i))%Z /\ off i < reps_of (cnd i)).
    { intros i I. pose proof (Hok i I) as R. unfold left_at. rewrite (ro_reps i R). split; [reflexivity | apply (ro_off i R)]. }
    assert (Hm : (1 <= m)%Z). { destruct (Hl im Im). rewrite Em. lia. }
    set (l := map (fun i => (cnd i, off i)) (i0 :: is_)).
    destruct (C44_concat_events (nms (map cnd (i0 :: is_))) l (p_at rows i0) (Z.to_nat m)) as (c & ch & E & EP & EK & Ss & Hd & Hfu).
    - discriminate.
    - lia.
    - intros cf I. unfold l in I. apply in_map_iff in I. destruct I as (i & <- & I). cbn [fst snd]. split; [apply (ro_shape i (Hok i I))|]. specialize (Hmin i I). destruct (Hl i I). lia.
    - unfold l in E. rewrite !map_map in E. cbn [fst snd] in E. exists c. split; [exact E|]. constructor; [|exact Ss| | |].
      + exists (Z.to_nat m), ch. cbn [hd]. split; [exact EP|]. split; [lia|]. split; [intros i I; specialize (Hmin i I); destruct (Hl i I); lia|].
        split; [exists im; split; [exact Im|]; destruct (Hl im Im); lia|]. rewrite Hd. f_equal. apply map_ext. intros k. f_equal. unfold l. rewrite map_map. reflexivity.
      + apply Hfu. intros cf I. unfold l in I. apply in_map_iff in I. destruct I as (i & <- & I). apply (ro_full i (Hok i I)).
      + intros Hsd H1. destruct (C44_concat_partial (nms (map cnd (i0 :: is_))) l (p_at rows i0) (Z.to_nat m)) as (c' & E' & Sc & _); [discriminate | lia | | |].
        * intros cf I. unfold l in I. apply in_map_iff in I. destruct I as (i & <- & I). cbn [fst snd]. split; [apply Hsd, I|]. specialize (Hmin i I). destruct (Hl i I). lia.
        * intros cf I. apply removelast_map in I. destruct I as (i & <- & I). apply H1, I.
        * unfold l in E'. rewrite !map_map in E'. cbn [fst snd] in E'. rewrite E in E'. injection E' as <-. exact Sc.
      + unfold tree_of. rewrite EP. cbn [node_ids]. rewrite (concat_ids _ _ _ _ _ EK). unfold l. rewrite map_map. cbn [fst]. apply Hids.
        intros c' I. apply in_map_iff in I. destruct I as (i & <- & I). apply (ro_ids i (Hok i I)).
  Qed.
  (* the dated events of the result are among those of the parts, each once if they are there *)
  Lemma alternates_events pids c : alternates pids c -> NoDup pids -> Forall row_ok pids -> (forall i j, In i pids -> In j pids -> i <> j -> disjoint i j) ->
    ((forall i, In i pids -> NoDup (dated (cnd i))) -> NoDup (dated c)) /\ incl (dated c) (concat (map (fun i => dated (cnd i)) pids)).
  Proof.
    intros Ha Np Hok Hdis. destruct (al_turns _ _ Ha) as (r0 & ch & _ & _ & _ & _ & Hd). rewrite Forall_forall in Hok.
    pose proof (swap_concat (fun i k => repetition (cnd i) (off i + k)) pids (List.seq 0 r0)) as P. cbv beta in P. rewrite <- Hd in P.
    assert (Hs : forall i, exists m, concat (map (fun k => repetition (cnd i) (off i + k)) (List.seq 0 r0)) = firstn m (skipn (off i * (length (dated (cnd i)) / reps_of (cnd i))) (dated (cnd i)))).
    { intros i. destruct (stretch (cnd i) (off i) r0) as (m & E). exists m. rewrite <- E. f_equal. clear. generalize (repetition (cnd i)). intros h.
      replace (List.seq (off i) r0) with (List.seq (off i + 0) r0) by (f_equal; lia). generalize 0. induction r0 as [|r0 IH]; intros z; [reflexivity|]. cbn [List.seq map]. f_equal. rewrite IH. do 2 f_equal. lia. }
    assert (Hin : forall i o, In o (concat (map (fun k => repetition (cnd i) (off i + k)) (List.seq 0 r0))) -> In o (dated (cnd i))).
    { intros i o I. destruct (Hs i) as (m & E). rewrite E in I. apply in_firstn in I. eapply in_skipn. exact I. }
    split.
    - intros Honce. apply (Permutation_NoDup (Permutation_sym P)). apply NoDup_concat_disjoint; [exact Np | |].
      + intros i I. destruct (Hs i) as (m & E). rewrite E. apply NoDup_firstn, NoDup_skipn, (Honce i I).
      + intros i j Ii Ij N o I1 I2. apply (Hdis i j Ii Ij N o); apply Hin; assumption.
    - intros o I. apply (Permutation_in o P) in I. apply in_concat in I. destruct I as (L & IL & Io). apply in_map_iff in IL. destruct IL as (i & <- & Ii).
      apply in_concat. exists (dated (cnd i)). split; [apply (in_map (fun i => dated (cnd i))), Ii | apply Hin, Io].
  Qed.
  (* what the events cost on their own *)
  Definition alone (os : list occ) : Q := fold_right (fun o s => ((match dget dcosts (snd o) with Some q => q | None => 0 end) + s)%Q) 0%Q os.
  (* the events of the parts that the joined candidate has lost *)
  Definition left_out (i j : nat) (c : ccand nat) : list occ := filter (fun o => negb (mem o (dated c))) (dated (cnd i) ++ dated (cnd j)).

  Lemma residual_alone os : (forall o, In o os -> dget dcosts (snd o) <> None) -> residual_cost dcosts os = Ret (alone os).
  Proof.
    induction os as [|o os IH]; intros H; [reflexivity|]. cbn [residual_cost alone fold_right]. destruct (dget dcosts (snd o)) as [q|] eqn:E; [|exfalso; apply (H o); [left; reflexivity | exact E]].
    rewrite IH by (intros o' I; apply H; right; exact I). reflexivity.
  Qed.
  Lemma shaped_length c : shaped c -> length (dated c) = nb_of c.
  Proof.
    intros [_ _ H]. unfold dated. rewrite combine_length, events_length, H, Nat.min_id. unfold nb_of. destruct (cc_P c) as [e p|t] eqn:E; [exact (eq_sym H) |]. unfold tree_of. rewrite E. reflexivity.
  Qed.
  Lemma shaped_some c : shaped c -> 0 < nb_of c.
  Proof.
    intros Ss. rewrite <- (shaped_length c Ss). destruct Ss as [W (n & r & p & ch & E) H]. unfold dated. rewrite combine_length, events_length, H, Nat.min_id. apply nb_pos, W.
  Qed.
  Lemma nodup_length c : NoDup (dated c) -> length (nodup eq_dec (ev_occs c)) = length (dated c).
  Proof. intros N. rewrite ev_occs_dated, nodup_fixed_point by exact N. reflexivity. Qed.
  Lemma count_left i j c : NoDup (dated (cnd i)) -> NoDup (dated (cnd j)) -> disjoint i j -> NoDup (dated c) -> incl (dated c) (dated (cnd i) ++ dated (cnd j)) ->
    length (dated c) + length (left_out i j c) = length (dated (cnd i)) + length (dated (cnd j)).
  Proof.
    intros N1 N2 D Nc Ic. unfold left_out. rewrite <- (app_length (dated (cnd i))). set (L := dated (cnd i) ++ dated (cnd j)) in *.
    assert (NL : NoDup L) by (apply NoDup_app_intro; [exact N1 | exact N2 | intros o I1 I2; exact (D o I1 I2)]).
    assert (P : Permutation (filter (fun o => mem o (dated c)) L) (dated c)).
    { apply NoDup_Permutation; [apply NoDup_filter, NL | exact Nc|]. intros o. rewrite filter_In. destruct (mem_spec o (dated c)) as [I|N]; split; try tauto; [intros _; split; [apply Ic, I | reflexivity] | intros [_ X]; discriminate]. }
    assert (E : forall K, length (filter (fun o => mem o K) L) + length (filter (fun o => negb (mem o K)) L) = length L).
    { clear. intros K. induction L as [|o L IH]; [reflexivity|]. cbn [filter]. destruct (mem o K); cbn [negb length]; lia. }
    specialize (E (dated c)). apply Permutation_length in P. unfold occ in *. lia.
  Qed.
  Lemma div_lt (x y : Q) n : (0 < n)%nat -> (x / inject_Z (Z.of_nat n) < y / inject_Z (Z.of_nat n))%Q <-> (x < y)%Q.
  Proof.
    intros H. unfold Qdiv. apply Qmult_lt_r. apply Qinv_lt_0_compat. change 0%Q with (inject_Z 0). rewrite <- Zlt_Qlt. lia.
  Qed.
  (* Two candidates are joined if they have no dated event in common and the joined candidate, with
     the events that are left over, costs less than the two did; and then only. *)
  (* the candidate has no event twice *)
  Definition once (i : nat) : Prop := NoDup (dated (cnd i)).
  (* which of two orders is taken when both candidates start together *)
  Definition preferred (c c' : ccand nat) : Prop :=
    qlt_o (cost c) (cost c') = true \/ (qeq_o (cost c') (cost c) = true /\ text_lt (event_tuple c) (event_tuple c') = true).
  (* the order that is tried: two candidates of the same events that start together are not joined *)
  Definition tried (i j : nat) (k : list nat) (c : ccand nat) : Prop :=
    make k = Ret c /\
    ((k = [i; j] /\ t0 i <> t0 j) \/
     (t0 i = t0 j /\ event_tuple (cnd i) <> event_tuple (cnd j) /\
      ((k = [i; j] /\ forall c', make [j; i] = Ret c' -> ~ preferred c' c) \/
       (k = [j; i] /\ close rows i j (Z.min (left_at rows i) (left_at rows j)) = true /\ exists c', make [i; j] = Ret c' /\ preferred c c')))).
  Theorem pair_spec : forall i j, row_ok i -> row_ok j -> i <> j ->
    exists o, join rows cands known cost dcosts nms text_lt i j = Ret o /\
      (forall k c, o = Some (k, c) ->
         disjoint i j /\ make k = Ret c /\
         (k = [i; j] \/ (k = [j; i] /\ t0 i = t0 j /\ exists c', make [i; j] = Ret c' /\ preferred c c')) /\
         (once i -> once j -> exists qi qj q, known (cid i) = Some qi /\ known (cid j) = Some qj /\ cost c = Some q /\ (q + alone (left_out i j c) < qi + qj)%Q)) /\
      (forall k c qi qj q, once i -> once j -> tried i j k c -> disjoint i j -> known (cid i) = Some qi -> known (cid j) = Some qj -> cost c = Some q ->
         (q + alone (left_out i j c) < qi + qj)%Q ->
         (q / inject_Z (Z.of_nat (length (dated c))) < (qi + qj) / inject_Z (Z.of_nat (length (dated (cnd i)) + length (dated (cnd j)))))%Q ->
         o = Some (k, c)).
  Proof.
    intros i j Oi Oj Nij. unfold join. rewrite (cand_at_ok i Oi), (cand_at_ok j Oj). cbn [bind].
    destruct (same_event (cnd i) (cnd j) && (t0 i =? t0 j)%Z) eqn:Es.
    { exists None. split; [reflexivity|]. split; [discriminate|]. intros k c qi qj q _ _ [_ Ht]. exfalso. apply andb_prop in Es. destruct Es as [Ev Es]. apply Z.eqb_eq in Es. destruct Ht as [(_ & Nt)|(_ & Ne & _)]; [congruence|].
      apply Ne. unfold same_event in Ev. unfold event_tuple. destruct (cc_P (cnd i)), (cc_P (cnd j)); try discriminate; [apply Nat.eqb_eq in Ev; congruence | exact (proj1 (eqd_true _ _) Ev)]. }
    destruct (existsb (fun o => mem o (ev_occs (cnd j))) (ev_occs (cnd i))) eqn:Ee.
    { exists None. split; [reflexivity|]. split; [discriminate|]. intros k c qi qj q _ _ _ D. exfalso. apply existsb_exists in Ee. destruct Ee as (o & I1 & I2). rewrite ev_occs_dated in I1, I2.
      apply (proj1 (mem_In _ _)) in I2. exact (D o I1 I2). }
    assert (D : disjoint i j).
    { intros o I1 I2. assert (X : existsb (fun o => mem o (ev_occs (cnd j))) (ev_occs (cnd i)) = true); [|congruence]. apply existsb_exists. exists o. rewrite !ev_occs_dated. split; [exact I1|].
      apply (proj2 (mem_In _ _)). exact I2. }
    assert (D' : disjoint j i) by (intros o I1 I2; exact (D o I2 I1)).
    assert (Fij : Forall row_ok [i; j]) by (constructor; [exact Oi | constructor; [exact Oj | constructor]]). assert (Fji : Forall row_ok [j; i]) by (constructor; [exact Oj | constructor; [exact Oi | constructor]]).
    destruct (on_order_ok [i; j]) as (c0 & E0 & A0); [discriminate | exact Fij|]. rewrite E0. cbn [bind].
    destruct (on_order_ok [j; i]) as (cx & Ex & Ax); [discriminate | exact Fji|].
    assert (Hev : forall k c, (k = [i; j] \/ k = [j; i]) -> alternates k c -> (once i -> once j -> NoDup (dated c)) /\ incl (dated c) (dated (cnd i) ++ dated (cnd j))).
    { intros k c Hk A. destruct (alternates_events k c A) as [H1 H2].
      - destruct Hk as [-> | ->]; (constructor; [intros [E|[]]; congruence | constructor; [intros [] | constructor]]).
      - destruct Hk as [-> | ->]; assumption.
      - intros x y Ix Iy Nxy. destruct Hk as [-> | ->]; destruct Ix as [<-|[<-|[]]], Iy as [<-|[<-|[]]]; congruence || assumption.
      - split; [intros O1 O2; apply H1; intros x Ix; destruct Hk as [-> | ->]; destruct Ix as [<-|[<-|[]]]; assumption|]. intros o I. apply H2 in I. destruct Hk as [-> | ->]; cbn [map concat] in I; rewrite app_nil_r in I; [exact I|]. apply in_app_or in I. apply in_or_app. tauto. }
    (* the rest, for the better of the two orders *)
    assert (Hrest : forall k c, (k = [i; j] \/ k = [j; i]) -> make k = Ret c -> alternates k c -> exists o,
      (if qlt_o (ratio_of cost c) (parts_ratio rows known [i; j] [cnd i; cnd j]) then
         let residuals := diff (nodup eq_dec (ev_occs (cnd i) ++ ev_occs (cnd j))) (ev_occs c) in
         bind (residual_cost dcosts residuals) (fun cr =>
         if qlt_o (per (qadd_o (cost c) (Some cr)) (nb_of c + length residuals)) (parts_ratio rows known [i; j] [cnd i; cnd j]) then Ret (Some (k, c)) else Ret None)
       else Ret None) = Ret o /\ (o = None \/ o = Some (k, c)) /\
      (o = Some (k, c) -> once i -> once j -> exists qi qj q, known (cid i) = Some qi /\ known (cid j) = Some qj /\ cost c = Some q /\ (q + alone (left_out i j c) < qi + qj)%Q) /\
      (forall qi qj q, once i -> once j -> known (cid i) = Some qi -> known (cid j) = Some qj -> cost c = Some q -> (q + alone (left_out i j c) < qi + qj)%Q ->
         (q / inject_Z (Z.of_nat (length (dated c))) < (qi + qj) / inject_Z (Z.of_nat (length (dated (cnd i)) + length (dated (cnd j)))))%Q -> o = Some (k, c))).
    { intros k c Hk Em A. destruct (Hev k c Hk A) as [Nc' Ic].
      assert (Hd : {once i /\ once j} + {~ (once i /\ once j)}).
      { unfold once. destruct (ListDec.NoDup_dec eq_dec (dated (cnd i))), (ListDec.NoDup_dec eq_dec (dated (cnd j))); tauto. }
      destruct Hd as [[O1 O2]|No].
      2: { cbv zeta. rewrite residual_alone.
           2: { intros o I. unfold diff in I. apply filter_In in I. destruct I as [I _]. apply nodup_In in I. rewrite !ev_occs_dated in I. apply in_app_or in I. destruct I as [I|I]; [apply (ro_costs i Oi), I | apply (ro_costs j Oj), I]. }
           cbn [bind]. destruct (qlt_o (ratio_of cost c) _); [destruct (qlt_o (per _ _) _)|]; eexists; (split; [reflexivity|]); (split; [auto|]); split; intros; exfalso; tauto. }
      pose proof (Nc' O1 O2) as Nc. clear Nc'.
      assert (Er : diff (nodup eq_dec (ev_occs (cnd i) ++ ev_occs (cnd j))) (ev_occs c) = left_out i j c).
      { rewrite !ev_occs_dated. unfold diff, left_out. rewrite nodup_fixed_point; [reflexivity|]. apply NoDup_app_intro; [exact O1 | exact O2 | intros o I1 I2; exact (D o I1 I2)]. }
      cbv zeta. rewrite Er. rewrite residual_alone.
      2: { intros o I. unfold left_out in I. apply filter_In in I. destruct I as [I _]. apply in_app_or in I. destruct I as [I|I]; [apply (ro_costs i Oi), I | apply (ro_costs j Oj), I]. }
      cbn [bind]. unfold ratio_of. rewrite (nodup_length c Nc).
      pose proof (count_left i j c O1 O2 D Nc Ic) as Hc. pose proof (shaped_length c (al_shape _ _ A)) as Lc.
      assert (En : nb_of c + length (left_out i j c) = length (dated (cnd i)) + length (dated (cnd j))) by lia. rewrite En.
      unfold parts_ratio. cbn [map list_sum fold_right]. rewrite <- (shaped_length _ (ro_shape i Oi)), <- (shaped_length _ (ro_shape j Oj)).
      replace (length (dated (cnd i)) + (length (dated (cnd j)) + 0)) with (length (dated (cnd i)) + length (dated (cnd j))) by lia.
      assert (Hn : 0 < length (dated (cnd i)) + length (dated (cnd j))). { rewrite (shaped_length _ (ro_shape i Oi)). pose proof (shaped_some _ (ro_shape i Oi)). lia. }
      set (N := length (dated (cnd i)) + length (dated (cnd j))) in *. clearbody N.
      destruct (cost c) as [q|] eqn:Eq; [|exists None; cbn; repeat split; auto; discriminate].
      destruct (known (cid i)) as [qi|] eqn:Ei; [|exists None; cbn; repeat split; auto; discriminate].
      destruct (known (cid j)) as [qj|] eqn:Ej; [|exists None; cbn; repeat split; auto; discriminate].
      cbn [qadd_o per qlt_o].
      destruct (qlt (q / inject_Z (Z.of_nat (length (dated c)))) ((qi + (qj + 0)) / inject_Z (Z.of_nat N))) eqn:E1.
      - destruct (qlt ((q + alone (left_out i j c)) / inject_Z (Z.of_nat N)) ((qi + (qj + 0)) / inject_Z (Z.of_nat N))) eqn:E2.
        + exists (Some (k, c)). split; [reflexivity|]. split; [right; reflexivity|]. split; [|reflexivity]. intros _ _ _. exists qi, qj, q. repeat split; try reflexivity.
          apply qlt_spec in E2. apply (proj1 (div_lt _ _ N Hn)) in E2. lra.
        + exists None. split; [reflexivity|]. split; [left; reflexivity|]. split; [discriminate|]. intros qi' qj' q' _ _ [= <-] [= <-] [= <-] H _. exfalso.
          assert (X : qlt ((q + alone (left_out i j c)) / inject_Z (Z.of_nat N)) ((qi + (qj + 0)) / inject_Z (Z.of_nat N)) = true); [|congruence]. apply qlt_spec, (div_lt _ _ N Hn). lra.
      - exists None. split; [reflexivity|]. split; [left; reflexivity|]. split; [discriminate|]. intros qi' qj' q' _ _ [= <-] [= <-] [= <-] _ H. exfalso.
        assert (X : qlt (q / inject_Z (Z.of_nat (length (dated c)))) ((qi + (qj + 0)) / inject_Z (Z.of_nat N)) = true); [|congruence]. apply qlt_spec.
        eapply Qlt_le_trans; [exact H|]. apply Qle_lteq. right. f_equiv. lra. }
    destruct ((t0 i =? t0 j)%Z && close rows i j (Z.min (left_at rows i) (left_at rows j))) eqn:Ec.
    - rewrite Ex. cbn [bind]. apply andb_prop in Ec. destruct Ec as [Et _]. apply Z.eqb_eq in Et.
      destruct (qlt_o (cost cx) (cost c0) || (qeq_o (cost c0) (cost cx) && text_lt (event_tuple cx) (event_tuple c0))) eqn:Eb.
      + assert (Pf : preferred cx c0) by (apply orb_prop in Eb; destruct Eb as [Eb|Eb]; [left; exact Eb | right; apply andb_prop; exact Eb]).
        cbn [fst snd]. destruct (Hrest [j; i] cx (or_intror eq_refl) Ex Ax) as (o & Eo & Ho & H1 & H2). cbv zeta in Eo. cbv zeta. rewrite Eo. exists o. split; [reflexivity|]. split.
        * intros k c Ek. destruct Ho as [->|Ho]; [discriminate|]. rewrite Ho in Ek. injection Ek as <- <-. split; [exact D|]. split; [exact Ex|]. split; [|apply H1, Ho].
          right. split; [reflexivity|]. split; [exact Et|]. exists c0. split; [reflexivity | exact Pf].
        * intros k c qi qj q O1 O2 [Em Ht] _. destruct Ht as [(_ & Nt)|(_ & _ & [(-> & Np)|(-> & _)])]; [congruence | exfalso; rewrite E0 in Em; injection Em as <-; exact (Np cx Ex Pf)|]. rewrite Ex in Em. injection Em as <-. apply H2; assumption.
      + cbn [fst snd]. destruct (Hrest [i; j] c0 (or_introl eq_refl) E0 A0) as (o & Eo & Ho & H1 & H2). cbv zeta in Eo. cbv zeta. rewrite Eo. exists o. split; [reflexivity|]. split.
        * intros k c Ek. destruct Ho as [->|Ho]; [discriminate|]. rewrite Ho in Ek. injection Ek as <- <-. split; [exact D|]. split; [exact E0|]. split; [left; reflexivity | apply H1, Ho].
        * intros k c qi qj q O1 O2 [Em Ht] _. destruct Ht as [(_ & Nt)|(_ & _ & [(-> & _)|(-> & _ & c' & Em' & Pf)])]; [congruence | rewrite E0 in Em; injection Em as <-; apply H2; assumption|].
          exfalso. rewrite Ex in Em. rewrite E0 in Em'. injection Em as <-. injection Em' as <-. destruct Pf as [Pf|[P1 P2]]; [rewrite Pf in Eb | rewrite P1, P2, orb_true_r in Eb]; discriminate.
    - cbn [bind fst snd]. destruct (Hrest [i; j] c0 (or_introl eq_refl) E0 A0) as (o & Eo & Ho & H1 & H2). cbv zeta in Eo. cbv zeta. rewrite Eo. exists o. split; [reflexivity|]. split.
      * intros k c Ek. destruct Ho as [->|Ho]; [discriminate|]. rewrite Ho in Ek. injection Ek as <- <-. split; [exact D|]. split; [exact E0|]. split; [left; reflexivity | apply H1, Ho].
      * intros k c qi qj q O1 O2 [Em Ht] _. assert (Kij : k = [i; j]).
        { destruct Ht as [(-> & _)|(Et & _ & [(-> & _)|(_ & Cl & _)])]; [reflexivity | reflexivity|]. exfalso. rewrite Et, Z.eqb_refl, Cl in Ec. discriminate. }
        subst k. rewrite E0 in Em. injection Em as <-. apply H2; assumption.
  Qed.
End Join.

(* ---------------------------------------------------------------- substitute_factorized *)
Lemma argmin_from_spec l : forall pre k best v, k = length pre -> nth_error pre best = Some (Some v) ->
  let i := argmin_from k best v l in i < length (pre ++ l) /\
  ((forall x, In x (pre ++ l) -> x <> None) -> (forall x, In (Some x) pre -> (v <= x)%Q) -> exists w, nth_error (pre ++ l) i = Some (Some w) /\ forall x, In (Some x) (pre ++ l) -> (w <= x)%Q).
Proof.
  induction l as [|a l IH]; intros pre k best v Ek Eb; cbn [argmin_from].
  - rewrite app_nil_r. split; [apply nth_error_Some; congruence|]. intros _ H. exists v. auto.
  - assert (Lb : best < length pre) by (apply nth_error_Some; congruence).
    destruct a as [x|].
    + destruct (qlt x v) eqn:E.
      * specialize (IH (pre ++ [Some x]) (S k) k x). rewrite <- app_assoc in IH. cbn [app] in IH.
        destruct IH as [H1 H2]; [rewrite app_length; cbn; lia | rewrite nth_error_app2 by lia; replace (k - length pre) with 0 by lia; reflexivity|].
        split; [exact H1|]. intros Hn Hv. apply H2; [exact Hn|]. intros y I. apply in_app_or in I. destruct I as [I|[[= <-]|[]]]; [|lra]. apply qlt_spec in E. specialize (Hv y I). lra.
      * specialize (IH (pre ++ [Some x]) (S k) best v). rewrite <- app_assoc in IH. cbn [app] in IH.
        destruct IH as [H1 H2]; [rewrite app_length; cbn; lia | rewrite nth_error_app1 by lia; exact Eb|].
        split; [exact H1|]. intros Hn Hv. apply H2; [exact Hn|]. intros y I. apply in_app_or in I. destruct I as [I|[[= <-]|[]]]; [apply Hv, I|].
        destruct (Qlt_le_dec x v) as [L|L]; [|exact L]. apply qlt_spec in L. congruence.
    + split; [rewrite app_length; cbn [length]; lia|]. intros Hn _. exfalso. apply (Hn None); [apply in_elt | reflexivity].
Qed.
Lemma argmin_spec l : l <> [] -> argmin l < length l /\
  ((forall x, In x l -> x <> None) -> exists w, nth_error l (argmin l) = Some (Some w) /\ forall x, In (Some x) l -> (w <= x)%Q).
Proof.
  intros H. destruct l as [|[v|] l]; [congruence | |].
  - destruct (argmin_from_spec l [Some v] 1 0 v eq_refl eq_refl) as [H1 H2]. split; [exact H1|]. intros Hn. apply H2; [exact Hn|]. intros x [[= <-]|[]]. lra.
  - split; [cbn; lia|]. intros Hn. exfalso. apply (Hn None); [left|]; reflexivity.
Qed.
Lemma substitute_ok (cost : ccand nat -> option Q) c t : cc_P c = Patt t -> shaped c -> full c -> NoDup (node_ids t) -> 1 < length (dated c) ->
  exists c', substitute cost c = Ret c' /\ shaped c' /\ full c' /\ (sound c -> sound c') /\ Permutation (dated c') (dated c) /\ (exists t', cc_P c' = Patt t' /\ NoDup (node_ids t') /\ leaf_events t' = leaf_events t) /\
    ((forall x, cost x <> None) -> exists q q0, cost c' = Some q /\ cost c = Some q0 /\ (q <= q0)%Q).
Proof.
  intros EP Ss Fu Hn H1. assert (Et : tree_of c = t) by (unfold tree_of; rewrite EP; reflexivity).
  assert (W : wf t) by (rewrite <- Et; apply (sh_wf _ Ss)). assert (HO : length (cc_O c) = nb_occs t) by (rewrite (sh_nb _ Ss), Et; reflexivity).
  destruct (C46_factorise t (cc_O c) (S (length (node_ids t))) W Hn HO (Nat.lt_succ_diag_r _)) as (fs & Ef & Hf & _).
  unfold substitute, factors. rewrite EP, Ef. cbn [bind]. set (mk := fun q : @FactorModel.cand nat => {| cc_P := Patt (fst (fst q)); cc_O := snd (fst q); cc_E := snd q |}).
  assert (Self : exists c', Ret c = Ret c' /\ shaped c' /\ full c' /\ (sound c -> sound c') /\ Permutation (dated c') (dated c) /\ (exists t', cc_P c' = Patt t' /\ NoDup (node_ids t') /\ leaf_events t' = leaf_events t)).
  { exists c. split; [reflexivity|]. split; [exact Ss|]. split; [exact Fu|]. split; [auto|]. split; [apply Permutation_refl|]. exists t. auto. }
  assert (Hfac : forall f, In f fs -> shaped (mk f) /\ full (mk f) /\ (sound c -> sound (mk f)) /\ Permutation (dated (mk f)) (dated c) /\ (exists t', cc_P (mk f) = Patt t' /\ NoDup (node_ids t') /\ leaf_events t' = leaf_events t)).
  { intros f I. rewrite Forall_forall in Hf. destruct (Hf f I) as [[F1 F2] _ F3 F4 [F5 F6] _ (u & F7 & F9) F8 _ _]. unfold PropFactor.ev_occs in F4.
    assert (P : Permutation (dated (mk f)) (dated c)) by (unfold dated, tree_of; rewrite EP; exact F4).
    assert (Sf : shaped (mk f)).
    { constructor; cbn [mk tree_of cc_P cc_O]; [exact F1 | | unfold mk; cbn; lia].
      destruct (fst (fst f)) as [n e|n r p ch] eqn:E; [|eauto]. exfalso. cbn [nb_occs] in F6. unfold dated in H1. rewrite combine_length, events_length, Et, HO in H1. lia. }
    split; [exact Sf|]. split; [unfold full, mk; cbn [cc_E cc_O]; rewrite F8; f_equal; unfold mk; cbn; lia|]. split; [|split; [exact P | exists (fst (fst f)); auto]].
    intros _. constructor; [exact (sh_wf _ Sf) | exact (sh_node _ Sf) | exact (sh_nb _ Sf) | exact F8|]. unfold mk, dated, tree_of. cbn [cc_P cc_O cc_E].
    replace (hd 0%Z (snd (fst f))) with u by (destruct (snd (fst f)); [discriminate | injection F7 as <-; reflexivity]). exact F9. }
  destruct (map mk fs) as [|e1 ext] eqn:Em.
  - destruct Self as (c' & E & S1 & S1' & S0 & S2 & S3). injection E as <-. exists c. split; [reflexivity|]. split; [exact S1|]. split; [exact S1'|]. split; [exact S0|]. split; [exact S2|]. split; [exact S3|].
    intros Hc. destruct (cost c) as [q|] eqn:Eq; [|exfalso; exact (Hc c Eq)]. exists q, q. split; [reflexivity|]. split; [reflexivity | apply Qle_refl].
  - rewrite <- Em in *. destruct (argmin_spec (cost c :: map cost (map mk fs))) as [A1 A2]; [discriminate|]. set (l := cost c :: map cost (map mk fs)) in *.
    assert (Hmin : (forall x, cost x <> None) -> exists w q0, nth_error l (argmin l) = Some (Some w) /\ cost c = Some q0 /\ (w <= q0)%Q).
    { intros Hc. destruct A2 as (w & Ew & Hw); [intros x [<-|I]; [apply Hc | apply in_map_iff in I; destruct I as (y & <- & _); apply Hc]|].
      destruct (cost c) as [q0|] eqn:Eq; [|exfalso; exact (Hc c Eq)]. exists w, q0. split; [exact Ew|]. split; [reflexivity|]. apply Hw. unfold l. left. reflexivity. }
    destruct (argmin l) as [|k] eqn:Ea.
    + destruct Self as (c' & E & S1 & S1' & S0 & S2 & S3). injection E as <-. exists c. split; [reflexivity|]. split; [exact S1|]. split; [exact S1'|]. split; [exact S0|]. split; [exact S2|]. split; [exact S3|].
      intros Hc. destruct (Hmin Hc) as (w & q0 & Ew & Eq & L). exists w, q0. unfold l in Ew. cbn [nth_error] in Ew. split; [congruence|]. auto.
    + unfold l in A1. cbn [length] in A1. rewrite !map_length in A1. unfold nth_out. rewrite nth_error_map.
      destruct (nth_error fs k) as [f|] eqn:Ek; [|exfalso; apply nth_error_None in Ek; apply Nat.succ_lt_mono in A1; exact (Nat.lt_irrefl _ (Nat.lt_le_trans _ _ _ A1 Ek))]. cbn [option_map]. exists (mk f). split; [reflexivity|].
      destruct (Hfac f (nth_error_In _ _ Ek)) as (G1 & G1' & G0 & G2 & G3). split; [exact G1|]. split; [exact G1'|]. split; [exact G0|]. split; [exact G2|]. split; [exact G3|].
      intros Hc. destruct (Hmin Hc) as (w & q0 & Ew & Eq & L). exists w, q0. unfold l in Ew. cbn [nth_error] in Ew. rewrite !nth_error_map, Ek in Ew. cbn [option_map] in Ew. injection Ew as Ew. auto.
Qed.
