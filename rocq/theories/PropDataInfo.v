(* C109: the description of a data sequence. *)
From Coq Require Import NArith QArith String Permutation Sorted.
From Verif Require Import Prelude CheckModel LCMModel TextModel SplitModel VerticalProofs ArrayModel PeriodModel PropPeriod ExportModel DataInfoModel.
Local Open Scope Z_scope.

(* ------------------------------------------------------------ specification *)
Section Spec.
  Context (leA : text -> text -> bool) (f3 : Q -> text) (log : list (Z * text)).
  Definition happens (e : text) : Prop := exists t, In (t, e) log.
  Definition many (e : text) : Z := Z.of_nat (length (filter (fun p => if list_eq_dec N.eq_dec (snd p) e then true else false) log)).
  (* the first and the last time of something *)
  Definition from_to (P : Z -> Prop) (a b : Z) : Prop := P a /\ P b /\ forall t, P t -> a <= t <= b.
  (* all events, in the order of their names *)
  Definition by_name (evs : list text) : Prop :=
    NoDup evs /\ (forall e, In e evs <-> happens e) /\ StronglySorted (fun x y => leA x y = true) evs.
  (* all events, the rare ones first; those that happen equally often in the order of their names *)
  Definition rare_first (evs : list text) : Prop :=
    NoDup evs /\ (forall e, In e evs <-> happens e) /\
    StronglySorted (fun x y => many x < many y \/ many x = many y /\ leA x y = true) evs.
  (* the line of an event *)
  Definition line_of (evs : list text) (e l : text) : Prop :=
    exists k a b, nth_error evs k = Some e /\ from_to (fun t => In (t, e) log) a b /\
      l = e ++ lit " [" ++ str_z (Z.of_nat k) ++ lit "] (|O|=" ++ str_z (many e) ++
          lit " f=" ++ f3 (inject_Z (many e) / inject_Z (Z.of_nat (length log))) ++ lit " dT=" ++ str_z (b - a) ++ lit ")".
  Definition header (evs : list text) (a b : Z) : text :=
    lit "-- Data Sequence |A|=" ++ str_z (Z.of_nat (length evs)) ++ lit " |O|=" ++ str_z (Z.of_nat (length log)) ++
    lit " dT=" ++ str_z (b - a) ++ lit " (" ++ str_z a ++ lit " to " ++ str_z b ++ lit ")".
End Spec.

(* ------------------------------------------------------------------- proofs *)
Definition lex (a b : Z * nat) : Prop := fst a < fst b \/ fst a = fst b /\ (snd a < snd b)%nat.
Lemma insert_lex x l : StronglySorted lex l -> (forall y, In y l -> (snd x < snd y)%nat) ->
  StronglySorted lex (insert_left (fun a b => fst a <=? fst b) x l).
Proof.
  induction 1 as [|y l Hl IH Hy]; intros Hx; cbn [insert_left]; [repeat constructor|]. destruct (Z.leb_spec (fst x) (fst y)).
  - assert (K : forall z, In z (y :: l) -> lex x z).
    { intros z Hz. specialize (Hx z Hz). unfold lex in *. destruct Hz as [<-|Hz]; [lia|]. rewrite Forall_forall in Hy. specialize (Hy z Hz). lia. }
    constructor; [constructor; assumption | apply Forall_forall, K].
  - constructor; [apply IH; intros z Hz; apply Hx; right; exact Hz|]. apply Forall_forall. intros z Hz.
    apply (Permutation_in _ (insert_left_perm _ x l)) in Hz. destruct Hz as [<-|Hz]; [left; assumption|]. rewrite Forall_forall in Hy. apply Hy, Hz.
Qed.
Lemma sort_lex l : StronglySorted (fun a b => (snd a < snd b)%nat) l -> StronglySorted lex (sort (fun a b => fst a <=? fst b) l).
Proof.
  induction 1 as [|x l Hl IH Hx]; [constructor|]. apply insert_lex; [exact IH|]. intros y Hy. apply In_sort in Hy. rewrite Forall_forall in Hx. apply Hx, Hy.
Qed.
Lemma map_out_Ret {X Y} (f : X -> outcome Y) (g : X -> Y) l : (forall x, In x l -> f x = Ret (g x)) -> map_out f l = Ret (map g l).
Proof.
  induction l as [|x l IH]; intros Hf; [reflexivity|]. cbn [map_out map]. rewrite (Hf x (or_introl eq_refl)). cbn [bind].
  rewrite IH by (intros y Hy; apply Hf; right; exact Hy). reflexivity.
Qed.
Lemma seq_sorted n : forall k, StronglySorted lt (seq k n).
Proof. induction n as [|n IH]; intros k; cbn [seq]; constructor; [apply IH|]. apply Forall_forall. intros y Hy. apply in_seq in Hy. lia. Qed.
Lemma join_lines sep ls : ls <> [] -> sep ++ join sep ls = flat_map (fun l => sep ++ l) ls.
Proof.
  induction ls as [|l ls IH]; [congruence|]. intros _. destruct ls as [|l' ls].
  - cbn. rewrite app_nil_r. reflexivity.
  - change (join sep (l :: l' :: ls)) with (l ++ sep ++ join sep (l' :: ls)). rewrite IH by discriminate. cbn [flat_map]. rewrite <- !app_assoc. reflexivity.
Qed.
Lemma many_times log e : many log e = Z.of_nat (length (times_of e log)).
Proof.
  unfold many, times_of. rewrite map_length. reflexivity.
Qed.

Lemma dget_only {V} (d : list (nat * V)) k v : In (k, v) d -> (forall v', In (k, v') d -> v' = v) -> dget d k = Some v.
Proof.
  intros Hin Hu. destruct (dget d k) as [v'|] eqn:E.
  - f_equal. apply Hu. exact (VerticalProofs.dget_In d k v' E).
  - exfalso. apply dget_None in E. apply E. apply in_map_iff. exists (k, v). split; [reflexivity | exact Hin].
Qed.
Lemma counts_length leA log (s : @dataseq text) : dataseq_of_list leA log = Ret s -> length (ds_counts s) = length (ds_events s).
Proof.
  unfold dataseq_of_list, dataseq_of_dict. match goal with |- context [if ?c then _ else _] => destruct c end; [discriminate|]. intros [= <-]. cbn.
  rewrite !map_length, (Permutation_length (sort_perm _ _)). unfold dkeys. rewrite map_length. reflexivity.
Qed.

Theorem C109_info : forall leA f3 log, (forall x y, leA x y = true \/ leA y x = true) -> (forall x y z, leA x y = true -> leA y z = true -> leA x z = true) ->
  exists s, dataseq_of_list leA log = Ret s /\
  (log = [] -> get_info_str f3 s = Ret (lit "-- Empty Data Sequence")) /\
  (log <> [] -> exists evs order lines a b, by_name leA log evs /\ rare_first leA log order /\
     Forall2 (line_of f3 log evs) order lines /\ from_to (fun t => exists e, In (t, e) log) a b /\
     get_info_str f3 s = Ret (header log evs a b ++ flat_map (fun l => [nl; 9%N] ++ l) lines)).
Proof.
  intros leA f3 log Htot Htr. destruct (C38_sequence leA Htot Htr log) as (s & Es & R). exists s. split; [exact Es|].
  unfold get_info_str. rewrite (rp_total _ _ _ R). split.
  - intros ->. reflexivity.
  - intros Hne. destruct (Z.eqb_spec (Z.of_nat (length log)) 0) as [E|_]; [destruct log; [congruence | discriminate E]|].
    rewrite (counts_length _ _ _ Es). set (evs := ds_events s). set (n := length evs).
    (* the event of a number *)
    set (ev := fun k => nth k evs []).
    assert (Hev : forall k, (k < n)%nat -> nth_error evs k = Some (ev k)) by (intros k Hk; apply nth_error_nth', Hk).
    assert (Hc : forall k, (k < n)%nat -> dget (ds_counts s) k = Some (many log (ev k))).
    { intros k Hk. rewrite many_times. apply dget_only; [apply (rp_counts _ _ _ R); exists (ev k); split; [apply Hev, Hk | reflexivity]|].
      intros v' Hv. apply (rp_counts _ _ _ R) in Hv. destruct Hv as (e & He & ->). fold evs in He. rewrite (Hev k Hk) in He. injection He as <-. reflexivity. }
    assert (Hf : forall k, (k < n)%nat -> dget (org_freqs (ds_counts s)) k = Some (inject_Z (many log (ev k)) / inject_Z (Z.of_nat (length log)))%Q).
    { intros k Hk. unfold org_freqs. rewrite (rp_total _ _ _ R). apply dget_only.
      - apply in_map_iff. exists (k, many log (ev k)). split; [reflexivity|]. apply VerticalProofs.dget_In, Hc, Hk.
      - intros v' Hv. apply in_map_iff in Hv. destruct Hv as ([k' m] & [= -> <-] & Hin). apply (rp_counts _ _ _ R) in Hin.
        destruct Hin as (e & He & ->). fold evs in He. rewrite (Hev k Hk) in He. injection He as <-. rewrite many_times. reflexivity. }
    assert (Ht : forall k, (k < n)%nat -> dget (ds_seqd s) k = Some (times_of (ev k) log) /\ times_of (ev k) log <> []).
    { intros k Hk. assert (Hin : In (ev k) evs) by (apply nth_In, Hk). apply (rp_events _ _ _ R) in Hin. destruct Hin as [t Hin].
      assert (K : times_of (ev k) log <> []) by (apply In_times in Hin; intros E; rewrite E in Hin; exact Hin).
      split; [|exact K]. pose proof (rp_one _ _ _ R k (ev k) (Hev k Hk)) as G. unfold get_sequence in G. injection G as G.
      destruct (dget (ds_seqd s) k); [congruence | rewrite <- G in K; congruence]. }
    set (lineof := fun k => ev k ++ lit " [" ++ str_z (Z.of_nat k) ++ lit "] (|O|=" ++ str_z (many log (ev k)) ++ lit " f=" ++
       f3 (inject_Z (many log (ev k)) / inject_Z (Z.of_nat (length log)))%Q ++
       lit " dT=" ++ str_z (zmax' (times_of (ev k) log) - zmin' (times_of (ev k) log)) ++ lit ")").
    set (ks0 := map (fun k => (many log (ev k), k)) (seq 0 n)).
    set (ks := sort (fun a b => fst a <=? fst b) ks0).
    assert (Ho : info_order s = Ret (map snd ks)).
    { unfold info_order. fold evs n. rewrite (map_out_Ret _ (fun k => (many log (ev k), k))); [reflexivity|].
      intros k Hk. apply in_seq in Hk. rewrite Hc by lia. reflexivity. }
    assert (Hks : forall p, In p ks -> fst p = many log (ev (snd p)) /\ (snd p < n)%nat).
    { intros p Hp. apply In_sort in Hp. apply in_map_iff in Hp. destruct Hp as (k & <- & Hk). apply in_seq in Hk. cbn. split; [reflexivity | lia]. }
    assert (Hsn : Permutation (map snd ks) (seq 0 n)).
    { unfold ks. rewrite (Permutation_map snd (sort_perm _ _)). unfold ks0. rewrite map_map, map_id. reflexivity. }
    assert (Hin : forall k, In k (map snd ks) -> (k < n)%nat) by (intros k Hk; apply (Permutation_in _ Hsn), in_seq in Hk; lia).
    assert (Hl : map_out (info_line f3 s) (map snd ks) = Ret (map lineof (map snd ks))).
    { apply map_out_Ret. intros k Hk. apply Hin in Hk. unfold info_line. fold evs. rewrite (Hev k Hk), (Hc k Hk), (Hf k Hk), (proj1 (Ht k Hk)). reflexivity. }
    assert (Hex : exists t0 e0, In (t0, e0) log) by (destruct log as [|[t e] l]; [congruence | exists t, e; left; reflexivity]).
    destruct Hex as (t0 & e0 & Hex).
    assert (Hperm : Permutation (map ev (map snd ks)) evs).
    { rewrite Hsn. unfold ev, n. clear. induction evs as [|x l IH]; [reflexivity|]. cbn [length seq map nth]. rewrite <- seq_shift, map_map. rewrite IH. reflexivity. }
    exists evs, (map ev (map snd ks)), (map lineof (map snd ks)), (ds_start s), (ds_end s).
    split; [|split; [|split; [|split]]].
    + split; [exact (rp_distinct _ _ _ R)|]. split; [exact (rp_events _ _ _ R) | exact (rp_sorted _ _ _ R)].
    + split; [exact (Permutation_NoDup (Permutation_sym Hperm) (rp_distinct _ _ _ R))|]. split.
      * intros e. rewrite <- (rp_events _ _ _ R e). split; apply Permutation_in; [exact Hperm | exact (Permutation_sym Hperm)].
      * assert (HL : StronglySorted lex ks).
        { apply sort_lex. unfold ks0. generalize (seq_sorted n 0). generalize (seq 0 n). clear. induction 1 as [|k l Hl IH Hk]; [constructor|].
          cbn [map]. constructor; [exact IH|]. rewrite Forall_map. exact Hk. }
        assert (Hle : forall i j, (i < j)%nat -> (j < n)%nat -> leA (ev i) (ev j) = true).
        { pose proof (rp_sorted _ _ _ R) as HS. fold evs in HS. unfold ev, n. clear -HS. induction HS as [|x l Hl IH Hx]; intros i j Hij Hj; [cbn in Hj; lia|].
          destruct j as [|j]; [lia|]. cbn in Hj. destruct i as [|i]; cbn [nth].
          - rewrite Forall_forall in Hx. apply Hx, nth_In. lia.
          - apply IH; lia. }
        clear -HL Hks Hle. induction HL as [|p l Hl IH Hp]; [constructor|]. cbn [map]. constructor.
        -- apply IH. intros q Hq. apply Hks. right. exact Hq.
        -- rewrite !Forall_map. apply Forall_forall. intros q Hq. rewrite Forall_forall in Hp. specialize (Hp q Hq).
           destruct (Hks p (or_introl eq_refl)) as [P1 P2], (Hks q (or_intror Hq)) as [Q1 Q2]. unfold lex in Hp. rewrite P1, Q1 in Hp.
           destruct Hp as [Hp|[Hp Hk]]; [left; exact Hp | right; split; [exact Hp | apply Hle; assumption]].
    + generalize Hin. generalize (map snd ks). clear -Hev Ht. induction l as [|k l IH]; intros Hin; cbn [map]; constructor.
      * assert (Hk : (k < n)%nat) by (apply Hin; left; reflexivity). destruct (Ht k Hk) as [_ K].
        destruct (zmin'_spec _ K) as [A1 A2], (zmax'_spec _ K) as [B1 B2].
        exists k, (zmin' (times_of (ev k) log)), (zmax' (times_of (ev k) log)). split; [apply Hev, Hk|]. split; [|reflexivity].
        split; [apply In_times, A1|]. split; [apply In_times, B1|]. intros t Hti. apply In_times in Hti. split; [apply A2 | apply B2]; exact Hti.
      * apply IH. intros k' Hk'. apply Hin. right. exact Hk'.
    + destruct (rp_extent _ _ _ R t0 e0 Hex) as (X & Y & _). split; [exact X|]. split; [exact Y|]. intros t [e Hte]. exact (proj2 (proj2 (rp_extent _ _ _ R t e Hte))).
    + rewrite Ho. cbn [bind]. rewrite Hl. cbn [bind]. rewrite <- join_lines.
      * unfold header. rewrite <- !app_assoc. reflexivity.
      * intros E. apply map_eq_nil in E. rewrite E in Hperm. cbn in Hperm. apply Permutation_nil in Hperm.
        assert (K : In e0 (ds_events s)) by (apply (rp_events _ _ _ R); exists t0; exact Hex). fold evs in K. rewrite Hperm in K. exact K.
Qed.
Print Assumptions C109_info.

(* three events; b and c happen once each, a twice *)
Definition three_digits (q : Q) : text := if Qeq_bool q (1 # 2) then lit "0.500" else if Qeq_bool q (1 # 4) then lit "0.250" else lit "?".
Fixpoint text_leb (x y : text) : bool :=
  match x, y with [], _ => true | _ :: _, [] => false | a :: x', b :: y' => if N.ltb a b then true else N.eqb a b && text_leb x' y' end.
Example C109_case :
  bind (dataseq_of_list text_leb [(7, lit "a"); (3, lit "c"); (12, lit "a"); (20, lit "b")]) (get_info_str three_digits) =
  Ret (lit "-- Data Sequence |A|=3 |O|=4 dT=17 (3 to 20)" ++ [nl; 9%N] ++ lit "b [1] (|O|=1 f=0.250 dT=0)" ++
       [nl; 9%N] ++ lit "c [2] (|O|=1 f=0.250 dT=0)" ++ [nl; 9%N] ++ lit "a [0] (|O|=2 f=0.500 dT=5)").
Proof. vm_compute. reflexivity. Qed.
