(* C67: the top-K selection of candidates. *)
From Verif Require Import Prelude CheckModel LCMModel SegModel PropSeg CoverModel PropCover.
From Coq Require Import QArith Lqa.
Local Open Scope Z_scope.

(* how often the occurrence [o] is covered by the candidates of [cands] selected in [sel] *)
Definition times_covered (cands : list entry) (sel : list nat) (o : occ) : Z :=
  Z.of_nat (count_occ eq_dec (flat_map (fun e => if mem (e_id e) sel then e_unc e else []) cands) o).

Lemma count_bump os : forall d o, count_of (bump d os) o = count_of d o + Z.of_nat (count_occ eq_dec os o).
Proof.
  induction os as [|x os IH]; intros d o; simpl; [lia|]. unfold bump in *. simpl. rewrite IH. clear IH.
  unfold count_of at 1. rewrite dget_dset. destruct (eq_dec o x) as [->|Hne].
  - destruct (eq_dec x x); [lia | congruence].
  - destruct (eq_dec x o); [congruence|]. unfold count_of. lia.
Qed.
Lemma times_app cands sel e o : NoDup (map e_id cands) -> In e cands -> ~ In (e_id e) sel ->
  times_covered cands (sel ++ [e_id e]) o = times_covered cands sel o + Z.of_nat (count_occ eq_dec (e_unc e) o).
Proof.
  intros Hnd Hin Hns. unfold times_covered. induction cands as [|x l IH]; [destruct Hin|].
  simpl in *. rewrite !count_occ_app. inversion Hnd as [|? ? Hx Hl]; subst.
  assert (Hm : forall y, mem y (sel ++ [e_id e]) = mem y sel || eqd y (e_id e)).
  { intros y. rewrite mem_app. simpl. rewrite orb_false_r. reflexivity. }
  destruct Hin as [->|Hin].
  - rewrite Hm, eqd_refl, orb_true_r. destruct (mem_spec (e_id e) sel) as [|_]; [contradiction|]. simpl.
    assert (Hsame : flat_map (fun x => if mem (e_id x) (sel ++ [e_id e]) then e_unc x else []) l
                  = flat_map (fun x => if mem (e_id x) sel then e_unc x else []) l).
    { clear - Hx Hm. induction l as [|y l IHl]; simpl; [reflexivity|]. f_equal.
      - rewrite Hm. assert (eqd (e_id y) (e_id e) = false) as ->. { apply eqd_false. intros E. apply Hx. left. exact E. }
        rewrite orb_false_r. reflexivity.
      - apply IHl. intros H. apply Hx. right. exact H. }
    rewrite Hsame. lia.
  - rewrite Hm. assert (eqd (e_id x) (e_id e) = false) as ->.
    { apply eqd_false. intros E. apply Hx. rewrite E. apply in_map, Hin. }
    rewrite orb_false_r. specialize (IH Hl Hin). lia.
Qed.
Lemma times_mono cands sel i o : times_covered cands sel o <= times_covered cands (sel ++ [i]) o.
Proof.
  unfold times_covered. induction cands as [|x l IH]; simpl; [lia|]. rewrite !count_occ_app.
  rewrite mem_app. destruct (mem (e_id x) sel); simpl; [lia|]. destruct (eqd (e_id x) i || false); simpl; lia.
Qed.

Theorem C67_top_k : forall cands k, NoDup (map e_id cands) ->
  let sel := topk_each cands k in
  NoDup sel /\ incl sel (map e_id cands) /\
  (Z.of_nat (length cands) <= k -> forall e, In e cands -> In (e_id e) sel) /\
  (* a candidate is left out only if all its occurrences are covered more than k times *)
  (forall e, In e cands -> ~ In (e_id e) sel -> forall o, In o (e_unc e) -> k < times_covered cands sel o) /\
  (* and a candidate is added only if one of them is covered at most k times by the earlier ones *)
  (k < Z.of_nat (length cands) -> forall pre i post, sel = pre ++ i :: post ->
     exists e o, In e cands /\ e_id e = i /\ In o (e_unc e) /\ times_covered cands pre o <= k).
Proof.
  intros cands k Hnd. unfold topk_each. destruct (Z.leb_spec (Z.of_nat (length cands)) k) as [Hle|Hgt].
  { cbn zeta. split; [exact Hnd|]. split; [apply incl_refl|]. split; [intros _ e He; apply in_map, He|].
    split; [|intros; lia]. intros e He Hn. exfalso. apply Hn, in_map, He. }
  assert (Hgen : forall cis counts sel,
    NoDup (map e_id cis) -> incl cis cands -> (forall e, In e cis -> ~ In (e_id e) sel) ->
    NoDup sel -> incl sel (map e_id cands) ->
    (forall o, count_of counts o = times_covered cands sel o) ->
    (forall e, In e cands -> ~ In (e_id e) sel -> ~ In (e_id e) (map e_id cis) -> forall o, In o (e_unc e) -> k < times_covered cands sel o) ->
    (forall pre i post, sel = pre ++ i :: post -> exists e o, In e cands /\ e_id e = i /\ In o (e_unc e) /\ times_covered cands pre o <= k) ->
    let out := topk_loop k cis counts sel in
    NoDup out /\ incl out (map e_id cands) /\
    (forall e, In e cands -> ~ In (e_id e) out -> forall o, In o (e_unc e) -> k < times_covered cands out o) /\
    (forall pre i post, out = pre ++ i :: post -> exists e o, In e cands /\ e_id e = i /\ In o (e_unc e) /\ times_covered cands pre o <= k)).
  { induction cis as [|e cis IH]; intros counts sel Hn1 Hi1 Hns Hn2 Hi2 Hcnt Hout Hadd; simpl.
    - repeat split; auto. intros e He Hs. apply Hout; auto.
    - simpl in Hn1. inversion Hn1 as [|? ? He Hcis]; subst.
      assert (Hec : In e cands) by (apply Hi1; left; reflexivity).
      destruct (satisfies_max counts k (e_unc e)) eqn:Es.
      + unfold satisfies_max in Es. apply existsb_exists in Es. destruct Es as (o & Ho & Hk). apply Z.leb_le in Hk.
        rewrite Hcnt in Hk.
        assert (Hes : ~ In (e_id e) sel) by (apply Hns; left; reflexivity).
        apply IH; auto.
        * intros x Hx. apply Hi1. right; exact Hx.
        * intros x Hx Hin. apply in_app_iff in Hin. destruct Hin as [Hin|[Hin|[]]].
          { apply (Hns x); [right; exact Hx | exact Hin]. }
          { apply He. rewrite Hin. apply in_map, Hx. }
        * apply NoDup_app_intro; [exact Hn2 | repeat constructor; intros [] |]. intros x Hx [<-|[]]. contradiction.
        * intros x Hx. apply in_app_iff in Hx. destruct Hx as [Hx|[<-|[]]]; [auto | apply in_map, Hec].
        * intros o'. rewrite count_bump, Hcnt, times_app; auto.
        * intros x Hx Hxs Hxc o' Ho'. rewrite in_app_iff in Hxs.
          apply Z.lt_le_trans with (times_covered cands sel o'); [|apply times_mono].
          apply (Hout x); auto. simpl. intros [E|E]; [apply Hxs; right; left; exact E | contradiction].
        * intros pre i post Heq. destruct (exists_last (l := i :: post)) as (l' & last & Hlast); [discriminate|].
          rewrite Hlast, app_assoc in Heq. apply app_inj_tail in Heq. destruct Heq as [Heq <-].
          destruct l' as [|i' l'].
          { rewrite app_nil_r in Heq. subst pre. injection Hlast as -> _. exists e, o. auto. }
          { injection Hlast as <- _. apply (Hadd pre i l'). exact Heq. }
      + apply IH; auto.
        * intros x Hx. apply Hi1. right; exact Hx.
        * intros x Hx. apply Hns. right; exact Hx.
        * intros x Hx Hxs Hxc o Ho. destruct (eq_dec (e_id e) (e_id x)) as [Heq|Hne].
          { assert (x = e). { apply (same_entry cands Hnd); auto. } subst x.
            apply existsb_false_iff with (x := o) in Es; [|exact Ho]. apply Z.leb_gt in Es. rewrite Hcnt in Es. exact Es. }
          { apply (Hout x); auto. simpl. intros [E|E]; [congruence | contradiction]. } }
  pose proof (sort_perm by_full_ratio cands) as Hp.
  destruct (Hgen (sort by_full_ratio cands) [] []) as (A & B & C & D).
  - apply (Permutation_NoDup (Permutation_map e_id (Permutation_sym Hp))). exact Hnd.
  - intros x Hx. apply In_sort in Hx. exact Hx.
  - intros e _ [].
  - constructor.
  - intros x [].
  - intros o. unfold times_covered. change (count_of [] o) with 0.
    assert (flat_map (fun e => if mem (e_id e) [] then e_unc e else []) cands = []) as ->; [|reflexivity].
    clear. induction cands; simpl; auto.
  - intros e He _ Hn. exfalso. apply Hn, in_map, In_sort, He.
  - intros pre i post H. destruct pre; discriminate.
  - cbn zeta. repeat split; auto. intros Hk. lia.
Qed.
(* Candidates are taken in the order of their cost per distinct occurrence, and one is left out only if each of
   its occurrences is covered more than k times by selected candidates that cost no more per occurrence. *)
Definition price_each (e : entry) : Q := (e_cost e / inject_Z (Z.of_nat (length (nodup eq_dec (e_unc e)))))%Q.
Definition times_cheaper (cands : list entry) (sel : list nat) (e : entry) (o : occ) : Z :=
  Z.of_nat (count_occ eq_dec (flat_map (fun c => if mem (e_id c) sel && Qle_bool (price_each c) (price_each e) then e_unc c else []) cands) o).
Lemma cheaper_all cands sel e o : (forall c, In c cands -> In (e_id c) sel -> (price_each c <= price_each e)%Q) ->
  times_cheaper cands sel e o = times_covered cands sel o.
Proof.
  intros Hc. unfold times_cheaper, times_covered. f_equal. f_equal. induction cands as [|c cands IH]; [reflexivity|]. cbn [flat_map].
  rewrite IH by (intros x Hx; apply Hc; right; exact Hx). f_equal. destruct (mem_spec (e_id c) sel) as [Hm|Hm]; [|reflexivity].
  cbn [andb]. assert (Qle_bool (price_each c) (price_each e) = true) as -> by (apply Qle_bool_iff, Hc; [left; reflexivity | exact Hm]). reflexivity.
Qed.
Lemma cheaper_mono cands sel i e o : times_cheaper cands sel e o <= times_cheaper cands (sel ++ [i]) e o.
Proof.
  unfold times_cheaper. induction cands as [|c cands IH]; [simpl; lia|]. cbn [flat_map]. rewrite !count_occ_app, mem_app.
  destruct (mem (e_id c) sel); cbn [andb orb]; [lia|]. destruct (mem (e_id c) [i]), (Qle_bool (price_each c) (price_each e)); cbn [andb]; simpl; lia.
Qed.
Lemma by_full_total a b : by_full_ratio a b = true \/ by_full_ratio b a = true.
Proof.
  unfold by_full_ratio. assert (Hs : Qeq_bool (full_ratio a) (full_ratio b) = Qeq_bool (full_ratio b) (full_ratio a)).
  { destruct (Qeq_bool (full_ratio b) (full_ratio a)) eqn:E; [apply Qeq_bool_iff in E; apply Qeq_bool_iff; lra|].
    apply not_true_iff_false. intros K. apply Qeq_bool_iff in K. apply not_true_iff_false in E. apply E, Qeq_bool_iff. lra. }
  rewrite Hs. destruct (Qeq_bool (full_ratio b) (full_ratio a)); rewrite ?Nat.leb_le, ?Qle_bool_iff; [lia|].
  destruct (Qlt_le_dec (full_ratio a) (full_ratio b)); [left; lra | right; lra].
Qed.
Lemma by_full_spec a b : by_full_ratio a b = true <-> (full_ratio a < full_ratio b)%Q \/ ((full_ratio a == full_ratio b)%Q /\ (e_id a <= e_id b)%nat).
Proof.
  unfold by_full_ratio. destruct (Qeq_bool (full_ratio a) (full_ratio b)) eqn:E.
  - apply Qeq_bool_iff in E. rewrite Nat.leb_le. split; [intros; right; auto | intros [K|[_ K]]; [lra | exact K]].
  - assert (N : ~ (full_ratio a == full_ratio b)%Q) by (intros K; apply Qeq_bool_iff in K; congruence). rewrite Qle_bool_iff. split.
    + intros K. left. apply Qle_lteq in K. tauto.
    + intros [K|[K _]]; [lra | contradiction].
Qed.
Lemma by_full_trans a b c : by_full_ratio a b = true -> by_full_ratio b c = true -> by_full_ratio a c = true.
Proof. rewrite !by_full_spec. intros [K|[K L]] [K'|[K' L']]; [left; lra | left; lra | left; lra | right; split; [lra | lia]]. Qed.
Theorem C67_cheapest : forall cands k, NoDup (map e_id cands) -> k < Z.of_nat (length cands) ->
  let sel := topk_each cands k in
  (forall pre a mid b post, sel = pre ++ e_id a :: mid ++ e_id b :: post -> In a cands -> In b cands -> (price_each a <= price_each b)%Q) /\
  (forall e, In e cands -> ~ In (e_id e) sel -> forall o, In o (e_unc e) -> k < times_cheaper cands sel e o).
Proof.
  intros cands k Hnd Hgt. unfold topk_each. destruct (Z.leb_spec (Z.of_nat (length cands)) k) as [Hle|_]; [lia|].
  assert (Hid : forall a b, In a cands -> In b cands -> e_id a = e_id b -> a = b) by (intros a b Ha Hb; apply (same_entry cands Hnd a b Ha Hb)).
  assert (Hgen : forall cis counts sel,
    NoDup (map e_id cis) -> incl cis cands -> StronglySorted (le_rel by_full_ratio) cis -> (forall e, In e cis -> ~ In (e_id e) sel) ->
    (forall o, count_of counts o = times_covered cands sel o) ->
    (forall a, In a cands -> In (e_id a) sel -> forall e, In e cis -> (price_each a <= price_each e)%Q) ->
    (forall pre a mid b post, sel = pre ++ e_id a :: mid ++ e_id b :: post -> In a cands -> In b cands -> (price_each a <= price_each b)%Q) ->
    (forall e, In e cands -> ~ In (e_id e) sel -> ~ In (e_id e) (map e_id cis) -> forall o, In o (e_unc e) -> k < times_cheaper cands sel e o) ->
    let out := topk_loop k cis counts sel in
    (forall pre a mid b post, out = pre ++ e_id a :: mid ++ e_id b :: post -> In a cands -> In b cands -> (price_each a <= price_each b)%Q) /\
    (forall e, In e cands -> ~ In (e_id e) out -> forall o, In o (e_unc e) -> k < times_cheaper cands out e o)).
  { induction cis as [|e cis IH]; intros counts sel Hn1 Hi1 Hso Hns Hcnt Hch Hord Hout; cbn [topk_loop].
    - split; [exact Hord|]. intros e He Hs. apply Hout; auto.
    - cbn [map] in Hn1. inversion Hn1 as [|? ? He Hcis]; subst. inversion Hso as [|? ? Hso' Hall]; subst.
      assert (Hec : In e cands) by (apply Hi1; left; reflexivity).
      assert (Hes : ~ In (e_id e) sel) by (apply Hns; left; reflexivity).
      assert (Hpe : forall x, In x cis -> (price_each e <= price_each x)%Q).
      { intros x Hx. rewrite Forall_forall in Hall. specialize (Hall x Hx). apply by_full_spec in Hall. unfold price_each. unfold full_ratio in Hall.
        destruct Hall as [K|[K _]]; lra. }
      destruct (satisfies_max counts k (e_unc e)) eqn:Es.
      + apply IH; auto.
        * intros x Hx. apply Hi1. right; exact Hx.
        * intros x Hx Hin. apply in_app_iff in Hin. destruct Hin as [Hin|[Hin|[]]].
          { apply (Hns x); [right; exact Hx | exact Hin]. }
          { apply He. rewrite Hin. apply in_map, Hx. }
        * intros o'. rewrite count_bump, Hcnt, times_app; auto.
        * intros a Ha Hin x Hx. apply in_app_iff in Hin. destruct Hin as [Hin|[Hin|[]]]; [apply Hch; [exact Ha | exact Hin | right; exact Hx]|].
          rewrite (Hid a e Ha Hec (eq_sym Hin)). apply Hpe, Hx.
        * intros pre a mid b post Heq Ha Hb. destruct (exists_last (l := e_id b :: post)) as (l' & last & Hlast); [discriminate|].
          rewrite Hlast, app_comm_cons, !app_assoc in Heq. apply app_inj_tail in Heq. destruct Heq as [Heq <-].
          destruct l' as [|i' l'].
          { rewrite app_nil_r in Heq. injection Hlast as Hlast _. rewrite (Hid b e Hb Hec Hlast).
            apply Hch; [exact Ha | rewrite Heq; apply in_app_iff; right; left; reflexivity | left; reflexivity]. }
          { injection Hlast as <- _. apply (Hord pre a mid b l'); auto. rewrite Heq, <- app_assoc. reflexivity. }
        * intros x Hx Hxs Hxc o' Ho'. rewrite in_app_iff in Hxs.
          apply Z.lt_le_trans with (times_cheaper cands sel x o'); [|apply cheaper_mono].
          apply (Hout x); auto. cbn [map]. intros [E|E]; [apply Hxs; right; left; exact E | contradiction].
      + apply IH; auto.
        * intros x Hx. apply Hi1. right; exact Hx.
        * intros x Hx. apply Hns. right; exact Hx.
        * intros a Ha Hin x Hx. apply Hch; [exact Ha | exact Hin | right; exact Hx].
        * intros x Hx Hxs Hxc o Ho. destruct (eq_dec (e_id e) (e_id x)) as [Heq|Hne].
          { assert (x = e) by (apply Hid; auto). subst x.
            rewrite cheaper_all by (intros c Hc Hcs; apply Hch; [exact Hc | exact Hcs | left; reflexivity]).
            apply existsb_false_iff with (x := o) in Es; [|exact Ho]. apply Z.leb_gt in Es. rewrite Hcnt in Es. exact Es. }
          { apply (Hout x); auto. cbn [map]. intros [E|E]; [congruence | contradiction]. } }
  pose proof (sort_perm by_full_ratio cands) as Hp. cbn zeta.
  apply (Hgen (sort by_full_ratio cands) [] []).
  - apply (Permutation_NoDup (Permutation_map e_id (Permutation_sym Hp))). exact Hnd.
  - intros x Hx. apply In_sort in Hx. exact Hx.
  - apply sort_sorted; [apply by_full_total | apply by_full_trans].
  - intros e _ [].
  - intros o. unfold times_covered. change (count_of [] o) with 0.
    assert (flat_map (fun e => if mem (e_id e) [] then e_unc e else []) cands = []) as ->; [|reflexivity].
    clear. induction cands; simpl; auto.
  - intros a _ [].
  - intros pre a mid b post E. destruct pre; discriminate.
  - intros e He _ Hn. exfalso. apply Hn, in_map, In_sort, He.
Qed.
Print Assumptions C67_cheapest.
Example C67_case :
  topk_each [(0%nat, (1%Q, [(1, 0%nat); (2, 0%nat)])); (1%nat, (1%Q, [(1, 0%nat); (2, 0%nat); (3, 0%nat)]));
             (2%nat, (3%Q, [(1, 0%nat); (2, 0%nat)])); (3%nat, (9%Q, [(1, 0%nat)]))] 1 = [1; 0]%nat.
Proof. reflexivity. Qed.
Print Assumptions C67_top_k.
