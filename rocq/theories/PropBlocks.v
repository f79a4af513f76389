(* C66: which occurrences the blocks of compute_cycles_dyn leave out. *)
From Coq Require Import Sorted Permutation ZArith.
From Verif Require Import Prelude SegModel PropSeg.

(* With more than 200 occurrences a new block of 100 begins every 80 occurrences as long as more than 50 are left.  An
   occurrence behind all blocks is residual, whatever the costs. *)
Theorem C66_unexamined : forall cyc res occs, StronglySorted Z.lt occs -> 200 < length occs ->
  exists cycles residual, compute_cycles cyc res occs = Some (cycles, residual) /\
    forall i, i < length occs -> (forall m, 80 * m + 50 < length occs -> 80 * m + 100 <= i) -> In (nth i occs 0%Z) residual.
Proof.
  intros cyc res occs Hs Hl; destruct (C66_partition cyc res occs Hs) as [cycles [residual [E [H1 _]]]]; exists cycles, residual; split; [exact E|].
  intros i Hi Hm; assert (Hin : In (nth i occs 0%Z) (concat cycles ++ residual)) by (eapply Permutation_in; [symmetry; exact H1 | apply nth_In; lia]).
  apply in_app_iff in Hin; destruct Hin as [Hin|Hin]; [|exact Hin]; exfalso.
  unfold compute_cycles in E; destruct (splits_spec cyc res occs) as [splits [E' [_ [H2 H3]]]]; rewrite E' in E; injection E as Ec _.
  apply in_concat in Hin; destruct Hin as [c [Hc Hin]]; rewrite <- Ec in Hc; eapply Permutation_in in Hc; [|apply sort_perm].
  apply in_map_iff in Hc; destruct Hc as [s [<- Hs']]; apply filter_In in Hs'; destruct Hs' as [Hs' _].
  apply in_map_iff in Hin; destruct Hin as [j [Ej Hj]]; apply in_seq in Hj.
  unfold bounded in H2; rewrite Forall_forall in H2; specialize (H2 s Hs').
  destruct (H3 ltac:(unfold block_size; lia) s Hs') as [m [M1 M2]]; unfold step_size, block_size in *.
  specialize (Hm m ltac:(lia)).
  assert (Hn := sorted_NoDup occs Hs); rewrite NoDup_nth in Hn; assert (j = i) by (apply (Hn j i); [lia | lia | exact Ej]); lia.
Qed.
Print Assumptions C66_unexamined.
(* there is such an occurrence exactly when the length minus 51 leaves at least 50 when divided by 80 *)
Theorem C66_lengths : forall n, 200 < n ->
  ((exists i, i < n /\ forall m, 80 * m + 50 < n -> 80 * m + 100 <= i) <-> 50 <= (n - 51) mod 80).
Proof.
  intros n Hn. pose proof (Nat.div_mod (n - 51) 80 ltac:(lia)) as D. pose proof (Nat.mod_upper_bound (n - 51) 80 ltac:(lia)) as U. split.
  - intros (i & Hi & Hm). specialize (Hm ((n - 51) / 80) ltac:(lia)). lia.
  - intros Hr. exists (n - 1). split; [lia|]. intros m Hm. assert (m <= (n - 51) / 80) by (apply Nat.div_le_lower_bound; lia). lia.
Qed.
Print Assumptions C66_lengths.

Example C66_unexamined_case : 50 <= (210 - 51) mod 80 /\ ~ 50 <= (240 - 51) mod 80 /\
  (forall m, 80 * m + 50 < 210 -> 80 * m + 100 <= 180).
Proof. split; [vm_compute; lia|]. split; [vm_compute; lia|]. intros m Hm. lia. Qed.
