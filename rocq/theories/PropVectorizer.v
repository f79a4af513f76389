(* C23: the shape of the result of SLIMVectorizer.transform and its NaN cells, for every new database. *)
From Verif Require Import Prelude CheckModel LCMModel LCMProofs ItemsetSpec VerticalProofs LCMLift
  SlimModel SlimProofs SlimInv SlimRun SlimFit SlimUse SlimAppsModel PropSlim PropSlimApps.
From Coq Require Import QArith.
Local Open Scope nat_scope.

Section Vect.
  Context {A : Type} `{EqDec A} {T : Type} (leA : A -> A -> bool).

  Lemma applicable_total (st : slim A T) D stop : inv st ->
    list_sum (map snd (filter (fun p => subset (fst p) (dkeys (fst (to_vertical D stop))))
      (map (fun p => (fst p, length (snd p))) (slim_transform leA true true false st)))) = app_total st D stop.
  Proof.
    intros [Hnd Gd]. destruct (to_vertical_spec leA D stop) as [V1 [V2 V3]]. set (d := fst (to_vertical D stop)) in *.
    assert (Hne : forall s, In s (map fst (ct st)) -> s <> []) by (intros s Hs; apply (g_keys _ _ Gd s Hs)).
    unfold app_total, slim_transform; rewrite map_map.
    clear -Hne V2; induction (ct st) as [|p c IH]; [reflexivity|].
    specialize (IH (fun s Hs => Hne s (or_intror Hs))); simpl.
    destruct (Nat.ltb_spec 0 (length (fst p))) as [Hl|Hl].
    2:{ exfalso; apply (Hne (fst p)); [left; reflexivity | destruct (fst p); [reflexivity | simpl in Hl; lia]]. }
    simpl; rewrite <- IH.
    assert (Eb : subset (sort leA (fst p)) (dkeys d) = forallb (fun x => negb (mem x stop) && existsb (mem x) D) (fst p)).
    { apply eq_true_iff_eq; rewrite subset_incl, forallb_forall; split.
      - intros Hi x Hx; destruct (proj1 (V2 x)) as [[r [Hr Hxr]] Hst]; [apply Hi, In_sort, Hx|].
        apply andb_true_iff; split; [apply negb_true_iff, mem_false, Hst|].
        apply existsb_exists; exists r; split; [exact Hr | apply mem_In, Hxr].
      - intros Hf x Hx; apply In_sort in Hx; apply Hf, andb_true_iff in Hx; destruct Hx as [H1 H2].
        apply V2; split; [|apply mem_false, negb_true_iff, H1].
        apply existsb_exists in H2; destruct H2 as [r [Hr Hxr]]; exists r; split; [exact Hr | apply mem_In, Hxr]. }
    rewrite Eb; destruct (forallb _ (fst p)); simpl; lia.
  Qed.

  Context (total : ktable A (list nat) -> T) (tlt : T -> T -> bool).
  Context (tlt_trans : forall t1 t2 t3, tlt t1 t2 = true -> tlt t2 t3 = true -> tlt t1 t3 = true).
  Context (ord : list A -> list A -> bool).
  Context (iter : list (list A) -> list (list A)) (iter_perm : forall l, Permutation (iter l) l).
  Context {G : Type} (gain : ktable A (list nat) -> list A -> list A -> G)
          (gpos : G -> bool) (gge : G -> G -> bool).
  Context (reorder : ktable A (list nat) -> ktable A (list nat)) (reorder_perm : forall c, Permutation (reorder c) c).

  (* For every new database, empty or not: there is one row per transaction but at least one, without transactions there is no
     column, and a cell is NaN exactly when codes are asked for and no applicable itemset was used in training: then all are. *)
  Theorem C23_exact : forall X items st strat k stop D, well_named X items ->
    reachable total tlt ord iter gain gpos gge reorder X items st ->
    exists cols M, vectorize leA strat k stop st D = Some (cols, M) /\
      length M = Nat.max 1 (length D) /\ (forall r, In r M -> length r = length cols) /\ (D = [] -> cols = []) /\
      forall r q, In r M -> In q r -> (q = None <-> strat = Codes /\ app_total st D stop = 0).
  Proof.
    intros X items st strat k stop D Hw R.
    assert (Hi : inv st) by (refine (proj1 (reachable_inv total tlt _ ord iter _ gain gpos gge reorder _ X items st Hw R)); assumption).
    destruct (vectorize_spec leA strat k stop st D Hi) as (cols & M & E & Hv). exists cols, M. split; [exact E|].
    assert (Hnil : D = [] -> cols = []).
    { intros ->. destruct cols as [|s cols]; [reflexivity|]. exfalso. destruct (v_app _ _ _ _ _ _ _ Hv s (or_introl eq_refl)) as [Ha (n & key & u & Hin & Hs & _)].
      destruct Hi as [_ Gd]. assert (Hk : key <> []) by (apply (g_keys _ _ Gd key), (in_map fst _ _ Hin)).
      destruct key as [|x key]; [congruence|]. destruct (Ha x) as [(t & [] & _) _]. apply Hs. left. reflexivity. }
    pose proof (applicable_total st D stop Hi) as Ht. pose proof (v_width _ _ _ _ _ _ _ Hv) as Hwd.
    unfold vectorize in E. destruct (to_vertical D stop) as [d len] eqn:Ev. cbn [fst] in Ht.
    assert (Hlen : len = Nat.max 1 (length D)) by (unfold to_vertical in Ev; injection Ev as _ <-; destruct D; reflexivity).
    destruct (cover d _) as [[covers d']|]; [|discriminate]. injection E as <- <-.
    split; [rewrite map_length, seq_length; exact Hlen|]. split; [exact Hwd|]. split; [exact Hnil|].
    intros r q Hr Hq. apply in_map_iff in Hr. destruct Hr as (i & <- & _). apply in_map_iff in Hq. destruct Hq as (p & <- & _).
    cbv beta zeta. destruct strat; [|split; [intros F; discriminate F | intros [F _]; discriminate F]]. rewrite Ht.
    destruct (Nat.eqb_spec (app_total st D stop) 0) as [Ez|Ez]; [split; auto | split; [intros F; discriminate F | intros [_ F]; contradiction]].
  Qed.
End Vect.
Print Assumptions C23_exact.

(* an item that training never used makes every code NaN; without transactions there is one empty row *)
Example C23_exact_case : exists st, vec_st = Ret st /\ app_total st [[1]; [7]] [] = 0 /\ 0 < app_total st [[1;2;7]; [3;4]] [] /\
  vectorize Nat.leb Codes 3 [] st [] = Some ([], [[]]).
Proof. eexists. split; [vm_compute; reflexivity|]. split; [vm_compute; reflexivity|]. split; [vm_compute; lia | vm_compute; reflexivity]. Qed.
