(* Model of mine_seqs of skmine/periodic/run_mine.py with complex=False (813-987): the initial
   candidates of an event (extract_cycles_alpha 216-253, merge_cycle_lists 256-290, the dictionaries
   made by compute_cycles_dyn, extract_cycles.py 134-194), the pool they are added to and the
   selection of the patterns that fit keeps.

   Costs are exact rationals.  For the event [alpha], [cyc alpha p os] stands for
   computeLengthCycle(data_details, {"p": p, "alpha": alpha, "occs": os}), [trip alpha dp dE] for
   cost_triple(data_details, alpha, dp, dE) and [one alpha] for cost_one(data_details, alpha). *)
From Verif Require Import Prelude CheckModel LCMModel SplitModel PeriodModel TreeModel NestModel SegModel CoverModel PoolModel CyclesModel FoldModel.
From Coq Require Import QArith.
Local Open Scope nat_scope.

(* the dictionaries {"alpha", "occs", "p", "cost"}, for a fixed event *)
Record cycle := { y_occs : list Z; y_p : Z; y_cost : Q }.
Definition no_cycle : cycle := {| y_occs := []; y_p := 0%Z; y_cost := 0%Q |}.

(* ------------------------------------------------------------ merge_cycle_lists *)
(* 274: (t0, number of occurrences, period) *)
Definition mkey := (Z * nat * Z)%type.
Definition key_of (c : cycle) : mkey := (hd 0%Z (y_occs c), length (y_occs c), y_p c).
Definition mkey_lt (a b : mkey) : bool :=
  let '(a1, a2, a3) := a in let '(b1, b2, b3) := b in
  ((a1 <? b1)%Z || ((a1 =? b1)%Z && ((a2 <? b2) || ((a2 =? b2) && (a3 <? b3)%Z))))%bool.
(* 274-275: tuples (key, ki, ci) compared from left to right; the cycle itself is carried along *)
Definition tagged := (mkey * nat * nat * cycle)%type.
Definition tag_leb (a b : tagged) : bool :=
  let '(ka, ia, ca, _) := a in let '(kb, ib, cb, _) := b in
  (mkey_lt ka kb || (eqd ka kb && ((ia <? ib) || ((ia =? ib) && (ca <=? cb)))))%bool.
Definition tag_list (ci : nat) (cs : list cycle) : list tagged :=
  map (fun kc => (key_of (snd kc), fst kc, ci, snd kc)) (combine (List.seq 0 (length cs)) cs).
Definition tag_all (csl : list (list cycle)) : list tagged :=
  concat (map (fun cc => tag_list (fst cc) (snd cc)) (combine (List.seq 0 (length csl)) csl)).
(* 276-289: [c] is the last element of [cycles] and [k] the previous key *)
Fixpoint merge_from (k : mkey) (c : cycle) (l : list tagged) : list cycle :=
  match l with
  | [] => [c]
  | (k', _, _, c') :: t =>
      if eqd k' k then merge_from k' (if qlt (y_cost c') (y_cost c) then c' else c) t
      else c :: merge_from k' c' t
  end.
(* 256-290; kk["occs"][0] of an empty list is an IndexError *)
Definition merge_cycles (csl : list (list cycle)) : outcome (list cycle) :=
  if existsb (existsb (fun c => match y_occs c with [] => true | _ => false end)) csl then Exn IndexError
  else Ret match sort tag_leb (tag_all csl) with
           | [] => []
           | (k, _, _, c) :: t => merge_from k c t
           end.

(* ------------------------------------------------------------ one event *)
Section Alpha.
  Variable cyc : Z -> list Z -> Q.
  Variable trip : Z -> Z -> Q.
  Variable small : Z -> bool.
  Variable one : Q.
  Variable alpha : nat.
  (* computeLengthCycle without "p" (class_patterns.py 198-200) *)
  Definition cyc_of (os : list Z) : Q := match compute_period os with Some p => cyc p os | None => 0%Q end.

  (* compute_cycles_dyn 155-168 with the costs *)
  Fixpoint blocks_costs (fuel : nat) (occs : list Z) (pstart : nat) (splits : list (nat * nat)) (costs : dict (nat * nat) Q)
    : outcome (list (nat * nat) * dict (nat * nat) Q) :=
    match fuel with
    | O => NoFuel
    | S f =>
        if pstart + 50 <? length occs then
          let nb := firstn block_size (skipn pstart occs) in
          match compute_table cyc_of one nb with
          | None => Exn KeyError
          | Some (scores, sp) =>
              let bs := recover (length nb) sp 0 (length nb - 1) false in
              let adj := map (fun s => (fst s + pstart, snd s + pstart)) bs in
              bind (map_out (fun s => match dget scores s with
                                      | Some v => Ret ((fst s + pstart, snd s + pstart), v)
                                      | None => Exn KeyError
                                      end) bs) (fun news =>
              blocks_costs f occs (pstart + step_size) (combine_splits splits adj)
                (fold_left (fun d kv => dset d (fst kv) (snd kv)) news costs))
          end
        else Ret (splits, costs)
    end.
  (* 150-172 *)
  Definition splits_costs (occs : list Z) : outcome (list (nat * nat) * dict (nat * nat) Q) :=
    if 2 * block_size <? length occs then blocks_costs (length occs) occs 0 [] []
    else match compute_table cyc_of one occs with
         | None => Exn KeyError
         | Some (scores, sp) => Ret (recover (length occs) sp 0 (length occs - 1) false, scores)
         end.
  (* 176-186 *)
  Definition dyn_cycle (occs : list Z) (costs : dict (nat * nat) Q) (s : nat * nat) : outcome cycle :=
    let cov := occs_range occs (fst s) (snd s) in
    match compute_period cov with
    | None => Exn ValueError
    | Some p => Ret {| y_occs := cov; y_p := p; y_cost := match dget costs s with Some c => c | None => cyc p cov end |}
    end.
  Definition first_leb (a b : cycle) : bool := (hd 0 (y_occs a) <=? hd 0 (y_occs b))%Z.
  (* compute_cycles_dyn 134-194 with residuals=False *)
  Definition dyn_cycles (occs : list Z) : outcome (list cycle) :=
    bind (splits_costs occs) (fun sc =>
    bind (map_out (dyn_cycle occs (snd sc)) (filter (fun s => 1 <? snd s - fst s) (fst sc))) (fun cs =>
    Ret (sort first_leb cs))).

  (* 235-238: dc["occs"][5:-5] *)
  Definition inner (c : cycle) : list Z :=
    if 10 <? length (y_occs c) then firstn (length (y_occs c) - 10) (skipn 5 (y_occs c)) else [].
  (* 235-244 *)
  Definition kept_occs (occs : list Z) (dyn : list cycle) : list Z :=
    match flat_map inner dyn with
    | [] => occs
    | drop => sort Z.leb (filter (fun o => negb (mem o drop)) (nodup eq_dec occs))
    end.
  Definition chain_cycle (c : chain) : cycle := {| y_occs := ch_occs c; y_p := ch_p c; y_cost := ch_cost c |}.
  (* 247-248 *)
  Definition triple_cycle (tmp : list Z) (t : triple) : outcome cycle :=
    let os := map (fun i => nth i tmp 0%Z) (tr_pos t) in
    match compute_period os with
    | None => Exn ValueError
    | Some p => Ret {| y_occs := os; y_p := p; y_cost := tr_cost t |}
    end.
  (* a Candidate made from such a dictionary, as the selection sees it (candidate.py 114-121) *)
  Definition as_entry (i : nat) (c : cycle) : entry := (i, (y_cost c, map (fun o => (o, alpha)) (y_occs c))).
  Definition entries (cs : list cycle) : list entry := map (fun ic => as_entry (fst ic) (snd ic)) (combine (List.seq 0 (length cs)) cs).
  Definition top_keach : Z := 5.
  (* extract_cycles_alpha 216-253 *)
  Definition extract_alpha (sfuel : nat) (occs : list Z) (max_p : option Z) : outcome (list cycle) :=
    bind (dyn_cycles occs) (fun dyn =>
    let tmp := kept_occs occs dyn in
    bind (extract_fold trip cyc small sfuel tmp one one max_p) (fun ct =>
    bind (map_out (triple_cycle tmp) (snd ct)) (fun triples =>
    bind (merge_cycles [dyn; map chain_cycle (fst ct); triples]) (fun cs =>
    Ret (map (fun i => nth i cs no_cycle) (topk_each (entries cs) top_keach)))))).
End Alpha.

(* ------------------------------------------------------------ all events *)
#[global] Instance EqDec_tree : EqDec (tree nat).
Proof.
  unfold EqDec. fix IH 1. intros [n a|n r p ch] [n' a'|n' r' p' ch']; [|right; discriminate | right; discriminate|].
  - destruct (Nat.eq_dec n n') as [->|Hn]; [|right; congruence]. destruct (Nat.eq_dec a a') as [->|Hn]; [left; reflexivity | right; congruence].
  - destruct (Nat.eq_dec n n') as [->|Hn]; [|right; congruence]. destruct (Nat.eq_dec r r') as [->|Hn]; [|right; congruence]. destruct (Z.eq_dec p p') as [->|Hn]; [|right; congruence].
    assert (D : {ch = ch'} + {ch <> ch'}).
    { revert ch'. induction ch as [|[c ds] l IHl]; intros [|[c' ds'] l']; [left; reflexivity | right; discriminate | right; discriminate|].
      destruct (IH c c') as [->|Hn]; [|right; congruence]. destruct (Z.eq_dec ds ds') as [->|Hn]; [|right; congruence]. destruct (IHl l') as [->|Hn]; [left; reflexivity | right; congruence]. }
    destruct D as [->|Hn]; [left; reflexivity | right; congruence].
Defined.
#[global] Instance EqDec_sum {X Y} `{EqDec X} `{EqDec Y} : EqDec (X + Y).
Proof. unfold EqDec. intros [x|y] [x'|y']; [destruct (eq_dec x x') as [->|N] | right; discriminate | right; discriminate | destruct (eq_dec y y') as [->|N]]; [left; reflexivity | right; congruence | left; reflexivity | right; congruence]. Defined.
(* bound_dE = log2(deltaT + 1) - 2 (232): dE < bound_dE, for the integers dE >= 0 of the search *)
Definition small_of (deltaT dE : Z) : bool := (2 ^ (dE + 2) <? deltaT + 1)%Z.
Section Mine.
  Context {A : Type} `{EqDec A}.
  Variable cyc : nat -> Z -> list Z -> Q.
  Variable trip : nat -> Z -> Z -> Q.
  Variable one : nat -> Q.
  (* the keys of a candidate (candidate.py 174-185): for a simple one the event (for a pattern a
     text, see ComplexModel), and t0 with the text "[r,p]", represented by the two numbers *)
  Definition minor := (nat + list (tree nat * Z))%type.
  Definition scand := cand minor (Z * (nat * Z)) (ccand nat).
  Definition event_of (c : scand) : nat := match c_minor c with inl e => e | inr _ => O end.
  (* None, "V1", "H1", "V2", ... *)
  Definition nkey := option (bool * nat).
  Definition spool := pool minor (Z * (nat * Z)) nkey (ccand nat).
  (* Candidate(-1, c) (candidate.py 53-64), as the pool sees it *)
  Definition simple_cand (alpha : nat) (c : cycle) : scand :=
    {| c_minor := inl alpha; c_major := (hd 0%Z (y_occs c), (length (y_occs c), y_p c)); c_cost := Some (y_cost c);
       c_nb := Z.of_nat (length (y_occs c)); c_p := y_p c; c_r := Z.of_nat (length (y_occs c));
       c_occs := y_occs c; c_errs := compute_E (y_occs c) (y_p c);
       c_body := {| cc_P := Simple alpha (y_p c); cc_O := y_occs c; cc_E := compute_E (y_occs c) (y_p c) |} |}.
  Definition times (ds : @dataseq A) (alpha : nat) : list Z :=
    match get_sequence ds (Some alpha) with inr l => l | inl _ => [] end.
  (* 855-865; the new key is None *)
  Fixpoint fill (sfuel : nat) (ds : @dataseq A) (alphas : list nat) (P : spool) : outcome spool :=
    match alphas with
    | [] => Ret P
    | alpha :: rest =>
        bind (extract_alpha (cyc alpha) (trip alpha) (small_of (ds_end ds - ds_start ds)) (one alpha) alpha sfuel (times ds alpha) None) (fun cs =>
        match add_cands P (map (simple_cand alpha) cs) None (Some (one alpha)) with
        | (P', Ret _) => fill sfuel ds rest P'
        | (_, Exn e) => Exn e
        | (_, NoFuel) => NoFuel
        end)
    end.
  (* a candidate of the pool as the selection sees it; every cost is known here *)
  Definition pool_entry (ic : nat * scand) : entry :=
    (fst ic, (match c_cost (snd ic) with Some q => q | None => 0%Q end, map (fun o => (o, event_of (snd ic))) (c_occs (snd ic)))).
  (* getPattT0E and preparePatternSimple (candidate.py 66-80) *)
  Definition simple_patt (c : scand) : patt := (simple_tree (event_of c) (length (c_occs c)) (c_p c), hd 0%Z (c_occs c), c_errs c).
  (* 841 *)
  Definition dcosts (ds : @dataseq A) : dict nat Q := map (fun p => (fst p, one (fst p))) (ds_counts ds).
  (* mine_seqs 813-987 with complex=False: the candidates and the patterns selected *)
  Definition mine_simple (sfuel : nat) (ds : @dataseq A) : outcome (dict nat scand * list nat * list patt) :=
    bind (fill sfuel ds (List.seq 0 (length (ds_events ds))) empty_pool) (fun P =>
    bind (filter_cover (map pool_entry (p_cands P)) (dcosts ds) 3) (fun sel =>
    bind (map_out (fun i => match dget (p_cands P) i with Some c => Ret (simple_patt c) | None => Exn KeyError end) sel) (fun ps =>
    Ret (p_cands P, sel, ps)))).
End Mine.
