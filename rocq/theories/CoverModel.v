(* Model of the candidate selection of skmine/periodic/run_mine.py (703-810). *)
From Verif Require Import Prelude CheckModel LCMModel.
From Coq Require Import QArith.
Local Open Scope Z_scope.

(* an occurrence (time, event number) *)
Definition occ := (Z * nat)%type.
#[export] Instance occ_EqDec : EqDec occ.
Proof. intros x y. decide equality; [apply Nat.eq_dec | apply Z.eq_dec]. Defined.

(* A candidate as the selection sees it: its identifier (the key in [cands]), its cost and the
   set of occurrences it still has to cover (candidate.py 259-271: a duplicate-free list).
   Simplification: costs are exact rationals, and two identifiers never share a Candidate. *)
Definition entry := (nat * (Q * list occ))%type.
Definition e_id (e : entry) : nat := fst e.
Definition e_cost (e : entry) : Q := fst (snd e).
Definition e_unc (e : entry) : list occ := snd (snd e).
(* initUncovered 271 *)
Definition init_uncovered (e : entry) : entry := (e_id e, (e_cost e, nodup eq_dec (e_unc e))).
(* updateUncovered 281-285 *)
Definition update_uncovered (cover : list occ) (e : entry) : entry :=
  (e_id e, (e_cost e, diff (e_unc e) cover)).
Definition nb_unc (e : entry) : Z := Z.of_nat (length (e_unc e)).
(* getCostUncoveredRatio 287-290; None is float("Inf") *)
Definition cost_ratio (e : entry) : option Q :=
  if nb_unc e =? 0 then None else Some (e_cost e / inject_Z (nb_unc e))%Q.
Definition ratio_leb (a b : option Q) : bool :=
  match a, b with
  | _, None => true
  | None, Some _ => false
  | Some x, Some y => Qle_bool x y
  end.
(* isEfficient 292-293; a missing event is the KeyError of dcosts[...].  Only called when
   something is uncovered, so the mean is over a non-empty list. *)
Definition is_efficient (dcosts : dict nat Q) (e : entry) : outcome bool :=
  bind (fold_right (fun o acc => bind acc (fun s =>
          match dget dcosts (snd o) with Some c => Ret (c + s)%Q | None => Exn KeyError end))
          (Ret 0%Q) (e_unc e))
    (fun s => Ret (negb (Qle_bool (s / inject_Z (nb_unc e)) (e_cost e / inject_Z (nb_unc e))))).
(* run_mine.py 740: numpy.min *)
Definition min_cost (dcosts : dict nat Q) : Q :=
  match dcosts with
  | [] => 0%Q
  | (_, c) :: t => fold_left (fun m p => if Qle_bool m (snd p) then m else snd p) t c
  end.
Definition by_ratio (a b : entry) : bool := ratio_leb (cost_ratio a) (cost_ratio b).
(* 748-753: the candidates kept after a selection *)
Definition keep (max_eff : Q) (min_cov : Z) (e : entry) : bool :=
  negb (nb_unc e <? min_cov) &&
  negb (Qle_bool 0 max_eff && negb (ratio_leb (cost_ratio e) (Some max_eff))).
(* 741-755: the main loop; one unit of fuel per iteration *)
Fixpoint cover_loop (fuel : nat) (dcosts : dict nat Q) (max_eff : Q) (min_cov : Z)
    (cis : list entry) (selected : list nat) : outcome (list nat) :=
  match cis with
  | [] => Ret selected
  | e :: rest =>
      match fuel with
      | O => NoFuel
      | S f =>
          if ratio_leb (cost_ratio e) (Some max_eff) then
            if min_cov <=? nb_unc e then
              bind (is_efficient dcosts e) (fun eff =>
                if eff then
                  let selected' := selected ++ [e_id e] in
                  if 0 <? nb_unc e then
                    cover_loop f dcosts max_eff min_cov
                      (sort by_ratio (filter (keep max_eff min_cov) (map (update_uncovered (e_unc e)) rest)))
                      selected'
                  else cover_loop f dcosts max_eff min_cov rest selected'
                else cover_loop f dcosts max_eff min_cov rest selected)
            else cover_loop f dcosts max_eff min_cov rest selected
          else cover_loop f dcosts max_eff min_cov rest selected
      end
  end.
(* filter_candidates_cover 703-756 with cis=None *)
Definition filter_cover (cands : list entry) (dcosts : dict nat Q) (min_cov : Z) : outcome (list nat) :=
  let cis := map init_uncovered cands in
  match dcosts with
  | [] => Ret []
  | _ => cover_loop (length cis) dcosts (min_cost dcosts) min_cov (sort by_ratio cis) []
  end.

(* ---------------------------------------------------------------- topKeach *)
(* candidate.py 254-257, 248-252 over a dictionary of counts *)
Definition count_of (counts : dict occ Z) (o : occ) : Z := match dget counts o with Some n => n | None => 0 end.
Definition bump (counts : dict occ Z) (os : list occ) : dict occ Z :=
  fold_left (fun d o => dset d o (count_of d o + 1)) os counts.
Definition satisfies_max (counts : dict occ Z) (k : Z) (os : list occ) : bool :=
  existsb (fun o => count_of counts o <=? k) os.
(* getCostRatio 242-246 on distinct occurrences: None is the ZeroDivisionError (plain floats) of
   a candidate without occurrences; cost None (ratio 0) is not modelled *)
Definition full_ratio (e : entry) : Q := (e_cost e / inject_Z (Z.of_nat (length (nodup eq_dec (e_unc e)))))%Q.
Definition by_full_ratio (a b : entry) : bool :=
  if Qeq_bool (full_ratio a) (full_ratio b) then (e_id a <=? e_id b)%nat else Qle_bool (full_ratio a) (full_ratio b).
Fixpoint topk_loop (k : Z) (cis : list entry) (counts : dict occ Z) (selected : list nat) : list nat :=
  match cis with
  | [] => selected
  | e :: rest =>
      if satisfies_max counts k (e_unc e) then topk_loop k rest (bump counts (e_unc e)) (selected ++ [e_id e])
      else topk_loop k rest counts selected
  end.
(* filter_candidates_topKeach 759-790; candidates have at least one occurrence *)
Definition topk_each (cands : list entry) (k : Z) : list nat :=
  if Z.of_nat (length cands) <=? k then map e_id cands
  else topk_loop k (sort by_full_ratio cands) [] [].
