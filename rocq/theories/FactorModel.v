(* Model of Candidate.factorizePattern (skmine/periodic/candidate.py 307-339). *)
From Verif Require Import Prelude CheckModel LCMModel TextModel SplitModel PeriodModel TreeModel.
Local Open Scope Z_scope.

Section Factor.
  Context {A : Type}.
  (* [c[:2] for c in P.getTimesNidsRefs()] 323, 327-328 *)
  Definition time_nids (t : tree A) : list (Z * nat) := map fst (times_nids t).
  Definition list_set {B} (l : list B) (k : nat) (x : B) : list B := firstn k l ++ x :: skipn (S k) l.
  (* 330-332: Qoccs[map_Q[r]] = self.O[i]; None is a KeyError or an IndexError *)
  Fixpoint place (mapQ : dict (Z * nat) nat) (rs : list (Z * nat)) (O : list Z) (acc : list (option Z)) : option (list (option Z)) :=
    match rs with
    | [] => Some acc
    | r :: rs' =>
        match O, dget mapQ r with
        | o :: O', Some k => if (k <? length acc)%nat then place mapQ rs' O' (list_set acc k (Some o)) else None
        | _, _ => None
        end
    end.
  (* a candidate is a pattern, its occurrences and its corrections *)
  Definition cand := (tree A * list Z * list Z)%type.
  (* one iteration 320-334 for the node nid *)
  Definition factor_step (P : tree A) (O : list Z) (nid : nat) : option cand :=
    let Q := factorize nid P in
    let refsQ := time_nids Q in
    let mapQ := dict_of (combine refsQ (List.seq 0 (length refsQ))) in
    match place mapQ (time_nids P) O (map (fun _ => None) O) with
    | None => None
    | Some qo =>
        match all_some qo with                          (* a remaining None makes computeEFromO fail *)
        | None => None
        | Some Qoccs => match compute_E_from_O Q Qoccs with
                        | Some QE => Some (Q, Qoccs, QE)
                        | None => None
                        end
        end
    end.
  Definition has_dup {B} `{EqDec B} (l : list B) : bool := negb (length (nodup eq_dec l) =? length l)%nat.
  (* factorizePattern 307-339; None is an exception or exhausted fuel *)
  Fixpoint factorize_pattern (fuel : nat) (P : tree A) (O : list Z) : option (list cand) :=
    match fuel with
    | O => None
    | S f =>
        (fix go (nf : list nat) : option (list cand) :=
           match nf with
           | [] => Some []
           | nid :: nf' =>
               if has_dup (time_nids P) then Some []                                    (* 324-326 *)
               else match factor_step P O nid with
                    | None => None
                    | Some (Q, Qoccs, QE) =>
                        match factorize_pattern f Q Qoccs, go nf' with
                        | Some fs, Some rest => Some ((Q, Qoccs, QE) :: fs ++ rest)
                        | _, _ => None
                        end
                    end
           end) (can_factorize P)
    end.
End Factor.
