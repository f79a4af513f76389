(* Model of skmine/preprocessing/mdlp_discretizer.py. Labels are natural numbers (np.bincount
   raises ValueError on negative ones) and feature values exact rationals: NaN, infinities and the
   rounding of the midpoint are not modelled. *)
From Verif Require Import Prelude CheckModel LCMModel.
From Coq Require Import QArith.
Local Open Scope nat_scope.

Definition slice {A} (l : list A) (s e : nat) : list A := firstn (e - s) (skipn s l).
(* np.bincount(y) / len(y), lines 24-25 *)
Definition bincount (y : list nat) : list nat := map (fun v => count_occ Nat.eq_dec y v) (List.seq 0 (match y with [] => 0 | _ => S (list_max y) end)).
Definition freqs (y : list nat) : list Q := map (fun c => (Z.of_nat c # 1) / (Z.of_nat (length y) # 1))%Q (bincount y).

Section MDLP.
  Variable entropy : list Q -> Q.     (* scipy.stats.entropy(., base=2) *)
  Variable rnd : Q -> Q.              (* rounding of floating point results *)
  (* get_entropy_nb_ones 18-25 *)
  Definition entropy_nb_ones (y : list nat) : Q * nat :=
    let ohe := freqs y in (entropy ohe, length (filter (fun f => negb (Qeq_bool f 0)) ohe)).
  Definition qnat (n : nat) : Q := Z.of_nat n # 1.
  (* lines 46-52 *)
  Definition cut_entropy (y : list nat) (start end_ idx : nat) : Q :=
    let len := end_ - start in
    let f1 := rnd (fst (entropy_nb_ones (slice y start idx)) * rnd (qnat (idx - start) / qnat len))%Q in
    let f2 := rnd (fst (entropy_nb_ones (slice y idx end_)) * rnd (qnat (end_ - idx) / qnat len))%Q in
    rnd (f1 + f2)%Q.
  (* generate_cut_point 28-58: the state is (ent, k), None standing for (inf, -1) *)
  Definition cut_step (y : list nat) (start end_ : nat) (st : option (Q * nat)) (idx : nat) : option (Q * nat) :=
    if (nth (idx - 1) y 0 =? nth idx y 0) then st                          (* 43-44 *)
    else let ne := cut_entropy y start end_ idx in
         match st with
         | None => Some (ne, idx)
         | Some (ent, k) => if negb (Qle_bool ent ne) then Some (ne, idx) else st     (* 54-56 *)
         end.
  Definition generate_cut_point (y : list nat) (start end_ : nat) : option nat :=
    option_map snd (fold_left (cut_step y start end_) (List.seq (start + 1) (end_ - (start + 1))) None).

  (* evaluate 77-94, on the labels before the cut, after it and in the whole interval; [log2] is np.log2 of an
     integer *)
  Definition evaluate (log2 : Z -> Q) (left right whole : list nat) : bool :=
    let '(e1, k1) := entropy_nb_ones left in
    let '(e2, k2) := entropy_nb_ones right in
    let '(e0, k0) := entropy_nb_ones whole in
    let N := length whole in
    let inv := rnd (1 / qnat N)%Q in
    let part1 := rnd (inv * rnd (rnd (qnat (length left) * e1) + rnd (qnat (length right) * e2)))%Q in
    let delta := rnd (log2 (3 ^ Z.of_nat k0 - 2)%Z - rnd (rnd (rnd (qnat k0 * e0) - rnd (qnat k1 * e1)) - rnd (qnat k2 * e2)))%Q in
    let gain := rnd (e0 - part1)%Q in
    negb (Qle_bool gain (rnd (inv * rnd (log2 (Z.of_nat N - 1)%Z + delta)))%Q).
  (* in what follows the outcome of evaluate is a function of these labels, whatever it computes *)
  Variable better : list nat -> list nat -> list nat -> bool.
  Definition mid (X : list Q) (i : nat) : Q := ((nth (i - 1) X 0 + nth i X 0) / (2 # 1))%Q.   (* 125-126 *)
  Definition qset_add (c : Q) (s : list Q) : list Q := if existsb (Qeq_bool c) s then s else c :: s.
  (* lines 124-131 *)
  Definition close_interval (X : list Q) (s e : nat) (cuts : list Q) : list Q :=
    let cuts := if s =? 0 then cuts else qset_add (mid X s) cuts in
    if e =? length X then cuts else qset_add (mid X e) cuts.
  (* the while loop 117-134; None: out of fuel *)
  Fixpoint mdlp_loop (fuel : nat) (X : list Q) (y : list nat) (stack : list (nat * nat)) (cuts : list Q) : option (list Q) :=
    match fuel, stack with
    | _, [] => Some cuts
    | O, _ => None
    | S f, (s, e) :: stack' =>
        match generate_cut_point y s e with
        | Some k => if better (slice y s k) (slice y k e) (slice y s e)
                    then mdlp_loop f X y ((k, e) :: (s, k) :: stack') cuts       (* 133-134: (k, end) is popped first *)
                    else mdlp_loop f X y stack' (close_interval X s e cuts)
        | None => mdlp_loop f X y stack' (close_interval X s e cuts)
        end
    end.
  (* MDLPVectDiscretizer.fit 96-137: [order] is what np.argsort returns (an unstable sort).
     None: the ZeroDivisionError of line 89 on an empty vector, or exhausted fuel *)
  Definition mdlp_fit (fuel : nat) (X0 : list Q) (y0 : list nat) (order : list nat) : option (list Q) :=
    let X := map (fun i => nth i X0 0%Q) order in
    let y := map (fun i => nth i y0 0) order in
    match X with
    | [] => None
    | _ => option_map (sort Qle_bool) (mdlp_loop fuel X y [(0, length X)] [])
    end.
End MDLP.

(* np.searchsorted(a, x), side='left': numpy's binary search *)
Fixpoint bsearch (fuel : nat) (a : list Q) (x : Q) (lo hi : nat) : nat :=
  match fuel with
  | O => lo
  | S f => if lo <? hi
           then let m := lo + Nat.div2 (hi - lo) in
                if negb (Qle_bool x (nth m a 0%Q)) then bsearch f a x (m + 1) hi else bsearch f a x lo m
           else lo
  end.
Definition searchsorted (a : list Q) (x : Q) : nat := bsearch (length a) a x 0 (length a).
(* MDLPDiscretizer.transform 234-256: columns of X are given left to right; cut points are those of the
   dict self.cut_points_, in its order. A DataFrame carries its column names. *)
Definition apply_cuts (cols : list (list Q)) (cuts : list (list Q)) : option (list (list nat)) :=
  if (length cuts <=? length cols) then Some (map (fun cc => map (searchsorted (fst cc)) (snd cc)) (combine cuts cols)) else None.
Definition same_set {A} `{EqDec A} (l1 l2 : list A) : bool := forallb (fun x => mem x l2) l1 && forallb (fun x => mem x l1) l2.
Definition transform_frame {A} `{EqDec A} (cut_points : list (A * list Q)) (names : list A) (cols : list (list Q)) : outcome (list (list nat)) :=
  if negb (same_set (map fst cut_points) names) then Exn ValueError        (* 241-242 *)
  else match apply_cuts cols (map snd cut_points) with Some r => Ret r | None => Exn IndexError end.
