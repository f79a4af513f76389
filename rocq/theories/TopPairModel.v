(* Model of get_top_p, skmine/periodic/run_mine.py 344-363, on lists of pairs of integers. *)
From Verif Require Import Prelude.
Local Open Scope Z_scope.

(* 358-360: topN moves on while the next entry has the same first component; l is the list from topN on *)
Fixpoint run_end (l : list (Z * Z)) (topN : nat) : nat :=
  match l with
  | x :: (y :: _) as t => if fst x =? fst y then run_end t (S topN) else topN
  | _ => topN
  end.
(* 356-363; the two positions compared at 361 exist whenever 361 is reached *)
Definition get_top_p (l : list (Z * Z)) : Z * Z * Z :=
  match l with
  | x0 :: x1 :: (x2 :: _) as t =>
      if fst x1 =? fst x2 then
        let n := run_end t 2 in
        let xn := nth n l x0 in
        if Z.abs (snd x0 - snd x1) <? Z.abs (snd x0 - snd xn) then (0, Z.of_nat n, 1) else (0, 1, Z.of_nat n)
      else (0, 1, -1)
  | _ => (0, 1, -1)
  end.
