(* Model of the argument checks of skmine/utils.py 26-43.  A Python argument is
   one of the kinds that [isinstance(x, int)] / [isinstance(x, float)] can tell
   apart; [bool] is a subclass of [int] in Python.  Floats are exact rationals,
   the two infinities or NaN; rounding plays no role in the comparisons with the
   constants 0 and 1. *)
From Verif Require Import Prelude.
From Coq Require Import QArith.

Inductive pyfloat := Fin (q : Q) | PInf | NInf | NaN.
Inductive pyval := PyInt (z : Z) | PyBool (b : bool) | PyFloat (f : pyfloat) | PyOther.
Inductive exn := ValueError | TypeError | IndexError | KeyError | AttributeError | AssertionError | NotImplementedError.

(* IEEE comparison of a float with an integer constant: False on NaN *)
Definition flt_lt (f : pyfloat) (c : Z) : bool :=
  match f with
  | Fin q => negb (Qle_bool (inject_Z c) q)
  | PInf => false | NInf => true | NaN => false
  end.
Definition flt_gt (f : pyfloat) (c : Z) : bool :=
  match f with
  | Fin q => negb (Qle_bool q (inject_Z c))
  | PInf => true | NInf => false | NaN => false
  end.

Definition check_int (m : Z) (accept_absolute : bool) : option exn :=
  if negb accept_absolute then Some ValueError           (* utils.py 28-29 *)
  else if (m <? 1)%Z then Some ValueError                (* utils.py 30-31 *)
  else None.

(* utils.py 26-36; [None] means the check passes silently *)
Definition check_min_supp (v : pyval) (accept_absolute : bool) : option exn :=
  match v with
  | PyInt m => check_int m accept_absolute
  | PyBool b => check_int (if b then 1 else 0)%Z accept_absolute
  | PyFloat f => if flt_lt f 0 || flt_gt f 1 then Some ValueError else None (* 32-34 *)
  | PyOther => Some TypeError                            (* utils.py 35-36 *)
  end.

(* utils.py 39-43, for numeric arguments *)
Definition check_growth_rate (v : pyval) : pyval + exn :=
  match v with
  | PyInt m => if negb (m >? 1)%Z then inr ValueError else inl v
  | PyBool _ => inr ValueError                            (* True > 1 is False *)
  | PyFloat f => if negb (flt_gt f 1) then inr ValueError else inl v
  | PyOther => inr TypeError                              (* '>' not supported *)
  end.

(* result of a computation that may raise, or run out of the fuel of the model *)
Inductive outcome (R : Type) := Ret (r : R) | Exn (e : exn) | NoFuel.
Arguments Ret {R}. Arguments Exn {R}. Arguments NoFuel {R}.
Definition bind {R S} (m : outcome R) (k : R -> outcome S) : outcome S :=
  match m with Ret r => k r | Exn e => Exn e | NoFuel => NoFuel end.
