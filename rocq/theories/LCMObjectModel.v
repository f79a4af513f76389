(* Model of an LCM or LCMMax object over time: skmine/itemsets/lcm.py, __init__ (78-81),
   fit (90-142), transform (144-240, 358-380), and set_params(min_supp=...) of
   skmine/base.py.  Only the in-memory results (out=None) are modelled. *)
From Verif Require Import Prelude FilterModel CheckModel LCMModel.
From Coq Require Import QArith.
Local Open Scope nat_scope.

Section Object.
  Context {A : Type} `{EqDec A} (leA : A -> A -> bool).

  (* the two kinds of input with a different notion of width, lcm.py 140 and 205:
     a list of transactions, or a pandas Series of transactions *)
  Inductive data := AsList (D : list (list A)) | AsSeries (D : list (list A)).
  Definition rows_of (d : data) : list (list A) := match d with AsList D => D | AsSeries D => D end.
  (* D.shape[-1] if not isinstance(D, list) else len(D[-1]); IndexError on the empty list *)
  Definition width (d : data) : outcome nat :=
    match d with
    | AsSeries D => Ret (length D)
    | AsList D => match rev D with [] => Exn IndexError | t :: _ => Ret (length t) end
    end.

  (* the fitted attributes: min_supp_ (with n), item_to_tids_ with ord_item_freq_, n_features_in_ *)
  Record fitted := { f_ms : minsupp; f_n : nat; f_tbl : dict A (list nat); f_width : nat }.
  (* [e_max] tells LCMMax from LCM *)
  Record est := { e_max : bool; e_ms : minsupp; e_fit : option fitted }.

  Inductive call :=
  | SetMinSupp (ms : minsupp)
  | Fit (d : data)
  | Transform (d : data) (lexico : bool) (max_length : Z) (sched : list nat).
  (* what a call gives back: nothing of interest, rows, or an exception *)
  Definition answer := outcome (option (list (row A))).

  (* lcm.py 110-142.  _validate_data (110, ensure_min_samples=1) raises ValueError on no
     transaction; _check_min_supp (120) raises before any attribute is written *)
  Definition do_fit (e : est) (d : data) : est * answer :=
    match rows_of d with
    | [] => (e, Exn ValueError)
    | D => match check_min_supp (minsupp_val (e_ms e)) true with
           | Some x => (e, Exn x)
           | None =>
               match width d with
               | Ret w => ({| e_max := e_max e; e_ms := e_ms e;
                              e_fit := Some {| f_ms := e_ms e; f_n := length D;
                                               f_tbl := fit_table (e_ms e) D; f_width := w |} |},
                           Ret None)
               | Exn x => (e, Exn x)
               | NoFuel => (e, NoFuel)
               end
           end
    end.
  (* lcm.py 199-218 and 358-380; check_is_fitted raises NotFittedError, a ValueError *)
  Definition do_transform (e : est) (d : data) (lexico : bool) (ml : Z) (sched : list nat) : answer :=
    match e_fit e with
    | None => Exn ValueError
    | Some f =>
        bind (width d) (fun w =>
          if negb (w =? f_width f) then Exn ValueError
          else Ret (Some (if e_max e then transform_max leA (f_ms f) (f_n f) (f_tbl f) lexico ml sched
                          else transform leA (f_ms f) (f_n f) (f_tbl f) lexico ml sched)))
    end.
  Definition step (e : est) (c : call) : est * answer :=
    match c with
    | SetMinSupp ms => ({| e_max := e_max e; e_ms := ms; e_fit := e_fit e |}, Ret None)
    | Fit d => do_fit e d
    | Transform d lexico ml sched => (e, do_transform e d lexico ml sched)
    end.
  Fixpoint run (e : est) (h : list call) : est :=
    match h with [] => e | c :: t => run (fst (step e c)) t end.
  (* a new object, lcm.py 78-81 *)
  Definition create (maxi : bool) (ms : minsupp) : est := {| e_max := maxi; e_ms := ms; e_fit := None |}.
End Object.
Arguments data : clear implicits.
Arguments call : clear implicits.
