(* Python string operations used by the readers: str.split(sep), str.rstrip(),
   str.splitlines(), int(s), str(n). *)
From Verif Require Import Prelude CheckModel TextModel.
From Coq Require Import NArith.

(* s[len(p):] if s.startswith(p) *)
Fixpoint strip_prefix (p s : text) : option text :=
  match p, s with
  | [], _ => Some s
  | _ :: _, [] => None
  | c :: p', d :: s' => if N.eqb c d then strip_prefix p' s' else None
  end.
(* s.split(sep), sep non-empty; [fuel] is larger than len(s) *)
Fixpoint split_aux (fuel : nat) (sep cur s : text) : list text :=
  match fuel with
  | 0 => [cur]
  | S f =>
      match s with
      | [] => [cur]
      | c :: t => match strip_prefix sep s with
                  | Some rest => cur :: split_aux f sep [] rest
                  | None => split_aux f sep (cur ++ [c]) t
                  end
      end
  end.
Definition split_str (sep s : text) : outcome (list text) :=
  match sep with
  | [] => Exn ValueError                                   (* empty separator *)
  | _ => Ret (split_aux (S (length s)) sep [] s)
  end.

Fixpoint lstrip (s : text) : text :=
  match s with
  | [] => []
  | c :: t => if is_space c then lstrip t else s
  end.
Definition rstrip (s : text) : text := rev (lstrip (rev s)).
Definition strip (s : text) : text := rstrip (lstrip s).

(* the line boundaries of str.splitlines(); "\r" never remains after reading a file in
   text mode, so "\r\n" need not be treated as one boundary *)
Definition is_break (c : char) : bool :=
  ((10 <=? c) && (c <=? 13))%N || ((28 <=? c) && (c <=? 30))%N || (c =? 133)%N || (c =? 8232)%N || (c =? 8233)%N.
Fixpoint splitlines_from (cur s : text) : list text :=
  match s with
  | [] => match cur with [] => [] | _ => [cur] end
  | c :: t => if is_break c then cur :: splitlines_from [] t else splitlines_from (cur ++ [c]) t
  end.
Definition splitlines (s : text) : list text := splitlines_from [] s.

Definition minus_c : char := 45%N.
Definition plus_c : char := 43%N.
Definition is_digitb (c : char) : bool := ((48 <=? c) && (c <=? 57))%N.
Definition digits_value (l : text) : Z := fold_left (fun a c => (10 * a + (Z.of_N c - 48))%Z) l 0%Z.
Definition parse_nat (s : text) : option Z :=
  match s with
  | [] => None
  | _ => if forallb is_digitb s then Some (digits_value s) else None
  end.
(* int(s) on ASCII digits; None stands for ValueError.  Underscores between digits and
   non-ASCII digits, which int() also accepts, are not modelled. *)
Definition parse_int (s : text) : option Z :=
  match strip s with
  | [] => None
  | c :: t => if N.eqb c minus_c then option_map Z.opp (parse_nat t)
              else if N.eqb c plus_c then parse_nat t
              else parse_nat (c :: t)
  end.
(* str(z) *)
Definition str_z (z : Z) : text :=
  if (z <? 0)%Z then minus_c :: dec (Z.to_nat (- z)) else dec (Z.to_nat z).

(* list(map(f, l)) where f may raise ValueError *)
Fixpoint map_opt {X Y} (f : X -> option Y) (l : list X) : outcome (list Y) :=
  match l with
  | [] => Ret []
  | x :: t => match f x with
              | None => Exn ValueError
              | Some y => bind (map_opt f t) (fun r => Ret (y :: r))
              end
  end.
Fixpoint map_out {X Y} (f : X -> outcome Y) (l : list X) : outcome (list Y) :=
  match l with
  | [] => Ret []
  | x :: t => bind (f x) (fun y => bind (map_out f t) (fun r => Ret (y :: r)))
  end.
