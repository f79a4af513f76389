(* Text files and the few string operations the library uses.
   A Python [str] is a list of Unicode code points. *)
From Verif Require Import Prelude.
From Coq Require Import NArith.

Definition char := N.
Definition text := list char.

#[global] Instance EqDec_N : EqDec N := N.eq_dec.

Definition nl : char := 10%N.          (* '\n' *)
Definition cr : char := 13%N.          (* '\r' *)
Definition sp : char := 32%N.          (* ' '  *)
Definition lpar : char := 40%N.
Definition rpar : char := 41%N.

(* str.isspace on one code point: the characters removed by str.strip() *)
Definition is_space (c : char) : bool :=
  ((9 <=? c) && (c <=? 13))%N || ((28 <=? c) && (c <=? 32))%N || (c =? 133)%N || (c =? 160)%N
  || (c =? 5760)%N || ((8192 <=? c) && (c <=? 8202))%N || (c =? 8232)%N || (c =? 8233)%N
  || (c =? 8239)%N || (c =? 8287)%N || (c =? 12288)%N.
(* [not line.strip()] *)
Definition blank (l : text) : bool := forallb is_space l.

(* str(n) for n >= 0: decimal digits, most significant first.  [fuel] bounds the
   number of digits. *)
Definition digit (n : nat) : char := (48 + N.of_nat n)%N.
Fixpoint dec_aux (fuel n : nat) (acc : text) : text :=
  match fuel with
  | 0 => acc
  | S fuel' => if n <? 10 then digit n :: acc
               else dec_aux fuel' (n / 10) (digit (n mod 10) :: acc)
  end.
Definition dec (n : nat) : text := dec_aux (S n) n [].

(* sep.join(l) *)
Fixpoint join (sep : text) (l : list text) : text :=
  match l with
  | [] => []
  | [x] => x
  | x :: t => x ++ sep ++ join sep t
  end.

(* reading a file in text mode: universal newlines turn "\r\n" and "\r" into "\n" *)
Fixpoint universal (l : text) : text :=
  match l with
  | [] => []
  | c :: t => if N.eqb c cr
              then match t with
                   | c' :: t' => if N.eqb c' nl then universal t else nl :: universal t
                   | [] => [nl]
                   end
              else c :: universal t
  end.
(* [for line in infile]: lines keep their terminating "\n", the last one may lack it *)
Fixpoint lines_from (cur : text) (l : text) : list text :=
  match l with
  | [] => match cur with [] => [] | _ => [cur] end
  | c :: t => if N.eqb c nl then (cur ++ [c]) :: lines_from [] t
              else lines_from (cur ++ [c]) t
  end.
Definition read_lines (content : text) : list text := lines_from [] (universal content).
