(* Model of SLIM.transform with out=path (skmine/itemsets/slim.py 533-547); the rows themselves
   are [slim_transform] of SlimModel.  An item that is a str is a text; " ".join raises TypeError
   on any other item. *)
From Verif Require Import Prelude CheckModel TextModel.

Section SlimOut.
  Context {A : Type} (as_str : A -> option text).

  (* the argument of " ".join: None if one of the items is not a str *)
  Fixpoint strs (l : list A) : option (list text) :=
    match l with
    | [] => Some []
    | x :: t => match as_str x, strs t with Some s, Some r => Some (s :: r) | _, _ => None end
    end.
  (* 543-545: the lines of one row, each ended with "\n" *)
  Definition out_lines (return_tids : bool) (row : list A * list nat) : option (list text) :=
    match strs (fst row) with
    | None => None
    | Some its =>
        Some (([lpar] ++ dec (length (snd row)) ++ [rpar; sp] ++ join [sp] its)
              :: (if return_tids then [join [sp] (map dec (snd row))] else []))
    end.
  (* 541-547: the file is opened for writing, hence emptied, and a row is written when both its
     lines are made: what is in the file when the call ends, and how it ends *)
  Fixpoint slim_write (return_tids : bool) (written : text) (rows : list (list A * list nat)) : text * outcome unit :=
    match rows with
    | [] => (written, Ret tt)
    | row :: t =>
        match out_lines return_tids row with
        | None => (written, Exn TypeError)
        | Some ls => slim_write return_tids (written ++ concat (map (fun l => l ++ [nl]) ls)) t
        end
    end.
End SlimOut.
