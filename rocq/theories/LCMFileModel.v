(* Model of the file output of LCM: LCM.transform with out=path (lcm.py 219-240),
   _explore_root with root_file (242-258), write_df_tofile (294-299).
   [show] is Python's str() on items. *)
From Verif Require Import Prelude LCMModel TextModel.

Section LCMFile.
  Context {A : Type} `{EqDec A} (leA : A -> A -> bool) (show : A -> text).

  (* lcm.py 297: f"({support}) {' '.join(map(str, itemset))}\n" *)
  Definition item_line (r : row A) : text :=
    [lpar] ++ dec (r_supp r) ++ [rpar; sp] ++ join [sp] (map show (r_items r)).
  (* lcm.py 299: f"{' '.join(map(str, tids))}\n" *)
  Definition tids_line (r : row A) : text := join [sp] (map dec (r_tids r)).
  Definition row_lines (return_tids : bool) (r : row A) : list text :=
    item_line r :: (if return_tids then [tids_line r] else []).
  (* lcm.py 294-299: the content of one root file *)
  Definition write_df (return_tids : bool) (rows : list (row A)) : text :=
    concat (map (fun r => concat (map (fun l => l ++ [nl]) (row_lines return_tids r))) rows).

  (* lcm.py 226-240: every job writes its own temporary file; the files are read
     in index order, blank lines are skipped *)
  Definition copy_nonblank (content : text) : text :=
    concat (filter (fun line => negb (blank line)) (read_lines content)).
  Definition transform_file (ms : minsupp) (n : nat) (tbl : dict A (list nat))
             (lexico : bool) (max_length : Z) (return_tids : bool) (sched : list nat) : text :=
    concat (map (fun f => match f with Some content => copy_nonblank content | None => [] end)
                (parallel sched (length tbl)
                   (fun k => write_df return_tids (root_rows leA ms n tbl lexico max_length k)))).
  Definition lcm_file (ms : minsupp) (D : list (list A)) (lexico : bool) (max_length : Z)
             (return_tids : bool) (sched : list nat) : option text :=
    match fit ms D with
    | None => None
    | Some tbl => Some (transform_file ms (length D) tbl lexico max_length return_tids sched)
    end.
End LCMFile.
