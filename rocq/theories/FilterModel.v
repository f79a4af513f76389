(* Model of skmine/utils.py: filter_maximal (46-66), filter_minimal (69-89).
   A Python set is a list (see Prelude); [len] is [card].  The argument is any
   list of sets; [sorted] is the stable sort of Prelude and [SortedList] is a
   list kept sorted by size with insertion to the right of equal keys. *)
From Verif Require Import Prelude.

Section Filter.
  Context {A : Type} `{EqDec A}.

  (* key=len of the SortedList / of sorted *)
  Definition size_leb (x y : list A) : bool := card x <=? card y.
  (* sorted(..., reverse=True) : utils.py 59 *)
  Definition size_geb (x y : list A) : bool := card y <=? card x.

  (* utils.py 61: SortedList.irange(minimum=s): the kept sets of size >= len(s) *)
  Definition irange_from (s : list A) (l : list (list A)) : list (list A) :=
    filter (fun e => card s <=? card e) l.
  (* utils.py 84: SortedList.irange(None, s): the kept sets of size <= len(s) *)
  Definition irange_to (s : list A) (l : list (list A)) : list (list A) :=
    filter (fun e => card e <=? card s) l.

  (* utils.py 60-64: one iteration *)
  Definition max_step (maximals : list (list A)) (s : list A) : list (list A) :=
    if existsb (fun e => psubset s e) (irange_from s maximals)
    then maximals
    else insert_right size_leb s maximals.
  (* utils.py 46-66 *)
  Definition filter_maximal (itemsets : list (list A)) : list (list A) :=
    fold_left max_step (sort size_geb itemsets) [].

  (* utils.py 83-87: one iteration *)
  Definition min_step (minimals : list (list A)) (s : list A) : list (list A) :=
    if existsb (fun e => psubset e s) (irange_to s minimals)
    then minimals
    else insert_right size_leb s minimals.
  (* utils.py 69-89 *)
  Definition filter_minimal (itemsets : list (list A)) : list (list A) :=
    fold_left min_step (sort size_leb itemsets) [].
End Filter.
