(* Model of the prequential code of skmine/graph/graphmdl/utils.py, over the
   real numbers of the standard library (the code uses floats). *)
From Coq Require Import Reals List.
Import ListNotations.
Open Scope R_scope.

(* utils.py 13-24, [log2] *)
Definition log2 (value total : R) : R := - (ln (value / total) / ln 2).

(* utils.py 40-45: the inner loop, on [code], [eps] and [total_epsilon] *)
Fixpoint emit (value : nat) (st : R * R * R) : R * R * R :=
  match value with
  | O => st
  | S v =>
      let '(code, eps, total) := st in
      emit v (code + log2 eps total, eps + 1, total + 1)
  end.

(* utils.py 27-47, [prequential_code]: after each value [eps] starts again
   from [epsilon].  The values are natural numbers (usages). *)
Definition prequential_code (seq : list nat) (epsilon : R) : R :=
  let '(code, _) :=
    fold_left (fun st value =>
                 let '(code, total) := st in
                 let '(code', _, total') := emit value (code, epsilon, total) in
                 (code', total'))
              seq (0, INR (length seq) * epsilon) in
  code.
