(* Model of the sizes kept by SLIM and of the code lengths it gives to new data
   (skmine/itemsets/slim.py), over the real numbers of the standard library.
   Simplification: the code rounds to float32 or float64. *)
From Coq Require Import Reals.
From Verif Require Import Prelude CheckModel LCMModel SlimModel.
Local Open Scope R_scope.

Definition Rsum {B} (f : B -> R) (l : list B) : R := fold_right (fun x s => f x + s) 0 l.

(* slim.py 42-61, [-_log2(u / tot)] for one value: 0 for u = 0 *)
Definition code (u tot : nat) : R := if (u =? 0)%nat then 0 else - (ln (INR u / INR tot) / ln 2).

Section Sizes.
  Context {A : Type} `{EqDec A}.
  Definition usage_sum {K} (c : list (K * list nat)) : nat := list_sum (map (fun e => length (snd e)) c).

  (* slim.py 640-643 and 665-666, [_starting_codes].  [d] is the vertical database,
     without the extra items of the [items] option.  (With no occurrence at all,
     0 / 0 makes the codes NaN; here they are 0.) *)
  Definition starting_codes (d : dict A (list nat)) : dict A R :=
    let base := sort more_frequent d in
    map (fun e => (fst e, code (length (snd e)) (usage_sum base))) base.
  (* _starting_codes[item]; KeyError for another item is not reached, since the items
     of a used itemset occur in the data *)
  Definition starting (d : dict A (list nat)) (x : A) : R :=
    match dget (starting_codes d) x with Some r => r | None => 0 end.
  (* slim.py 678 and 703: (data_size_, model_size_) after prefit *)
  Definition start_sizes (d : dict A (list nat)) : R * R :=
    let base := sort more_frequent d in
    let codes := map (fun e => (code (length (snd e)) (usage_sum base), length (snd e))) base in
    (Rsum (fun p => fst p * INR (snd p)) codes, 2 * Rsum fst codes).

  (* Counter(...), slim.py 726: keys in order of first occurrence *)
  Definition count_items (l : list A) : dict A nat :=
    fold_left (fun d x => dset d x (S (match dget d x with Some n => n | None => 0 end))) l [].
  (* slim.py 722-732, [_compute_sizes] on the used entries of a table *)
  Definition table_sizes (d : dict A (list nat)) (u : ktable A (list nat)) : R * R :=
    let codes := map (fun e => (code (length (snd e)) (usage_sum u), length (snd e))) u in
    let counts := count_items (concat (map fst u)) in
    (Rsum (fun p => fst p * INR (snd p)) codes,
     Rsum (fun p => starting d (fst p) * INR (snd p)) counts + Rsum fst codes).
  (* slim.py 182-183 and 773: the comparison of totals *)
  Definition shorter (a b : R * R) : bool := if Rlt_dec (fst a + snd a) (fst b + snd b) then true else false.

  (* slim.py 230-242, [get_code_length] given the cover of the new data: one row per
     transaction, [None] is +inf.  [rows] are the rows of transform with
     drop_null_usage=False, whose usages are increased by one. *)
  Definition laplace (rows : ktable A (list nat)) : ktable A R :=
    let tot := list_sum (map (fun e => S (length (snd e))) rows) in
    map (fun e => (fst e, code (S (length (snd e))) tot)) rows.
  Definition row_length (m : ktable A R) (c : ktable A (list nat)) (t : nat) : option R :=
    let s := Rsum (fun e => if mem t (snd e)
                            then match kget m (fst e) with Some r => r | None => 0 end else 0) c in
    if Req_EM_T s 0 then None else Some s.
  Definition get_code_length {T} (leA : A -> A -> bool) (st : slim A T) (n : nat) (cov : option (ktable A (list nat)))
    : option (list (option R)) :=
    match cov with
    | None => None
    | Some c => Some (map (row_length (laplace (slim_transform leA true true false st)) c) (seq 0 n))
    end.
  (* slim.py 270-273, [decision_function]: exp(-0.2 x), 0 at +inf *)
  Definition decision (x : option R) : R := match x with Some r => exp (- (1/5) * r) | None => 0 end.
End Sizes.
