(* Model of skmine/utils.py intersect2d (155-192) and sliding_window_view (200-308). *)
From Verif Require Import Prelude CheckModel SlimAppsModel.
Local Open Scope Z_scope.

(* ------------------------------------------------ sliding_window_view 284-308 *)
Section Window.
  (* item assignment l[i] = f(l[i]) *)
  Fixpoint adjust (l : list Z) (i : nat) (f : Z -> Z) : list Z :=
    match l, i with
    | [], _ => []
    | x :: t, O => f x :: t
    | x :: t, S j => x :: adjust t j f
    end.
  (* normalize_axis_tuple: negative axes count from the end; AxisError is a ValueError *)
  Fixpoint normalize (ndim : nat) (axis : list Z) : outcome (list nat) :=
    match axis with
    | [] => Ret []
    | a :: t =>
        let a' := if a <? 0 then a + Z.of_nat ndim else a in
        if (a' <? 0) || (Z.of_nat ndim <=? a') then Exn ValueError
        else bind (normalize ndim t) (fun r => Ret (Z.to_nat a' :: r))
    end.
  (* 302-306 *)
  Fixpoint trim (shape : list Z) (l : list (nat * Z)) : outcome (list Z) :=
    match l with
    | [] => Ret shape
    | (ax, dim) :: t =>
        if nth ax shape 0 <? dim then Exn ValueError
        else trim (adjust shape ax (fun s => s - (dim - 1))) t
    end.
  (* an array is a shape and strides (in units of items) over some memory; the result
     is the shape and strides handed to as_strided *)
  Definition sliding_window_view (shape strides window : list Z) (axis : option (list Z))
    : outcome (list Z * list Z) :=
    if existsb (fun w => w <? 0) window then Exn ValueError
    else
      bind (match axis with
            | None => Ret (seq 0 (length shape))
            | Some a => normalize (length shape) a
            end) (fun axes =>
      if negb (length window =? length axes)%nat then Exn ValueError
      else
        bind (trim shape (combine axes window)) (fun trimmed =>
        Ret (trimmed ++ window, strides ++ map (fun ax => nth ax strides 0) axes))).
End Window.

(* --------------------------------------------------------------- intersect2d *)
Local Open Scope nat_scope.
Section Intersect.
  Context {A : Type} `{EqDec A} (leA : A -> A -> bool).
  Fixpoint first_index (x : A) (l : list A) : nat :=
    match l with [] => 0 | y :: t => if eqd x y then 0 else S (first_index x t) end.
  (* np.intersect1d(..., return_indices=True): sorted common values, and the first
     position of each in both arrays *)
  Definition intersect1d (a b : list A) : list (A * (nat * nat)) :=
    map (fun v => (v, (first_index v a, first_index v b)))
        (filter (fun v => mem v b) (np_unique leA a)).
  (* ar[:, 0]; None models the IndexError on arrays without columns *)
  Fixpoint first_column (ar : list (list A)) : option (list A) :=
    match ar with
    | [] => Some []
    | [] :: _ => None
    | (x :: _) :: t => option_map (cons x) (first_column t)
    end.
  (* utils.py 181-192, for arrays with the same number of columns: the result row with
     its two indices *)
  Definition intersect2d (ar1 ar2 : list (list A)) : outcome (list (list A * (nat * nat))) :=
    match first_column ar1, first_column ar2 with
    | Some c1, Some c2 =>
        Ret (map (fun p => (nth (fst (snd p)) ar1 [], snd p))
                 (filter (fun p => eqd (nth (fst (snd p)) ar1 []) (nth (snd (snd p)) ar2 []))
                         (intersect1d c1 c2)))
    | _, _ => Exn IndexError
    end.
End Intersect.
