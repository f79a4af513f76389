(* Model of skmine/utils.py 92-150 (the checks of tabular data, the selection of rows by
   labels) and of their use in SLIM.prefit, skmine/itemsets/slim.py 630-637.
   A cell is a number, a NaN or an infinity; of a data type only matters whether it is object.
   The pandas setting mode.use_inf_as_na is a boolean that every call may read and write.
   The validation of scikit-learn at the start of SLIM.fit is not modelled. *)
From Coq Require Import ZArith.
From Verif Require Import Prelude CheckModel LCMModel SplitModel SlimModel.
Local Open Scope Z_scope.

Inductive cell := Num (z : Z) | NaN | Inf.
(* the truth value of a cell, as np.where takes it *)
Definition truthy (c : cell) : bool := match c with Num z => negb (z =? 0) | _ => true end.
(* DataFrame.isnull under the setting use_inf_as_na *)
Definition is_null (inf_as_na : bool) (c : cell) : bool := match c with Num _ => false | NaN => true | Inf => inf_as_na end.

Section Frames.
  Context {A : Type} `{EqDec A} (number : nat -> A).       (* the integer n as a column name *)
  Record frame := { f_names : list A; f_object : list bool; f_rows : list (list cell) }.
  (* what fit may be given in two dimensions; labels are the index of a DataFrame *)
  Inductive table :=
  | DataFrame (labels : list Z) (f : frame)
  | NdArray (object : bool) (width : nat) (rows : list (list cell))
  | Sparse (width : nat) (rows : list (list cell))
  | OtherTable.

  (* _check_D 124-132: pd.DataFrame numbers the columns of an array *)
  Definition as_frame (D : table) : outcome frame :=
    match D with
    | DataFrame _ f => Ret f
    | NdArray o w rows => Ret {| f_names := map number (seq 0 w); f_object := repeat o w; f_rows := rows |}
    | Sparse w rows => Ret {| f_names := map number (seq 0 w); f_object := repeat false w; f_rows := rows |}
    | OtherTable => Exn TypeError
    end.
  (* _check_D_sklearn 110-121: the outcome and the setting afterwards *)
  Definition check_D_sklearn (f : frame) (setting : bool) : outcome unit * bool :=
    if existsb (fun o => o) (f_object f) then (Exn TypeError, setting)
    else if (length (f_names f) =? 0)%nat then (Exn ValueError, setting)
    else
      let setting := true in
      if existsb (existsb (is_null setting)) (f_rows f) then (Exn ValueError, setting)
      else (Ret tt, false).
  (* _check_D 124-137 *)
  Definition check_D (D : table) (setting : bool) : outcome frame * bool :=
    match as_frame D with
    | Ret f => let '(r, s) := check_D_sklearn f setting in (bind r (fun _ => Ret f), s)
    | Exn e => (Exn e, setting)
    | NoFuel => (NoFuel, setting)
    end.

  (* y of fit; [YOther] has no method reshape: a list, a pandas Series *)
  Inductive labels := YNone | YArray (l : list cell) | YOther.
  (* supervised_to_unsupervised 92-107: positions beyond the last row raise IndexError *)
  Definition supervised_to_unsupervised (f : frame) (y : labels) : outcome frame :=
    match y with
    | YNone => Ret f
    | YOther => Exn AttributeError
    | YArray l =>
        bind (map_out (fun i => match nth_error (f_rows f) i with Some row => Ret row | None => Exn IndexError end)
                      (where_from 0 (map truthy l)))
             (fun rows => Ret {| f_names := f_names f; f_object := f_object f; f_rows := rows |})
    end.

  (* np.where(D[k])[0] as a Bitmap: several columns with the same name come together *)
  Definition col_tids (f : frame) (k : A) : list nat :=
    where_from 0 (map (fun row => existsb (fun nc => eqd (fst nc) k && truthy (snd nc)) (combine (f_names f) row)) (f_rows f)).
  (* slim.py 634: {k: Bitmap(np.where(D[k])[0]) for k in D.columns} *)
  Definition frame_dict (f : frame) : dict A (list nat) :=
    fold_left (fun d k => dset d k (col_tids f k)) (f_names f) [].
  (* slim.py 630-634: item_to_tids of prefit on a table *)
  Definition prefit_table (D : table) (y : labels) (setting : bool) : outcome (dict A (list nat)) * bool :=
    let '(r, s) := check_D D setting in
    (bind r (fun f => bind (supervised_to_unsupervised f y) (fun f' => Ret (frame_dict f'))), s).
End Frames.
Arguments frame : clear implicits.
Arguments table : clear implicits.
