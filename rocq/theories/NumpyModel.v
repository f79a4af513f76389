(* Model of skmine/periodic/pattern_collection.py 6-44 and 214-219: how numpy integers are
   taken out of the dictionaries of patterns before they are written.
   json.dumps writes Python ints and raises TypeError for numpy.int64.  Other numpy types
   do not occur in the model. *)
From Coq Require Import String NArith.
From Verif Require Import Prelude CheckModel LCMModel TextModel SplitModel ArrayModel PeriodModel TreeModel CyclesModel ExportModel.
Local Open Scope Z_scope.

(* Python values; [PNp] is a numpy.int64 *)
Inductive pv :=
| PNone
| PInt (z : Z)
| PNp (z : Z)
| PList (l : list pv)
| PTuple (l : list pv)
| PDict (d : list (jkey * pv)).

(* int(v) if isinstance(v, np.int64) else v *)
Definition to_int (v : pv) : pv := match v with PNp z => PInt z | _ => v end.
(* _replace_tuple_in_list 6-12 and _replace_list_in_list 15-21, on the item itself *)
Definition change_item (v : pv) : pv :=
  match v with
  | PTuple l => PTuple (map to_int l)
  | PList l => PList (map to_int l)
  | _ => v
  end.
(* _change_int64_toint 24-44: the call on a list or a tuple value changes nothing *)
Fixpoint change_int64 (v : pv) : pv :=
  match v with
  | PDict d =>
      PDict (map (fun kv => match kv with (k, w) =>
        (k, match w with
            | PDict _ => change_int64 w
            | PList l => PList (map change_item l)
            | PNp z => PInt z
            | _ => w
            end) end) d)
  | _ => v
  end.
(* json.dumps: TypeError when it meets a numpy.int64, otherwise the value that is written *)
Fixpoint dumps (v : pv) : outcome jv :=
  match v with
  | PNone => Ret JNull
  | PInt z => Ret (JInt z)
  | PNp _ => Exn TypeError
  | PList l => bind ((fix go (l : list pv) : outcome (list jv) :=
      match l with [] => Ret [] | x :: l' => bind (dumps x) (fun y => bind (go l') (fun r => Ret (y :: r))) end) l) (fun r => Ret (JList r))
  | PTuple l => bind ((fix go (l : list pv) : outcome (list jv) :=
      match l with [] => Ret [] | x :: l' => bind (dumps x) (fun y => bind (go l') (fun r => Ret (y :: r))) end) l) (fun r => Ret (JTuple r))
  | PDict d => bind ((fix go (l : list (jkey * pv)) : outcome (list (jkey * jv)) :=
      match l with [] => Ret [] | (k, x) :: l' => bind (dumps x) (fun y => bind (go l') (fun r => Ret ((k, y) :: r))) end) d) (fun r => Ret (JDict r))
  end.
(* the number a Python or numpy integer stands for *)
Definition int_of (v : pv) : outcome Z := match v with PInt z | PNp z => Ret z | _ => Exn TypeError end.
(* 214-219: the dictionary of a pattern with next_id, t0 and E, converted *)
Definition json_tree (nodes : list (jkey * pv)) (next_id t0 : pv) (E : list pv) : outcome pv :=
  bind (int_of t0) (fun t => bind (map_out int_of E) (fun e =>
    Ret (change_int64 (PDict (dset (dset (dset nodes (KS (lit "next_id")) next_id) (KS (lit "t0")) (PInt t)) (KS (lit "E")) (PList (map PInt e))))))).
