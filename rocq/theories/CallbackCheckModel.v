(* Model of has_self_assigment and of the construction and the frozen methods of CallBacks,
   skmine/callbacks.py 8-20, 83-99. *)
From Coq Require Import NArith String.
From Verif Require Import Prelude CheckModel LCMModel TextModel ExportModel.

(* a value given as a callback: not callable, callable but without source (getsource raises TypeError: a
   builtin, a bound method of one), or a function with its source text. Functions whose source cannot be read,
   for which getsource raises OSError, are left out. *)
Inductive value := NotCallable | Builtin (n : nat) | Function (src : text).
#[global] Instance value_dec : EqDec value.
Proof. intros x y. decide equality; apply eq_dec. Defined.

Section Check.
  (* the characters outside ASCII that \w matches *)
  Variable letter : char -> bool.
  (* \w of a str pattern *)
  Definition wordb (c : char) : bool :=
    ((48 <=? c) && (c <=? 57) || (65 <=? c) && (c <=? 90) || (97 <=? c) && (c <=? 122) || (c =? 95) || (128 <=? c) && letter c)%N.

  (* the rest of [s] after [p] *)
  Fixpoint after (p s : text) : option text :=
    match p, s with
    | [], _ => Some s
    | a :: p', b :: s' => if N.eqb a b then after p' s' else None
    | _ :: _, [] => None
    end.
  Fixpoint skip (f : char -> bool) (s : text) : text := match s with [] => [] | c :: t => if f c then skip f t else s end.
  (* the end of the pattern: \s*=.*; .* matches nothing too *)
  Definition equals_here (s : text) : bool := match skip is_space s with c :: _ => N.eqb c 61 | [] => false end.
  (* self(\.\w+)?\s*=.* at the start of [s]; after fewer word characters than possible comes a word character,
     at which the rest of the pattern fails, so that only the longest \w+ counts *)
  Definition match_here (s : text) : bool :=
    match after (lit "self") s with
    | None => false
    | Some r => equals_here r ||
        match r with
        | 46%N :: c :: t => wordb c && equals_here (skip wordb t)
        | _ => false
        end
    end.
  (* re.finditer tries every position *)
  Fixpoint search (s : text) : bool := match_here s || match s with [] => false | _ :: t => search t end.
  (* has_self_assigment 8-20 *)
  Definition has_self_assigment (v : value) : bool := match v with Function src => search src | _ => false end.

  Context {name : Type} `{EqDec name}.
  (* _check 87-93 *)
  Fixpoint check (d : list (name * value)) : outcome unit :=
    match d with
    | [] => Ret tt
    | (_, NotCallable) :: _ => Exn TypeError
    | (_, v) :: t => if has_self_assigment v then Exn ValueError else check t
    end.
  (* __init__ 83-85; keyword arguments have different names *)
  Definition make (d : list (name * value)) : outcome (list (name * value)) := bind (check d) (fun _ => Ret d).
  (* what can be done to the dictionary: __setitem__ and update are _frozen (95-99), the other methods of dict are
     inherited *)
  Inductive op := SetItem (k : name) (v : value) | Update (d : list (name * value)) | SetDefault (k : name) (v : value) | DelItem (k : name).
  Definition apply_op (d : list (name * value)) (o : op) : outcome unit * list (name * value) :=
    match o with
    | SetItem _ _ | Update _ => (Exn NotImplementedError, d)
    | SetDefault k v => (Ret tt, match dget d k with Some _ => d | None => d ++ [(k, v)] end)
    | DelItem k => match dget d k with
                   | Some _ => (Ret tt, filter (fun p => negb (eqd (fst p) k)) d)
                   | None => (Exn KeyError, d)
                   end
    end.
End Check.
