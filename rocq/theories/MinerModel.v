(* Model of skmine/base.py 53-117 (get_params / set_params) and skmine/callbacks.py
   33-130 (post, CallBacks). *)
From Verif Require Import Prelude CheckModel.

(* ------------------------------------------------------------------ base.py *)
Section Params.
  Context {name V : Type} `{EqDec name} (leN : name -> name -> bool) (self_n : name).
  (* inspect.Parameter.kind *)
  Inductive kind := Positional | KeywordOnly | VarPositional | VarKeyword.
  Definition is_varkw (k : kind) : bool := match k with VarKeyword => true | _ => false end.
  (* the attributes of an instance *)
  Definition attrs := name -> option V.
  Definition setattr (o : attrs) (k : name) (v : V) : attrs :=
    fun n => if eqd n k then Some v else o n.
  (* _get_param_names 53-70; [sig] is inspect.signature(__init__).parameters *)
  Definition param_names (sig : list (name * kind)) : list name :=
    sort leN (map fst (filter (fun p => negb (eqd (fst p) self_n) && negb (is_varkw (snd p))) sig)).
  (* get_params 72-85 *)
  Fixpoint getattrs (o : attrs) (l : list name) : outcome (list (name * V)) :=
    match l with
    | [] => Ret []
    | k :: t => match o k with
                | None => Exn AttributeError
                | Some v => bind (getattrs o t) (fun r => Ret ((k, v) :: r))
                end
    end.
  Definition get_params (sig : list (name * kind)) (o : attrs) : outcome (list (name * V)) :=
    getattrs o (param_names sig).
  (* the loop of set_params 109-114; the object is returned even when an exception is
     raised, as assignments made so far stay *)
  Fixpoint set_loop (valid : list name) (o : attrs) (kw : list (name * V)) : outcome unit * attrs :=
    match kw with
    | [] => (Ret tt, o)
    | (k, v) :: t => if mem k valid then set_loop valid (setattr o k v) t
                     else (Exn ValueError, o)
    end.
  (* set_params 87-117; [kw] is the keyword dictionary in the order of the call *)
  Definition set_params (sig : list (name * kind)) (o : attrs) (kw : list (name * V)) : outcome unit * attrs :=
    match kw with
    | [] => (Ret tt, o)
    | _ => match get_params sig o with
           | Ret valid => set_loop (map fst valid) o kw
           | Exn e => (Exn e, o)
           | NoFuel => (NoFuel, o)
           end
    end.
End Params.

(* ------------------------------------------------------------- callbacks.py *)
(* The miner has a state S, callbacks act on a state E of their own and may read the
   miner through [self].  A method body is a program that reads and writes S and may
   call methods of the miner through [self.name(...)], so that a wrapped method is also
   seen by the other methods.  Branching may depend on anything computed before. *)
Section CallBacks.
  Context {name V S E : Type} `{EqDec name}.
  Context (self_n : name) (self_v : V) (iter as_tuple : V -> option (list V)) (tup : list V -> V).

  Inductive prog :=
  | PRet (v : V)
  | PRaise (e : exn)
  | PAct (f : S -> V * S) (k : V -> prog)
  | PCall (n : name) (args : list V) (k : outcome V -> prog).

  (* a callable: its parameter names and its effect for a list of positional arguments *)
  Record callback := { cb_params : list name; cb_fun : S -> list V -> E -> outcome unit * E }.
  (* a bound method: the function of the class, or the closure built by [post] *)
  Inductive bound := Raw (m : list V -> prog) | Post (cb : callback) (b : bound).
  (* the callable attributes of the miner *)
  Definition table := name -> option bound.

  (* callbacks.py 41-49: build args_, call, and call again on TypeError *)
  Definition retry (cb : callback) (s : S) (second : list V) (r : outcome unit * E) : outcome unit * E :=
    match r with
    | (Exn TypeError, e') => cb_fun cb s second e'
    | _ => r
    end.
  Definition notify (cb : callback) (s : S) (res : V) (e : E) : outcome unit * E :=
    if mem self_n (cb_params cb) then
      match (match length (cb_params cb) with
             | 0 | 1 => Some []
             | 2 => Some [res]
             | _ => as_tuple res          (* (self,) + res needs a tuple, outside the try *)
             end) with
      | None => (Exn TypeError, e)
      | Some w => retry cb s [tup (self_v :: w)] (cb_fun cb s (self_v :: w) e)
      end
    else
      match iter res with
      | None => retry cb s [res] (Exn TypeError, e)
      | Some l => retry cb s [res] (cb_fun cb s l e)
      end.

  Section Run.
    Context (tb : table).
    (* [rec] runs a method body *)
    Fixpoint run_bound (rec : prog -> S * E -> outcome V * (S * E)) (b : bound) (args : list V) (st : S * E)
      : outcome V * (S * E) :=
      match b with
      | Raw m => rec (m args) st
      | Post cb b' =>                                       (* callbacks.py 39-50 *)
          match run_bound rec b' args st with
          | (Ret res, (s, e)) =>
              match notify cb s res e with
              | (Ret _, e') => (Ret res, (s, e'))
              | (Exn x, e') => (Exn x, (s, e'))
              | (NoFuel, e') => (NoFuel, (s, e'))
              end
          | r => r
          end
      end.
    (* [fuel] bounds the depth of calls between methods *)
    Fixpoint run (fuel : nat) : prog -> S * E -> outcome V * (S * E) :=
      fix go (p : prog) (st : S * E) {struct p} : outcome V * (S * E) :=
        match p with
        | PRet v => (Ret v, st)
        | PRaise e => (Exn e, st)
        | PAct f k => let (v, s') := f (fst st) in go (k v) (s', snd st)
        | PCall n args k =>
            match tb n with
            | None => go (k (Exn AttributeError)) st
            | Some b =>
                match fuel with
                | 0 => (NoFuel, st)
                | Datatypes.S f =>
                    match run_bound (run f) b args st with
                    | (NoFuel, st') => (NoFuel, st')
                    | (o, st') => go (k o) st'
                    end
                end
            end
        end.
  End Run.

  (* CallBacks.__call__ 94-120: all names must be methods before anything is attached *)
  Definition settb (tb : table) (n : name) (b : bound) : table :=
    fun m => if eqd m n then Some b else tb m.
  Fixpoint attach_loop (tb : table) (cbs : list (name * callback)) : outcome table :=
    match cbs with
    | [] => Ret tb
    | (n, cb) :: t => match tb n with
                      | None => Exn AttributeError
                      | Some b => attach_loop (settb tb n (Post cb b)) t
                      end
    end.
  Definition attach (cbs : list (name * callback)) (tb : table) : outcome table :=
    if existsb (fun p => match tb (fst p) with None => true | Some _ => false end) cbs
    then Exn ValueError
    else attach_loop tb cbs.
End CallBacks.

(* CallBacks as a dictionary, 79-92: the two overridden mutators and the ones inherited
   from dict *)
Section Dict.
  Context {name C : Type} `{EqDec name} (callable assigns_self : C -> bool).
  (* __init__ 79-89, keyword arguments in order *)
  Fixpoint check_values (kw : list (name * C)) : outcome unit :=
    match kw with
    | [] => Ret tt
    | (_, c) :: t => if negb (callable c) then Exn TypeError
                     else if assigns_self c then Exn ValueError
                     else check_values t
    end.
  Definition make (kw : list (name * C)) : outcome (list (name * C)) :=
    bind (check_values kw) (fun _ => Ret kw).
  Inductive mutation := SetItem (n : name) (c : C) | Update (l : list (name * C))
                      | SetDefault (n : name) (c : C) | DelItem (n : name).
  Definition mutate (d : list (name * C)) (m : mutation) : outcome unit * list (name * C) :=
    match m with
    | SetItem _ _ | Update _ => (Exn NotImplementedError, d)               (* 88-92 *)
    | SetDefault n c => (Ret tt, if mem n (map fst d) then d else d ++ [(n, c)])   (* dict.setdefault *)
    | DelItem n => if mem n (map fst d) then (Ret tt, filter (fun p => negb (eqd (fst p) n)) d)
                   else (Exn KeyError, d)                                   (* dict.__delitem__ *)
    end.
End Dict.
