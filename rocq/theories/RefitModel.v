(* Model of a GraphMDL object through a history of calls,
   skmine/graph/graphmdl/graph_mdl.py 36-90, 255-313 and
   code_table.py 319-331, around the search of GraphSearchModel.

   A data graph is what the search asks about it, as functions of the ordered
   list of candidates whose patterns are the rows of the code table: the
   candidates generated, the description length, the usage of each row, the
   ordering key, whether the code length of a row is not zero, and the
   singletons left by the cover (theorem C68 in PropGraphHistory: a cover does
   not depend on earlier ones).  Sets of patterns are lists. *)
From Coq Require Import QArith.
Open Scope nat_scope.
From Verif Require Import Prelude CheckModel LCMModel GraphSearchModel.

(* graph_mdl.py 49-65: where [_init_graph_mdl] raises, if it does: in
   LabelCodes, in the first cover or in the first description length *)
Inductive start := Fine | AtLabels (e : exn) | AtCover (e : exn) | AtLength (e : exn).

Section Refit.
  Context {C P : Type}.
  Variable candidate_eq : C -> C -> bool.

  Record world := {
    w_start : start;
    w_generate : list C -> list C -> list C;
    w_dl : list C -> Q;
    w_usage : list C -> nat -> Z;
    w_key : C -> Z * Z;
    w_coded : list C -> nat -> bool;      (* code_length() of the row at a position is not 0 *)
    w_pattern : C -> P;
    w_singles : list C -> list P          (* patterns of the keys of singleton_code_length() *)
  }.

  Definition names (l : list (row C)) : list C := map (@rcand C) l.
  Fixpoint position (r : row C) (l : list (row C)) : nat :=
    match l with [] => 0 | x :: t => if same_row r x then 0 else S (position r t) end.

  (* The attributes of a GraphMDL object: the graph of the code table (None:
     no code table), the attributes of the search, the timeout and the initial
     description length. *)
  Record miner := { m_world : option world; m_st : st C; m_timeout : option Q; m_initial : Q }.

  (* lines 36-47, [__init__] *)
  Definition new : miner :=
    {| m_world := None;
       m_st := {| rows := []; length_ := 0; rewritten := []; pruning_rows := []; usages := [];
                  old_usage := []; already_test := []; fresh := 0; ticks := 0; accepted := [];
                  covers := [] |};
       m_timeout := None; m_initial := 0 |}.

  Inductive call :=
    | Fit (D : option world) (timeout : option Q) (clock : nat -> Q) (fuel : nat)
    | Patterns | DescriptionLength | InitialDescriptionLength | Discover.
  Inductive answer :=
    | Self                           (* fit returned the object *)
    | Error (e : exn)
    | Interrupted                    (* fit was stopped from outside before it ended *)
    | ErrorValue                     (* a ValueError object, returned and not raised *)
    | PatternSet (l : list P)
    | Number (q : Q)
    | Printed (l : list P).          (* the patterns shown as "Non singleton patterns found" *)

  (* the search on a graph *)
  Definition search_on (w : world) (clock : nat -> Q) (timeout : option Q) (fuel : nat) (s : st C) : res C :=
    search candidate_eq (fun a b => w_generate w (names a) (names b)) (fun l => w_dl w (names l))
      (fun l r => w_usage w (names l) (position r l)) (w_key w) clock timeout fuel false 0%Q s.

  (* lines 49-61: the attributes before the search.  Those not named there are
     kept from earlier calls: _pruning_rows, _old_usage and the usages that
     are stored in the rows. *)
  Definition restart (w : world) (s : st C) : st C :=
    {| rows := []; length_ := w_dl w []; rewritten := []; pruning_rows := pruning_rows s;
       usages := usages s; old_usage := old_usage s; already_test := []; fresh := fresh s;
       ticks := 0; accepted := []; covers := [[]] |}.
  Definition with_st m s := {| m_world := m_world m; m_st := s; m_timeout := m_timeout m; m_initial := m_initial m |}.
  Definition with_world m w := {| m_world := Some w; m_st := m_st m; m_timeout := m_timeout m; m_initial := m_initial m |}.
  Definition with_initial m q := {| m_world := m_world m; m_st := m_st m; m_timeout := m_timeout m; m_initial := q |}.
  Definition with_timeout m t := {| m_world := m_world m; m_st := m_st m; m_timeout := t; m_initial := m_initial m |}.

  (* lines 80-81: a timeout of 0 counts as none given *)
  Definition given (t : option Q) : option Q :=
    match t with Some q => if Qeq_bool q 0 then None else Some q | None => None end.
  Definition update (old t : option Q) : option Q := match given t with Some q => Some q | None => old end.

  (* the state when [_init_graph_mdl] raised: the new code table, when there is
     one, has no row; it is covered when its description length was asked *)
  Definition emptied (s : st C) (c : list (list (row C))) : st C :=
    {| rows := []; length_ := length_ s; rewritten := rewritten s; pruning_rows := pruning_rows s;
       usages := usages s; old_usage := old_usage s; already_test := []; fresh := fresh s;
       ticks := ticks s; accepted := accepted s; covers := c |}.

  (* lines 67-90, [fit] *)
  Definition do_fit (m : miner) (D : option world) (t : option Q) (clock : nat -> Q) (fuel : nat) : answer * miner :=
    let m := with_timeout m (update (m_timeout m) t) in
    match D with
    | None => (Error ValueError, m)
    | Some w =>
      match w_start w with
      | AtLabels e => (Error e, with_st m (set_tested (m_st m) []))
      | AtCover e => (Error e, with_st (with_world m w) (emptied (m_st m) []))
      | AtLength e => (Error e, with_st (with_world m w) (emptied (m_st m) [[]]))
      | Fine =>
        let m := with_initial (with_world m w) (w_dl w []) in
        match search_on w clock (m_timeout m) fuel (restart w (m_st m)) with
        | Done s => (Self, with_st m s)
        | Raised e s => (Error e, with_st m s)
        | Running s => (Interrupted, with_st m s)
        end
      end
    end.

  (* the code length of a row is that of the last cover of a table with it;
     before any it is 0.0 (code_table_row.py 21-30) *)
  Definition coded (w : world) (s : st C) (r : row C) : bool :=
    match find (existsb (same_row r)) (covers s) with
    | Some l => w_coded w (names l) (position r l)
    | None => false
    end.
  (* the singletons of the last cover *)
  Definition singles (w : world) (s : st C) : list P :=
    match covers s with [] => [] | l :: _ => w_singles w (names l) end.
  Definition found (w : world) (s : st C) : list P :=
    map (fun r => w_pattern w (rcand r)) (filter (coded w s) (rows s)) ++ singles w s.

  (* lines 255-275, [patterns]: line 275 returns the exception *)
  Definition do_patterns (m : miner) : answer :=
    match m_world m with Some w => PatternSet (found w (m_st m)) | None => ErrorValue end.

  (* lines 297-313, [discover].  display_ct (code_table.py 319-331) calls
     utils.draw_pattern (code_table_row.py 179) for each row in use: there is
     no such function.  Without any row and any singleton the data frame has
     no data for its columns: ValueError.  Line 305 goes through all patterns. *)
  Definition do_discover (m : miner) : answer :=
    match m_world m with
    | None => Error ValueError
    | Some w =>
      if existsb (fun r => negb (usage_of (m_st m) r =? 0)%Z) (rows (m_st m)) then Error AttributeError
      else match singles w (m_st m) with
           | [] => Error ValueError
           | _ => Printed (found w (m_st m))
           end
    end.

  Definition step (m : miner) (c : call) : answer * miner :=
    match c with
    | Fit D t clock fuel => do_fit m D t clock fuel
    | Patterns => (do_patterns m, m)
    | DescriptionLength => (Number (length_ (m_st m)), m)         (* lines 277-285 *)
    | InitialDescriptionLength => (Number (m_initial m), m)       (* lines 287-295 *)
    | Discover => (do_discover m, m)
    end.
  Fixpoint run (m : miner) (h : list call) : list answer * miner :=
    match h with
    | [] => ([], m)
    | c :: t => let '(a, m1) := step m c in let '(l, m2) := run m1 t in (a :: l, m2)
    end.
End Refit.
Arguments world C P : clear implicits.
Arguments miner C P : clear implicits.
Arguments call C P : clear implicits.
Arguments answer P : clear implicits.
