(* Model of a PeriodicPatternMiner over any sequence of calls (skmine/periodic/cycles.py 86-481): which
   attributes each call reads and writes, also when it raises.

   The attributes that do not exist yet are None.  Mining is the argument [mine]; it may raise.  The file
   of export_patterns and import_patterns is the record [content]: that json keeps what is written is
   C48.  Events are named by their own text, [name]; sorted() on the names of the events raises TypeError
   unless they are [comparable].  NotFittedError is a ValueError and an AttributeError; it is
   AttributeError here. *)
From Coq Require Import String Ascii NArith.
From Verif Require Import Prelude CheckModel LCMModel TextModel SplitModel ArrayModel PeriodModel TreeModel NestModel CyclesModel ExportModel ShowModel.
Local Open Scope Z_scope.

Section History.
  Context {A : Type} `{EqDec A} (leA : A -> A -> bool).
  Variable comparable : list A -> bool.
  Variable mine : @dataseq A -> outcome (list patt).
  Variable name : A -> text.
  Variable span : Z -> text.
  Variable sort_time sort_event : frame A -> frame A.

  (* a row of self.cycles: its label, what transform shows, and the tree kept in pattern_json_tree *)
  Definition table := list (nat * (shown * patt)).
  Variable sort_t0 : table -> table.
  Record pstate := {
    p_auto : bool;                                   (* auto_time_scale *)
    p_n : option nat; p_div : option Z;              (* n_zeros_, div_nb_sec_ *)
    p_dt : option bool;                              (* is_datetime_ *)
    p_groups : option (dict A (list Z));             (* alpha_groups_ *)
    p_ds : option (@dataseq A);                      (* data_details_ *)
    p_patts : option (list patt);                    (* miners_ *)
    p_cycles : option table }.                       (* cycles *)
  (* __init__ 86-88 *)
  Definition new_miner (auto : bool) : pstate :=
    {| p_auto := auto; p_n := None; p_div := None; p_dt := None; p_groups := None; p_ds := None; p_patts := None; p_cycles := None |}.

  Record content := { f_n : nat; f_div : Z; f_dt : bool; f_groups : dict A (list Z); f_patts : list patt }.
  Inductive answer :=
  | Done
  | Table (rows : list (nat * shown))
  | File (f : content)
  | Frame (datetime : bool) (rows : frame A)
  | Drawing (t : tree A) (t0 : Z).
  Inductive call :=
  | SetAuto (b : bool)                               (* set_params *)
  | Fit (datetime : bool) (log : list (Z * A))
  | Transform (dE_sum chronological : bool)
  | Export
  | Import (f : content)
  | Reconstruct (ids : option (list Z)) (s : sort_mode) (drop : bool)
  | Residuals (ids : option (list Z)) (s : sort_mode)
  | Draw (id : nat).

  (* data_sequence.py 60-82 *)
  Definition sequence (groups : dict A (list Z)) : outcome (@dataseq A) :=
    if comparable (dkeys groups) then dataseq_of_dict leA groups else Exn TypeError.
  (* fit 97-162; _validate_data refuses less than two rows *)
  Definition do_fit (st : pstate) (datetime : bool) (log : list (Z * A)) : outcome answer * pstate :=
    if (length log <? 2)%nat then (Exn ValueError, st)
    else
      let serie := nodup eq_dec log in
      let ts := map fst serie in
      let '(ts', n, d) := if p_auto st then let '(conv, n, _, d) := autoscale ts in (conv, Some n, d) else (ts, p_n st, 1) in
      let groups := group_occs (combine ts' (map snd serie)) in
      match bind (sequence groups) (fun ds => bind (mine ds) (fun ps => Ret (ds, ps))) with
      | Ret (ds, ps) =>
          (Ret Done, {| p_auto := p_auto st; p_n := n; p_div := Some d; p_dt := Some datetime; p_groups := Some groups;
                        p_ds := Some ds; p_patts := Some ps; p_cycles := p_cycles st |})
      | Exn e =>
          (Exn e, {| p_auto := p_auto st; p_n := n; p_div := Some d; p_dt := Some datetime; p_groups := Some groups;
                     p_ds := p_ds st; p_patts := p_patts st; p_cycles := p_cycles st |})
      | NoFuel => (NoFuel, st)
      end.

  Definition event_name (ds : @dataseq A) (e : nat) : text :=
    match nth_error (ds_events ds) e with Some a => name a | None => dec e end.
  Definition set_cycles (st : pstate) (t : table) : pstate :=
    {| p_auto := p_auto st; p_n := p_n st; p_div := p_div st; p_dt := p_dt st; p_groups := p_groups st;
       p_ds := p_ds st; p_patts := p_patts st; p_cycles := Some t |}.
  (* transform 164-232; the miner keeps its last table that has a row *)
  Definition do_transform (st : pstate) (dE_sum chronological : bool) : outcome (list (nat * shown)) * pstate :=
    match p_patts st, p_ds st, p_n st, p_div st, p_dt st with
    | Some ps, Some ds, Some n, Some d, Some datetime =>
        match map_out (shown_row (event_name ds) span (p_auto st) datetime n d dE_sum) ps with
        | Ret [] => (Ret [], st)                                                                   (* 207-208 *)
        | Ret rows =>
            let t := label (combine rows ps) in
            let t := if chronological then sort_t0 t else t in
            (Ret (map (fun r => (fst r, fst (snd r))) t), set_cycles st t)
        | Exn e => (Exn e, st)
        | NoFuel => (NoFuel, st)
        end
    | _, _, _, _, _ => (Exn AttributeError, st)
    end.
  (* export_patterns 234-262 *)
  Definition do_export (st : pstate) : outcome answer * pstate :=
    match do_transform st true true with
    | (Ret _, st') =>
        match p_cycles st', p_groups st', p_n st', p_div st', p_dt st' with
        | Some t, Some groups, Some n, Some d, Some datetime =>
            (Ret (File {| f_n := n; f_div := d; f_dt := datetime; f_groups := groups; f_patts := map (fun r => snd (snd r)) t |}), st')
        | _, _, _, _, _ => (Exn AttributeError, st')
        end
    | (Exn e, st') => (Exn e, st')
    | (NoFuel, st') => (NoFuel, st')
    end.
  (* import_patterns 264-292 *)
  Definition do_import (st : pstate) (f : content) : outcome answer * pstate :=
    match sequence (f_groups f) with
    | Ret ds =>
        (Ret Done, {| p_auto := p_auto st; p_n := Some (f_n f); p_div := Some (f_div f); p_dt := Some (f_dt f); p_groups := p_groups st;
                      p_ds := Some ds; p_patts := Some (f_patts f); p_cycles := p_cycles st |})
    | Exn e =>
        (Exn e, {| p_auto := p_auto st; p_n := Some (f_n f); p_div := Some (f_div f); p_dt := Some (f_dt f); p_groups := p_groups st;
                   p_ds := p_ds st; p_patts := p_patts st; p_cycles := p_cycles st |})
    | NoFuel => (NoFuel, st)
    end.
  (* what reconstruct 294-365 and get_residuals 367-427 read.  Simplification: with auto_time_scale and
     no n_zeros_ the answer is AttributeError, also where there is no row to rescale. *)
  Definition read (st : pstate) : outcome (bool * miner A) :=
    match p_ds st, p_patts st, p_dt st with
    | Some ds, Some ps, Some datetime =>
        if p_auto st then
          match p_n st, p_div st with
          | Some n, Some d => Ret (datetime, {| m_auto := true; m_n := n; m_div := d; m_groups := []; m_ds := ds; m_patts := ps |})
          | _, _ => Exn AttributeError
          end
        else Ret (datetime, {| m_auto := false; m_n := O; m_div := 1; m_groups := []; m_ds := ds; m_patts := ps |})
    | _, _, _ => Exn AttributeError
    end.
  Definition do_reconstruct (st : pstate) ids s drop : outcome answer :=
    bind (read st) (fun dm => bind (reconstruct sort_time sort_event (snd dm) ids s drop) (fun f => Ret (Frame (fst dm) f))).
  Definition do_residuals (st : pstate) ids s : outcome answer :=
    bind (read st) (fun dm => bind (get_residuals sort_time sort_event (snd dm) ids s) (fun f => Ret (Frame (p_auto st && fst dm) f))).
  (* draw_pattern 428-481: the events are named by position, the times multiplied, but not the distance
     of a first child *)
  Fixpoint drawn (ds : @dataseq A) (k : Z) (t : tree nat) : outcome (tree A) :=
    match t with
    | Leaf n e => match nth_error (ds_events ds) e with Some a => Ret (Leaf n a) | None => Exn IndexError end
    | Node n r p ch =>
        bind ((fix go (first : bool) (l : list (tree nat * Z)) : outcome (list (tree A * Z)) :=
                 match l with
                 | [] => Ret []
                 | (c, d) :: l' => bind (drawn ds k c) (fun c' => bind (go false l') (fun l'' => Ret ((c', if first then d else d * k) :: l'')))
                 end) true ch) (fun ch' => Ret (Node n r (p * k) ch'))
    end.
  Definition do_draw (st : pstate) (id : nat) : outcome answer :=
    match p_cycles st with
    | None => Exn AttributeError                                                      (* 446 *)
    | Some t =>
        match dget t id with
        | None => Exn KeyError                                                        (* 449 *)
        | Some (_, (tr, t0, _)) =>
            match p_ds st with
            | None => Exn AttributeError
            | Some ds =>
                if p_auto st then
                  match p_n st, p_div st with
                  | Some n, Some d => let k := 10 ^ Z.of_nat n * d in bind (drawn ds k tr) (fun t' => Ret (Drawing t' (t0 * k)))
                  | _, _ => Exn AttributeError
                  end
                else bind (drawn ds 1 tr) (fun t' => Ret (Drawing t' t0))
            end
        end
    end.

  Definition set_auto (st : pstate) (b : bool) : pstate :=
    {| p_auto := b; p_n := p_n st; p_div := p_div st; p_dt := p_dt st; p_groups := p_groups st; p_ds := p_ds st; p_patts := p_patts st; p_cycles := p_cycles st |}.
  Definition step (st : pstate) (c : call) : outcome answer * pstate :=
    match c with
    | SetAuto b => (Ret Done, set_auto st b)
    | Fit datetime log => do_fit st datetime log
    | Transform b c => let '(r, st') := do_transform st b c in (bind r (fun t => Ret (Table t)), st')
    | Export => do_export st
    | Import f => do_import st f
    | Reconstruct ids s drop => (do_reconstruct st ids s drop, st)
    | Residuals ids s => (do_residuals st ids s, st)
    | Draw id => (do_draw st id, st)
    end.
  Fixpoint run (st : pstate) (cs : list call) : list (outcome answer) * pstate :=
    match cs with
    | [] => ([], st)
    | c :: cs' => let '(r, st') := step st c in let '(rs, st'') := run st' cs' in (r :: rs, st'')
    end.
End History.
Arguments call : clear implicits. Arguments answer : clear implicits. Arguments content : clear implicits. Arguments pstate : clear implicits.
