(* Model of the anytime search of skmine/graph/graphmdl/graph_mdl.py.

   What the search asks from outside is an argument: the candidates generated
   from the rewritten graph and the code table (already sorted, lines
   107-108), candidate equality, the total description length of a code table
   (cover followed by compute_total_description_length), the usage of each row
   after a cover, the ordering key of a row, and the clock.  The cover of a
   table does not depend on earlier covers (theorem C68 in PropGraphHistory),
   so lengths and usages are functions of the ordered list of rows. *)
From Coq Require Import QArith.
Open Scope nat_scope.
From Verif Require Import Prelude CheckModel LCMModel.

Section Search.
  Context {C : Type}.
  Variable candidate_eq : C -> C -> bool.

  (* A CodeTableRow object: identity, the candidate whose final pattern it
     holds, arrival number. *)
  Record row := { rid : nat; rcand : C; arrival : nat }.

  (* the rewritten graph is represented by the table it was computed from *)
  Variable generate : list row -> list row -> list C.
  Variable dl : list row -> Q.
  Variable usage : list row -> row -> Z.
  (* code_table.py 333-344, [_order_rows]: total number of labels and support *)
  Variable row_key : C -> Z * Z.
  (* the clock: elapsed time at the n-th reading of [time.time() - begin] *)
  Variable clock : nat -> Q.
  Variable timeout : option Q.

  Record st := {
    rows : list row;              (* code_table._rows *)
    length_ : Q;                  (* _description_length *)
    rewritten : list row;         (* _rewritten_graph *)
    pruning_rows : list row;      (* _pruning_rows *)
    usages : list (nat * Z);      (* pattern_usage of each row *)
    old_usage : list (nat * Z);   (* _old_usage *)
    already_test : list C;        (* _already_test *)
    fresh : nat;                  (* next row identity *)
    ticks : nat;                  (* clock readings so far *)
    accepted : list (Q * Q);      (* lengths before and after each accepted change; a log *)
    covers : list (list row)      (* the tables that were covered, the last one first; a log *)
  }.

  Definition set_rows s x := {| rows := x; length_ := length_ s; rewritten := rewritten s;
    pruning_rows := pruning_rows s; usages := usages s; old_usage := old_usage s;
    already_test := already_test s; fresh := fresh s; ticks := ticks s; accepted := accepted s; covers := covers s |}.
  Definition set_usages s x := {| rows := rows s; length_ := length_ s; rewritten := rewritten s;
    pruning_rows := pruning_rows s; usages := x; old_usage := old_usage s;
    already_test := already_test s; fresh := fresh s; ticks := ticks s; accepted := accepted s; covers := covers s |}.
  Definition set_old s x := {| rows := rows s; length_ := length_ s; rewritten := rewritten s;
    pruning_rows := pruning_rows s; usages := usages s; old_usage := x;
    already_test := already_test s; fresh := fresh s; ticks := ticks s; accepted := accepted s; covers := covers s |}.
  Definition set_pruning s x := {| rows := rows s; length_ := length_ s; rewritten := rewritten s;
    pruning_rows := x; usages := usages s; old_usage := old_usage s;
    already_test := already_test s; fresh := fresh s; ticks := ticks s; accepted := accepted s; covers := covers s |}.
  Definition set_tested s x := {| rows := rows s; length_ := length_ s; rewritten := rewritten s;
    pruning_rows := pruning_rows s; usages := usages s; old_usage := old_usage s;
    already_test := x; fresh := fresh s; ticks := ticks s; accepted := accepted s; covers := covers s |}.
  Definition set_fresh s x := {| rows := rows s; length_ := length_ s; rewritten := rewritten s;
    pruning_rows := pruning_rows s; usages := usages s; old_usage := old_usage s;
    already_test := already_test s; fresh := x; ticks := ticks s; accepted := accepted s; covers := covers s |}.
  Definition set_ticks s x := {| rows := rows s; length_ := length_ s; rewritten := rewritten s;
    pruning_rows := pruning_rows s; usages := usages s; old_usage := old_usage s;
    already_test := already_test s; fresh := fresh s; ticks := x; accepted := accepted s; covers := covers s |}.
  Definition set_covers s x := {| rows := rows s; length_ := length_ s; rewritten := rewritten s;
    pruning_rows := pruning_rows s; usages := usages s; old_usage := old_usage s;
    already_test := already_test s; fresh := fresh s; ticks := ticks s; accepted := accepted s; covers := x |}.
  (* the table in place becomes the reference: lines 134-135, 192-193, 245-246 *)
  Definition adopt s := {| rows := rows s; length_ := dl (rows s); rewritten := rows s;
    pruning_rows := pruning_rows s; usages := usages s; old_usage := old_usage s;
    already_test := already_test s; fresh := fresh s; ticks := ticks s; accepted := accepted s; covers := covers s |}.
  Definition note s old := {| rows := rows s; length_ := length_ s; rewritten := rewritten s;
    pruning_rows := pruning_rows s; usages := usages s; old_usage := old_usage s;
    already_test := already_test s; fresh := fresh s; ticks := ticks s;
    accepted := accepted s ++ [(old, length_ s)]; covers := covers s |}.

  Definition same_row (a b : row) : bool := rid a =? rid b.
  (* [list.remove]: the first occurrence *)
  Fixpoint remove1 (r : row) (l : list row) : list row :=
    match l with [] => [] | x :: t => if same_row r x then t else x :: remove1 r t end.

  (* [sort(reverse=True, key=(length, support, -arrival))]; reverse sorting is
     stable too *)
  Definition row_leb (a b : row) : bool :=
    let '(la, sa) := row_key (rcand a) in let '(lb, sb) := row_key (rcand b) in
    (lb <? la)%Z || ((lb =? la)%Z &&
      ((sb <? sa)%Z || ((sb =? sa)%Z && (arrival a <=? arrival b)))).
  Definition sort_rows : list row -> list row := sort row_leb.

  (* code_table.py 47-62, [add_row]; the arrival number of a new row is set by
     [new_row] below *)
  Definition add_row s r := set_rows s (sort_rows (rows s ++ [r])).
  (* code_table.py 64-72, [remove_row], for a row of the table *)
  Definition drop_row s r := set_rows s (sort_rows (remove1 r (rows s))).
  Definition new_row s c := {| rid := fresh s; rcand := c; arrival := length (rows s) + 1 |}.

  (* [cover]: the usage of the rows of the table is overwritten *)
  Definition cover s :=
    set_covers (set_usages s (fold_left (fun d r => dset d (rid r) (usage (rows s) r)) (rows s) (usages s)))
               (rows s :: covers s).
  Definition usage_of s r : Z := match dget (usages s) (rid r) with Some u => u | None => 0%Z end.

  (* lines 213-219, [_compute_old_usage] *)
  Definition compute_old_usage s :=
    set_old s (fold_left (fun d r => dset d (rid r) (usage_of s r)) (rows s) []).
  (* lines 221-229, [_compute_pruning_candidates] *)
  Definition compute_pruning_candidates s :=
    set_pruning s (pruning_rows s ++
      filter (fun r => match dget (old_usage s) (rid r) with
                       | Some o => (usage_of s r <? o)%Z | None => false end) (rows s)).

  (* lines 182-197, [_graph_mdl_end] *)
  Definition graph_mdl_end s := adopt (cover s).

  (* Outcome of a part of the run: finished, stopped by an exception, or still
     running when the fuel is spent; with the attributes at that moment. *)
  Inductive res := Done (s : st) | Raised (e : exn) (s : st) | Running (s : st).

  (* lines 231-253, [_pruning]: the list is walked by position while it is
     changed by the body and by the recursive call. *)
  Definition start_pruning s :=
    let s := compute_old_usage s in
    set_pruning s (sort (fun a b => usage_of s a <=? usage_of s b)%Z (pruning_rows s)).
  (* lines 241-242 *)
  Definition try_remove s r := cover (drop_row s r).
  (* lines 244-249: the removal is kept and the recursive call starts *)
  Definition keep_removal s1 r :=
    let s2 := note (adopt s1) (length_ s1) in
    start_pruning (compute_pruning_candidates (set_pruning s2 (remove1 r (pruning_rows s2)))).
  Fixpoint pruning_loop (fuel i : nat) (s : st) : res :=
    match fuel with
    | O => Running s
    | S f =>
      match nth_error (pruning_rows s) i with
      | None => Done s
      | Some r =>
        if negb (existsb (same_row r) (rows s)) then Raised ValueError s
        else
          let s1 := try_remove s r in
          if negb (Qle_bool (length_ s1) (dl (rows s1))) then
            match pruning_loop f 0 (keep_removal s1 r) with
            | Done s4 => pruning_loop f (S i) s4
            | o => o
            end
          else pruning_loop f (S i) (add_row s1 r)
      end
    end.
  Definition pruning (fuel : nat) (s : st) : res := pruning_loop fuel 0 (start_pruning s).

  (* lines 162-180, [_stop_by_time]: the new state when time is up *)
  Definition read_clock s : Q * st := (clock (ticks s), set_ticks s (S (ticks s))).
  (* result of the candidate loop: went through, or left by break with the
     value of [stop] and of [current] *)
  Inductive lres := Through (cur : Q) (s : st) | Left (stop : bool) (cur : Q) (s : st)
                  | LRaised (e : exn) (s : st) | LRunning (s : st).

  (* lines 125-153: one evaluation; [last] tells whether
     candidates.index(candidate) == len(candidates) - 1 *)
  Definition insert_candidate s c : row * st :=
    let s := compute_old_usage s in
    let r := new_row s c in
    let s := cover (add_row (set_fresh s (S (fresh s))) r) in
    (r, set_tested s (already_test s ++ [c])).
  (* lines 134-140 *)
  Definition accept s := compute_pruning_candidates (note (adopt s) (length_ s)).
  Definition evaluate (fuel : nat) (last : bool) (c : C) (cur : Q) (s : st)
    (continue_ : st -> lres) : lres :=
    let '(r, s) := insert_candidate s c in
    if negb (Qle_bool (length_ s) (dl (rows s))) then
      match pruning fuel (accept s) with
      | Done s => Left false cur s
      | Raised e s => LRaised e s
      | Running s => LRunning s
      end
    else if negb (Qle_bool (dl (rows s)) (length_ s)) && last then
      Left true (match timeout with Some t => t | None => cur end)
           (graph_mdl_end (drop_row s r))
    else continue_ (drop_row s r).

  (* candidates.index(candidate) == len(candidates) - 1: the position of the
     first equal candidate *)
  Definition index_of (cs : list C) (c : C) : nat :=
    (fix go l := match l with [] => 0 | x :: t => if candidate_eq x c then 0 else S (go t) end) cs.

  (* lines 118-155.  An already tested candidate reaches line 155, which calls
     the logger object itself: TypeError. *)
  Fixpoint candidate_loop (fuel : nat) (all cs : list C) (cur : Q) (s : st) : lres :=
    match cs with
    | [] => Through cur s
    | c :: rest =>
      if existsb (fun x => candidate_eq x c) (already_test s) then LRaised TypeError s
      else
        let last := index_of all c =? length all - 1 in
        match timeout with
        | None => evaluate fuel last c cur s (candidate_loop fuel all rest cur)
        | Some t =>
            let '(now, s) := read_clock s in
            if Qle_bool t now then Left false now (graph_mdl_end s)
            else evaluate fuel last c now s (candidate_loop fuel all rest now)
        end
    end.

  (* lines 106-107, 116-160: the candidates of one turn of the while loop;
     without any, the search ends *)
  Definition round (fuel : nat) (cur : Q) (s : st) : lres :=
    let cs := generate (rewritten s) (rows s) in
    match cs with
    | [] => Left true (match timeout with Some t => t | None => cur end) (graph_mdl_end s)
    | _ => candidate_loop fuel cs cs cur s
    end.

  (* lines 100-160: the while loop *)
  Fixpoint search (fuel : nat) (stop : bool) (cur : Q) (s : st) : res :=
    if stop then Done s
    else match fuel with
    | O => Running s
    | S f =>
      let next (o : lres) : res :=
        match o with
        | Through cur s => search f false cur s
        | Left stop cur s => search f stop cur s
        | LRaised e s => Raised e s
        | LRunning s => Running s
        end in
      match timeout with
      | None => next (round f cur s)
      | Some t =>
          if negb (Qle_bool cur t) then Done s
          else
            let '(now, s) := read_clock s in
            if Qle_bool t now then Done (graph_mdl_end s) else next (round f now s)
      end
    end.

  (* lines 49-65, [_init_graph_mdl]: CT0 has no row and is covered.
     _pruning_rows is not emptied between two calls of fit; here it is that of
     a new object (see RefitModel for a used one). *)
  Definition initial : st :=
    {| rows := []; length_ := dl []; rewritten := []; pruning_rows := []; usages := [];
       old_usage := []; already_test := []; fresh := 0; ticks := 0; accepted := []; covers := [[]] |}.

  (* lines 67-89, [fit] *)
  Definition fit (fuel : nat) : res := search fuel false 0%Q initial.
End Search.
Arguments row C : clear implicits.
Arguments st C : clear implicits.
Arguments res C : clear implicits.
