(* Model of the UbiqLog files, skmine/datasets/periodic.py 219-335:
   parse_all_user writes two files for each user, read_ubiq_user reads one.

   A line of the log is what the regular expression of line 285 takes from it,
   None when it does not match; the dates are seconds, None when strptime
   raises.  A file is its first line (user and start) and its rows: that pandas
   reads back the fields written is assumed, so no process name may hold a tab
   or be a word pandas takes for a missing value. *)
From Coq Require Import NArith.
From Verif Require Import Prelude CheckModel LCMModel TextModel SplitModel.
Local Open Scope Z_scope.

(* the order of Python strings, by code points, and of pairs *)
Fixpoint text_leb (a b : text) : bool :=
  match a, b with
  | [], _ => true
  | _ :: _, [] => false
  | x :: a', y :: b' => if (x <? y)%N then true else if (x =? y)%N then text_leb a' b' else false
  end.
Definition pair_leb (x y : Z * text) : bool :=
  if fst x <? fst y then true else if fst x =? fst y then text_leb (snd x) (snd y) else false.

Definition underscore : char := 95%N.
Definition letter_I : char := 73%N.
Definition letter_S : char := 83%N.
Definition letter_E : char := 69%N.

(* lines 318-322 and 328-335: a pair equal to the one written before is left out *)
Fixpoint written (prev : option (Z * text)) (l : list (Z * text)) : list (Z * text) :=
  match l with
  | [] => []
  | x :: t => if eqd (Some x) prev then written prev t else x :: written (Some x) t
  end.

Section Ubiq.
  Context {U : Type} `{EqDec U}.
  Variable min_occ : nat.

  Record line := { l_user : U; l_process : text; l_times : option (Z * Z) }.
  Record file := { f_user : U; f_start : Z; f_rows : list (Z * text) }.

  (* lines 302-306 *)
  Definition happenings (p : text) (d : Z * Z) : list (Z * text) :=
    if snd d - fst d <? 60 then [(fst d, p ++ [underscore; letter_I])]
    else [(fst d, p ++ [underscore; letter_S]); (snd d, p ++ [underscore; letter_E])].

  Record state := { users : dict U (list (Z * text) * dict text nat); users_drop : list U }.
  Definition times_seen (counts : dict text nat) (ev : text) : nat :=
    match dget counts ev with Some n => n | None => O end.
  (* lines 307-309 *)
  Definition add_event (x : list (Z * text) * dict text nat) (e : Z * text) : list (Z * text) * dict text nat :=
    (fst x ++ [e], dset (snd x) (snd e) (S (times_seen (snd x) (snd e)))).
  (* lines 281-309 *)
  Definition read_line (s : state) (ol : option line) : state :=
    match ol with
    | None => s
    | Some l =>
      if mem (l_user l) (users_drop s) then s
      else match l_times l with
           | None => {| users := users s; users_drop := l_user l :: users_drop s |}
           | Some d =>
             let x := match dget (users s) (l_user l) with Some x => x | None => ([], []) end in
             {| users := dset (users s) (l_user l) (fold_left add_event (happenings (l_process l) d) x);
                users_drop := users_drop s |}
           end
    end.

  (* lines 329-331: events that start or are instantaneous, by their process *)
  Definition started (x : Z * text) : list (Z * text) :=
    match split_str [underscore] (snd x) with
    | Ret db => if mem (last db []) [[letter_I]; [letter_S]] then [(fst x, join [underscore] (removelast db))] else []
    | _ => []
    end.

  (* lines 312-335 for one user: the files _ISE_ and _IS_.  The quotient of line
     317 is not negative, so int() rounds it down. *)
  Definition files_of (s : state) (u : U) (dt : list (Z * text) * dict text nat) : list (U * (file * file)) :=
    if mem u (users_drop s) then []
    else
      let k := filter (fun d => (min_occ <? times_seen (snd dt) (snd d))%nat) (fst dt) in
      if (min_occ <? length k)%nat then
        match sort pair_leb k with
        | [] => []
        | (t0, _) :: _ =>
          let evs := sort pair_leb (map (fun d => ((fst d - t0) / 60, snd d)) (sort pair_leb k)) in
          [(u, ({| f_user := u; f_start := t0; f_rows := written None evs |},
                {| f_user := u; f_start := t0; f_rows := written None (flat_map started evs) |}))]
        end
      else [].
  Definition parse_all_user (ls : list (option line)) : list (U * (file * file)) :=
    let s := fold_left read_line ls {| users := []; users_drop := [] |} in
    flat_map (fun kv => files_of s (fst kv) (snd kv)) (users s).

  (* lines 237-256 for a file _ISE_: datetimes, here seconds *)
  Definition read_ise (f : file) : list (Z * text) := map (fun x => (f_start f + fst x, snd x)) (f_rows f).
  (* the same for a file _IS_: the events are numbered, the first line of the file is number 0 *)
  Definition read_is (f : file) : list (Z * text) :=
    combine (map Z.of_nat (seq 1 (length (f_rows f)))) (map snd (f_rows f)).
End Ubiq.
Arguments line U : clear implicits.
Arguments file U : clear implicits.
Arguments state U : clear implicits.
