(* Model of the small building blocks of skmine/periodic: time scaling (cycles.py 483-561),
   occurrence keys, candidate order, period and corrections, frequencies
   (class_patterns.py) and data sequences (data_sequence.py 44-82, 111-118). *)
From Verif Require Import Prelude CheckModel LCMModel TextModel SplitModel ArrayModel.
From Coq Require Import QArith NArith.
Local Open Scope Z_scope.

(* ------------------------------------------------------------------ time scaling *)
Definition all_div (d : Z) (ts : list Z) : bool := forallb (fun t => t mod d =? 0) ts.
(* _shift_from_nano_to_sec 545-561; [k] is second_digit_rank - n_unit_shifted *)
Fixpoint shift_nano (k : nat) (ts : list Z) (n : nat) : list Z * nat :=
  match k with
  | O => (ts, n)
  | S k' => if all_div 10 ts then shift_nano k' (map (fun t => t / 10) ts) (S n) else (ts, n)
  end.
Inductive resolution := UnderSecond | Second | Minute | Hour | Day.
(* shift_from_sec_to_upper_unit 520-542 *)
Definition shift_upper (ts : list Z) : list Z * Z * resolution :=
  let '(res, d) :=
    if existsb (fun t => negb (t mod 60 =? 0)) ts then (Second, 1)
    else if all_div (24 * 3600) ts then (Day, 24 * 3600)
    else if all_div 3600 ts then (Hour, 3600)
    else (Minute, 60) in
  (map (fun t => t / d) ts, d, res).
(* autoscale_time_unit 483-517 *)
Definition autoscale (ts : list Z) : list Z * nat * resolution * Z :=
  let '(shifted, n) := shift_nano 9 ts 0 in
  if (n <? 9)%nat then (shifted, n, UnderSecond, 1)
  else let '(conv, d, res) := shift_upper shifted in (conv, n, res, d).
(* cycles.py 345, 407: the time presented to the user *)
Definition unscale (n : nat) (d : Z) (t : Z) : Z := t * 10 ^ Z.of_nat n * d.

(* ------------------------------------------------------------------------- keys *)
Definition semicolon : text := [59%N].      (* SUP_SEP *)
Definition comma : text := [44%N].          (* SUB_SEP *)
(* key_to_l 334-350; every exception gives [] *)
Definition key_to_l (key : text) : list (list Z) :=
  match bind (split_str semicolon key) (map_out (fun b => bind (split_str comma b) (map_opt parse_int))) with
  | Ret l => l
  | _ => []
  end.
(* l_to_key 353-367 *)
Definition l_to_key (l : list (Z * Z)) : text :=
  join semicolon (map (fun pf => str_z (fst pf) ++ comma ++ str_z (snd pf)) l).

(* ------------------------------------------------------------- candidate order *)
(* propCmp 397-419: t0i, p0, r0 compared as a tuple *)
Definition prop3 := (Z * Z * Z)%type.
Definition lex3_lt (a b : prop3) : bool :=
  let '(a1, a2, a3) := a in let '(b1, b2, b3) := b in
  (a1 <? b1) || ((a1 =? b1) && ((a2 <? b2) || ((a2 =? b2) && (a3 <? b3)))).
(* sortPids 422-442 *)
Definition sort_pids (props : nat -> prop3) (pids : list nat) : list nat :=
  sort (fun a b => negb (lex3_lt (props b) (props a))) pids.
(* mergeSortedPids 445-467: pidsA is [pre ++ rest] and [i] is [length pre]; inserting at i
   and advancing moves the new element into [pre] *)
Fixpoint merge_loop (fuel : nat) (props : nat -> prop3) (pre rest pidsB : list nat) : list nat * list nat :=
  match fuel with
  | O => (pre ++ rest, pidsB)
  | S f =>
      match rest, pidsB with
      | a :: rest', b :: B' =>
          if lex3_lt (props b) (props a) then merge_loop f props (pre ++ [b]) (a :: rest') B'
          else merge_loop f props (pre ++ [a]) rest' (b :: B')
      | _, _ => (pre ++ rest, pidsB)
      end
  end.
Definition merge_sorted_pids (props : nat -> prop3) (A B : list nat) : list nat :=
  let (A', B') := merge_loop (length A + length B) props [] A B in A' ++ B'.

(* ------------------------------------------------------- period and corrections *)
Fixpoint diffs (occs : list Z) : list Z :=
  match occs with
  | a :: ((b :: _) as t) => (b - a) :: diffs t
  | _ => []
  end.
(* computePeriodDiffs 28-45: floor of the median; None is the ValueError int(nan) *)
Definition period_diffs (ds : list Z) : option Z :=
  let s := sort Z.leb ds in
  let n := length s in
  match ds with
  | [] => None
  | _ => Some (if Nat.even n then (nth (n / 2 - 1) s 0 + nth (n / 2) s 0) / 2 else nth (n / 2) s 0)
  end.
(* computePeriod 48-67, computeE 70-90 *)
Definition compute_period (occs : list Z) : option Z := period_diffs (diffs occs).
Definition compute_E (occs : list Z) (p : Z) : list Z := map (fun d => d - p) (diffs occs).

(* ------------------------------------------------------------------ frequencies *)
(* makeOccsAndFreqsThird 285-325 with OPT_EVFR; the total, and for each event its count,
   original and adjusted frequency; "(" and ")" have 1/3 each.  The total must be positive. *)
Definition total_occs (counts : list (nat * Z)) : Z := fold_right Z.add 0 (map snd counts).
Definition org_freqs (counts : list (nat * Z)) : list (nat * Q) :=
  map (fun p => (fst p, inject_Z (snd p) / inject_Z (total_occs counts))%Q) counts.
Definition adj_freqs (counts : list (nat * Z)) : list (nat * Q) :=
  map (fun p => (fst p, inject_Z (snd p) / (3 * inject_Z (total_occs counts)))%Q) counts.
Definition delim_freqs : list Q := [(1 # 3)%Q; (1 # 3)%Q].

(* ---------------------------------------------------------------- data sequences *)
Section DataSequence.
  Context {A : Type} `{EqDec A} (leA : A -> A -> bool).
  (* 53-58: seq_tmp[ev].append(t) *)
  Definition add_occ (d : dict A (list Z)) (p : Z * A) : dict A (list Z) :=
    match dget d (snd p) with
    | Some ts => dset d (snd p) (ts ++ [fst p])
    | None => dset d (snd p) [fst p]
    end.
  Definition group_occs (seq : list (Z * A)) : dict A (list Z) := fold_left add_occ seq [].
  Definition pair_leb (a b : Z * nat) : bool :=
    (fst a <? fst b) || ((fst a =? fst b) && (snd a <=? snd b)%nat).
  Definition zmax' (l : list Z) : Z := match l with [] => 0 | x :: t => fold_left Z.max t x end.
  Definition zmin' (l : list Z) : Z := match l with [] => 0 | x :: t => fold_left Z.min t x end.
  Record dataseq := { ds_events : list A; ds_seqd : list (nat * list Z); ds_seql : list (Z * nat);
                      ds_counts : list (nat * Z); ds_start : Z; ds_end : Z }.
  (* 60-82; np.min of an empty list of times raises ValueError *)
  Definition dataseq_of_dict (d : dict A (list Z)) : outcome dataseq :=
    let list_ev := sort leA (dkeys d) in                                              (* 61 *)
    let seqd := map (fun p => (first_index (fst p) list_ev, snd p)) d in              (* 62-64 *)
    let seql := sort pair_leb (concat (map (fun p => map (fun t => (t, fst p)) (snd p)) seqd)) in
    if existsb (fun p => match snd p with [] => true | _ => false end) seqd then Exn ValueError
    else
      let starts := map (fun p => zmin' (snd p)) seqd in                              (* 69-72 *)
      let ends := map (fun p => zmax' (snd p)) seqd in
      let counts := map (fun p => (fst p, Z.of_nat (length (snd p)))) seqd in
      Ret {| ds_events := list_ev; ds_seqd := seqd; ds_seql := seql; ds_counts := counts;
             ds_start := if 0 <? total_occs counts then zmin' starts else 0;          (* 75-78 *)
             ds_end := if 0 <? total_occs counts then zmax' ends else 0 |}.
  Definition dataseq_of_list (seq : list (Z * A)) : outcome dataseq := dataseq_of_dict (group_occs seq).
  (* getSequence 111-115 *)
  Definition get_sequence (s : dataseq) (ev : option nat) : list (Z * nat) + list Z :=
    match ev with
    | None => inl (ds_seql s)
    | Some n => inr (match dget (ds_seqd s) n with Some ts => ts | None => [] end)
    end.
End DataSequence.
