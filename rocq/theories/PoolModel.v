(* Model of skmine/periodic/candidate_pool.py (the whole class) and of the candidate
   properties it stores (candidate.py 295-305). *)
From Verif Require Import Prelude CheckModel LCMModel PeriodModel.
From Coq Require Import QArith Qround.
Local Open Scope Z_scope.

(* the row (t0i, p0, r0, offset, cumEi, new, cid): class_patterns.py 7 *)
Record row := { r_t0 : Z; r_p : Z; r_r : Z; r_off : nat; r_cum : Z; r_new : nat; r_cid : nat }.
Definition row_key (r : row) : prop3 := (r_t0 r, r_p r, r_r r).
Definition no_row : row := {| r_t0 := 0; r_p := 0; r_r := 0; r_off := 0; r_cum := 0; r_new := 0; r_cid := 0 |}.
(* propCmp on row numbers; indexes are always in range *)
Definition key_at (rows : list row) (i : nat) : prop3 := row_key (nth i rows no_row).
(* l[:n] with Python's treatment of negative n *)
Definition upto {A} (l : list A) (n : Z) : list A :=
  firstn (Z.to_nat (if n <? 0 then Z.of_nat (length l) + n else n)) l.

Section Pool.
  Context {mK MK NK Bd : Type} `{EqDec mK} `{EqDec MK} `{EqDec NK}.
  (* what the pool reads of a Candidate: its keys (candidate.py 174-185), cost, number of
     occurrences and the major period, repetitions, occurrences and corrections; the rest of it
     is stored and never looked at *)
  Record cand := { c_minor : mK; c_major : MK; c_cost : option Q; c_nb : Z;
                   c_p : Z; c_r : Z; c_occs : list Z; c_errs : list Z; c_body : Bd }.
  (* getProps 295-305 with PROPS_MAX_OFFSET = -2 and PROPS_MIN_R = 0 (class_patterns.py 18-19) *)
  Definition get_props (c : cand) (cid nkey : nat) (max_offset : option Z) : list row :=
    let m := match max_offset with None => -2 | Some m => m end in
    map (fun io => {| r_t0 := snd io; r_p := c_p c; r_r := c_r c; r_off := fst io;
                      r_cum := fold_right Z.add 0 (map Z.abs (skipn (fst io) (c_errs c)));
                      r_new := nkey; r_cid := cid |})
        (combine (seq 0 (length (upto (c_occs c) m))) (upto (c_occs c) m)).

  (* sorted_pids: None, a range 0..n-1 (143) or a list *)
  Inductive pids := PNone | PRange (n : nat) | PList (l : list nat).
  (* __init__ 36-48 *)
  Record pool := { p_cands : dict nat cand; p_next : nat; p_rows : option (list row); p_sorted : pids;
                   p_map : dict mK (dict MK nat); p_nkeys : list NK;
                   p_new_cids : dict NK (list nat); p_new_minor : dict NK (list mK) }.
  Definition empty_pool : pool :=
    {| p_cands := []; p_next := 0; p_rows := None; p_sorted := PNone; p_map := []; p_nkeys := [];
       p_new_cids := []; p_new_minor := [] |}.
  (* resetNew 50-55 *)
  Definition reset_new (P : pool) : pool :=
    {| p_cands := p_cands P; p_next := p_next P; p_rows := p_rows P; p_sorted := p_sorted P; p_map := p_map P;
       p_nkeys := p_nkeys P; p_new_cids := []; p_new_minor := [] |}.
  (* map_nkeys is the inverse of list_nkeys *)
  Fixpoint index_of (l : list NK) (k : NK) : nat :=
    match l with [] => O | x :: t => if eqd x k then O else S (index_of t k) end.
  Definition note_nkey (nkeys : list NK) (k : NK) : list NK := if mem k nkeys then nkeys else nkeys ++ [k].
  Definition dget_or {K V} `{EqDec K} (d : dict K V) (k : K) (v : V) : V := match dget d k with Some x => x | None => v end.
  (* addCand 106-135: None when a candidate with the same keys is already there *)
  Definition record_cand (P : pool) (c : cand) (nkey : NK) : option pool :=
    if match dget (p_map P) (c_minor c) with
       | Some d => match dget d (c_major c) with Some _ => true | None => false end
       | None => false end
    then None
    else Some
      {| p_cands := dset (p_cands P) (p_next P) c; p_next := p_next P;
         p_rows := p_rows P; p_sorted := p_sorted P;
         p_map := dset (p_map P) (c_minor c) (dset (dget_or (p_map P) (c_minor c) []) (c_major c) (p_next P));
         p_nkeys := note_nkey (p_nkeys P) nkey;
         p_new_cids := dset (p_new_cids P) nkey (dget_or (p_new_cids P) nkey [] ++ [p_next P]);
         p_new_minor := dset (p_new_minor P) nkey (union (dget_or (p_new_minor P) nkey []) [c_minor c]) |}.
  (* 151 *)
  Definition bump_next (P : pool) : pool :=
    {| p_cands := p_cands P; p_next := S (p_next P); p_rows := p_rows P; p_sorted := p_sorted P; p_map := p_map P;
       p_nkeys := p_nkeys P; p_new_cids := p_new_cids P; p_new_minor := p_new_minor P |}.
  Definition set_rows (P : pool) (rows : list row) (s : pids) : pool :=
    {| p_cands := p_cands P; p_next := p_next P; p_rows := Some rows; p_sorted := s; p_map := p_map P;
       p_nkeys := p_nkeys P; p_new_cids := p_new_cids P; p_new_minor := p_new_minor P |}.

  (* A call ends with the pool as it is left, and an exception or the result. *)
  (* addCand 88-152 called by the user, that is with with_props=True.
     146-149: a range has neither insert, pop nor extend; appending to a list a range that
     needs no insertion succeeds. np.vstack of rows and [] is a ValueError. *)
  Definition add_cand (P : pool) (c : cand) (nkey : NK) : pool * outcome (option nat) :=
    match record_cand P c nkey with
    | None => (P, Ret None)
    | Some P' =>
        let props := get_props c (p_next P) (index_of (p_nkeys P') nkey) None in
        match p_rows P' with
        | None => (bump_next (set_rows P' props (PRange (length props))), Ret (Some (p_next P)))
        | Some rows =>
            match rows, props with
            | [], _ | _, [] => (P', Exn ValueError)
            | _, _ =>
                let rows' := rows ++ props in
                let first := length rows in
                match p_sorted P' with
                | PList l =>
                    if existsb (fun a => lex3_lt (key_at rows' first) (key_at rows' a)) l
                    then (set_rows P' rows' (p_sorted P'), Exn AttributeError)
                    else (bump_next (set_rows P' rows' (PList (l ++ seq first (length props)))), Ret (Some (p_next P)))
                | _ => (set_rows P' rows' (p_sorted P'), Exn AttributeError)
                end
            end
        end
    end.

  (* addCands 167-176: the candidates one by one, collecting properties. 171: getCost on None *)
  Fixpoint add_loop (P : pool) (ps : list cand) (nkey : NK) (costOne : option Q) (props : list row)
    : pool * outcome (list row) :=
    match ps with
    | [] => (P, Ret props)
    | c :: ps' =>
        match record_cand P c nkey with
        | None =>
            match costOne with
            | Some _ => (P, Exn AttributeError)
            | None => add_loop P ps' nkey costOne props
            end
        | Some P' =>
            let max_offset :=
              match costOne, c_cost c with
              | Some one, Some cost => Some (Z.min (Qfloor (cost / one)%Q) (c_nb c - 2))
              | _, _ => None
              end in
            add_loop (bump_next P') ps' nkey costOne
              (props ++ get_props c (p_next P) (index_of (p_nkeys P') nkey) max_offset)
        end
    end.
  Definition with_nkey (P : pool) (nkey : NK) : pool :=
    {| p_cands := p_cands P; p_next := p_next P; p_rows := p_rows P; p_sorted := p_sorted P; p_map := p_map P;
       p_nkeys := note_nkey (p_nkeys P) nkey; p_new_cids := p_new_cids P; p_new_minor := p_new_minor P |}.
  (* addCands 154-190; costOne is not zero *)
  Definition add_cands (P : pool) (ps : list cand) (nkey : NK) (costOne : option Q) : pool * outcome unit :=
    match add_loop (with_nkey P nkey) ps nkey costOne [] with
    | (P', Ret []) => (P', Ret tt)
    | (P', Ret props) =>
        match p_rows P' with
        | None => (set_rows P' props (PList (sort_pids (key_at props) (seq 0 (length props)))), Ret tt)
        | Some rows =>
            let rows' := rows ++ props in
            let fresh := sort_pids (key_at rows') (seq (length rows) (length props)) in
            match p_sorted P' with
            | PList l => (set_rows P' rows' (PList (merge_sorted_pids (key_at rows') l fresh)), Ret tt)
            | _ => (set_rows P' rows' (p_sorted P'), Exn AttributeError)
            end
        end
    | (P', Exn e) => (P', Exn e)
    | (P', NoFuel) => (P', NoFuel)
    end.

  (* a history of calls on one pool; exceptions are caught by the caller *)
  Inductive op := OpMany (ps : list cand) (nkey : NK) (costOne : option Q) | OpOne (c : cand) (nkey : NK) | OpReset.
  Definition run_op (P : pool) (o : op) : pool :=
    match o with
    | OpMany ps nkey one => fst (add_cands P ps nkey one)
    | OpOne c nkey => fst (add_cand P c nkey)
    | OpReset => reset_new P
    end.
  Definition run_ops (P : pool) (os : list op) : pool := fold_left run_op os P.
End Pool.
Arguments cand : clear implicits. Arguments pool : clear implicits. Arguments op : clear implicits.
