(* Model of the log side of PeriodicPatternMiner (skmine/periodic/cycles.py): what fit keeps of
   the log, reconstruct (294-365) and get_residuals (367-427). *)
From Verif Require Import Prelude CheckModel LCMModel TextModel SplitModel ArrayModel PeriodModel TreeModel.
Local Open Scope Z_scope.

Definition patt := (tree nat * Z * list Z)%type.       (* pattern, t0, E *)

Section Cycles.
  Context {A : Type} `{EqDec A} (leA : A -> A -> bool).
  Record miner := { m_auto : bool; m_n : nat; m_div : Z; m_groups : dict A (list Z); m_ds : @dataseq A; m_patts : list patt }.

  (* fit 114-162.  [log] is the series as (time in nano-seconds, event) pairs; repeated pairs are
     removed (121-130); the times are rescaled (134-146) and grouped by event (157).  The search
     itself (mine_seqs, 159) is the argument [mine].  Simplifications: validation (109-119) and
     the DatetimeIndex flag, which only changes the dtype of the times shown, are left out; the
     groups come in order of first occurrence instead of sorted. *)
  Definition fit (auto : bool) (log : list (Z * A)) (mine : @dataseq A -> list patt) : outcome miner :=
    let serie := nodup eq_dec log in
    let ts := map fst serie in
    let '(ts', n, d) := if auto then let '(conv, n, _, d) := autoscale ts in (conv, n, d) else (ts, O, 1) in
    let groups := group_occs (combine ts' (map snd serie)) in
    bind (dataseq_of_dict leA groups) (fun ds =>
      Ret {| m_auto := auto; m_n := n; m_div := d; m_groups := groups; m_ds := ds; m_patts := mine ds |}).

  (* a dataframe with columns time and event; the first component is the index label *)
  Definition frame := list (nat * (Z * A)).
  (* pd.DataFrame.sort_values: which order equal keys get is not specified *)
  Variable sort_time : frame -> frame.
  Variable sort_event : frame -> frame.
  Inductive sort_mode := ByTime | ByEvent | InOrder.
  Definition sort_frame (s : sort_mode) (f : frame) : frame :=
    match s with ByTime => sort_time f | ByEvent => sort_event f | InOrder => f end.
  (* drop_duplicates: the first row with given values stays *)
  Fixpoint drop_dups (seen : list (Z * A)) (f : frame) : frame :=
    match f with
    | [] => []
    | r :: f' => if mem (snd r) seen then drop_dups seen f' else r :: drop_dups (snd r :: seen) f'
    end.
  (* 343-347, 406-409 *)
  Definition shown_time (m : miner) (t : Z) : Z := if m_auto m then unscale (m_n m) (m_div m) t else t.
  (* 335-350: the rows of one pattern; a missing event number is the KeyError of map_ev *)
  Definition patt_rows (m : miner) (p : patt) : outcome (list (Z * A)) :=
    let '(t, t0, E) := p in
    match get_occs t t0 E with
    | None => Exn KeyError
    | Some occs =>
        map_out (fun oo => match nth_error (ds_events (m_ds m)) (snd (fst (snd oo))) with
                           | Some e => Ret (shown_time m (fst oo), e)
                           | None => Exn KeyError
                           end) (combine occs (occs_star t))
    end.
  Definition label {B} (l : list B) : list (nat * B) := combine (List.seq 0 (length l)) l.
  (* reconstruct 294-365.  [ids] is None for reconstruct(), Some l for reconstruct(l). 352-357:
     a DataFrame made from an empty list has no column 'time': KeyError. *)
  Definition reconstruct (m : miner) (ids : option (list Z)) (s : sort_mode) (drop : bool) : outcome frame :=
    let ids := match ids with None => map Z.of_nat (List.seq 0 (length (m_patts m))) | Some l => l end in
    bind (map_out (fun i => match py_nth (m_patts m) i with Some p => patt_rows m p | None => Exn IndexError end) ids)
      (fun ls =>
        match concat ls with
        | [] => Exn KeyError
        | rows => let f := sort_frame s (label rows) in Ret (if drop then drop_dups [] f else f)
        end).

  (* PatternCollection.getUncoveredOccs, pattern_collection.py 94-144 (a set: no order) *)
  Definition uncovered (m : miner) : outcome (list (Z * nat)) :=
    match all_some (map (fun p => get_cov_seq (fst (fst p)) (snd (fst p)) (snd p)) (m_patts m)) with
    | None => Exn KeyError
    | Some ls => Ret (filter (fun x => negb (mem x (concat ls))) (nodup eq_dec (ds_seql (m_ds m))))
    end.
  (* 418: reconstruct_all[~reconstruct_all.isin(reconstruct_)].dropna().  isin aligns the two
     frames on their labels and compares cell by cell; dropna removes a row as soon as one of
     its cells was masked *)
  Definition complement (all sub : frame) : frame :=
    filter (fun r => match dget sub (fst r) with
                     | None => true
                     | Some (t, e) => negb (t =? fst (snd r)) && negb (eqd e (snd (snd r)))
                     end) all.
  (* get_residuals 367-427 (411-414: KeyError on an empty frame; 420-424: both branches append) *)
  Definition get_residuals (m : miner) (ids : option (list Z)) (s : sort_mode) : outcome frame :=
    let ids := match ids with None => map Z.of_nat (List.seq 0 (length (m_patts m))) | Some l => l end in
    bind (uncovered m) (fun un =>
    bind (map_out (fun r => match nth_error (ds_events (m_ds m)) (snd r) with
                            | Some e => Ret (shown_time m (fst r), e)
                            | None => Exn KeyError
                            end) un) (fun rows =>
    match rows with
    | [] => Exn KeyError
    | _ =>
        bind (reconstruct m (Some ids) ByTime true) (fun sub =>
        bind (reconstruct m None ByTime true) (fun all =>
        Ret (sort_frame s (label (rows ++ map snd (complement all sub))))))
    end)).
End Cycles.
Arguments miner : clear implicits. Arguments frame : clear implicits.
