(* Model of mine_seqs of skmine/periodic/run_mine.py with complex=True (813-987): the rounds in which
   candidates of the pool are nested and joined, and what is selected at the end.

   Costs are exact rationals: [cost c] is computeCost(data_details) of a candidate, always a number
   here (C84 says when it is).  The timings and counts collected in "results" are left out. *)
From Verif Require Import Prelude CheckModel LCMModel SplitModel PeriodModel TreeModel NestModel SegModel CoverModel PoolModel CyclesModel FoldModel MineModel NestMineModel HorizontalModel.
From Coq Require Import QArith.
Local Open Scope nat_scope.

(* ------------------------------------------------------------ candidates *)
(* a subtree as pattKey shows it (pattern.py 935-961): without the node ids.  The text also leaves
   out the distance of a first child; it is 0 in every pattern built here (PropComplex) *)
Fixpoint bare_tree (t : tree nat) : tree nat :=
  match t with Leaf _ e => Leaf 0 e | Node _ r p ch => Node 0 r p (map (fun cd => (bare_tree (fst cd), snd cd)) ch) end.
(* getMinorKey (candidate.py 174-178, pattern.py 963-989): a number for a simple candidate, a text
   for a pattern, represented by what it shows *)
Definition minor_of (c : ccand nat) : minor :=
  match cc_P c with
  | Simple e _ => inl e
  | Patt (Node _ _ _ ch) => inr (map (fun cd => (bare_tree (fst cd), snd cd)) ch)
  | Patt (Leaf _ _) => inr []
  end.
(* getMajorKey 180-185 (pattern.py 991-1010), getMajorP 187-191 *)
Definition major_rp (c : ccand nat) : nat * Z :=
  match cc_P c with
  | Simple _ p => (length (cc_O c), p)
  | Patt (Node _ r p _) => (r, p)
  | Patt (Leaf _ _) => (0, 0%Z)
  end.
(* isComplex 92-93 *)
Definition is_complex (c : ccand nat) : bool :=
  match cc_P c with Patt t => (1 <? tree_depth t) || (1 <? tree_width t) | Simple _ _ => false end.
(* l[::n]; a step of 0 is a ValueError *)
Definition stride (n : nat) (l : list Z) : outcome (list Z) :=
  match n with
  | O => Exn ValueError
  | S _ => Ret (map (fun k => nth (k * n) l 0%Z) (List.seq 0 ((length l + n - 1) / n)))
  end.
(* getMajorOccs (pattern.py 1071-1091) *)
Definition major_occs (c : ccand nat) (l : list Z) : outcome (list Z) :=
  if is_complex c then stride (length l / fst (major_rp c)) l else Ret l.
(* what addCand reads of a candidate: getMajorO, getMajorE 199-209 *)
Definition complex_cand (cost : Q) (c : ccand nat) : outcome scand :=
  bind (get_t0 c) (fun t0 =>
  bind (major_occs c (cc_O c)) (fun os =>
  bind (if is_complex c then bind (major_occs c (0%Z :: cc_E c)) (fun l => Ret (tl l)) else Ret (cc_E c)) (fun es =>
  Ret {| c_minor := minor_of c; c_major := (t0, major_rp c); c_cost := Some cost; c_nb := Z.of_nat (nb_of c);
         c_p := snd (major_rp c); c_r := Z.of_nat (major_r c); c_occs := os; c_errs := es; c_body := c |}))).

(* ------------------------------------------------------------ the pool *)
(* nbNewCandidates (candidate_pool.py 80-83) *)
Definition nb_new (P : spool) (nk : nkey) : nat :=
  match nk with
  | None => list_sum (map (fun kv => length (snd kv)) (p_new_cids P))
  | Some _ => length (dget_or (p_new_cids P) nk [])
  end.
Definition get_cand (P : spool) (cid : nat) : outcome scand :=
  match dget (p_cands P) cid with Some c => Ret c | None => Exn KeyError end.
(* getCost() is None for no candidate of the pool (PropComplex) *)
Definition known_cost (P : spool) (cid : nat) : option Q :=
  match dget (p_cands P) cid with Some c => c_cost c | None => None end.
(* getCidsForMinorK 62-63 and getCandidate: the candidates under a minor key, with their costs *)
Definition class_of (P : spool) (mk : minor) : outcome (list (ccand nat * Q)) :=
  map_out (fun cid => bind (get_cand P cid) (fun c =>
             match c_cost c with Some q => Ret (c_body c, q) | None => Exn TypeError end))
          (map snd (dget_or (p_map P) mk [])).
(* addCands with an exception passed on *)
Definition added (r : spool * outcome unit) : outcome spool :=
  match r with
  | (P, Ret _) => Ret P
  | (_, Exn e) => Exn e
  | (_, NoFuel) => NoFuel
  end.

Section Complex.
  Context {A : Type} `{EqDec A}.
  (* MineModel *)
  Variable cyc : nat -> Z -> list Z -> Q.
  Variable trip : nat -> Z -> Z -> Q.
  Variable one : nat -> Q.
  Variable cost : ccand nat -> Q.
  (* NestMineModel *)
  Variable bare : ccand nat -> option Q.
  Variable ntrip : ccand nat -> Z -> Z -> Q.
  Variable ncyc : ccand nat -> Z -> list Z -> Q.
  Variable nm : list (ccand nat) -> nat -> nat -> nat.
  Variable text_leb : prkey -> prkey -> bool.
  (* HorizontalModel *)
  Variable nms : list (ccand nat) -> nat -> nat -> nat.
  Variable text_lt : list nat -> list nat -> bool.
  Variable iter : list nat -> list nat.
  (* the order in which a set of minor keys is iterated over *)
  Variable key_iter : list minor -> list minor.

  (* run_combine_vertical 293-319 on the pool *)
  Definition vertical (small : Z -> bool) (P : spool) (nk : nkey) : outcome (list (ccand nat)) :=
    bind (map_out (class_of P) (key_iter (dget_or (p_new_minor P) nk []))) (fun classes =>
    run_vertical cost bare ntrip ncyc small nm text_leb classes).
  (* run_combine_horizontal 489-674 on the pool.  getSortedPids sorts the rows if that was not done
     (candidate_pool.py 57-60): len(None) is a TypeError *)
  Definition horizontal (dc : dict nat Q) (P : spool) (nk : nkey) : outcome (list (ccand nat)) :=
    if nb_new P nk =? 0 then Ret []
    else match p_rows P, p_sorted P with
         | Some rows, PList l =>
             run_horizontal rows (map (fun ic => (fst ic, c_body (snd ic))) (p_cands P)) (known_cost P) (fun c => Some (cost c)) dc
               (index_of (p_nkeys P) nk) nms text_lt iter (S (length l)) true l
         | _, _ => Exn TypeError
         end.
  (* 888-905; addCand reads all of a candidate before the next one is added, here all are read first *)
  Definition combine_round (small : Z -> bool) (dc : dict nat Q) (i : nat) (nkV nkH : nkey) (P : spool) : outcome spool :=
    bind (vertical small P nkH) (fun vs =>
    bind (horizontal dc P nkV) (fun hs =>
    bind (map_out (fun c => complex_cand (cost c) c) vs) (fun cvs =>
    bind (map_out (fun c => complex_cand (cost c) c) hs) (fun chs =>
    bind (added (add_cands (reset_new P) cvs (Some (true, i)) None)) (fun P1 =>
    added (add_cands P1 chs (Some (false, i)) None)))))).
  (* 887-922; [i] is roundi + 1 *)
  Fixpoint combine_rounds (small : Z -> bool) (dc : dict nat Q) (fuel i : nat) (nkV nkH : nkey) (P : spool) : outcome spool :=
    if nb_new P None =? 0 then Ret P
    else match fuel with
         | O => NoFuel
         | S f => bind (combine_round small dc i nkV nkH P) (fun P' => combine_rounds small dc f (S i) (Some (true, i)) (Some (false, i)) P')
         end.
  (* a candidate of the pool as the selection sees it *)
  Definition complex_entry (ic : nat * scand) : entry :=
    (fst ic, (match c_cost (snd ic) with Some q => q | None => 0%Q end, ev_occs (c_body (snd ic)))).
  (* getPattT0E and preparePatternSimple (candidate.py 66-80) *)
  Definition complex_patt (c : ccand nat) : outcome patt :=
    bind (get_t0 c) (fun t0 =>
    Ret (match cc_P c with Patt t => t | Simple e p => simple_tree e (length (cc_O c)) p end, t0, cc_E c)).
  (* mine_seqs 813-987 with complex=True: the candidates, those selected and their patterns *)
  Definition mine_complex (sfuel rfuel : nat) (ds : @dataseq A) : outcome (dict nat scand * list nat * list patt) :=
    bind (fill cyc trip one sfuel ds (List.seq 0 (length (ds_events ds))) empty_pool) (fun P0 =>
    bind (combine_rounds (small_of (ds_end ds - ds_start ds)) (dcosts one ds) rfuel 1 None None P0) (fun P =>
    bind (filter_cover (map complex_entry (p_cands P)) (dcosts one ds) 3) (fun sel =>
    bind (map_out (fun i => bind (get_cand P i) (fun c => complex_patt (c_body c))) sel) (fun ps =>
    Ret (p_cands P, sel, ps))))).
End Complex.
