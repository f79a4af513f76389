(* Model of nest_cmplx (366-460) and run_combine_vertical (293-341) of skmine/periodic/run_mine.py:
   candidates of one kind whose starts are evenly spaced become one nested candidate.

   Costs are exact rationals.  For the candidate number i of the list, [cost i] stands for
   getCost() and [bare i] for getCostNoE(data_details) (None is nan, which makes every comparison
   of extract_cycles_fold false).  [trip i dp dE] and [cyc i p os] stand for cost_triple and
   computeLengthCycle with getEventTuple() of candidate i as the event, [small dE] for
   dE < bound_dE. *)
From Verif Require Import Prelude CheckModel LCMModel TextModel SplitModel ArrayModel PeriodModel TreeModel NestModel CoverModel FoldModel.
From Coq Require Import QArith.
Local Open Scope nat_scope.

(* the text "p1+p2_r2*r1", as the numbers p1, p2 and r1, r2 (in the order of line 115) *)
Definition prkey := (list Z * list nat)%type.
(* (t0, positions in the list of candidates) *)
Notation elem := (Z * list nat)%type.
Fixpoint idx_leb (a b : list nat) : bool :=                     (* Python's order of lists *)
  match a, b with
  | [], _ => true
  | _ :: _, [] => false
  | x :: a', y :: b' => (x <? y) || ((x =? y) && idx_leb a' b')
  end.
Definition elem_leb (a b : elem) : bool := ((fst a <? fst b)%Z || ((fst a =? fst b)%Z && idx_leb (snd a) (snd b)))%bool.

Section NestMine.
  Context {A : Type}.
  Variable cs : list (ccand A).
  Variable cost : nat -> Q.
  Variable bare : nat -> option Q.
  Variable trip : nat -> Z -> Z -> Q.
  Variable cyc : nat -> Z -> list Z -> Q.
  Variable small : Z -> bool.
  Variable sfuel : nat.

  (* 380-386 *)
  Definition key0 (c : ccand A) : prkey :=
    match cc_P c with
    | Patt t => (cycle_ps t, cycle_rs t)
    | Simple _ p => ([p], [length (cc_O c)])
    end.
  (* 387-389 *)
  Definition add_elem (m : dict prkey (list elem)) (k : prkey) (e : elem) : dict prkey (list elem) :=
    dset m k (match dget m k with Some l => l ++ [e] | None => [e] end).
  (* 378-389 *)
  Fixpoint init_map (i : nat) (l : list (ccand A)) (m : dict prkey (list elem)) : outcome (dict prkey (list elem)) :=
    match l with
    | [] => Ret m
    | c :: l' => bind (get_t0 c) (fun t0 => init_map (S i) l' (add_elem m (key0 c) (t0, [i])))
    end.
  (* 401-402 *)
  Definition sum_costs (e : elem) : Q := fold_right Qplus 0%Q (map cost (snd e)).
  (* 398-408: of two elements with the same start the cheaper one stays, the first if equal *)
  Fixpoint dedup_from (prev : elem) (l : list elem) : list elem :=
    match l with
    | [] => [prev]
    | e :: l' => if (fst e =? fst prev)%Z then dedup_from (if qlt (sum_costs e) (sum_costs prev) then e else prev) l'
                 else prev :: dedup_from e l'
    end.
  Definition dedup (l : list elem) : list elem := match l with [] => [] | e :: l' => dedup_from e l' end.
  (* 422-424, 433-435 *)
  Definition comb_kids (cpkids : list (list nat)) (pos : list nat) : outcome (list nat) :=
    bind (map_out (nth_out cpkids) pos) (fun l => Ret (concat l)).
  (* 410-417.  A class has more than two elements here, and every element has a candidate *)
  Definition fold_starts (es : list elem) : outcome (list FoldModel.chain * list triple) :=
    bind (nth_out es 0) (fun e0 => bind (nth_out (snd e0) 0) (fun i0 =>
    match bare i0 with
    | Some b => extract_fold (trip i0) (cyc i0) small sfuel (map fst es) (- b) (- b) None
    | None => Ret ([], [])
    end)).
  Definition child_key (p : Z) (r : nat) (k : prkey) : prkey := (p :: fst k, r :: snd k).
  (* 418-427; the element and the positions taken out of [store] *)
  Definition triple_elem (k : prkey) (es : list elem) (t : triple) : outcome (prkey * elem) :=
    bind (nth_out (tr_pos t) 0) (fun h => bind (nth_out (map fst es) h) (fun t0 =>
    bind (comb_kids (map snd es) (tr_pos t)) (fun kids => Ret (child_key (tr_p t) (length (tr_pos t)) k, (t0, kids))))).
  (* 429-439: computePeriod of the occurrences is ch_p (FoldModel.chains) *)
  Definition chain_elem (k : prkey) (es : list elem) (c : FoldModel.chain) : outcome (prkey * elem) :=
    bind (nth_out (ch_occs c) 0) (fun t0 =>
    bind (comb_kids (map snd es) (ch_pos c)) (fun kids => Ret (child_key (ch_p c) (length (ch_occs c)) k, (t0, kids)))).
  (* 441-444: (size, pr_key, t0, indices); eval of "r2*r1" is the product *)
  Definition kept := (nat * prkey * Z * list nat)%type.
  Definition to_keep (k : prkey) (u : list elem) (store : list nat) : outcome (list kept) :=
    map_out (fun i => bind (nth_out u i) (fun e => Ret (fold_right Nat.mul 1 (snd k), k, fst e, snd e))) store.
  (* 394-444, one class: the new elements, and what is kept of this one.  The positions of
     [store] count in [u], those of the chains and the triples in the sorted [es] *)
  Definition one_class (k : prkey) (u : list elem) : outcome (list (prkey * elem) * list kept) :=
    if 2 <? length u then
      let es := dedup (sort elem_leb u) in
      bind (fold_starts es) (fun ct =>
      bind (map_out (triple_elem k es) (snd ct)) (fun ts =>
      bind (map_out (chain_elem k es) (fst ct)) (fun chs =>
      let used := concat (map tr_pos (snd ct)) ++ concat (map ch_pos (fst ct)) in
      bind (to_keep k u (filter (fun i => negb (mem i used)) (List.seq 0 (length u)))) (fun ks => Ret (ts ++ chs, ks)))))
    else bind (to_keep k u (List.seq 0 (length u))) (fun ks => Ret ([], ks)).
  (* 390-444 *)
  Fixpoint rounds (fuel : nat) (m : dict prkey (list elem)) (keep : list kept) : outcome (list kept) :=
    match m with
    | [] => Ret keep
    | _ =>
        match fuel with
        | O => NoFuel
        | S f =>
            bind (map_out (fun ku => one_class (fst ku) (snd ku)) m) (fun rs =>
            rounds f (fold_left (fun m ke => add_elem m (fst ke) (snd ke)) (concat (map fst rs)) []) (keep ++ concat (map snd rs)))
        end
    end.

  (* 446-459: [l] is the sorted list reversed.  computeCost is left out: it changes nothing but the
     cost.  [nm] numbers the nodes (NestModel), for these parts and that many levels *)
  Variable nm : list (ccand A) -> nat -> nat -> nat.
  Fixpoint build (l : list kept) (covered : list nat) (prev : option nat) : outcome (list (ccand A * list nat)) :=
    match l with
    | [] => Ret []
    | (size, k, _, idxs) :: l' =>
        if (2 <? length (filter (fun i => negb (mem i covered)) (nodup eq_dec idxs))) || eqd (Some size) prev then
          bind (map_out (nth_out cs) idxs) (fun comps =>
          bind (prepare_nested (nm comps (length (fst k))) comps (fst k) (snd k)) (fun c =>
          bind (build l' (covered ++ idxs) (Some size)) (fun r => Ret ((c, idxs) :: r))))
        else build l' covered prev
    end.
  (* the order of the tuples (size, pr_key, t0, indices); the keys are compared as texts, by
     [text_leb] *)
  Variable text_leb : prkey -> prkey -> bool.
  Definition kept_leb (a b : kept) : bool :=
    let '(sa, ka, ta, ia) := a in let '(sb, kb, tb, ib) := b in
    ((sa <? sb) || ((sa =? sb) &&
      (if eqd ka kb then (ta <? tb)%Z || ((ta =? tb)%Z && idx_leb ia ib) else text_leb ka kb)))%bool.
  (* nest_cmplx 366-460: the nested candidates, each with the positions of its parts *)
  Definition nest_cmplx (fuel : nat) : outcome (list (ccand A * list nat)) :=
    bind (init_map 0 cs []) (fun m =>
    bind (rounds fuel m []) (fun keep =>
    build (rev (sort kept_leb keep)) [] None)).
End NestMine.

(* [cost] is what computeCost gives for a candidate; the candidates of the pool come with what their
   getCost() is.  The other costs (getCostNoE, and those of its events) are functions of the candidate *)
Section Vertical.
  Variable cost : ccand nat -> Q.
  Variable bare : ccand nat -> option Q.
  Variable trip : ccand nat -> Z -> Z -> Q.
  Variable cyc : ccand nat -> Z -> list Z -> Q.
  Variable small : Z -> bool.
  Variable nm : list (ccand nat) -> nat -> nat -> nat.
  Variable text_leb : prkey -> prkey -> bool.
  (* getEvOccs *)
  Definition ev_occs (c : ccand nat) : list occ :=
    combine (cc_O c) (match cc_P c with Patt t => events_minor t true | Simple e _ => repeat e (length (cc_O c)) end).
  Definition TOP_KEACH : Z := 5.                                                 (* 17 *)
  (* 316-317, 339-340: [candidates[s] for s in selected_ids] *)
  Definition pick (l : list (ccand nat)) : outcome (list (ccand nat)) :=
    map_out (nth_out l) (topk_each (combine (List.seq 0 (length l)) (map (fun c => (cost c, ev_occs c)) l)) TOP_KEACH).
  (* the candidate number i of the class *)
  Definition of_cand {B} (cs : list (ccand nat)) (f : ccand nat -> B) (d : B) (i : nat) : B :=
    match nth_error cs i with Some c => f c | None => d end.
  (* run_combine_vertical_cands 322-341.  The fuels are enough (PropNestMine) *)
  Definition vertical_cands (class : list (ccand nat * Q)) : outcome (list (ccand nat)) :=
    let cs := map fst class in
    bind (nest_cmplx cs (fun i => nth i (map snd class) 0%Q) (of_cand cs bare None) (of_cand cs trip (fun _ _ => 0%Q)) (of_cand cs cyc (fun _ _ => 0%Q))
                     small (length cs + 2) nm text_leb (length cs)) (fun nested =>
    match nested with [] => Ret [] | _ => pick (map fst nested) end).
  (* run_combine_vertical 293-319; [classes] are the candidates, with their costs, of each of
     getNewMinorKeys(nkey) *)
  Definition run_vertical (classes : list (list (ccand nat * Q))) : outcome (list (ccand nat)) :=
    bind (map_out vertical_cands (filter (fun cs => 3 <=? length cs) classes)) (fun rs =>
    match concat rs with [] => Ret [] | l => pick l end).
End Vertical.
