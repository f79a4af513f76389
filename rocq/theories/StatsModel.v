(* Model of the statistics of a pattern collection: skmine/periodic/pattern.py 1279-1363,
   pattern_collection.py 74-89, 110-128, 171-199 and 235-263, data_sequence.py 123-127. *)
From Coq Require Import Reals QArith Qreals String.
From Verif Require Import Prelude CheckModel LCMModel TextModel SplitModel PeriodModel TreeModel CyclesModel NestModel ExportModel CodeLengthModel.
Local Open Scope Z_scope.

(* getAlphabet 1279-1299 at the root: a set, here in the order of the leaves *)
Fixpoint alphabet_all {A} (t : tree A) : list A :=
  match t with Leaf _ e => [e] | Node _ _ _ ch => flat_map (fun cd => alphabet_all (fst cd)) ch end.
Definition alphabet {A} `{EqDec A} (t : tree A) : list A := nodup eq_dec (alphabet_all t).
(* isSimpleCycle 1301-1314, isNested 1316-1330, isConcat 1332-1346, at the root *)
Definition is_simple {A} (t : tree A) : bool := (tree_depth t =? 1)%nat && (tree_width t =? 1)%nat.
Definition is_nested {A} (t : tree A) : bool := (1 <? tree_depth t)%nat && (tree_width t =? 1)%nat.
Definition is_concat {A} (t : tree A) : bool := (tree_depth t =? 1)%nat && (1 <? tree_width t)%nat.
(* getTypeStr 1348-1363 *)
Definition type_str {A} (t : tree A) : text :=
  if is_simple t then lit "simple" else if is_nested t then lit "nested" else if is_concat t then lit "concat" else lit "other".

(* the counting loop of nbPatternsByType 85-88 and of getNbUncoveredOccsByEv 125-127 *)
Definition count_by {K} `{EqDec K} (l : list K) : dict K nat :=
  fold_left (fun d k => dset d k (match dget d k with Some n => n | None => O end + 1)%nat) l [].
(* nbPatternsByType 74-89 *)
Definition by_type (ps : list patt) : dict text nat := count_by (map (fun q => type_str (fst (fst q))) ps).
(* getNbUncoveredOccsByEv 110-128, given the set of the uncovered occurrences *)
Definition nb_uncovered (un : list (Z * nat)) : dict nat nat := count_by (map snd un).

(* 245-249 and 182-186: the number of residuals and their code length *)
Fixpoint residual_sums (d : details) (nbU : dict nat nat) : outcome (nat * R) :=
  match nbU with
  | [] => Ret (O, 0%R)
  | (ev, nb) :: l => bind (cost_one d ev) (fun c => bind (residual_sums d l) (fun s => Ret ((nb + fst s)%nat, (INR nb * c + snd s)%R)))
  end.
(* DataSequence.codeLengthResiduals, data_sequence.py 123-127 *)
Definition code_residuals {A} (ds : @dataseq A) : outcome R :=
  osum (map (fun p => bind (cost_one (details_of ds) (fst p)) (fun c => Ret (INR (length (snd p)) * c)%R)) (ds_seqd ds)).

Section Stats.
  Context {A : Type}.
  (* the sum of the code lengths of the patterns: output_pattern_list_and_cost 201-233 and
     strPatternListAndCost 157-169, of which only the sum is modelled here (the rows are modelled
     in ExportModel and CyclesModel) *)
  Definition patterns_length (m : miner A) : outcome R :=
    osum (map (fun q : patt => code_length (details_of (m_ds m)) (fst (fst q)) (snd (fst q)) (Some (snd q))) (m_patts m)).

  (* the values of the dictionary: whole numbers and floats (real numbers here) *)
  Inductive stat := Count (n : nat) | Num (x : R).
  (* output_detailed 235-263: global_stat_dict.  sorted(..., key=-count) is stable.  The covered
     occurrences are asked for (getOccLists, 203) before the code lengths: here after them, which
     changes the exception raised at most. *)
  Definition global_stats (m : miner A) : outcome (dict text stat) :=
    let d := details_of (m_ds m) in
    bind (patterns_length m) (fun cl =>
    let s0 := [(lit "Total patterns nb", Count (length (m_patts m)))] in
    let s1 := fold_left (fun s kv => dset s (fst kv) (Count (snd kv)))
                (sort (fun a b => (snd b <=? snd a)%nat) (by_type (m_patts m))) s0 in
    bind (uncovered m) (fun un =>
    bind (residual_sums d (nb_uncovered un)) (fun r =>
    let s2 := dset s1 (lit "Code length patterns") (Num cl) in
    let s3 := dset s2 (lit "Code length residuals") (Num (snd r)) in
    let s4 := dset s3 (lit "Total residual nb") (Count (fst r)) in
    bind (code_residuals (m_ds m)) (fun only =>
    Ret (if Rlt_dec 0 only then
           dset (dset (dset s4 (lit "Code length total") (Num (cl + snd r)%R))
                   (lit "Total compression ratio") (Num (100 * (cl + snd r) / only)%R))
             (lit "Code length residuals only") (Num only)
         else s4))))).

  (* strDetailed 171-199, of which the returned values are modelled and not the text, which is
     dropped: nbs['simple'] is a KeyError when no pattern is simple *)
  Definition str_detailed (m : miner A) : outcome (R * R * R * nat * nat * nat) :=
    let d := details_of (m_ds m) in
    bind (patterns_length m) (fun cl =>
    bind (uncovered m) (fun un =>
    bind (residual_sums d (nb_uncovered un)) (fun r =>
    bind (code_residuals (m_ds m)) (fun only =>
    match dget (by_type (m_patts m)) (lit "simple") with
    | None => Exn KeyError
    | Some n => Ret ((cl + snd r)%R, only, snd r, n, fst r, length (m_patts m))
    end)))).
End Stats.
