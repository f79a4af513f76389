(* Model of the code lengths of periodic patterns: skmine/periodic/class_patterns.py 93-249,
   pattern.py 38-52, 372-400, 642-713 and 1365-1694, pattern_collection.py 115-155, over the real
   numbers of the standard library (the code uses floats). *)
From Coq Require Import Reals QArith Qreals.
From Verif Require Import Prelude CheckModel LCMModel TextModel SplitModel PeriodModel TreeModel CyclesModel.
Local Open Scope Z_scope.

(* numpy.log2.  Where numpy gives nan or -inf and a RuntimeWarning the model stops with a
   ValueError: no number comes out. *)
Definition np_log2 (x : R) : outcome R := if Rlt_dec 0 x then Ret (ln x / ln 2)%R else Exn ValueError.
Definition np_log2z (x : Z) : outcome R := np_log2 (IZR x).

(* DataSequence.data_details (data_sequence.py 74-83): the counts of the events, t_start, t_end *)
Record details := { d_counts : list (nat * Z); d_start : Z; d_end : Z }.
Definition delta_t (d : details) : Z := d_end d - d_start d.
Definition details_of {A} (ds : @dataseq A) : details := {| d_counts := ds_counts ds; d_start := ds_start ds; d_end := ds_end ds |}.
Definition org_freq (d : details) (a : nat) : option Q := dget (org_freqs (d_counts d)) a.
Definition adj_freq (d : details) (a : nat) : option Q := dget (adj_freqs (d_counts d)) a.

(* cost_one 127-155; a key that is not an event gives 0 for the event *)
Definition cost_one (d : details) (a : nat) : outcome R :=
  bind (match org_freq d a with Some f => bind (np_log2 (Q2R f)) (fun x => Ret (- x)%R) | None => Ret 0%R end) (fun cl =>
  bind (np_log2z (delta_t d + 1)) (fun x => Ret (cl + x)%R)).
(* makeOccsAndFreqsThird 325: "blck_delim" *)
Definition blck_delim : outcome R := bind (np_log2 (1 / 3)) (fun a => bind (np_log2 (1 / 3)) (fun b => Ret (- (a + b))%R)).
(* 111-113, 211-214: the event and the number of repetitions of a cycle of one event.  The other
   branch, for a tuple of events, is reached from nest_cmplx only (run_mine.py 413) and is not
   modelled here: NestMineModel takes the two costs it needs as parameters. *)
Definition cl_alpha (d : details) (a : nat) : outcome R :=
  match adj_freq d a, dget (d_counts d) a with
  | Some f, Some _ => bind (np_log2 (Q2R f)) (fun x => bind blck_delim (fun b => Ret (- x + b)%R))
  | _, _ => Exn TypeError
  end.
Definition cl_r (d : details) (a : nat) : outcome R :=
  match dget (d_counts d) a with Some n => np_log2z n | None => Exn TypeError end.
(* cost_triple 93-125 (OPT_TO is True); numpy.floor of a half is the integer division *)
Definition cost_triple (d : details) (a : nat) (dp dE : Z) : outcome R :=
  bind (cl_alpha d a) (fun x => bind (cl_r d a) (fun y =>
  bind (np_log2z (delta_t d - dE - 2 * dp + 1)) (fun t0 =>
  bind (np_log2z ((delta_t d - dE) / 2)) (fun p => Ret (x + y + t0 + p + 4 + IZR (Z.abs dE))%R)))).
(* computeLengthEOccs 157-176, codeLengthE pattern.py 38-52 *)
Definition length_E (E : list Z) : Z := fold_right Z.add 0 (map (fun e => 2 + Z.abs e) E).
(* computeLengthCycle 179-234 with the period given; [no_err] leaves the corrections out *)
Definition length_cycle (d : details) (a : nat) (p : Z) (occs : list Z) (no_err : bool) : outcome R :=
  let E := if no_err then 0 else length_E (compute_E occs p) in
  let dE := if no_err then 0 else fold_right Z.add 0 (compute_E occs p) in
  let r1 := Z.of_nat (length occs) - 1 in
  bind (cl_alpha d a) (fun x => bind (cl_r d a) (fun y =>
  bind (if r1 =? 0 then Exn ValueError else np_log2z ((delta_t d - dE) / r1)) (fun cp =>
  bind (if delta_t d - dE - p * r1 + 1 <=? 0 then Ret 0%R else np_log2z (delta_t d - dE - p * r1 + 1)) (fun t0 =>
  Ret (x + y + cp + t0 + IZR E)%R)))).
(* computeLengthResidual 236-254 *)
Definition length_residual (d : details) (a : nat) (occs : list Z) : outcome R :=
  bind (cost_one d a) (fun c => Ret (INR (length occs) * c)%R).

(* ------------------------------------------------------------ pattern trees *)
Section Lengths.
  Variable d : details.
  Fixpoint osum (l : list (outcome R)) : outcome R :=
    match l with
    | [] => Ret 0%R
    | x :: l' => bind x (fun a => bind (osum l') (fun b => Ret (a + b)%R))
    end.
  (* codeLengthEvents 1365-1378 *)
  Fixpoint code_events (t : tree nat) : outcome R :=
    match t with
    | Leaf _ e => match adj_freq d e with Some f => bind (np_log2 (Q2R f)) (fun x => Ret (- x)%R) | None => Exn KeyError end
    | Node _ _ _ ch => bind blck_delim (fun b => bind (osum (map (fun cd => code_events (fst cd)) ch)) (fun s => Ret (b + s)%R))
    end.
  (* getMinOccs 1380-1415: the minimum of the block and the minima of the blocks inside, in the
     order in which they are appended; numpy.min of nothing is a ValueError *)
  Fixpoint all_out {B} (l : list (outcome B)) : outcome (list B) :=
    match l with
    | [] => Ret []
    | x :: l' => bind x (fun a => bind (all_out l') (fun b => Ret (a :: b)))
    end.
  Fixpoint min_occs (t : tree nat) : outcome (Z * list Z) :=
    match t with
    | Leaf _ e => match dget (d_counts d) e with Some n => Ret (n, []) | None => Exn KeyError end
    | Node _ _ _ ch =>
        bind (all_out (map (fun cd => min_occs (fst cd)) ch)) (fun l =>
        match l with
        | [] => Exn ValueError
        | (m, _) :: l' => let min_r := fold_right Z.min m (map fst l') in Ret (min_r, concat (map snd l) ++ [min_r])
        end)
    end.
  (* codeLengthR 1442-1462 *)
  Definition code_R (t : tree nat) : outcome R := bind (min_occs t) (fun ml => osum (map np_log2z (snd ml))).
  (* codeLengthPTop 1485-1507, codeLengthT0 1509-1537; the guard of line 1534 is never true, since
     EC_za was set to 0 before *)
  Definition code_PTop (r : nat) (EC_za : Z) : outcome R :=
    if (r =? 1)%nat then Exn ValueError else np_log2z ((delta_t d - EC_za) / (Z.of_nat r - 1)).
  Definition code_T0 (r : nat) (p EC_za : Z) : outcome R := np_log2z (delta_t d - EC_za - p * (Z.of_nat r - 1) + 1).
  (* hasNestedPDs 1539-1557 *)
  Definition has_nested (t : tree nat) : bool :=
    match children t with
    | [] => false
    | [(Leaf _ _, _)] => false
    | _ => true
    end.
  (* codeLengthPDs 1559-1626 with allow_interleaving.  Line 1597 enters the interactive debugger:
     an AssertionError here.  One repetition divides by zero there. *)
  Fixpoint code_PDs (t : tree nat) (Tmax : Z) (rep : bool) : outcome R :=
    match t with
    | Leaf _ _ => Ret 0%R
    | Node n r p ch =>
        let Tmax_rep := if rep then Tmax else Tmax - Z.of_nat r + 1 in
        let Tm := if rep then Tmax_rep + Z.of_nat r - 1 else Tmax in
        bind (if (0 <? n)%nat && (0 <? r)%nat then
                if (r =? 1)%nat then Exn ValueError
                else if Tm <? p * (Z.of_nat r - 1) then Exn AssertionError
                else np_log2z (Tm / (Z.of_nat r - 1))
              else Ret 0%R) (fun clp =>
        bind (if (1 <? length ch)%nat then bind (np_log2z (Tmax_rep + 1)) (fun x => Ret (INR (length ch - 1) * x)%R) else Ret 0%R) (fun cld =>
        bind ((fix kids (first : bool) (cum : Z) (l : list (tree nat * Z)) : outcome R :=
                 match l with
                 | [] => Ret 0%R
                 | (c, ds) :: l' =>
                     let cum' := if first then cum else cum + ds in
                     bind (code_PDs c (Tmax_rep - cum') false) (fun x => bind (kids false cum' l') (fun y => Ret (x + y)%R))
                 end) true 0 ch) (fun s => Ret (clp + cld + s)%R)))
    end.
  (* getNidsRightmostLeaves 372-400 and, for each, getKeyFromNid(_, -1) 642-713: the keys of the
     leaves that are the last child of their parent, in the last repetition of every block *)
  Fixpoint last_keys (t : tree nat) (rightmost : bool) (pref : position) : list position :=
    match t with
    | Leaf _ _ => if rightmost then [rev pref] else []
    | Node _ r _ ch =>
        (fix kids (ni : nat) (l : list (tree nat * Z)) : list position :=
           match l with
           | [] => []
           | (c, _) :: l' => last_keys c (match l' with [] => true | _ => false end) ((Z.of_nat ni, Z.of_nat r - 1) :: pref) ++ kids (S ni) l'
           end) O ch
    end.
  Definition out_opt {B} (e : exn) (o : option B) : outcome B := match o with Some x => Ret x | None => Exn e end.
  Definition zmin_list (l : list Z) : outcome Z := match l with [] => Exn ValueError | x :: l' => Ret (fold_right Z.min x l') end.
  Definition zmax_list (l : list Z) : outcome Z := match l with [] => Exn ValueError | x :: l' => Ret (fold_right Z.max x l') end.
  (* codeLength 1628-1694 with allow_interleaving and transmit_Tmax, at the root.  EC_zz of line
     1666 is overwritten in line 1677 and left out.  The times of occsStar start at t0 in the
     code; only differences are used. *)
  Definition code_length (t : tree nat) (t0 : Z) (E : option (list Z)) : outcome R :=
    match t with
    | Leaf _ _ => Exn KeyError
    | Node n r p ch =>
        let oStar := occs_star t in
        bind (out_opt KeyError (leaf_key t [(-1, Z.of_nat r - 1)])) (fun o_za =>
        let corr := match E with
                    | Some e => fun k => out_opt KeyError (get_ccorr t k (get_EDict oStar e))
                    | None => fun _ => Ret 0
                    end in
        bind (corr o_za) (fun EC_za =>
        let clE := match E with Some e => length_E e | None => 0 end in
        bind (code_events t) (fun clEv =>
        bind (code_R t) (fun clRs =>
        bind (code_PTop r EC_za) (fun clP0 =>
        bind (code_T0 r p EC_za) (fun clT0 =>
        bind (if has_nested t then
                bind (match E with
                      | Some _ => bind (all_out (map (fun k => corr (l_to_key k)) (last_keys t true []))) zmin_list
                      | None => Ret 0
                      end) (fun EC_zz =>
                let Tmax_rep := d_end d - t0 - p * (Z.of_nat r - 1) - EC_zz in
                bind (zmax_list (map (fun o => fst (fst o)) oStar)) (fun last =>
                bind (out_opt KeyError (dget (dict_of (map (fun o => (snd o, fst (fst o))) oStar)) o_za)) (fun tza =>
                bind (code_PDs t (last - tza) true) (fun clPDs =>
                let Tr := match E with None => if Tmax_rep <? 0 then 0 else Tmax_rep | Some _ => Tmax_rep end in
                bind (np_log2z (Tr + 1)) (fun x => Ret (clPDs + x)%R)))))
              else Ret 0%R) (fun clPDs =>
        Ret (clEv + clRs + clP0 + clT0 + clPDs + IZR clE)%R)))))))
    end.
  (* PatternCollection.codeLength, pattern_collection.py 145-153: the patterns and the occurrences
     they leave uncovered (getUncoveredOccs 80-96 is modelled in CyclesModel); nb * cost_one event
     by event is the sum over the occurrences *)
  Definition code_collection (ps : list patt) (uncovered : list (Z * nat)) : outcome R :=
    bind (osum (map (fun q => code_length (fst (fst q)) (snd (fst q)) (Some (snd q))) ps)) (fun a =>
    bind (osum (map (fun o => cost_one d (snd o)) uncovered)) (fun b => Ret (a + b)%R)).
End Lengths.
