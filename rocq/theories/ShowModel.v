(* Model of the texts of periodic patterns: pattKey, pattMinorKey, pattMajorKey, __str__ and getTreeStr
   (skmine/periodic/pattern.py 850-1010), getMinorKey and getMajorKey (candidate.py 174-185), and of the
   table that PeriodicPatternMiner.transform returns (cycles.py 164-232, with output_pattern_list_and_cost,
   pattern_collection.py 199-233).

   Events are numbers; [name] is map_ev.get(e, e) as a text.  str() of a datetime.timedelta is the
   argument [span], a function of the number of nano-seconds.  The code lengths computed beside the
   table are left out (C83, C84), and so is the json column, which transform drops. *)
From Coq Require Import String Ascii NArith.
From Verif Require Import Prelude CheckModel LCMModel TextModel SplitModel ArrayModel PeriodModel TreeModel NestModel CyclesModel ExportModel.
Local Open Scope Z_scope.

(* the children of a node, one after the other, with a separator that shows the distance *)
Definition row_of {A} (sep : Z -> text) (show : tree A -> text) (ch : list (tree A * Z)) : text :=
  match ch with
  | [] => []
  | (c, _) :: l => show c ++ concat (map (fun cd => sep (snd cd) ++ show (fst cd)) l)
  end.

(* pattern.py 935-961, [pattKey] *)
Fixpoint patt_key (t : tree nat) : text :=
  match t with
  | Leaf _ e => dec e
  | Node _ r p ch =>
      lit "[" ++ dec r ++ lit "," ++ str_z p ++ lit "]" ++ lit "(" ++
      row_of (fun d => lit "-" ++ str_z d ++ lit "-") patt_key ch ++ lit ")"
  end.
(* 963-989, [pattMinorKey] *)
Definition patt_minor (t : tree nat) : text :=
  match t with
  | Leaf _ _ => []
  | Node _ _ _ ch => row_of (fun d => lit "-[" ++ str_z d ++ lit "]-") patt_key ch
  end.
(* 991-1010, [pattMajorKey] *)
Definition patt_major (t : tree nat) : text :=
  match t with
  | Leaf _ _ => lit "[]"
  | Node _ r p _ => lit "[" ++ dec r ++ lit "," ++ str_z p ++ lit "]"
  end.
(* candidate.py 174-178, [getMinorKey]: a number for a simple candidate *)
Definition minor_key (c : ccand nat) : nat + text :=
  match cc_P c with Simple e _ => inl e | Patt t => inr (patt_minor t) end.
(* 180-185, [getMajorKey], without t0 *)
Definition major_key (c : ccand nat) : text :=
  match cc_P c with
  | Simple _ p => lit "[" ++ dec (length (cc_O c)) ++ lit "," ++ str_z p ++ lit "]"
  | Patt t => patt_major t
  end.

Section Show.
  Variable name : nat -> text.
  Variable span : Z -> text.
  (* pattern.py 886-933, [__str__]; the time shown for periods and distances *)
  Definition time_text (datetime : bool) (n : nat) (div : Z) (p : Z) : text :=
    if datetime then span (p * (10 ^ Z.of_nat n * div)) else str_z p.
  Fixpoint patt_str (leaves_first datetime : bool) (n : nat) (div : Z) (t : tree nat) : text :=
    match t with
    | Leaf _ e => name e
    | Node _ r p ch =>
        let ss := lit "[r=" ++ dec r ++ lit " p=" ++ time_text datetime n div p ++ lit "]" in
        let sc := row_of (fun d => lit " [d=" ++ time_text datetime n div d ++ lit "] ") (patt_str leaves_first datetime n div) ch in
        if leaves_first then lit "(" ++ sc ++ lit ")" ++ ss else ss ++ lit "(" ++ sc ++ lit ")"
    end.
  (* 850-884, [getTreeStr]: the recursive call does not pass map_ev on *)
  Definition tabs (level : nat) : text := repeat 9%N level.
  Fixpoint tree_str (level : nat) (names : bool) (t : tree nat) : text :=
    match t with
    | Leaf n e => tabs level ++ lit "|_ [" ++ dec n ++ lit "] " ++ (if names then name e else dec e) ++ [nl]
    | Node n r p ch =>
        tabs level ++ lit "|_ [" ++ dec n ++ lit "] r=" ++ dec r ++ lit " p=" ++ str_z p ++ [nl] ++
        concat (map (fun cd => tabs (S level) ++ lit "| d=" ++ str_z (snd cd) ++ [nl] ++ tree_str (S level) false (fst cd)) ch)
    end.

  (* cycles.py 164-232, [transform] *)
  Inductive column := SumE (z : Z) | ListE (l : list Z).
  Record shown := { w_t0 : Z; w_text : text; w_rep : nat; w_period : Z; w_E : column }.
  (* pattern_collection.py 223-227, then cycles.py 212-225 *)
  Definition shown_row (auto datetime : bool) (n : nat) (div : Z) (dE_sum : bool) (p : patt) : outcome shown :=
    let '(t, t0, E) := p in
    match t with
    | Leaf _ _ => Exn IndexError                        (* pattMajorKey_list()[0] *)
    | Node _ r per _ =>
        let k := 10 ^ Z.of_nat n * div in
        let E := if auto && datetime then map (fun e => e * k) E else E in
        Ret {| w_t0 := if auto then t0 * k else t0;
               w_text := patt_str true datetime n div t;
               w_rep := r;
               w_period := if auto then per * k else per;
               w_E := if dE_sum then SumE (fold_right Z.add 0 (map Z.abs E)) else ListE E |}
    end.
  (* sort_values(by='t0').  The miner is one that has been fitted once: n_zeros_ is there only with
     auto_time_scale (136-146) *)
  Variable sort_t0 : list shown -> list shown.
  Definition transform {A} (m : miner A) (datetime dE_sum chronological : bool) : outcome (list shown) :=
    if m_auto m then
      bind (map_out (shown_row (m_auto m) datetime (m_n m) (m_div m) dE_sum) (m_patts m)) (fun rows =>
      match rows with
      | [] => Ret []                                       (* 207-208 *)
      | _ => Ret (if chronological then sort_t0 rows else rows)
      end)
    else Exn AttributeError.                               (* 203: n_zeros_ *)
End Show.
