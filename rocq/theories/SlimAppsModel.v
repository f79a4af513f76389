(* Model of SLIM.get_support with its cache (skmine/itemsets/slim.py 588-604),
   skmine/itemsets/slim_classifier.py and skmine/feature_extraction/slim_vectorizer.py. *)
From Verif Require Import Prelude CheckModel LCMModel SlimModel.
From Coq Require Import QArith.
Local Open Scope nat_scope.

Section Support.
  Context {A : Type} `{EqDec A}.
  (* slim.py 588: lru_cache keyed by the argument tuple; here by the reversed tuple *)
  Definition cache := list (list A * list nat).
  Fixpoint cached (c : cache) (k : list A) : option (list nat) :=
    match c with
    | [] => None
    | (k', v) :: t => if eqd k k' then Some v else cached t k
    end.
  (* what the cache keeps when an entry is added: any policy *)
  Context (shrink : cache -> cache).
  (* slim.py 588-604.  [r] is the argument tuple reversed (items[-1] first).
     get_support() with no argument raises IndexError, an unknown item KeyError. *)
  Fixpoint get_support (std : dict A (list nat)) (r : list A) (c : cache) : outcome (list nat * cache) :=
    match cached c r with
    | Some v => Ret (v, c)
    | None =>
        match r with
        | [] => Exn IndexError
        | a :: rest =>
            match dget std a with
            | None => Exn KeyError
            | Some tids =>
                match rest with
                | [] => Ret (tids, shrink ((r, tids) :: c))
                | _ => bind (get_support std rest c) (fun vc =>
                         let w := inter tids (fst vc) in Ret (w, shrink ((r, w) :: snd vc)))
                end
            end
        end
    end.

  (* One object over time.  [Fit D qs] is fit(D): prefit asks the support of every
     item (slim.py 661, key of the SortedDict), then the search asks for [qs].
     A query that raises leaves the cache as it was. *)
  Inductive op := Fit (D : list (list A)) (qs : list (list A)) | Query (items : list A).
  Fixpoint ask_all (std : dict A (list nat)) (qs : list (list A)) (c : cache) : cache :=
    match qs with
    | [] => c
    | q :: t => match get_support std (rev q) c with
                | Ret (_, c') => ask_all std t c'
                | _ => ask_all std t c
                end
    end.
  Fixpoint history (ops : list op) (std : dict A (list nat)) (c : cache) : list (outcome (list nat)) :=
    match ops with
    | [] => []
    | Fit D qs :: t =>
        let std' := sort more_frequent (vertical D) in
        history t std' (ask_all std' (map (fun x => [x]) (dkeys std') ++ qs) c)
    | Query items :: t =>
        match get_support std (rev items) c with
        | Ret (v, c') => Ret v :: history t std c'
        | Exn e => Exn e :: history t std c
        | NoFuel => NoFuel :: history t std c
        end
    end.
End Support.
Arguments op : clear implicits.

Section Classifier.
  Context {A L : Type} `{EqDec L} (leL : L -> L -> bool).
  (* np.unique: sorted distinct labels *)
  Fixpoint dedup (l : list L) : list L :=
    match l with [] => [] | x :: t => if mem x t then dedup t else x :: dedup t end.
  Definition np_unique (y : list L) : list L := sort leL (dedup y).

  Record model_args := { m_pruning : bool; m_data : list (list A) }.
  (* slim_classifier.py 65-75; [SLIM(items=self.items)] leaves pruning at its
     default, True (slim.py 135), whatever self.pruning is *)
  Definition classifier_fit (pruning : bool) (X : list (list A)) (y : list L) : list (L * model_args) :=
    map (fun c => (c, {| m_pruning := true;
                         m_data := map fst (filter (fun p => eqd (snd p) c) (combine X y)) |}))
        (np_unique y).

  (* numpy argmax along a row: the first maximal entry *)
  Context {S : Type} (slt : S -> S -> bool).
  Fixpoint argmax_from (i best : nat) (b : S) (row : list S) : nat :=
    match row with
    | [] => best
    | x :: t => if slt b x then argmax_from (Datatypes.S i) i x t else argmax_from (Datatypes.S i) best b t
    end.
  Definition argmax (row : list S) : nat :=
    match row with [] => 0 | x :: t => argmax_from 1 0 x t end.
  (* slim_classifier.py 91-94.  [scores] holds, per model, decision_function(X).values;
     np.vstack([]) and rows of different lengths raise ValueError *)
  Definition classifier_predict (d : S) (classes : list L) (scores : list (list S)) (n : nat)
    : outcome (list L) :=
    match classes, scores with
    | c0 :: _, _ :: _ =>
        if forallb (fun s => length s =? n) scores
        then Ret (map (fun i => nth (argmax (map (fun s => nth i s d) scores)) classes c0) (seq 0 n))
        else Exn ValueError
    | _, _ => Exn ValueError
    end.
End Classifier.

Section Vectorizer.
  Context {A T : Type} `{EqDec A} (leA : A -> A -> bool).
  Inductive strategy := Codes | OneHot.

  (* slim.py 28-39 with stop_items and return_len; [idx] is 0 before the loop *)
  Definition to_vertical (D : list (list A)) (stop : list A) : dict A (list nat) * nat :=
    (vertical (map (filter (fun e => negb (mem e stop))) D),
     match D with [] => 1 | _ => length D end).

  (* a float cell: None is NaN *)
  Definition cell := option Q.
  (* slim_vectorizer.py 104-122 *)
  Definition vectorize (strat : strategy) (k : nat) (stop : list A) (st : slim A T) (D : list (list A))
    : option (list (list A) * list (list cell)) :=
    let '(dsct, len) := to_vertical D stop in
    let rows := map (fun p => (fst p, length (snd p))) (slim_transform leA true true false st) in
    let lengths := filter (fun p => subset (fst p) (dkeys dsct)) rows in          (* 107-108 *)
    let isets := firstn k (sort (fun a b => snd b <=? snd a) lengths) in          (* 110, keep='first' *)
    match cover dsct (map fst isets) with
    | None => None
    | Some (covers, _) =>
        let tot := list_sum (map snd lengths) in
        let value (p : list A * list nat) (i : nat) : cell :=
          let one := if mem i (snd p) then 1%Q else 0%Q in
          match strat with
          | OneHot => Some one
          | Codes => if tot =? 0 then None                                          (* 0/0 is NaN *)
                     else Some (one * (Z.of_nat (match kget isets (fst p) with Some u => u | None => 0 end)
                                       # Pos.of_nat tot))%Q
          end in
        Some (map fst covers, map (fun i => map (fun p => value p i) covers) (seq 0 len))
    end.
  (* slim_vectorizer.py 82-85: with stop_items, fit passes a generator to SLIM.fit,
     whose X.shape (slim.py 168) raises AttributeError *)
  Definition vectorizer_fit {R} (stop : option (list A)) (slim_fit : outcome R) : outcome R :=
    match stop with Some _ => Exn AttributeError | None => slim_fit end.
End Vectorizer.
