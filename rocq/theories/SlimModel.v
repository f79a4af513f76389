(* Model of skmine/itemsets/slim.py.

   An itemset (frozenset) is a duplicate-free list of items; two itemsets are
   equal when they have the same elements ([seteq]).  A code table is a list of
   (itemset, tids) pairs in iteration order.

   Parameters (universally quantified in the theorems, nothing assumed of them):
   - [ord]     the standard cover order, slim.py 606-612 (any boolean relation)
   - [iter]    the iteration order of Python sets (a function on lists)
   - [reorder] the iteration order of SortedDict(self.codetable_.items()), 292
   - [total]   L(D|CT) + L(CT|D) computed from the used part of a table, 705-732
   - [tlt]     [<] on totals;  [gain]/[gpos]/[gge] the gain estimate, 311-369
   - [late]    whether max_time is exceeded after n rounds, 190 *)
From Verif Require Import Prelude CheckModel LCMModel.

Section Keyed.
  Context {A V : Type} `{EqDec A}.
  Definition ktable := list (list A * V).
  (* dictionaries keyed by frozensets *)
  Fixpoint kget (d : ktable) (k : list A) : option V :=
    match d with
    | [] => None
    | (k', v) :: t => if seteq k k' then Some v else kget t k
    end.
  Fixpoint kset (d : ktable) (k : list A) (v : V) : ktable :=
    match d with
    | [] => [(k, v)]
    | (k', v') :: t => if seteq k k' then (k', v) :: t else (k', v') :: kset t k v
    end.
  Definition kdel (d : ktable) (k : list A) : ktable := filter (fun p => negb (seteq k (fst p))) d.
  Definition kupdate (d e : ktable) : ktable := fold_left (fun d p => kset d (fst p) (snd p)) e d.
  Definition kmem (l : list (list A)) (k : list A) : bool := existsb (seteq k) l.
  (* SortedDict.__setitem__: overwrite, or insert at the position given by ord *)
  Context (ord : list A -> list A -> bool).
  Fixpoint kinsert (d : ktable) (k : list A) (v : V) : ktable :=
    match d with
    | [] => [(k, v)]
    | (k', v') :: t => if ord k' k then (k', v') :: kinsert t k v else (k, v) :: d
    end.
  Definition kput (d : ktable) (k : list A) (v : V) : ktable :=
    if kmem (map fst d) k then kset d k v else kinsert d k v.
End Keyed.
Arguments ktable : clear implicits.

(* list.remove on a list of frozensets; [None] models ValueError *)
Fixpoint lremove {A} `{EqDec A} (k : list A) (l : list (list A)) : option (list (list A)) :=
  match l with
  | [] => None
  | x :: t => if seteq x k then Some t else option_map (cons x) (lremove k t)
  end.

Section Cover.
  Context {A : Type} `{EqDec A}.

  (* sct[i] for i in iset: None is KeyError *)
  Fixpoint lookups (sct : dict A (list nat)) (s : list A) : option (list (list nat)) :=
    match s with
    | [] => Some []
    | x :: t => match dget sct x, lookups sct t with
                | Some v, Some l => Some (v :: l)
                | _, _ => None
                end
    end.
  (* slim.py 82: reduce(Bitmap.intersection, it).copy() if it else Bitmap() *)
  Definition meet (it : list (list nat)) : list nat :=
    match it with [] => [] | v :: l => fold_left inter l v end.
  (* slim.py 85: sct[k] -= usage *)
  Definition subtract (usage : list nat) (sct : dict A (list nat)) (k : A) : dict A (list nat) :=
    match dget sct k with Some v => dset sct k (diff v usage) | None => sct end.

  (* slim.py 80-85: the assignments made to [covers], in order *)
  Fixpoint cover_list (sct : dict A (list nat)) (isets : list (list A))
    : option (list (list A * list nat) * dict A (list nat)) :=
    match isets with
    | [] => Some ([], sct)
    | s :: rest =>
        match lookups sct s with
        | None => None
        | Some it =>
            let usage := meet it in
            match cover_list (fold_left (subtract usage) s sct) rest with
            | None => None
            | Some (l, sct') => Some ((s, usage) :: l, sct')
            end
        end
    end.
  (* slim.py 64-86; the dictionary [covers] keeps the last value of a repeated key *)
  Definition cover (sct : dict A (list nat)) (isets : list (list A))
    : option (ktable A (list nat) * dict A (list nat)) :=
    match cover_list sct isets with
    | None => None
    | Some (l, sct') => Some (kupdate [] l, sct')
    end.
End Cover.

Section Slim.
  Context {A : Type} `{EqDec A}.
  Context {T : Type} (total : ktable A (list nat) -> T) (tlt : T -> T -> bool).
  Context (ord : list A -> list A -> bool).
  Context (iter : list (list A) -> list (list A)).

  Record slim := {
    sct : dict A (list nat);            (* standard_codetable_ *)
    ct  : ktable A (list nat);          (* codetable_ *)
    sz  : T }.                          (* data_size_ + model_size_ *)

  (* slim.py 639-661.  [d] is the vertical database; [items] the items option. *)
  Definition prefit (d : dict A (list nat)) (items : list A) (s0 : T) : slim :=
    let base := sort more_frequent d in
    let extra := map (fun x => (x, [])) (filter (fun x => negb (mem x (dkeys base))) items) in
    let std := base ++ extra in
    {| sct := std;
       ct := fold_left (fun c e => kput ord c [fst e] (snd e)) std [];
       sz := s0 |}.

  (* slim.py 722: the used part of a table *)
  Definition used (c : ktable A (list nat)) : ktable A (list nat) :=
    filter (fun p => 0 <? length (snd p)) c.
  (* slim.py 705-732: unpacking the empty zip raises ValueError when nothing is used *)
  Definition compute_sizes (c : ktable A (list nat)) : outcome T :=
    match used c with [] => Exn ValueError | u => Ret (total u) end.

  Definition usage_of (c : ktable A (list nat)) (k : list A) : nat :=
    match kget c k with Some v => length v | None => 0 end.

  (* slim.py 749-758 *)
  Fixpoint prune_init (old : ktable A (list nat)) (c : ktable A (list nat)) (ps : list (list A))
    : outcome (ktable A (list nat) * list (list A)) :=
    match old with
    | [] => Ret (c, ps)
    | (s, u) :: rest =>
        if 1 <? length s then
          match kget c s with
          | None => Exn KeyError
          | Some v => if length v =? 0 then prune_init rest (kdel c s) ps
                      else if length v <? length u then prune_init rest c (ps ++ [s])
                      else prune_init rest c ps
          end
        else prune_init rest c ps
    end.
  (* min(prune_set, key=...): the first minimal element in iteration order *)
  Fixpoint argmin (f : list A -> nat) (best : list A) (l : list (list A)) : list A :=
    match l with
    | [] => best
    | x :: t => argmin f (if f x <? f best then x else best) t
    end.
  (* slim.py 774 *)
  Definition decreased (ctp c : ktable A (list nat)) : list (list A) :=
    map fst (filter (fun p => (1 <? length (fst p)) && (length (snd p) <? usage_of c (fst p))) ctp).
  (* slim.py 760-780 *)
  Fixpoint prune_loop (fuel : nat) (std : dict A (list nat)) (c : ktable A (list nat))
           (ps : list (list A)) (t : T) : outcome (ktable A (list nat) * T) :=
    match fuel with
    | 0 => NoFuel
    | S fuel' =>
        match iter ps with
        | [] => Ret (c, t)
        | x :: l =>
            let cand := argmin (usage_of c) x l in
            let ps' := filter (fun k => negb (seteq cand k)) ps in
            match lremove cand (map fst c) with
            | None => Exn ValueError
            | Some ks =>
                match cover std ks with
                | None => Exn KeyError
                | Some (ctp, _) =>
                    bind (compute_sizes ctp) (fun t' =>
                      if tlt t' t then
                        prune_loop fuel' std (kdel (kupdate c ctp) cand)
                                   (ps' ++ filter (fun k => negb (kmem ps' k)) (decreased ctp c)) t'
                      else prune_loop fuel' std c ps' t)
                end
            end
        end
    end.
  Definition prune (fuel : nat) (st : slim) (c : ktable A (list nat)) (t : T)
    : outcome (ktable A (list nat) * T) :=
    bind (prune_init (ct st) c []) (fun cp => prune_loop fuel (sct st) (fst cp) (snd cp) t).

  (* slim.py 374-400; a sufficient fuel for the pruning loop *)
  Definition prune_fuel (c : ktable A (list nat)) : nat := S (S (length c) * S (length c)).
  Definition evaluate (pruning : bool) (st : slim) (cand : list A)
    : outcome (T * ktable A (list nat)) :=
    match cover (sct st) (insert_right ord cand (map fst (ct st))) with
    | None => Exn KeyError
    | Some (c, _) =>
        bind (compute_sizes c) (fun t =>
          if pruning
          then bind (prune (prune_fuel c) st c t) (fun r => Ret (snd r, fst r))
          else Ret (t, c))
    end.

  (* slim.py 432-439 *)
  Definition update_with (st : slim) (t : T) (usages : ktable A (list nat)) : slim :=
    let to_drop := filter (fun k => (1 <? length k) && negb (kmem (map fst usages) k)) (map fst (ct st)) in
    {| sct := sct st;
       ct := fold_left kdel to_drop
               (fold_left (fun c p => kput ord c (fst p) (snd p)) usages (ct st));
       sz := t |}.
  (* slim.py 402-439 with candidate=cand.  _standard_cover_order raises IndexError
     on the empty itemset and KeyError on an unknown item (get_support, 599-600). *)
  Definition update (pruning : bool) (st : slim) (cand : list A) : outcome slim :=
    match cand with
    | [] => Exn IndexError
    | _ => bind (evaluate pruning st cand) (fun r => Ret (update_with st (fst r) (snd r)))
    end.

  (* ------------------------------------------------------------------ fit *)
  Context {G : Type} (gain : ktable A (list nat) -> list A -> list A -> G)
          (gpos : G -> bool) (gge : G -> G -> bool).
  Context (reorder : ktable A (list nat) -> ktable A (list nat)).

  (* slim.py 306-369: candidates from one x and the later entries *)
  Fixpoint gen_y (c : ktable A (list nat)) (x : list A) (xu : list nat)
           (ys : ktable A (list nat)) (stack : list (list A)) : list (list A * G) * list (list A) :=
    match ys with
    | [] => ([], stack)
    | (y, yu) :: rest =>
        let xy := union x y in
        if kmem stack xy then gen_y c x xu rest stack
        else if length yu =? 0 then gen_y c x xu rest stack
        else if length (inter yu xu) =? 0 then gen_y c x xu rest stack
        else let '(l, stack') := gen_y c x xu rest (xy :: stack) in
             ((if gpos (gain c x y) then [(xy, gain c x y)] else []) ++ l, stack')
    end.
  Fixpoint gen_x (c : ktable A (list nat)) (es : ktable A (list nat)) (stack : list (list A))
    : list (list A * G) :=
    match es with
    | [] => []
    | (x, xu) :: rest =>
        if length xu =? 0 then gen_x c rest stack
        else let '(l, stack') := gen_y c x xu rest stack in l ++ gen_x c rest stack'
    end.
  (* slim.py 277-372 *)
  Definition generate_candidates (st : slim) : list (list A * G) :=
    sort (fun a b => gge (snd a) (snd b))
         (gen_x (ct st) (reorder (ct st)) (map fst (ct st))).

  (* slim.py 179-185: the first candidate that improves the total *)
  Fixpoint try_candidates (pruning : bool) (st : slim) (cands : list (list A * G))
    : outcome (option slim) :=
    match cands with
    | [] => Ret None
    | (c, _) :: rest =>
        bind (evaluate pruning st c) (fun r =>
          if tlt (fst r) (sz st) then Ret (Some (update_with st (fst r) (snd r)))
          else try_candidates pruning st rest)
    end.
  (* one round of the while loop, 172-191: [None] when the search stops.
     Simplification: [diff <= 0] is the negation of [diff > 0] (no NaN sizes). *)
  Definition round (pruning : bool) (st : slim) : outcome (option slim) :=
    try_candidates pruning st (generate_candidates st).
  Context (late : nat -> bool).
  Fixpoint fit_loop (fuel n : nat) (pruning : bool) (st : slim) : outcome slim :=
    match fuel with
    | 0 => NoFuel
    | S fuel' =>
        bind (round pruning st) (fun o =>
          match o with
          | None => Ret st
          | Some st' => if late n then Ret st' else fit_loop fuel' (S n) pruning st'
          end)
    end.
  (* slim.py 147-194 on a list of transactions *)
  Definition slim_fit (fuel : nat) (pruning : bool) (items : list A) (s0 : T) (D : list (list A))
    : outcome slim :=
    fit_loop fuel 0 pruning (prefit (vertical D) items s0).
End Slim.
Arguments slim : clear implicits.

(* ----------------------------------------------------- tabular input *)
(* slim.py 634: {k: Bitmap(np.where(D[k])[0]) for k in D.columns}; a dataframe is a
   list of named columns of booleans *)
Fixpoint where_from (i : nat) (col : list bool) : list nat :=
  match col with
  | [] => []
  | b :: t => if b then i :: where_from (S i) t else where_from (S i) t
  end.
Definition tab_vertical {A} (cols : list (A * list bool)) : dict A (list nat) :=
  map (fun c => (fst c, where_from 0 (snd c))) cols.

Section SlimQueries.
  Context {A T : Type} `{EqDec A} (leA : A -> A -> bool).

  (* slim.py 477-558 with out=None, return_tids=True *)
  Definition slim_transform (singletons lexico drop_null : bool) (st : slim A T)
    : list (list A * list nat) :=
    map (fun p => (if lexico then sort leA (fst p) else fst p, snd p))
        (filter (fun p => ((if drop_null then 1 else 0) <=? length (snd p))
                          && ((if singletons then 0 else 1) <? length (fst p))) (ct st)).

  (* slim.py 467-469: the columns and their tids, given the vertical form of the data.
     Rows of transform are sorted tuples; [subset s (dkeys dsct)] is set(D_sct).issuperset *)
  Definition cover_dict (st : slim A T) (dsct : dict A (list nat)) : option (ktable A (list nat)) :=
    let isets := filter (fun s => subset s (dkeys dsct))
                        (map fst (slim_transform true true false st)) in
    match cover dsct isets with None => None | Some (c, _) => Some c end.
  (* slim.py 464-465: a list of transactions *)
  Definition slim_cover (st : slim A T) (D : list (list A)) : option (ktable A (list nat)) :=
    cover_dict st (vertical D).
  (* slim.py 461-463: tabular data; unknown columns are dropped *)
  Definition slim_cover_tab (st : slim A T) (cols : list (A * list bool)) : option (ktable A (list nat)) :=
    cover_dict st (filter (fun c => mem (fst c) (dkeys (sct st))) (tab_vertical cols)).
  (* the boolean matrix, slim.py 471-475 *)
  Definition cover_matrix (n : nat) (c : ktable A (list nat)) : list (list bool) :=
    map (fun i => map (fun p => mem i (snd p)) c) (seq 0 n).

  (* slim.py 560-586: max() of an empty sequence raises ValueError *)
  Definition reconstruct (st : slim A T) : outcome (list (list A)) :=
    match filter (fun tids => negb (length tids =? 0)) (map snd (ct st)) with
    | [] => Exn ValueError
    | l => let n := S (list_max (map list_max l)) in
           Ret (map (sort leA)
                 (fold_left (fun D p => map (fun i => if mem i (snd p) then union (fst p) (nth i D [])
                                                      else nth i D []) (seq 0 n))
                            (ct st) (repeat [] n)))
    end.
End SlimQueries.
