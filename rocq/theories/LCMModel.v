(* Model of skmine/itemsets/lcm.py: LCM.fit (90-142), LCM.transform (144-240),
   LCM._explore_root (242-258), LCM._inner (260-292), write_df_tofile (294-299),
   LCMMax._inner (325-356), LCMMax.transform (358-380).

   Items are elements of any type with decidable equality and a boolean order
   [leA] (Python's [<=] on items, used only by [sorted]).
   A BitMap of transaction ids is a duplicate-free list of naturals.
   Dictionaries are association lists in insertion order. *)
From Verif Require Import Prelude FilterModel CheckModel.
From Coq Require Import QArith.
Local Open Scope nat_scope.

(* ------------------------------------------------------------ dictionaries *)
Section Dict.
  Context {K V : Type} `{EqDec K}.
  Definition dict := list (K * V).
  Fixpoint dget (d : dict) (k : K) : option V :=
    match d with
    | [] => None
    | (k', v) :: t => if eq_dec k k' then Some v else dget t k
    end.
  (* d[k] = v : overwrites in place, or appends a new key *)
  Fixpoint dset (d : dict) (k : K) (v : V) : dict :=
    match d with
    | [] => [(k, v)]
    | (k', v') :: t => if eq_dec k k' then (k', v) :: t else (k', v') :: dset t k v
    end.
  (* del d[k] *)
  Definition ddel (d : dict) (k : K) : dict := filter (fun p => negb (eqd k (fst p))) d.
  Definition dkeys (d : dict) : list K := map fst d.
End Dict.
Arguments dict : clear implicits.

(* --------------------------------------------------- the vertical database *)
Section Vertical.
  Context {A : Type} `{EqDec A}.

  (* BitMap.add *)
  Definition add_tid (tids : list nat) (i : nat) : list nat :=
    if mem i tids then tids else tids ++ [i].
  (* defaultdict(Bitmap)[item].add(i) : lcm.py 117, slim.py 36 *)
  Definition vadd (i : nat) (d : dict A (list nat)) (item : A) : dict A (list nat) :=
    match dget d item with
    | Some tids => dset d item (add_tid tids i)
    | None => dset d item [i]
    end.
  (* lcm.py 113-118 (and slim.py 31-36 without stop items) *)
  Fixpoint vertical_from (i : nat) (D : list (list A)) (d : dict A (list nat)) : dict A (list nat) :=
    match D with
    | [] => d
    | t :: D' => vertical_from (S i) D' (fold_left (vadd i) t d)
    end.
  Definition vertical (D : list (list A)) : dict A (list nat) := vertical_from 0 D [].
End Vertical.

(* --------------------------------------------------------- support threshold *)
(* min_supp as accepted by _check_min_supp: an absolute count or a proportion.
   Simplification: [min_supp * n] (lcm.py 122) is exact here, floating point
   rounding of the product is not modelled. *)
Inductive minsupp := Abs (m : Z) | Rel (q : Q).
(* [k >= self.min_supp_] for a database of n transactions; lcm.py 121-124 *)
Definition reaches (ms : minsupp) (n k : nat) : bool :=
  match ms with
  | Abs m => (m <=? Z.of_nat k)%Z
  | Rel q => Qle_bool (q * inject_Z (Z.of_nat n))%Q (inject_Z (Z.of_nat k))
  end.
Definition minsupp_val (ms : minsupp) : pyval :=
  match ms with Abs m => PyInt m | Rel q => PyFloat (Fin q) end.

(* ------------------------------------------------ the search on item indices *)
(* The fitted table: position k holds the tids of the item renamed k
   (lcm.py 133-138).  Keys of item_to_tids_ are therefore 0 .. length tab - 1. *)
Section Search.
  Context (reach : nat -> bool).     (* [n >= self.min_supp_] *)
  Context (tab : list (list nat)).

  Definition ids (i : nat) : list nat := nth i tab [].
  Definition keys : list nat := seq 0 (length tab).

  (* lcm.py 263-268: items, from the largest index down, whose tids contain all
     the current tids and that are not already in p *)
  Definition cp (p tids : list nat) : list nat :=
    filter (fun i => negb (mem i p)) (filter (fun i => subset tids (ids i)) (rev keys)).

  (* SortedKeysView.bisect_left on a sorted list *)
  Definition bisect_left (l : list nat) (x : nat) : nat :=
    length (filter (fun y => y <? x) l).
  (* lcm.py 285-286 *)
  Definition candidates (p' : list nat) (limit : nat) : list nat :=
    let c := diff keys p' in firstn (bisect_left c limit) c.

  (* lcm.py 270-274: [next(takewhile(e >= limit, cp), None)], the test
     [max_k == limit], and p_prime when it succeeds *)
  Definition extend (p tids : list nat) (limit : nat) : option (list nat) :=
    match cp p tids with
    | [] => None                                    (* generator exhausted *)
    | k :: rest =>
        if limit <=? k then                         (* takewhile lets k through *)
          if k =? limit then Some (union (union p rest) [k]) else None
        else None                                   (* takewhile stops: None *)
    end.

  (* LCM._inner, lcm.py 260-292.  Emits (p_prime, tids) for every node visited;
     [fuel] bounds the depth of the recursion: limits strictly decrease. *)
  Fixpoint inner (fuel : nat) (p tids : list nat) (limit : nat) : list (list nat * list nat) :=
    match fuel with
    | 0 => []
    | S fuel' =>
        match extend p tids limit with
        | None => []
        | Some p' =>
            (p', tids) ::
            flat_map (fun new_limit =>
                        if reach (length (inter tids (ids new_limit)))   (* 289 *)
                        then inner fuel' p' (inter tids (ids new_limit)) new_limit
                        else [])
                     (candidates p' limit)
        end
    end.

  (* LCMMax._inner, lcm.py 325-356 ([next(cp, None)] instead of takewhile) *)
  Definition extend_max (p tids : list nat) (limit : nat) : option (list nat) :=
    match cp p tids with
    | [] => None
    | k :: rest => if k =? limit then Some (union (union p rest) [k]) else None
    end.
  Fixpoint inner_max (fuel : nat) (p tids : list nat) (limit : nat) : list (list nat * list nat) :=
    match fuel with
    | 0 => []
    | S fuel' =>
        match extend_max p tids limit with
        | None => []
        | Some p' =>
            let c := candidates p' limit in
            flat_map (fun new_limit =>
                        if reach (length (inter tids (ids new_limit)))
                        then inner_max fuel' p' (inter tids (ids new_limit)) new_limit
                        else []) c
            ++ (if existsb (fun new_limit => reach (length (inter tids (ids new_limit)))) c
                then [] else [(p', tids)])                               (* 350-356 *)
        end
    end.

  (* lcm.py 242-243: one root job *)
  Definition explore (item : nat) : list (list nat * list nat) :=
    inner (S item) [] (ids item) item.
  Definition explore_max (item : nat) : list (list nat * list nat) :=
    inner_max (S item) [] (ids item) item.
End Search.

(* ------------------------------------------------------------- the estimator *)
Section LCM.
  Context {A : Type} `{EqDec A} (leA : A -> A -> bool).

  (* lcm.py 126-138: frequent items, most frequent first (stable) *)
  Definition drop_rare (ms : minsupp) (n : nat) (d : dict A (list nat)) : dict A (list nat) :=
    filter (fun kv => reaches ms n (length (snd kv))) d.
  Definition more_frequent (x y : A * list nat) : bool :=
    length (snd y) <=? length (snd x).
  Definition fit_table (ms : minsupp) (D : list (list A)) : dict A (list nat) :=
    sort more_frequent (drop_rare ms (length D) (vertical D)).

  (* LCM.fit: [None] when _check_min_supp raises (lcm.py 120) *)
  Definition fit (ms : minsupp) (D : list (list A)) : option (dict A (list nat)) :=
    match check_min_supp (minsupp_val ms) true with
    | Some _ => None
    | None => Some (fit_table ms D)
    end.

  (* a row of the resulting dataframe: itemset, support, tids *)
  Record row := { r_items : list A; r_supp : nat; r_tids : list nat }.

  (* lcm.py 276: [self.ord_item_freq_[ind] for ind in p_prime].  Indices come
     from the keys of the table, so the lookup never fails; the iteration order
     of the Python set p_prime is not observable once sorted (277). *)
  Definition names (tbl : dict A (list nat)) (p' : list nat) : list A :=
    flat_map (fun ind => match nth_error tbl ind with Some kv => [fst kv] | None => [] end) p'.

  Definition out_items (lexico : bool) (l : list A) : list A :=
    if lexico then sort leA l else l.                                    (* 277 *)
  Definition length_ok (max_length : Z) (l : list A) : bool :=
    (Z.of_nat (length l) <=? max_length)%Z || (max_length =? -1)%Z.      (* 279 *)

  Definition mk_row (tbl : dict A (list nat)) (lexico : bool) (e : list nat * list nat) : row :=
    {| r_items := out_items lexico (names tbl (fst e)); r_supp := length (snd e); r_tids := snd e |}.

  (* the rows produced by one root job, lcm.py 242-245 with 276-283 *)
  Definition root_rows (ms : minsupp) (n : nat) (tbl : dict A (list nat))
             (lexico : bool) (max_length : Z) (item : nat) : list row :=
    filter (fun r => length_ok max_length (r_items r))
           (map (mk_row tbl lexico) (explore (reaches ms n) (map snd tbl) item)).

  (* joblib.Parallel: the jobs are executed in some order [sched] and each
     stores its result in the slot of its index; results are then read in index
     order (lcm.py 210-212, 226-228) *)
  Definition slots (R : Type) := nat -> option R.
  Definition run_job {R} (job : nat -> R) (s : slots R) (k : nat) : slots R :=
    fun i => if i =? k then Some (job k) else s i.
  Definition parallel {R} (sched : list nat) (n : nat) (job : nat -> R) : list (option R) :=
    let s := fold_left (run_job job) sched (fun _ => None) in
    map s (seq 0 n).
  Definition gather {R} (l : list (option (list R))) : list R :=
    flat_map (fun o => match o with Some r => r | None => [] end) l.

  (* LCM.transform with out=None, lcm.py 209-218 *)
  Definition transform (ms : minsupp) (n : nat) (tbl : dict A (list nat))
             (lexico : bool) (max_length : Z) (sched : list nat) : list row :=
    gather (parallel sched (length tbl) (root_rows ms n tbl lexico max_length)).

  (* fit_transform *)
  Definition lcm (ms : minsupp) (D : list (list A)) (lexico : bool) (max_length : Z)
             (sched : list nat) : option (list row) :=
    match fit ms D with
    | None => None
    | Some tbl => Some (transform ms (length D) tbl lexico max_length sched)
    end.

  (* LCMMax.transform, lcm.py 358-380: [super().transform] with the overridden
     _inner (no max_length test inside), then filter_maximal, isin (set
     equality), max_length filter, sorting *)
  Definition max_row (tbl : dict A (list nat)) (e : list nat * list nat) : row :=
    {| r_items := names tbl (fst e); r_supp := length (snd e); r_tids := snd e |}.
  Definition root_rows_max (ms : minsupp) (n : nat) (tbl : dict A (list nat)) (item : nat) : list row :=
    map (max_row tbl) (explore_max (reaches ms n) (map snd tbl) item).
  Definition transform_max (ms : minsupp) (n : nat) (tbl : dict A (list nat))
             (lexico : bool) (max_length : Z) (sched : list nat) : list row :=
    let patterns := gather (parallel sched (length tbl) (root_rows_max ms n tbl)) in
    let maximals := filter_maximal (map r_items patterns) in
    let patterns := filter (fun r => existsb (seteq (r_items r)) maximals) patterns in
    let patterns := if (max_length =? -1)%Z then patterns
                    else filter (fun r => (Z.of_nat (card (r_items r)) <=? max_length)%Z) patterns in
    map (fun r => {| r_items := out_items lexico (r_items r); r_supp := r_supp r; r_tids := r_tids r |})
        patterns.
  Definition lcm_max (ms : minsupp) (D : list (list A)) (lexico : bool) (max_length : Z)
             (sched : list nat) : option (list row) :=
    match fit ms D with
    | None => None
    | Some tbl => Some (transform_max ms (length D) tbl lexico max_length sched)
    end.
End LCM.
Arguments row : clear implicits.

(* the example of the docstring, lcm.py 188-197 *)
Example lcm_doc : option_map (map (fun r => (r_items r, r_supp r, r_tids r)))
   (lcm Nat.leb (Abs 2) [[1;2;3;4;5;6]; [2;3;5]; [2;5]] true (-1) [1;0;2])
  = Some [([2;5], 3, [0;1;2]); ([2;3;5], 2, [0;1])].
Proof. vm_compute. reflexivity. Qed.
