(* Model of the helper functions of skmine/graph/graphmdl/utils.py and of the
   candidate comparison of skmine/graph/graphmdl/candidate.py. *)
From Coq Require Import QArith.
Open Scope nat_scope.
From Verif Require Import Prelude CheckModel LCMModel.

(* ------------------------------------------------ universal integer codes *)
(* utils.py 139-151, [universal_integer_encoding].
   [math.floor(math.log2(x))] is modelled by the exact [Z.log2]: the rounding
   of [math.log2] close to large powers of two is left out. *)
Definition universal_integer_encoding (x : Z) : outcome Z :=
  if (x <? 1)%Z then Exn ValueError
  else Ret (Z.log2 x + 2 * Z.log2 (Z.log2 x + 1) + 1)%Z.

(* utils.py 154-166, [universal_integer_encoding_with0] *)
Definition universal_integer_encoding_with0 (x : Z) : outcome Z :=
  if (x <? 0)%Z then Exn ValueError
  else universal_integer_encoding (x + 1)%Z.

(* --------------------------------------------------------------- binomial *)
(* utils.py 119-136, [binomial] on natural numbers.  The division [/ k] is
   exact rational division (the code divides floats) and [k > n / 2] is
   compared as [2 * k > n].  The recursion of the code becomes a recursion on
   [fuel]; [NoFuel] means that the call is still running. *)
Fixpoint binomial (fuel : nat) (n k : nat) : outcome Q :=
  match fuel with
  | O => NoFuel
  | S f =>
    if n <? k then Exn ValueError
    else if k =? 0 then Ret (1 # 1)
    else if n <? 2 * k then binomial f n (n - k)
    else bind (binomial f (n - 1) (k - 1)) (fun b =>
           Ret (inject_Z (Z.of_nat n) * b / inject_Z (Z.of_nat k))%Q)
  end.

(* ----------------------------------------------------------- label counts *)
Section Labels.
  Context {L : Type} `{EqDec L}.

  (* The value of a 'label' attribute: one name, a tuple of names, or a list
     of names as produced by candidate.py 136-169 ([_get_new_label]). *)
  Inductive label := Name (l : L) | Names (ls : list L) | NameList (ls : list L).

  (* A networkx graph seen through [nodes(data=True)] and [edges(data=True)]. *)
  Record graph := { nodes : list (nat * option label);
                    edges : list (nat * nat * option label) }.

  (* [Counter(values)] read as a dict: keys in order of first occurrence *)
  Definition counter (ls : list L) : list (L * nat) :=
    fold_left (fun d l => dset d l (S (match dget d l with Some n => n | None => 0 end)))
              ls [].

  (* utils.py 60-71 and 85-95: the names written one by one into the
     auxiliary dict.  A list-valued label is stored as such, and hashing it in
     [Counter] raises TypeError. *)
  Fixpoint label_names (ls : list (option label)) : outcome (list L) :=
    match ls with
    | [] => Ret []
    | None :: r => label_names r
    | Some (Name l) :: r => bind (label_names r) (fun t => Ret (l :: t))
    | Some (Names l) :: r => bind (label_names r) (fun t => Ret (l ++ t))
    | Some (NameList _) :: r => bind (label_names r) (fun _ => Exn TypeError)
    end.

  (* utils.py 50-72, [count_edge_label] *)
  Definition count_edge_label (g : graph) : outcome (list (L * nat)) :=
    bind (label_names (map snd (edges g))) (fun ls => Ret (counter ls)).
  (* utils.py 75-96, [count_vertex_label] *)
  Definition count_vertex_label (g : graph) : outcome (list (L * nat)) :=
    bind (label_names (map snd (nodes g))) (fun ls => Ret (counter ls)).

  (* [dict.update] *)
  Definition update (d e : list (L * nat)) : list (L * nat) :=
    fold_left (fun d kv => dset d (fst kv) (snd kv)) e d.

  (* utils.py 99-116, [get_total_label] *)
  Definition get_total_label (g : graph) : outcome nat :=
    bind (count_edge_label g) (fun es =>
    bind (count_vertex_label g) (fun vs =>
    Ret (fold_left Nat.add (map snd (update es vs)) 0%nat))).
End Labels.
Arguments label L : clear implicits.
Arguments graph L : clear implicits.

(* ---------------------------------------------------------------- support *)
(* utils.py 420-451, [get_support].  An embedding is a dict from data nodes to
   pattern nodes; the inner sets are lists, [len] of a set is [card]. *)
Definition see (d : list (nat * list nat)) (i : nat * nat) : list (nat * list nat) :=
  match dget d (snd i) with
  | Some s => dset d (snd i) (s ++ [fst i])
  | None => dset d (snd i) []
  end.
Definition node_embeddings (es : list (list (nat * nat))) : list (nat * list nat) :=
  fold_left (fun d e => fold_left see e d) es [].
(* Python [min] of an iterable *)
Definition min_out (l : list nat) : outcome nat :=
  match l with [] => Exn ValueError | x :: r => Ret (fold_left Nat.min r x) end.
Definition get_support (es : list (list (nat * nat))) : outcome nat :=
  match es with
  | [] => Ret 0
  | _ => min_out (map (fun kv => card (snd kv)) (node_embeddings es))
  end.

(* ------------------------------------------------------------- candidates *)
Section Candidates.
  Context {L P : Type} `{EqDec L} `{EqDec P}.

  (* candidate.py 19-29: the fields used by [__eq__] and [inverse] *)
  Record candidate := { first_label : L; second_label : L; port : list (P * P) }.

  (* candidate.py 171-182, [_is_ports_equals] *)
  Definition is_ports_equals (self : candidate) (ports : list (P * P)) : bool :=
    if negb (length ports =? length (port self)) then false
    else negb (mem false (map (fun p => mem p ports) (port self))).

  (* candidate.py 215-218, [__eq__] of [self] against [o] *)
  Definition candidate_eq (self o : candidate) : bool :=
    eqd (first_label o) (first_label self) &&
    eqd (second_label o) (second_label self) &&
    is_ports_equals self (port o).

  (* candidate.py 195-210, [inverse]: the receiver is overwritten and
     returned, so this is its new value. *)
  Definition inverse (self : candidate) : candidate :=
    {| first_label := second_label self; second_label := first_label self;
       port := map (fun p => (snd p, fst p)) (port self) |}.

  (* [c == c.inverse()], utils.py 806: the argument is evaluated first and
     overwrites [c], so both sides of [==] are the overwritten object.  The
     result is the value of the test and the object left behind. *)
  Definition equals_own_inverse (c : candidate) : bool * candidate :=
    let c' := inverse c in (candidate_eq c' c', c').

  (* Python [c in cs] for a list of candidates: [x is c or x == c] for each
     element, where [x == c] is [x.__eq__(c)].  Identity is left out: an
     object always equals itself (theorem C59_reflexive). *)
  Definition candidate_in (c : candidate) (cs : list candidate) : bool :=
    existsb (fun x => candidate_eq x c) cs.
End Candidates.
Arguments candidate L P : clear implicits.
