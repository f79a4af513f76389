(* Model of skmine/periodic/pattern.py: pattern trees, their occurrences and corrections.
   [Pattern.nodes] is a dictionary from node ids to records with parent and children ids; the
   model is the tree these records describe, each node carrying its id.  A leaf has an event,
   an intermediate node a number of repetitions, a period and children with distances.
   Python ints and the int64 of numpy.sum are unbounded integers here. *)
From Verif Require Import Prelude CheckModel LCMModel TextModel SplitModel PeriodModel.
From Coq Require Import NArith.
Local Open Scope Z_scope.

Section Trees.
  Context {A : Type}.
  Inductive tree :=
  | Leaf (nid : nat) (ev : A)
  | Node (nid : nat) (r : nat) (p : Z) (ch : list (tree * Z)).
  Definition root_id (t : tree) : nat := match t with Leaf n _ => n | Node n _ _ _ => n end.
  Definition position := list (Z * Z).        (* (child, repetition) pairs from the root down *)

  (* getOccsStar 402-431 and getTimesNidsRefs 433-449: perfect times, what the leaf carries
     (its event or its id) and the key; [pref] is reversed as in the code *)
  Fixpoint expand {B} (pay : nat -> A -> B) (t : tree) (pref : position) (time : Z) : list (Z * B * text) :=
    match t with
    | Leaf n e => [(time, pay n e, l_to_key (rev pref))]
    | Node _ r p ch =>
        concat (map (fun i =>
          (fix kids (ni : nat) (tt : Z) (l : list (tree * Z)) : list (Z * B * text) :=
             match l with
             | [] => []
             | (c, d) :: l' => expand pay c ((Z.of_nat ni, Z.of_nat i) :: pref) (tt + d) ++ kids (S ni) (tt + d) l'
             end) O (time + Z.of_nat i * p) ch)
          (List.seq 0 r))
    end.
  Definition occs_star (t : tree) : list (Z * A * text) := expand (fun _ e => e) t [] 0.
  Definition times_nids (t : tree) : list (Z * nat * text) := expand (fun n _ => n) t [] 0.

  (* getOccsRefs 565-606.  The reference of an occurrence is 'root', None or a key.  The code
     writes refs[key] = (reference, offset) into a dictionary; the model returns these
     assignments in order, and [refs_dict] performs them. *)
  Inductive ref := RootRef | NoneRef | KeyRef (k : text).
  Record rstate := { rs_cycle : ref; rs_rep : ref; rs_next : ref; rs_out : list (text * (ref * Z)) }.
  Fixpoint occs_refs (t : tree) (pref : position) (cnref : ref) (offset : Z) : ref * list (text * (ref * Z)) :=
    match t with
    | Leaf _ _ => let k := l_to_key (rev pref) in (KeyRef k, [(k, (cnref, offset))])
    | Node _ r p ch =>
        let st := fold_left (fun st i =>
          (fix kids (ni : nat) (st : rstate) (l : list (tree * Z)) : rstate :=
             match l with
             | [] => st
             | (c, d) :: l' =>
                 let pref' := (Z.of_nat ni, Z.of_nat i) :: pref in
                 let st' :=
                   match ni, i with
                   | O, O => let '(nr, w) := occs_refs c pref' cnref offset in
                             {| rs_cycle := nr; rs_rep := nr; rs_next := nr; rs_out := rs_out st ++ w |}
                   | O, S _ => let '(nr, w) := occs_refs c pref' (rs_rep st) p in
                             {| rs_cycle := rs_cycle st; rs_rep := nr; rs_next := nr; rs_out := rs_out st ++ w |}
                   | S _, _ => let '(nr, w) := occs_refs c pref' (rs_next st) d in
                             {| rs_cycle := rs_cycle st; rs_rep := rs_rep st; rs_next := nr; rs_out := rs_out st ++ w |}
                   end in
                 kids (S ni) st' l'
             end) O st ch)
          (List.seq 0 r) {| rs_cycle := NoneRef; rs_rep := NoneRef; rs_next := NoneRef; rs_out := [] |} in
        (rs_cycle st, rs_out st)
    end.
  Definition dict_of {K V} `{EqDec K} (l : list (K * V)) : dict K V := fold_left (fun d kv => dset d (fst kv) (snd kv)) l [].
  Definition refs_dict (t : tree) : dict text (ref * Z) := dict_of (snd (occs_refs t [] RootRef 0)).

  (* computeEDict 521-543; None is a KeyError *)
  Fixpoint edict_loop (refs : list (text * (ref * Z))) (occs : dict text Z) (Ed : dict text Z) (t0 : Z) : option (dict text Z * Z) :=
    match refs with
    | [] => Some (Ed, t0)
    | (nt, (nf, d)) :: refs' =>
        match nf with
        | RootRef => match dget occs nt with
                     | Some o => edict_loop refs' occs (dset Ed nt 0) o
                     | None => None
                     end
        | NoneRef => None
        | KeyRef k => match dget occs nt, dget occs k with
                      | Some o, Some o' => edict_loop refs' occs (dset Ed nt (o - o' - d)) t0
                      | _, _ => None
                      end
        end
    end.
  Definition compute_edict (t : tree) (occs : dict text Z) : option (dict text Z * Z) := edict_loop (refs_dict t) occs [] 0.
  Fixpoint lookup_all (d : dict text Z) (ks : list text) : option (list Z) :=
    match ks with
    | [] => Some []
    | k :: ks' => match dget d k, lookup_all d ks' with Some v, Some vs => Some (v :: vs) | _, _ => None end
    end.
  (* computeEFromO 545-563 *)
  Definition compute_E_from_O (t : tree) (occs : list Z) : option (list Z) :=
    let oids := map snd (occs_star t) in
    match compute_edict t (dict_of (combine oids occs)) with
    | Some (rEd, _) => lookup_all rEd (tl oids)
    | None => None
    end.

  (* getEDict 11-35 *)
  Definition get_EDict {B} (oStar : list (Z * B * text)) (E : list Z) : dict text Z :=
    let Ex := if (length oStar - 1 <=? length E)%nat then 0 :: firstn (length oStar - 1) E
              else map (fun _ => 0) oStar in
    dict_of (combine (map snd oStar) Ex).

  (* getNidFromKey 608-640 on a list of pairs: the subtree reached; a negative index counts
     from the end as in Python *)
  Definition py_nth {B} (l : list B) (c : Z) : option B :=
    if 0 <=? c then nth_error l (Z.to_nat c) else if 0 <=? Z.of_nat (length l) + c then nth_error l (Z.to_nat (Z.of_nat (length l) + c)) else None.
  Fixpoint walk (t : tree) (key : position) : option tree :=
    match key with
    | [] => Some t
    | (c, _) :: key' =>
        match t with
        | Leaf _ _ => None
        | Node _ _ _ ch =>
            if c <? Z.of_nat (length ch) then
              if (c =? -1) && (match key' with [] => true | _ => false end) then Some t
              else match py_nth ch c with Some (t', _) => walk t' key' | None => None end
            else None
        end
    end.
  (* the while loop of getLeafKeyFromKey 738-750 with cid = rep = 0; None is an IndexError *)
  Fixpoint descend (t : tree) (first_rep : option Z) : option position :=
    match t with
    | Leaf _ _ => Some []
    | Node _ _ _ ch =>
        match ch with
        | [] => None
        | (c, _) :: _ => option_map (cons (0, match first_rep with Some x => x | None => 0 end)) (descend c None)
        end
    end.
  (* getLeafKeyFromKey 717-755 with cid = rep = 0 *)
  Definition leaf_key (root : tree) (key : position) : option text :=
    match walk root key with
    | None => None
    | Some (Leaf _ _) => Some (l_to_key key)
    | Some (Node n r p ch) =>
        match rev key with
        | (c, x) :: rest =>
            if c =? -1 then option_map (fun suff => l_to_key (rev rest ++ suff)) (descend (Node n r p ch) (Some x))
            else option_map (fun suff => l_to_key (key ++ suff)) (descend (Node n r p ch) None)
        | [] => option_map l_to_key (descend (Node n r p ch) None)
        end
    end.
  Definition zrange (n : Z) : list Z := map Z.of_nat (List.seq 0 (Z.to_nat n)).
  (* gatherCorrKeys 757-785, on the reversed key *)
  Fixpoint gather (root : tree) (rkey : position) : list (option text) :=
    match rkey with
    | [] => []
    | (c, x) :: rest =>
        if (match rest with [] => true | _ => false end) && (c =? -1) then map (fun i => leaf_key root [(-1, i)]) (zrange x)
        else map (fun i => leaf_key root (rev rest ++ [(i, x)])) (zrange c) ++
             map (fun i => leaf_key root (rev rest ++ [(-1, i)])) (zrange x) ++ gather root rest
    end.
  Fixpoint pairs_of (l : list (list Z)) : option position :=
    match l with
    | [] => Some []
    | [a; b] :: l' => option_map (cons (a, b)) (pairs_of l')
    | _ => None
    end.
  Fixpoint sum_opt (l : list (option Z)) : option Z :=
    match l with
    | [] => Some 0
    | Some x :: l' => option_map (Z.add x) (sum_opt l')
    | None :: _ => None
    end.
  (* getCCorr 451-467 *)
  Definition get_ccorr (root : tree) (k : text) (Ed : dict text Z) : option Z :=
    match pairs_of (key_to_l k) with
    | Some key => sum_opt (dget Ed k :: map (fun ok => match ok with Some kk => dget Ed kk | None => None end) (gather root (rev key)))
    | None => None
    end.
  Fixpoint all_some {B} (l : list (option B)) : option (list B) :=
    match l with
    | [] => Some []
    | Some x :: l' => option_map (cons x) (all_some l')
    | None :: _ => None
    end.
  (* getCovSeq 497-519 *)
  Definition get_cov_seq (t : tree) (t0 : Z) (E : list Z) : option (list (Z * A)) :=
    let oStar := occs_star t in
    let Ed := get_EDict oStar E in
    all_some (map (fun o => option_map (fun c => (fst (fst o) + t0 + c, snd (fst o))) (get_ccorr t (snd o) Ed)) oStar).
  (* getOccs 469-495 for a list of corrections *)
  Definition get_occs (t : tree) (t0 : Z) (E : list Z) : option (list Z) :=
    let oStar := occs_star t in
    let Ed := get_EDict oStar E in
    all_some (map (fun o => option_map (fun c => fst (fst o) + t0 + c) (get_ccorr t (snd o) Ed)) oStar).

  (* getEventsMinor 818-845, getNbLeaves 1197-1216, getNbOccs 1218-1237 *)
  Fixpoint events_minor (t : tree) (rep : bool) : list A :=
    match t with
    | Leaf _ e => [e]
    | Node _ r _ ch =>
        let ll := concat (map (fun cd => events_minor (fst cd) true) ch) in
        if rep then concat (repeat ll r) else ll
    end.
  Fixpoint leaf_events (t : tree) : list A :=          (* getEventsList(add_delimiter=False) 787-816 *)
    match t with
    | Leaf _ e => [e]
    | Node _ _ _ ch => concat (map (fun cd => leaf_events (fst cd)) ch)
    end.
  Fixpoint nb_leaves (t : tree) : nat :=
    match t with Leaf _ _ => 1%nat | Node _ _ _ ch => list_sum (map (fun cd => nb_leaves (fst cd)) ch) end.
  Fixpoint nb_occs (t : tree) : nat :=
    match t with Leaf _ _ => 1%nat | Node _ r _ ch => (r * list_sum (map (fun cd => nb_occs (fst cd)) ch))%nat end.
  Fixpoint node_ids (t : tree) : list nat :=
    match t with Leaf n _ => [n] | Node n _ _ ch => n :: concat (map (fun cd => node_ids (fst cd)) ch) end.

  (* factorizeTree 1093-1118 at the node itself: every child is an intermediate node whose
     first child is kept, and the first child becomes the common anchor *)
  Definition first_child (t : tree) : option tree :=
    match t with Node _ _ _ ((c, _) :: _) => Some c | _ => None end.
  Definition factor_node (t : tree) : tree :=
    match t with
    | Node n r p ch =>
        match ch with
        | (Node a r1 p1 _, _) :: _ =>
            match all_some (map (fun cd => option_map (fun c => (c, snd cd)) (first_child (fst cd))) ch) with
            | Some nch => Node n r p [(Node a r1 p1 nch, 0)]
            | None => t
            end
        | _ => t
        end
    | Leaf _ _ => t
    end.
  (* factorizeTree(nid): the node with that id *)
  Fixpoint factorize (nid : nat) (t : tree) : tree :=
    if (root_id t =? nid)%nat then factor_node t
    else match t with
         | Leaf _ _ => t
         | Node n r p ch => Node n r p (map (fun cd => (factorize nid (fst cd), snd cd)) ch)
         end.
  Definition children (t : tree) : list (tree * Z) := match t with Leaf _ _ => [] | Node _ _ _ ch => ch end.
  Definition same_cycle (a b : tree) : bool :=
    match a, b with
    | Node _ r p _, Node _ r' p' _ => (r =? r')%nat && (p =? p')
    | _, _ => false
    end.
  (* canFactorize 1120-1148 *)
  Fixpoint can_factorize (t : tree) : list nat :=
    match t with
    | Leaf _ _ => []
    | Node n _ _ ch =>
        concat (map (fun cd => can_factorize (fst cd)) ch) ++
        (if (1 <? length ch)%nat &&
            forallb (fun cd => (length (children (fst cd)) =? 1)%nat) ch &&
            match ch with [] => false | (c0, _) :: _ => forallb (fun cd => same_cycle c0 (fst cd)) ch end
         then [n] else [])
    end.
End Trees.
Arguments tree : clear implicits.

(* preparePatternSimple, candidate.py 73-80 *)
Definition simple_tree {A} (alpha : A) (r : nat) (p : Z) : tree A := Node 0 r p [(Leaf 1 alpha, 0)].
