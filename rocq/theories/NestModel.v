(* Model of the two ways skmine/periodic/run_mine.py builds candidates out of candidates:
   prepare_candidate_nested (57-143) and prepare_candidate_concats (146-193), with the block
   methods of skmine/periodic/candidate.py. *)
From Verif Require Import Prelude CheckModel LCMModel TextModel SplitModel ArrayModel PeriodModel TreeModel.
Local Open Scope Z_scope.

Section Nest.
  Context {A : Type}.
  (* candidate.py 31-41, 53-66: P is a dictionary with "alpha" and "p" or a Pattern *)
  Inductive cpatt := Simple (e : A) (p : Z) | Patt (t : tree A).
  Record ccand := { cc_P : cpatt; cc_O : list Z; cc_E : list Z }.
  Definition get_t0 (c : ccand) : outcome Z := match cc_O c with o :: _ => Ret o | [] => Exn IndexError end.   (* 107-108 *)

  (* pattern.py 1152-1196 *)
  Fixpoint cycle_ps (t : tree A) : list Z :=
    match t with Leaf _ _ => [] | Node _ _ p ch => p :: concat (map (fun cd => cycle_ps (fst cd)) ch) end.
  Fixpoint cycle_rs (t : tree A) : list nat :=
    match t with Leaf _ _ => [] | Node _ r _ ch => r :: concat (map (fun cd => cycle_rs (fst cd)) ch) end.
  Definition depth (c : ccand) : nat := match cc_P c with Simple _ _ => 1%nat | Patt t => length (cycle_ps t) end.

  (* Pattern.getTranslatedNodes 207-234: other ids, same tree.  [nm] gives the new ids; the
     code numbers the nodes in the order of its dictionary *)
  Fixpoint renum (nm : nat -> nat) (t : tree A) : tree A :=
    match t with
    | Leaf n e => Leaf (nm n) e
    | Node n r p ch => Node (nm n) r p (map (fun cd => (renum nm (fst cd), snd cd)) ch)
    end.
  Definition renum_kids (nm : nat -> nat) (ch : list (tree A * Z)) : list (tree A * Z) := map (fun cd => (renum nm (fst cd), snd cd)) ch.

  (* prepare_tree_nested 57-93.  [nm] as above; the root of the inner pattern is taken to be the
     first node of its dictionary, as the code needs for nmap[0] to be the offset.  The nodes
     0 .. len(prds)-depth; an empty range makes tree[0] a KeyError *)
  Fixpoint chain (bottom : nat -> Z -> nat -> outcome (tree A)) (i : nat) (prs : list (Z * nat)) : outcome (tree A) :=
    match prs with
    | [] => Exn KeyError
    | [(p, r)] => bottom i p r
    | (p, r) :: prs' => bind (chain bottom (S i) prs') (fun t => Ret (Node i r p [(t, 0)]))
    end.
  Definition nested_tree (nm : nat -> nat) (c : ccand) (prds : list Z) (lens : list nat) : outcome (tree A) :=
    chain (fun i p r =>
             match cc_P c with
             | Simple e _ => Ret (Node i r p [(Leaf (S i) e, 0)])
             | Patt (Node _ _ _ ch) => Ret (Node i r p (renum_kids nm ch))
             | Patt (Leaf _ _) => Exn KeyError
             end) 0 (combine (firstn (length prds + 1 - depth c) prds) lens).

  (* itertools.product of ranges, in its order *)
  Fixpoint reps (lens : list nat) : list (list nat) :=
    match lens with [] => [[]] | l :: ls => concat (map (fun i => map (cons i) (reps ls)) (List.seq 0 l)) end.
  (* 132-134: the last position that is not 0; None when the loop runs off the tuple *)
  Fixpoint last_nz (pp : list nat) : option nat :=
    match pp with
    | [] => None
    | x :: t => match last_nz t with Some i => Some (S i) | None => if (x =? 0)%nat then None else Some O end
    end.
  Fixpoint dec_at (pp : list nat) (i : nat) : list nat :=                              (* 131, 135 *)
    match pp, i with
    | [], _ => []
    | x :: t, O => (x - 1)%nat :: t
    | x :: t, S i' => x :: dec_at t i'
    end.
  Definition nth_out {B} (l : list B) (i : nat) : outcome B := match nth_error l i with Some x => Ret x | None => Exn IndexError end.
  (* 125-139, one turn of the loop.  [cs] are the candidates of idxs in order *)
  Definition nest_turn (cs : list ccand) (prds : list Z) (list_reps : list (list nat)) (pi : nat) (pp : list nat) : outcome (list Z) :=
    bind (nth_out cs pi) (fun c =>
    bind (get_t0 c) (fun t0i =>
    match pi with
    | O => Ret (cc_E c)
    | _ => match last_nz pp with
           | None => Exn IndexError
           | Some i =>
               bind (nth_out cs (first_index (dec_at pp i) list_reps)) (fun cp =>
               bind (get_t0 cp) (fun t0prec =>
               bind (nth_out prds i) (fun p => Ret (((t0i - t0prec) - p) :: cc_E c))))
           end
    end)).
  (* prepare_candidate_nested 96-143.  The key "p1+p2_l2*l1" is taken parsed into periods and
     lengths (in the order of 115) *)
  Definition prepare_nested (nm : nat -> nat) (cs : list ccand) (prds : list Z) (lens : list nat) : outcome ccand :=
    bind (nth_out cs 0) (fun c0 =>
    let list_reps := reps (firstn (length lens - depth c0) lens) in
    bind (map_out (fun x => nest_turn cs prds list_reps (fst x) (snd x)) (combine (List.seq 0 (length list_reps)) list_reps)) (fun Ess =>
    bind (nested_tree nm c0 prds lens) (fun t =>
    Ret {| cc_P := Patt t; cc_O := concat (map cc_O cs); cc_E := concat Ess |}))).

  (* ------------------------------------------------------------- concatenation *)
  (* getDepth 1239-1257, getWidth 1259-1277 *)
  Fixpoint tree_depth (t : tree A) : nat :=
    match t with Leaf _ _ => O | Node _ _ _ ch => S (list_max (map (fun cd => tree_depth (fst cd)) ch)) end.
  Fixpoint tree_width (t : tree A) : nat :=
    match t with Leaf _ _ => 1%nat | Node _ _ _ ch => list_sum (map (fun cd => tree_width (fst cd)) ch) end.
  (* candidate.py 89-90, 185-189 *)
  Definition major_r (c : ccand) : nat :=
    match cc_P c with
    | Patt (Node _ r _ ch as t) => if (1 <? tree_depth t)%nat || (1 <? tree_width t)%nat then r else length (cc_O c)
    | _ => length (cc_O c)
    end.
  Definition cut (l : list Z) (a b : nat) : list Z := firstn (b - a) (skipn a l).       (* l[a:b] *)
  (* 203-212; r = 0 is a ZeroDivisionError, not modelled: Coq's 0 / 0 = 0 gives no blocks *)
  Definition blocks_O (c : ccand) (from : nat) : list (list Z) :=
    let r := major_r c in let len := (length (cc_O c) / r)%nat in
    map (fun i => cut (cc_O c) (i * len) ((i + 1) * len)) (List.seq from (r - from)).
  Definition blocks_E (c : ccand) (from : nat) : list (list Z) :=
    let r := major_r c in let len := (length (cc_O c) / r)%nat in
    map (fun i => cut (0 :: cc_E c) (i * len + 1) ((i + 1) * len)) (List.seq from (r - from)).
  (* 214-223 with the removal of the root, 171-172 *)
  Definition top_kids (nm : nat -> nat) (c : ccand) : outcome (list (tree A * Z)) :=
    match cc_P c with
    | Simple e _ => Ret [(Leaf (nm 1%nat) e, 0)]
    | Patt (Node _ _ _ ch) => Ret (renum_kids nm ch)
    | Patt (Leaf _ _) => Exn KeyError
    end.
  Definition head_at (bl : list (list Z)) (ri : nat) : outcome Z :=
    bind (nth_out bl ri) (fun b => match b with o :: _ => Ret o | [] => Exn IndexError end).
  (* 162-178: the children of the root; [prev] is Pblks_occs[ci - 1][0][0] *)
  Fixpoint concat_kids (nms : nat -> nat -> nat) (ci : nat) (prev : option (list (list Z))) (l : list (ccand * nat)) : outcome (list (tree A * Z)) :=
    match l with
    | [] => Ret []
    | (c, f) :: l' =>
        let bo := blocks_O c f in
        bind (top_kids (nms ci) c) (fun ch =>
        bind (match prev with
              | None => Ret ch
              | Some pb => match ch with
                           | [] => Exn IndexError
                           | (k, _) :: ch' => bind (head_at bo 0) (fun a => bind (head_at pb 0) (fun b => Ret ((k, a - b) :: ch')))
                           end
              end) (fun ch1 =>
        bind (concat_kids nms (S ci) (Some bo) l') (fun rest => Ret (ch1 ++ rest))))
    end.
  (* 180-191, the body of the inner loop: the corrections added for part ei in repetition ri *)
  Definition concat_turn (Pos Pes : list (list (list Z))) (p0 : Z) (ds : list Z) (ri ei : nat) : outcome (list Z) :=
    bind (nth_out Pos ei) (fun po => bind (nth_out Pes ei) (fun pe => bind (nth_out pe ri) (fun be =>
    match ei with
    | O => match ri with
           | O => Ret be
           | S ri' => bind (head_at po ri) (fun a => bind (head_at po ri') (fun b => Ret (((a - b) - p0) :: be)))
           end
    | S ei' => bind (nth_out Pos ei') (fun po' => bind (head_at po ri) (fun a => bind (head_at po' ri) (fun b =>
               bind (nth_out ds ei) (fun d => Ret (((a - b) - d) :: be)))))
    end))).
  (* prepare_candidate_concats 146-193 *)
  Definition prepare_concats (nms : nat -> nat -> nat) (cands : list ccand) (p0 : Z) (r0 : nat) (first_rs : list nat) : outcome ccand :=
    let l := combine cands first_rs in
    bind (concat_kids nms 0 None l) (fun ch =>
    let Pos := map (fun cf => blocks_O (fst cf) (snd cf)) l in
    let Pes := map (fun cf => blocks_E (fst cf) (snd cf)) l in
    bind (map_out (fun ri => map_out (fun ei => bind (nth_out Pos ei) (fun po => nth_out po ri)) (List.seq 0 (length Pos))) (List.seq 0 r0)) (fun Os =>
    bind (map_out (fun ri => map_out (concat_turn Pos Pes p0 (map snd ch) ri) (List.seq 0 (length Pos))) (List.seq 0 r0)) (fun Es =>
    Ret {| cc_P := Patt (Node 0 r0 p0 ch); cc_O := concat (map (@concat Z) Os); cc_E := concat (map (@concat Z) Es) |}))).
End Nest.
Arguments cpatt : clear implicits. Arguments ccand : clear implicits.
