(* Model of skmine/utils.py bron_kerbosch (311-340) and
   skmine/periodic/run_mine.py bronKerbosch3Plus (21-54).
   [nb v] is the value of the graph dictionary at key v.  A dictionary of
   candidates (or excluded nodes) is the list of its keys: the values never change.
   Python's recursion limit is not modelled; [fuel] bounds the depth. *)
From Verif Require Import Prelude CheckModel.

Section Clique.
  Context {A : Type} `{EqDec A} (nb : A -> list A).

  (* dictionary/set deletion of one key *)
  Definition remove1 (v : A) (l : list A) : list A := filter (fun x => negb (eqd x v)) l.

  (* run_mine.py 21-54.  [iter] is the order of [list(P)]; the sets handed to the
     recursive call are fresh, P and X of this call are updated in the loop.
     The cliques are appended to [collect] in the order of the result. *)
  Fixpoint bk3 (iter : list A -> list A) (fuel : nat) (P R X : list A) : outcome (list (list A)) :=
    match fuel with
    | 0 => NoFuel
    | S f =>
        match P, X with
        | [], [] => Ret (if 2 <? length R then [R] else [])
        | _, _ =>
            (fix loop (lP P X : list A) : outcome (list (list A)) :=
               match lP with
               | [] => Ret []
               | v :: t =>
                   bind (bk3 iter f (inter P (nb v)) (union R [v]) (inter X (nb v))) (fun c1 =>
                   bind (loop t (remove1 v P) (union X [v])) (fun c2 => Ret (c1 ++ c2)))
               end) (iter P) P X
        end
    end.

  (* utils.py 311-340.  The recursive call never passes [depth], so the cut at depth 20
     is never taken.  {node} | clique puts the node first; excluded[node] appends. *)
  Fixpoint bron_kerbosch (fuel : nat) (candidates clique excluded : list A) : outcome (list (list A)) :=
    match fuel with
    | 0 => NoFuel
    | S f =>
        if (match candidates, excluded with [], [] => 2 <? length clique | _, _ => false end)
        then Ret [clique]
        else
          (fix loop (nodes candidates excluded : list A) : outcome (list (list A)) :=
             match nodes with
             | [] => Ret []
             | v :: t =>
                 bind (bron_kerbosch f (filter (fun k => mem k (nb v)) candidates) (v :: clique)
                                       (filter (fun k => mem k (nb v)) excluded)) (fun c1 =>
                 bind (loop t (remove1 v candidates) (excluded ++ [v])) (fun c2 => Ret (c1 ++ c2)))
             end) candidates candidates excluded
    end.
End Clique.
