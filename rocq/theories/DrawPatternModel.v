(* Model of draw_pattern and draw_pattern_rec, skmine/periodic/pattern.py 55-138. The Digraph is the list of the
   calls of its methods node and edge; colours, shapes and the order of the attributes are left out except for
   what tells boxes, ovals, plain and dotted edges apart. *)
From Coq Require Import NArith String.
From Verif Require Import Prelude CheckModel LCMModel TextModel SplitModel ExportModel.
Local Open Scope Z_scope.

(* a distance is an integer or, after PeriodicPatternMiner.draw_pattern on dates, a timedelta *)
Inductive dist := Int (z : Z) | Delta (z : Z).
(* child[1] != 0; a timedelta never equals an integer *)
Definition nonzero (d : dist) : bool := match d with Int z => negb (z =? 0) | Delta _ => true end.
Inductive call := Box (i : Z) (label : text) | Oval (i : Z) (label : text) | Line (a b : Z) | Dotted (a b : Z) (d : dist).
(* a node of the pattern has the key "p", then "r" and "children" too, or the key "event" *)
Inductive pnode := Block (p r : Z) (children : list (Z * dist)) | Event (e : text).

Section Draw.
  (* str of a period, an integer or a timedelta *)
  Variable str_p : Z -> text.
  Variable pat : list (Z * pnode).
  (* pattern["t0"] as a text, read for node 0 only *)
  Variable t0 : option text.
  Definition tau : text := [120591%N] ++ lit "=".
  (* 106-110 *)
  Definition block_label (i p r : Z) : outcome text :=
    let pr := lit "p=" ++ str_p p ++ [nl] ++ lit "r=" ++ str_z r in
    if i =? 0 then match t0 with Some t => Ret (tau ++ t ++ [nl] ++ pr) | None => Exn KeyError end else Ret pr.
  (* distance != (-1, -1) *)
  Definition minus_one (d : dist) : bool := match d with Int z => z =? -1 | Delta _ => false end.
  (* 116-117, 133-134: the distance from the node before *)
  Definition dotted (i : Z) (distance : Z * dist) : list call :=
    if (fst distance =? -1) && minus_one (snd distance) then [] else [Dotted (fst distance) i (snd distance)].
  (* 103-136 *)
  Fixpoint draw_rec (fuel : nat) (i parent : Z) (distance : Z * dist) : outcome (list call) :=
    match fuel with
    | O => NoFuel
    | S f =>
        match dget pat i with
        | None => Exn KeyError
        | Some (Block p r ch) =>
            bind (block_label i p r) (fun lab =>
            bind ((fix loop (prev : Z) (l : list (Z * dist)) : outcome (list call) :=                (* 120-124 *)
                     match l with
                     | [] => Ret []
                     | (c, d) :: t =>
                         bind (draw_rec f c i (if nonzero d then (prev, d) else (-1, Int (-1)))) (fun a =>
                         bind (loop c t) (fun b => Ret (a ++ b)))
                     end) (last (map fst ch) 0) ch)                                             (* children[-1] *)
              (fun below => Ret (Box i lab :: (if parent =? -1 then [] else Line parent i :: dotted i distance) ++ below)))
        | Some (Event e) => Ret (Oval i e :: Line parent i :: dotted i distance)                  (* 128-134 *)
        end
    end.
  Definition draw_pattern (fuel : nat) : outcome (list call) := draw_rec fuel 0 (-1) (-1, Int (-1)).
End Draw.
