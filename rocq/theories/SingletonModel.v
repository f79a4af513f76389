(* Model of skmine/graph/graphmdl/utils.py 382-417 (is_vertex_singleton, is_edge_singleton) and of
   skmine/graph/graphmdl/code_table.py 585-601 (get_node_label_number). *)
From Coq Require Import NArith.
From Verif Require Import Prelude CheckModel LCMModel TextModel GraphUtilModel.

Section Singletons.
  Context {L : Type} `{EqDec L}.

  (* utils.py 391; the total is a float there, a natural number here *)
  Definition is_vertex_singleton (g : graph L) : outcome bool :=
    if length (nodes g) =? 1 then bind (get_total_label g) (fun t => Ret (t =? 1)) else Ret false.

  (* "label" in pattern.nodes(data=True)[n] *)
  Definition labelled (g : graph L) (n : nat) : outcome bool :=
    match dget (nodes g) n with
    | None => Exn KeyError
    | Some None => Ret false
    | Some (Some _) => Ret true
    end.
  (* utils.py 403-417; the dictionary of the counts is never None *)
  Definition is_edge_singleton (g : graph L) : outcome bool :=
    if length (nodes g) =? 2 then
      bind (labelled g 1) (fun a =>
      if a then Ret false
      else bind (labelled g 2) (fun b =>
           if b then Ret false
           else bind (count_edge_label g) (fun d => Ret (match d with [(_, c)] => c =? 1 | _ => false end))))
    else Ret false.
End Singletons.

(* code_table.py 595-601, on labels that are texts *)
Definition get_node_label_number (n : nat) (g : graph text) : outcome nat :=
  match dget (nodes g) n with
  | None => Exn ValueError
  | Some None => Ret 0
  | Some (Some (Name l)) => Ret (length l)
  | Some (Some (Names ls)) | Some (Some (NameList ls)) => Ret (length ls)
  end.
