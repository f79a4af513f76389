(* Model of GraphMDL.patterns on a covered code table,
   skmine/graph/graphmdl/graph_mdl.py 255-275. *)
From Coq Require Import Reals.
From Verif Require Import Prelude CheckModel LCMModel GraphUtilModel GraphCoverModel MergeModel RewriteModel.
From Verif Require Import PrequentialModel GraphLengthModel GenerateModel.
Open Scope nat_scope.

Section Report.
  Context {L : Type} `{EqDec L}.
  Variable multi : bool.

  (* lines 266-268: the patterns of the rows whose code_length() is not 0 *)
  Definition reported_rows (c : table L) : list (graph L) :=
    map c_pattern (filter (fun r => if Req_EM_T (row_code_length r (usage_sum c)) 0 then false else true) (t_rows c)).
  (* lines 270-271: a pattern for each key of singleton_code_length(); utils.py
     982-1004 asks for edge names first *)
  Definition reported_singletons (c : table L) : outcome (list (net L)) :=
    map_out (create_singleton_pattern multi (map fst (t_edge c)) (map fst (t_vertex c)))
            (dkeys (singleton_code_length c)).
  (* the set is given as the patterns of rows and the singletons *)
  Definition patterns (c : table L) : outcome (list (graph L) * list (net L)) :=
    bind (reported_singletons c) (fun ns => Ret (reported_rows c, ns)).
End Report.
