(* Model of skmine/graph/graphmdl/code_table.py [data_port] (232-243) and of the 'port' attribute of the data nodes,
   which the covers set and never take away.

   Simplifications: those of RewriteModel; a cover that raises is not continued. *)
From Verif Require Import Prelude CheckModel LCMModel GraphUtilModel GraphCoverModel RewriteModel.

Section DataPort.
  Context {L : Type} `{EqDec L}.
  Variable substr : L -> L -> bool.
  Variable set_order : list (nat * nat) -> list (nat * nat).
  Variable multi : bool.
  Variable g : data L.

  (* the data nodes that get the attribute in a cover: search_port 625-626, singleton_cover 817-818, 832 and 842 *)
  Definition port_marks (log : list (entry L)) : list nat := flat_map (fun x => map fst (e_ports x)) log.
  (* [cover] 82-103 of the data graph by one table after the other; the second component holds the nodes with the attribute *)
  Definition cover_ports (s : marks L * list nat) (rows : list (row L)) : outcome (marks L * list nat) :=
    bind (cover' substr set_order multi g rows (fst s)) (fun r => Ret (fst r, snd s ++ port_marks (snd r))).
  Definition covers (tables : list (list (row L))) (s : marks L * list nat) : outcome (marks L * list nat) :=
    fold_out cover_ports tables s.
  (* data_port 232-243 *)
  Definition data_port (ported : list nat) : list nat := filter (fun n => mem n ported) (dkeys (d_nodes g)).
End DataPort.
