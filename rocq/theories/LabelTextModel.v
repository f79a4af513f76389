(* Model of display_vertex_lc, display_edge_lc and __str__ of LabelCodes, skmine/graph/graphmdl/label_codes.py
   23-45 and 108-110. *)
From Coq Require Import NArith String Reals.
From Verif Require Import Prelude CheckModel TextModel ExportModel GraphUtilModel GraphLengthModel.

Section Text.
  Context {L : Type} (show : L -> text) (show_r : R -> text).
  (* 29-32 and 41-45: msg += "{}->{}\n" for each item of the dictionary *)
  Definition display_lc (d : list (L * R)) : text :=
    fold_left (fun msg ij => msg ++ show (fst ij) ++ lit "->" ++ show_r (snd ij) ++ [nl]) d [].
  (* 108-110 *)
  Definition label_codes_str (t : label_codes L) : text :=
    lit "Edge label" ++ [nl] ++ lit "-----------------" ++ [nl] ++ display_lc (edges_lc t) ++
    [nl] ++ lit "Vertex label" ++ [nl] ++ lit "----------------------" ++ [nl] ++ display_lc (vertex_lc t).
End Text.
