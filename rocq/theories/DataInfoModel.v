(* Model of DataSequence.getInfoStr, skmine/periodic/data_sequence.py 84-106, on the data sequences of
   PeriodModel whose events are texts. *)
From Coq Require Import NArith QArith String.
From Verif Require Import Prelude CheckModel LCMModel TextModel SplitModel PeriodModel ExportModel.
Local Open Scope Z_scope.

Section Info.
  (* "%.3f" of a frequency *)
  Variable f3 : Q -> text.
  Variable s : @dataseq text.

  (* 102-104; a missing key is a KeyError (list_ev has none to miss: the numbers come from its length) *)
  Definition info_line (k : nat) : outcome text :=
    match nth_error (ds_events s) k, dget (ds_counts s) k, dget (org_freqs (ds_counts s)) k, dget (ds_seqd s) k with
    | Some e, Some n, Some f, Some ts =>
        Ret (e ++ lit " [" ++ str_z (Z.of_nat k) ++ lit "] (|O|=" ++ str_z n ++ lit " f=" ++ f3 f ++
             lit " dT=" ++ str_z (zmax' ts - zmin' ts) ++ lit ")")
    | _, _, _, _ => Exn KeyError
    end.
  (* 104-105: the numbers of the events by number of occurrences; Python's sort is stable *)
  Definition info_order : outcome (list nat) :=
    bind (map_out (fun k => match dget (ds_counts s) k with Some n => Ret (n, k) | None => Exn KeyError end) (seq 0 (length (ds_events s))))
      (fun ks => Ret (map snd (sort (fun a b => fst a <=? fst b) ks))).
  (* 95-106; nbOccs has one key more than there are events, -1 for the total *)
  Definition get_info_str : outcome text :=
    let total := total_occs (ds_counts s) in
    if total =? 0 then Ret (lit "-- Empty Data Sequence")
    else
      bind info_order (fun ks => bind (map_out info_line ks) (fun lines =>
      Ret (lit "-- Data Sequence |A|=" ++ str_z (Z.of_nat (length (ds_counts s))) ++ lit " |O|=" ++ str_z total ++
           lit " dT=" ++ str_z (ds_end s - ds_start s) ++
           lit " (" ++ str_z (ds_start s) ++ lit " to " ++ str_z (ds_end s) ++ lit ")" ++
           [nl; 9%N] ++ join [nl; 9%N] lines))).
End Info.
