(* Model of skmine/periodic/extract_cycles.py lines 10-194. Costs are exact rationals: [cyc] stands for
   computeLengthCycle(data_details, {"alpha": alpha, "occs": .}) and [res] for the cost of one residual
   occurrence, for the fixed event alpha; the rounding of their sums is not modelled. *)
From Verif Require Import Prelude CheckModel LCMModel PeriodModel.
From Coq Require Import QArith.
Local Open Scope nat_scope.

(* a split point: None means "one cycle", Some z a position or -1 *)
Definition table := (dict (nat * nat) Q * dict (nat * nat) (option Z))%type.

(* recover_splits_rec 10-37; the fuel bounds the recursion depth *)
Fixpoint recover (fuel : nat) (sp : dict (nat * nat) (option Z)) (ia iz : nat) (singletons : bool) : list (nat * nat) :=
  let rest := if singletons then map (fun i => (i, i)) (List.seq ia (S iz - ia)) else [] in      (* 34-37 *)
  match fuel with
  | O => rest
  | S f =>
      match dget sp (ia, iz) with
      | Some None => [(ia, iz)]                                                                  (* 27-28 *)
      | Some (Some im) => if (0 <=? im)%Z
                          then recover f sp ia (Z.to_nat im) singletons ++ recover f sp (Z.to_nat im + 1) iz singletons
                          else rest
      | None => rest
      end
  end.

Section Seg.
  Variable cyc : list Z -> Q.
  Variable res : Q.
  Definition qn (n : nat) : Q := inject_Z (Z.of_nat n).
  (* [occs[i] for i in range(ia, iz + 1)] *)
  Definition occs_range (occs : list Z) (ia iz : nat) : list Z := map (fun i => nth i occs 0%Z) (List.seq ia (S iz - ia)).
  (* the first loop 48-58 *)
  Definition table3_step (occs : list Z) (tb : table) (ia : nat) : table :=
    let iz := ia + 2 in
    let s := cyc (occs_range occs ia iz) in
    if negb (Qle_bool (qn 3 * res) s) then (dset (fst tb) (ia, iz) s, dset (snd tb) (ia, iz) None)
    else (dset (fst tb) (ia, iz) (qn 3 * res)%Q, dset (snd tb) (ia, iz) (Some (-1)%Z)).
  (* lines 70-77; None is a KeyError *)
  Definition side (scores : dict (nat * nat) Q) (a b : nat) : option Q :=
    if b - a + 1 <=? 2 then Some (res * qn (b - a + 1))%Q else dget scores (a, b).
  (* lines 69-81 *)
  Fixpoint try_splits (scores : dict (nat * nat) Q) (ia iz : nat) (ims : list nat) (best : Q * option Z) : option (Q * option Z) :=
    match ims with
    | [] => Some best
    | im :: ims' =>
        match side scores ia im, side scores (im + 1) iz with
        | Some l, Some r => try_splits scores ia iz ims' (if negb (Qle_bool (fst best) (l + r)) then ((l + r)%Q, Some (Z.of_nat im)) else best)
        | _, _ => None
        end
    end.
  Definition table_step (occs : list Z) (k : nat) (tb : option table) (ia : nat) : option table :=
    match tb with
    | None => None
    | Some (scores, sp) =>
        let iz := ia + k in
        match try_splits scores ia iz (List.seq ia (iz - ia)) (cyc (occs_range occs ia iz), None) with
        | Some (v, p) => Some (dset scores (ia, iz) v, dset sp (ia, iz) p)
        | None => None
        end
    end.
  (* compute_table_dyn 41-85 *)
  Definition compute_table (occs : list Z) : option table :=
    let n := length occs in
    let tb3 := fold_left (table3_step occs) (List.seq 0 (n - 2)) ([], []) in
    fold_left (fun tb k => fold_left (table_step occs k) (List.seq 0 (n - k)) tb) (List.seq 3 (n - 3)) (Some tb3).

  (* combine_splits 88-131. The fuel bounds the outer while loop, which pops adj_splits *)
  Fixpoint skip_from (l : list (nat * nat)) (a i : nat) : nat :=
    match l with [] => i | s :: l' => if snd s <? a then skip_from l' a (S i) else i end.
  Definition skip_before (splits : list (nat * nat)) (a i : nat) : nat := skip_from (skipn i splits) a i.      (* 110-111 *)
  Fixpoint combine_loop (fuel : nat) (splits adj : list (nat * nat)) (prev_i : nat) : nat * list (nat * nat) :=
    match fuel, adj with
    | S f, (a0, z0) :: adj' =>
        let i := skip_before splits a0 prev_i in
        match nth_error splits i with
        | None => (i, adj)                                                         (* 113-115 *)
        | Some (sa, sz) =>
            if a0 <=? sa then (i, adj)                                             (* 116-118 *)
            else if z0 <=? sz then (match adj' with [] => (i, []) | _ => combine_loop f splits adj' i end)  (* 121-125 *)
            else (i, (sa, z0) :: adj')                                             (* 126-128 *)
        end
    | _, _ => (prev_i, adj)
    end.
  Definition combine_splits (splits adj : list (nat * nat)) : list (nat * nat) :=
    match adj, splits with
    | [], _ => splits
    | _, [] => adj
    | _, _ => let '(i, adj') := combine_loop (length adj) splits adj 0 in firstn i splits ++ adj'
    end.

  Definition block_size : nat := 100.
  Definition step_size : nat := 80.
  (* the while loop 155-168: pstart + .5 * DYN_BLOCK_SIZE < ilast; costs are left out here, they only feed
     the "cost" field. The fuel bounds the number of blocks. *)
  Fixpoint blocks (fuel : nat) (occs : list Z) (pstart : nat) (splits : list (nat * nat)) : option (list (nat * nat)) :=
    match fuel with
    | O => None
    | S f =>
        if pstart + 50 <? length occs then
          let nb := firstn block_size (skipn pstart occs) in
          match compute_table nb with
          | None => None
          | Some (_, sp) =>
              let bs := recover (length nb) sp 0 (length nb - 1) false in
              let adj := map (fun s => (fst s + pstart, snd s + pstart)) bs in
              blocks f occs (pstart + step_size) (combine_splits splits adj)
          end
        else Some splits
    end.
  Definition all_splits (occs : list Z) : option (list (nat * nat)) :=
    if 2 * block_size <? length occs then blocks (length occs) occs 0 []
    else match compute_table occs with
         | None => None
         | Some (_, sp) => Some (recover (length occs) sp 0 (length occs - 1) false)
         end.
  (* compute_cycles_dyn 134-194 with residuals=True: the occurrence lists of the cycles, sorted by first
     occurrence, and the residual occurrences *)
  Definition cyc_leb (l1 l2 : list Z) : bool := (hd 0 l1 <=? hd 0 l2)%Z.
  Definition compute_cycles (occs : list Z) : option (list (list Z) * list Z) :=
    match all_splits occs with
    | None => None
    | Some splits =>
        let cycles := map (fun s => occs_range occs (fst s) (snd s)) (filter (fun s => 1 <? snd s - fst s) splits) in
        let covered := concat cycles in
        Some (sort cyc_leb cycles, sort Z.leb (nodup Z.eq_dec (filter (fun o => negb (mem o covered)) occs)))
    end.
End Seg.
