(* Model of the second extraction of cycles, extract_cycles_fold_sub and extract_cycles_fold
   of skmine/periodic/extract_cycles.py (197-335).

   The times [occs] are a list of integers, in the order in which the log gives them.  Costs
   are exact rationals: [trip dp dE] stands for cost_triple(data_details, alpha, dp, dE),
   [cyc p os] for computeLengthCycle(data_details, {"p": p, "alpha": alpha, "occs": os}) and
   [small dE] for dE < bound_dE, for the fixed event alpha. *)
From Verif Require Import Prelude CheckModel LCMModel PeriodModel.
From Coq Require Import QArith.
Local Open Scope Z_scope.

(* positions in [occs] *)
Definition ppair := (nat * nat)%type.
Definition qlt (a b : Q) : bool := negb (Qle_bool b a).
(* the smallest key, min(d.keys()) *)
Definition ppair_leb (a b : ppair) : bool :=
  (fst a <? fst b)%nat || ((fst a =? fst b)%nat && (snd a <=? snd b)%nat).
Fixpoint min_key {V} (d : list (ppair * V)) : option ppair :=
  match d with
  | [] => None
  | (k, _) :: t => match min_key t with
                   | None => Some k
                   | Some m => Some (if ppair_leb k m then k else m)
                   end
  end.

Section Fold.
  Variable trip : Z -> Z -> Q.
  Variable cyc : Z -> list Z -> Q.
  Variable small : Z -> bool.
  Variable occs : list Z.
  Definition at_ (i : nat) : Z := nth i occs 0.

  (* 246-251: the distances from the centre, nearest position first.  max_p filters them. *)
  Definition bef (i : nat) (max_p : option Z) : list Z :=
    let c := at_ i in
    let l := map (fun t => t - c) (rev' (firstn i occs)) in
    match max_p with None => l | Some m => filter (fun d => - m <? d) l end.
  Definition aft (i : nat) (max_p : option Z) : list Z :=
    let c := at_ i in
    let l := map (fun t => t - c) (skipn (S i) occs) in
    match max_p with None => l | Some m => filter (fun d => d <? m) l end.

  (* 265-274: has half the period been seen at this centre?  The loop is left when [ipp] is
     negative or runs off the list. *)
  Fixpoint seen_loop (fuel : nat) (dp dp_alt : Z) (seen : list Z) (ipp : Z) : outcome (list Z * Z) :=
    match fuel with
    | O => NoFuel
    | S f =>
        if (0 <=? ipp) && (ipp <? Z.of_nat (length seen)) then
          let s := nth (Z.to_nat ipp) seen 0 in
          if dp =? 2 * s then seen_loop f dp dp_alt (seen ++ [dp]) (- s)
          else if dp_alt =? 2 * s then seen_loop f dp dp_alt (seen ++ [dp_alt]) (- s)
          else seen_loop f dp dp_alt seen (ipp + 1)
        else Ret (seen, ipp)
    end.

  (* 239-241: pairs_chain_test maps (i, j) to (deltaE, dp, before, cost); pairs_chain_fwd and
     pairs_chain_bck map (i, j) to (deltaE, dp, position); triples_tmp is like the first *)
  Record pairs := { test : dict ppair (Z * Z * nat * Q); fwd : dict ppair (Z * Z * nat);
                    bck : dict ppair (Z * Z * nat); trips : dict ppair (Z * Z * nat * Q) }.
  Definition no_pairs : pairs := {| test := []; fwd := []; bck := []; trips := [] |}.

  (* 277-289: the triple h < i < j with this centre *)
  Definition note (s : pairs) (h i j : nat) (dE dp : Z) (cost : Q) : pairs :=
    let s1 :=
      match dget (fwd s) (h, i) with
      | None =>
          match dget (test s) (h, i) with
          | Some (dE', dp', b, _) =>
              {| test := ddel (test s) (h, i); fwd := dset (fwd s) (h, i) (dE, dp, j);
                 bck := dset (bck s) (h, i) (dE', dp', b); trips := trips s |}
          | None => s
          end
      | Some (dE', _, _) =>
          if dE <? dE' then {| test := test s; fwd := dset (fwd s) (h, i) (dE, dp, j); bck := bck s; trips := trips s |}
          else s
      end in
    match dget (test s1) (i, j) with
    | None => {| test := dset (test s1) (i, j) (dE, dp, h, cost); fwd := fwd s1; bck := bck s1; trips := trips s1 |}
    | Some (dE', _, _, _) =>
        if dE <? dE' then {| test := dset (test s1) (i, j) (dE, dp, h, cost); fwd := fwd s1; bck := bck s1; trips := trips s1 |}
        else s1
    end.

  (* 253-292: both lists are walked; [fuel] bounds the steps of this walk, [sfuel] those of
     the loop over seen_ps *)
  Fixpoint walk (fuel sfuel : nat) (i : nat) (af be : list Z) (ia ib : nat) (seen : list Z) (s : pairs) : outcome pairs :=
    match fuel with
    | O => NoFuel
    | S f =>
        if (ia <? length af)%nat && (ib <? length be)%nat then
          let a := nth ia af 0 in
          let b := nth ib be 0 in
          if (S ib <? length be)%nat && (Z.abs (a + nth (S ib) be 0) <? Z.abs (a + b))
          then walk f sfuel i af be ia (S ib) seen s
          else if (S ia <? length af)%nat && (Z.abs (nth (S ia) af 0 + b) <? Z.abs (a + b))
          then walk f sfuel i af be (S ia) ib seen s
          else
            let dE := Z.abs (a + b) in
            if small dE then
              let dp := Z.min a (- b) in
              bind (seen_loop sfuel dp (Z.max a (- b)) seen 0) (fun r =>
              let '(seen', ipp) := r in
              if 0 <=? ipp
              then walk f sfuel i af be (S ia) (S ib) (seen' ++ [dp]) (note s (i - ib - 1) i (i + ia + 1) dE dp (trip dp dE))
              else walk f sfuel i af be (S ia) (S ib) seen' s)
            else walk f sfuel i af be (S ia) (S ib) seen s
        else Ret s
    end.
  (* 293-297: every hundred centres, the pairs that end before the centre are put aside *)
  Definition set_aside (i : nat) (s : pairs) : pairs :=
    if ((i mod 100 =? 0) && (0 <? i))%nat then
      let old := filter (fun kv => (snd (fst kv) <? i)%nat) (test s) in
      {| test := filter (fun kv => negb (snd (fst kv) <? i)%nat) (test s); fwd := fwd s; bck := bck s;
         trips := fold_left (fun d kv => dset d (fst kv) (snd kv)) old (trips s) |}
    else s.
  (* 243-297: the centres 1, 2, ..., len(occs) - 1.  The fuel of the walk is enough
     (PropFold); that of the loop over seen_ps is an argument. *)
  Fixpoint centres (sfuel : nat) (max_p : option Z) (l : list nat) (s : pairs) : outcome pairs :=
    match l with
    | [] => Ret s
    | i :: t =>
        bind (walk (S (length occs)) sfuel i (aft i max_p) (bef i max_p) 0 0 [] s) (fun s =>
        centres sfuel max_p t (set_aside i s))
    end.

  (* 306-310: following the chain; [cur] is reversed *)
  Fixpoint follow (fuel : nat) (fw : dict ppair (Z * Z * nat)) (tr : dict ppair (Z * Z * nat * Q)) (y z : nat) (rest : list nat)
    : dict ppair (Z * Z * nat) * dict ppair (Z * Z * nat * Q) * list nat :=
    match fuel with
    | O => (fw, tr, z :: y :: rest)
    | S f =>
        match dget fw (y, z) with
        | None => (fw, tr, z :: y :: rest)
        | Some (_, _, n) => follow f (ddel fw (y, z)) (ddel tr (z, n)) z n (y :: rest)
        end
    end.
  Record chain := { ch_p : Z; ch_cost : Q; ch_pos : list nat; ch_occs : list Z }.
  (* 316 and 321-322: the tests on the costs *)
  Definition chain_ok (eff cost : Q) (n : nat) : bool :=
    (qlt eff 0 && qlt cost (- eff * inject_Z (Z.of_nat n - 1))) || qlt (cost / inject_Z (Z.of_nat n)) eff.
  Definition triple_ok (eff cost : Q) : bool := (qlt eff 0 && qlt cost (- (2) * eff)) || qlt (cost / 3) eff.
  (* 303-318; computePeriod of a chain never fails: it has at least three elements *)
  Fixpoint chains (fuel : nat) (eff : Q) (fw bk : dict ppair (Z * Z * nat)) (tr : dict ppair (Z * Z * nat * Q))
    : outcome (list chain * dict ppair (Z * Z * nat * Q)) :=
    match min_key fw with
    | None => Ret ([], tr)
    | Some kf =>
        match fuel with
        | O => NoFuel
        | S f =>
            match dget bk kf with
            | None => Exn KeyError
            | Some (_, _, b) =>
                let '(fw', tr', cur) := follow (length fw) fw tr (fst kf) (snd kf) [b] in
                let pos := rev cur in
                let os := map at_ pos in
                match compute_period os with
                | None => Exn ValueError
                | Some p =>
                    let cost := cyc p os in
                    bind (chains f eff fw' bk tr') (fun r =>
                    Ret (if chain_ok eff cost (length os)
                         then ({| ch_p := p; ch_cost := cost; ch_pos := pos; ch_occs := os |} :: fst r, snd r) else r))
                end
            end
        end
    end.
  (* a triple: deltaE, dp, cost and three positions *)
  Record triple := { tr_dE : Z; tr_p : Z; tr_cost : Q; tr_pos : list nat }.
  Definition triples_of (eff : Q) (offset : nat) (tr : dict ppair (Z * Z * nat * Q)) : list triple :=
    map (fun kv => let '(dE, dp, b, c) := snd kv in
           {| tr_dE := dE; tr_p := dp; tr_cost := c; tr_pos := [b + offset; fst (fst kv) + offset; snd (fst kv) + offset]%nat |})
        (filter (fun kv => triple_ok eff (snd (snd kv))) tr).

  (* extract_cycles_fold_sub 234-324 *)
  Definition fold_sub (sfuel : nat) (eff_trip eff_chain : Q) (offset : nat) (max_p : option Z) : outcome (list chain * list triple) :=
    bind (centres sfuel max_p (List.seq 1 (length occs - 1)) no_pairs) (fun s =>
    let tr := fold_left (fun d kv => dset d (fst kv) (snd kv)) (test s) (trips s) in
    bind (chains (length (fwd s)) eff_chain (fwd s) (bck s) tr) (fun r =>
    Ret (fst r, triples_of eff_trip offset (snd r)))).
End Fold.
Arguments ch_p : clear implicits.

Section Blocks.
  Variable trip : Z -> Z -> Q.
  Variable cyc : Z -> list Z -> Q.
  Variable small : Z -> bool.
  (* occs[i * 1500:(i + 1) * 1500] *)
  Definition block (occs : list Z) (i : nat) : list Z := firstn 1500 (skipn (i * 1500) occs).
  (* extract_cycles_fold 216-231 *)
  Definition extract_fold (sfuel : nat) (occs : list Z) (eff_trip eff_chain : Q) (max_p : option Z) : outcome (list chain * list triple) :=
    if (length occs <? 2000)%nat then fold_sub trip cyc small occs sfuel eff_trip eff_chain 0 max_p
    else
      fold_left (fun acc i =>
        bind acc (fun cts =>
        bind (fold_sub trip cyc small (block occs i) sfuel eff_trip eff_chain (i * 1500) max_p) (fun r =>
        Ret (fst cts ++ fst r, snd cts ++ snd r))))
        (List.seq 1 (length occs / 1500 - 1))
        (fold_sub trip cyc small (block occs 0) sfuel eff_trip eff_chain 0 max_p).
End Blocks.
