(* Model of skmine/emerging/mbdldorber.py: border_diff (16-47), mbdllborder (50-73),
   borders_to_patterns (76-102), MBDLLBorder.fit (156-191) and discover (193-211).
   Sets are lists (Prelude).  [iter] is the hash order in which a set is walked. *)
From Verif Require Import Prelude FilterModel CheckModel LCMModel SlimAppsModel.
From Coq Require Import QArith.
Local Open Scope nat_scope.

Section MBD.
  Context {A : Type} `{EqDec A} (iter : list A -> list A).

  (* mbdldorber.py 43-45: one value of i *)
  Definition bd_step (U : list A) (L2 : list (list A)) (s : list A) : list (list A) :=
    filter_minimal (flat_map (fun x => map (fun X => union X [x]) L2) (iter (diff U s))).
  (* mbdldorber.py 42-47; S[0] of an empty list raises IndexError *)
  Definition border_diff (U : list A) (S : list (list A)) : outcome (list (list A) * list A) :=
    match S with
    | [] => Exn IndexError
    | s0 :: rest => Ret (fold_left (bd_step U) rest (map (fun x => [x]) (iter (diff U s0))), U)
    end.

  (* mbdldorber.py 61-73 *)
  Fixpoint mbdllborder (isets1 isets2 : list (list A)) : outcome (list (list (list A) * list A)) :=
    match isets2 with
    | [] => Ret []
    | iset :: rest =>
        if existsb (fun e => psubset iset e) isets1 then mbdllborder isets1 rest
        else bind (border_diff iset (filter_maximal (map (fun e => inter iset e) isets1)))
                  (fun d => bind (mbdllborder isets1 rest) (fun ds => Ret (d :: ds)))
    end.

  (* itertools.combinations, in its documented order *)
  Fixpoint combinations (l : list A) (k : nat) : list (list A) :=
    match k with
    | 0 => [[]]
    | S k' => match l with
              | [] => []
              | x :: t => map (cons x) (combinations t k') ++ combinations t k
              end
    end.
  (* mbdldorber.py 93: [min_size or min(map(len, left))] *)
  Definition least_size (left : list (list A)) (min_size : option nat) : outcome nat :=
    match min_size with
    | Some (S m) => Ret (S m)
    | _ => match map card left with
           | [] => Exn ValueError
           | c :: t => Ret (fold_left Nat.min t c)
           end
    end.
  (* mbdldorber.py 95-102.  [right] is a set: its list is free of repetitions.
     range(len(right)-1, min_size-1, -1) with min_size >= 1; when min_size is 0
     (left holds the empty set) the range goes down to 0 included. *)
  Definition sizes (n m : nat) : list nat :=
    filter (fun k => m <=? k) (rev (seq 0 n)).
  Definition borders_to_patterns (left : list (list A)) (right : list A) (min_size : option nat)
    : outcome (list (list A)) :=
    bind (least_size left min_size) (fun m =>
      Ret (flat_map (fun size => filter (fun pat => negb (existsb (fun e => subset pat e) left))
                                        (combinations (iter right) size))
                    (sizes (length right) m))).

  (* mbdldorber.py 193-211; Parallel returns the results in order *)
  Fixpoint discover (borders : list (list (list A) * list A)) (min_size : option nat) : outcome (list (list A)) :=
    match borders with
    | [] => Ret []
    | (L, R) :: t => bind (borders_to_patterns L R min_size)
                          (fun p => bind (discover t min_size) (fun q => Ret (p ++ q)))
    end.

  (* mbdldorber.py 156-191.  [y] has the length of [D]; LCMMax raises ValueError on a
     threshold outside [0,1] *)
  Context (leA : A -> A -> bool) {L : Type} `{EqDec L} (leL : L -> L -> bool).
  Definition part (D : list (list A)) (y : list L) (c : L) : list (list A) :=
    map fst (filter (fun p => eqd (snd p) c) (combine D y)).
  Definition mbd_fit (min_supp growth : Q) (D : list (list A)) (y : list L) (sched1 sched2 : list nat)
    : outcome (list (list (list A) * list A)) :=
    match np_unique leL y with
    | [c1; c2] =>
        match lcm_max leA (Rel min_supp) (part D y c1) true (-1) sched1 with
        | None => Exn ValueError
        | Some r1 =>
            match lcm_max leA (Rel (growth * min_supp)) (part D y c2) true (-1) sched2 with
            | None => Exn ValueError
            | Some r2 => mbdllborder (map r_items r1) (map r_items r2)
            end
        end
    | _ => Exn AssertionError
    end.
End MBD.
