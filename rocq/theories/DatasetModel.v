(* Model of skmine/datasets/_samples_generator.py, skmine/datasets/utils.py and
   skmine/datasets/fimi.py _read_dat.
   Floating point: [rnd] is the rounding of one float operation; a theorem states what
   it needs of it.  Random draws are arguments. *)
From Verif Require Import Prelude CheckModel TextModel SplitModel.
From Coq Require Import QArith Qround.
Local Open Scope nat_scope.

(* np.arange(start, start + n) *)
Definition arange (start : Z) (n : nat) : list Z := map (fun i => (start + Z.of_nat i)%Z) (seq 0 n).
Definition list_max' (l : list nat) : nat := fold_right Nat.max 0 l.
Fixpoint list_min' (l : list nat) : nat :=
  match l with [] => 0 | [x] => x | x :: t => Nat.min x (list_min' t) end.

Section Transactions.
  (* generator.binomial(n, 0.5, size); generator.choice(choices, size, replace=False) for
     the k-th transaction *)
  Context (rnd : Q -> Q) (binom : nat -> nat -> list nat) (choice : nat -> list Z -> nat -> list Z).
  (* line 79; choice raises ValueError when the population is too small *)
  Fixpoint draw (choices : list Z) (k : nat) (sizes : list nat) : outcome (list (list Z)) :=
    match sizes with
    | [] => Ret []
    | s :: t => if length choices <? s then Exn ValueError
                else bind (draw choices (S k) t) (fun r => Ret (choice k choices s :: r))
    end.
  (* make_transactions 10-81; the multiplication by 2 is exact in floating point and
     binomial truncates its float argument *)
  Definition make_transactions (n_transactions n_items : nat) (density : pyfloat) (item_start : Z)
    : outcome (list (list Z)) :=
    if negb (flt_gt density 0 && flt_lt density 1) then Exn ValueError         (* 61-62 *)
    else match density with
         | Fin d =>
             let avg := rnd (d * inject_Z (Z.of_nat n_items))%Q in
             let choices := arange item_start n_items in
             let sizes := binom (Z.to_nat (Qfloor (avg * inject_Z 2)%Q)) n_transactions in
             match sizes with
             | [] => Exn ValueError                                            (* max of an empty array *)
             | _ =>
                 let mx := list_max' sizes in
                 let sizes' :=
                   if n_items <? mx                                            (* 75-77 *)
                   then let a_min := list_min' sizes + (mx - n_items) in
                        map (fun s => Nat.min (Nat.max s a_min) n_items) sizes
                   else sizes in
                 draw choices 0 sizes'
             end
         | _ => Exn ValueError
         end.
End Transactions.

Section Classification.
  Context (rnd : Q -> Q) (binom : nat -> nat -> nat -> list nat) (choice : nat -> nat -> list Z -> nat -> list Z)
          (sample : list (list Z * nat) -> list (list Z * nat)).
  (* line 164; 1 - class_sep, the product and the difference are rounded *)
  Definition pad_step (n_items : nat) (sep : Q) : Z :=
    let n := inject_Z (Z.of_nat n_items) in
    Qfloor (rnd (n - rnd (n * rnd (1 - sep)))%Q).
  (* 148-172: one block of rows per class *)
  Fixpoint classes (n_samples n_items : nat) (sep : Q) (c : nat) (padding : Z) (ws : list Q) (ds : list pyfloat)
    : outcome (list (list Z * nat)) :=
    match ws, ds with
    | w :: ws', d :: ds' =>
        bind (make_transactions rnd (binom c) (choice c)
                (Z.to_nat (Qfloor (rnd (w * inject_Z (Z.of_nat n_samples))%Q))) n_items d padding) (fun T =>
        bind (classes n_samples n_items sep (S c) (padding + pad_step n_items sep)%Z ws' ds') (fun r =>
        Ret (map (fun t => (t, c)) T ++ r)))
    | _, _ => Ret []
    end.
  (* 137-144; the sum of the weights is exact here *)
  Definition qsum (l : list Q) : Q := fold_right Qplus 0%Q l.
  Definition weights_ok (ws : list Q) : bool :=
    let e := (qsum ws - 1)%Q in
    negb (Qle_bool (15 # 1000) e) && negb (Qle_bool e (- (15 # 1000))%Q).
  Definition make_classification (n_samples n_items n_classes : nat) (weights : option (list Q)) (sep : Q)
             (shuffle : bool) (densities : option (list pyfloat)) : outcome (list (list Z) * list nat) :=
    if n_classes =? 0 then Exn AssertionError
    else
      let ds := match densities with Some d => d | None => repeat (Fin (1 # 2)) n_classes end in
      let ws := match weights with Some w => w
                | None => repeat (rnd (1 / inject_Z (Z.of_nat n_classes))%Q) n_classes end in
      if negb ((length ws =? length ds) && (length ds =? n_classes)) then Exn AssertionError
      else if negb (Qle_bool 0 sep && Qle_bool sep 1) then Exn AssertionError
      else if negb (weights_ok ws) then Exn AssertionError
      else
        bind (classes n_samples n_items sep 0 0 ws ds) (fun rows =>
        let rows' := if shuffle then sample rows else rows in                   (* 176-177 *)
        Ret (map fst rows', map snd rows')).
End Classification.

(* ------------------------------------------------------- utils.py describe 8-42 *)
Section Describe.
  Context {A : Type} `{EqDec A}.
  Record description := { d_items : nat; d_transactions : nat; d_avg : option Q; d_density : option Q }.
  (* None is NaN *)
  Definition mean (l : list Z) : option Q :=
    match l with
    | [] => None
    | _ => Some (inject_Z (fold_right Z.add 0%Z l) / inject_Z (Z.of_nat (length l)))%Q
    end.
  Definition describe (D : list (list A)) : description :=
    let avg := mean (map (fun t => Z.of_nat (length t)) D) in
    let n := card (concat D) in
    {| d_items := n; d_transactions := length D; d_avg := avg;
       d_density := match avg with
                    | None => None
                    | Some a => if n =? 0 then None else Some (a / inject_Z (Z.of_nat n))%Q
                    end |}.
  (* describe_logs 45-76; D is a list of (time, event); groupby yields one group per
     distinct event *)
  Definition events (D : list (Z * A)) : list A := nodup eq_dec (map snd D).
  Definition group (D : list (Z * A)) (e : A) : list Z := map fst (filter (fun p => eqd (snd p) e) D).
  Definition zmax (l : list Z) : Z := match l with [] => 0%Z | x :: t => fold_left Z.max t x end.
  Definition zmin (l : list Z) : Z := match l with [] => 0%Z | x :: t => fold_left Z.min t x end.
  Record log_description := { l_events : nat; l_delta : option Q; l_points : option Q }.
  Definition describe_logs (D : list (Z * A)) : log_description :=
    let gb := map (group D) (events D) in
    {| l_events := length gb;
       l_delta := mean (map (fun g => (zmax g - zmin g)%Z) gb);
       l_points := mean (map (fun g => Z.of_nat (length g)) gb) |}.
End Describe.

(* ------------------------------------------------------------ fimi.py _read_dat 17-50 *)
Definition read_dat (sep content : text) : outcome (list (list text)) :=
  map_out (fun line => split_str sep (rstrip line)) (splitlines (universal content)).
Definition read_dat_int (sep content : text) : outcome (list (list Z)) :=
  map_out (fun line => bind (split_str sep (rstrip line)) (map_opt parse_int)) (splitlines (universal content)).
