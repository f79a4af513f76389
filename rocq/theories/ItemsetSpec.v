(* Specification vocabulary for transactional databases, independent of the
   mining algorithms.  A database is a list of transactions, a transaction a list
   of items (repetitions allowed), an itemset a list read as a set. *)
From Verif Require Import Prelude.

Section Spec.
  Context {A : Type} `{EqDec A}.

  Definition same_items (X Y : list A) : Prop := incl X Y /\ incl Y X.
  (* item x occurs somewhere in D *)
  Definition occurs (D : list (list A)) (x : A) : Prop := exists t, In t D /\ In x t.
  (* positions of the transactions that contain every item of X, ascending *)
  Definition tidset (D : list (list A)) (X : list A) : list nat :=
    filter (fun i => subset X (nth i D [])) (seq 0 (length D)).
  (* number of transactions that contain every item of X *)
  Definition support (D : list (list A)) (X : list A) : nat :=
    length (filter (fun t => subset X t) D).
  (* X is made of items of D, and no other item of D is in all its transactions *)
  Definition closed_in (D : list (list A)) (X : list A) : Prop :=
    (forall x, In x X -> occurs D x) /\
    (forall x, occurs D x -> (forall t, In t D -> incl X t -> In x t) -> In x X).
  (* maximal among the itemsets over items of D satisfying P *)
  Definition maximal_such (P : list A -> Prop) (D : list (list A)) (X : list A) : Prop :=
    P X /\ (forall x, In x X -> occurs D x) /\
    forall Y, (forall y, In y Y -> occurs D y) -> incl X Y -> P Y -> incl Y X.
End Spec.
