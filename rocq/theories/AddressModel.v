(* Model of skmine/periodic/pattern.py and class_patterns.py: the keys of the nodes of a
   pattern tree, their display, and the renaming of events.
   [Pattern.nodes] holds parent numbers; the tree of TreeModel holds the nodes themselves.
   Both say the same for trees whose nodes have different numbers. *)
From Coq Require Import NArith String.
From Verif Require Import Prelude CheckModel LCMModel TextModel SplitModel ArrayModel PeriodModel TreeModel ExportModel.
Local Open Scope Z_scope.

Section Address.
  Context {A : Type}.

  (* getKeyLFromNid 669-715: None for a number that is no node; the code climbs from the node
     to the root, this function finds the same way from the root *)
  Fixpoint keyl_from_nid (t : tree A) (nid : nat) (rep : Z) : option position :=
    if (root_id t =? nid)%nat then Some []
    else match t with
         | Leaf _ _ => None
         | Node _ r _ ch =>
             (fix kids (cid : nat) (l : list (tree A * Z)) : option position :=
                match l with
                | [] => None
                | (c, _) :: l' =>
                    match keyl_from_nid c nid rep with
                    | Some kl => Some ((Z.of_nat cid, if rep =? -1 then Z.of_nat r - 1 else rep) :: kl)
                    | None => kids (S cid) l'
                    end
                end) O ch
         end.

  (* the node with a number, None if there is none: self.nodes[nid] *)
  Fixpoint find_node (t : tree A) (nid : nat) : option (tree A) :=
    if (root_id t =? nid)%nat then Some t
    else match t with
         | Leaf _ _ => None
         | Node _ _ _ ch =>
             (fix kids (l : list (tree A * Z)) : option (tree A) :=
                match l with
                | [] => None
                | (c, _) :: l' => match find_node c nid with Some s => Some s | None => kids l' end
                end) ch
         end.

  (* getKeyFromNid 642-667 *)
  Definition key_from_nid (t : tree A) (nid : nat) (rep : Z) : option text :=
    match keyl_from_nid t nid rep with
    | None => None
    | Some kl =>
        let kl' := match find_node t nid with
                   | Some (Node _ r _ _) => kl ++ [(-1, if rep =? -1 then Z.of_nat r - 1 else rep)]
                   | _ => kl
                   end in
        Some (l_to_key kl')
    end.

  (* getNidFromKey 608-640 on a text; only the first number of every pair is looked at.
     An IndexError for a number below minus the number of children is None here. *)
  Definition nid_from_key (t : tree A) (k : text) : option nat :=
    match k with
    | [] => Some O
    | _ => match key_to_l k with
           | [] => None
           | l => option_map root_id (walk t (map (fun q => (hd 0 q, 0)) l))
           end
    end.

  (* mapEvents 193-207 on events that are numbers; None is an IndexError.  The code replaces
     the events in place, so that some are replaced already when it raises: not modelled. *)
  Fixpoint map_events (names : list A) (t : tree Z) : option (tree A) :=
    match t with
    | Leaf n e => option_map (Leaf n) (py_nth names e)
    | Node n r p ch =>
        option_map (Node n r p)
          ((fix kids (l : list (tree Z * Z)) : option (list (tree A * Z)) :=
              match l with
              | [] => Some []
              | (c, d) :: l' =>
                  match map_events names c, kids l' with
                  | Some c', Some l'' => Some ((c', d) :: l'')
                  | _, _ => None
                  end
              end) ch)
    end.

  (* cardO 1464-1482 *)
  Fixpoint card_occs (t : tree A) : nat :=
    match t with
    | Leaf _ _ => 1%nat
    | Node _ r _ ch => (r * list_sum (map (fun cd => card_occs (fst cd)) ch))%nat
    end.
  (* getRVals 1417-1440 *)
  Fixpoint r_vals (t : tree A) : list nat :=
    match t with
    | Leaf _ _ => []
    | Node _ r _ ch => r :: concat (map (fun cd => r_vals (fst cd)) ch)
    end.
End Address.

(* l_to_br 370-388 *)
Definition l_to_br (l : list (Z * Z)) : text :=
  lit "B" ++ join comma (map (fun pf => str_z (fst pf + 1)) l) ++ lit "<" ++
  join comma (map (fun pf => str_z (snd pf + 1)) l) ++ lit ">".
(* key_to_br 391-394: pf[1] of a part of the key without comma is an IndexError *)
Definition key_to_br (key : text) : outcome text :=
  bind (map_out (fun q => match q with a :: b :: _ => Ret (a, b) | _ => Exn IndexError end) (key_to_l key))
       (fun l => Ret (l_to_br l)).
