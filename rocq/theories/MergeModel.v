(* Model of the merge of two patterns, skmine/graph/graphmdl/candidate.py
   51-169, and of the singleton patterns of utils.py 982-1004.

   Simplifications: the ports of a candidate are pairs of pattern nodes (the
   code writes node i as the string 'v<i>' and reads the number back, lines
   61-64); every edge of a pattern carries one name; edges are listed in the
   order in which they were added (networkx groups them by start node). *)
From Verif Require Import Prelude CheckModel LCMModel GraphUtilModel.

Section Merge.
  Context {L : Type} `{EqDec L}.
  (* are the patterns MultiDiGraphs?  Lines 57-60. *)
  Variable multi : bool.

  (* a pattern, seen through nodes(data=True) and edges(data=True) *)
  Record net := { n_nodes : list (nat * option (label L)); n_edges : list (nat * nat * L) }.
  Definition empty : net := {| n_nodes := []; n_edges := [] |}.

  (* what a call does: return, or raise (UnboundLocalError is not among the
     exceptions of CheckModel) *)
  Inductive failure := UnboundLocalError | Raises (e : exn).
  Inductive result := Ok (g : net) | Fails (f : failure).
  Definition and_then (r : result) (k : net -> result) : result :=
    match r with Ok g => k g | Fails f => Fails f end.

  (* networkx [add_node(n)], [add_node(n, label=lab)]: an existing node keeps
     its place and its label unless a new one is given *)
  Definition add_node (g : net) (n : nat) (lab : option (label L)) : net :=
    {| n_nodes := match dget (n_nodes g) n, lab with
                  | Some _, None => n_nodes g
                  | _, _ => dset (n_nodes g) n lab
                  end;
       n_edges := n_edges g |}.
  (* [graph.nodes[n]['label'] = lab] for an existing node *)
  Definition set_label (g : net) (n : nat) (lab : label L) : net :=
    {| n_nodes := dset (n_nodes g) n (Some lab); n_edges := n_edges g |}.

  (* networkx [add_edge(u, v, label=l)]: end points that do not exist are
     created; in a DiGraph an existing edge gets the new label, in a
     MultiDiGraph a parallel edge is added *)
  Fixpoint relabel (es : list (nat * nat * L)) (u v : nat) (l : L) : list (nat * nat * L) :=
    match es with
    | [] => [(u, v, l)]
    | e :: r => if eqd (fst e) (u, v) then (u, v, l) :: r else e :: relabel r u v l
    end.
  Definition add_edge (g : net) (u v : nat) (l : L) : net :=
    let g := add_node (add_node g u None) v None in
    {| n_nodes := n_nodes g;
       n_edges := if multi then n_edges g ++ [(u, v, l)] else relabel (n_edges g) u v l |}.

  (* lines 137-169, [_get_new_label]; [first] is the label of the second
     pattern, [second] the one already in the graph *)
  Definition add_names (have new : list L) : list L :=
    fold_left (fun acc l => if mem l acc then acc else acc ++ [l]) new have.
  Definition get_new_label (first second : label L) : label L :=
    match second with
    | Name s =>
        match first with
        | Name f => if eqd f s then Name s else Names [f; s]
        | Names fs | NameList fs => NameList (add_names [s] fs)
        end
    | Names ss | NameList ss =>
        match first with
        | Name f => NameList (if mem f ss then ss else ss ++ [f])
        | Names fs | NameList fs => NameList (add_names ss fs)
        end
    end.

  (* lines 71-86, [create_candidate_first_pattern] *)
  Definition first_part (p : net) (g : net) : net :=
    let g := fold_left (fun g nd => add_node g (fst nd) (snd nd)) (n_nodes p) g in
    fold_left (fun g e => add_edge g (fst (fst e)) (snd (fst e)) (snd e)) (n_edges p) g.

  (* [second_port.index(b)], then [first_port[index]]: the first pair *)
  Definition port_of (ports : list (nat * nat)) (b : nat) : option nat :=
    match find (fun ab => snd ab =? b) ports with Some ab => Some (fst ab) | None => None end.

  (* lines 103-117: the nodes; the dict [mapping] grows beside the graph *)
  Definition node_step (ports : list (nat * nat)) (s : net * list (nat * nat))
    (nd : nat * option (label L)) : net * list (nat * nat) + failure :=
    let '(g, mapping) := s in
    match port_of ports (fst nd) with
    | None =>
        let fresh := length (n_nodes g) + 1 in
        inl (add_node g fresh (snd nd), dset mapping (fst nd) fresh)
    | Some a =>
        match snd nd with
        | None => inl (g, mapping)
        | Some lab =>
            match dget (n_nodes g) a with
            | None => inr (Raises KeyError)
            | Some None => inl (set_label g a lab, mapping)
            | Some (Some old) => inl (set_label g a (get_new_label lab old), mapping)
            end
        end
    end.
  Fixpoint node_loop (ports : list (nat * nat)) (nds : list (nat * option (label L)))
    (s : net * list (nat * nat)) : net * list (nat * nat) + failure :=
    match nds with
    | [] => inl s
    | nd :: r => match node_step ports s nd with inl s => node_loop ports r s | inr f => inr f end
    end.

  (* lines 124-135: the edges.  [bound] tells whether the local variable
     [port] has been assigned: line 131 reads [port[1]] for a loop on a node
     that is not a port, which fails when it is unassigned and when it is the
     number of a node. *)
  Fixpoint edge_loop (ports : list (nat * nat)) (mapping : list (nat * nat))
    (es : list (nat * nat * L)) (bound : bool) (g : net) : result :=
    match es with
    | [] => Ok g
    | (a, b, l) :: r =>
        match port_of ports a with
        | Some x =>
            match dget mapping b with
            | Some y => edge_loop ports mapping r true (add_edge g x y l)
            | None => Fails (Raises KeyError)
            end
        | None =>
            match port_of ports b with
            | Some y =>
                match dget mapping a with
                | Some x => edge_loop ports mapping r true (add_edge g x y l)
                | None => Fails (Raises KeyError)
                end
            | None =>
                if a =? b then Fails (if bound then Raises TypeError else UnboundLocalError)
                else
                  match dget mapping a, dget mapping b with
                  | Some x, Some y => edge_loop ports mapping r bound (add_edge g x y l)
                  | _, _ => Fails (Raises KeyError)
                  end
            end
        end
    end.

  (* lines 88-135, [create_candidate_second_pattern] *)
  Definition second_part (p : net) (g : net) (ports : list (nat * nat)) : result :=
    match node_loop ports (n_nodes p) (g, []) with
    | inr f => Fails f
    | inl (g, mapping) =>
        let mapping := fold_left (fun m ab => dset m (snd ab) (fst ab)) ports mapping in
        edge_loop ports mapping (n_edges p) false g
    end.

  (* lines 51-69, [merge_candidate] *)
  Definition merge (first second : net) (ports : list (nat * nat)) : result :=
    second_part second (first_part first empty) ports.

  (* utils.py 982-1004, [create_singleton_pattern], for an edge label and for
     a vertex label *)
  Definition edge_singleton (l : L) : net :=
    add_edge (add_node (add_node empty 1 None) 2 None) 1 2 l.
  Definition vertex_singleton (l : L) : net := add_node empty 1 (Some (Name l)).
End Merge.
Arguments net L : clear implicits.
Arguments result L : clear implicits.
