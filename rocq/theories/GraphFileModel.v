(* Model of the text forms of graphs: get_graph_from_file (skmine/graph/graphmdl/utils.py 1092-1113) and
   display_graph (utils.py 538-577).

   A networkx.DiGraph is its nodes and its edges in the order they were added, each with its label if it
   has one; other attributes are not modelled.  Labels are texts.  A file is its text; that it exists and
   can be decoded is not modelled. *)
From Coq Require Import NArith String.
From Verif Require Import Prelude CheckModel LCMModel TextModel SplitModel NestModel ExportModel.

Record digraph := { d_nodes : dict Z (option text); d_edges : dict (Z * Z) (option text) }.
Definition no_graph : digraph := {| d_nodes := []; d_edges := [] |}.
(* DiGraph.add_node(n, label=l): a known node keeps its place and gets the label *)
Definition put_node (g : digraph) (n : Z) (l : text) : digraph :=
  {| d_nodes := dset (d_nodes g) n (Some l); d_edges := d_edges g |}.
Definition touch (ns : dict Z (option text)) (n : Z) : dict Z (option text) :=
  match dget ns n with Some _ => ns | None => dset ns n None end.
(* DiGraph.add_edge(u, v, label=l): missing ends are added without label; an edge between the same ends is replaced *)
Definition put_edge (g : digraph) (u v : Z) (l : text) : digraph :=
  {| d_nodes := touch (touch (d_nodes g) u) v; d_edges := dset (d_edges g) (u, v) (Some l) |}.

(* int(line[i]) *)
Definition int_at (line : list text) (i : nat) : outcome Z :=
  bind (nth_out line i) (fun t => match parse_int t with Some z => Ret z | None => Exn ValueError end).
(* line[3].split('\n')[0] *)
Definition label_at (line : list text) : outcome text :=
  bind (nth_out line 3) (fun t => bind (split_str [nl] t) (fun l => nth_out l 0)).
(* 1105-1109; the arguments of a call are evaluated from left to right *)
Definition read_graph_line (g : digraph) (line : list text) : outcome digraph :=
  bind (nth_out line 0) (fun w =>
  if eqd w (lit "v") then bind (int_at line 1) (fun n => bind (label_at line) (fun l => Ret (put_node g (n + 1) l)))
  else bind (int_at line 1) (fun u => bind (int_at line 2) (fun v => bind (label_at line) (fun l =>
       Ret (put_edge g (u + 1) (v + 1) l))))).
Fixpoint read_graph_lines (g : digraph) (ls : list (list text)) : outcome digraph :=
  match ls with
  | [] => Ret g
  | l :: ls' => bind (read_graph_line g l) (fun g' => read_graph_lines g' ls')
  end.
(* 1102-1104, 1110-1111 *)
Definition get_graph_from_file (content : text) : outcome digraph :=
  bind (map_out (split_str [sp]) (read_lines content)) (fun lines => read_graph_lines no_graph (skipn 3 lines)).

(* ------------------------------------------------------------------ display_graph *)
(* _get_node_labels 538-553; format() of an int is its decimal form; graph.nodes[n] is a KeyError for an unknown n *)
Definition node_text (g : digraph) (n : Z) : outcome text :=
  match dget (d_nodes g) n with
  | Some (Some l) => Ret l
  | Some None => Ret (str_z n)
  | None => Exn KeyError
  end.
(* graph.edges(data=True): by their sources in the order of the nodes *)
Definition edges_in_order (g : digraph) : list (Z * Z * option text) :=
  flat_map (fun n => filter (fun e => (fst (fst e) =? n)%Z) (d_edges g)) (dkeys (d_nodes g)).
(* 566-573 *)
Definition edge_text (g : digraph) (e : Z * Z * option text) : outcome text :=
  bind (node_text g (fst (fst e))) (fun a => bind (node_text g (snd (fst e))) (fun b =>
  Ret (match snd e with
       | Some l => a ++ lit "--" ++ l ++ lit "-->" ++ b ++ [nl]
       | None => a ++ lit "--->" ++ b ++ [nl]
       end))).
(* display_graph 556-577 *)
Definition display_graph (g : digraph) : outcome text :=
  match edges_in_order g with
  | [] => node_text g 1
  | es => bind (map_out (edge_text g) es) (fun ts => Ret (concat ts))
  end.
