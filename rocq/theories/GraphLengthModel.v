(* Model of the description lengths of skmine/graph/graphmdl: label_codes.py,
   the encodings of utils.py, code_table_row.py and the lengths of
   code_table.py, over the real numbers of the standard library (the code uses
   floats).  Counts are natural numbers. *)
From Coq Require Import Reals QArith Qreals.
From Verif Require Import Prelude CheckModel LCMModel GraphUtilModel GraphCoverModel RewriteModel PrequentialModel.
Open Scope nat_scope.

(* [math.log2]: "math domain error" is a ValueError *)
Definition math_log2 (x : R) : outcome R :=
  if Rlt_dec 0 x then Ret (ln x / ln 2)%R else Exn ValueError.
(* [math.log2(binomial(n, k))]; the fuel is enough (theorem C56_binomial) *)
Definition log2_binomial (n k : nat) : outcome R :=
  bind (binomial (n + 2) n k) (fun b => math_log2 (Q2R b)).
(* [universal_integer_encoding_with0] as a float *)
Definition integer_length (n : nat) : outcome R :=
  bind (universal_integer_encoding_with0 (Z.of_nat n)) (fun z => Ret (IZR z)).
(* Python [sum] of a list of floats *)
Definition float_sum (l : list R) : R := fold_left Rplus l 0%R.
Fixpoint map_out {A B} (f : A -> outcome B) (l : list A) : outcome (list B) :=
  match l with
  | [] => Ret []
  | a :: r => bind (f a) (fun b => bind (map_out f r) (fun t => Ret (b :: t)))
  end.

Section Length.
  Context {L : Type} `{EqDec L}.
  (* is the label "" or None? *)
  Variable blank : L -> bool.

  (* label_codes.py 6-22, [LabelCodes.__init__] *)
  Record label_codes := { vertex_lc : list (L * R); edges_lc : list (L * R) }.
  Definition code_all (total : nat) (counts : list (L * nat)) : list (L * R) :=
    map (fun uv => (fst uv, log2 (INR (snd uv)) (INR total))) counts.
  Definition LabelCodes (g : graph L) : outcome label_codes :=
    bind (get_total_label g) (fun total =>
    bind (count_vertex_label g) (fun vs =>
    bind (count_edge_label g) (fun es =>
    Ret {| vertex_lc := code_all total vs; edges_lc := code_all total es |}))).

  (* utils.py 190-194 and 198-202: the description of one label of a pattern,
     which occurs at [snd uv] of [slots] places *)
  Definition label_description (lc : list (L * R)) (slots : nat) (uv : L * nat) : outcome R :=
    match dget lc (fst uv) with
    | None => Exn KeyError
    | Some c => bind (integer_length (snd uv)) (fun i =>
                bind (log2_binomial slots (snd uv)) (fun b => Ret (c + i + b)%R))
    end.
  (* utils.py 176 *)
  Definition label_count (t : label_codes) : nat := length (vertex_lc t) + length (edges_lc t).
  (* utils.py 169-211, [encode].  [int(math.pow(n, 2))] is [n * n]. *)
  Definition encode (p : graph L) (t : label_codes) : outcome R :=
    bind (count_edge_label p) (fun es =>
    bind (count_vertex_label p) (fun vs =>
    bind (math_log2 (INR (label_count t))) (fun tl =>
    let n := length (nodes p) in
    bind (integer_length n) (fun nl =>
    bind (map_out (label_description (vertex_lc t) n) vs) (fun vd =>
    bind (map_out (label_description (edges_lc t) (n * n)) es) (fun ed =>
    Ret (float_sum vd + float_sum ed + tl + nl)%R)))))).

  (* utils.py 214-235, [encode_vertex_singleton] *)
  Definition encode_vertex_singleton (t : label_codes) (l : L) : outcome R :=
    if blank l then Exn ValueError
    else bind (math_log2 (INR (label_count t))) (fun tl =>
         bind (integer_length 1) (fun nl =>
         bind (label_description (vertex_lc t) 1 (l, 1)) (fun d =>
         Ret (d + tl + nl)%R))).
  (* utils.py 238-259, [encode_edge_singleton] *)
  Definition encode_edge_singleton (t : label_codes) (l : L) : outcome R :=
    if blank l then Exn ValueError
    else bind (math_log2 (INR (label_count t))) (fun tl =>
         bind (integer_length 2) (fun nl =>
         bind (label_description (edges_lc t) 4 (l, 1)) (fun d =>
         Ret (d + tl + nl)%R))).
  (* utils.py 262-280, [encode_singleton] *)
  Definition encode_singleton (t : label_codes) (arity : nat) (l : L) : outcome R :=
    if arity =? 1 then encode_vertex_singleton t l
    else if arity =? 2 then encode_edge_singleton t l
    else Exn ValueError.

  (* A row after the cover: its pattern, its usage and the usage of its ports
     (code_table.py 794-795). *)
  Record ct_row := { c_pattern : graph L; c_usage : nat; c_ports : list (nat * nat) }.

  (* code_table_row.py 112-143, [compute_code_length]: the code length of the
     row and of its ports.  The test for -0.0 is the identity on reals. *)
  Definition row_code_length (r : ct_row) (usage_sum : nat) : R :=
    if c_usage r =? 0 then 0%R else log2 (INR (c_usage r)) (INR usage_sum).
  Definition port_code_length (r : ct_row) : list (nat * R) :=
    let port_sum := list_sum (map snd (c_ports r)) in
    map (fun pu => (fst pu, if snd pu =? 0 then 0%R else log2 (INR (snd pu)) (INR port_sum))) (c_ports r).

  (* code_table_row.py 145-171, [compute_description_length] *)
  Definition row_description_length (t : label_codes) (r : ct_row) : outcome R :=
    let n := length (nodes (c_pattern r)) in
    bind (math_log2 (INR (n + 1))) (fun a =>
    bind (log2_binomial n (length (port_code_length r))) (fun b =>
    bind (encode (c_pattern r) t) (fun e => Ret (0 + e + (a + b))%R))).

  (* A code table after the cover *)
  Record table := { t_rows : list ct_row; t_vertex : list (L * nat); t_edge : list (L * nat);
                    t_rewritten : rgraph L }.

  (* code_table.py 249-267, [_compute_usage_sum] *)
  Definition usage_sum (c : table) : nat :=
    list_sum (map c_usage (t_rows c)) + list_sum (map snd (t_vertex c)) + list_sum (map snd (t_edge c)).
  (* code_table.py 269-289, [_compute_singleton_code] *)
  Definition singleton_code_length (c : table) : list (L * R) :=
    let add d uv := dset d (fst uv) (log2 (INR (snd uv)) (INR (usage_sum c))) in
    fold_left add (t_edge c) (fold_left add (t_vertex c) []).

  (* code_table.py 291-316, [_compute_singleton_description_length] *)
  Definition singleton_description_length (t : label_codes) (c : table) : outcome R :=
    bind (math_log2 2) (fun one =>
    bind (math_log2 3) (fun three =>
    bind (map_out (fun uv => bind (encode_singleton t 1 (fst uv)) (fun e => Ret (e + one)%R)) (t_vertex c)) (fun a =>
    bind (map_out (fun uv => bind (encode_singleton t 2 (fst uv)) (fun e => Ret (e + (three + 2))%R)) (t_edge c)) (fun b =>
    Ret (float_sum a + float_sum b)%R)))).

  Definition used_rows (c : table) : list ct_row := filter (fun r => negb (c_usage r =? 0)) (t_rows c).

  (* code_table.py 125-140, [compute_ct_description_length] *)
  Definition ct_description_length (t : label_codes) (c : table) : outcome R :=
    match r_nodes (t_rewritten c) with
    | [] => Exn ValueError
    | _ => bind (map_out (row_description_length t) (used_rows c)) (fun ds =>
           bind (singleton_description_length t c) (fun s => Ret (float_sum ds + s)%R))
    end.

  (* len(rewritten_graph.in_edges(x)); nodes are numbered from 1 *)
  Definition in_degree (g : rgraph L) (x : nat) : nat :=
    length (filter (fun e => snd (fst e) =? x) (r_edges g)).
  (* the nodes of the rewritten graph without 'is_Pattern' *)
  Definition port_vertices (g : rgraph L) : list nat :=
    map fst (filter (fun xz => negb (is_pattern (snd xz))) (combine (seq 1 (length (r_nodes g))) (r_nodes g))).

  (* code_table.py 142-184, [compute_rewritten_graph_description].  Line 177
     codes the keys of the port usages, that is, the numbers of the ports. *)
  Definition rewritten_description_length (c : table) : outcome R :=
    let g := t_rewritten c in
    match r_nodes g with
    | [] => Exn ValueError
    | _ =>
      bind (integer_length (length (filter is_pattern (r_nodes g)))) (fun embeddings =>
      bind (math_log2 (INR (length (port_vertices g) + 1))) (fun ports =>
      bind (map_out (fun r => bind (math_log2 (INR (length (port_code_length r) + 1)))
                                   (fun x => Ret (INR (c_usage r) * x)%R)) (used_rows c)) (fun per_row =>
      bind (math_log2 2) (fun one =>
      bind (math_log2 3) (fun three =>
      let per_vertex := map (fun uv => (INR (snd uv) * one)%R) (t_vertex c) in
      let per_edge := map (fun uv => (INR (snd uv) * three)%R) (t_edge c) in
      let pattern_embedding := map c_usage (used_rows c) ++ map snd (t_vertex c) ++ map snd (t_edge c) in
      let destinations := map (in_degree g) (port_vertices g) in
      let edges_label := map (fun r => prequential_code (map fst (c_ports r)) (1 / 2)) (used_rows c)
                         ++ map (fun uv => prequential_code [snd uv; snd uv] (1 / 2)) (t_edge c) in
      Ret (embeddings + ports + float_sum (per_row ++ per_vertex ++ per_edge)
           + prequential_code pattern_embedding (1 / 2) + prequential_code destinations (1 / 2)
           + float_sum edges_label)%R)))))
    end.

  (* code_table.py 115-123, [compute_total_description_length] *)
  Definition total_description_length (t : label_codes) (c : table) : outcome R :=
    bind (ct_description_length t c) (fun a =>
    bind (rewritten_description_length c) (fun b => Ret (a + b)%R)).

  (* the networkx graphs behind a data graph and a pattern of GraphCoverModel *)
  Definition graph_of (d : data L) : graph L :=
    {| nodes := d_nodes d; edges := map (fun e => (fst e, Some (Name (snd e)))) (d_edges d) |}.
  Definition pattern_graph (p : pattern L) : graph L :=
    {| nodes := p_nodes p;
       edges := flat_map (fun pe => map (fun l => (fst pe, Some (Name l))) (snd pe)) (p_edges p) |}.

  (* ---------------------------------------------- what the cover writes *)
  (* code_table.py 762-795 (usage and port usage of the row at position [i];
     the latter is filled by 627-632) and 808-846 (singleton usages), read off
     the uses recorded by the cover of RewriteModel *)
  Definition uses_of (log : list (entry L)) (i : nat) : list (entry L) :=
    filter (fun x => eqd (e_row x) (Some i)) log.
  Definition row_usage (log : list (entry L)) (i : nat) : nat := length (uses_of log i).
  Definition port_usage (log : list (entry L)) (i : nat) : list (nat * nat) :=
    counter (flat_map (fun x => map snd (e_ports x)) (uses_of log i)).
  Definition vertex_usage (log : list (entry L)) : list (L * nat) :=
    counter (flat_map (fun x => match e_use x with VertexUse _ l => [l] | _ => [] end) log).
  Definition edge_usage (log : list (entry L)) : list (L * nat) :=
    counter (flat_map (fun x => match e_use x with EdgeUse _ _ l => [l] | _ => [] end) log).
  Definition covered (patterns : list (graph L)) (log : list (entry L)) (g : rgraph L) : table :=
    {| t_rows := map (fun ip => {| c_pattern := snd ip; c_usage := row_usage log (fst ip);
                                   c_ports := port_usage log (fst ip) |})
                     (combine (seq 0 (length patterns)) patterns);
       t_vertex := vertex_usage log; t_edge := edge_usage log; t_rewritten := g |}.
End Length.
Arguments label_codes L : clear implicits.
Arguments ct_row L : clear implicits.
Arguments table L : clear implicits.
