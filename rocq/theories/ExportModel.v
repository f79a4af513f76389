(* Model of PeriodicPatternMiner.export_patterns and import_patterns
   (skmine/periodic/cycles.py 234-292), with the dictionaries of nodes of pattern.py. *)
From Coq Require Import String Ascii NArith.
From Verif Require Import Prelude CheckModel LCMModel TextModel SplitModel ArrayModel PeriodModel TreeModel CyclesModel.
Local Open Scope Z_scope.

Definition lit (s : string) : text := map N_of_ascii (list_ascii_of_string s).
(* Python values that reach the file.  Booleans (is_datetime_) are left out with that flag. *)
Inductive jkey := KI (z : Z) | KS (s : text).
#[global] Instance jkey_dec : EqDec jkey.
Proof. intros x y. decide equality; apply eq_dec. Defined.
Inductive jv :=
| JNull
| JInt (z : Z)
| JList (l : list jv)
| JTuple (l : list jv)
| JDict (d : list (jkey * jv)).
Notation jdict := (list (jkey * jv)).

(* json.load(json.dumps(v)): keys become strings, tuples become lists, later duplicates of a
   key win.  The text of the file is not modelled. *)
Definition key_str (k : jkey) : jkey := match k with KI z => KS (str_z z) | KS s => KS s end.
Fixpoint jsonify (v : jv) : jv :=
  match v with
  | JNull => JNull
  | JInt z => JInt z
  | JList l => JList (map jsonify l)
  | JTuple l => JList (map jsonify l)
  | JDict d => JDict (dict_of (map (fun kv => match kv with (k, w) => (key_str k, jsonify w) end) d))
  end.
(* cycles.py 564-580 _iterdict_str_to_int_keys: the values that are dictionaries, and the
   dictionaries that are direct items of list values, are converted too; int(key) where it
   succeeds *)
Definition key_int (k : jkey) : jkey :=
  match k with KI z => KI z | KS s => match parse_int s with Some z => KI z | None => KS s end end.
Fixpoint to_int_keys (v : jv) : jv :=
  match v with
  | JDict d =>
      JDict (dict_of (map (fun kv => match kv with (k, w) =>
        (key_int k, match w with
                    | JList l => JList (map (fun x => match x with JDict _ => to_int_keys x | _ => x end) l)
                    | JDict _ => to_int_keys w
                    | _ => w
                    end) end) d))
  | _ => v
  end.

(* pattern.py 151-167: one record of Pattern.nodes *)
Inductive pnode :=
| NLeaf (parent : option nat) (event : nat)
| NInner (parent : option nat) (p : Z) (r : nat) (ch : list (nat * Z)).
Definition jnat (n : nat) : jv := JInt (Z.of_nat n).
Definition jparent (o : option nat) : jv := match o with Some n => jnat n | None => JNull end.
Definition enc_node (n : pnode) : jv :=
  match n with
  | NLeaf pa e => JDict [(KS (lit "parent"), jparent pa); (KS (lit "event"), jnat e)]
  | NInner pa p r ch => JDict [(KS (lit "parent"), jparent pa); (KS (lit "p"), JInt p); (KS (lit "r"), jnat r);
      (KS (lit "children"), JList (map (fun c => JTuple [jnat (fst c); JInt (snd c)]) ch))]
  end.

(* how the methods of Pattern read a record: a node without "children" is a leaf (337-370);
   a child is indexed with [0] and [1], so a list serves as well as a tuple.  None: an error *)
Definition as_int (v : jv) : option Z := match v with JInt z => Some z | _ => None end.
Definition as_nat (v : jv) : option nat := match v with JInt z => if 0 <=? z then Some (Z.to_nat z) else None | _ => None end.
Definition as_child (v : jv) : option (nat * Z) :=
  match v with
  | JList (a :: b :: _) | JTuple (a :: b :: _) => match as_nat a, as_int b with Some c, Some d => Some (c, d) | _, _ => None end
  | _ => None
  end.
Definition get (f : jdict) (k : string) : option jv := dget f (KS (lit k)).
Definition read_node (v : jv) : option (nat + (Z * nat * list (nat * Z))) :=
  match v with
  | JDict f =>
      match get f "children" with
      | None => match get f "event" with Some e => option_map inl (as_nat e) | None => None end
      | Some (JList l) =>
          match get f "p", get f "r", all_some (map as_child l) with
          | Some p, Some r, Some ch => match as_int p, as_nat r with Some p, Some r => Some (inr (p, r, ch)) | _, _ => None end
          | _, _, _ => None
          end
      | Some _ => None
      end
  | _ => None
  end.
(* the tree below a node; the recursion of the code stops on trees, the fuel is the depth *)
Fixpoint read_tree (nodes : jdict) (fuel : nat) (nid : nat) : option (@tree nat) :=
  match fuel with
  | O => None
  | S fuel' =>
      match dget nodes (KI (Z.of_nat nid)) with
      | None => None
      | Some v =>
          match read_node v with
          | None => None
          | Some (inl e) => Some (Leaf nid e)
          | Some (inr (p, r, ch)) =>
              match all_some (map (fun c => option_map (fun t => (t, snd c)) (read_tree nodes fuel' (fst c))) ch) with
              | Some l => Some (Node nid r p l)
              | None => None
              end
          end
      end
  end.

(* a pattern of the collection: the Pattern object with its dictionary, t0 and E *)
Record opatt := { op_nodes : jdict; op_next : Z; op_t0 : Z; op_E : list Z }.
Definition read_patt (fuel : nat) (o : opatt) : option patt :=
  option_map (fun t => (t, op_t0 o, op_E o)) (read_tree (op_nodes o) fuel 0).

(* Event names.  json.dumps writes an int key as a string; numpy ints, which it refuses, are
   not distinguished from Python ints. *)
Inductive evname := EStr (s : text) | EInt (z : Z).
#[global] Instance evname_dec : EqDec evname.
Proof. intros x y. decide equality; apply eq_dec. Defined.
Definition ev_key (e : evname) : jkey := match e with EStr s => KS s | EInt z => KI z end.

Section Export.
  Variable leE : evname -> evname -> bool.
  (* the state of a PeriodicPatternMiner; [x_scaled] tells whether n_zeros_ and div_nb_sec_
     exist, [x_groups] is alpha_groups_, absent after import_patterns *)
  Record pminer := { x_auto : bool; x_scale : option (nat * Z); x_groups : option (dict evname (list Z));
                     x_ds : @dataseq evname; x_patts : list opatt }.
  (* fit 114-162 as in CyclesModel, with patterns as objects *)
  Definition xfit (auto : bool) (log : list (Z * evname)) (mine : @dataseq evname -> list opatt) : outcome pminer :=
    let serie := nodup eq_dec log in
    let ts := map fst serie in
    let '(ts', sc) := if auto then let '(conv, n, _, d) := autoscale ts in (conv, Some (n, d)) else (ts, None) in
    let groups := group_occs (combine ts' (map snd serie)) in
    bind (dataseq_of_dict leE groups) (fun ds =>
      Ret {| x_auto := auto; x_scale := sc; x_groups := Some groups; x_ds := ds; x_patts := mine ds |}).

  (* sort_values(by='t0'), 228 *)
  Variable sort_t0 : list opatt -> list opatt.
  (* pattern_collection.py 214-219: the keys are added to the Pattern's own dictionary *)
  Definition mark (o : opatt) : opatt :=
    {| op_nodes := dset (dset (dset (op_nodes o) (KS (lit "next_id")) (JInt (op_next o))) (KS (lit "t0")) (JInt (op_t0 o)))
                     (KS (lit "E")) (JList (map JInt (op_E o)));
       op_next := op_next o; op_t0 := op_t0 o; op_E := op_E o |}.
  (* export_patterns 234-262; returns the content of the file and the miner, whose pattern
     dictionaries were extended.  The cycles frame is left from an earlier call or absent when
     there is no pattern (207-208); the model takes it absent. *)
  Definition export (m : pminer) : outcome (jv * pminer) :=
    match x_scale m with
    | None => Exn AttributeError                                                    (* 200-203 *)
    | Some (n, d) =>
        match x_patts m with
        | [] => Exn AttributeError                                                  (* 246 *)
        | _ =>
            match x_groups m with
            | None => Exn AttributeError                                            (* 248 *)
            | Some groups =>
                let marked := map mark (x_patts m) in
                Ret (JDict [(KS (lit "n_zeros_"), jnat n); (KS (lit "div_nb_sec_"), JInt d);
                            (KS (lit "data_details"), JDict (map (fun p => (ev_key (fst p), JList (map JInt (snd p)))) groups));
                            (KS (lit "patterns"), JList (map (fun o => JDict (op_nodes o)) (sort_t0 marked)))],
                     {| x_auto := x_auto m; x_scale := x_scale m; x_groups := x_groups m; x_ds := x_ds m; x_patts := marked |})
            end
        end
    end.

  Definition as_ints (v : jv) : option (list Z) := match v with JList l => all_some (map as_int l) | _ => None end.
  (* 280-287: pop next_id, t0 and E, then convert the keys of the rest *)
  Definition import_patt (v : jv) : outcome opatt :=
    match v with
    | JDict d =>
        match get d "next_id", get d "t0", get d "E" with
        | Some (JInt nx), Some (JInt t0), Some E =>
            match as_ints E, to_int_keys (JDict (ddel (ddel (ddel d (KS (lit "next_id"))) (KS (lit "t0"))) (KS (lit "E")))) with
            | Some E, JDict nodes => Ret {| op_nodes := nodes; op_next := nx; op_t0 := t0; op_E := E |}
            | _, _ => Exn TypeError
            end
        | _, _, _ => Exn KeyError
        end
    | _ => Exn TypeError
    end.
  Definition import_group (p : jkey * jv) : outcome (evname * list Z) :=
    match fst p, as_ints (snd p) with
    | KS s, Some ts => Ret (EStr s, ts)
    | _, _ => Exn TypeError
    end.
  (* import_patterns 264-292 on a miner made with the given auto_time_scale *)
  Definition import (auto : bool) (file : jv) : outcome pminer :=
    match jsonify file with
    | JDict f =>
        match get f "n_zeros_", get f "div_nb_sec_", get f "data_details", get f "patterns" with
        | Some n, Some (JInt d), Some (JDict gs), Some (JList ps) =>
            match as_nat n with
            | Some n =>
                bind (map_out import_group gs) (fun groups =>
                bind (dataseq_of_dict leE groups) (fun ds =>
                bind (map_out import_patt ps) (fun patts =>
                Ret {| x_auto := auto; x_scale := Some (n, d); x_groups := None; x_ds := ds; x_patts := patts |})))
            | None => Exn TypeError
            end
        | _, _, _, _ => Exn KeyError
        end
    | _ => Exn TypeError
    end.
  (* what reconstruct and get_residuals use of the miner (CyclesModel) *)
  Definition view (fuel : nat) (m : pminer) : option (miner evname) :=
    match all_some (map (read_patt fuel) (x_patts m)) with
    | Some ps => Some {| m_auto := x_auto m; m_n := match x_scale m with Some (n, _) => n | None => O end;
                         m_div := match x_scale m with Some (_, d) => d | None => 1 end;
                         m_groups := match x_groups m with Some g => g | None => [] end; m_ds := x_ds m; m_patts := ps |}
    | None => None
    end.
End Export.
