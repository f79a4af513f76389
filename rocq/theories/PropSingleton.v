(* C108: which patterns are recognised as singletons, and the number of labels of a node. *)
From Coq Require Import NArith String.
From Verif Require Import Prelude CheckModel LCMModel TextModel ExportModel VerticalProofs GraphUtilModel PropGraphUtil SingletonModel.

(* ------------------------------------------------------------ specification *)
Section Spec.
  Context {L : Type}.
  (* edges join different nodes of the pattern; nodes have different numbers *)
  Definition simple (g : graph L) : Prop :=
    NoDup (map fst (nodes g)) /\ forall u v o, In (u, v, o) (edges g) -> u <> v /\ In u (map fst (nodes g)) /\ In v (map fst (nodes g)).
  (* one node with one label, written alone or as a tuple of one; no edge *)
  Definition one_vertex (g : graph L) : Prop :=
    exists n l, (nodes g = [(n, Some (Name l))] \/ nodes g = [(n, Some (Names [l]))]) /\ edges g = [].
  (* two nodes without label, and one label for all the edges *)
  Definition one_edge (g : graph L) : Prop :=
    (exists n m, nodes g = [(n, None); (m, None)])
    /\ exists e1 u v o e2 l, edges g = e1 ++ (u, v, o) :: e2 /\ (o = Some (Name l) \/ o = Some (Names [l]))
         /\ forall e, In e (e1 ++ e2) -> snd e = None \/ snd e = Some (Names []).
  (* the numbers the program gives to the nodes of its patterns *)
  Definition numbered (g : graph L) : Prop := map fst (nodes g) = seq 1 (length (nodes g)).
End Spec.

Section C108.
  Context {L : Type} `{EqDec L}.
  Lemma one_name (o : option (label L)) l : hashable o -> names_of o = [l] <-> o = Some (Name l) \/ o = Some (Names [l]).
  Proof.
    intros Hh. destruct o as [[x|xs|xs]|]; cbn in *; [| | tauto |]; (split; [intros E | intros [E|E]; try discriminate]).
    - left. congruence.
    - congruence.
    - right. congruence.
    - congruence.
    - discriminate.
  Qed.
  Lemma no_name (o : option (label L)) : hashable o -> names_of o = [] <-> o = None \/ o = Some (Names []).
  Proof.
    intros Hh. destruct o as [[x|xs|xs]|]; cbn in *; [| | tauto |]; (split; [intros E | intros [E|E]; try discriminate]); auto.
    - discriminate.
    - right. congruence.
    - congruence.
  Qed.

  (* a vertex singleton is recognised, and nothing else is *)
  Theorem C108_vertex (g : graph L) : plain g -> simple g ->
    exists b, is_vertex_singleton g = Ret b /\ (b = true <-> one_vertex g).
  Proof.
    intros Hp [Hn He]. unfold is_vertex_singleton. destruct (Nat.eqb_spec (length (nodes g)) 1) as [E|E].
    - destruct (nodes g) as [|[n o] [|? ?]] eqn:En; try discriminate E. clear E.
      assert (Ee : edges g = []).
      { destruct (edges g) as [|[[u v] x] es]; [reflexivity|]. exfalso. destruct (He u v x (or_introl eq_refl)) as (N & [I|[]] & [J|[]]). cbn in I, J. congruence. }
      assert (Et : get_total_label g = Ret (length (names_of o))).
      { rewrite C58_total_partial.
        - unfold edge_names, vertex_names. rewrite Ee, En. cbn. rewrite app_nil_r. reflexivity.
        - exact Hp.
        - unfold edge_names. rewrite Ee. intros l []. }
      rewrite Et. cbn [bind]. eexists. split; [reflexivity|].
      assert (Ho : hashable o) by (destruct Hp as [Hv _]; rewrite En in Hv; inversion Hv; assumption).
      rewrite Nat.eqb_eq. split.
      + intros E. destruct (names_of o) as [|l [|? ?]] eqn:El; try discriminate E. apply (one_name o l Ho) in El.
        exists n, l. rewrite En, Ee. destruct El as [-> | ->]; auto.
      + intros (n' & l & [E|E] & _); rewrite En in E; injection E as _ ->; reflexivity.
    - exists false. split; [reflexivity|]. split; [discriminate|]. intros (n & l & [En|En] & _); rewrite En in E; cbn in E; lia.
  Qed.

  Lemma counter_one ls : (match counter ls with [(_, c)] => c =? 1 | _ => false end) = true <-> exists l : L, ls = [l].
  Proof.
    split.
    - intros E. destruct (counter_total ls) as [_ T]. destruct (counter ls) as [|[l c] [|? ?]] eqn:Ec; try discriminate E.
      apply Nat.eqb_eq in E. subst c. cbn in T. destruct ls as [|x [|? ?]]; try discriminate T. eauto.
    - intros (l & ->). reflexivity.
  Qed.
  Lemma one_of_many (es : list (nat * nat * option (label L))) : Forall (fun e => hashable (snd e)) es ->
    (exists l, flat_map (fun e => names_of (snd e)) es = [l]) <->
    exists e1 u v o e2 l, es = e1 ++ (u, v, o) :: e2 /\ (o = Some (Name l) \/ o = Some (Names [l]))
      /\ forall e, In e (e1 ++ e2) -> snd e = None \/ snd e = Some (Names []).
  Proof.
    intros Hh. split.
    - intros (l & E). induction Hh as [|[[u v] o] es Ho Hh IH]; [discriminate E|]. cbn [flat_map snd] in E, Ho.
      destruct (names_of o) as [|x xs] eqn:Eo.
      + destruct (IH E) as (e1 & u' & v' & o' & e2 & l' & -> & Hl & Hr). exists ((u, v, o) :: e1), u', v', o', e2, l'.
        split; [reflexivity|]. split; [exact Hl|]. intros e [<-|Hi]; [apply (no_name o Ho), Eo | apply Hr, Hi].
      + destruct xs as [|? ?]; [|discriminate E]. cbn [app] in E. injection E as -> E. exists [], u, v, o, es, l.
        split; [reflexivity|]. split; [apply (one_name o l Ho), Eo|]. cbn [app]. intros e Hi.
        apply no_name; [rewrite Forall_forall in Hh; apply (Hh e Hi)|]. clear -E Hi. induction es as [|e' es IH]; [destruct Hi|].
        cbn [flat_map] in E. apply app_eq_nil in E as [E1 E2]. destruct Hi as [->|Hi]; auto.
    - intros (e1 & u & v & o & e2 & l & -> & Hl & Hr). exists l. rewrite flat_map_app. cbn [flat_map snd].
      assert (Z : forall es, (forall e, In e es -> snd e = None \/ snd e = Some (Names [])) -> flat_map (fun e : nat * nat * option (label L) => names_of (snd e)) es = []).
      { clear. intros es Hr. induction es as [|e es IH]; [reflexivity|]. cbn [flat_map]. rewrite IH by (intros e' Hi; apply Hr; right; exact Hi).
        destruct (Hr e (or_introl eq_refl)) as [-> | ->]; reflexivity. }
      rewrite (Z e1), (Z e2) by (intros e Hi; apply Hr, in_app_iff; auto). rewrite app_nil_r. destruct Hl as [-> | ->]; reflexivity.
  Qed.
  (* an edge singleton is recognised, and nothing else is *)
  Theorem C108_edge (g : graph L) : plain g -> numbered g ->
    exists b, is_edge_singleton g = Ret b /\ (b = true <-> one_edge g).
  Proof.
    intros [Hv He] Hn. unfold is_edge_singleton. destruct (Nat.eqb_spec (length (nodes g)) 2) as [E|E].
    - unfold numbered in Hn. destruct (nodes g) as [|[n o] [|[m q] [|? ?]]] eqn:En; try discriminate E. cbn in Hn. injection Hn as -> ->.
      unfold labelled. rewrite En. cbn [dget]. destruct (eq_dec 1 1) as [_|X]; [|congruence]. destruct (eq_dec 2 1) as [X|_]; [discriminate|]. destruct (eq_dec 2 2) as [_|X]; [|congruence].
      destruct o as [o|].
      { exists false. split; [reflexivity|]. split; [discriminate|]. intros [(x & y & K) _]. rewrite En in K. discriminate K. }
      cbn [bind]. destruct q as [q|].
      { exists false. split; [reflexivity|]. split; [discriminate|]. intros [(x & y & K) _]. rewrite En in K. discriminate K. }
      cbn [bind]. unfold count_edge_label. rewrite label_names_ok by (rewrite Forall_map; exact He). cbn [bind]. eexists. split; [reflexivity|].
      rewrite flat_map_concat_map, map_map, <- flat_map_concat_map, counter_one, (one_of_many _ He). unfold one_edge. rewrite En. split; [|tauto].
      intros K. split; [eauto | exact K].
    - exists false. split; [reflexivity|]. split; [discriminate|]. intros [(n & m & En) _]. rewrite En in E. cbn in E. lia.
  Qed.
End C108.
Print Assumptions C108_vertex.
Print Assumptions C108_edge.

(* the number of labels of a node is the number of its names, when every name alone is one character *)
Theorem C108_number_partial (g : graph text) n o : NoDup (map fst (nodes g)) -> In (n, o) (nodes g) ->
  (forall l, o = Some (Name l) -> length l = 1) -> get_node_label_number n g = Ret (length (names_of o)).
Proof.
  intros Hn Hi Ho. apply In_dget in Hi; [|exact Hn]. unfold get_node_label_number. rewrite Hi.
  destruct o as [[l|ls|ls]|]; try reflexivity. cbn [names_of length]. f_equal. apply Ho. reflexivity.
Qed.
Theorem C108_number_error (g : graph text) n : ~ In n (map fst (nodes g)) -> get_node_label_number n g = Exn ValueError.
Proof.
  intros Hi. unfold get_node_label_number. destruct (dget (nodes g) n) as [o|] eqn:E; [|reflexivity]. exfalso. apply Hi. apply dget_In in E. apply (in_map fst) in E. exact E.
Qed.
Print Assumptions C108_number_partial.
Print Assumptions C108_number_error.

Definition edge_a : graph text := {| nodes := [(1, None); (2, None)]; edges := [(1, 2, Some (Name (lit "a"))); (2, 1, None)] |}.
Definition vertex_b : graph text := {| nodes := [(7, Some (Names [lit "b"]))]; edges := [] |}.
Example C108_case : plain edge_a /\ numbered edge_a /\ one_edge edge_a /\ is_edge_singleton edge_a = Ret true /\ is_vertex_singleton edge_a = Ret false /\
  plain vertex_b /\ simple vertex_b /\ is_vertex_singleton vertex_b = Ret true /\ is_edge_singleton vertex_b = Ret false /\
  get_node_label_number 7 vertex_b = Ret 1.
Proof.
  split; [split; repeat constructor|]. split; [reflexivity|]. split.
  { split; [exists 1, 2; reflexivity|]. exists [], 1, 2, (Some (Name (lit "a"))), [(2, 1, None)], (lit "a").
    split; [reflexivity|]. split; [auto|]. intros e [<-|[]]. auto. }
  split; [reflexivity|]. split; [reflexivity|]. split; [split; repeat constructor|]. split.
  { split; [constructor; [intros [] | constructor]|]. intros u v o []. }
  repeat split; reflexivity.
Qed.
(* A name of two characters counts for two labels. *)
Theorem C108_number_refuted : get_node_label_number 1 {| nodes := [(1, Some (Name (lit "ab")))]; edges := [] |} = Ret 2.
Proof. reflexivity. Qed.
(* A loop with a label makes a node without label a vertex singleton, and hides the label of a node. *)
Theorem C108_loop_refuted :
  is_vertex_singleton {| nodes := [(1, None)]; edges := [(1, 1, Some (Name (lit "a")))] |} = Ret true /\
  is_vertex_singleton {| nodes := [(1, Some (Name (lit "a")))]; edges := [(1, 1, Some (Name (lit "a")))] |} = Ret true.
Proof. split; reflexivity. Qed.
(* The two nodes must be called 1 and 2. *)
Theorem C108_names_refuted :
  is_edge_singleton {| nodes := [(3, None); (4, None)]; edges := [(3, 4, Some (Name (lit "a")))] |} = Exn KeyError.
Proof. reflexivity. Qed.
Print Assumptions C108_number_refuted.
Print Assumptions C108_loop_refuted.
Print Assumptions C108_names_refuted.
