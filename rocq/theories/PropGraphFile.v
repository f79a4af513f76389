(* C100: graphs read from a file.  C101: the text of a graph. *)
From Coq Require Import NArith String Permutation.
From Verif Require Import Prelude CheckModel LCMModel VerticalProofs TextModel TextProofs SplitModel SplitProofs NestModel ExportModel GraphFileModel.

(* ------------------------------------------------------------------ specification *)
(* what a line of such a file says: a vertex (number, one more word, label) or an edge (any first word but
   "v", two numbers, label), with words after the label that are not looked at *)
Inductive item :=
| Vertex (id : Z) (word label : text) (more : list text)
| Arc (kind : text) (u v : Z) (label : text) (more : list text).
Definition words (i : item) : list text :=
  match i with
  | Vertex id w l more => lit "v" :: str_z id :: w :: l :: more
  | Arc k u v l more => k :: str_z u :: str_z v :: l :: more
  end.
Definition plain (t : text) : Prop := ~ In sp t /\ no_newline t.
Definition item_ok (i : item) : Prop :=
  Forall plain (words i) /\ match i with Vertex _ _ _ _ => True | Arc k _ _ _ _ => k <> lit "v" end.
Definition item_line (i : item) : text := join [sp] (words i).
(* a file: three lines that say nothing, the items, and a line feed at the end or not *)
Definition file_of (header : list text) (items : list item) (closed : bool) : text :=
  match rev items with
  | [] => concat (map (fun l => l ++ [nl]) header)
  | i :: before => concat (map (fun l => l ++ [nl]) (header ++ map item_line (rev before))) ++ item_line i ++ (if closed then [nl] else [])
  end.
Definition is_vertex (n : Z) (i : item) : Prop := match i with Vertex id _ _ _ => id = n | _ => False end.
Definition is_arc (a b : Z) (i : item) : Prop := match i with Arc _ u v _ _ => u = a /\ v = b | _ => False end.
Definition mentions (i : item) (n : Z) : Prop := match i with Vertex id _ _ _ => id = n | Arc _ u v _ _ => u = n \/ v = n end.
(* the last item with a property *)
Definition last_of (P : item -> Prop) (l : list item) (i : item) : Prop :=
  exists before after, l = before ++ i :: after /\ P i /\ Forall (fun x => ~ P x) after.

(* ------------------------------------------------------------------ proofs *)
Lemma last_snoc P l i x : last_of P (l ++ [x]) i <-> (P x /\ i = x) \/ (~ P x /\ last_of P l i).
Proof.
  split.
  - intros (b & a & E & Pi & Fa). destruct (exists_last (l := i :: a)) as (a' & y & Ea); [discriminate|].
    assert (E' : l ++ [x] = (b ++ a') ++ [y]) by (rewrite E, Ea, app_assoc; reflexivity). apply app_inj_tail in E'. destruct E' as [El ->].
    destruct a as [|z a].
    + left. destruct a' as [|? [|]]; try discriminate. injection Ea as <-. split; [exact Pi | reflexivity].
    + right. destruct a' as [|w a']; [discriminate|]. injection Ea as <- Ea. rewrite Ea in Fa. apply Forall_app in Fa. destruct Fa as [Fa Fy]. inversion Fy; subst. split; [assumption|].
      exists b, a'. split; [reflexivity | split; assumption].
  - intros [[Px ->]|[Nx (b & a & -> & Pi & Fa)]].
    + exists l, []. split; [reflexivity|]. split; [exact Px | constructor].
    + exists b, (a ++ [x]). split; [rewrite <- app_assoc; reflexivity|]. split; [exact Pi|]. apply Forall_app. split; [exact Fa | constructor; [exact Nx | constructor]].
Qed.
Lemma last_nil P i : ~ last_of P [] i.
Proof. intros (b & a & E & _). destruct b; discriminate. Qed.

Definition put (g : digraph) (i : item) : digraph :=
  match i with
  | Vertex id _ l _ => put_node g (id + 1) l
  | Arc _ u v l _ => put_edge g (u + 1) (v + 1) l
  end.
Lemma split_label t l : ~ In nl l -> t = l \/ t = l ++ [nl] -> bind (split_str [nl] t) (fun x => nth_out x 0) = Ret l.
Proof.
  intros Hn [->| ->].
  - assert (E : split_str [nl] l = Ret [l]). { apply (split_join [nl] [l]); [exists nl, []; split; [reflexivity | repeat constructor; exact Hn] | discriminate]. } rewrite E. reflexivity.
  - assert (E : split_str [nl] (l ++ [nl]) = Ret [l; []]).
    { apply (split_join [nl] [l; []]); [exists nl, []; split; [reflexivity|] | discriminate]. constructor; [exact Hn|]. repeat constructor. intros []. }
    rewrite E. reflexivity.
Qed.
(* a line with or without its line feed, split *)
Definition split_words (i : item) (e : text) : list text :=
  match i with
  | Vertex id w l [] => [lit "v"; str_z id; w; l ++ e]
  | Arc k u v l [] => [k; str_z u; str_z v; l ++ e]
  | Vertex id w l more => lit "v" :: str_z id :: w :: l :: removelast more ++ [last more [] ++ e]
  | Arc k u v l more => k :: str_z u :: str_z v :: l :: removelast more ++ [last more [] ++ e]
  end.
Lemma join_end s l x e : join s (l ++ [x]) ++ e = join s (l ++ [x ++ e]).
Proof.
  induction l as [|y l IH]; [reflexivity|]. destruct l as [|z l].
  - cbn. rewrite <- !app_assoc. reflexivity.
  - change (join s ((y :: z :: l) ++ [x])) with (y ++ s ++ join s ((z :: l) ++ [x])). change (join s ((y :: z :: l) ++ [x ++ e])) with (y ++ s ++ join s ((z :: l) ++ [x ++ e])).
    rewrite <- !app_assoc, IH. reflexivity.
Qed.
Lemma split_words_eq i e : exists l x, words i = l ++ [x] /\ split_words i e = l ++ [x ++ e].
Proof.
  assert (G : forall h : list text, forall more, more <> [] -> exists l x, h ++ more = l ++ [x] /\ h ++ removelast more ++ [last more [] ++ e] = l ++ [x ++ e]).
  { intros h more Hm. exists (h ++ removelast more), (last more []). rewrite <- !app_assoc. split; [|reflexivity]. f_equal. apply app_removelast_last, Hm. }
  destruct i as [id w l [|m more]|k u v l [|m more]].
  - exists [lit "v"; str_z id; w], l. split; reflexivity.
  - apply (G [lit "v"; str_z id; w; l] (m :: more)). discriminate.
  - exists [k; str_z u; str_z v], l. split; reflexivity.
  - apply (G [k; str_z u; str_z v; l] (m :: more)). discriminate.
Qed.
Lemma split_line i e : item_ok i -> ~ In sp e -> split_str [sp] (item_line i ++ e) = Ret (split_words i e).
Proof.
  intros [F _] He. destruct (split_words_eq i e) as (l & x & E1 & E2). unfold item_line. rewrite E1 in *. rewrite E2, join_end. apply split_join; [|intros Q; destruct l; discriminate].
  exists sp, []. split; [reflexivity|]. apply Forall_app in F. destruct F as [Fl Fx]. apply Forall_app. split.
  - eapply Forall_impl; [|exact Fl]. intros a [Ha _]. exact Ha.
  - inversion Fx as [|? ? [Hx _] _]; subst. constructor; [|constructor]. rewrite in_app_iff. tauto.
Qed.
Lemma read_item g i e : item_ok i -> e = [] \/ e = [nl] -> read_graph_line g (split_words i e) = Ret (put g i).
Proof.
  intros [F K] He.
  assert (L : forall (l : text) (more : list text), ~ In nl l -> exists t, (match more with [] => l ++ e | _ => l end) = t /\ (t = l \/ t = l ++ [nl])).
  { intros l more _. destruct more; [|exists l; split; [reflexivity | left; reflexivity]]. exists (l ++ e). split; [reflexivity|]. destruct He as [->| ->]; [left; apply app_nil_r | right; reflexivity]. }
  destruct i as [id w l more|k u v l more]; cbn [words] in F.
  - assert (Hl : ~ In nl l) by (do 3 apply Forall_inv_tail in F; apply Forall_inv in F; apply F). destruct (L l more Hl) as (t & Et & Ht).
    assert (Es : exists r, split_words (Vertex id w l more) e = lit "v" :: str_z id :: w :: t :: r) by (subst t; destruct more as [|m more]; eexists; reflexivity).
    destruct Es as (r & ->). unfold read_graph_line, int_at, label_at. unfold nth_out at 1. cbn [nth_error bind]. rewrite eqd_refl. unfold nth_out at 1. cbn [nth_error bind]. rewrite parse_str_z. cbn [bind].
    unfold nth_out at 1. cbn [nth_error bind]. rewrite (split_label t l Hl Ht). reflexivity.
  - assert (Hl : ~ In nl l) by (do 3 apply Forall_inv_tail in F; apply Forall_inv in F; apply F). destruct (L l more Hl) as (t & Et & Ht).
    assert (Es : exists r, split_words (Arc k u v l more) e = k :: str_z u :: str_z v :: t :: r) by (subst t; destruct more as [|m more]; eexists; reflexivity).
    destruct Es as (r & ->). unfold read_graph_line, int_at, label_at. unfold nth_out at 1. cbn [nth_error bind]. destruct (eqd k (lit "v")) eqn:Ek; [apply (proj1 (eqd_true _ _)) in Ek; destruct (K Ek)|].
    unfold nth_out at 1. cbn [nth_error bind]. rewrite parse_str_z. cbn [bind]. unfold nth_out at 1. cbn [nth_error bind]. rewrite parse_str_z. cbn [bind].
    unfold nth_out at 1. cbn [nth_error bind]. rewrite (split_label t l Hl Ht). reflexivity.
Qed.
Lemma read_items es : forall items g, Forall item_ok items -> length es = length items -> Forall (fun e => e = [] \/ e = [nl]) es ->
  read_graph_lines g (map (fun ie => split_words (fst ie) (snd ie)) (combine items es)) = Ret (fold_left put items g).
Proof.
  induction es as [|e es IH]; intros [|i items] g Fi El Fe; try discriminate; [reflexivity|]. cbn [combine map read_graph_lines fst snd fold_left].
  inversion Fi; subst. inversion Fe; subst. rewrite read_item by assumption. cbn [bind]. apply IH; [assumption | cbn in El; congruence | assumption].
Qed.
Lemma map_out_all {X Y} (f : X -> outcome Y) (h : X -> Y) l : (forall x, In x l -> f x = Ret (h x)) -> map_out f l = Ret (map h l).
Proof. induction l as [|x l IH]; intros Hf; [reflexivity|]. cbn. rewrite Hf by (left; reflexivity). cbn. rewrite IH by (intros y Hy; apply Hf; right; exact Hy). reflexivity. Qed.
Lemma combine_app {B C} (a1 a2 : list B) (b1 b2 : list C) : length a1 = length b1 -> combine (a1 ++ a2) (b1 ++ b2) = combine a1 b1 ++ combine a2 b2.
Proof. revert b1. induction a1 as [|x a1 IH]; intros [|y b1] E; try discriminate; [reflexivity|]. cbn. rewrite IH by (cbn in E; congruence). reflexivity. Qed.
Lemma map_out_app {X Y} (f : X -> outcome Y) a b : map_out f (a ++ b) = bind (map_out f a) (fun x => bind (map_out f b) (fun y => Ret (x ++ y))).
Proof.
  induction a as [|x a IH]; cbn; [destruct (map_out f b); reflexivity|]. destruct (f x); cbn; try reflexivity. rewrite IH. destruct (map_out f a); cbn; try reflexivity. destruct (map_out f b); reflexivity.
Qed.
Lemma lines_open l : ~ In nl l -> l <> [] -> forall cur, lines_from cur l = [cur ++ l].
Proof.
  intros Hn Hl. destruct l as [|c l]; [congruence|]. clear Hl. revert c Hn. induction l as [|d l IH]; intros c Hn cur; cbn [lines_from].
  - destruct (N.eqb_spec c nl) as [->|_]; [exfalso; apply Hn; left; reflexivity|]. destruct (cur ++ [c]) eqn:E; [destruct cur; discriminate | reflexivity].
  - destruct (N.eqb_spec c nl) as [->|_]; [exfalso; apply Hn; left; reflexivity|]. etransitivity; [apply (IH d); intros Hc; apply Hn; right; exact Hc|]. rewrite <- app_assoc. reflexivity.
Qed.
Lemma read_lines_open ls l : Forall no_newline ls -> no_newline l -> l <> [] ->
  read_lines (concat (map (fun l => l ++ [nl]) ls) ++ l) = map (fun l => l ++ [nl]) ls ++ [l].
Proof.
  intros Hs Hl Hne. unfold read_lines. rewrite universal_id.
  - induction Hs as [|x t Hx Ht IH]; cbn [map concat app]; [rewrite (lines_open l (proj1 Hl) Hne); reflexivity|].
    rewrite <- !app_assoc. cbn [app]. rewrite lines_from_line by apply Hx. rewrite IH. reflexivity.
  - rewrite in_app_iff. intros [Hc|Hc]; [|apply (proj2 Hl Hc)]. apply in_concat in Hc. destruct Hc as (x & Hx & Hc). apply in_map_iff in Hx. destruct Hx as (y & <- & Hy).
    rewrite Forall_forall in Hs. apply Hs in Hy. apply in_app_iff in Hc. destruct Hc as [Hc|[Hc|[]]]; [apply (proj2 Hy Hc) | discriminate].
Qed.
Lemma item_line_plain i : item_ok i -> no_newline (item_line i) /\ item_line i <> [].
Proof.
  intros [F _]. split.
  - apply join_no_newline; [split; intros [Q|[]]; discriminate | eapply Forall_impl; [|exact F]; intros a [_ Ha]; exact Ha].
  - destruct i; cbn [item_line words join]; [discriminate|]. intros E. apply app_eq_nil in E. destruct E as [_ E]. discriminate.
Qed.
Lemma read_file header items closed : length header = 3 -> Forall no_newline header -> Forall item_ok items ->
  get_graph_from_file (file_of header items closed) = Ret (fold_left put items no_graph).
Proof.
  intros Hh Hn Hi. unfold get_graph_from_file, file_of. destruct (rev items) as [|i before] eqn:Er.
  - assert (items = []) as -> by (rewrite <- (rev_involutive items), Er; reflexivity). rewrite read_lines_concat by exact Hn.
    rewrite (map_out_all _ (fun t => match split_str [sp] t with Ret l => l | _ => [] end)) by (intros x _; reflexivity). cbn [bind]. destruct header as [|? [|? [|? [|]]]]; try discriminate. reflexivity.
  - assert (Ei : items = rev before ++ [i]) by (rewrite <- (rev_involutive items), Er; reflexivity). rewrite Ei in Hi. apply Forall_app in Hi. destruct Hi as [Hb Hl]. inversion Hl as [|? ? Hok _]; subst.
    assert (Fl : Forall no_newline (header ++ map item_line (rev before))).
    { apply Forall_app. split; [exact Hn|]. apply Forall_map. eapply Forall_impl; [|exact Hb]. intros a Ha. apply item_line_plain, Ha. }
    assert (Er2 : read_lines (concat (map (fun l => l ++ [nl]) (header ++ map item_line (rev before))) ++ item_line i ++ (if closed then [nl] else [])) =
                  map (fun l => l ++ [nl]) header ++ map (fun ie => item_line (fst ie) ++ snd ie) (combine (rev before ++ [i]) (map (fun _ => [nl]) (rev before) ++ [if closed then [nl] else []]))).
    { assert (Ec : forall l : list item, map (fun ie : item * list char => item_line (fst ie) ++ snd ie) (combine l (map (fun _ => [nl]) l)) = map (fun l => l ++ [nl]) (map item_line l)) by (intros l; induction l as [|x l IH]; cbn; [reflexivity | rewrite IH; reflexivity]).
      rewrite combine_app by (rewrite map_length; reflexivity). rewrite !map_app, Ec, (app_assoc (map _ header)), <- !map_app. destruct (item_line_plain i Hok) as [Hp Hne].
      assert (Hgen : forall hs, Forall no_newline hs -> read_lines (concat (map (fun l => l ++ [nl]) hs) ++ item_line i ++ (if closed then [nl] else [])) = map (fun l => l ++ [nl]) hs ++ [item_line i ++ (if closed then [nl] else [])]).
      { intros hs Fh. destruct closed.
        - pose proof (read_lines_concat (hs ++ [item_line i])) as G. rewrite !map_app, concat_app in G. cbn [map concat] in G. rewrite app_nil_r in G. apply G.
          apply Forall_app. split; [exact Fh | constructor; [exact Hp | constructor]].
        - rewrite !app_nil_r. apply read_lines_open; assumption. }
      apply (Hgen (header ++ map item_line (rev before)) Fl). }
    rewrite Er2, map_out_app. rewrite (map_out_all _ (fun t => match split_str [sp] t with Ret l => l | _ => [] end)) by (intros x _; reflexivity). cbn [bind].
    assert (Es : forall es, Forall (fun e => e = [] \/ e = [nl]) es -> map_out (split_str [sp]) (map (fun ie => item_line (fst ie) ++ snd ie) (combine (rev before ++ [i]) es)) = Ret (map (fun ie => split_words (fst ie) (snd ie)) (combine (rev before ++ [i]) es))).
    { intros es Fe. rewrite (map_out_all _ (fun t => match split_str [sp] t with Ret l => l | _ => [] end)) by (intros x _; reflexivity). f_equal. rewrite map_map. apply map_ext_in. intros [x e] I. cbn [fst snd].
      pose proof (in_combine_l _ _ _ _ I) as I1. apply in_combine_r in I. rewrite Forall_forall in Fe. apply Fe in I. rewrite split_line; [reflexivity | | destruct I as [->| ->]; [intros [] | intros [Q|[]]; discriminate]].
      apply in_app_iff in I1. destruct I1 as [I1|[<-|[]]]; [rewrite Forall_forall in Hb; apply Hb, I1 | exact Hok]. }
    assert (Fe : Forall (fun e : text => e = [] \/ e = [nl]) (map (fun _ => [nl]) (rev before) ++ [if closed then [nl] else []])).
    { apply Forall_app. split; [apply Forall_map, Forall_forall; intros; right; reflexivity | constructor; [destruct closed; [right | left]; reflexivity | constructor]]. }
    rewrite Es by exact Fe. cbn [bind]. rewrite map_map. destruct header as [|h1 [|h2 [|h3 [|]]]]; try discriminate. cbn [map app skipn].
    apply read_items; [apply Forall_app; split; assumption | rewrite !app_length, map_length; reflexivity | exact Fe].
Qed.
Lemma touch_get ns n k : dget (touch ns n) k = match dget ns k with Some x => Some x | None => if eq_dec k n then Some None else None end.
Proof.
  unfold touch. destruct (dget ns n) as [x|] eqn:E.
  - destruct (dget ns k) eqn:Ek; [reflexivity|]. destruct (eq_dec k n) as [->|]; congruence.
  - rewrite dget_dset. destruct (eq_dec k n) as [->|]; [rewrite E; reflexivity | destruct (dget ns k); reflexivity].
Qed.
(* C100 *)
Theorem C100_read : forall header items closed, length header = 3 -> Forall no_newline header -> Forall item_ok items ->
  exists g, get_graph_from_file (file_of header items closed) = Ret g /\
    (forall n, In n (dkeys (d_nodes g)) <-> exists i, In i items /\ mentions i (n - 1)) /\
    (forall n l, dget (d_nodes g) n = Some (Some l) <-> exists w more, last_of (is_vertex (n - 1)) items (Vertex (n - 1) w l more)) /\
    (forall u v l, dget (d_edges g) (u, v) = Some l <-> exists k t more, l = Some t /\ last_of (is_arc (u - 1) (v - 1)) items (Arc k (u - 1) (v - 1) t more)).
Proof.
  intros header items closed Hh Hn Hi. exists (fold_left put items no_graph). split; [apply read_file; assumption|]. clear.
  induction items as [|x items (IH1 & IH2 & IH3)] using rev_ind.
  - cbn [fold_left]. split; [|split]; cbn.
    + intros n. split; [intros [] | intros (i & [] & _)].
    + intros n l. split; [discriminate | intros (w & more & Q); destruct (last_nil _ _ Q)].
    + intros u v l. split; [discriminate | intros (k & t & more & _ & Q); destruct (last_nil _ _ Q)].
  - rewrite fold_left_app. cbn [fold_left]. set (g := fold_left put items no_graph) in *. clearbody g. split; [|split].
    + intros n. assert (E : (exists i, In i (items ++ [x]) /\ mentions i (n - 1)) <-> mentions x (n - 1) \/ In n (dkeys (d_nodes g))).
      { rewrite IH1. split; [intros (i & I & M); apply in_app_iff in I; destruct I as [I|[<-|[]]]; [right; exists i; split; assumption | left; exact M]|].
        intros [M|(i & I & M)]; [exists x; split; [apply in_or_app; right; left; reflexivity | exact M] | exists i; split; [apply in_or_app; left; exact I | exact M]]. }
      rewrite E. clear E IH1 IH2 IH3. rewrite !dget_Some_key. destruct x as [id w l more|k u v l more]; cbn [put put_node put_edge d_nodes mentions].
      * rewrite dget_dset. destruct (eq_dec n (id + 1)%Z) as [->|Ne]; [split; [intros _; left; lia | intros _; eexists; reflexivity]|]. split; [intros Q; right; exact Q | intros [Q|Q]; [lia | exact Q]].
      * rewrite !touch_get. destruct (dget (d_nodes g) n) as [y|]; [split; [intros _; right; eexists; reflexivity | intros _; eexists; reflexivity]|].
        destruct (eq_dec n (u + 1)%Z) as [->|N1]; [split; [intros _; left; left; lia | intros _; eexists; reflexivity]|].
        destruct (eq_dec n (v + 1)%Z) as [->|N2]; [split; [intros _; left; right; lia | intros _; eexists; reflexivity]|]. split; [intros (y & Q); discriminate | intros [[Q|Q]|(y & Q)]; [lia | lia | discriminate]].
    + intros n l. specialize (IH2 n l). destruct x as [id w l' more|k u v l' more]; cbn [put put_node put_edge d_nodes].
      * rewrite dget_dset. destruct (eq_dec n (id + 1)%Z) as [->|Ne].
        -- split.
           ++ intros Q. injection Q as ->. exists w, more. apply last_snoc. left. cbn. split; [lia | f_equal; lia].
           ++ intros (w' & more' & Q). apply last_snoc in Q. destruct Q as [[_ Q]|[Q _]]; [congruence | exfalso; apply Q; cbn; lia].
        -- rewrite IH2. split; intros (w' & more' & Q); exists w', more'; [apply last_snoc; right; split; [cbn; lia | exact Q]|]. apply last_snoc in Q. destruct Q as [[Q _]|[_ Q]]; [cbn in Q; lia | exact Q].
      * rewrite !touch_get. transitivity (dget (d_nodes g) n = Some (Some l)); [destruct (dget (d_nodes g) n); [reflexivity|]; destruct (eq_dec n (u + 1)%Z); [split; discriminate|]; destruct (eq_dec n (v + 1)%Z); split; discriminate|].
        rewrite IH2. split; intros (w' & more' & Q); exists w', more'; [apply last_snoc; right; split; [intros [] | exact Q]|]. apply last_snoc in Q. destruct Q as [[[] _]|[_ Q]]. exact Q.
    + intros u v l. specialize (IH3 u v l). destruct x as [id w l' more|k a b l' more]; cbn [put put_node put_edge d_edges].
      * rewrite IH3. split; intros (k' & t & more' & El & Q); exists k', t, more'; (split; [exact El|]); [apply last_snoc; right; split; [intros [] | exact Q]|]. apply last_snoc in Q. destruct Q as [[[] _]|[_ Q]]. exact Q.
      * rewrite dget_dset. destruct (eq_dec (u, v) ((a + 1)%Z, (b + 1)%Z)) as [E|Ne].
        -- injection E as -> ->. split.
           ++ intros Q. injection Q as <-. exists k, l', more. split; [reflexivity|]. apply last_snoc. left. cbn. split; [lia | f_equal; lia].
           ++ intros (k' & t & more' & -> & Q). apply last_snoc in Q. destruct Q as [[_ Q]|[Q _]]; [congruence | exfalso; apply Q; cbn; lia].
        -- assert (Na : ~ is_arc (u - 1) (v - 1) (Arc k a b l' more)) by (cbn; intros [-> ->]; apply Ne; f_equal; lia).
           rewrite IH3. split; intros (k' & t & more' & El & Q); exists k', t, more'; (split; [exact El|]); [apply last_snoc; right; split; [exact Na | exact Q]|]. apply last_snoc in Q. destruct Q as [[Q _]|[_ Q]]; [contradiction | exact Q].
Qed.
Print Assumptions C100_read.

(* a graph whose vertices are numbered differently and whose edges join different pairs of its vertices
   comes back as it is, in the same order, every number one higher *)
Definition as_items (w k : text) (vs : list (Z * text)) (es : list (Z * Z * text)) : list item :=
  map (fun nl => Vertex (fst nl) w (snd nl) []) vs ++ map (fun e => Arc k (fst (fst e)) (snd (fst e)) (snd e) []) es.
Lemma dset_fresh {K V} `{EqDec K} (d : dict K V) k v : ~ In k (dkeys d) -> dset d k v = d ++ [(k, v)].
Proof. induction d as [|[k' v'] d IH]; intros N; cbn in *; [reflexivity|]. destruct (eq_dec k k') as [->|_]; [tauto|]. rewrite IH by tauto. reflexivity. Qed.
Theorem C100_round : forall header w k vs es closed, length header = 3 -> Forall no_newline header -> plain w -> plain k -> k <> lit "v" ->
  Forall (fun nl => plain (snd nl)) vs -> Forall (fun e => plain (snd e)) es -> NoDup (map fst vs) -> NoDup (map fst es) ->
  (forall e, In e es -> In (fst (fst e)) (map fst vs) /\ In (snd (fst e)) (map fst vs)) ->
  get_graph_from_file (file_of header (as_items w k vs es) closed) =
    Ret {| d_nodes := map (fun nl => ((fst nl + 1)%Z, Some (snd nl))) vs;
           d_edges := map (fun e => (((fst (fst e) + 1)%Z, (snd (fst e) + 1)%Z), Some (snd e))) es |}.
Proof.
  intros header w k vs es closed Hh Hn Hw Hk Hkv Fv Fe Nv Ne Hin.
  assert (Pz : forall z, plain (str_z z)).
  { intros z. split; [|split]; intros I; apply str_z_chars in I; (destruct I as [[I1 I2]|I]; [unfold sp, nl, cr in *; lia | discriminate]). }
  rewrite read_file; [| exact Hh | exact Hn |].
  - f_equal. unfold as_items. rewrite fold_left_app.
    assert (E1 : forall l g, NoDup (map fst l) -> (forall n, In n (map fst l) -> ~ In (n + 1)%Z (dkeys (d_nodes g))) ->
      fold_left put (map (fun nl : Z * text => Vertex (fst nl) w (snd nl) []) l) g = {| d_nodes := d_nodes g ++ map (fun nl => ((fst nl + 1)%Z, Some (snd nl))) l; d_edges := d_edges g |}).
    { induction l as [|[n t] l IH]; intros g Nd Hf; cbn [map fold_left]; [rewrite app_nil_r; destruct g; reflexivity|]. cbn [map fst] in Nd. inversion Nd as [|? ? N1 N2]; subst. cbn [fst snd]. change (put g (Vertex n w t [])) with {| d_nodes := dset (d_nodes g) (n + 1)%Z (Some t); d_edges := d_edges g |}.
      rewrite dset_fresh by (apply Hf; left; reflexivity). rewrite IH; [cbn [d_nodes d_edges]; rewrite <- app_assoc; reflexivity | exact N2|].
      intros m Im. cbn [d_nodes]. unfold dkeys. rewrite map_app, in_app_iff. intros [Q|[Q|[]]]; [apply (Hf m); [right; exact Im | exact Q] | cbn in Q; assert (n = m) as -> by lia; contradiction]. }
    rewrite E1 by (try exact Nv; intros; intros []). cbn [d_nodes d_edges app no_graph].
    set (ns := map (fun nl : Z * text => ((fst nl + 1)%Z, Some (snd nl))) vs).
    assert (Hns : forall n, In n (map fst vs) -> dget ns (n + 1)%Z <> None).
    { intros n I Q. apply dget_None in Q. apply Q. unfold ns, dkeys. rewrite map_map. cbn [fst]. apply in_map_iff in I. destruct I as (x & <- & I). apply in_map_iff. exists x. split; [reflexivity | exact I]. }
    assert (E2 : forall l d, NoDup (map fst l) -> (forall p, In p (map fst l) -> ~ In ((fst p + 1)%Z, (snd p + 1)%Z) (dkeys d)) -> incl l es ->
      fold_left put (map (fun e : Z * Z * text => Arc k (fst (fst e)) (snd (fst e)) (snd e) []) l) {| d_nodes := ns; d_edges := d |} =
      {| d_nodes := ns; d_edges := d ++ map (fun e => (((fst (fst e) + 1)%Z, (snd (fst e) + 1)%Z), Some (snd e))) l |}).
    { induction l as [|[[u v] t] l IH]; intros d Nd Hf Hi; cbn [map fold_left]; [rewrite app_nil_r; reflexivity|]. cbn [map fst] in Nd. inversion Nd as [|? ? N1 N2]; subst. cbn [fst snd]. change (put {| d_nodes := ns; d_edges := d |} (Arc k u v t [])) with (put_edge {| d_nodes := ns; d_edges := d |} (u + 1) (v + 1) t).
      destruct (Hin ((u, v), t)) as [Iu Iv]; [apply Hi; left; reflexivity|]. cbn [fst snd] in Iu, Iv.
      assert (Et : touch (touch ns (u + 1)) (v + 1) = ns).
      { assert (T : forall n, In n (map fst vs) -> touch ns (n + 1) = ns) by (intros n I; unfold touch; specialize (Hns n I); destruct (dget ns (n + 1)%Z); [reflexivity | congruence]). rewrite !T by assumption. reflexivity. }
      assert (Ed : dset d ((u + 1)%Z, (v + 1)%Z) (Some t) = d ++ [(((u + 1)%Z, (v + 1)%Z), Some t)]) by (apply dset_fresh, (Hf (u, v)); left; reflexivity).
      assert (Ep : put_edge {| d_nodes := ns; d_edges := d |} (u + 1) (v + 1) t = {| d_nodes := ns; d_edges := d ++ [(((u + 1)%Z, (v + 1)%Z), Some t)] |}) by (unfold put_edge; cbn [d_nodes d_edges]; rewrite Et, Ed; reflexivity).
      rewrite Ep, IH; [rewrite <- app_assoc; reflexivity | exact N2 | | intros x Hx; apply Hi; right; exact Hx].
      intros p Ip. unfold dkeys. rewrite map_app, in_app_iff. intros [Q|[Q|[]]]; [apply (Hf p); [right; exact Ip | exact Q]|]. cbn in Q. injection Q as Q1 Q2. apply N1. assert (p = (u, v)) as <- by (destruct p; cbn in *; f_equal; lia). exact Ip. }
    rewrite E2; [reflexivity | exact Ne | intros p _ [] | apply incl_refl].
  - unfold as_items. apply Forall_app. split; apply Forall_map.
    + eapply Forall_impl; [|exact Fv]. intros [n t] P. split; [|exact I]. cbn [words fst snd] in *. repeat constructor; try (apply Pz) || (apply Hw) || (apply P). all: intros [Q|[]]; discriminate.
    + eapply Forall_impl; [|exact Fe]. intros [[u v] t] P. split; [|exact Hkv]. cbn [words fst snd] in *. constructor; [exact Hk|]. constructor; [apply Pz|]. constructor; [apply Pz|]. constructor; [exact P | constructor].
Qed.
Print Assumptions C100_round.

(* any text: the file is read if and only if every line after the third has four words, the numbers being
   numbers; a blank line does not *)
Definition readable (line : text) : Prop :=
  exists w1 w2 w3 w4 rest n, split_str [sp] line = Ret (w1 :: w2 :: w3 :: w4 :: rest) /\ parse_int w2 = Some n /\
    (w1 <> lit "v" -> exists m, parse_int w3 = Some m).
Lemma split_some c s : exists l, split_str [c] s = Ret l /\ l <> [].
Proof. unfold split_str. exists (split_aux (S (Datatypes.length s)) [c] [] s). split; [reflexivity|]. cbn [split_aux]. destruct s; [discriminate|]. destruct (strip_prefix [c] (c0 :: s)); [discriminate|]. generalize ([] ++ [c0]) as cur. generalize (Datatypes.length (c0 :: s)) as f. revert s. intros s f. revert s. induction f as [|f IH]; intros s cur; cbn [split_aux]; [discriminate|]. destruct s as [|d s]; [discriminate|]. destruct (strip_prefix [c] (d :: s)); [discriminate | apply IH]. Qed.
Lemma label_some line : 3 < Datatypes.length line -> exists l, label_at line = Ret l.
Proof.
  intros L. unfold label_at, nth_out. destruct (nth_error line 3) as [t|] eqn:E; [|apply nth_error_None in E; lia]. cbn [bind]. destruct (split_some nl t) as ([|x l] & -> & N); [congruence|]. exists x. reflexivity.
Qed.
Lemma readable_line g line ws : split_str [sp] line = Ret ws -> (exists g', read_graph_line g ws = Ret g') <-> readable line.
Proof.
  intros Es. destruct ws as [|w1 [|w2 [|w3 [|w4 rest]]]].
  - split; [intros (g' & Q); discriminate | intros (?&?&?&?&?&?&Q&_); congruence].
  - split; [intros (g' & Q) | intros (?&?&?&?&?&?&Q&_); congruence]. unfold read_graph_line, int_at, nth_out in Q. cbn [nth_error bind] in Q. destruct (eqd w1 (lit "v")); discriminate.
  - split; [intros (g' & Q) | intros (?&?&?&?&?&?&Q&_); congruence]. unfold read_graph_line, int_at, label_at, nth_out in Q. cbn [nth_error bind] in Q. destruct (eqd w1 (lit "v")); destruct (parse_int w2); discriminate.
  - split; [intros (g' & Q) | intros (?&?&?&?&?&?&Q&_); congruence]. unfold read_graph_line, int_at, label_at, nth_out in Q. cbn [nth_error bind] in Q. destruct (eqd w1 (lit "v")); destruct (parse_int w2); try discriminate. cbn [bind] in Q. destruct (parse_int w3); discriminate.
  - destruct (label_some (w1 :: w2 :: w3 :: w4 :: rest) ltac:(cbn; lia)) as (t & Et). split.
    + intros (g' & Q). unfold read_graph_line in Q. rewrite Et in Q. unfold int_at, nth_out in Q. cbn [nth_error bind] in Q. destruct (parse_int w2) as [n|] eqn:E2; [|destruct (eqd w1 (lit "v")); discriminate].
      exists w1, w2, w3, w4, rest, n. split; [exact Es|]. split; [exact E2|]. intros N. apply (proj2 (eqd_false _ _)) in N. cbn [bind] in Q. rewrite N in Q. destruct (parse_int w3) as [m|]; [exists m; reflexivity | discriminate].
    + intros (x1 & x2 & x3 & x4 & r' & n & E' & E2 & E3). rewrite Es in E'. injection E' as -> -> -> -> ->. unfold read_graph_line. rewrite Et. unfold int_at, nth_out. cbn [nth_error bind]. rewrite E2. cbn [bind].
      destruct (eqd x1 (lit "v")) eqn:Ev; [eexists; reflexivity|]. apply (proj1 (eqd_false _ _)) in Ev. destruct (E3 Ev) as (m & ->). eexists. reflexivity.
Qed.
Theorem C100_readable : forall content, (exists g, get_graph_from_file content = Ret g) <-> Forall readable (skipn 3 (read_lines content)).
Proof.
  intros content. unfold get_graph_from_file. rewrite (map_out_all _ (fun t => match split_str [sp] t with Ret l => l | _ => [] end)) by (intros x _; reflexivity). cbn [bind].
  rewrite skipn_map. generalize (skipn 3 (read_lines content)) as ls. generalize no_graph as g. intros g ls. revert g. induction ls as [|l ls IH]; intros g; cbn [map read_graph_lines].
  - split; [constructor | intros _; eexists; reflexivity].
  - destruct (split_some sp l) as (ws & Ew & _). rewrite Ew. pose proof (readable_line g l ws Ew) as R. split.
    + intros (g' & Q). destruct (read_graph_line g ws) as [g1| |] eqn:E1; try discriminate. constructor; [apply R; eexists; reflexivity | apply (IH g1); exists g'; exact Q].
    + intros F. inversion F as [|? ? R1 F1]; subst. apply R in R1. destruct R1 as (g1 & ->). cbn [bind]. apply IH, F1.
Qed.
Print Assumptions C100_readable.
Theorem C100_blank : forall before after, 3 <= Datatypes.length before -> Forall no_newline (before ++ after) ->
  forall g, get_graph_from_file (concat (map (fun l => l ++ [nl]) (before ++ [] :: after))) <> Ret g.
Proof.
  intros before after L F g Q. assert (X : exists g, get_graph_from_file (concat (map (fun l => l ++ [nl]) (before ++ [] :: after))) = Ret g) by (exists g; exact Q). apply C100_readable in X.
  apply Forall_app in F. rewrite read_lines_concat in X by (apply Forall_app; split; [apply F | constructor; [split; intros [] | apply F]]).
  rewrite map_app, skipn_app, map_length in X. apply Forall_app in X. destruct X as [_ X]. replace (3 - Datatypes.length before) with 0 in X by lia. inversion X as [|? ? (?&?&?&?&?&?&R&_) _]; subst. vm_compute in R. discriminate.
Qed.
Print Assumptions C100_blank.
(* The exception comes from the first line that cannot be read: ValueError when one of its numbers is no number,
   IndexError when it is too short. *)
Definition bad_number (ws : list text) : Prop :=
  (exists w, nth_error ws 1 = Some w /\ parse_int w = None) \/
  (nth_error ws 0 <> Some (lit "v") /\ exists w, nth_error ws 2 = Some w /\ parse_int w = None).
Theorem C100_unreadable : forall content top good bad rest ws, read_lines content = top ++ good ++ bad :: rest -> Datatypes.length top = 3 ->
  Forall readable good -> ~ readable bad -> split_str [sp] bad = Ret ws ->
  (bad_number ws -> get_graph_from_file content = Exn ValueError) /\ (~ bad_number ws -> get_graph_from_file content = Exn IndexError).
Proof.
  intros content top good bad rest ws E L Fg Nb Es.
  assert (Q : forall g, (bad_number ws -> read_graph_line g ws = Exn ValueError) /\ (~ bad_number ws -> read_graph_line g ws = Exn IndexError)).
  { intros g. pose proof (readable_line g bad ws Es) as R. unfold bad_number. destruct ws as [|w1 ws].
    - destruct (split_some sp bad) as (l & El & Nl). congruence.
    - unfold read_graph_line, int_at, label_at, nth_out in *. cbn [nth_error bind] in *.
      destruct ws as [|w2 ws]; cbn [nth_error bind] in *.
      { split; [intros [(w & W & _)|(_ & w & W & _)]; discriminate | intros _; destruct (eqd w1 (lit "v")); reflexivity]. }
      destruct (parse_int w2) as [n|] eqn:E2; cbn [bind] in *; [|split; [intros _; destruct (eqd w1 (lit "v")); reflexivity | intros N; exfalso; apply N; left; eauto]].
      destruct (eqd w1 (lit "v")) eqn:Ev.
      + apply (proj1 (eqd_true _ _)) in Ev. subst w1. split; [intros [(w & W & P)|(N & _)]; [injection W as <-; congruence | congruence]|]. intros _.
        destruct ws as [|w3 [|t ws]]; cbn [nth_error bind] in *; [reflexivity | reflexivity|]. exfalso. apply Nb, R. destruct (split_some nl t) as ([|x l] & El & N); [congruence|]. rewrite El. eexists. reflexivity.
      + apply (proj1 (eqd_false _ _)) in Ev. destruct ws as [|w3 ws]; cbn [nth_error bind] in *; [split; [intros [(w & W & P)|(_ & w & W & P)]; [injection W as <-; congruence | discriminate] | reflexivity]|].
        * destruct (parse_int w3) as [m|] eqn:Em; cbn [bind] in *.
          { split; [intros [(w & W & P)|(_ & w & W & P)]; injection W as <-; congruence|]. intros _.
            destruct ws as [|t ws]; cbn [nth_error bind] in *; [reflexivity|]. exfalso. apply Nb, R. destruct (split_some nl t) as ([|x l] & El & N); [congruence|]. rewrite El. eexists. reflexivity. }
          { split; [reflexivity|]. intros N. exfalso. apply N. right. split; [congruence | eauto]. } }
  unfold get_graph_from_file. rewrite (map_out_all _ (fun t => match split_str [sp] t with Ret l => l | _ => [] end)) by (intros x _; reflexivity). cbn [bind].
  rewrite skipn_map, E, skipn_app, L, <- L, skipn_all. rewrite Nat.sub_diag. cbn [skipn app]. clear E L. generalize no_graph as g. induction Fg as [|l good R1 Fg IH]; intros g; cbn [app map read_graph_lines].
  - rewrite Es. split; intros B; apply Q with (g := g) in B; rewrite B; reflexivity.
  - destruct (split_some sp l) as (ws1 & Ew & _). rewrite Ew. apply (readable_line g l ws1 Ew) in R1. destruct R1 as (g1 & ->). cbn [bind]. apply IH.
Qed.
Print Assumptions C100_unreadable.
Example C100_unreadable_case :
  let content := lit "# a" ++ [nl] ++ lit "# b" ++ [nl] ++ lit "# c" ++ [nl] ++ lit "v 0 x C" ++ [nl] ++ lit "e 0 y single" ++ [nl] in
  read_lines content = [lit "# a" ++ [nl]; lit "# b" ++ [nl]; lit "# c" ++ [nl]] ++ [lit "v 0 x C" ++ [nl]] ++ [lit "e 0 y single" ++ [nl]] /\
  bad_number [lit "e"; lit "0"; lit "y"; lit "single" ++ [nl]] /\ get_graph_from_file content = Exn ValueError /\
  get_graph_from_file (lit "# a" ++ [nl] ++ lit "# b" ++ [nl] ++ lit "# c" ++ [nl] ++ lit "v 0" ++ [nl]) = Exn IndexError.
Proof.
  cbn zeta. split; [vm_compute; reflexivity|]. split; [|split; vm_compute; reflexivity]. right. split; [discriminate|]. eexists. split; [reflexivity | vm_compute; reflexivity].
Qed.
(* A label of two words loses all but the first; two edges between the same vertices with different labels
   become one; without the three lines at the top the first three vertices are lost. *)
Definition big_cat : list item := [Vertex 0 (lit "x") (lit "big") [lit "cat"]; Vertex 1 (lit "x") (lit "cat") []; Arc (lit "e") 0 1 (lit "sees") []; Arc (lit "e") 0 1 (lit "eats") []].
Definition three : list text := [lit "# a graph"; []; lit "t 1"].
Theorem C100_label_refuted : exists g, Forall item_ok big_cat /\ get_graph_from_file (file_of three big_cat true) = Ret g /\
  item_line (hd (Vertex 0 [] [] []) big_cat) = lit "v 0 x big cat" /\ dget (d_nodes g) 1%Z = Some (Some (lit "big")).
Proof.
  eexists. split; [|split; [vm_compute; reflexivity|]; split; vm_compute; reflexivity].
  repeat (constructor; [split; [repeat (constructor; [split; [|split]; vm_compute; intuition discriminate|]); constructor | vm_compute; try exact I; discriminate]|]). constructor.
Qed.
Theorem C100_parallel_refuted : exists g, get_graph_from_file (file_of three big_cat true) = Ret g /\ In (Arc (lit "e") 0 1 (lit "sees") []) big_cat /\ In (Arc (lit "e") 0 1 (lit "eats") []) big_cat /\ d_edges g = [((1, 2)%Z, Some (lit "eats"))].
Proof. eexists. split; [vm_compute; reflexivity|]. split; [right; right; left; reflexivity|]. split; [right; right; right; left; reflexivity | reflexivity]. Qed.
Theorem C100_header_refuted : get_graph_from_file (concat (map (fun i => item_line i ++ [nl]) [Vertex 0 [] (lit "a") []; Vertex 1 [] (lit "b") []; Arc (lit "e") 0 1 (lit "c") []])) = Ret no_graph.
Proof. vm_compute. reflexivity. Qed.
(* a file as the reader expects it *)
Example C100_case : let vs := [(0, lit "C"); (1, lit "N"); (5, lit "C")]%Z in let es := [((0, 1), lit "=="); ((1, 0), lit "=="); ((5, 5), [])]%Z in
  Forall no_newline three /\ plain (lit "x") /\ plain (lit "e") /\ lit "e" <> lit "v" /\ Forall (fun nl => plain (snd nl)) vs /\ Forall (fun e => plain (snd e)) es /\
  NoDup (map fst vs) /\ NoDup (map fst es) /\ get_graph_from_file (file_of three (as_items (lit "x") (lit "e") vs es) false) =
  Ret {| d_nodes := [(1, Some (lit "C")); (2, Some (lit "N")); (6, Some (lit "C"))]%Z; d_edges := [((1, 2), Some (lit "==")); ((2, 1), Some (lit "==")); ((6, 6), Some [])]%Z |}.
Proof.
  cbn zeta. split; [repeat (constructor; [split; vm_compute; intuition discriminate|]); constructor|]. split; [split; [|split]; vm_compute; intuition discriminate|]. split; [split; [|split]; vm_compute; intuition discriminate|].
  split; [discriminate|]. split; [repeat (constructor; [split; [|split]; vm_compute; intuition discriminate|]); constructor|]. split; [repeat (constructor; [split; [|split]; vm_compute; intuition discriminate|]); constructor|].
  split; [repeat constructor; cbn; intuition discriminate|]. split; [repeat constructor; cbn; intuition discriminate|]. vm_compute. reflexivity.
Qed.
Print Assumptions C100_label_refuted. Print Assumptions C100_parallel_refuted. Print Assumptions C100_header_refuted.

(* ------------------------------------------------------------------ C101 *)
(* a graph as networkx keeps it: the ends of an edge are nodes *)
Record well_formed (g : digraph) : Prop := {
  wf_nodes : NoDup (dkeys (d_nodes g));
  wf_edges : NoDup (dkeys (d_edges g));
  wf_ends : forall u v l, In ((u, v), l) (d_edges g) -> In u (dkeys (d_nodes g)) /\ In v (dkeys (d_nodes g)) }.
(* what stands for a vertex: its label, or its number *)
Definition name_of (g : digraph) (n : Z) : text := match dget (d_nodes g) n with Some (Some l) => l | _ => str_z n end.
Definition shown (g : digraph) (e : Z * Z * option text) : text * option text * text := (name_of g (fst (fst e)), snd e, name_of g (snd (fst e))).
Definition dash : char := 45%N.
Definition clean (t : text) : Prop := ~ In dash t /\ ~ In nl t.
Definition clean_triple (x : text * option text * text) : Prop :=
  clean (fst (fst x)) /\ clean (snd x) /\ match snd (fst x) with Some l => clean l | None => True end.
Definition line_of (x : text * option text * text) : text :=
  match snd (fst x) with
  | Some l => fst (fst x) ++ lit "--" ++ l ++ lit "-->" ++ snd x ++ [nl]
  | None => fst (fst x) ++ lit "--->" ++ snd x ++ [nl]
  end.

Lemma touch_keys ns n k : In k (dkeys (touch ns n)) <-> k = n \/ In k (dkeys ns).
Proof.
  rewrite !dget_Some_key, touch_get. destruct (dget ns k) as [x|]; [split; [intros _; right; eexists; reflexivity | intros _; eexists; reflexivity]|].
  destruct (eq_dec k n); split; try (intros _; eexists; reflexivity); try (intros _; left; assumption); [intros (y & Q); discriminate | intros [Q|(y & Q)]; [contradiction | discriminate]].
Qed.
Lemma touch_NoDup ns n : NoDup (dkeys ns) -> NoDup (dkeys (touch ns n)).
Proof. intros N. unfold touch. destruct (dget ns n); [exact N | apply NoDup_dset, N]. Qed.
Lemma dset_key {K V} `{EqDec K} (d : dict K V) k v x : In x (dkeys (dset d k v)) <-> x = k \/ In x (dkeys d).
Proof. rewrite !dget_Some_key, dget_dset. destruct (eq_dec x k); [split; [intros _; left; assumption | intros _; eexists; reflexivity]|]. split; [intros Q; right; exact Q | intros [Q|Q]; [contradiction | exact Q]]. Qed.
Lemma put_node_wf g n l : well_formed g -> well_formed (put_node g n l).
Proof.
  intros [W1 W2 W3]. constructor; cbn [put_node d_nodes d_edges]; [apply NoDup_dset, W1 | exact W2|]. intros u v t I. destruct (W3 u v t I). rewrite !dset_key. tauto.
Qed.
Lemma dset_In' {K V} `{EqDec K} (d : dict K V) k v k' v' : In (k', v') (dset d k v) -> (k' = k /\ v' = v) \/ In (k', v') d.
Proof. induction d as [|[k1 v1] d IH]; cbn; [intros [Q|[]]; injection Q as <- <-; left; split; reflexivity|]. destruct (eq_dec k k1) as [->|]; cbn; intros [Q|Q]; [injection Q as <- <-; left; split; reflexivity | right; right; exact Q | right; left; exact Q | destruct (IH Q); [left; assumption | right; right; assumption]]. Qed.
Lemma put_edge_wf g u v l : well_formed g -> well_formed (put_edge g u v l).
Proof.
  intros [W1 W2 W3]. constructor; cbn [put_edge d_nodes d_edges]; [apply touch_NoDup, touch_NoDup, W1 | apply NoDup_dset, W2|].
  intros a b t I. rewrite !touch_keys. apply dset_In' in I. destruct I as [[E _]|I]; [injection E as -> ->; tauto | destruct (W3 a b t I); tauto].
Qed.
(* whatever the file, what is read is a graph *)
Theorem C100_graph : forall content g, get_graph_from_file content = Ret g -> well_formed g.
Proof.
  intros content g. unfold get_graph_from_file. destruct (map_out (split_str [sp]) (read_lines content)) as [ls| |]; try discriminate. cbn [bind].
  assert (W0 : well_formed no_graph) by (constructor; cbn; [constructor | constructor | intros ? ? ? []]). revert W0. generalize no_graph. generalize (skipn 3 ls). clear. intros ls.
  induction ls as [|l ls IH]; intros g0 W; cbn [read_graph_lines]; [intros Q; injection Q as <-; exact W|]. destruct (read_graph_line g0 l) as [g1| |] eqn:E; try discriminate. cbn [bind]. apply IH.
  unfold read_graph_line in E. destruct (nth_out l 0) as [w| |]; try discriminate. cbn [bind] in E. destruct (eqd w (lit "v")).
  - destruct (int_at l 1) as [n| |]; try discriminate. cbn [bind] in E. destruct (label_at l) as [t| |]; try discriminate. injection E as <-. apply put_node_wf, W.
  - destruct (int_at l 1) as [u| |]; try discriminate. cbn [bind] in E. destruct (int_at l 2) as [v| |]; try discriminate. cbn [bind] in E. destruct (label_at l) as [t| |]; try discriminate. injection E as <-. apply put_edge_wf, W.
Qed.
Print Assumptions C100_graph.

Lemma perm_groups {X} (f : X -> Z) (l : list X) ks : NoDup ks -> (forall x, In x l -> In (f x) ks) -> Permutation (flat_map (fun n => filter (fun x => (f x =? n)%Z) l) ks) l.
Proof.
  revert ks. induction l as [|x l IH]; intros ks Nk Hin.
  - cbn. induction ks; [constructor|]. cbn. apply IHks; [inversion Nk; assumption | intros x []].
  - destruct (in_split (f x) ks (Hin x (or_introl eq_refl))) as (k1 & k2 & ->). specialize (IH _ Nk ltac:(intros y Hy; apply Hin; right; exact Hy)).
    assert (Nx : ~ In (f x) (k1 ++ k2)) by (apply NoDup_remove_2, Nk).
    assert (Eo : forall ks, ~ In (f x) ks -> flat_map (fun n => filter (fun y => (f y =? n)%Z) (x :: l)) ks = flat_map (fun n => filter (fun y => (f y =? n)%Z) l) ks).
    { clear. induction ks as [|k ks IH]; intros N; [reflexivity|]. cbn [flat_map]. rewrite IH by (intros Q; apply N; right; exact Q). f_equal. cbn [filter]. destruct (Z.eqb_spec (f x) k) as [E|_]; [exfalso; apply N; left; symmetry; exact E | reflexivity]. }
    rewrite in_app_iff in Nx. rewrite flat_map_app in *. cbn [flat_map] in *. rewrite !Eo by tauto. cbn [filter]. rewrite Z.eqb_refl. cbn [app].
    etransitivity; [symmetry; apply Permutation_middle|]. constructor. exact IH.
Qed.
Lemma node_text_wf g n : In n (dkeys (d_nodes g)) -> node_text g n = Ret (name_of g n).
Proof. intros I. apply dget_Some_key in I. destruct I as (x & E). unfold node_text, name_of. rewrite E. destruct x; reflexivity. Qed.
(* C101: every edge is shown once *)
Theorem C101_edges : forall g, well_formed g -> Permutation (edges_in_order g) (d_edges g).
Proof. intros g W. unfold edges_in_order. apply (perm_groups (fun e => fst (fst e))); [apply wf_nodes, W|]. intros [[u v] l] I. apply (wf_ends g W u v l I). Qed.
Lemma display_lines g : well_formed g -> d_edges g <> [] -> display_graph g = Ret (concat (map line_of (map (shown g) (edges_in_order g)))).
Proof.
  intros W Hne. unfold display_graph. pose proof (C101_edges g W) as Pe. destruct (edges_in_order g) as [|e es] eqn:E; [apply Permutation_nil in Pe; contradiction|].
  rewrite (map_out_all _ (fun e => line_of (shown g e))); [cbn [bind]; rewrite map_map; reflexivity|]. intros [[u v] l] I. apply (Permutation_in _ Pe) in I. destruct (wf_ends g W u v l I) as [Iu Iv].
  unfold edge_text. cbn [fst snd]. rewrite !node_text_wf by assumption. cbn [bind]. destruct l; reflexivity.
Qed.
Lemma cut_at (c : char) a b x y : ~ In c a -> ~ In c b -> a ++ c :: x = b ++ c :: y -> a = b /\ x = y.
Proof.
  revert b. induction a as [|d a IH]; intros [|e b] Na Nb E; cbn in *.
  - injection E as <-. split; reflexivity.
  - injection E as -> _. tauto.
  - injection E as -> _. tauto.
  - injection E as -> E. destruct (IH b ltac:(tauto) ltac:(tauto) E) as [-> ->]. split; reflexivity.
Qed.
Lemma lines_recover xs : forall ys, Forall clean_triple xs -> Forall clean_triple ys -> concat (map line_of xs) = concat (map line_of ys) -> xs = ys.
Proof.
  assert (Hne : forall x r, line_of x ++ r <> []) by (intros [[a [l|]] b] r Q; unfold line_of in Q; cbn [fst snd] in Q; rewrite <- app_assoc in Q; apply app_eq_nil in Q; destruct Q as [_ Q]; discriminate).
  induction xs as [|x xs IH]; intros [|y ys] Fx Fy E; cbn [map concat] in E; [reflexivity | symmetry in E; destruct (Hne _ _ E) | destruct (Hne _ _ E) |].
  inversion Fx as [|? ? Cx Fx']; subst. inversion Fy as [|? ? Cy Fy']; subst. clear Fx Fy. destruct x as [[a l] b], y as [[a' l'] b'].
  destruct Cx as ([A1 A2] & [B1 B2] & L), Cy as ([A1' A2'] & [B1' B2'] & L'). cbn [fst snd] in *.
  assert (Eb : forall r r', b ++ [nl] ++ r = b' ++ [nl] ++ r' -> b = b' /\ r = r') by (intros r r' Q; apply (cut_at nl b b' r r'); assumption).
  unfold line_of in E. cbn [fst snd] in E. change (lit "--->") with (dash :: dash :: dash :: [62%N]) in E. change (lit "-->") with (dash :: dash :: [62%N]) in E. change (lit "--") with (dash :: [dash]) in E.
  destruct l as [l|], l' as [l'|]; rewrite <- !app_assoc in E; cbn [app] in E; apply cut_at in E; try assumption; destruct E as [-> E]; injection E as E.
  - destruct L as [L _], L' as [L' _]. apply cut_at in E; try assumption. destruct E as [-> E]. injection E as E. destruct (Eb _ _ E) as [-> E2]. rewrite (IH ys Fx' Fy' E2). reflexivity.
  - exfalso. destruct l as [|c l]; cbn [app] in E; injection E as E1 E; [discriminate | apply (proj1 L); left; congruence].
  - exfalso. destruct l' as [|c l']; cbn [app] in E; injection E as E1 E; [discriminate | apply (proj1 L'); left; congruence].
  - destruct (Eb _ _ E) as [-> E2]. rewrite (IH ys Fx' Fy' E2). reflexivity.
Qed.
(* C101: the edges, by the names of their ends and their labels, can be read off the text *)
Theorem C101_recover : forall g g' t, well_formed g -> well_formed g' -> d_edges g <> [] -> d_edges g' <> [] ->
  (forall e, In e (d_edges g) -> clean_triple (shown g e)) -> (forall e, In e (d_edges g') -> clean_triple (shown g' e)) ->
  display_graph g = Ret t -> display_graph g' = Ret t -> Permutation (map (shown g) (d_edges g)) (map (shown g') (d_edges g')).
Proof.
  intros g g' t W W' N N' C C' D D'. rewrite display_lines in D, D' by assumption. injection D as D. injection D' as D'. rewrite <- D' in D.
  pose proof (C101_edges g W) as P. pose proof (C101_edges g' W') as P'. apply lines_recover in D.
  - rewrite <- P, <- P', D. reflexivity.
  - apply Forall_map, Forall_forall. intros e I. apply C, (Permutation_in _ P I).
  - apply Forall_map, Forall_forall. intros e I. apply C', (Permutation_in _ P' I).
Qed.
Theorem C101_shows : forall g, well_formed g -> d_edges g <> [] -> exists t, display_graph g = Ret t.
Proof. intros g W N. rewrite display_lines by assumption. eexists. reflexivity. Qed.
Theorem C101_no_edge : forall g, d_edges g = [] -> match dget (d_nodes g) 1%Z with Some _ => display_graph g = Ret (name_of g 1) | None => display_graph g = Exn KeyError end.
Proof.
  intros g E. unfold display_graph, edges_in_order. rewrite E. replace (flat_map (fun n => filter (fun e : Z * Z * option text => (fst (fst e) =? n)%Z) []) (dkeys (d_nodes g))) with (@nil (Z * Z * option text)) by (induction (dkeys (d_nodes g)); [reflexivity | assumption]).
  unfold node_text, name_of. destruct (dget (d_nodes g) 1%Z) as [[l|]|]; reflexivity.
Qed.
Print Assumptions C101_edges. Print Assumptions C101_recover. Print Assumptions C101_shows. Print Assumptions C101_no_edge.
(* Vertices without edges are not shown, a graph without edges and without a vertex 1 raises, and dashes in
   labels make the text ambiguous. *)
Theorem C101_isolated_refuted : exists g g', well_formed g /\ well_formed g' /\ dkeys (d_nodes g) <> dkeys (d_nodes g') /\ d_edges g <> [] /\ display_graph g = display_graph g'.
Proof.
  exists {| d_nodes := [(1, Some (lit "a")); (2, Some (lit "b"))]%Z; d_edges := [((1, 2), None)]%Z |}, {| d_nodes := [(1, Some (lit "a")); (2, Some (lit "b")); (3, Some (lit "c"))]%Z; d_edges := [((1, 2), None)]%Z |}.
  split; [constructor; [repeat constructor; cbn; intuition discriminate | repeat constructor; cbn; tauto | intros u v l [Q|[]]; injection Q as <- <- <-; cbn; tauto]|].
  split; [constructor; [repeat constructor; cbn; intuition discriminate | repeat constructor; cbn; tauto | intros u v l [Q|[]]; injection Q as <- <- <-; cbn; tauto]|].
  split; [discriminate|]. split; [discriminate|]. vm_compute. reflexivity.
Qed.
Theorem C101_raises_refuted : exists g, get_graph_from_file (file_of three [Vertex 1 [] (lit "a") []] true) = Ret g /\ display_graph g = Exn KeyError.
Proof. eexists. split; vm_compute; reflexivity. Qed.
Theorem C101_dash_refuted : exists g g', well_formed g /\ well_formed g' /\ display_graph g = display_graph g' /\ (exists t, display_graph g = Ret t) /\ map (shown g) (d_edges g) <> map (shown g') (d_edges g').
Proof.
  exists {| d_nodes := [(1, Some (lit "a")); (2, Some (lit "b--d-->c"))]%Z; d_edges := [((1, 2), Some (lit "e"))]%Z |}, {| d_nodes := [(1, Some (lit "a--e-->b")); (2, Some (lit "c"))]%Z; d_edges := [((1, 2), Some (lit "d"))]%Z |}.
  split; [constructor; [repeat constructor; cbn; intuition discriminate | repeat constructor; cbn; tauto | intros u v l [Q|[]]; injection Q as <- <- <-; cbn; tauto]|].
  split; [constructor; [repeat constructor; cbn; intuition discriminate | repeat constructor; cbn; tauto | intros u v l [Q|[]]; injection Q as <- <- <-; cbn; tauto]|].
  split; [vm_compute; reflexivity|]. split; [eexists; vm_compute; reflexivity | vm_compute; discriminate].
Qed.
Example C101_case : exists g, get_graph_from_file (file_of three [Vertex 0 [] (lit "cat") []; Arc (lit "e") 0 1 (lit "sees") []; Vertex 2 [] (lit "dog") []; Arc (lit "e") 2 0 (lit "sees") []] true) = Ret g /\ well_formed g /\
  (forall e, In e (d_edges g) -> clean_triple (shown g e)) /\ display_graph g = Ret (lit "cat--sees-->2" ++ [nl] ++ lit "dog--sees-->cat" ++ [nl]).
Proof.
  match goal with |- exists g, get_graph_from_file ?f = Ret g /\ _ => destruct (get_graph_from_file f) as [g| |] eqn:E end; [|vm_compute in E; discriminate | vm_compute in E; discriminate].
  exists g. split; [reflexivity|]. split; [exact (C100_graph _ _ E)|]. vm_compute in E. injection E as <-. split; [|vm_compute; reflexivity].
  intros e [<-|[<-|[]]]; unfold clean_triple; vm_compute; repeat split; intuition discriminate.
Qed.
Print Assumptions C101_isolated_refuted. Print Assumptions C101_raises_refuted. Print Assumptions C101_dash_refuted.
