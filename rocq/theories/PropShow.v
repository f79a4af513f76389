(* C90: what the texts of periodic patterns say. *)
From Coq Require Import String Ascii NArith.
From Verif Require Import Prelude CheckModel LCMModel VerticalProofs TextModel TextProofs SplitModel SplitProofs ArrayModel PeriodModel TreeModel TreeProofs NestModel NestProofs
  PropTree CyclesModel PropCycles ExportModel PropExport ShowModel.
Local Open Scope Z_scope.

(* --------------------------------------------------------- specification *)
(* a pattern without the numbers of its nodes and without the distance of a first child, which is always 0 *)
Fixpoint bared {A} (t : tree A) : tree A :=
  match t with
  | Leaf _ e => Leaf O e
  | Node _ r p ch =>
      Node O r p ((fix go (first : bool) (l : list (tree A * Z)) : list (tree A * Z) :=
        match l with [] => [] | (c, d) :: l' => (bared c, if first then 0 else d) :: go false l' end) true ch)
  end.
Fixpoint events {A} (t : tree A) : list A :=
  match t with Leaf _ e => [e] | Node _ _ _ ch => concat (map (fun cd => events (fst cd)) ch) end.
(* texts that cannot be taken for the marks of a pattern *)
Definition tame (s : text) : Prop := s <> [] /\ forall c, In c s -> c <> 40%N /\ c <> 41%N /\ c <> 91%N.
Definition no_bracket (s : text) : Prop := ~ In 93%N s.

(* ---------------------------------------------------------------- proofs *)
Section Generic.
  Context {A : Type}.
  Context (leaf : A -> text) (pre post : nat -> Z -> text) (sep : Z -> text).
  Fixpoint render (t : tree A) : text :=
    match t with Leaf _ e => leaf e | Node _ r p ch => pre r p ++ row_of sep render ch ++ post r p end.
  Context (good : A -> Prop) (follow : text -> Prop).
  Context (H_leaf : forall e e' x x', good e -> good e' -> follow x -> follow x' -> leaf e ++ x = leaf e' ++ x' -> e = e' /\ x = x').
  Context (H_leaf_pre : forall e r p x x', good e -> leaf e ++ x <> pre r p ++ x').
  Context (H_leaf_post : forall e r p x x', good e -> leaf e ++ x <> post r p ++ x').
  Context (H_pre_post : forall r p r' p' x x', pre r p ++ x <> post r' p' ++ x').
  Context (H_pre : forall r p r' p' x x', pre r p ++ x = pre r' p' ++ x' -> pre r p = pre r' p' /\ x = x').
  Context (H_post : forall r p r' p' x x', post r p ++ x = post r' p' ++ x' -> post r p = post r' p' /\ x = x').
  Context (H_inj : forall r p r' p', pre r p = pre r' p' -> post r p = post r' p' -> r = r' /\ p = p').
  Context (H_sep : forall d d' x x', sep d ++ x = sep d' ++ x' -> d = d' /\ x = x').
  Context (H_sep_post : forall d r p x x', sep d ++ x <> post r p ++ x').
  Context (F_sep : forall d x, follow (sep d ++ x)) (F_post : forall r p x, follow (post r p ++ x)).

  (* what follows the children of a node *)
  Definition ends (x : text) : Prop := exists r p y, x = post r p ++ y.
  Definition tail_of (l : list (tree A * Z)) : list (tree A * Z) := map (fun cd => (bared (fst cd), snd cd)) l.
  Lemma bared_node n r p ch : bared (Node n r p ch) = Node O r p (match ch with [] => [] | (c, d) :: l => (bared c, 0) :: tail_of l end).
  Proof.
    cbn [bared]. f_equal. destruct ch as [|[c d] l]; [reflexivity|]. f_equal. unfold tail_of. induction l as [|[c' d'] l IH]; [reflexivity|]. cbn [map fst snd]. f_equal. exact IH.
  Qed.
  Definition reads (t : tree A) : Prop := forall t' x x', Forall good (events t) -> Forall good (events t') -> follow x -> follow x' ->
    render t ++ x = render t' ++ x' -> bared t = bared t' /\ x = x'.
  Lemma tail_reads l : Forall (fun cd => reads (fst cd)) l -> forall l' x x',
    Forall good (concat (map (fun cd => events (fst cd)) l)) -> Forall good (concat (map (fun cd => events (fst cd)) l')) -> ends x -> ends x' ->
    concat (map (fun cd => sep (snd cd) ++ render (fst cd)) l) ++ x = concat (map (fun cd => sep (snd cd) ++ render (fst cd)) l') ++ x' ->
    tail_of l = tail_of l' /\ x = x'.
  Proof.
    induction 1 as [|[c d] l R Rs IH]; intros [|[c' d'] l'] x x' G G' Ex Ex' E; cbn [map concat fst snd app tail_of] in *.
    - split; [reflexivity | exact E].
    - exfalso. destruct Ex as (r & p & y & ->). rewrite <- !app_assoc in E. symmetry in E. exact (H_sep_post _ _ _ _ _ E).
    - exfalso. destruct Ex' as (r & p & y & ->). rewrite <- !app_assoc in E. exact (H_sep_post _ _ _ _ _ E).
    - rewrite <- !app_assoc in E. apply H_sep in E. destruct E as [-> E]. apply Forall_app in G. apply Forall_app in G'.
      assert (Fo : forall l x, ends x -> follow (concat (map (fun cd : tree A * Z => sep (snd cd) ++ render (fst cd)) l) ++ x)).
      { intros [|[c1 d1] l1] z (r & p & y & ->); cbn [map concat fst snd app]; [apply F_post | rewrite <- !app_assoc; apply F_sep]. }
      apply R in E; [|tauto|tauto|apply Fo; exact Ex|apply Fo; exact Ex']. destruct E as [Eb E]. cbn [fst] in Eb.
      destruct (IH l' x x') as [E1 E2]; [tauto | tauto | exact Ex | exact Ex' | exact E|]. unfold tail_of in *. cbn [map fst snd]. rewrite Eb, E1. split; [reflexivity | exact E2].
  Qed.
  Lemma render_start t x r p x' : Forall good (events t) -> render t ++ x <> post r p ++ x'.
  Proof.
    destruct t as [n e|n r' p' ch]; cbn [render events]; intros G.
    - inversion G; subst. apply H_leaf_post. assumption.
    - rewrite <- app_assoc. apply H_pre_post.
  Qed.
  Lemma row_reads ch : Forall (fun cd => reads (fst cd)) ch -> forall ch' x x',
    Forall good (concat (map (fun cd => events (fst cd)) ch)) -> Forall good (concat (map (fun cd => events (fst cd)) ch')) -> ends x -> ends x' ->
    row_of sep render ch ++ x = row_of sep render ch' ++ x' ->
    match ch with [] => [] | (c, d) :: l => (bared c, 0) :: tail_of l end = match ch' with [] => [] | (c, d) :: l => (bared c, 0) :: tail_of l end /\ x = x'.
  Proof.
    intros R [|[c' d'] l'] x x' G G' Ex Ex' E; destruct ch as [|[c d] l]; cbn [row_of map concat fst snd app] in *.
    - split; [reflexivity | exact E].
    - exfalso. destruct Ex' as (r & p & y & ->). rewrite <- !app_assoc in E. apply Forall_app in G. exact (render_start _ _ _ _ _ (proj1 G) E).
    - exfalso. destruct Ex as (r & p & y & ->). rewrite <- !app_assoc in E. apply Forall_app in G'. symmetry in E. exact (render_start _ _ _ _ _ (proj1 G') E).
    - rewrite <- !app_assoc in E. apply Forall_app in G. apply Forall_app in G'. inversion R as [|? ? R1 R2]; subst.
      assert (Fo : forall l x, ends x -> follow (concat (map (fun cd : tree A * Z => sep (snd cd) ++ render (fst cd)) l) ++ x)).
      { intros [|[c1 d1] l1] z (r & p & y & ->); cbn [map concat fst snd app]; [apply F_post | rewrite <- !app_assoc; apply F_sep]. }
      apply R1 in E; [|tauto|tauto|apply Fo; exact Ex|apply Fo; exact Ex']. destruct E as [Eb E]. cbn [fst] in Eb.
      destruct (tail_reads l R2 l' x x') as [E1 E2]; [tauto | tauto | exact Ex | exact Ex' | exact E|]. rewrite Eb, E1. split; [reflexivity | exact E2].
  Qed.
  Lemma render_reads t : reads t.
  Proof.
    induction t as [n e|n r p ch IH] using tree_ind'; intros t' x x' G G' Fx Fx' E.
    - destruct t' as [n' e'|n' r' p' ch']; cbn [render events] in *.
      + inversion G; inversion G'; subst. apply H_leaf in E; try assumption. destruct E as [-> ->]. split; reflexivity.
      + exfalso. rewrite <- app_assoc in E. inversion G; subst. revert E. apply H_leaf_pre. assumption.
    - destruct t' as [n' e'|n' r' p' ch']; cbn [render events] in *.
      + exfalso. rewrite <- app_assoc in E. inversion G'; subst. symmetry in E. revert E. apply H_leaf_pre. assumption.
      + rewrite <- !app_assoc in E. apply H_pre in E. destruct E as [Ep E]. apply (row_reads ch IH ch') in E; [|exact G|exact G'|exists r, p, x; reflexivity|exists r', p', x'; reflexivity].
        destruct E as [Ec E]. apply H_post in E. destruct E as [Eq E]. destruct (H_inj _ _ _ _ Ep Eq) as [-> ->]. split; [|exact E].
        rewrite !bared_node, Ec. reflexivity.
  Qed.
  Lemma render_bared t : render (bared t) = render t.
  Proof.
    induction t as [n e|n r p ch IH] using tree_ind'; [reflexivity|]. rewrite bared_node. cbn [render]. f_equal. f_equal. destruct ch as [|[c d] l]; [reflexivity|].
    inversion IH as [|? ? I1 I2]; subst. cbn [row_of fst] in *. rewrite I1. f_equal. unfold tail_of. rewrite map_map. f_equal. apply map_ext_in. intros cd Hcd. cbn [fst snd].
    rewrite Forall_forall in I2. rewrite (I2 cd Hcd). reflexivity.
  Qed.
  Lemma follow_nil_reads t t' : follow [] -> Forall good (events t) -> Forall good (events t') -> (render t = render t' <-> bared t = bared t').
  Proof.
    intros F0 G G'. split.
    - intros E. apply (render_reads t t' [] []); try assumption. rewrite !app_nil_r. exact E.
    - intros E. rewrite <- (render_bared t), <- (render_bared t'), E. reflexivity.
  Qed.
End Generic.

(* texts up to a mark *)
Lemma cut_at (bad : char -> Prop) (u u' : text) c c' x x' : (forall a, In a u -> ~ bad a) -> (forall a, In a u' -> ~ bad a) -> bad c -> bad c' ->
  u ++ c :: x = u' ++ c' :: x' -> u = u' /\ c = c' /\ x = x'.
Proof.
  revert u'. induction u as [|a u IH]; intros [|a' u'] N N' B B' E; cbn [app] in *.
  - injection E as -> ->. auto.
  - injection E as -> E. elim (N' a' (or_introl eq_refl)). exact B.
  - injection E as -> E. elim (N c' (or_introl eq_refl)). exact B'.
  - injection E as -> E. destruct (IH u') as (-> & -> & ->); auto; intros z Hz; [apply N | apply N']; right; exact Hz.
Qed.
Lemma cut_none (bad : char -> Prop) (u u' : text) c x : (forall a, In a u' -> ~ bad a) -> bad c -> u ++ c :: x <> u'.
Proof. intros N B E. apply (N c); [rewrite <- E; apply in_or_app; right; left; reflexivity | exact B]. Qed.

Definition nondigit (c : char) : Prop := ~ is_digit c.
Lemma dec_cut n n' c c' x x' : nondigit c -> nondigit c' -> dec n ++ c :: x = dec n' ++ c' :: x' -> n = n' /\ c = c' /\ x = x'.
Proof.
  intros B B' E. pose proof (dec_digits n) as D. pose proof (dec_digits n') as D'. rewrite Forall_forall in D, D'.
  apply (cut_at nondigit) in E; [|intros a Ha Hb; exact (Hb (D a Ha))|intros a Ha Hb; exact (Hb (D' a Ha))|exact B|exact B'].
  destruct E as (E & -> & ->). split; [|auto]. apply Nat2Z.inj. rewrite <- (dec_value n), <- (dec_value n'), E. reflexivity.
Qed.
Lemma dec_end n n' : dec n = dec n' -> n = n'.
Proof. intros E. apply Nat2Z.inj. rewrite <- (dec_value n), <- (dec_value n'), E. reflexivity. Qed.
Lemma dec_first n : exists c s, dec n = c :: s /\ is_digit c.
Proof.
  pose proof (dec_digits n) as D. pose proof (dec_nonempty n) as N. destruct (dec n) as [|c s]; [congruence|]. inversion D; subst. exists c, s. auto.
Qed.
Lemma str_z_cut z z' c c' x x' : nondigit c -> nondigit c' -> str_z z ++ c :: x = str_z z' ++ c' :: x' -> z = z' /\ c = c' /\ x = x'.
Proof.
  intros B B' E. unfold str_z in E.
  destruct (z <? 0) eqn:Ez, (z' <? 0) eqn:Ez'; cbn [app] in E.
  - injection E as E. apply dec_cut in E; try assumption. destruct E as (E & -> & ->). split; [|auto]. apply Z.ltb_lt in Ez, Ez'. lia.
  - exfalso. destruct (dec_first (Z.to_nat z')) as (a & t & Ed & Dg). rewrite Ed in E. injection E as E _. subst a. unfold is_digit, minus_c in Dg; lia.
  - exfalso. destruct (dec_first (Z.to_nat z)) as (a & t & Ed & Dg). rewrite Ed in E. injection E as E _. subst a. unfold is_digit, minus_c in Dg; lia.
  - apply dec_cut in E; try assumption. destruct E as (E & -> & ->). split; [|auto]. apply Z.ltb_ge in Ez, Ez'. lia.
Qed.

(* ---- the keys *)
Ltac nondig := unfold nondigit, is_digit; lia.
Definition key_pre (r : nat) (p : Z) : text := 91%N :: dec r ++ 44%N :: str_z p ++ [93%N; 40%N].
Definition key_post (r : nat) (p : Z) : text := [41%N].
Definition key_sep (d : Z) : text := 45%N :: str_z d ++ [45%N].
Definition key_follow (x : text) : Prop := match x with [] => True | c :: _ => nondigit c end.

Lemma row_ext {A} (sep : Z -> text) (f g : tree A -> text) ch : (forall cd, In cd ch -> f (fst cd) = g (fst cd)) -> row_of sep f ch = row_of sep g ch.
Proof.
  destruct ch as [|[c d] l]; intros E; cbn [row_of]; [reflexivity|]. pose proof (E (c, d) (or_introl eq_refl)) as E0. cbn [fst] in E0. rewrite E0. f_equal. f_equal. apply map_ext_in.
  intros cd Hcd. rewrite (E cd (or_intror Hcd)). reflexivity.
Qed.
Lemma patt_key_render t : patt_key t = render dec key_pre key_post key_sep t.
Proof.
  induction t as [n e|n r p ch IH] using tree_ind'; [reflexivity|]. rewrite Forall_forall in IH.
  change (patt_key (Node n r p ch)) with (91%N :: dec r ++ 44%N :: str_z p ++ 93%N :: 40%N :: row_of key_sep patt_key ch ++ [41%N]).
  cbn [render]. rewrite (row_ext key_sep _ _ ch IH). unfold key_pre. cbn [app]. rewrite <- app_assoc. cbn [app]. rewrite <- app_assoc. reflexivity.
Qed.
Definition any {A} (e : A) : Prop := True.
Lemma all_any {A} (t : tree A) : Forall any (events t).
Proof. apply Forall_forall. intros; exact I. Qed.
Lemma key_leaf (e e' : nat) x x' : any e -> any e' -> key_follow x -> key_follow x' -> dec e ++ x = dec e' ++ x' -> e = e' /\ x = x'.
Proof.
  intros _ _ F F' E. pose proof (dec_digits e) as D. pose proof (dec_digits e') as D'. rewrite Forall_forall in D, D'. destruct x as [|c x], x' as [|c' x']; cbn [key_follow] in *.
  - rewrite !app_nil_r in E. split; [apply dec_end, E | reflexivity].
  - exfalso. rewrite app_nil_r in E. symmetry in E. revert E. apply (cut_none nondigit); [intros a Ha Hb; exact (Hb (D a Ha)) | exact F'].
  - exfalso. rewrite app_nil_r in E. revert E. apply (cut_none nondigit); [intros a Ha Hb; exact (Hb (D' a Ha)) | exact F].
  - apply dec_cut in E; try assumption. destruct E as (-> & -> & ->). auto.
Qed.
Lemma digit_first (e : nat) (x : text) c y : nondigit c -> dec e ++ x <> c :: y.
Proof. intros N E. destruct (dec_first e) as (a & s & Ed & Dg). rewrite Ed in E. injection E as -> _. exact (N Dg). Qed.
Lemma key_pre_cut r p r' p' x x' : key_pre r p ++ x = key_pre r' p' ++ x' -> r = r' /\ p = p' /\ x = x'.
Proof.
  unfold key_pre. cbn [app]. rewrite <- !app_assoc. cbn [app]. rewrite <- !app_assoc. cbn [app]. intros E. injection E as E.
  apply dec_cut in E; [|nondig|nondig]. destruct E as (-> & _ & E). apply str_z_cut in E; [|nondig|nondig]. destruct E as (-> & _ & E). injection E as ->. auto.
Qed.
Lemma key_pre_inj r p r' p' : key_pre r p = key_pre r' p' -> r = r' /\ p = p'.
Proof. intros E. apply (f_equal (fun s => s ++ [])) in E. apply key_pre_cut in E. tauto. Qed.
Lemma key_sep_cut d d' x x' : key_sep d ++ x = key_sep d' ++ x' -> d = d' /\ x = x'.
Proof.
  unfold key_sep. cbn [app]. rewrite <- !app_assoc. cbn [app]. intros E. injection E as E. apply str_z_cut in E; [|nondig|nondig]. destruct E as (-> & _ & ->). auto.
Qed.
Lemma key_reads t : reads dec key_pre key_post key_sep any key_follow t.
Proof.
  apply render_reads.
  - exact key_leaf.
  - intros e r p x x' _. unfold key_pre. apply digit_first. nondig.
  - intros e r p x x' _. unfold key_post. apply digit_first. nondig.
  - intros r p r' p' x x'. unfold key_pre, key_post. discriminate.
  - intros r p r' p' x x' E. apply key_pre_cut in E. destruct E as (-> & -> & ->). auto.
  - intros r p r' p' x x' E. unfold key_post in *. cbn [app] in E. injection E as ->. auto.
  - intros r p r' p' E _. apply key_pre_inj, E.
  - exact key_sep_cut.
  - intros d r p x x'. unfold key_sep, key_post. discriminate.
  - intros d x. unfold key_sep. cbn. nondig.
  - intros r p x. cbn. nondig.
Qed.

(* The keys show the whole pattern: two patterns have the same key iff they have the same repetitions, periods, distances and events. *)
Theorem C90_key (t t' : tree nat) : patt_key t = patt_key t' <-> bared t = bared t'.
Proof.
  rewrite !patt_key_render. split.
  - intros E. apply (key_reads t t' [] []); [apply all_any | apply all_any | exact I | exact I|]. rewrite !app_nil_r. exact E.
  - intros E. rewrite <- (render_bared dec key_pre key_post key_sep t), <- (render_bared dec key_pre key_post key_sep t'), E. reflexivity.
Qed.
Print Assumptions C90_key.
Definition minor_sep (d : Z) : text := 45%N :: 91%N :: str_z d ++ [93%N; 45%N].
Lemma minor_sep_cut d d' x x' : minor_sep d ++ x = minor_sep d' ++ x' -> d = d' /\ x = x'.
Proof.
  unfold minor_sep. cbn [app]. rewrite <- !app_assoc. cbn [app]. intros E. injection E as E. apply str_z_cut in E; [|nondig|nondig]. destruct E as (-> & _ & E). injection E as ->. auto.
Qed.
Lemma minor_follow l : key_follow (concat (map (fun cd : tree nat * Z => minor_sep (snd cd) ++ patt_key (fst cd)) l)).
Proof. destruct l as [|[c d] l]; cbn; [exact I | nondig]. Qed.
Lemma key_read t t' x x' : key_follow x -> key_follow x' -> patt_key t ++ x = patt_key t' ++ x' -> bared t = bared t' /\ x = x'.
Proof. intros F F' E. rewrite !patt_key_render in E. apply (key_reads t t' x x'); [apply all_any | apply all_any | exact F | exact F' | exact E]. Qed.
Lemma minor_tail l : forall l', concat (map (fun cd : tree nat * Z => minor_sep (snd cd) ++ patt_key (fst cd)) l) = concat (map (fun cd => minor_sep (snd cd) ++ patt_key (fst cd)) l') -> tail_of l = tail_of l'.
Proof.
  induction l as [|[c d] l IH]; intros [|[c' d'] l'] E; cbn [map concat fst snd] in E; [reflexivity | discriminate | discriminate|].
  rewrite <- !app_assoc in E. apply minor_sep_cut in E. destruct E as [-> E]. apply key_read in E; [|apply minor_follow|apply minor_follow]. destruct E as [Eb E].
  unfold tail_of in *. cbn [map fst snd]. rewrite Eb, (IH l' E). reflexivity.
Qed.
Lemma key_nonempty t : patt_key t <> [].
Proof. destruct t as [n e|n r p ch]; [apply dec_nonempty | discriminate]. Qed.
Definition kids_bared (ch : list (tree nat * Z)) : list (tree nat * Z) := match ch with [] => [] | (c, d) :: l => (bared c, 0) :: tail_of l end.
Lemma minor_row ch ch' : row_of minor_sep patt_key ch = row_of minor_sep patt_key ch' <-> kids_bared ch = kids_bared ch'.
Proof.
  split.
  - destruct ch as [|[c d] l], ch' as [|[c' d'] l']; cbn [row_of kids_bared]; intros E; [reflexivity| | |].
    + symmetry in E. apply app_eq_nil in E. destruct (key_nonempty _ (proj1 E)).
    + apply app_eq_nil in E. destruct (key_nonempty _ (proj1 E)).
    + apply key_read in E; [|apply minor_follow|apply minor_follow]. destruct E as [-> E]. rewrite (minor_tail l l' E). reflexivity.
  - assert (B : forall ch, row_of minor_sep patt_key (kids_bared ch) = row_of minor_sep patt_key ch).
    { intros [|[c d] l]; [reflexivity|]. cbn [kids_bared row_of]. assert (K : forall t, patt_key (bared t) = patt_key t) by (intros t; rewrite !patt_key_render; apply render_bared).
      rewrite K. f_equal. unfold tail_of. rewrite map_map. f_equal. apply map_ext. intros cd. cbn [fst snd]. rewrite K. reflexivity. }
    intros E. rewrite <- (B ch), <- (B ch'), E. reflexivity.
Qed.
Lemma major_text r p : lit "[" ++ dec r ++ lit "," ++ str_z p ++ lit "]" = 91%N :: dec r ++ 44%N :: str_z p ++ [93%N].
Proof. reflexivity. Qed.
Lemma major_inj r p r' p' : 91%N :: dec r ++ 44%N :: str_z p ++ [93%N] = 91%N :: dec r' ++ 44%N :: str_z p' ++ [93%N] -> r = r' /\ p = p'.
Proof. intros E. injection E as E. apply dec_cut in E; [|nondig|nondig]. destruct E as (-> & _ & E). apply str_z_cut in E; [|nondig|nondig]. tauto. Qed.

(* The two keys under which the pool files a candidate: two patterns with children have the same keys iff they are the same pattern; a
   simple candidate never has the keys of a pattern; two simple ones iff they have the same event, length and period. *)
Theorem C90_pool (c c' : ccand nat) :
  (forall t, cc_P c = Patt t -> exists n r p ch, t = Node n r p ch) -> (forall t, cc_P c' = Patt t -> exists n r p ch, t = Node n r p ch) ->
  (minor_key c = minor_key c' /\ major_key c = major_key c' <->
   match cc_P c, cc_P c' with
   | Simple e p, Simple e' p' => e = e' /\ length (cc_O c) = length (cc_O c') /\ p = p'
   | Patt t, Patt t' => bared t = bared t'
   | _, _ => False
   end).
Proof.
  intros N N'. unfold minor_key, major_key. destruct (cc_P c) as [e p|t] eqn:Ec, (cc_P c') as [e' p'|t'] eqn:Ec'.
  - rewrite !major_text. split.
    + intros [E1 E2]. injection E1 as ->. apply major_inj in E2. tauto.
    + intros (-> & -> & ->). auto.
  - split; [intros [E _]; discriminate | tauto].
  - split; [intros [E _]; discriminate | tauto].
  - destruct (N t eq_refl) as (n & r & p & ch & ->). destruct (N' t' eq_refl) as (n' & r' & p' & ch' & ->). cbn [patt_minor patt_major]. rewrite !major_text.
    change (fun d => lit "-[" ++ str_z d ++ lit "]-") with minor_sep. rewrite !bared_node. fold (kids_bared ch) (kids_bared ch'). split.
    + intros [E1 E2]. apply major_inj in E2. destruct E2 as [-> ->]. injection E1 as E1. apply minor_row in E1. rewrite E1. reflexivity.
    + intros E. injection E as -> -> E. split; [f_equal; apply minor_row; exact E | reflexivity].
Qed.
Print Assumptions C90_pool.

(* ---- the text of a pattern *)
Section Text.
  Context (name : nat -> text) (tm : Z -> text) (good : nat -> Prop).
  Context (name_tame : forall e, good e -> tame (name e)) (name_inj : forall e e', good e -> good e' -> name e = name e' -> e = e').
  Context (tm_ok : forall z, no_bracket (tm z)) (tm_inj : forall z z', tm z = tm z' -> z = z').
  Context (first : bool).                      (* leaves_first *)
  Definition head_text (r : nat) (p : Z) : text := 91%N :: 114%N :: 61%N :: dec r ++ 32%N :: 112%N :: 61%N :: tm p ++ [93%N].
  Definition str_pre (r : nat) (p : Z) : text := if first then [40%N] else head_text r p ++ [40%N].
  Definition str_post (r : nat) (p : Z) : text := if first then 41%N :: head_text r p else [41%N].
  Definition str_sep (d : Z) : text := 32%N :: 91%N :: 100%N :: 61%N :: tm d ++ [93%N; 32%N].
  Definition str_follow (x : text) : Prop := x = [] \/ (exists y, x = 41%N :: y) \/ (exists y, x = 32%N :: 91%N :: y).

  Lemma tm_cut z z' x x' : tm z ++ 93%N :: x = tm z' ++ 93%N :: x' -> z = z' /\ x = x'.
  Proof.
    intros E. apply (cut_at (fun c => c = 93%N)) in E; [|intros a Ha Hb; subst a; exact (tm_ok z Ha)|intros a Ha Hb; subst a; exact (tm_ok z' Ha)|reflexivity|reflexivity].
    destruct E as (E & _ & ->). split; [apply tm_inj, E | reflexivity].
  Qed.
  Lemma head_cut r p r' p' x x' : head_text r p ++ x = head_text r' p' ++ x' -> r = r' /\ p = p' /\ x = x'.
  Proof.
    unfold head_text. cbn [app]. rewrite <- !app_assoc. cbn [app]. rewrite <- !app_assoc. cbn [app]. intros E. injection E as E.
    apply dec_cut in E; [|nondig|nondig]. destruct E as (-> & _ & E). injection E as E. apply tm_cut in E. destruct E as [-> ->]. auto.
  Qed.
  Lemma str_sep_cut d d' x x' : str_sep d ++ x = str_sep d' ++ x' -> d = d' /\ x = x'.
  Proof.
    unfold str_sep. cbn [app]. rewrite <- !app_assoc. cbn [app]. intros E. injection E as E. apply tm_cut in E. destruct E as [-> E]. injection E as ->. auto.
  Qed.
  Definition mark (c : char) : Prop := c = 40%N \/ c = 41%N \/ c = 91%N.
  Lemma name_free e a : good e -> In a (name e) -> ~ mark a.
  Proof. intros G I. destruct (name_tame e G) as [_ T]. specialize (T a I). unfold mark. tauto. Qed.
  Lemma str_leaf e e' x x' : good e -> good e' -> str_follow x -> str_follow x' -> name e ++ x = name e' ++ x' -> e = e' /\ x = x'.
  Proof.
    intros G G' F F' E. pose proof (fun a => name_free e a G) as N. pose proof (fun a => name_free e' a G') as N'.
    assert (Sp : forall e a, good e -> In a (name e ++ [32%N]) -> ~ mark a).
    { intros e0 a G0 I. apply in_app_iff in I. destruct I as [I|[<-|[]]]; [exact (name_free e0 a G0 I) | unfold mark; lia]. }
    destruct F as [->|[(y & ->)|(y & ->)]], F' as [->|[(y' & ->)|(y' & ->)]].
    - rewrite !app_nil_r in E. split; [apply name_inj; assumption | reflexivity].
    - exfalso. rewrite app_nil_r in E. symmetry in E. revert E. apply (cut_none mark); [exact N | right; left; reflexivity].
    - exfalso. rewrite app_nil_r in E. symmetry in E. change (32%N :: 91%N :: y') with ([32%N] ++ 91%N :: y') in E. rewrite app_assoc in E. revert E.
      apply (cut_none mark); [exact N | right; right; reflexivity].
    - exfalso. rewrite app_nil_r in E. revert E. apply (cut_none mark); [exact N' | right; left; reflexivity].
    - apply (cut_at mark) in E; [|exact N|exact N'|right; left; reflexivity|right; left; reflexivity]. destruct E as (E & _ & ->). split; [apply name_inj; assumption | reflexivity].
    - exfalso. change (32%N :: 91%N :: y') with ([32%N] ++ 91%N :: y') in E. rewrite app_assoc in E.
      apply (cut_at mark) in E; [|exact N|intros a; apply Sp; exact G'|right; left; reflexivity|right; right; reflexivity]. destruct E as (_ & E & _). discriminate.
    - exfalso. rewrite app_nil_r in E. change (32%N :: 91%N :: y) with ([32%N] ++ 91%N :: y) in E. rewrite app_assoc in E. revert E.
      apply (cut_none mark); [exact N' | right; right; reflexivity].
    - exfalso. change (32%N :: 91%N :: y) with ([32%N] ++ 91%N :: y) in E. rewrite app_assoc in E.
      apply (cut_at mark) in E; [|intros a; apply Sp; exact G|exact N'|right; right; reflexivity|right; left; reflexivity]. destruct E as (_ & E & _). discriminate.
    - change (32%N :: 91%N :: y) with ([32%N] ++ 91%N :: y) in E. change (32%N :: 91%N :: y') with ([32%N] ++ 91%N :: y') in E. rewrite !app_assoc in E.
      apply (cut_at mark) in E; [|intros a; apply Sp; exact G|intros a; apply Sp; exact G'|right; right; reflexivity|right; right; reflexivity]. destruct E as (E & _ & ->).
      apply app_inj_tail in E. split; [apply name_inj; tauto | reflexivity].
  Qed.
  Lemma name_first e x c y : good e -> mark c -> name e ++ x <> c :: y.
  Proof.
    intros G M E. destruct (name_tame e G) as [Ne _]. pose proof (name_free e c G) as N. destruct (name e) as [|a s]; [congruence|].
    cbn [app] in E. injection E as -> _. exact (N (or_introl eq_refl) M).
  Qed.
  Lemma str_reads t : reads name str_pre str_post str_sep good str_follow t.
  Proof.
    apply render_reads.
    - exact str_leaf.
    - intros e r p x x' G. unfold str_pre. destruct first; (apply name_first; [exact G | unfold mark; tauto]).
    - intros e r p x x' G. unfold str_post. destruct first; (apply name_first; [exact G | unfold mark; tauto]).
    - intros r p r' p' x x'. unfold str_pre, str_post. destruct first; discriminate.
    - intros r p r' p' x x'. unfold str_pre. destruct first; [cbn [app]; intros E; injection E as ->; auto|].
      rewrite <- !app_assoc. intros E. apply head_cut in E. destruct E as (-> & -> & E). injection E as ->. auto.
    - intros r p r' p' x x'. unfold str_post. destruct first; [|cbn [app]; intros E; injection E as ->; auto].
      cbn [app]. intros E. assert (E' : head_text r p ++ x = head_text r' p' ++ x') by exact (f_equal (@tl _) E). apply head_cut in E'. destruct E' as (-> & -> & ->). auto.
    - intros r p r' p'. unfold str_pre, str_post. destruct first; intros E1 E2.
      + apply (f_equal (fun s => tl s ++ [])) in E2. cbn [tl] in E2. apply head_cut in E2. tauto.
      + apply head_cut in E1. tauto.
    - exact str_sep_cut.
    - intros d r p x x'. unfold str_sep, str_post. destruct first; discriminate.
    - intros d x. right. right. unfold str_sep. cbn [app]. eexists. reflexivity.
    - intros r p x. right. left. unfold str_post. destruct first; cbn [app]; eexists; reflexivity.
  Qed.
End Text.

Lemma patt_str_render name span first datetime n div t :
  patt_str name span first datetime n div t = render name (str_pre (time_text span datetime n div) first) (str_post (time_text span datetime n div) first) (str_sep (time_text span datetime n div)) t.
Proof.
  set (tm := time_text span datetime n div). induction t as [k e|k r p ch IH] using tree_ind'; [reflexivity|]. rewrite Forall_forall in IH.
  assert (E : patt_str name span first datetime n div (Node k r p ch) =
    let sc := row_of (str_sep tm) (patt_str name span first datetime n div) ch in
    if first then 40%N :: sc ++ 41%N :: head_text tm r p else head_text tm r p ++ 40%N :: sc ++ [41%N]) by reflexivity.
  rewrite E. cbv zeta. cbn [render]. rewrite (row_ext (str_sep tm) _ _ ch IH). unfold str_pre, str_post. destruct first; [reflexivity|]. rewrite <- app_assoc. reflexivity.
Qed.

(* how times are shown: whole numbers, or time spans that differ when the times do and have no ']' *)
Definition spans_ok (span : Z -> text) (datetime : bool) (n : nat) (div : Z) : Prop :=
  datetime = true -> (forall z, no_bracket (span z)) /\ forall a b, span (a * (10 ^ Z.of_nat n * div)) = span (b * (10 ^ Z.of_nat n * div)) -> a = b.
Lemma time_text_ok span datetime n div : spans_ok span datetime n div ->
  (forall z, no_bracket (time_text span datetime n div z)) /\ forall a b, time_text span datetime n div a = time_text span datetime n div b -> a = b.
Proof.
  unfold time_text, spans_ok. destruct datetime; intros H.
  - destruct (H eq_refl) as [A B]. split; [intros z; apply A | exact B].
  - split; [|exact str_z_inj]. intros z I. apply str_z_chars in I. destruct I as [D|D]; [unfold is_digit in D; lia | discriminate D].
Qed.
(* names of events that can be read back *)
Record readable_names (name : nat -> text) (good : nat -> Prop) : Prop := {
  rn_tame : forall e, good e -> tame (name e);
  rn_inj : forall e e', good e -> good e' -> name e = name e' -> e = e' }.

(* The text of a pattern determines it, when the names of the events have no '(', ')' or '['. *)
Theorem C90_text name span good first datetime n div (t t' : tree nat) :
  readable_names name good -> spans_ok span datetime n div -> Forall good (events t) -> Forall good (events t') ->
  (patt_str name span first datetime n div t = patt_str name span first datetime n div t' <-> bared t = bared t').
Proof.
  intros [Nt Ni] Sp G G'. destruct (time_text_ok _ _ _ _ Sp) as [Tb Ti]. rewrite !patt_str_render. split.
  - intros E. apply (str_reads name _ good Nt Ni Tb Ti first t t' [] []); [exact G | exact G' | left; reflexivity | left; reflexivity|]. rewrite !app_nil_r. exact E.
  - intros E. rewrite <- (render_bared name _ _ _ t), <- (render_bared name _ _ _ t'), E. reflexivity.
Qed.
Print Assumptions C90_text.

(* ---- the table of patterns *)
Lemma tail_inj {A} (l l' : list (tree A * Z)) : Forall (fun cd => forall t', wf (fst cd) -> wf t' -> bared (fst cd) = bared t' -> shape (fst cd) = shape t') l ->
  Forall (fun cd => wf (fst cd)) l -> Forall (fun cd => wf (fst cd)) l' -> tail_of l = tail_of l' ->
  map (fun cd => (shape (fst cd), snd cd)) l = map (fun cd => (shape (fst cd), snd cd)) l'.
Proof.
  revert l'. induction l as [|[c d] l IH]; intros [|[c' d'] l'] I W W' E; try discriminate; [reflexivity|].
  unfold tail_of in E. cbn [map fst snd] in *. injection E as E1 E2 E3. inversion I; inversion W; inversion W'; subst. cbn [fst] in *.
  f_equal; [f_equal; auto | apply IH; assumption].
Qed.
Lemma bared_shape {A} (t : tree A) : forall t', wf t -> wf t' -> bared t = bared t' -> shape t = shape t'.
Proof.
  induction t as [n e|n r p ch IH] using tree_ind'; intros [n' e'|n' r' p' ch'] W W' E.
  - cbn in E. injection E as ->. reflexivity.
  - rewrite bared_node in E. discriminate.
  - rewrite bared_node in E. discriminate.
  - rewrite !bared_node in E. inversion W as [|? ? ? ? _ (c & l & ->) Hc]; inversion W' as [|? ? ? ? _ (c' & l' & ->) Hc']; subst.
    injection E as -> -> Ec El. unfold shape. cbn [renum]. f_equal. inversion IH; inversion Hc; inversion Hc'; subst. cbn [fst] in *.
    cbn [map fst snd]. f_equal; [f_equal; apply H1; assumption|]. apply (tail_inj l l'); assumption.
Qed.
Lemma cov_bared {A} (t t' : tree A) t0 E : wf t -> wf t' -> bared t = bared t' -> length E = (nb_occs t - 1)%nat -> get_cov_seq t t0 E = get_cov_seq t' t0 E.
Proof.
  intros W W' B L. pose proof (bared_shape t t' W W' B) as S0. rewrite <- (cov_renum (fun _ => O) t t0 E W L), <- (cov_renum (fun _ => O) t' t0 E W').
  - unfold shape in S0. rewrite S0. reflexivity.
  - rewrite <- (nb_renum (fun _ => O) t'). fold (shape t'). rewrite <- S0. unfold shape. rewrite nb_renum. exact L.
Qed.

Section Table.
  Context {A : Type} `{EqDec A}.
  (* patterns whose first children start with their parents and with one correction per later occurrence *)
  Definition shaped (p : patt) : Prop := wf (fst (fst p)) /\ length (snd p) = (nb_occs (fst (fst p)) - 1)%nat.
  Definition same_patt (p p' : patt) : Prop := bared (fst (fst p)) = bared (fst (fst p')) /\ snd (fst p) = snd (fst p') /\ snd p = snd p'.

  Lemma rows_cov (m : miner A) t t0 E cs : get_cov_seq t t0 E = Some cs ->
    patt_rows m (t, t0, E) = map_out (fun c => match nth_error (ds_events (m_ds m)) (snd c) with Some e => Ret (shown_time m (fst c), e) | None => Exn KeyError end) cs.
  Proof.
    intros C. apply cov_occs in C. destruct C as [O S0]. unfold patt_rows. rewrite O. clear O. revert S0. generalize (occs_star t).
    induction cs as [|c cs IH]; intros [|[[u e] k] l] S0; try discriminate; [reflexivity|]. cbn [map fst snd] in S0. injection S0 as -> S0.
    cbn [map combine map_out fst snd]. rewrite (IH _ S0). reflexivity.
  Qed.
  Lemma rows_same (m m' : miner A) p p' : m_auto m = m_auto m' -> m_n m = m_n m' -> m_div m = m_div m' -> ds_events (m_ds m) = ds_events (m_ds m') ->
    shaped p -> shaped p' -> same_patt p p' -> patt_rows m p = patt_rows m' p'.
  Proof.
    destruct p as [[t t0] E], p' as [[t' t0'] E']. intros Ha Hn Hd He [W L] [W' L'] (B & T & EE). cbn [fst snd] in *. subst t0' E'.
    destruct (C39_corrections t t0 E W L) as (o & C & _). rewrite (rows_cov m _ _ _ _ C). rewrite (cov_bared t t' t0 E W W' B L) in C. rewrite (rows_cov m' _ _ _ _ C).
    unfold shown_time. rewrite Ha, Hn, Hd, He. reflexivity.
  Qed.
  Lemma map_out_ext {X Y} (f g : X -> outcome Y) l : (forall x, In x l -> f x = g x) -> map_out f l = map_out g l.
  Proof. induction l as [|x l IH]; intros E; [reflexivity|]. cbn [map_out]. rewrite (E x (or_introl eq_refl)), IH; [reflexivity | intros y Hy; apply E; right; exact Hy]. Qed.
  Lemma map_out_same {X Y} (f : X -> outcome Y) (R : X -> X -> Prop) l : forall l' r, (forall x x' y, In x l -> In x' l' -> f x = Ret y -> f x' = Ret y -> R x x') ->
    map_out f l = Ret r -> map_out f l' = Ret r -> Forall2 R l l'.
  Proof.
    induction l as [|x l IH]; intros l' r HR E E'.
    - cbn in E. injection E as <-. destruct l' as [|x' l']; [constructor|]. cbn [map_out] in E'. destruct (f x'); try discriminate. cbn [bind] in E'. destruct (map_out f l'); discriminate.
    - cbn [map_out] in E. destruct (f x) as [y| |] eqn:Ex; try discriminate. cbn [bind] in E. destruct (map_out f l) as [ys| |] eqn:El; try discriminate. cbn [bind] in E. injection E as <-.
      destruct l' as [|x' l']; [discriminate|]. cbn [map_out] in E'. destruct (f x') as [y'| |] eqn:Ex'; try discriminate. cbn [bind] in E'.
      destruct (map_out f l') as [ys'| |] eqn:El'; try discriminate. cbn [bind] in E'. injection E' as -> ->. constructor.
      + apply (HR x x' y); [left; reflexivity | left; reflexivity | assumption | assumption].
      + apply (IH l' ys); [|reflexivity|exact El']. intros a a' b I I'. apply HR; right; assumption.
  Qed.
  Lemma mul_inj k (l l' : list Z) : k <> 0 -> map (fun e => e * k) l = map (fun e => e * k) l' -> l = l'.
  Proof.
    intros K. revert l'. induction l as [|x l IH]; intros [|y l'] E; try discriminate; [reflexivity|]. cbn [map] in E. injection E as E1 E2. f_equal; [|apply IH, E2].
    apply (Z.mul_reg_r _ _ k K E1).
  Qed.

  (* The table with its corrections (dE_sum=False) tells the patterns: same tree, same start, same
     corrections.  So it tells the events that reconstruct() returns. *)
  Theorem C90_table name span sort_t0 sort_time sort_event good datetime (m m' : miner A) rows :
    readable_names name good -> spans_ok span datetime (m_n m) (m_div m) -> 0 < m_div m ->
    m_auto m = m_auto m' -> m_n m = m_n m' -> m_div m = m_div m' ->
    (forall p, In p (m_patts m ++ m_patts m') -> Forall good (events (fst (fst p)))) ->
    transform name span sort_t0 m datetime false false = Ret rows -> transform name span sort_t0 m' datetime false false = Ret rows ->
    Forall2 same_patt (m_patts m) (m_patts m') /\
    ((forall p, In p (m_patts m ++ m_patts m') -> shaped p) -> ds_events (m_ds m) = ds_events (m_ds m') ->
     forall ids s b, reconstruct sort_time sort_event m ids s b = reconstruct sort_time sort_event m' ids s b).
  Proof.
    intros N Sp Dp Ha Hn Hd G E E'. unfold transform in E, E'. rewrite <- Ha, <- Hn, <- Hd in E'.
    destruct (m_auto m) eqn:Au; [|discriminate]. rewrite <- Au in *.
    destruct (map_out _ (m_patts m)) as [r| |] eqn:Em; try discriminate. destruct (map_out _ (m_patts m')) as [r'| |] eqn:Em'; try discriminate.
    cbn [bind] in E, E'. assert (r = rows) as -> by (destruct r; congruence). assert (r' = rows) as -> by (destruct r'; congruence).
    assert (K : 10 ^ Z.of_nat (m_n m) * m_div m <> 0) by (pose proof (Z.pow_pos_nonneg 10 (Z.of_nat (m_n m)) ltac:(lia) ltac:(lia)); nia).
    assert (F : Forall2 same_patt (m_patts m) (m_patts m')).
    { eapply map_out_same; [|exact Em|exact Em']. intros [[t t0] C] [[t' t0'] C'] y I I' R R'. unfold shown_row in R, R'. destruct t as [|k r0 p ch] eqn:Et; [discriminate|]. rewrite <- Et in *.
      assert (R1 : y = {| w_t0 := if m_auto m then t0 * (10 ^ Z.of_nat (m_n m) * m_div m) else t0; w_text := patt_str name span true datetime (m_n m) (m_div m) t; w_rep := r0;
               w_period := if m_auto m then p * (10 ^ Z.of_nat (m_n m) * m_div m) else p;
               w_E := ListE (if m_auto m && datetime then map (fun e => e * (10 ^ Z.of_nat (m_n m) * m_div m)) C else C) |}) by (injection R; auto).
      destruct t' as [|k' r0' p' ch'] eqn:Et'; [discriminate|]. rewrite <- Et' in *. rewrite R1 in R'. injection R' as E1 E2 _ _ E3.
      apply C90_text with (good := good) in E2; [|exact N|exact Sp|apply (G (t', t0', C')); apply in_app_iff; right; exact I'|apply (G (t, t0, C)); apply in_app_iff; left; exact I].
      split; [symmetry; exact E2|]. cbn [fst snd]. split.
      - destruct (m_auto m); [exact (eq_sym (Z.mul_reg_r _ _ _ K E1)) | symmetry; exact E1].
      - destruct (m_auto m && datetime); [exact (eq_sym (mul_inj _ _ _ K E3)) | symmetry; exact E3]. }
    split; [exact F|]. intros Sh He ids s b. unfold reconstruct.
    assert (L : length (m_patts m) = length (m_patts m')) by (clear -F; induction F; simpl; congruence). rewrite L.
    match goal with |- bind ?x _ = bind ?y _ => assert (X : x = y) end.
    2:{ rewrite X. reflexivity. }
    apply map_out_ext. intros i _. unfold py_nth. rewrite L.
    assert (Nth : forall j, match nth_error (m_patts m) j with Some p => patt_rows m p | None => Exn IndexError end = match nth_error (m_patts m') j with Some p => patt_rows m' p | None => Exn IndexError end).
    { intros j. assert (P : forall p p', nth_error (m_patts m) j = Some p -> nth_error (m_patts m') j = Some p' -> patt_rows m p = patt_rows m' p').
      { intros p p' Hp Hp'. apply rows_same; try assumption.
        - apply Sh, in_app_iff. left. exact (nth_error_In _ _ Hp).
        - apply Sh, in_app_iff. right. exact (nth_error_In _ _ Hp').
        - clear -F Hp Hp'. revert j Hp Hp'. induction F as [|x y l l' Hxy F IH]; intros [|j] Hp Hp'; try discriminate; [cbn in Hp, Hp'; congruence | exact (IH j Hp Hp')]. }
      destruct (nth_error (m_patts m) j) as [p|] eqn:Hp, (nth_error (m_patts m') j) as [p'|] eqn:Hp'; auto.
      - exfalso. apply nth_error_None in Hp'. assert (j < length (m_patts m))%nat by (apply nth_error_Some; congruence). lia.
      - exfalso. apply nth_error_None in Hp. assert (j < length (m_patts m'))%nat by (apply nth_error_Some; congruence). lia. }
    destruct (0 <=? i); [apply Nth|]. destruct (0 <=? _); [apply Nth | reflexivity].
  Qed.
End Table.
Print Assumptions C90_table.

(* all times of a pattern multiplied *)
Fixpoint scaled (k : Z) (t : tree nat) : tree nat :=
  match t with Leaf n e => Leaf n e | Node n r p ch => Node n r (p * k) (map (fun cd => (scaled k (fst cd), snd cd * k)) ch) end.
Lemma row_map sep sep' k (go go' : tree nat -> text) ch : (forall cd, In cd ch -> go (fst cd) = go' (scaled k (fst cd))) -> (forall d, sep d = sep' (d * k)) ->
  row_of sep go ch = row_of sep' go' (map (fun cd => (scaled k (fst cd), snd cd * k)) ch).
Proof.
  intros E Es. unfold row_of. destruct ch as [|[c d] l]; [reflexivity|]. cbn [map fst snd].
  pose proof (E _ (or_introl eq_refl)) as E0. cbn [fst] in E0. rewrite E0. do 2 f_equal. rewrite map_map. apply map_ext_in. intros cd I. cbn [fst snd].
  rewrite Es. f_equal. apply E. right. exact I.
Qed.
Lemma str_scaled name span first n div t : patt_str name span first true n div t = patt_str name span first true 0 1 (scaled (10 ^ Z.of_nat n * div) t).
Proof.
  set (k := 10 ^ Z.of_nat n * div). rewrite !patt_str_render.
  assert (T : forall z, time_text span true n div z = time_text span true 0 1 (z * k)).
  { intros z. unfold time_text. f_equal. change (10 ^ Z.of_nat 0) with 1. unfold k. lia. }
  induction t as [j e|j r p ch IH] using tree_ind'; [reflexivity|]. rewrite Forall_forall in IH. cbn [render scaled].
  assert (H : forall r p, head_text (time_text span true n div) r p = head_text (time_text span true 0 1) r (p * k)) by (intros r0 p0; unfold head_text; rewrite T; reflexivity).
  f_equal; [|f_equal].
  - unfold str_pre. rewrite H. reflexivity.
  - apply row_map; [exact IH|]. intros d. unfold str_sep. rewrite T. reflexivity.
  - unfold str_post. rewrite H. reflexivity.
Qed.

(* Logs with dates: the row of a pattern found in rescaled time is the row of the pattern with all
   its times put back into the unit of the log. *)
Theorem C90_units name span n div b t t0 E :
  let k := 10 ^ Z.of_nat n * div in
  shown_row name span true true n div b (t, t0, E) = shown_row name span false true 0 1 b (scaled k t, t0 * k, map (fun e => e * k) E).
Proof.
  intros k. destruct t as [|j r p ch]; [reflexivity|]. unfold shown_row. cbn [scaled andb]. fold k.
  pose proof (str_scaled name span true n div (Node j r p ch)) as S0. cbn [scaled] in S0. fold k in S0. rewrite S0. reflexivity.
Qed.
Print Assumptions C90_units.

(* ---- the claims without their provisos are false *)
Definition demo_name (e : nat) : text := match e with O => lit "a" | S O => lit "b" | _ => lit "a [d=1] b" end.
Definition demo_span (z : Z) : text := str_z z ++ lit "ns".
(* an event whose name looks like a pattern of two others; the log has both *)
Definition log3 : list (Z * nat) := [(0, 2%nat); (0, 0%nat); (1, 1%nat); (10, 2%nat); (10, 0%nat); (11, 1%nat); (20, 2%nat); (20, 0%nat); (21, 1%nat)].
Theorem C90_names_refuted : exists m m' rows R R',
  (forall e e', (e < 3)%nat -> (e' < 3)%nat -> demo_name e = demo_name e' -> e = e') /\
  fit Nat.leb true log3 (fun _ => [(Node 0 3 10 [(Leaf 1 2%nat, 0)], 0, [0; 0])]) = Ret m /\
  fit Nat.leb true log3 (fun _ => [(Node 0 3 10 [(Leaf 1 0%nat, 0); (Leaf 2 1%nat, 1)], 0, [0; 0; 0; 0; 0])]) = Ret m' /\
  about_log m /\ about_log m' /\
  transform demo_name demo_span (fun r => r) m false true false = Ret rows /\ transform demo_name demo_span (fun r => r) m' false true false = Ret rows /\
  reconstruct demo_sort demo_sort m None ByTime true = Ret R /\ reconstruct demo_sort demo_sort m' None ByTime true = Ret R' /\
  map snd R = [(0, 2%nat); (10, 2%nat); (20, 2%nat)] /\ map snd R' = [(0, 0%nat); (1, 1%nat); (10, 0%nat); (11, 1%nat); (20, 0%nat); (21, 1%nat)].
Proof.
  do 5 eexists. split.
  { intros [|[|[|e]]] [|[|[|e']]] H H' E; try lia; try reflexivity; discriminate E. }
  split; [vm_compute; reflexivity|]. split; [vm_compute; reflexivity|].
  split; [|split].
  - intros p [<-|[]]. eexists. split; [vm_compute; reflexivity|]. split; [discriminate|]. intros x Hx. simpl in *. intuition.
  - intros p [<-|[]]. eexists. split; [vm_compute; reflexivity|]. split; [discriminate|]. intros x Hx. simpl in *. intuition.
  - repeat (split; [vm_compute; reflexivity|]). vm_compute. reflexivity.
Qed.
(* a log with whole numbers: the text and the corrections stay in the rescaled unit, the other columns do not *)
Theorem C90_units_refuted : exists m,
  fit Nat.leb true [(10, 0%nat); (30, 0%nat); (60, 0%nat)] (fun _ => [(Node 0 3 2 [(Leaf 1 0%nat, 0)], 1, [0; 1])]) = Ret m /\ about_log m /\
  transform demo_name demo_span (fun r => r) m false true false =
    Ret [{| w_t0 := 10; w_text := lit "(a)[r=3 p=2]"; w_rep := 3; w_period := 20; w_E := SumE 1 |}].
Proof.
  eexists. split; [vm_compute; reflexivity|]. split; [|vm_compute; reflexivity].
  intros p [<-|[]]. eexists. split; [vm_compute; reflexivity|]. split; [discriminate|]. intros x Hx. simpl in *. intuition.
Qed.
(* without automatic time scaling there is no table *)
Theorem C90_unscaled_refuted : forall {A} `{EqDec A} (leA : A -> A -> bool) log mine m name span sort_t0 datetime b c,
  fit leA false log mine = Ret m -> transform name span sort_t0 m datetime b c = Exn AttributeError.
Proof.
  intros A H leA log mine m name span sort_t0 datetime b c E. unfold fit in E. destruct (dataseq_of_dict leA _) as [ds| |]; try discriminate. cbn [bind] in E. injection E as <-. reflexivity.
Qed.
Print Assumptions C90_unscaled_refuted.
(* the drawing of a tree never shows the names of its events, whatever names are given *)
Theorem C90_tree_refuted : forall name name' level names n r p ch, tree_str name level names (Node n r p ch) = tree_str name' level names (Node n r p ch).
Proof.
  assert (F : forall name name' t level, tree_str name level false t = tree_str name' level false t).
  { intros name name'. induction t as [n e|n r p ch IH] using tree_ind'; intros level; [reflexivity|]. cbn [tree_str]. do 8 f_equal. rewrite Forall_forall in IH.
    apply (f_equal (@List.concat char)). apply map_ext_in. intros cd I. do 4 f_equal. apply (IH cd I). }
  intros name name' level names n r p ch. cbn [tree_str]. do 8 f_equal. apply (f_equal (@List.concat char)). apply map_ext. intros cd. do 4 f_equal. apply F.
Qed.
Print Assumptions C90_names_refuted.
Print Assumptions C90_units_refuted.
Print Assumptions C90_tree_refuted.

(* ---- a log with dates and two patterns, one of them nested *)
Definition log2 : list (Z * nat) :=
  [(1000, 0%nat); (1200, 0%nat); (3000, 1%nat); (5000, 0%nat); (5300, 0%nat); (7000, 1%nat); (9000, 0%nat); (9200, 0%nat); (11000, 1%nat); (13000, 1%nat)].
Definition mine2 (k : nat) (ds : @dataseq nat) : list patt :=
  [(Node k 3 40 [(Node (k + 1) 2 2 [(Leaf (k + 2) 0%nat, 0)], 0); (Leaf (k + 3) 1%nat, 20)], 10, [0; 0; 0; 1; 0; 0; 0; 0])].
Lemma demo_spans n div : 0 < div -> spans_ok demo_span true n div.
Proof.
  intros D _. split.
  - intros z I. unfold demo_span in I. apply in_app_iff in I. destruct I as [I|I]; [|cbn in I; intuition discriminate].
    apply str_z_chars in I. destruct I as [I|I]; [unfold is_digit in I; lia | discriminate I].
  - intros a b E. unfold demo_span in E. apply app_inv_tail in E. apply str_z_inj in E. apply Z.mul_reg_r in E; [exact E|].
    pose proof (Z.pow_pos_nonneg 10 (Z.of_nat n) ltac:(lia) ltac:(lia)). nia.
Qed.
Example C90_case : exists m m',
  fit Nat.leb true log2 (mine2 0) = Ret m /\ fit Nat.leb true log2 (mine2 7) = Ret m' /\ about_log m /\ m_n m = 2%nat /\ m_patts m <> m_patts m' /\
  readable_names demo_name (fun e => (e < 2)%nat) /\ spans_ok demo_span true (m_n m) (m_div m) /\ 0 < m_div m /\
  (forall p, In p (m_patts m ++ m_patts m') -> Forall (fun e => (e < 2)%nat) (events (fst (fst p))) /\ shaped p) /\
  transform demo_name demo_span (fun r => r) m true false false = transform demo_name demo_span (fun r => r) m' true false false /\
  transform demo_name demo_span (fun r => r) m true false false =
    Ret [{| w_t0 := 1000; w_text := lit "((a)[r=2 p=200ns] [d=2000ns] b)[r=3 p=4000ns]"; w_rep := 3; w_period := 4000; w_E := ListE [0; 0; 0; 100; 0; 0; 0; 0] |}].
Proof.
  do 2 eexists. split; [vm_compute; reflexivity|]. split; [vm_compute; reflexivity|]. split; [|split; [reflexivity|split; [discriminate|]]].
  - intros p [<-|[]]. eexists. split; [vm_compute; reflexivity|]. split; [discriminate|]. intros x Hx. simpl in *. intuition.
  - split; [constructor|split; [apply demo_spans; reflexivity|split; [reflexivity|split]]].
    + intros [|[|e]] G; try lia; (split; [discriminate|]); intros c Hc; vm_compute in Hc; intuition lia.
    + intros [|[|e]] [|[|e']] G G' E; try lia; try reflexivity; discriminate E.
    + assert (S2 : forall k, shaped (Node k 3 40 [(Node (k + 1) 2 2 [(Leaf (k + 2) 0%nat, 0)], 0); (Leaf (k + 3) 1%nat, 20)], 10, [0; 0; 0; 1; 0; 0; 0; 0])).
      { intros k. split; [|reflexivity]. cbn [fst]. constructor; [lia|eauto|]. constructor; [|constructor; [constructor | constructor]]. cbn [fst]. constructor; [lia|eauto|]. repeat constructor. }
      intros p [<-|[<-|[]]]; (split; [repeat constructor | apply (S2 0%nat) || apply (S2 7%nat)]).
    + split; vm_compute; reflexivity.
Qed.
