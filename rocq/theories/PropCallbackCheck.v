(* C111: which callbacks are accepted. *)
From Coq Require Import NArith String.
From Verif Require Import Prelude CheckModel LCMModel TextModel ExportModel CallbackCheckModel.

(* ------------------------------------------------------------ specification *)
(* a word character: an ASCII letter or digit, an underscore, or one of the others given by [letter] *)
Definition ascii_word : text := lit "0123456789ABCDEFGHIJKLMNOPQRSTUVWXYZ_abcdefghijklmnopqrstuvwxyz".
Definition word_char (letter : char -> bool) (c : char) : Prop := In c ascii_word \/ (128 <= c)%N /\ letter c = true.
(* somewhere in the text stands "self" or "self.name", then blanks or line ends, then an equals sign *)
Definition looks_assigned (letter : char -> bool) (src : text) : Prop :=
  exists pre attr ws rest, src = pre ++ lit "self" ++ attr ++ ws ++ lit "=" ++ rest /\
    (attr = [] \/ exists nm, nm <> [] /\ Forall (word_char letter) nm /\ attr = lit "." ++ nm) /\
    Forall (fun c => is_space c = true) ws.
Definition fine (letter : char -> bool) (v : value) : Prop :=
  match v with NotCallable => False | Builtin _ => True | Function src => ~ looks_assigned letter src end.
(* what kind of error a bad one gives *)
Definition error_of (letter : char -> bool) (v : value) (e : exn) : Prop :=
  match v with NotCallable => e = TypeError | Builtin _ => False | Function src => looks_assigned letter src /\ e = ValueError end.

(* ------------------------------------------------------------------- proofs *)
Lemma wordb_spec letter c : wordb letter c = true <-> word_char letter c.
Proof.
  unfold word_char, wordb. rewrite !orb_true_iff, !andb_true_iff, !N.leb_le, N.eqb_eq. split.
  - intros [Hc|Hc]; [left|right; exact Hc].
    assert (Hlt : (c < 128)%N) by lia.
    assert (K : forall n, (n < 128)%nat -> (let c := N.of_nat n in ((((48 <= c /\ c <= 57) \/ 65 <= c /\ c <= 90) \/ 97 <= c /\ c <= 122) \/ c = 95)%N -> In c ascii_word)).
    { intros n Hn. assert (Hin : In n (seq 0 128)) by (apply in_seq; lia). revert n Hn Hin.
      assert (B : forallb (fun n => let c := N.of_nat n in implb (((48 <=? c) && (c <=? 57) || (65 <=? c) && (c <=? 90) || (97 <=? c) && (c <=? 122) || (c =? 95))%N) (existsb (N.eqb c) ascii_word)) (seq 0 128) = true) by (vm_compute; reflexivity).
      intros n Hn Hin. rewrite forallb_forall in B. specialize (B n Hin). cbv zeta in *. intros Hc'.
      match type of B with implb ?x _ = true => assert (Hx : x = true) end.
      { rewrite !orb_true_iff, !andb_true_iff, !N.leb_le, N.eqb_eq. exact Hc'. }
      rewrite Hx in B. cbn [implb] in B. apply existsb_exists in B. destruct B as (y & Hy & E). apply N.eqb_eq in E. rewrite E. exact Hy. }
    specialize (K (N.to_nat c) ltac:(lia)). cbv zeta in K. rewrite N2Nat.id in K. apply K. exact Hc.
  - intros [Hin|Hc]; [|right; exact Hc]. left.
    assert (B : forallb (fun c => ((48 <=? c) && (c <=? 57) || (65 <=? c) && (c <=? 90) || (97 <=? c) && (c <=? 122) || (c =? 95))%N) ascii_word = true) by (vm_compute; reflexivity).
    rewrite forallb_forall in B. specialize (B c Hin). rewrite !orb_true_iff, !andb_true_iff, !N.leb_le, N.eqb_eq in B. exact B.
Qed.
Lemma after_spec p : forall s r, after p s = Some r <-> s = p ++ r.
Proof.
  induction p as [|a p IH]; intros s r; cbn [after app].
  - split; [intros [= ->]; reflexivity | intros ->; reflexivity].
  - destruct s as [|b s]; [split; discriminate|]. destruct (N.eqb_spec a b) as [->|N].
    + rewrite IH. split; [intros ->; reflexivity | intros [= ->]; reflexivity].
    + split; [discriminate | intros [= E]; congruence].
Qed.
Lemma skip_split f s : exists w, s = w ++ skip f s /\ Forall (fun c => f c = true) w.
Proof.
  induction s as [|c s (w & E & Hw)]; [exists []; split; [reflexivity | constructor]|]. cbn [skip]. destruct (f c) eqn:Ef.
  - exists (c :: w). split; [cbn; congruence | constructor; assumption].
  - exists []. split; [reflexivity | constructor].
Qed.
Lemma skip_app f w s : Forall (fun c => f c = true) w -> skip f (w ++ s) = skip f s.
Proof. induction 1 as [|c w Hc Hw IH]; [reflexivity|]. cbn [app skip]. rewrite Hc. exact IH. Qed.
Lemma equals_spec s : equals_here s = true <-> exists ws rest, s = ws ++ lit "=" ++ rest /\ Forall (fun c => is_space c = true) ws.
Proof.
  unfold equals_here. split.
  - destruct (skip_split is_space s) as (w & E & Hw). destruct (skip is_space s) as [|c t] eqn:Es; [discriminate|]. intros Ec. apply N.eqb_eq in Ec. subst c.
    exists w, t. split; [exact E | exact Hw].
  - intros (ws & rest & -> & Hw). rewrite skip_app by exact Hw. reflexivity.
Qed.
(* nothing is both a word character and a blank or an equals sign *)
Definition separate (letter : char -> bool) : Prop := forall c, letter c = true -> is_space c = false.
Lemma word_not_space letter c : separate letter -> wordb letter c = true -> is_space c = false /\ c <> 61%N.
Proof.
  intros Hs Hw. apply wordb_spec in Hw. destruct Hw as [Hin|[Hc Hl]].
  - assert (B : forallb (fun c => negb (is_space c) && negb (N.eqb c 61)) ascii_word = true) by (vm_compute; reflexivity).
    rewrite forallb_forall in B. specialize (B c Hin). apply andb_prop in B. destruct B as [B1 B2]. split; [apply negb_true_iff, B1|].
    apply negb_true_iff in B2. apply N.eqb_neq in B2. exact B2.
  - split; [apply Hs, Hl | lia].
Qed.
Lemma equals_not_word letter s : separate letter -> equals_here s = true -> skip (wordb letter) s = s.
Proof.
  intros Hs He. apply equals_spec in He. destruct He as (ws & rest & -> & Hw). destruct ws as [|c ws].
  - reflexivity.
  - inversion Hw as [|? ? Hc _]; subst. cbn [app skip]. destruct (wordb letter c) eqn:E; [|reflexivity]. apply word_not_space in E; [|exact Hs]. destruct E as [E _]. congruence.
Qed.
Lemma match_spec letter s : separate letter -> match_here letter s = true <->
  exists attr ws rest, s = lit "self" ++ attr ++ ws ++ lit "=" ++ rest /\
    (attr = [] \/ exists nm, nm <> [] /\ Forall (word_char letter) nm /\ attr = lit "." ++ nm) /\ Forall (fun c => is_space c = true) ws.
Proof.
  intros Hs. unfold match_here. split.
  - destruct (after (lit "self") s) as [r|] eqn:E; [|discriminate]. apply after_spec in E. subst s. intros Hm. apply orb_prop in Hm. destruct Hm as [Hm|Hm].
    + apply equals_spec in Hm. destruct Hm as (ws & rest & -> & Hw). exists [], ws, rest. split; [reflexivity|]. split; [left; reflexivity | exact Hw].
    + destruct r as [|d [|c t]]; try discriminate; [destruct d as [|q]; [discriminate|]; repeat (destruct q as [q|q|]; try discriminate)|].
      assert (Hd : d = 46%N /\ wordb letter c && equals_here (skip (wordb letter) t) = true).
      { destruct d as [|q]; [discriminate|]. repeat (destruct q as [q|q|]; try discriminate). split; [reflexivity | exact Hm]. }
      destruct Hd as [-> Hd]. apply andb_prop in Hd. destruct Hd as [Hc He]. apply equals_spec in He. destruct He as (ws & rest & He & Hw).
      destruct (skip_split (wordb letter) t) as (w & Et & Hww). rewrite He in Et. subst t.
      exists (lit "." ++ c :: w), ws, rest. split; [rewrite <- !app_assoc; reflexivity|]. split; [|exact Hw]. right. exists (c :: w).
      split; [discriminate|]. split; [|reflexivity]. constructor; [apply wordb_spec, Hc|]. revert Hww. apply Forall_impl. intros x. apply wordb_spec.
  - intros (attr & ws & rest & -> & Ha & Hw). rewrite (proj2 (after_spec (lit "self") _ _) eq_refl). apply orb_true_iff. destruct Ha as [->|(nm & Hne & Hf & ->)].
    + left. apply equals_spec. exists ws, rest. split; [reflexivity | exact Hw].
    + right. destruct nm as [|c nm]; [congruence|]. inversion Hf as [|? ? Hc Hn]; subst. change (lit ".") with [46%N]. change (lit "=") with [61%N]. cbn [app].
      apply wordb_spec in Hc. rewrite Hc. cbn [andb]. assert (He : equals_here (ws ++ 61%N :: rest) = true) by (apply equals_spec; exists ws, rest; split; [reflexivity | exact Hw]).
      rewrite skip_app by (revert Hn; apply Forall_impl; intros x; apply wordb_spec). 
      exact (eq_trans (f_equal equals_here (equals_not_word letter _ Hs He)) He).
Qed.
Lemma search_spec letter : separate letter -> forall s, search letter s = true <-> looks_assigned letter s.
Proof.
  intros Hs. induction s as [|c s IH]; cbn [search].
  - rewrite orb_false_r, match_spec by exact Hs. split.
    + intros (attr & ws & rest & E & _). discriminate E.
    + intros (pre & attr & ws & rest & E & _). destruct pre; discriminate E.
  - rewrite orb_true_iff, match_spec by exact Hs. rewrite IH. split.
    + intros [(attr & ws & rest & E & Ha)|(pre & attr & ws & rest & -> & Ha)].
      * exists [], attr, ws, rest. split; [exact E | exact Ha].
      * exists (c :: pre), attr, ws, rest. split; [reflexivity | exact Ha].
    + intros (pre & attr & ws & rest & E & Ha). destruct pre as [|c' pre].
      * left. exists attr, ws, rest. split; [exact E | exact Ha].
      * right. cbn [app] in E. injection E as -> ->. exists pre, attr, ws, rest. split; [reflexivity | exact Ha].
Qed.

(* a collection is made, unchanged, exactly when all values are fine; otherwise the first bad one gives the error *)
Theorem C111_made : forall letter {name} `{EqDec name} (d : list (name * value)), separate letter ->
  (make letter d = Ret d <-> forall k v, In (k, v) d -> fine letter v) /\
  (forall e, make letter d = Exn e <-> exists d1 k v d2, d = d1 ++ (k, v) :: d2 /\ (forall k' v', In (k', v') d1 -> fine letter v') /\ error_of letter v e).
Proof.
  intros letter name EQ d Hs.
  assert (F : forall v, v = NotCallable \/ (fine letter v /\ has_self_assigment letter v = false) \/ (exists src, v = Function src /\ looks_assigned letter src /\ has_self_assigment letter v = true)).
  { intros [|n|src]; [left; reflexivity | right; left; split; [exact I | reflexivity]|]. right. cbn. destruct (search letter src) eqn:E.
    - right. exists src. split; [reflexivity|]. split; [apply (search_spec letter Hs), E | reflexivity].
    - left. split; [|reflexivity]. intros L. apply (search_spec letter Hs) in L. congruence. }
  assert (G : (check letter d = Ret tt /\ forall k v, In (k, v) d -> fine letter v) \/
    (exists e d1 k v d2, check letter d = Exn e /\ d = d1 ++ (k, v) :: d2 /\ (forall k' v', In (k', v') d1 -> fine letter v') /\ error_of letter v e)).
  { induction d as [|[k v] d IH]; [left; split; [reflexivity | intros k v []]|]. destruct (F v) as [->|[[Hf Hv]|(src & -> & Hl & Hv)]].
    - right. exists TypeError, [], k, NotCallable, d. split; [reflexivity|]. split; [reflexivity|]. split; [intros k' v' [] | reflexivity].
    - assert (E : check letter ((k, v) :: d) = check letter d) by (destruct v; [destruct Hf | reflexivity | cbn [check]; rewrite Hv; reflexivity]).
      destruct IH as [[C A]|(e & d1 & k1 & v1 & d2 & C & D & A & B)].
      + left. split; [rewrite E; exact C|]. intros k' v' [[= <- <-]|Hin]; [exact Hf | apply (A k' v' Hin)].
      + right. exists e, ((k, v) :: d1), k1, v1, d2. split; [rewrite E; exact C|]. split; [rewrite D; reflexivity|]. split; [|exact B].
        intros k' v' [[= <- <-]|Hin]; [exact Hf | apply (A k' v' Hin)].
    - right. exists ValueError, [], k, (Function src), d. split; [cbn [check]; rewrite Hv; reflexivity|]. split; [reflexivity|]. split; [intros k' v' [] | split; [exact Hl | reflexivity]]. }
  assert (N : forall v e, error_of letter v e -> ~ fine letter v).
  { intros [|n|src] e He; cbn in *; [auto | destruct He | intros Hn; apply Hn, He]. }
  assert (U : forall v e e', error_of letter v e -> error_of letter v e' -> e = e').
  { intros [|n|src] e e'; cbn; [congruence | intros [] | intros [_ ->] [_ ->]; reflexivity]. }
  unfold make. destruct G as [[C A]|(e & d1 & k & v & d2 & C & D & A & B)]; rewrite C; cbn [bind].
  - split; [split; [intros _; exact A | reflexivity]|]. intros e. split; [discriminate|]. intros (d1 & k & v & d2 & D & _ & B). exfalso. apply (N v e B). apply (A k v).
    rewrite D. apply in_or_app. right. left. reflexivity.
  - split.
    + split; [discriminate|]. intros A'. exfalso. apply (N v e B). apply (A' k v). rewrite D. apply in_or_app. right. left. reflexivity.
    + intros e'. split.
      * intros [= <-]. exists d1, k, v, d2. auto.
      * intros (d1' & k' & v' & d2' & D' & A' & B'). f_equal.
        assert (L : d1 = d1' /\ v = v').
        { rewrite D in D'. clear D C. revert d1' D' A'. induction d1 as [|x d1 IH]; intros [|y d1'] D' A'; cbn in D'.
          - injection D' as _ -> _. auto.
          - injection D' as <- _. exfalso. apply (N v e B). apply (A' k v). left. reflexivity.
          - injection D' as -> _. exfalso. apply (N v' e' B'). apply (A k' v'). left. reflexivity.
          - injection D' as <- D'. destruct (IH (fun a b Hab => A a b (or_intror Hab)) d1' D' (fun a b Hab => A' a b (or_intror Hab))) as [-> ->]. auto. }
        destruct L as [_ <-]. exact (U v e e' B B').
Qed.
Print Assumptions C111_made.

(* an assignment to an attribute of self is found wherever it stands *)
Theorem C111_assigned_partial : forall letter pre nm ws rest, separate letter -> nm <> [] -> Forall (word_char letter) nm -> Forall (fun c => is_space c = true) ws ->
  forall {name} `{EqDec name} (d1 d2 : list (name * value)) k,
  (forall k' v, In (k', v) d1 -> fine letter v) ->
  make letter (d1 ++ (k, Function (pre ++ lit "self." ++ nm ++ ws ++ lit "=" ++ rest)) :: d2) = Exn ValueError.
Proof.
  intros letter pre nm ws rest Hs Hn Hf Hw name EQ d1 d2 k Hd. apply (C111_made letter _ Hs). exists d1, k. eexists. exists d2. split; [reflexivity|]. split; [exact Hd|].
  split; [|reflexivity]. exists pre, (lit "." ++ nm), ws, rest. split; [change (lit "self.") with (lit "self" ++ lit "."); rewrite <- !app_assoc; reflexivity|].
  split; [right; exists nm; auto | exact Hw].
Qed.
Print Assumptions C111_assigned_partial.
(* augmented assignments, assignments to attributes of attributes and to elements of attributes are not found *)
Theorem C111_assigned_refuted : forall letter,
  let d := [(0%nat, Function (lit "def f(self): self.n += 1")); (1%nat, Function (lit "def f(self): self.a.b = 1")); (2%nat, Function (lit "def f(self): self.a[0] = 1"))] in
  make letter d = Ret d.
Proof. intros letter. vm_compute. reflexivity. Qed.
Print Assumptions C111_assigned_refuted.
(* a comparison and another variable whose name ends in self are taken for assignments *)
Theorem C111_alarm_refuted : forall letter,
  make letter [(0%nat, Function (lit "lambda self: print(self.x == 1)"))] = Exn ValueError /\
  make letter [(0%nat, Function (lit "def f(x): itself = x"))] = Exn ValueError.
Proof. intros letter. split; vm_compute; reflexivity. Qed.
Print Assumptions C111_alarm_refuted.

(* setting an item and updating raise and change nothing *)
Theorem C111_frozen_partial : forall {name} `{EqDec name} (d : list (name * value)),
  (forall k v, apply_op d (SetItem k v) = (Exn NotImplementedError, d)) /\ (forall d', apply_op d (Update d') = (Exn NotImplementedError, d)).
Proof. intros. split; reflexivity. Qed.
Print Assumptions C111_frozen_partial.
(* but setdefault puts in a callback that would not have been accepted *)
Theorem C111_frozen_refuted : forall letter, exists d k v d', make letter d = Ret d /\ apply_op d (SetDefault k v) = (Ret tt, d') /\ In (k : nat, v) d' /\
  make letter d' = Exn ValueError.
Proof.
  intros letter. exists [(0%nat, Builtin 0)], 1%nat, (Function (lit "def f(self): self.x = 1")). eexists. split; [reflexivity|]. split; [reflexivity|].
  split; [right; left; reflexivity | vm_compute; reflexivity].
Qed.
Print Assumptions C111_frozen_refuted.

(* what can happen to a callback in any sequence of operations: it stays as it is unless it is deleted by name, and
   a deletion concerns that name only *)
Definition apply_ops {name} `{EqDec name} (d : list (name * value)) (os : list (op (name:=name))) : list (name * value) :=
  fold_left (fun d o => snd (apply_op d o)) os d.
Theorem C111_kept : forall {name} `{EqDec name} os (d : list (name * value)) k v, dget d k = Some v -> ~ In (DelItem k) os ->
  dget (apply_ops d os) k = Some v.
Proof.
  intros name HN os. induction os as [|o os IH]; intros d k v Hg Hn; [exact Hg|]. cbn [apply_ops fold_left]. apply IH; [|intros K; apply Hn; right; exact K].
  destruct o as [k' v'|d'|k' v'|k']; cbn [apply_op snd]; try exact Hg.
  - destruct (dget d k'); [exact Hg|]. induction d as [|[a b] d IHd]; [discriminate|]. cbn [dget app] in *. destruct (eq_dec k a); [exact Hg | apply IHd, Hg].
  - assert (Hk : k <> k') by (intros ->; apply Hn; left; reflexivity). destruct (dget d k'); [|exact Hg]. cbn [snd].
    induction d as [|[a b] d IHd]; [discriminate|]. cbn [dget filter fst] in *. unfold eqd in *.
    destruct (eq_dec k a) as [->|Hka].
    + destruct (eq_dec a k') as [E|_]; [congruence|]. cbn [negb dget]. destruct (eq_dec a a); [exact Hg | congruence].
    + destruct (eq_dec a k') as [_|_]; cbn [negb dget]; [apply IHd, Hg|]. destruct (eq_dec k a); [congruence | apply IHd, Hg].
Qed.
Print Assumptions C111_kept.
Theorem C111_deleted : forall {name} `{EqDec name} (d : list (name * value)) k,
  match dget d k with
  | Some _ => exists d', apply_op d (DelItem k) = (Ret tt, d') /\ dget d' k = None /\ incl d' d
  | None => apply_op d (DelItem k) = (Exn KeyError, d)
  end.
Proof.
  intros name HN d k. cbn [apply_op]. destruct (dget d k) as [v|] eqn:E; [|reflexivity]. eexists. split; [reflexivity|]. split.
  - clear v E. induction d as [|[a b] d IHd]; [reflexivity|]. cbn [filter fst]. unfold eqd in *. destruct (eq_dec a k) as [_|Hk]; cbn [negb dget]; [exact IHd|].
    unfold eqd. destruct (eq_dec k a); [congruence | exact IHd].
  - intros p Hp. apply filter_In in Hp. apply Hp.
Qed.
Print Assumptions C111_deleted.
Example C111_kept_case : apply_ops [(0%nat, Builtin 3); (1%nat, Builtin 4)] [SetItem 0%nat NotCallable; DelItem 1%nat; SetDefault 0%nat NotCallable; SetDefault 1%nat (Builtin 5)] =
  [(0%nat, Builtin 3); (1%nat, Builtin 5)].
Proof. vm_compute. reflexivity. Qed.

(* a list's append and a function that only prints are accepted; an assignment and a value that cannot be called are not *)
Example C111_case : separate (fun _ => false) /\
  make (fun _ => false) [(0%nat, Builtin 3); (1%nat, Function (lit "lambda self, x: print(self.n, x)"))] = Ret [(0%nat, Builtin 3); (1%nat, Function (lit "lambda self, x: print(self.n, x)"))] /\
  make (fun _ => false) [(0%nat, Builtin 3); (1%nat, Function (lit "def f(self): self.n_1  = 2"))] = Exn ValueError /\
  make (fun _ => false) [(0%nat, NotCallable); (1%nat, Function (lit "def f(self): self.n_1  = 2"))] = Exn TypeError.
Proof. split; [intros c [=]|]. split; [|split]; vm_compute; reflexivity. Qed.
