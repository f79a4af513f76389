(* C30, C31: estimator parameters and callbacks. *)
From Verif Require Import Prelude CheckModel MinerModel.

(* ------------------------------------------------------------------- C30 *)
Section Params.
  Context {name V : Type} `{EqDec name} (leN : name -> name -> bool) (self_n : name).
  Context (le_total : forall a b, leN a b = true \/ leN b a = true)
          (le_trans : forall a b c, leN a b = true -> leN b c = true -> leN a c = true).

  (* the constructor parameters reported to the user *)
  Definition is_param (sig : list (name * kind)) (n : name) : Prop :=
    n <> self_n /\ exists k, In (n, k) sig /\ k <> VarKeyword.
  (* the dictionary [d] overridden by [kw] *)
  Definition overridden (kw d d' : list (name * V)) : Prop :=
    map fst d' = map fst d /\
    forall n v, In (n, v) d' <-> (In (n, v) kw \/ (~ In n (map fst kw) /\ In (n, v) d)).

  Lemma param_names_In sig n : In n (param_names leN self_n sig) <-> is_param sig n.
  Proof.
    unfold param_names, is_param; rewrite In_sort, in_map_iff; split.
    - intros [[m k] [E Hin]]; simpl in E; subst m; apply filter_In in Hin; destruct Hin as [Hin Hc]; simpl in Hc.
      apply andb_true_iff in Hc; destruct Hc as [H1 H2]; apply negb_true_iff, eqd_false in H1.
      split; [exact H1|]; exists k; split; [exact Hin|]; intros ->; discriminate.
    - intros [H1 [k [Hin Hk]]]; exists (n, k); split; [reflexivity|]; apply filter_In; split; [exact Hin|]; simpl.
      apply andb_true_iff; split; [apply negb_true_iff, eqd_false, H1 | destruct k; try reflexivity; congruence].
  Qed.
  Lemma getattrs_spec (o : @attrs name V) l : (forall n, In n l -> o n <> None) ->
    exists d, getattrs o l = Ret d /\ map fst d = l /\ forall n v, In (n, v) d <-> In n l /\ o n = Some v.
  Proof.
    induction l as [|k l IH]; intros Hl; simpl; [exists []; split; [reflexivity|]; split; [reflexivity|]; intros n v; simpl; tauto|].
    destruct IH as [d [E [Hf Hd]]]; [intros n Hn; apply Hl; right; exact Hn|].
    destruct (o k) as [v|] eqn:Ek; [|destruct (Hl k (or_introl eq_refl) Ek)].
    rewrite E; simpl; exists ((k, v) :: d); split; [reflexivity|]; split; [simpl; f_equal; exact Hf|].
    intros n u; simpl; rewrite Hd; split.
    - intros [Heq|[Hn Ho]]; [injection Heq as <- <-; auto | auto].
    - intros [[->|Hn] Ho]; [left; rewrite Ek in Ho; injection Ho as ->; reflexivity | right; auto].
  Qed.
  Lemma set_loop_ok valid kw : forall (o : @attrs name V), (forall k, In k (map fst kw) -> In k valid) ->
    set_loop valid o kw = (Ret tt, fold_left (fun o p => setattr o (fst p) (snd p)) kw o).
  Proof.
    induction kw as [|[k v] kw IH]; intros o Hk; simpl; [reflexivity|].
    rewrite (proj2 (mem_In _ _)) by (apply Hk; left; reflexivity); apply IH; intros q Hq; apply Hk; right; exact Hq.
  Qed.
  Lemma fold_setattr kw : forall (o : @attrs name V), NoDup (map fst kw) -> forall n,
    (forall v, In (n, v) kw -> fold_left (fun o p => setattr o (fst p) (snd p)) kw o n = Some v) /\
    (~ In n (map fst kw) -> fold_left (fun o p => setattr o (fst p) (snd p)) kw o n = o n).
  Proof.
    induction kw as [|[k v] kw IH]; intros o Hn n; simpl; [split; [intros v [] | reflexivity]|].
    inversion Hn as [|? ? Hk Hn']; subst; destruct (IH (setattr o k v) Hn' n) as [I1 I2]; split.
    - intros u [Heq|Hu]; [|apply I1, Hu].
      injection Heq as -> ->; rewrite I2 by exact Hk; unfold setattr; rewrite eqd_refl; reflexivity.
    - intros Hno; rewrite I2 by tauto; unfold setattr.
      destruct (eqd n k) eqn:E; [apply (proj1 (eqd_true _ _)) in E; subst; tauto | reflexivity].
  Qed.

  Theorem C30_param_names : forall sig, NoDup (map fst sig) ->
    StronglySorted (fun a b => leN a b = true /\ a <> b) (param_names leN self_n sig) /\
    forall n, In n (param_names leN self_n sig) <-> is_param sig n.
  Proof.
    intros sig Hn; split; [|apply param_names_In].
    assert (Hd : NoDup (param_names leN self_n sig)).
    { apply NoDup_sort; clear -Hn; induction sig as [|[n k] sig IH]; simpl; [constructor|].
      inversion Hn as [|? ? H1 H2]; subst; destruct (_ && _); simpl; [constructor; [|apply IH, H2] | apply IH, H2].
      intros Hin; apply H1; apply in_map_iff in Hin; destruct Hin as [p [<- Hp]]; apply in_map.
      apply filter_In in Hp; apply Hp. }
    pose proof (sort_sorted leN le_total le_trans (map fst (filter (fun p => negb (eqd (fst p) self_n) && negb (is_varkw (snd p))) sig))) as Hs.
    unfold param_names in *; induction Hs as [|a l Hl IH Ha]; [constructor|].
    inversion Hd as [|? ? Hd1 Hd2]; subst; constructor; [apply IH, Hd2|].
    rewrite Forall_forall in *; intros b Hb; split; [apply Ha, Hb | intros ->; contradiction].
  Qed.
  Theorem C30_round_trip : forall sig (o : @attrs name V) kw,
    (forall n, is_param sig n -> o n <> None) ->            (* the constructor stored its arguments *)
    NoDup (map fst kw) -> (forall n, In n (map fst kw) -> is_param sig n) ->
    exists o' d d', get_params leN self_n sig o = Ret d /\ set_params leN self_n sig o kw = (Ret tt, o') /\
      get_params leN self_n sig o' = Ret d' /\ overridden kw d d' /\
      map fst d = param_names leN self_n sig /\
      (forall n, ~ In n (map fst kw) -> o' n = o n).
  Proof.
    intros sig o kw Ho Hn Hk.
    destruct (getattrs_spec o (param_names leN self_n sig)) as [d [E [Hf Hd]]].
    { intros n Hin; apply Ho, param_names_In, Hin. }
    set (o' := fold_left (fun o p => setattr o (fst p) (snd p)) kw o).
    destruct (getattrs_spec o' (param_names leN self_n sig)) as [d' [E' [Hf' Hd']]].
    { intros n Hin; destruct (fold_setattr kw o Hn n) as [F1 F2]; destruct (in_dec eq_dec n (map fst kw)) as [Hi|Hi].
      - apply in_map_iff in Hi; destruct Hi as [[m v] [Em Hi]]; simpl in Em; subst m.
        unfold o'; rewrite (F1 v Hi); discriminate.
      - unfold o'; rewrite (F2 Hi); apply Ho, param_names_In, Hin. }
    exists o', d, d'; unfold get_params; split; [exact E|]; split; [|split; [exact E'|split; [split|split]]].
    - unfold set_params; destruct kw as [|p kw]; [reflexivity|]; unfold get_params; rewrite E, set_loop_ok; [reflexivity|].
      intros k Hin; rewrite Hf; apply param_names_In, Hk, Hin.
    - rewrite Hf, Hf'; reflexivity.
    - intros n v; rewrite Hd', Hd; destruct (fold_setattr kw o Hn n) as [F1 F2]; fold o' in F1, F2; split.
      + intros [Hin Hv]; destruct (in_dec eq_dec n (map fst kw)) as [Hi|Hi].
        * left; apply in_map_iff in Hi; destruct Hi as [[m u] [Em Hi]]; simpl in Em; subst m.
          rewrite (F1 u Hi) in Hv; injection Hv as <-; exact Hi.
        * right; rewrite <- (F2 Hi); auto.
      + intros [Hin|[Hi [Hin Hv]]]; [|rewrite (F2 Hi); auto].
        split; [apply param_names_In, Hk; change n with (fst (n, v)); apply in_map, Hin | apply F1, Hin].
    - exact Hf.
    - intros n Hi; apply (proj2 (fold_setattr kw o Hn n)), Hi.
  Qed.
  (* an unknown name raises ValueError; the names before it were assigned, the names after
     it were not *)
  Theorem C30_unknown_name : forall sig (o : @attrs name V) kw,
    (forall n, is_param sig n -> o n <> None) -> (exists n, In n (map fst kw) /\ ~ is_param sig n) ->
    exists pre k v post, kw = pre ++ (k, v) :: post /\ ~ is_param sig k /\ (forall n, In n (map fst pre) -> is_param sig n) /\
      set_params leN self_n sig o kw = (Exn ValueError, snd (set_params leN self_n sig o pre)).
  Proof.
    intros sig o kw Ho [n [Hin Hno]].
    destruct (getattrs_spec o (param_names leN self_n sig)) as [d [E [Hf Hd]]].
    { intros m Hm; apply Ho, param_names_In, Hm. }
    assert (Hset : forall kw, set_params leN self_n sig o kw = set_loop (param_names leN self_n sig) o kw).
    { intros [|p l]; [reflexivity|]; unfold set_params, get_params; rewrite E, Hf; reflexivity. }
    setoid_rewrite Hset; clear Hset E Hd Hf d; revert o Ho; induction kw as [|[k v] kw IH]; intros o Ho; [destruct Hin|].
    destruct (mem k (param_names leN self_n sig)) eqn:Ek.
    - assert (Hk : is_param sig k) by (apply param_names_In, mem_In, Ek).
      destruct Hin as [Hin|Hin]; [simpl in Hin; subst; contradiction|].
      destruct (IH Hin (setattr o k v)) as [pre [k' [v' [post [-> [H1 [H2 H3]]]]]]].
      { intros m Hm; unfold setattr; destruct (eqd m k); [discriminate | apply Ho, Hm]. }
      exists ((k, v) :: pre), k', v', post; split; [reflexivity|]; split; [exact H1|]; split.
      + intros m [<-|Hm]; [exact Hk | apply H2, Hm].
      + cbn [set_loop app]; rewrite Ek; exact H3.
    - exists [], k, v, kw; split; [reflexivity|]; split.
      + intros Hk; apply param_names_In, mem_In in Hk; congruence.
      + split; [intros m []|]; cbn [set_loop]; rewrite Ek; reflexivity.
  Qed.
End Params.
Print Assumptions C30_param_names.
Print Assumptions C30_round_trip.
Print Assumptions C30_unknown_name.
(* names are numbers: self = 0, min_supp = 1, n_jobs = 2, verbose = 3 *)
Example C30_case :
  let sig := [(0, Positional); (3, Positional); (1, KeywordOnly); (9, VarKeyword)] in
  let o := fun n => if n =? 1 then Some 20 else if n =? 3 then Some 0 else None in
  get_params Nat.leb 0 sig o = Ret [(1, 20); (3, 0)] /\
  fst (set_params Nat.leb 0 sig o [(3, 7)]) = Ret tt /\
  get_params Nat.leb 0 sig (snd (set_params Nat.leb 0 sig o [(3, 7)])) = Ret [(1, 20); (3, 7)] /\
  fst (set_params Nat.leb 0 sig o [(3, 7); (9, 1)]) = Exn ValueError.
Proof. vm_compute. repeat split. Qed.

(* ------------------------------------------------------------------- C31 *)
Section CallBacks.
  Context {name V S E : Type} `{EqDec name}.
  Context (self_n : name) (self_v : V) (iter as_tuple : V -> option (list V)) (tup : list V -> V).
  Notation callback := (@callback name V S E).
  Notation bound := (@bound name V S E).
  Notation table := (@table name V S E).
  Notation prog := (@prog name V S).
  Notation run := (@run name V S E _ self_n self_v iter as_tuple tup).
  Notation notify := (@notify name V S E _ self_n self_v iter as_tuple tup).
  Notation run_bound := (@run_bound name V S E _ self_n self_v iter as_tuple tup).

  (* attaching several collections in turn *)
  Fixpoint attach_all (cbss : list (list (name * callback))) (tb : table) : outcome table :=
    match cbss with
    | [] => Ret tb
    | cbs :: t => bind (attach cbs tb) (attach_all t)
    end.
  (* the callback can be called on every result *)
  Definition accepts (cb : callback) : Prop := forall s res e, fst (notify cb s res e) = Ret tt.

  (* a method of the class, possibly with callbacks of [C] around it *)
  Inductive around (C : callback -> Prop) (m : list V -> prog) : bound -> Prop :=
  | A_raw : around C m (Raw m)
  | A_post cb b : C cb -> around C m b -> around C m (Post cb b).
  Definition class_table (methods : name -> option (list V -> prog)) : table :=
    fun n => option_map Raw (methods n).
  Definition around_table C (methods : name -> option (list V -> prog)) (tb : table) : Prop :=
    forall n, match methods n, tb n with
              | Some m, Some b => around C m b
              | None, None => True
              | _, _ => False
              end.
  Lemma attach_loop_around (C : callback -> Prop) ms cbs : forall tb tb', (forall p, In p cbs -> C (snd p)) ->
    around_table C ms tb -> attach_loop tb cbs = Ret tb' -> around_table C ms tb'.
  Proof.
    induction cbs as [|[n cb] cbs IH]; intros tb tb' Hc Ha E1; simpl in E1; [injection E1 as <-; exact Ha|].
    destruct (tb n) as [b|] eqn:En; [|discriminate].
    eapply IH; [intros p Hp; apply Hc; right; exact Hp | | exact E1].
    intros m; specialize (Ha m); unfold settb; destruct (eqd m n) eqn:Em; [|exact Ha].
    apply (proj1 (eqd_true _ _)) in Em; subst m; rewrite En in Ha; destruct (ms n); [|exact Ha].
    apply A_post; [apply (Hc (n, cb)); left; reflexivity | exact Ha].
  Qed.
  Lemma attach_all_around (C : callback -> Prop) ms cbss : forall tb tb', (forall cbs p, In cbs cbss -> In p cbs -> C (snd p)) ->
    around_table C ms tb -> attach_all cbss tb = Ret tb' -> around_table C ms tb'.
  Proof.
    induction cbss as [|cbs cbss IH]; intros tb tb' Hc Ha E1; simpl in E1; [injection E1 as <-; exact Ha|].
    unfold attach in E1; destruct (existsb _ cbs); [discriminate|].
    destruct (attach_loop tb cbs) as [t2| |] eqn:E2; simpl in E1; try discriminate.
    eapply IH; [intros c p H1 H2; apply (Hc c p); [right; exact H1 | exact H2] | | exact E1].
    eapply attach_loop_around; [|exact Ha | exact E2].
    intros p Hp; apply (Hc cbs p); [left; reflexivity | exact Hp].
  Qed.
  Lemma class_around C ms : around_table C ms (class_table ms).
  Proof. intros n; unfold class_table; destruct (ms n); simpl; [apply A_raw | exact I]. Qed.

  (* what is observed of a run apart from the callbacks' own state *)
  Definition seen (r : outcome V * (S * E)) : outcome V * S := (fst r, fst (snd r)).

  Lemma run_bound_around rec m b : around accepts m b -> forall args s e,
    seen (run_bound rec b args (s, e)) = seen (rec (m args) (s, e)).
  Proof.
    intros Hw; induction Hw as [|cb b Hcb Hw IH]; intros args s e; [reflexivity|]; simpl.
    specialize (IH args s e); destruct (run_bound rec b args (s, e)) as [o [s1 e1]].
    rewrite <- IH; destruct o as [v| |]; try reflexivity.
    specialize (Hcb s1 v e1); destruct (notify cb s1 v e1) as [o' e']; simpl in Hcb; subst o'; reflexivity.
  Qed.
  Lemma run_around ms tb tb' : around_table accepts ms tb -> around_table accepts ms tb' -> forall fuel p s e e',
    seen (run tb fuel p (s, e)) = seen (run tb' fuel p (s, e')).
  Proof.
    intros Ht Ht' fuel; induction fuel as [|fuel IHf]; intros p; induction p as [v|x|f k IHk|n args k IHk]; intros s e e'; simpl; try reflexivity.
    - destruct (f s) as [v s1]; apply IHk.
    - specialize (Ht n); specialize (Ht' n); destruct (ms n), (tb n), (tb' n); try tauto; apply IHk.
    - destruct (f s) as [v s1]; apply IHk.
    - specialize (Ht n); specialize (Ht' n); destruct (ms n) as [m|], (tb n) as [b|], (tb' n) as [b'|]; try tauto; [|apply IHk].
      pose proof (run_bound_around (run tb fuel) m b Ht args s e) as E1.
      pose proof (run_bound_around (run tb' fuel) m b' Ht' args s e') as E2.
      rewrite (IHf (m args) s e e'), <- E2 in E1; clear E2.
      change (run_bound (run tb fuel) b args (s, e)) with (MinerModel.run_bound self_n self_v iter as_tuple tup (run tb fuel) b args (s, e)) in *.
      destruct (MinerModel.run_bound self_n self_v iter as_tuple tup (run tb fuel) b args (s, e)) as [o1 [s1 e1]].
      destruct (MinerModel.run_bound self_n self_v iter as_tuple tup (run tb' fuel) b' args (s, e')) as [o2 [s2 e2]].
      unfold seen in E1; simpl in E1; injection E1 as -> ->; destruct o2; try apply IHk; reflexivity.
  Qed.

  (* whatever collections are attached, and however often, every program using the miner
     (in particular any call of one of its methods) gives the same result, the same
     exception and the same miner state *)
  Theorem C31_results_unchanged_partial : forall methods cbss tb,
    attach_all cbss (class_table methods) = Ret tb ->
    (forall cbs p, In cbs cbss -> In p cbs -> accepts (snd p)) ->
    forall fuel p s e, seen (run tb fuel p (s, e)) = seen (run (class_table methods) fuel p (s, e)).
  Proof.
    intros methods cbss tb E1 Hc fuel p s e; apply (run_around methods).
    - apply (attach_all_around accepts methods cbss _ _ Hc (class_around _ _) E1).
    - apply class_around.
  Qed.
  (* one attached callback runs after its method, on the result, and not when it raises *)
  Theorem C31_called_after_method : forall methods n cb m tb fuel args s e,
    methods n = Some m -> attach [(n, cb)] (class_table methods) = Ret tb ->
    forall o s1 e1, run tb fuel (m args) (s, e) = (o, (s1, e1)) ->
    run tb (Datatypes.S fuel) (PCall n args (fun r => match r with Ret v => PRet v | Exn x => PRaise x | NoFuel => PRaise ValueError end)) (s, e) =
      match o with
      | Ret res => match notify cb s1 res e1 with
                   | (Ret _, e2) => (Ret res, (s1, e2))
                   | (Exn x, e2) => (Exn x, (s1, e2))
                   | (NoFuel, e2) => (NoFuel, (s1, e2))
                   end
      | r => (r, (s1, e1))
      end.
  Proof.
    intros methods n cb m tb fuel args s e Em E1 o s1 e1 Er.
    unfold attach, class_table in E1; simpl in E1; rewrite Em in E1; simpl in E1; injection E1 as <-.
    cbn [run]; unfold settb at 1; rewrite eqd_refl; cbn [MinerModel.run_bound].
    change (fun n0 : name => option_map Raw (methods n0)) with (class_table methods) in *.
    rewrite Er; destruct o as [v| |]; try reflexivity.
    destruct (notify cb s1 v e1) as [[u|x|] e2]; reflexivity.
  Qed.
  (* the callback is called exactly once, with the right arguments, unless that call
     itself raises TypeError *)
  Theorem C31_called_once_partial : forall cb s res e,
    (In self_n (cb_params cb) -> length (cb_params cb) = 1 ->
       fst (cb_fun cb s [self_v] e) <> Exn TypeError -> notify cb s res e = cb_fun cb s [self_v] e) /\
    (In self_n (cb_params cb) -> length (cb_params cb) = 2 ->
       fst (cb_fun cb s [self_v; res] e) <> Exn TypeError -> notify cb s res e = cb_fun cb s [self_v; res] e) /\
    (forall l, In self_n (cb_params cb) -> 3 <= length (cb_params cb) -> as_tuple res = Some l ->
       fst (cb_fun cb s (self_v :: l) e) <> Exn TypeError -> notify cb s res e = cb_fun cb s (self_v :: l) e) /\
    (~ In self_n (cb_params cb) -> iter res = None -> notify cb s res e = cb_fun cb s [res] e) /\
    (forall l, ~ In self_n (cb_params cb) -> iter res = Some l ->
       fst (cb_fun cb s l e) <> Exn TypeError -> notify cb s res e = cb_fun cb s l e).
  Proof.
    intros cb s res e; unfold notify, MinerModel.notify.
    assert (Hr : forall second r, fst r <> Exn TypeError -> retry cb s second r = r).
    { intros second [[u|[]|] e'] Hne; try reflexivity; simpl in Hne; congruence. }
    repeat split.
    - intros Hs Hl Hne; rewrite (proj2 (mem_In _ _) Hs), Hl; apply Hr, Hne.
    - intros Hs Hl Hne; rewrite (proj2 (mem_In _ _) Hs), Hl; apply Hr, Hne.
    - intros l Hs Hl Ht Hne; rewrite (proj2 (mem_In _ _) Hs), Ht.
      destruct (length (cb_params cb)) as [|[|[|k]]]; try lia; apply Hr, Hne.
    - intros Hs Hi; destruct (mem self_n (cb_params cb)) eqn:Em; [apply mem_In in Em; contradiction|].
      rewrite Hi; reflexivity.
    - intros l Hs Hi Hne; destruct (mem self_n (cb_params cb)) eqn:Em; [apply mem_In in Em; contradiction|].
      rewrite Hi; apply Hr, Hne.
  Qed.
  (* names that are no method of the miner: ValueError, before anything is attached *)
  Theorem C31_unknown_method : forall cbs (tb : table),
    (exists n cb, In (n, cb) cbs /\ tb n = None) <-> attach cbs tb = Exn ValueError.
  Proof.
    intros cbs tb; unfold attach; split.
    - intros [n [cb [Hin Hn]]].
      assert (Hex : existsb (fun p : name * callback => match tb (fst p) with None => true | Some _ => false end) cbs = true)
        by (apply existsb_exists; exists (n, cb); simpl; rewrite Hn; auto).
      rewrite Hex; reflexivity.
    - destruct (existsb _ cbs) eqn:Ex.
      + intros _; apply existsb_exists in Ex; destruct Ex as [[n cb] [Hin Hn]]; exists n, cb; split; [exact Hin|].
        simpl in Hn; destruct (tb n); [discriminate | reflexivity].
      + clear Ex; revert tb; induction cbs as [|[n cb] cbs IH]; intros tb E1; simpl in E1; [discriminate|].
        destruct (tb n) as [b|] eqn:En; [|discriminate].
        destruct (IH _ E1) as [m [c [Hin Hm]]]; unfold settb in Hm; destruct (eqd m n) eqn:Em; [discriminate|].
        exists m, c; split; [right; exact Hin | exact Hm].
  Qed.
End CallBacks.
Print Assumptions C31_results_unchanged_partial.
Print Assumptions C31_called_after_method.
Print Assumptions C31_called_once_partial.
Print Assumptions C31_unknown_method.

(* values for the witnesses: numbers, lists and tuples *)
Inductive demo_val := DN (n : nat) | DL (l : list demo_val) | DT (l : list demo_val).
Definition demo_iter (v : demo_val) := match v with DN _ => None | DL l | DT l => Some l end.
Definition demo_tuple (v : demo_val) := match v with DT l => Some l | _ => None end.
Notation demo_notify := (@notify nat demo_val unit (list (list demo_val)) _ 0 (DN 0) demo_iter demo_tuple DT).
(* stack.append: one argument *)
Definition demo_append : @callback nat demo_val unit (list (list demo_val)) :=
  {| cb_params := [7]; cb_fun := fun _ args e => match args with [x] => (Ret tt, e ++ [[x]]) | _ => (Exn TypeError, e) end |}.
(* def cb(self, a, b) *)
Definition demo_self3 : @callback nat demo_val unit (list (list demo_val)) :=
  {| cb_params := [0; 1; 2]; cb_fun := fun _ args e => (Ret tt, e ++ [args]) |}.
(* records its arguments, then raises a TypeError of its own *)
Definition demo_raising : @callback nat demo_val unit (list (list demo_val)) :=
  {| cb_params := [7]; cb_fun := fun _ args e => (match args with [DN n] => if n =? 5 then Exn TypeError else Ret tt | _ => Ret tt end, e ++ [args]) |}.

(* a callback taking self and two values, on a method returning a list: the wrapped
   method raises TypeError although the method returned a value *)
Theorem C31_exception_added_refuted : exists (cb : @callback nat demo_val unit (list (list demo_val))) res,
  (forall s args e, fst (cb_fun cb s args e) = Ret tt) /\ demo_notify cb tt res [] = (Exn TypeError, []).
Proof. exists demo_self3, (DL [DN 1; DN 2]); split; [reflexivity | vm_compute; reflexivity]. Qed.
(* a callback that raises TypeError itself is run twice for one call of the method *)
Theorem C31_called_twice_refuted : exists (cb : @callback nat demo_val unit (list (list demo_val))) res,
  demo_notify cb tt res [] = (Ret tt, [[DN 5]; [DT [DN 5]]]).
Proof. exists demo_raising, (DT [DN 5]); vm_compute; reflexivity. Qed.
(* attaching the same collection twice runs the callback twice per call *)
Theorem C31_attached_twice_refuted : exists (methods : nat -> option (list demo_val -> @prog nat demo_val unit)) cbs tb,
  attach_all [cbs; cbs] (class_table methods) = Ret tb /\ length cbs = 1 /\ run (E := list (list demo_val)) 0 (DN 0) demo_iter demo_tuple DT tb 1 (PCall 4 [] (fun _ => PRet (DN 1))) (tt, []) = (Ret (DN 1), (tt, [[DN 10]; [DN 10]])).
Proof.
  exists (fun n => if n =? 4 then Some (fun _ => PRet (DN 10)) else None), [(4, demo_append)]; eexists.
  split; [cbv; reflexivity|]; split; [reflexivity | vm_compute; reflexivity].
Qed.
(* a method 4 calling method 5 through self; callbacks on both *)
Example C31_case :
  let methods := fun n => if n =? 4 then Some (fun a => PCall 5 a (fun r => match r with Ret v => PRet (DT [v; DN 1]) | _ => PRaise ValueError end))
                          else if n =? 5 then Some (fun a : list demo_val => PRet (DN (length a))) else None in
  exists tb, attach_all [[(4, demo_self3); (5, demo_append)]] (class_table methods) = Ret tb /\ run (E := list (list demo_val)) 0 (DN 0) demo_iter demo_tuple DT tb 2 (PCall 4 [DN 8; DN 9] (fun r => match r with Ret v => PRet v | _ => PRaise ValueError end)) (tt, [])
    = (Ret (DT [DN 2; DN 1]), (tt, [[DN 2]; [DN 0; DN 2; DN 1]])).
Proof. eexists; split; [cbv; reflexivity | vm_compute; reflexivity]. Qed.
(* list.append answers on every result *)
Example C31_append_accepts : accepts 0 (DN 0) demo_iter demo_tuple DT demo_append.
Proof. intros s [n|l|l] e; unfold notify; simpl; [reflexivity | |]; destruct l as [|x [|y l]]; reflexivity. Qed.

(* the collection *)
Section Dict.
  Context {name C : Type} `{EqDec name} (callable assigns_self : C -> bool).
  (* the constructor accepts exactly the callables without assignment to self *)
  Theorem C31_constructor : forall kw : list (name * C),
    make callable assigns_self kw = Ret kw <-> (forall n c, In (n, c) kw -> callable c = true /\ assigns_self c = false).
  Proof.
    intros kw; unfold make; induction kw as [|[n c] kw IH]; cbn [check_values].
    - split; [intros _ n c [] | reflexivity].
    - destruct (callable c) eqn:E1; simpl; [|split; [discriminate | intros Hall; destruct (Hall n c (or_introl eq_refl)); congruence]].
      destruct (assigns_self c) eqn:E2; simpl; [split; [discriminate | intros Hall; destruct (Hall n c (or_introl eq_refl)); congruence]|].
      split.
      + intros Hc m d [Heq|Hin]; [injection Heq as <- <-; auto|].
        apply (proj1 IH) with (n := m); [|exact Hin]; destruct (check_values callable assigns_self kw); try discriminate; reflexivity.
      + intros Hall; assert (Hc : bind (check_values callable assigns_self kw) (fun _ => Ret kw) = Ret kw)
          by (apply IH; intros m d Hin; apply (Hall m d); right; exact Hin).
        destruct (check_values callable assigns_self kw); try discriminate; reflexivity.
  Qed.
  (* assignment and update are rejected and leave the collection as it was *)
  Theorem C31_frozen_partial : forall (d : list (name * C)) m, (exists n c, m = SetItem n c) \/ (exists l, m = Update l) ->
    mutate d m = (Exn NotImplementedError, d).
  Proof. intros d m [[n [c ->]]|[l ->]]; reflexivity. Qed.
  (* what the two mutators inherited from dict do: setdefault keeps the callback of a known name and adds
     an unknown one, del takes out the one name and refuses an unknown one *)
  Theorem C31_inherited : forall (d : list (name * C)) n c,
    (In n (map fst d) -> mutate d (SetDefault n c) = (Ret tt, d)) /\
    (~ In n (map fst d) -> mutate d (SetDefault n c) = (Ret tt, d ++ [(n, c)])) /\
    (~ In n (map fst d) -> mutate d (DelItem n) = (Exn KeyError, d)) /\
    (In n (map fst d) -> exists d', mutate d (DelItem n) = (Ret tt, d') /\
       forall n' c', In (n', c') d' <-> In (n', c') d /\ n' <> n).
  Proof.
    intros d n c. unfold mutate. split; [|split; [|split]].
    - intros Hi. apply mem_In in Hi. rewrite Hi. reflexivity.
    - intros Hi. destruct (mem n (map fst d)) eqn:E; [apply mem_In in E; contradiction | reflexivity].
    - intros Hi. destruct (mem n (map fst d)) eqn:E; [apply mem_In in E; contradiction | reflexivity].
    - intros Hi. apply mem_In in Hi. rewrite Hi. eexists. split; [reflexivity|].
      intros n' c'. rewrite filter_In. cbn [fst]. rewrite negb_true_iff.
      split; intros [H1 H2]; (split; [exact H1|]); destruct (eqd n' n) eqn:E; try congruence; try reflexivity.
      + intros ->. unfold eqd in E. destruct (eq_dec n n); congruence.
      + exfalso. apply H2. unfold eqd in E. destruct (eq_dec n' n); congruence.
  Qed.
End Dict.
Print Assumptions C31_inherited.
Example C31_inherited_case : mutate [(1, 10); (2, 20)] (DelItem 1) = (Ret tt, [(2, 20)])
  /\ mutate [(1, 10)] (SetDefault 1 11) = (Ret tt, [(1, 10)]).
Proof. split; reflexivity. Qed.
Print Assumptions C31_constructor.
(* the mutators inherited from dict are not overridden *)
Theorem C31_mutable_refuted : exists (d d' : list (nat * nat)) m, mutate d m = (Ret tt, d') /\ d' <> d.
Proof. exists [], [(1, 2)], (SetDefault 1 2); split; [reflexivity | discriminate]. Qed.
Print Assumptions C31_mutable_refuted.
