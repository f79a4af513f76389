(* C94: the UbiqLog files of a user hold their frequent events, and what is read from them. *)
From Coq Require Import NArith.
From Verif Require Import Prelude CheckModel LCMModel VerticalProofs TextModel TextProofs SplitModel SplitProofs UbiqModel.
Local Open Scope Z_scope.

(* ------------------------------------------------------- specification *)
Section Spec.
  Context {U : Type} `{EqDec U}.
  (* what one use of an application from s to e stands for *)
  Definition instant (p : text) : text := p ++ [95; 73]%N.  (* p_I *)
  Definition start_of (p : text) : text := p ++ [95; 83]%N. (* p_S *)
  Definition end_of (p : text) : text := p ++ [95; 69]%N.   (* p_E *)
  Definition events_of (l : line U) : list (Z * text) :=
    match l_times l with
    | None => []
    | Some (s, e) => if Z_lt_dec (e - s) 60 then [(s, instant (l_process l))]
                     else [(s, start_of (l_process l)); (e, end_of (l_process l))]
    end.
  (* the events of a user, in the order of the log *)
  Definition events (ls : list (option (line U))) (u : U) : list (Z * text) :=
    flat_map (fun ol => match ol with Some l => if eq_dec (l_user l) u then events_of l else [] | None => [] end) ls.
  (* all dates of the user can be read *)
  Definition dated (ls : list (option (line U))) (u : U) : Prop :=
    forall l, In (Some l) ls -> l_user l = u -> l_times l <> None.
  Definition frequent (min_occ : nat) (ls : list (option (line U))) (u : U) (x : Z * text) : Prop :=
    In x (events ls u) /\ (min_occ < count_occ eq_dec (map snd (events ls u)) (snd x))%nat.
  (* the time of the first frequent event *)
  Definition first_time (min_occ : nat) ls u (t0 : Z) : Prop :=
    (exists n, frequent min_occ ls u (t0, n)) /\ forall x, frequent min_occ ls u x -> t0 <= fst x.
  Definition before (x y : Z * text) : Prop := pair_leb x y = true /\ x <> y.
End Spec.

(* -------------------------------------------------------------- orders *)
Lemma text_leb_refl a : text_leb a a = true.
Proof. induction a as [|x a IH]; [reflexivity|]. cbn. rewrite N.ltb_irrefl, N.eqb_refl. exact IH. Qed.
Lemma text_leb_total a : forall b, text_leb a b = true \/ text_leb b a = true.
Proof.
  induction a as [|x a IH]; intros [|y b]; cbn; auto.
  destruct (N.ltb_spec x y) as [|Hxy]; [auto|]. destruct (N.ltb_spec y x) as [|Hyx]; [auto|].
  assert (x = y) as -> by lia. rewrite N.eqb_refl. apply IH.
Qed.
Lemma text_leb_trans a : forall b c, text_leb a b = true -> text_leb b c = true -> text_leb a c = true.
Proof.
  induction a as [|x a IH]; intros [|y b] [|z c]; cbn; auto; try discriminate.
  destruct (N.ltb_spec x y), (N.ltb_spec y z), (N.ltb_spec x z); auto; try lia;
    destruct (N.eqb_spec x y), (N.eqb_spec y z), (N.eqb_spec x z); try discriminate; try lia; subst; eauto.
Qed.
Lemma text_leb_antisym a : forall b, text_leb a b = true -> text_leb b a = true -> a = b.
Proof.
  induction a as [|x a IH]; intros [|y b]; cbn; auto; try discriminate.
  destruct (N.ltb_spec x y), (N.ltb_spec y x); try lia; destruct (N.eqb_spec x y), (N.eqb_spec y x); try discriminate; try lia.
  intros. f_equal; auto.
Qed.
Lemma pair_leb_total x y : pair_leb x y = true \/ pair_leb y x = true.
Proof.
  unfold pair_leb. destruct (Z.ltb_spec (fst x) (fst y)); [auto|]. destruct (Z.ltb_spec (fst y) (fst x)); [auto|].
  assert (fst x = fst y) as -> by lia. rewrite Z.eqb_refl. apply text_leb_total.
Qed.
Lemma pair_leb_trans x y z : pair_leb x y = true -> pair_leb y z = true -> pair_leb x z = true.
Proof.
  unfold pair_leb. destruct (Z.ltb_spec (fst x) (fst y)), (Z.ltb_spec (fst y) (fst z)), (Z.ltb_spec (fst x) (fst z)); auto; try lia;
    destruct (Z.eqb_spec (fst x) (fst y)), (Z.eqb_spec (fst y) (fst z)), (Z.eqb_spec (fst x) (fst z)); try discriminate; try lia.
  apply text_leb_trans.
Qed.
Lemma pair_leb_antisym x y : pair_leb x y = true -> pair_leb y x = true -> x = y.
Proof.
  unfold pair_leb. destruct x as [a s], y as [b t]. cbn [fst snd].
  destruct (Z.ltb_spec a b), (Z.ltb_spec b a); try lia; destruct (Z.eqb_spec a b), (Z.eqb_spec b a); try discriminate; try lia.
  intros. f_equal; [assumption | apply text_leb_antisym; assumption].
Qed.
Lemma pair_leb_fst x y : pair_leb x y = true -> fst x <= fst y.
Proof. unfold pair_leb. destruct (Z.ltb_spec (fst x) (fst y)); [lia|]. destruct (Z.eqb_spec (fst x) (fst y)); [lia | discriminate]. Qed.

Lemma written_In l : forall prev x, In x (written prev l) -> In x l.
Proof.
  induction l as [|y l IH]; intros prev x; cbn [written]; [auto|]. destruct (eqd _ _); intros Hx.
  - right. exact (IH _ _ Hx).
  - destruct Hx as [<-|Hx]; [left; reflexivity | right; exact (IH _ _ Hx)].
Qed.
Lemma written_all l : forall prev x, In x l -> In x (written prev l) \/ prev = Some x.
Proof.
  induction l as [|y l IH]; intros prev x; cbn [written]; [intros []|]. destruct (eqd (Some y) prev) eqn:E.
  - apply (proj1 (eqd_true _ _)) in E. subst prev. intros [<-|Hx]; [right; reflexivity | exact (IH _ _ Hx)].
  - intros [<-|Hx]; [left; left; reflexivity|]. destruct (IH (Some y) x Hx) as [Hw|Ex]; [left; right; exact Hw|].
    injection Ex as ->. left. left. reflexivity.
Qed.
Lemma written_iff l x : In x (written None l) <-> In x l.
Proof. split; [apply written_In | intros Hx; destruct (written_all l None x Hx) as [|F]; [assumption | discriminate]]. Qed.
Lemma written_sorted l : StronglySorted (le_rel pair_leb) l -> forall prev,
  (forall x, prev = Some x -> Forall (fun y => pair_leb x y = true) l) ->
  StronglySorted before (written prev l) /\ (forall x, prev = Some x -> Forall (before x) (written prev l)).
Proof.
  induction 1 as [|y l Hl IH Hy]; intros prev Hp; cbn [written]; [split; [constructor | constructor]|].
  destruct (eqd (Some y) prev) eqn:E.
  - apply (proj1 (eqd_true _ _)) in E. subst prev. apply IH. intros x Hx. injection Hx as ->. exact Hy.
  - destruct (IH (Some y)) as [I1 I2]; [intros x Hx; injection Hx as <-; exact Hy|]. specialize (I2 y eq_refl).
    split; [constructor; assumption|]. intros x ->. specialize (Hp x eq_refl). inversion Hp as [|? ? Hxy Hxl]; subst.
    assert (x <> y) as N by (intros ->; rewrite eqd_refl in E; discriminate).
    constructor; [split; assumption|]. rewrite Forall_forall in I2 |- *. intros z Hz. destruct (I2 z Hz) as [A B].
    split; [exact (pair_leb_trans _ _ _ Hxy A)|]. intros ->. apply N. apply pair_leb_antisym; assumption.
Qed.

(* ------------------------------------------------- splitting the names *)
Lemma split_snoc c (x : text) : ~ In c x -> forall (p : text) fuel cur, (length (p ++ c :: x) < fuel)%nat ->
  exists l, split_aux fuel [c] cur (p ++ c :: x) = l ++ [x] /\ l <> [] /\ join [c] l = cur ++ p.
Proof.
  intros Hx. induction p as [|a p IH]; intros [|fuel] cur Hf; try (cbn in Hf; lia).
  - cbn [app split_aux strip_prefix]. rewrite N.eqb_refl.
    exists [cur]. split; [|split; [discriminate | rewrite app_nil_r; reflexivity]]. cbn [app]. f_equal.
    rewrite <- (app_nil_r x) at 1. cbn [app length] in Hf. rewrite (split_aux_item c [] x Hx) by lia.
    cbn [app]. destruct (fuel - length x)%nat; reflexivity.
  - cbn [app length] in Hf. cbn [app split_aux strip_prefix]. destruct (N.eqb_spec c a) as [<-|N].
    + destruct (IH fuel []) as (l & E & Hl & J); [lia|]. exists (cur :: l). rewrite E. split; [reflexivity|].
      split; [discriminate|]. destruct l as [|y l]; [elim Hl; reflexivity|]. cbn [join] in J |- *. rewrite J. reflexivity.
    + destruct (IH fuel (cur ++ [a])) as (l & E & Hl & J); [lia|]. exists l. split; [exact E|]. split; [exact Hl|].
      rewrite J, <- app_assoc. reflexivity.
Qed.
Lemma started_name m p k : k <> underscore ->
  started (m, p ++ [underscore; k]) = if mem [k] [[letter_I]; [letter_S]] then [(m, p)] else [].
Proof.
  intros N. unfold started, split_str. cbn [fst snd].
  destruct (split_snoc underscore [k]) with (p := p) (fuel := S (length (p ++ [underscore; k]))) (cur := @nil char) as (l & E & _ & J).
  { intros [F|[]]. apply N. exact F. }
  { cbn [app]. lia. }
  rewrite E, last_last, removelast_last, J. reflexivity.
Qed.

Section C94.
  Context {U : Type} `{EqDec U} (min_occ : nat).

  Lemma happenings_eq (l : line U) d : l_times l = Some d -> happenings (l_process l) d = events_of l.
  Proof.
    intros E. unfold happenings, events_of. rewrite E. destruct d as [s e]. cbn [fst snd].
    destruct (Z.ltb_spec (e - s) 60), (Z_lt_dec (e - s) 60); try lia; reflexivity.
  Qed.
  Lemma events_app (a b : list (option (line U))) u : events (a ++ b) u = events a u ++ events b u.
  Proof. apply flat_map_app. Qed.

  Lemma add_events (l : list (Z * text)) : forall x ev,
    fst (fold_left add_event l x) = fst x ++ l
    /\ times_seen (snd (fold_left add_event l x)) ev = (times_seen (snd x) ev + count_occ eq_dec (map snd l) ev)%nat.
  Proof.
    induction l as [|e l IH]; intros x ev; cbn [fold_left map count_occ]; [rewrite app_nil_r; split; [reflexivity | lia]|].
    destruct (IH (add_event x e) ev) as [I1 I2]. rewrite I1, I2. unfold add_event. cbn [fst snd]. rewrite <- app_assoc.
    split; [reflexivity|]. unfold times_seen at 1. rewrite dget_dset. unfold times_seen.
    destruct (eq_dec ev (snd e)) as [->|N]; destruct (eq_dec (snd e) _) as [F|F]; try congruence; lia.
  Qed.

  (* what is known after a prefix of the log *)
  Definition known (ls : list (option (line U))) (s : state U) : Prop :=
    (forall u, In u (users_drop s) <-> ~ dated ls u)
    /\ NoDup (dkeys (users s))
    /\ (forall u, dated ls u -> match dget (users s) u with
         | Some (evs, counts) => evs = events ls u /\ forall n, times_seen counts n = count_occ eq_dec (map snd (events ls u)) n
         | None => events ls u = []
         end).
  Lemma known_all (ls : list (option (line U))) : known ls (fold_left read_line ls {| users := []; users_drop := [] |}).
  Proof.
    induction ls as [|ol ls IH] using rev_ind.
    - split; [|split; [constructor | reflexivity]]. intros u. split; [intros []|]. intros F. exfalso. apply F. intros l [].
    - rewrite fold_left_app. cbn [fold_left]. set (s := fold_left read_line ls _) in *. destruct IH as (I1 & I2 & I3).
      assert (Dec : forall u, dated (ls ++ [ol]) u <-> dated ls u /\ (forall l, ol = Some l -> l_user l = u -> l_times l <> None)).
      { intros u. split.
        - intros Hd. split; intros l Hl; apply Hd; apply in_or_app; [left; exact Hl | right; left; exact Hl].
        - intros [H1 H2] l Hl. apply in_app_or in Hl as [Hl|[Hl|[]]]; [apply H1; exact Hl | apply H2; exact Hl]. }
      destruct ol as [l|]; cbn [read_line].
      2:{ split; [|split; [exact I2|]].
          - intros u. rewrite I1, Dec. split; [tauto|]. intros F G. apply F. split; [exact G | discriminate].
          - intros u Hd. apply Dec in Hd as [Hd _]. specialize (I3 u Hd). rewrite events_app. cbn. rewrite app_nil_r. exact I3. }
      destruct (mem (l_user l) (users_drop s)) eqn:Em.
      { apply mem_In in Em. split; [|split; [exact I2|]].
        - intros u. rewrite Dec. split; [intros Hu; apply I1 in Hu; tauto|]. intros F. destruct (eq_dec (l_user l) u) as [<-|N]; [exact Em|].
          apply I1. intros G. apply F. split; [exact G|]. intros l' E El. injection E as <-. contradiction.
        - intros u Hd. apply Dec in Hd as [Hd _]. assert (l_user l <> u) as N by (intros <-; apply I1 in Em; contradiction).
          specialize (I3 u Hd). rewrite events_app. cbn. destruct (eq_dec (l_user l) u); [contradiction|]. rewrite !app_nil_r. exact I3. }
      apply mem_false in Em. destruct (l_times l) as [d|] eqn:Et.
      + assert (forall u, dated (ls ++ [Some l]) u <-> dated ls u) as Dec'.
        { intros u. rewrite Dec. split; [tauto|]. intros Hd. split; [exact Hd|]. intros l' E El. injection E as <-. congruence. }
        split; [|split].
        * intros u. cbn [users_drop]. rewrite I1, Dec'. reflexivity.
        * cbn [users]. rewrite dkeys_dset. destruct (mem (l_user l) (dkeys (users s))) eqn:Ek; [exact I2|].
          apply mem_false in Ek. apply NoDup_app_intro; [exact I2 | repeat constructor; intros [] |].
          intros x Hx [<-|[]]. contradiction.
        * intros u Hd. apply Dec' in Hd. specialize (I3 u Hd). cbn [users]. rewrite dget_dset, events_app. cbn [events flat_map].
          rewrite app_nil_r. destruct (eq_dec u (l_user l)) as [->|N].
          -- destruct (eq_dec (l_user l) (l_user l)) as [_|F]; [|contradiction]. rewrite (happenings_eq l d Et).
             set (x := match dget (users s) (l_user l) with Some x => x | None => ([], []) end).
             assert (fst x = events ls (l_user l) /\ forall n, times_seen (snd x) n = count_occ eq_dec (map snd (events ls (l_user l))) n) as [X1 X2].
             { unfold x. destruct (dget (users s) (l_user l)) as [[evs counts]|]; [exact I3|]. rewrite I3. split; [reflexivity | intros n; reflexivity]. }
             destruct (fold_left add_event (events_of l) x) as [evs counts] eqn:Ef. split.
             ++ destruct (add_events (events_of l) x []) as [A _]. rewrite Ef, X1 in A. exact A.
             ++ intros n. destruct (add_events (events_of l) x n) as [_ A]. rewrite Ef, X2 in A. cbn [snd] in A.
                rewrite A, map_app, count_occ_app. reflexivity.
          -- destruct (eq_dec (l_user l) u) as [F|_]; [congruence|]. rewrite app_nil_r. exact I3.
      + split; [|split; [exact I2|]].
        * intros u. cbn [users_drop]. rewrite Dec. split.
          -- intros [<-|Hu]; [intros [_ F]; exact (F l eq_refl eq_refl Et) | apply I1 in Hu; tauto].
          -- intros F. destruct (eq_dec (l_user l) u) as [<-|N]; [left; reflexivity|]. right. apply I1. intros G. apply F.
             split; [exact G|]. intros l' E El. injection E as <-. contradiction.
        * intros u Hd. apply Dec in Hd as [Hd Hl]. assert (l_user l <> u) as N by (intros E; exact (Hl l eq_refl E Et)).
          specialize (I3 u Hd). cbn [users]. rewrite events_app. cbn. destruct (eq_dec (l_user l) u); [contradiction|].
          rewrite !app_nil_r. exact I3.
  Qed.

  Lemma frequent_filter ls u counts x : (forall n, times_seen counts n = count_occ eq_dec (map snd (events ls u)) n) ->
    In x (filter (fun d => (min_occ <? times_seen counts (snd d))%nat) (events ls u)) <-> frequent min_occ ls u x.
  Proof. intros Hc. rewrite filter_In, Hc, Nat.ltb_lt. reflexivity. Qed.
  Lemma many (f : text -> bool) (l : list (Z * text)) x : In x l -> f (snd x) = true ->
    (count_occ eq_dec (map snd l) (snd x) <= length (filter (fun d => f (snd d)) l))%nat.
  Proof.
    intros _ Hf. induction l as [|y l IH]; [apply le_n|]. cbn [map count_occ filter].
    destruct (eq_dec (snd y) (snd x)) as [E|N]; [rewrite E, Hf; cbn [length]; lia|].
    destruct (f (snd y)); cbn [length]; lia.
  Qed.

  (* a user with an unreadable date, or without a frequent event, has no file *)
  Theorem C94_no_file (ls : list (option (line U))) u :
    ~ dated ls u \/ (forall x, ~ frequent min_occ ls u x) -> ~ In u (map fst (parse_all_user min_occ ls)).
  Proof.
    intros Hno Hin. apply in_map_iff in Hin as ([u' fs] & <- & Hin). cbn [fst] in Hno. unfold parse_all_user in Hin. cbv zeta in Hin.
    pose proof (known_all ls) as K. set (s := fold_left read_line ls _) in *. destruct K as (K1 & K2 & K3).
    apply in_flat_map in Hin as ([v [evs counts]] & Hv & Hin). cbn [fst snd] in Hin. unfold files_of in Hin. cbn [fst snd] in Hin.
    destruct (mem v (users_drop s)) eqn:Em; [destruct Hin|]. apply mem_false in Em.
    destruct (Nat.ltb_spec min_occ (length (filter (fun d => (min_occ <? times_seen counts (snd d))%nat) evs))) as [Hlen|]; [|destruct Hin].
    destruct (sort pair_leb _) as [|[t0 n0] k] eqn:Es; [destruct Hin|]. destruct Hin as [E|[]]. apply (f_equal fst) in E. cbn [fst] in E. subst u'.
    destruct Hno as [Hno|Hno]; [apply Em, K1, Hno|].
    assert (dated ls v) as Hd.
    { assert (forall ls : list (option (line U)), dated ls v \/ ~ dated ls v) as D.
      { induction ls0 as [|[l|] l0 [IH|IH]]; [left; intros l [] | | | |].
        - destruct (eq_dec (l_user l) v) as [Eu|Nu].
          + destruct (l_times l) eqn:Et; [left | right].
            * intros l' [F|F] Eu'; [injection F as <-; congruence | exact (IH l' F Eu')].
            * intros F. exact (F l (or_introl eq_refl) Eu Et).
          + left. intros l' [F|F] Eu'; [injection F as <-; contradiction | exact (IH l' F Eu')].
        - right. intros F. apply IH. intros l' Hl'. apply F. right. exact Hl'.
        - left. intros l' [F|F]; [discriminate | exact (IH l' F)].
        - right. intros F. apply IH. intros l' Hl'. apply F. right. exact Hl'. }
      destruct (D ls) as [|F]; [assumption|]. elim Em. apply K1, F. }
    specialize (K3 v Hd). rewrite (In_dget (users s) v _ K2 Hv) in K3. destruct K3 as [-> Kc].
    apply (Hno (t0, n0)). apply (frequent_filter ls v counts); [exact Kc|]. apply (In_sort pair_leb). rewrite Es. left. reflexivity.
  Qed.

  Lemma event_names (ls : list (option (line U))) u x : In x (events ls u) ->
    exists p, snd x = instant p \/ snd x = start_of p \/ snd x = end_of p.
  Proof.
    intros Hx. apply in_flat_map in Hx as ([l|] & _ & Hx); [|destruct Hx]. destruct (eq_dec (l_user l) u); [|destruct Hx].
    unfold events_of in Hx. destruct (l_times l) as [[s e']|]; [|destruct Hx]. exists (l_process l).
    destruct (Z_lt_dec _ _); [destruct Hx as [<-|[]] | destruct Hx as [<-|[<-|[]]]]; cbn [snd]; auto.
  Qed.
  Lemma started_instant m p : started (m, instant p) = [(m, p)].
  Proof. apply (started_name m p letter_I). discriminate. Qed.
  Lemma started_start m p : started (m, start_of p) = [(m, p)].
  Proof. apply (started_name m p letter_S). discriminate. Qed.
  Lemma started_end m p : started (m, end_of p) = [].
  Proof. apply (started_name m p letter_E). discriminate. Qed.

  Lemma sorted_fst (l : list (Z * text)) : StronglySorted (le_rel pair_leb) l -> StronglySorted (fun x y => fst x <= fst y) l.
  Proof.
    induction 1 as [|x l Hl IH Hx]; constructor; [exact IH|]. rewrite Forall_forall in *. intros y Hy. apply pair_leb_fst, Hx, Hy.
  Qed.
  Lemma sorted_started (l : list (Z * text)) : StronglySorted (fun x y => fst x <= fst y) l ->
    StronglySorted (fun x y => fst x <= fst y) (flat_map started l).
  Proof.
    assert (forall x y, In y (started x) -> fst y = fst x) as F.
    { intros x y. unfold started. destruct (split_str _ _) as [db| |]; [|intros [] ..]. destruct (mem _ _); [intros [<-|[]]; reflexivity | intros []]. }
    assert (forall x, length (started x) <= 1)%nat as F1.
    { intros x. unfold started. destruct (split_str _ _) as [db| |]; [destruct (mem _ _)| |]; cbn [length]; lia. }
    induction 1 as [|x l Hl IH Hx]; [constructor|]. cbn [flat_map]. specialize (F1 x). pose proof (F x) as Fx.
    destruct (started x) as [|y [|]]; [exact IH | | cbn [length] in F1; lia]. cbn [app]. constructor; [exact IH|].
    rewrite Forall_forall in *. intros z Hz. apply in_flat_map in Hz as (w & Hw & Hz). rewrite (F w z Hz), (Fx y (or_introl eq_refl)).
    apply Hx, Hw.
  Qed.
  Lemma sorted_written (l : list (Z * text)) : StronglySorted (fun x y => fst x <= fst y) l -> forall prev,
    StronglySorted (fun x y => fst x <= fst y) (written prev l).
  Proof.
    induction 1 as [|x l Hl IH Hx]; intros prev; cbn [written]; [constructor|]. destruct (eqd _ _); [apply IH|]. constructor; [apply IH|].
    rewrite Forall_forall in *. intros y Hy. apply Hx, (written_In _ _ _ Hy).
  Qed.

  (* C94: the files of a user hold their frequent events, each with its minute
     since the first, in order and without repetition *)
  Theorem C94_written (ls : list (option (line U))) u : dated ls u -> (exists x, frequent min_occ ls u x) ->
    exists t0 ise is_, first_time min_occ ls u t0
    /\ (forall fs, In (u, fs) (parse_all_user min_occ ls) <-> fs = (ise, is_))
    /\ f_user ise = u /\ f_start ise = t0 /\ f_user is_ = u /\ f_start is_ = t0
    /\ StronglySorted before (f_rows ise)
    /\ (forall m n, In (m, n) (f_rows ise) <-> exists t, frequent min_occ ls u (t, n) /\ t0 + 60 * m <= t < t0 + 60 * m + 60)
    /\ (forall m p, In (m, p) (f_rows is_) <-> In (m, instant p) (f_rows ise) \/ In (m, start_of p) (f_rows ise))
    /\ StronglySorted (fun x y => fst x <= fst y) (f_rows is_).
  Proof.
    intros Hd [x Hx]. pose proof (known_all ls) as K. unfold parse_all_user. cbv zeta. set (s := fold_left read_line ls _) in *.
    destruct K as (K1 & K2 & K3). specialize (K3 u Hd). destruct (dget (users s) u) as [[evs counts]|] eqn:Eu.
    2:{ destruct Hx as [Hx _]. rewrite K3 in Hx. exact (False_ind _ Hx). }
    destruct K3 as [-> Kc]. set (k := filter (fun d => (min_occ <? times_seen counts (snd d))%nat) (events ls u)).
    assert (Hk : forall y, In y (sort pair_leb k) <-> frequent min_occ ls u y).
    { intros y. rewrite In_sort. apply frequent_filter. exact Kc. }
    assert (min_occ < length k)%nat as Hlen.
    { destruct Hx as [Hx Hc]. unfold k. eapply Nat.lt_le_trans; [exact Hc|].
      apply (many (fun n => (min_occ <? times_seen counts n)%nat) (events ls u) x Hx). rewrite Kc. apply Nat.ltb_lt. exact Hc. }
    destruct (sort pair_leb k) as [|[t0 n0] k'] eqn:Es; [exact (False_ind _ (proj2 (Hk x) Hx))|].
    set (evs := sort pair_leb (map (fun d => ((fst d - t0) / 60, snd d)) ((t0, n0) :: k'))).
    set (ise := {| f_user := u; f_start := t0; f_rows := written None evs |}).
    set (is_ := {| f_user := u; f_start := t0; f_rows := written None (flat_map started evs) |}).
    assert (files_of min_occ s u (events ls u, counts) = [(u, (ise, is_))]) as Ef.
    { unfold files_of. cbn [fst snd]. rewrite (proj2 (mem_false _ _)) by (intros F; apply K1 in F; contradiction).
      fold k. rewrite (proj2 (Nat.ltb_lt _ _) Hlen), Es. reflexivity. }
    assert (He : forall m n, In (m, n) evs <-> exists t, frequent min_occ ls u (t, n) /\ t0 + 60 * m <= t < t0 + 60 * m + 60).
    { intros m n. unfold evs. rewrite In_sort, in_map_iff. split.
      - intros ([t n'] & E & Hin). cbn [fst snd] in E. injection E as <- ->. exists t. split; [apply Hk, Hin|].
        pose proof (Z.div_mod (t - t0) 60). pose proof (Z.mod_pos_bound (t - t0) 60). lia.
      - intros (t & Hf & Hm). exists (t, n). split; [|apply Hk, Hf]. cbn [fst snd]. f_equal. symmetry.
        apply (Z.div_unique _ _ _ (t - t0 - 60 * m)); lia. }
    assert (Hs : StronglySorted (le_rel pair_leb) evs) by (apply sort_sorted; [exact pair_leb_total | exact pair_leb_trans]).
    exists t0, ise, is_. split.
    { split; [exists n0; apply Hk; left; reflexivity|]. intros y Hy. apply Hk in Hy.
      assert (StronglySorted (le_rel pair_leb) ((t0, n0) :: k')) as Hso.
      { rewrite <- Es. apply sort_sorted; [exact pair_leb_total | exact pair_leb_trans]. }
      inversion Hso as [|? ? _ Hall]; subst. destruct Hy as [<-|Hy]; [apply Z.le_refl|]. rewrite Forall_forall in Hall.
      apply Hall in Hy. apply pair_leb_fst in Hy. exact Hy. }
    split.
    { intros fs. rewrite in_flat_map. split.
      - intros ([v dt] & Hv & Hin). cbn [fst snd] in Hin. assert (v = u) as ->.
        { unfold files_of in Hin. cbv zeta in Hin. destruct (mem v _); [destruct Hin|].
          match type of Hin with In _ (if ?b then _ else _) => destruct b end; [|destruct Hin].
          match type of Hin with In _ (match ?x with [] => _ | _ :: _ => _ end) => destruct x as [|[? ?] ?] end; [destruct Hin|]. destruct Hin as [E|[]]. apply (f_equal fst) in E. exact E. }
        apply (In_dget _ _ _ K2) in Hv. rewrite Eu in Hv. injection Hv as <-. rewrite Ef in Hin.
        destruct Hin as [E|[]]. apply (f_equal snd) in E. symmetry. exact E.
      - intros ->. exists (u, (events ls u, counts)). split; [apply dget_In; exact Eu|]. cbn [fst snd]. rewrite Ef. left. reflexivity. }
    do 4 (split; [reflexivity|]). split; [apply (written_sorted evs Hs None); discriminate|].
    split; [intros m n; cbn [f_rows ise]; rewrite written_iff; apply He|]. split.
    - intros m p. cbn [f_rows is_ ise]. rewrite !written_iff, in_flat_map. split.
      + intros ([m' n] & Hin & Hst). pose proof Hin as Hin'. apply He in Hin' as (t & [Ht _] & _).
        destruct (event_names ls u _ Ht) as (q & [E|[E|E]]); cbn [snd] in E; subst n;
          [rewrite started_instant in Hst | rewrite started_start in Hst | rewrite started_end in Hst];
          (destruct Hst as [E|[]] || destruct Hst); injection E as <- <-; auto.
      + intros [Hin|Hin]; [exists (m, instant p); rewrite started_instant | exists (m, start_of p); rewrite started_start];
          (split; [exact Hin | left; reflexivity]).
    - cbn [f_rows is_]. apply sorted_written, sorted_started, sorted_fst, Hs.
  Qed.

  (* what is read: the minutes of the file are taken for seconds *)
  Theorem C94_read (ls : list (option (line U))) u fs : In (u, fs) (parse_all_user min_occ ls) ->
    (forall t0, first_time min_occ ls u t0 -> forall s n,
       In (s, n) (read_ise (fst fs)) <-> exists t, frequent min_occ ls u (t, n) /\ 60 * (s - t0) <= t - t0 < 60 * (s - t0) + 60)
    /\ length (read_is (snd fs)) = length (f_rows (snd fs))
    /\ (forall i m p, nth_error (f_rows (snd fs)) i = Some (m, p) -> nth_error (read_is (snd fs)) i = Some (Z.of_nat i + 1, p)).
  Proof.
    intros Hin. assert (In u (map fst (parse_all_user min_occ ls))) as Hu by (apply in_map_iff; exists (u, fs); auto).
    assert (forall (l : list (Z * text)) k, length (combine (map Z.of_nat (seq k (length l))) (map snd l)) = length l
      /\ forall i m p, nth_error l i = Some (m, p) ->
         nth_error (combine (map Z.of_nat (seq k (length l))) (map snd l)) i = Some (Z.of_nat i + Z.of_nat k, p)) as Hc.
    { induction l as [|x l IH]; intros k; [split; [reflexivity | intros [|i]; discriminate]|]. cbn [length seq map combine].
      destruct (IH (S k)) as [I1 I2]. split; [rewrite I1; reflexivity|]. intros [|i] m p; cbn [nth_error].
      - intros E. injection E as ->. reflexivity.
      - intros E. rewrite (I2 i m p E). f_equal. f_equal. lia. }
    split; [|exact (Hc (f_rows (snd fs)) 1%nat)].
    intros t0 Ht0. assert (dated ls u /\ exists x, frequent min_occ ls u x) as [Hd Hx].
    { destruct Ht0 as [[n Hn] _]. split; [|eexists; exact Hn]. intros l Hl El E. apply (C94_no_file ls u); [|exact Hu].
      left. intros F. exact (F l Hl El E). }
    destruct (C94_written ls u Hd Hx) as (t1 & ise & is_ & Ht1 & Hf & _ & E1 & _ & _ & _ & Hrows & _).
    apply Hf in Hin. subst fs. cbn [fst]. assert (t1 = t0) as ->.
    { destruct Ht0 as [[n Hn] A], Ht1 as [[n1 Hn1] B]. apply A in Hn1. apply B in Hn. cbn [fst] in *. lia. }
    intros s n. unfold read_ise. rewrite in_map_iff, E1. split.
    - intros ([m n'] & E & Hin). cbn [fst snd] in E. injection E as <- ->. apply Hrows in Hin as (t & Ht & Hm). exists t. split; [exact Ht|]. lia.
    - intros (t & Ht & Hm). exists (s - t0, n). cbn [fst snd]. split; [f_equal; lia|]. apply Hrows. exists t. split; [exact Ht|]. lia.
  Qed.
End C94.

(* ------------------------------------------------------------ findings *)
(* a user who used application "a" for an hour at each of twelve hours *)
Definition hourly (p : text) (h0 dur : Z) (n : nat) : list (option (line nat)) :=
  map (fun i => Some {| l_user := 1%nat; l_process := p; l_times := Some (3600 * (h0 + Z.of_nat i), 3600 * (h0 + Z.of_nat i) + dur) |}) (seq 0 n).

Definition demo_log := hourly [97]%N 0 7 12.
Definition demo_twice := hourly [97]%N 0 7 12 ++ hourly [97; 95; 75]%N 0 7 12 ++ hourly [97]%N 0 70 12.
Definition demo_file : file nat :=
  {| f_user := 1%nat; f_start := 0; f_rows := map (fun i => (60 * Z.of_nat i, instant [97]%N)) (seq 0 12) |}.

(* An event is not read in its minute: events an hour apart are a minute apart. *)
Theorem C94_unit_refuted : exists (ls : list (option (line nat))) fs s n, In (1%nat, fs) (parse_all_user 10 ls)
  /\ In (s, n) (read_ise (fst fs)) /\ forall t, In (t, n) (events ls 1%nat) -> ~ (t - 60 < s <= t).
Proof.
  assert (exists fs, parse_all_user 10 demo_log = [(1%nat, (demo_file, fs))]) as (fs & E).
  { let v := eval vm_compute in (parse_all_user 10 demo_log) in
    match v with [(_, (_, ?f))] => exists f end. vm_compute. reflexivity. }
  exists demo_log, (demo_file, fs), 60, (instant [97]%N). split; [rewrite E; left; reflexivity|].
  split; [right; left; reflexivity|].
  assert (events demo_log 1%nat = map (fun i => (3600 * Z.of_nat i, instant [97]%N)) (seq 0 12)) as Ev by (vm_compute; reflexivity).
  intros t Ht. rewrite Ev in Ht. apply in_map_iff in Ht as (i & Ei & _). apply (f_equal fst) in Ei. cbn [fst] in Ei. lia.
Qed.

(* The file of started applications can list one twice in the same minute. *)
Theorem C94_twice_refuted : exists (ls : list (option (line nat))) fs x, In (1%nat, fs) (parse_all_user 10 ls)
  /\ (1 < count_occ eq_dec (f_rows (snd fs)) x)%nat.
Proof.
  assert (exists fs, parse_all_user 10 demo_twice = [(1%nat, fs)] /\ Nat.ltb 1 (count_occ eq_dec (f_rows (snd fs)) (0, [97]%N)) = true) as (fs & E & C).
  { let v := eval vm_compute in (parse_all_user 10 demo_twice) in
    match v with [(_, ?f)] => exists f end. split; vm_compute; reflexivity. }
  exists demo_twice, fs, (0, [97]%N). split; [rewrite E; left; reflexivity | apply Nat.ltb_lt, C].
Qed.

(* one unreadable date removes all that is known of a user *)
Example C94_case : dated (hourly [97]%N 0 7 12) 1%nat
  /\ (exists x, frequent 10 (hourly [97]%N 0 7 12) 1%nat x)
  /\ ~ dated (hourly [97]%N 0 7 12 ++ [Some {| l_user := 1%nat; l_process := [97]%N; l_times := None |}]) 1%nat.
Proof.
  split; [|split].
  - intros l Hl _. apply in_map_iff in Hl as (i & E & _). injection E as <-. discriminate.
  - exists (0, instant [97]%N). split; [left; reflexivity|]. apply Nat.ltb_lt. vm_compute. reflexivity.
  - intros F. refine (F {| l_user := 1%nat; l_process := [97]%N; l_times := None |} _ eq_refl eq_refl).
    apply in_or_app. right. left. reflexivity.
Qed.

Print Assumptions C94_no_file.
Print Assumptions C94_written.
Print Assumptions C94_read.
Print Assumptions C94_unit_refuted.
Print Assumptions C94_twice_refuted.
Print Assumptions C94_case.
