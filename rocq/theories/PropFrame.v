(* C106: tabular data and labels given to SLIM. *)
From Coq Require Import ZArith.
From Verif Require Import Prelude CheckModel LCMModel VerticalProofs SplitModel SlimModel SlimProofs PropSlim FrameModel.
From Coq Require Import Permutation.
Local Open Scope nat_scope.

(* ------------------------------------------------------------ specification *)
Section Spec.
  Context {A : Type} `{EqDec A}.
  (* the items of a row: the names of its columns with a true cell *)
  Definition row_items (names : list A) (row : list cell) : list A :=
    map fst (filter (fun nc => truthy (snd nc)) (combine names row)).
  Definition transactions (f : frame A) : list (list A) := map (row_items (f_names f)) (f_rows f).
  (* the rows a true label stands at *)
  Definition labelled (l : list cell) (rows : list (list cell)) : list (list cell) :=
    map snd (filter (fun lr => truthy (fst lr)) (combine l rows)).
  Definition chosen (y : labels) (f : frame A) : list (list A) :=
    match y with YArray l => map (row_items (f_names f)) (labelled l (f_rows f)) | _ => transactions f end.
  (* every true label stands at a row *)
  Definition enough_rows (l : list cell) (rows : list (list cell)) : Prop :=
    forall i c, nth_error l i = Some c -> truthy c = true -> i < length rows.
  Definition finite (f : frame A) : Prop := forall row c, In row (f_rows f) -> In c row -> exists z, c = Num z.
  Definition numeric (f : frame A) : Prop := ~ In true (f_object f).
  (* the columns and rows of a table, whatever its kind and its index *)
  Definition columns_and_rows (number : nat -> A) (D : table A) (names : list A) (objects : list bool) (rows : list (list cell)) : Prop :=
    match D with
    | DataFrame _ f => names = f_names f /\ objects = f_object f /\ rows = f_rows f
    | NdArray o w r => names = map number (seq 0 w) /\ objects = repeat o w /\ rows = r
    | Sparse w r => names = map number (seq 0 w) /\ objects = repeat false w /\ rows = r
    | OtherTable => False
    end.
End Spec.

Section Proofs.
  Context {A : Type} `{EqDec A} (number : nat -> A).

  Lemma existsb_false_all {X} (p : X -> bool) l : existsb p l = false <-> forall x, In x l -> p x = false.
  Proof.
    split.
    - intros E x Hx. destruct (p x) eqn:F; [|reflexivity]. assert (existsb p l = true) by (apply existsb_exists; eauto). congruence.
    - intros K. destruct (existsb p l) eqn:E; [|reflexivity]. apply existsb_exists in E. destruct E as (x & Hx & F). rewrite K in F by exact Hx. discriminate.
  Qed.
  Lemma null_finite (f : frame A) : existsb (existsb (is_null true)) (f_rows f) = false <-> finite f.
  Proof.
    rewrite existsb_false_all. unfold finite. split.
    - intros K row c Hr Hc. specialize (K row Hr). rewrite existsb_false_all in K. specialize (K c Hc). destruct c; try discriminate. eauto.
    - intros K row Hr. apply existsb_false_all. intros c Hc. destruct (K row c Hr Hc) as (z & ->). reflexivity.
  Qed.
  Lemma object_numeric (f : frame A) : existsb (fun o => o) (f_object f) = false <-> numeric f.
  Proof.
    rewrite existsb_false_all. unfold numeric. split.
    - intros K Hin. specialize (K true Hin). discriminate.
    - intros K [|] Hx; [destruct (K Hx)|reflexivity].
  Qed.
  Lemma as_frame_spec D f : as_frame number D = Ret f <-> columns_and_rows number D (f_names f) (f_object f) (f_rows f).
  Proof.
    destruct D as [ls g|o w rows|w rows|]; cbn [as_frame columns_and_rows].
    - split; [intros E; inversion E; auto|]. intros (E1 & E2 & E3). destruct f, g; cbn in *; subst; reflexivity.
    - split; [intros E; inversion E; cbn; auto|]. intros (E1 & E2 & E3). destruct f; cbn in *; subst; reflexivity.
    - split; [intros E; inversion E; cbn; auto|]. intros (E1 & E2 & E3). destruct f; cbn in *; subst; reflexivity.
    - split; [discriminate|intros []].
  Qed.

  (* ---- rows chosen by labels *)
  Lemma where_shift col : forall i, where_from (S i) col = map S (where_from i col).
  Proof. induction col as [|b col IH]; intros i; [reflexivity|]. cbn [where_from]. destruct b; cbn [map]; rewrite IH; reflexivity. Qed.
  Lemma map_out_map {X Y W} (g : X -> Y) (h : Y -> outcome W) l : map_out h (map g l) = map_out (fun x => h (g x)) l.
  Proof. induction l as [|x l IH]; [reflexivity|]. cbn [map map_out]. rewrite IH. reflexivity. Qed.
  Definition row_at (rows : list (list cell)) (i : nat) : outcome (list cell) :=
    match nth_error rows i with Some row => Ret row | None => Exn IndexError end.
  Lemma map_out_beyond l : map_out (row_at []) l = match l with [] => Ret [] | _ => Exn IndexError end.
  Proof. destruct l as [|[|i] l]; reflexivity. Qed.
  Lemma chosen_rows l : forall rows,
    (enough_rows l rows -> map_out (row_at rows) (where_from 0 (map truthy l)) = Ret (labelled l rows)) /\
    (~ enough_rows l rows -> map_out (row_at rows) (where_from 0 (map truthy l)) = Exn IndexError).
  Proof.
    induction l as [|c l IH]; intros rows.
    - split; [reflexivity|]. intros N. destruct N. intros [|i] c; discriminate.
    - assert (Hs : forall row rest, map_out (row_at (row :: rest)) (map S (where_from 0 (map truthy l))) = map_out (row_at rest) (where_from 0 (map truthy l)))
        by (intros; rewrite map_out_map; reflexivity).
      cbn [map where_from]. rewrite where_shift. destruct rows as [|row rows].
      + destruct (truthy c) eqn:Ec.
        * split; [|intros _; reflexivity]. intros E. specialize (E 0 c eq_refl Ec). cbn in E. lia.
        * rewrite map_out_map. replace (map_out (fun x => row_at [] (S x)) (where_from 0 (map truthy l))) with (map_out (row_at []) (where_from 0 (map truthy l))).
          -- destruct (IH []) as [Y N]. split.
             ++ intros E. rewrite Y; [destruct l; reflexivity|]. intros i c' Hi Ht. specialize (E (S i) c' Hi Ht). cbn in E. lia.
             ++ intros E. apply N. intros K. apply E. intros [|i] c' Hi Ht; [cbn in Hi; congruence|]. specialize (K i c' Hi Ht). cbn in K. lia.
          -- rewrite map_out_beyond. destruct (where_from 0 (map truthy l)) as [|x m]; reflexivity.
      + destruct (IH rows) as [Y N].
        assert (Hen : enough_rows (c :: l) (row :: rows) <-> enough_rows l rows).
        { split; intros E.
          - intros i c' Hi Ht. specialize (E (S i) c' Hi Ht). cbn in E. lia.
          - intros [|i] c' Hi Ht; [cbn; lia|]. specialize (E i c' Hi Ht). cbn. lia. }
        rewrite Hen. unfold labelled. cbn [combine filter fst map]. destruct (truthy c) eqn:Ec.
        * cbn [map_out map snd]. cbn [row_at nth_error bind]. rewrite Hs. split; intros E; [rewrite Y by exact E|rewrite N by exact E]; reflexivity.
        * rewrite Hs. split; [exact Y|exact N].
  Qed.
  Lemma enough_dec l rows : {enough_rows l rows} + {~ enough_rows l rows}.
  Proof.
    destruct (map_out (row_at rows) (where_from 0 (map truthy l))) as [r|e|] eqn:E.
    - left. destruct (forallb (fun i => i <? length rows) (where_from 0 (map truthy l))) eqn:F.
      + intros i c Hi Ht. rewrite forallb_forall in F. apply Nat.ltb_lt, F. apply where_from_In. split; [lia|]. rewrite Nat.sub_0_r.
        erewrite nth_error_nth; [|apply map_nth_error, Hi]. exact Ht.
      + exfalso. assert (X : forall m, map_out (row_at rows) m = Ret r -> forall i, In i m -> i < length rows).
        { clear. intros m. revert r. induction m as [|j m IH]; intros r E i Hi; [destruct Hi|]. cbn [map_out] in E. unfold row_at at 1 in E.
          destruct (nth_error rows j) as [row|] eqn:Ej; [|discriminate]. cbn [bind] in E. destruct (map_out (row_at rows) m) as [r'| |] eqn:Em; try discriminate.
          destruct Hi as [<-|Hi]; [apply nth_error_Some; congruence|eapply IH; [reflexivity|exact Hi]]. }
        assert (forallb (fun i => i <? length rows) (where_from 0 (map truthy l)) = true) by (apply forallb_forall; intros i Hi; apply Nat.ltb_lt; eapply X; eauto). congruence.
    - right. intros K. rewrite (proj1 (chosen_rows l rows) K) in E. discriminate.
    - right. intros K. rewrite (proj1 (chosen_rows l rows) K) in E. discriminate.
  Qed.

  (* ---- the vertical form *)
  Lemma items_In names row k : In k (row_items names row) <-> existsb (fun nc => eqd (fst nc) k && truthy (snd nc)) (combine names row) = true.
  Proof.
    unfold row_items. rewrite existsb_exists, in_map_iff. split.
    - intros ([n c] & <- & Hi). apply filter_In in Hi. destruct Hi as [Hi Ht]. exists (n, c). split; [exact Hi|]. cbn [fst snd] in *. rewrite Ht, andb_true_r. unfold eqd. destruct (eq_dec n n); [reflexivity|congruence].
    - intros ([n c] & Hi & Ht). apply andb_prop in Ht. cbn [fst snd] in Ht. destruct Ht as [E Ht]. unfold eqd in E. destruct (eq_dec n k) as [->|]; [|discriminate].
      exists (k, c). split; [reflexivity|]. apply filter_In. auto.
  Qed.
  Lemma col_tids_In (f : frame A) k t : In t (col_tids f k) <-> in_list (transactions f) t k.
  Proof.
    unfold col_tids, in_list, transactions. rewrite where_from_In, Nat.sub_0_r.
    set (g := fun row => existsb _ _). split.
    - intros [_ E]. destruct (nth_error (f_rows f) t) as [row|] eqn:Er.
      + erewrite nth_error_nth in E; [|apply map_nth_error, Er]. erewrite nth_error_nth; [|apply map_nth_error, Er]. apply items_In, E.
      + apply nth_error_None in Er. rewrite nth_overflow in E by (rewrite map_length; exact Er). discriminate.
    - intros Hin. split; [lia|]. destruct (nth_error (f_rows f) t) as [row|] eqn:Er.
      + erewrite nth_error_nth in Hin; [|apply map_nth_error, Er]. erewrite nth_error_nth; [|apply map_nth_error, Er]. apply items_In, Hin.
      + apply nth_error_None in Er. rewrite nth_overflow in Hin by (rewrite map_length; exact Er). destruct Hin.
  Qed.
  Lemma dkeys_dset_In {V} (d : dict A V) x v w : In w (dkeys (dset d x v)) <-> In w (dkeys d) \/ w = x.
  Proof.
    rewrite dkeys_dset. destruct (mem x (dkeys d)) eqn:E.
    - apply mem_In in E. split; [auto|]. intros [I| ->]; assumption.
    - rewrite in_app_iff. cbn [In]. split; intros [I|I]; intuition congruence.
  Qed.
  (* {k: v(k) for k in l} *)
  Lemma comprehension {V} (v : A -> V) l : forall d, d = map (fun k => (k, v k)) (dkeys d) -> NoDup (dkeys d) ->
    let d' := fold_left (fun d k => dset d k (v k)) l d in
    d' = map (fun k => (k, v k)) (dkeys d') /\ NoDup (dkeys d') /\ forall k, In k (dkeys d') <-> In k (dkeys d) \/ In k l.
  Proof.
    induction l as [|x l IH]; intros d Hd Hn; cbn [fold_left]; [cbn; tauto|].
    assert (Hd' : dset d x (v x) = map (fun k => (k, v k)) (dkeys (dset d x (v x)))).
    { clear IH Hn. induction d as [|[k w] d IHd]; [reflexivity|]. cbn [dset dkeys map fst] in *. injection Hd as -> Hd. fold (dkeys d) in *.
      destruct (eq_dec x k) as [->|N]; cbn [map fst].
      - f_equal. exact Hd.
      - f_equal. unfold dkeys in *. apply IHd, Hd. }
    destruct (IH _ Hd' (NoDup_dset d x (v x) Hn)) as (P1 & P2 & P3). split; [exact P1|]. split; [exact P2|]. intros k. rewrite P3, dkeys_dset_In. cbn [In]. intuition congruence.
  Qed.
  Definition as_cols (f : frame A) : list (A * list bool) :=
    map (fun k => (k, map (fun row => existsb (fun nc => eqd (fst nc) k && truthy (snd nc)) (combine (f_names f) row)) (f_rows f))) (dkeys (frame_dict f)).
  Lemma frame_dict_spec (f : frame A) : NoDup (dkeys (frame_dict f)) /\ (forall k, In k (dkeys (frame_dict f)) <-> In k (f_names f)) /\
    frame_dict f = tab_vertical (as_cols f).
  Proof.
    destruct (comprehension (col_tids f) (f_names f) [] eq_refl (NoDup_nil _)) as (P1 & P2 & P3). fold (frame_dict f) in *.
    split; [exact P2|]. split; [intros k; rewrite P3; cbn; tauto|]. unfold tab_vertical, as_cols. rewrite map_map. cbn [fst snd]. exact P1.
  Qed.
  Lemma transactions_names (f : frame A) t k : in_list (transactions f) t k -> In k (f_names f).
  Proof.
    unfold in_list, transactions. intros I. destruct (nth_error (f_rows f) t) as [row|] eqn:Er.
    - erewrite nth_error_nth in I; [|apply map_nth_error, Er]. unfold row_items in I. apply in_map_iff in I. destruct I as ([n c] & <- & I).
      apply filter_In in I. destruct I as [I _]. apply in_combine_l in I. exact I.
    - apply nth_error_None in Er. rewrite nth_overflow in I by (rewrite map_length; exact Er). destruct I.
  Qed.
  Lemma frame_tids (f : frame A) k t : In t (tids (frame_dict f) k) <-> in_list (transactions f) t k.
  Proof.
    destruct (frame_dict_spec f) as (P1 & P2 & P3). unfold tids. destruct (dget (frame_dict f) k) as [v|] eqn:E.
    - apply dget_In in E. rewrite P3 in E. unfold tab_vertical, as_cols in E. rewrite map_map in E. apply in_map_iff in E. destruct E as (k' & E & _). injection E as <- <-. cbn [fst snd]. apply col_tids_In.
    - apply dget_None in E. split; [intros []|]. intros I. destruct E. apply P2. eapply transactions_names, I.
  Qed.
  Lemma frame_has (f : frame A) t k : in_tab (as_cols f) t k <-> in_list (transactions f) t k.
  Proof.
    rewrite <- col_tids_In. unfold in_tab, as_cols, col_tids. rewrite where_from_In, Nat.sub_0_r. split.
    - intros (col & Hi & Ht). apply in_map_iff in Hi. destruct Hi as (k' & E & _). injection E as -> <-. split; [lia|exact Ht].
    - intros [_ Ht]. eexists. split; [|exact Ht]. apply in_map_iff. exists k. split; [reflexivity|]. apply frame_dict_spec.
      apply (transactions_names f t). apply col_tids_In. unfold col_tids. apply where_from_In. rewrite Nat.sub_0_r. split; [lia|exact Ht].
  Qed.
  Lemma check_D_frame D s f s' : check_D number D s = (Ret f, s') -> as_frame number D = Ret f /\ numeric f /\ f_names f <> [] /\ finite f /\ s' = false.
  Proof.
    unfold check_D. destruct (as_frame number D) as [g|e|]; try (intros E; discriminate E). unfold check_D_sklearn.
    destruct (existsb (fun o => o) (f_object g)) eqn:E1; [intros E; discriminate E|].
    destruct (length (f_names g) =? 0)%nat eqn:E2; [intros E; discriminate E|].
    destruct (existsb (existsb (is_null true)) (f_rows g)) eqn:E3; [intros E; discriminate E|]. cbn [bind]. intros E. injection E as -> <-.
    split; [reflexivity|]. split; [apply object_numeric, E1|]. split; [intros K; rewrite K in E2; discriminate|]. split; [apply null_finite, E3|reflexivity].
  Qed.
  Lemma supervised_spec (f : frame A) y : match y with
    | YNone => supervised_to_unsupervised f y = Ret f
    | YOther => supervised_to_unsupervised f y = Exn AttributeError
    | YArray l => (enough_rows l (f_rows f) -> supervised_to_unsupervised f y = Ret {| f_names := f_names f; f_object := f_object f; f_rows := labelled l (f_rows f) |}) /\
                  (~ enough_rows l (f_rows f) -> supervised_to_unsupervised f y = Exn IndexError)
    end.
  Proof.
    destruct y as [|l|]; try reflexivity. destruct (chosen_rows l (f_rows f)) as [Y N]. cbn [supervised_to_unsupervised].
    split; intros E; [rewrite (Y E : map_out (fun i => _) _ = _)|rewrite (N E : map_out (fun i => _) _ = _)]; reflexivity.
  Qed.
  Lemma supervised_ret (f f' : frame A) y : supervised_to_unsupervised f y = Ret f' -> f_names f' = f_names f /\ transactions f' = chosen y f.
  Proof.
    pose proof (supervised_spec f y) as S. destruct y as [|l|].
    - rewrite S. intros E; injection E as <-. auto.
    - destruct S as [Y N]. destruct (enough_dec l (f_rows f)) as [K|K]; [rewrite (Y K)|rewrite (N K); discriminate]. intros E; injection E as <-. auto.
    - rewrite S. discriminate.
  Qed.
End Proofs.

(* ------------------------------------------------------------ the property *)
(* a cell or a label is true unless it is the number zero *)
Theorem C106_cells : forall c, truthy c = true <-> c <> Num 0.
Proof.
  intros [z| |]; cbn [truthy]; try (split; [discriminate|reflexivity]). destruct (Z.eqb_spec z 0) as [->|N]; cbn [negb]; split; congruence.
Qed.
Section Table.
  Context {A : Type} `{EqDec A} (number : nat -> A).

  (* which tables are accepted: those with at least one column and finite numbers only, of
     whatever kind and whatever the index; they are taken as they are.  The others raise
     TypeError or ValueError *)
  Theorem C106_check : forall D s,
    match D with
    | OtherTable => fst (check_D number D s) = Exn TypeError
    | _ => forall f, columns_and_rows number D (f_names f) (f_object f) (f_rows f) ->
        (numeric f -> f_names f <> [] -> finite f -> fst (check_D number D s) = Ret f) /\
        (~ numeric f -> fst (check_D number D s) = Exn TypeError) /\
        (numeric f -> (f_names f = [] \/ ~ finite f) -> fst (check_D number D s) = Exn ValueError)
    end.
  Proof.
    intros D s. assert (K : forall f, columns_and_rows number D (f_names f) (f_object f) (f_rows f) ->
        (numeric f -> f_names f <> [] -> finite f -> fst (check_D number D s) = Ret f) /\
        (~ numeric f -> fst (check_D number D s) = Exn TypeError) /\
        (numeric f -> (f_names f = [] \/ ~ finite f) -> fst (check_D number D s) = Exn ValueError)).
    { intros f E. apply as_frame_spec in E. unfold check_D. rewrite E. unfold check_D_sklearn.
      pose proof (object_numeric f) as On. pose proof (null_finite f) as Nf.
      destruct (existsb (fun o => o) (f_object f)).
      - split; [intros N; apply On in N; discriminate|]. split; [reflexivity|]. intros N; apply On in N; discriminate.
      - assert (N : numeric f) by (apply On; reflexivity). split; [|split; [tauto|]].
        + intros _ Hn Hf. apply Nf in Hf. destruct (length (f_names f) =? 0)%nat eqn:E2; [apply Nat.eqb_eq, length_zero_iff_nil in E2; congruence|]. rewrite Hf. reflexivity.
        + intros _ Hk. destruct (length (f_names f) =? 0)%nat eqn:E2; [reflexivity|]. destruct Hk as [Hk|Hk]; [rewrite Hk in E2; discriminate|].
          destruct (existsb (existsb (is_null true)) (f_rows f)); [reflexivity|]. destruct Hk. apply Nf. reflexivity. }
    destruct D; [apply K|apply K|apply K|reflexivity].
  Qed.

  (* the items of a fit are the columns, and the transactions are the rows at which a true
     label stands, numbered from 0, or all rows without labels *)
  Theorem C106_rows : forall D y s d s', prefit_table number D y s = (Ret d, s') ->
    exists f, columns_and_rows number D (f_names f) (f_object f) (f_rows f) /\
      NoDup (dkeys d) /\ (forall k, In k (dkeys d) <-> In k (f_names f)) /\
      forall k t, In t (tids d k) <-> in_list (chosen y f) t k.
  Proof.
    intros D y s d s' E. unfold prefit_table in E. destruct (check_D number D s) as [r s1] eqn:Ec. destruct r as [f|e|]; cbn [bind] in E; try discriminate.
    destruct (check_D_frame number _ _ _ _ Ec) as (Ef & _). apply as_frame_spec in Ef. exists f. split; [exact Ef|].
    destruct (supervised_to_unsupervised f y) as [f'|e|] eqn:Es; cbn [bind] in E; try discriminate. injection E as <- <-.
    apply supervised_ret in Es. destruct Es as [En Et]. destruct (frame_dict_spec f') as (P1 & P2 & _). rewrite En in P2. split; [exact P1|]. split; [exact P2|].
    intros k t. rewrite frame_tids, Et. reflexivity.
  Qed.
  (* when it succeeds, and what it raises otherwise *)
  Theorem C106_labels : forall D y s f, fst (check_D number D s) = Ret f ->
    match y with
    | YNone => exists d, fst (prefit_table number D y s) = Ret d
    | YOther => fst (prefit_table number D y s) = Exn AttributeError
    | YArray l => (enough_rows l (f_rows f) -> exists d, fst (prefit_table number D y s) = Ret d) /\
                  (~ enough_rows l (f_rows f) -> fst (prefit_table number D y s) = Exn IndexError)
    end.
  Proof.
    intros D y s f E. unfold prefit_table. destruct (check_D number D s) as [r s1]. cbn [fst] in E. subst r. cbn [bind].
    pose proof (supervised_spec f y) as S. destruct y as [|l|]; cbn [fst].
    - rewrite S. eexists. reflexivity.
    - destruct S as [Y N]. split; intros K; [rewrite (Y K); eexists; reflexivity|rewrite (N K); reflexivity].
    - rewrite S. reflexivity.
  Qed.
  (* labels that are all true, one for every row, change nothing *)
  Theorem C106_all_true : forall D s l f, columns_and_rows number D (f_names f) (f_object f) (f_rows f) ->
    length l = length (f_rows f) -> (forall c, In c l -> truthy c = true) ->
    prefit_table number D (YArray l) s = prefit_table number D YNone s.
  Proof.
    intros D s l f E El Ht. apply as_frame_spec in E. unfold prefit_table. destruct (check_D number D s) as [r s1] eqn:Ec. f_equal.
    destruct r as [g|e|]; try reflexivity. cbn [bind]. destruct (check_D_frame number _ _ _ _ Ec) as (Ef & _). assert (g = f) by congruence. subst g.
    destruct (supervised_spec f (YArray l)) as [Y _]. rewrite Y.
    - cbn [supervised_to_unsupervised bind]. do 2 f_equal. destruct f as [n o rows]. cbn [f_names f_object f_rows] in *. f_equal. clear - El Ht. revert rows El.
      unfold labelled. induction l as [|c l IH]; intros [|row rows] El; try discriminate; [reflexivity|]. cbn [combine filter fst]. rewrite Ht by (left; reflexivity).
      cbn [map snd]. f_equal. apply IH; [intros x Hx; apply Ht; right; exact Hx|cbn in El; lia].
    - intros i c Hi _. rewrite <- El. apply nth_error_Some. congruence.
  Qed.
  (* the pandas setting afterwards, whatever it was before: switched off by a success, switched
     on by a value that is no finite number, left alone otherwise *)
  Theorem C106_setting : forall D y s,
    (forall f, fst (check_D number D s) = Ret f -> snd (prefit_table number D y s) = false) /\
    (forall f, columns_and_rows number D (f_names f) (f_object f) (f_rows f) -> numeric f -> f_names f <> [] -> ~ finite f -> snd (prefit_table number D y s) = true) /\
    (forall f, columns_and_rows number D (f_names f) (f_object f) (f_rows f) -> ~ numeric f \/ f_names f = [] -> snd (prefit_table number D y s) = s).
  Proof.
    intros D y s. assert (S : snd (prefit_table number D y s) = snd (check_D number D s)) by (unfold prefit_table; destruct (check_D number D s); reflexivity).
    rewrite S. split; [|split].
    - intros f E. destruct (check_D number D s) as [r s1] eqn:Ec. cbn [fst snd] in *. subst r. apply check_D_frame in Ec. tauto.
    - intros f E N Hn Hf. apply as_frame_spec in E. unfold check_D. rewrite E. unfold check_D_sklearn.
      apply object_numeric in N. rewrite N. destruct (length (f_names f) =? 0)%nat eqn:E2; [apply Nat.eqb_eq, length_zero_iff_nil in E2; congruence|].
      destruct (existsb (existsb (is_null true)) (f_rows f)) eqn:E3; [reflexivity|]. destruct Hf. apply null_finite, E3.
    - intros f E K. apply as_frame_spec in E. unfold check_D. rewrite E. unfold check_D_sklearn.
      destruct (existsb (fun o => o) (f_object f)) eqn:E1; [reflexivity|]. destruct K as [K|K]; [destruct K; apply object_numeric, E1|]. rewrite K. reflexivity.
  Qed.
End Table.

(* SLIM fitted on a table is lossless for the rows chosen by the labels *)
Section Fit.
  Context {A : Type} `{EqDec A} {T : Type} (total : ktable A (list nat) -> T) (tlt : T -> T -> bool).
  Context (tlt_trans : forall t1 t2 t3, tlt t1 t2 = true -> tlt t2 t3 = true -> tlt t1 t3 = true).
  Context (ord : list A -> list A -> bool).
  Context (iter : list (list A) -> list (list A)) (iter_perm : forall l, Permutation (iter l) l).
  Context {G : Type} (gain : ktable A (list nat) -> list A -> list A -> G)
          (gpos : G -> bool) (gge : G -> G -> bool).
  Context (reorder : ktable A (list nat) -> ktable A (list nat)) (reorder_perm : forall c, Permutation (reorder c) c).
  Theorem C106_lossless : forall number D y s d s' items s0 late fuel pruning st, NoDup items ->
    prefit_table number D y s = (Ret d, s') ->
    fit_loop total tlt ord iter gain gpos gge reorder late fuel 0 pruning (prefit ord d items s0) = Ret st ->
    exists f, columns_and_rows number D (f_names f) (f_object f) (f_rows f) /\ exact_cover (in_list (chosen y f)) (ct st).
  Proof.
    intros number D y s d s' items s0 late fuel pruning st Hi E F. unfold prefit_table in E. destruct (check_D number D s) as [r s1] eqn:Ec. destruct r as [f|e|]; cbn [bind] in E; try discriminate.
    destruct (check_D_frame number _ _ _ _ Ec) as (Ef & _). apply as_frame_spec in Ef. exists f. split; [exact Ef|].
    destruct (supervised_to_unsupervised f y) as [f'|e|] eqn:Es; cbn [bind] in E; try discriminate. injection E as <- <-.
    apply supervised_ret in Es. destruct Es as [En Et]. destruct (frame_dict_spec f') as (P1 & P2 & P3). rewrite P3 in F.
    assert (W : well_named (Tab (as_cols f')) items).
    { split; [exact Hi|]. unfold as_cols. rewrite map_map. cbn [fst]. rewrite map_id. exact P1. }
    pose proof (C13_fit_lossless total tlt tlt_trans ord iter iter_perm gain gpos gge reorder reorder_perm (Tab (as_cols f')) items s0 late fuel pruning st W F) as (L1 & L2).
    split; [|exact L2]. intros t x. rewrite <- L1. cbn [has]. rewrite frame_has, Et. reflexivity.
  Qed.
End Fit.

Definition three_rows : frame nat := {| f_names := [1; 2; 3]; f_object := [false; false; false];
  f_rows := [[Num 1; Num 0; Num 1]; [Num 1; Num 1; Num 0]; [Num 0; Num 1; Num 0]]%Z |}.
Definition with_inf : frame nat := {| f_names := [1]; f_object := [false]; f_rows := [[Num 1]; [Inf]]%Z |}.
(* SLIM.fit says of y "Ignored. Not used": on tables it drops the rows with a zero label *)
Theorem C106_ignored_refuted : exists D l s, length l = 3%nat /\
  prefit_table (fun n => n) D (YArray l) s <> prefit_table (fun n => n) D YNone s.
Proof. exists (DataFrame [7; 7; 9]%Z three_rows), [Num 1; Num 0; Num 1]%Z, false. split; [reflexivity|]. vm_compute. discriminate. Qed.
(* fewer labels than rows are accepted, and the last rows are lost without a message *)
Theorem C106_short_refuted : exists D l s d s', columns_and_rows (fun n => n) D (f_names three_rows) (f_object three_rows) (f_rows three_rows) /\
  length l < length (f_rows three_rows) /\ prefit_table (fun n => n) D (YArray l) s = (Ret d, s') /\ tids d 2 = [1] /\ tids d 3 = [0].
Proof.
  exists (DataFrame [0; 1; 2]%Z three_rows), [Num 1; Num 1]%Z, false. eexists _, _. split; [cbn; auto|]. split; [cbn; lia|]. split; [vm_compute; reflexivity|]. split; vm_compute; reflexivity.
Qed.
(* the setting of the caller is not kept: a failure switches it on, a success off *)
Theorem C106_setting_refuted :
  (exists D, prefit_table (fun n => n) D YNone false = (Exn ValueError, true)) /\
  (exists D d, prefit_table (fun n => n) D YNone true = (Ret d, false)).
Proof. split; [exists (DataFrame [0; 1]%Z with_inf); vm_compute; reflexivity|exists (DataFrame [0; 1; 2]%Z three_rows); eexists; vm_compute; reflexivity]. Qed.

Example C106_case :
  prefit_table (fun n => n) (DataFrame [5; 5; 5]%Z three_rows) (YArray [Num 0; NaN; Num 1]%Z) true = (Ret [(1, [0]); (2, [0; 1]); (3, [])], false) /\
  chosen (YArray [Num 0; NaN; Num 1]%Z) three_rows = [[1; 2]; [2]] /\
  fst (prefit_table (fun n => n) (NdArray false 2 [[Num 1; Num 0]; [Num 1; Num 1]]%Z) YNone false) = Ret [(0, [0; 1]); (1, [1])] /\
  fst (prefit_table (fun n => n) (NdArray true 2 [[Num 1; Num 0]]%Z) YNone false) = Exn TypeError /\
  fst (prefit_table (fun n => n) (DataFrame [0]%Z {| f_names := [4; 4]; f_object := [false; false]; f_rows := [[Num 0; Num 2]; [Num 0; Num 0]; [Num 1; Num 1]]%Z |}) YNone false) = Ret [(4, [0; 2])] /\
  fst (prefit_table (fun n => n) (DataFrame [0; 1; 2]%Z three_rows) (YArray [Num 0; Num 0; Num 0; Num 1]%Z) false) = Exn IndexError.
Proof. repeat split. Qed.

Print Assumptions C106_cells.
Print Assumptions C106_check.
Print Assumptions C106_rows.
Print Assumptions C106_labels.
Print Assumptions C106_all_true.
Print Assumptions C106_setting.
Print Assumptions C106_lossless.
Print Assumptions C106_ignored_refuted.
Print Assumptions C106_short_refuted.
Print Assumptions C106_setting_refuted.
