(* C28, C29: array helpers. *)
From Verif Require Import Prelude CheckModel SlimAppsModel PropSlimApps ArrayModel.
Local Open Scope Z_scope.

(* ------------------------------------------------------------------- C28 *)
(* offset in memory of the item at index [idx] *)
Fixpoint offset (strides idx : list Z) : Z :=
  match strides, idx with
  | s :: ss, i :: is => s * i + offset ss is
  | _, _ => 0
  end.
(* [idx] is a valid index of an array of that shape *)
Definition inside (shape idx : list Z) : Prop := Forall2 (fun n i => 0 <= i < n) shape idx.
(* the index in x of the item at position [j] of the window starting at [i]:
   every windowed axis is shifted by the window index *)
Fixpoint shifted (i : list Z) (axes : list nat) (j : list Z) : list Z :=
  match axes, j with
  | ax :: axs, v :: js => shifted (adjust i ax (fun x => x + v)) axs js
  | _, _ => i
  end.

Lemma adjust_length l : forall i f, length (adjust l i f) = length l.
Proof. induction l as [|x l IH]; intros [|i] f; simpl; auto. Qed.
Lemma adjust_nth l : forall i f d k, (i < length l)%nat ->
  nth k (adjust l i f) d = if (k =? i)%nat then f (nth i l d) else nth k l d.
Proof.
  induction l as [|x l IH]; intros [|i] f d [|k] Hi; simpl in *; try lia; try reflexivity.
  apply IH; lia.
Qed.
Lemma offset_adjust strides : forall i ax v, (ax < length i)%nat -> length i = length strides ->
  offset strides (adjust i ax (fun x => x + v)) = offset strides i + nth ax strides 0 * v.
Proof.
  induction strides as [|s ss IH]; intros [|x i] ax v Hax Hl; simpl in *; try lia.
  destruct ax as [|ax]; [simpl; ring|].
  cbn [adjust offset nth]; rewrite (IH i ax v) by lia; ring.
Qed.
Lemma offset_app s1 s2 : forall i1 i2, length s1 = length i1 ->
  offset (s1 ++ s2) (i1 ++ i2) = offset s1 i1 + offset s2 i2.
Proof.
  induction s1 as [|s s1 IH]; intros [|x i1] i2 Hl; simpl in *; try lia; rewrite IH by lia; lia.
Qed.
Lemma offset_shifted strides axes : forall i j, length i = length strides -> length axes = length j ->
  (forall ax, In ax axes -> (ax < length strides)%nat) ->
  offset strides (shifted i axes j) = offset strides i + offset (map (fun ax => nth ax strides 0) axes) j.
Proof.
  induction axes as [|ax axes IH]; intros i [|v j] Hi Hl Hax; simpl in *; try lia.
  rewrite IH; [|rewrite adjust_length; exact Hi | lia | intros a Ha; apply Hax; right; exact Ha].
  rewrite offset_adjust; [ring | rewrite Hi; apply Hax; left; reflexivity | exact Hi].
Qed.
Lemma inside_nth shape idx : inside shape idx <-> length idx = length shape /\
  forall k, (k < length shape)%nat -> 0 <= nth k idx 0 < nth k shape 0.
Proof.
  unfold inside; split.
  - induction 1 as [|n i ns is Hi Hr [IH1 IH2]]; simpl; [split; [reflexivity | intros k Hk; lia]|].
    split; [lia|]; intros [|k] Hk; [exact Hi | apply IH2; lia].
  - revert idx; induction shape as [|n ns IH]; intros [|i is] [Hl Hk]; simpl in Hl; try discriminate; constructor.
    + apply (Hk 0%nat); simpl; lia.
    + apply IH; split; [lia|]; intros k Hk'; apply (Hk (S k)); simpl; lia.
Qed.
Lemma trim_inside axes : forall shape window trimmed i j,
  trim shape (combine axes window) = Ret trimmed -> length axes = length window ->
  (forall ax, In ax axes -> (ax < length shape)%nat) ->
  inside trimmed i -> inside window j -> inside shape (shifted i axes j).
Proof.
  induction axes as [|ax axes IH]; intros shape [|w window] trimmed i j E Hl Hax Hi Hj; simpl in *; try discriminate.
  - injection E as <-; inversion Hj; subst; exact Hi.
  - destruct (Z.ltb_spec (nth ax shape 0) w) as [|Hge]; [discriminate|].
    inversion Hj as [|n v ns js Hv Hj']; subst.
    assert (Haxl : (ax < length shape)%nat) by (apply Hax; left; reflexivity).
    assert (IH' : inside (adjust shape ax (fun s => s - (w - 1))) (shifted i axes js)).
    { eapply IH; [exact E | lia | | exact Hi | exact Hj']. intros a Ha; rewrite adjust_length; apply Hax; right; exact Ha. }
    assert (Hsh : forall axes js i, length axes = length js -> (ax < length i)%nat ->
              (forall a, In a axes -> (a < length i)%nat) ->
              shifted (adjust i ax (fun x => x + v)) axes js = adjust (shifted i axes js) ax (fun x => x + v)).
    { clear; induction axes as [|a axes IHa]; intros [|u js] i Hl Hlt Ha; simpl in *; try lia; try reflexivity.
      rewrite <- IHa; [|lia | rewrite adjust_length; exact Hlt | intros b Hb; rewrite adjust_length; apply Ha; right; exact Hb].
      f_equal; apply (nth_ext _ _ 0 0); [rewrite !adjust_length; reflexivity|].
      intros k _; assert (Hal : (a < length i)%nat) by (apply Ha; left; reflexivity).
      rewrite !adjust_nth by (rewrite ?adjust_length; assumption).
      destruct (Nat.eqb_spec k a), (Nat.eqb_spec k ax), (Nat.eqb_spec a ax), (Nat.eqb_spec ax a); subst; try congruence; lia. }
    apply inside_nth in IH'; destruct IH' as [L1 N1]; rewrite adjust_length in L1, N1.
    assert (Hli : length i = length shape).
    { clear -L1; revert i L1; revert js; induction axes as [|a axes IHa]; intros [|u js] i L1; simpl in L1; try exact L1.
      apply IHa in L1; rewrite adjust_length in L1; exact L1. }
    assert (Hlj : length axes = length js).
    { apply inside_nth in Hj'; destruct Hj' as [L2 _]; lia. }
    rewrite Hsh; [|exact Hlj | lia | intros a Ha; rewrite Hli; apply Hax; right; exact Ha].
    apply inside_nth; split; [rewrite adjust_length; exact L1|].
    intros k Hk; specialize (N1 k Hk); rewrite adjust_nth in N1 by exact Haxl.
    rewrite adjust_nth by (rewrite L1; exact Haxl).
    destruct (Nat.eqb_spec k ax) as [e|]; [rewrite e in *|]; lia.
Qed.
Lemma normalize_lt n a : forall axes, normalize n a = Ret axes -> forall ax, In ax axes -> (ax < n)%nat.
Proof.
  induction a as [|x a IH]; intros axes E; cbn [normalize] in E; [injection E as <-; intros ax []|].
  set (x' := if x <? 0 then x + Z.of_nat n else x) in *.
  destruct (Z.ltb_spec x' 0); simpl in E; [discriminate|].
  destruct (Z.leb_spec (Z.of_nat n) x'); [discriminate|].
  destruct (normalize n a) as [r| |]; simpl in E; try discriminate.
  injection E as <-; intros ax [<-|Hax]; [lia | apply (IH r eq_refl ax Hax)].
Qed.
Lemma Forall2_len {B C} (R : B -> C -> Prop) l1 l2 : Forall2 R l1 l2 -> length l1 = length l2.
Proof. induction 1; simpl; auto. Qed.
Lemma trim_length l : forall shape t, trim shape l = Ret t -> length t = length shape.
Proof.
  induction l as [|[ax d] l IH]; intros shape t E; simpl in E; [injection E as <-; reflexivity|].
  destruct (_ <? d); [discriminate|]; rewrite (IH _ _ E); apply adjust_length.
Qed.

(* every index of the view denotes the item of x shifted by the window index, and that
   item is inside x; any number of dimensions, any axes, repeated or not *)
Theorem C28_view_items : forall shape strides window axis vshape vstrides,
  length strides = length shape ->
  sliding_window_view shape strides window axis = Ret (vshape, vstrides) ->
  exists axes,
    match axis with
    | None => axes = seq 0 (length shape)
    | Some a => map Z.of_nat axes = map (fun x => if x <? 0 then x + Z.of_nat (length shape) else x) a
    end /\ length axes = length window /\ length vstrides = length vshape /\
    forall idx, inside vshape idx -> exists i j, idx = i ++ j /\ length i = length shape /\ length j = length window /\
      inside shape (shifted i axes j) /\ offset vstrides idx = offset strides (shifted i axes j).
Proof.
  intros shape strides window axis vshape vstrides Hl E; unfold sliding_window_view in E.
  destruct (existsb (fun w => w <? 0) window) eqn:En; [discriminate|].
  assert (Haxes : exists axes, (match axis with None => Ret (seq 0 (length shape)) | Some a => normalize (length shape) a end) = Ret axes
             /\ (forall ax, In ax axes -> (ax < length shape)%nat)
             /\ match axis with None => axes = seq 0 (length shape)
                | Some a => map Z.of_nat axes = map (fun x => if x <? 0 then x + Z.of_nat (length shape) else x) a end).
  { destruct axis as [a|].
    - destruct (normalize (length shape) a) as [axes| |] eqn:Ea; simpl in E; try discriminate.
      exists axes; split; [reflexivity|]; split; [apply (normalize_lt _ _ _ Ea)|].
      clear -Ea; revert axes Ea; induction a as [|x a IH]; intros axes Ea; cbn [normalize] in Ea; [injection Ea as <-; reflexivity|].
      cbn [map]; set (x' := if x <? 0 then x + Z.of_nat (length shape) else x) in *.
      destruct (Z.ltb_spec x' 0); simpl in Ea; [discriminate|].
      destruct (Z.leb_spec (Z.of_nat (length shape)) x'); [discriminate|].
      destruct (normalize (length shape) a) as [r| |]; simpl in Ea; try discriminate.
      injection Ea as <-; cbn [map]; rewrite (IH r eq_refl); f_equal; lia.
    - exists (seq 0 (length shape)); split; [reflexivity|]; split; [|reflexivity].
      intros ax Hax; apply in_seq in Hax; lia. }
  destruct Haxes as [axes [Ea [Hlt Hspec]]]; rewrite Ea in E; cbn [bind] in E.
  destruct (Nat.eqb_spec (length window) (length axes)) as [Hlw|]; [|discriminate]; cbn [negb] in E.
  destruct (trim shape (combine axes window)) as [trimmed| |] eqn:Et; cbn [bind] in E; try discriminate.
  injection E as <- <-; exists axes; split; [exact Hspec|]; split; [auto|].
  pose proof (trim_length _ _ _ Et) as Htl.
  split; [rewrite !app_length, map_length; lia|].
  intros idx Hidx; unfold inside in Hidx; apply Forall2_app_inv_l in Hidx; destruct Hidx as [i [j [Hi [Hj ->]]]].
  pose proof (Forall2_len _ _ _ Hi) as Li; pose proof (Forall2_len _ _ _ Hj) as Lj.
  exists i, j; split; [reflexivity|]; split; [lia|]; split; [lia|]; split.
  - eapply trim_inside; [exact Et | lia | exact Hlt | exact Hi | exact Hj].
  - rewrite offset_app, offset_shifted; [reflexivity | lia | lia | rewrite Hl; exact Hlt | lia].
Qed.
Print Assumptions C28_view_items.

(* when it raises, and the shape of the result: one dimension *)
Theorem C28_one_dimension : forall n stride w, 0 <= n ->
  sliding_window_view [n] [stride] [w] None =
    if (w <? 0) || (n <? w) then Exn ValueError else Ret ([n - w + 1; w], [stride; stride]).
Proof.
  intros n stride w Hn; unfold sliding_window_view; simpl.
  destruct (Z.ltb_spec w 0) as [|Hw]; simpl; [reflexivity|].
  destruct (Z.ltb_spec n w) as [|Hle]; simpl; [reflexivity|].
  do 3 f_equal; lia.
Qed.
(* windows over every axis: accepted exactly when there is one window per dimension and
   each is between 0 and the size of its dimension; ValueError otherwise *)
Lemma trim_all shape : forall pre window, length shape = length window ->
  (forall w, In w window -> 0 <= w) ->
  (Forall2 (fun n w => w <= n) shape window /\
   trim (pre ++ shape) (combine (seq (length pre) (length shape)) window) =
     Ret (pre ++ map (fun p => fst p - snd p + 1) (combine shape window))) \/
  (~ Forall2 (fun n w => w <= n) shape window /\
   trim (pre ++ shape) (combine (seq (length pre) (length shape)) window) = Exn ValueError).
Proof.
  induction shape as [|n shape IH]; intros pre [|w window] Hl Hp; simpl in Hl; try discriminate.
  - left; split; [constructor | reflexivity].
  - cbn [length seq combine trim]; rewrite app_nth2, Nat.sub_diag by lia; cbn [nth].
    destruct (Z.ltb_spec n w) as [Hlt|Hge].
    + right; split; [intros Hf; inversion Hf; lia | reflexivity].
    + assert (Ea : adjust (pre ++ n :: shape) (length pre) (fun s => s - (w - 1)) = (pre ++ [n - w + 1]) ++ shape).
      { clear -pre; induction pre as [|q pre IHp]; simpl; [f_equal; lia | f_equal; exact IHp]. }
      rewrite Ea.
      replace (S (length pre)) with (length (pre ++ [n - w + 1])) by (rewrite app_length; simpl; lia).
      destruct (IH (pre ++ [n - w + 1]) window) as [[Hf E]|[Hf E]]; [lia | intros u Hu; apply Hp; right; exact Hu| |];
        rewrite E; [left | right]; (split; [|try reflexivity]).
      * constructor; assumption.
      * rewrite <- app_assoc; reflexivity.
      * intros Hf'; inversion Hf'; contradiction.
Qed.
Theorem C28_all_axes : forall shape strides window,
  (Forall2 (fun n w => 0 <= w <= n) shape window /\
   sliding_window_view shape strides window None =
     Ret (map (fun p => fst p - snd p + 1) (combine shape window) ++ window,
          strides ++ map (fun ax => nth ax strides 0) (seq 0 (length shape)))) \/
  (~ Forall2 (fun n w => 0 <= w <= n) shape window /\
   sliding_window_view shape strides window None = Exn ValueError).
Proof.
  intros shape strides window; unfold sliding_window_view.
  destruct (existsb (fun w => w <? 0) window) eqn:En.
  - right; split; [|reflexivity]; intros Hf; apply existsb_exists in En; destruct En as [w [Hw Hn]].
    apply Z.ltb_lt in Hn; clear -Hf Hw Hn; induction Hf as [|n v ns vs H1 H2 IH]; [destruct Hw|].
    destruct Hw as [->|Hw]; [lia | apply IH, Hw].
  - assert (Hp : forall w, In w window -> 0 <= w).
    { intros w Hw; destruct (Z.ltb_spec w 0) as [Hlt|]; [|assumption].
      assert (existsb (fun w => w <? 0) window = true) by (apply existsb_exists; exists w; split; [exact Hw | apply Z.ltb_lt, Hlt]). congruence. }
    cbn [bind]; rewrite seq_length; destruct (Nat.eqb_spec (length window) (length shape)) as [Hl|Hl]; cbn [negb].
    + destruct (trim_all shape [] window) as [[Hf E]|[Hf E]]; [lia | exact Hp | |]; cbn [app length] in E; rewrite E; [left | right].
      * split; [|reflexivity]; clear -Hf Hp; induction Hf; constructor; [split; [apply Hp; left; reflexivity | assumption]|].
        apply IHHf; intros w Hw; apply Hp; right; exact Hw.
      * split; [|reflexivity]; intros Hf'; apply Hf; clear -Hf'; induction Hf'; constructor; [lia | assumption].
    + right; split; [|reflexivity]; intros Hf; apply Forall2_len in Hf; lia.
Qed.
Print Assumptions C28_all_axes.
(* row i of the view is x[i : i+w] *)
Theorem C28_rows : forall (B : Type) (x : list B) (d : B) (w : nat), (w <= length x)%nat ->
  exists vshape vstrides, sliding_window_view [Z.of_nat (length x)] [1] [Z.of_nat w] None = Ret (vshape, vstrides) /\
    vshape = [Z.of_nat (length x - w + 1); Z.of_nat w] /\
    forall i, (i < length x - w + 1)%nat ->
      map (fun j => nth (Z.to_nat (offset vstrides [Z.of_nat i; Z.of_nat j])) x d) (seq 0 w) = firstn w (skipn i x).
Proof.
  intros B x d w Hw; rewrite C28_one_dimension by lia.
  destruct (Z.ltb_spec (Z.of_nat w) 0); [lia|]; destruct (Z.ltb_spec (Z.of_nat (length x)) (Z.of_nat w)); [lia|].
  eexists; eexists; split; [reflexivity|]; split; [repeat f_equal; lia|].
  intros i Hi; apply (nth_ext _ _ d d).
  - rewrite map_length, seq_length, firstn_length, skipn_length; lia.
  - intros k Hk; rewrite map_length, seq_length in Hk.
    rewrite (nth_indep _ d (nth (Z.to_nat (offset [1; 1] [Z.of_nat i; Z.of_nat 0])) x d)) by (rewrite map_length, seq_length; exact Hk).
    rewrite (map_nth (fun j => nth (Z.to_nat (offset [1; 1] [Z.of_nat i; Z.of_nat j])) x d)), seq_nth by exact Hk.
    replace (Z.to_nat (offset [1; 1] [Z.of_nat i; Z.of_nat (0 + k)])) with (i + k)%nat by (cbn [offset]; lia).
    assert (Hf : forall (l : list B) w k, (k < w)%nat -> nth k (firstn w l) d = nth k l d).
    { clear; induction l as [|y l IH]; intros w k Hk; [rewrite firstn_nil; reflexivity|].
      destruct w as [|w]; [lia|]; destruct k as [|k]; simpl; [reflexivity | apply IH; lia]. }
    rewrite Hf by exact Hk; clear; revert i; induction x as [|y x IH]; intros [|i]; simpl; try reflexivity; [destruct k; reflexivity | apply IH].
Qed.
Print Assumptions C28_rows.
Example C28_case : sliding_window_view [6; 4] [4; 1] [3; 2; 2] (Some [0; -1; 0]) = Ret ([3; 3; 3; 2; 2], [4; 1; 4; 1; 4])
  /\ inside [3; 3; 3; 2; 2] [2; 2; 2; 1; 1] /\ shifted [2; 2] [0%nat; 1%nat; 0%nat] [2; 1; 1] = [5; 3].
Proof. split; [vm_compute; reflexivity|]; split; [repeat (constructor; [lia|]); constructor | reflexivity]. Qed.

(* ------------------------------------------------------------------- C29 *)
Local Open Scope nat_scope.
Section Intersect.
  Context {A : Type} `{EqDec A} (leA : A -> A -> bool).
  Context (le_total : forall a b, leA a b = true \/ leA b a = true)
          (le_trans : forall a b c, leA a b = true -> leA b c = true -> leA a c = true)
          (le_anti : forall a b, leA a b = true -> leA b a = true -> a = b).

  Lemma first_index_spec x l : In x l -> nth_error l (first_index x l) = Some x /\
    forall k, k < first_index x l -> nth_error l k <> Some x.
  Proof.
    induction l as [|y l IH]; intros Hx; [destruct Hx|]; simpl; unfold eqd.
    destruct (eq_dec x y) as [->|Hne]; [split; [reflexivity | intros k Hk; lia]|].
    destruct Hx as [->|Hx]; [congruence|]; destruct (IH Hx) as [I1 I2]; split; [exact I1|].
    intros [|k] Hk; simpl; [congruence | apply I2; lia].
  Qed.
  Lemma np_unique_spec (y : list A) : StronglySorted (fun a b => leA a b = true /\ a <> b) (np_unique leA y) /\
    forall c, In c (np_unique leA y) <-> In c y.
  Proof.
    unfold np_unique; split; [|intros c; rewrite In_sort; apply dedup_In].
    pose proof (sort_sorted leA le_total le_trans (dedup y)) as Hs; pose proof (NoDup_sort leA (dedup y) (dedup_NoDup y)) as Hn.
    induction (sort leA (dedup y)) as [|a l IH]; [constructor|].
    inversion Hs as [|? ? Hs1 Hs2]; subst; inversion Hn as [|? ? Hn1 Hn2]; subst.
    constructor; [apply IH; assumption|]; rewrite Forall_forall in *; intros b Hb; split; [apply Hs2, Hb|].
    intros ->; contradiction.
  Qed.
  Lemma first_column_spec (ar : list (list A)) : (forall r, In r ar -> r <> []) ->
    exists c, first_column ar = Some c /\ length c = length ar /\
      forall i, nth_error c i = match nth_error ar i with Some r => hd_error r | None => None end.
  Proof.
    induction ar as [|r ar IH]; intros Hr; [exists []; split; [reflexivity|]; split; [reflexivity|]; intros [|i]; reflexivity|].
    destruct IH as [c [E [Hl Hc]]]; [intros q Hq; apply Hr; right; exact Hq|].
    destruct r as [|x r]; [destruct (Hr []); [left; reflexivity | reflexivity]|].
    simpl; rewrite E; exists (x :: c); split; [reflexivity|]; split; [simpl; lia|].
    intros [|i]; [reflexivity | apply Hc].
  Qed.
  (* Soundness is full.  Completeness holds when no two rows of one array share their
     first column; see C29_missed_row_refuted *)
  Theorem C29_intersect_partial : forall ar1 ar2, (forall r, In r (ar1 ++ ar2) -> r <> []) ->
    exists res, intersect2d leA ar1 ar2 = Ret res /\
      (forall r i j, In (r, (i, j)) res -> nth_error ar1 i = Some r /\ nth_error ar2 j = Some r /\
         (forall k, k < i -> nth_error ar1 k <> Some r) /\ (forall k, k < j -> nth_error ar2 k <> Some r)) /\
      StronglySorted (fun r r' => match hd_error r, hd_error r' with Some x, Some x' => leA x x' = true /\ x <> x' | _, _ => False end)
                     (map fst res) /\
      ((forall i j r r', nth_error ar1 i = Some r -> nth_error ar1 j = Some r' -> hd_error r = hd_error r' -> i = j) ->
       (forall i j r r', nth_error ar2 i = Some r -> nth_error ar2 j = Some r' -> hd_error r = hd_error r' -> i = j) ->
       forall r, In r ar1 -> In r ar2 -> In r (map fst res)).
  Proof.
    intros ar1 ar2 Hr.
    destruct (first_column_spec ar1) as [c1 [E1 [L1 N1]]]; [intros r Hin; apply Hr, in_or_app; left; exact Hin|].
    destruct (first_column_spec ar2) as [c2 [E2 [L2 N2]]]; [intros r Hin; apply Hr, in_or_app; right; exact Hin|].
    unfold intersect2d; rewrite E1, E2; eexists; split; [reflexivity|].
    set (sel := filter (fun p : A * (nat * nat) => eqd (nth (fst (snd p)) ar1 []) (nth (snd (snd p)) ar2 [])) (intersect1d leA c1 c2)).
    destruct (np_unique_spec c1) as [Hs Hu].
    assert (Hsel : forall v i j, In (v, (i, j)) sel -> i = first_index v c1 /\ j = first_index v c2 /\ In v c1 /\ In v c2 /\
              nth i ar1 [] = nth j ar2 []).
    { intros v i j Hin; apply filter_In in Hin; destruct Hin as [Hin Heq]; apply (proj1 (eqd_true _ _)) in Heq; simpl in Heq.
      unfold intersect1d in Hin; apply in_map_iff in Hin; destruct Hin as [v' [E Hv]]; injection E as -> <- <-.
      apply filter_In in Hv; destruct Hv as [Hv1 Hv2]; apply Hu in Hv1; apply mem_In in Hv2; auto 10. }
    assert (Hrow : forall v i j, In (v, (i, j)) sel -> exists r, nth_error ar1 i = Some r /\ nth_error ar2 j = Some r /\
              hd_error r = Some v /\ nth i ar1 [] = r).
    { intros v i j Hin; destruct (Hsel v i j Hin) as [-> [-> [Hv1 [Hv2 Heq]]]].
      destruct (first_index_spec v c1 Hv1) as [F1 _]; destruct (first_index_spec v c2 Hv2) as [F2 _].
      rewrite N1 in F1; rewrite N2 in F2.
      destruct (nth_error ar1 (first_index v c1)) as [r1|] eqn:G1; [|discriminate].
      destruct (nth_error ar2 (first_index v c2)) as [r2|] eqn:G2; [|discriminate].
      rewrite (nth_error_nth _ _ _ G1), (nth_error_nth _ _ _ G2) in Heq; subst r2.
      exists r1; rewrite (nth_error_nth _ _ _ G1); auto. }
    split; [|split].
    - intros r i j Hin; apply in_map_iff in Hin; destruct Hin as [[v [i' j']] [E Hin]]; simpl in E; injection E as <- <- <-.
      destruct (Hrow v i' j' Hin) as [r [R1 [R2 [R3 R4]]]]; rewrite R4; split; [exact R1|]; split; [exact R2|].
      destruct (Hsel v i' j' Hin) as [-> [-> [Hv1 [Hv2 _]]]]; split; intros k Hk Hno.
      + apply (proj2 (first_index_spec v c1 Hv1) k Hk); rewrite N1, Hno; exact R3.
      + apply (proj2 (first_index_spec v c2 Hv2) k Hk); rewrite N2, Hno; exact R3.
    - rewrite map_map; simpl.
      assert (Hsv : StronglySorted (fun a b => leA a b = true /\ a <> b) (map fst sel)).
      { unfold sel, intersect1d; clear -Hs.
        assert (Hf : forall (f : A * (nat * nat) -> bool) l, StronglySorted (fun a b => leA a b = true /\ a <> b) (map fst l) ->
                  StronglySorted (fun a b => leA a b = true /\ a <> b) (map fst (filter f l))).
        { induction l as [|p l IH]; simpl; intros Hl; [constructor|]; inversion Hl as [|? ? H1 H2]; subst.
          destruct (f p); simpl; [constructor; [apply IH, H1|] | apply IH, H1].
          rewrite Forall_forall in *; intros b Hb; apply H2; apply in_map_iff in Hb; destruct Hb as [q [<- Hq]].
          apply filter_In in Hq; apply in_map, Hq. }
        apply Hf; rewrite map_map; simpl; rewrite map_id.
        induction Hs as [|a l Hl IH Ha]; simpl; [constructor|]; destruct (mem a c2); [constructor; [exact IH|] | exact IH].
        rewrite Forall_forall in *; intros b Hb; apply filter_In in Hb; apply Ha, Hb. }
      assert (Hall : forall p, In p sel -> hd_error (nth (fst (snd p)) ar1 []) = Some (fst p)).
      { intros [v [i j]] Hp; destruct (Hrow v i j Hp) as [r [_ [_ [R3 R4]]]]; simpl; rewrite R4; exact R3. }
      clear -Hsv Hall; induction sel as [|p l IH]; simpl in *; [constructor|]; inversion Hsv as [|? ? H1 H2]; subst.
      constructor; [apply IH; [exact H1 | intros q Hq; apply Hall; right; exact Hq]|].
      rewrite Forall_forall in *; intros r Hin; apply in_map_iff in Hin; destruct Hin as [q [<- Hq]].
      rewrite (Hall p), (Hall q) by auto; apply H2, in_map, Hq.
    - intros U1 U2 r Hr1 Hr2; rewrite map_map; simpl.
      destruct (In_nth_error _ _ Hr1) as [i Hi]; destruct (In_nth_error _ _ Hr2) as [j Hj].
      destruct r as [|v r]; [destruct (Hr [] (in_or_app _ _ _ (or_introl Hr1)) eq_refl)|].
      assert (Hv1 : In v c1) by (eapply nth_error_In with (n := i); rewrite N1, Hi; reflexivity).
      assert (Hv2 : In v c2) by (eapply nth_error_In with (n := j); rewrite N2, Hj; reflexivity).
      assert (Ei : first_index v c1 = i).
      { destruct (first_index_spec v c1 Hv1) as [F _]; rewrite N1 in F.
        destruct (nth_error ar1 (first_index v c1)) as [q|] eqn:G; [|discriminate].
        apply (U1 _ _ _ _ G Hi); exact F. }
      assert (Ej : first_index v c2 = j).
      { destruct (first_index_spec v c2 Hv2) as [F _]; rewrite N2 in F.
        destruct (nth_error ar2 (first_index v c2)) as [q|] eqn:G; [|discriminate].
        apply (U2 _ _ _ _ G Hj); exact F. }
      apply in_map_iff; exists (v, (i, j)); simpl; rewrite (nth_error_nth _ _ _ Hi); split; [reflexivity|].
      apply filter_In; simpl; rewrite (nth_error_nth _ _ _ Hi), (nth_error_nth _ _ _ Hj); split; [|apply eqd_refl].
      unfold intersect1d; apply in_map_iff; exists v; rewrite Ei, Ej; split; [reflexivity|].
      apply filter_In; split; [apply Hu, Hv1 | apply mem_In, Hv2].
  Qed.
End Intersect.
Print Assumptions C29_intersect_partial.
(* a common row is missed when an earlier row starts with the same value *)
Theorem C29_missed_row_refuted : exists (ar1 ar2 : list (list nat)) r,
  In r ar1 /\ In r ar2 /\ (forall q, In q (ar1 ++ ar2) -> length q = 2) /\
  exists res, intersect2d Nat.leb ar1 ar2 = Ret res /\ ~ In r (map fst res).
Proof.
  exists [[1;2]; [1;3]], [[1;3]], [1;3]; repeat split; try (simpl; auto; fail).
  - intros q [<-|[<-|[<-|[]]]]; reflexivity.
  - eexists; split; [vm_compute; reflexivity | intros []].
Qed.
Print Assumptions C29_missed_row_refuted.
Example C29_case : intersect2d Nat.leb [[7;1]; [2;2]; [5;0]; [9;9]] [[5;0]; [2;2]; [7;3]] = Ret [([2;2], (1,1)); ([5;0], (2,0))].
Proof. vm_compute. reflexivity. Qed.
