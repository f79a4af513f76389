(* C24, C25, C26, C62: emerging patterns by border differences. *)
From Verif Require Import Prelude FilterModel FilterProofs CheckModel LCMModel ItemsetSpec VerticalProofs LCMFinal
  PropLCM SlimAppsModel PropSlimApps MBDModel.
From Coq Require Import QArith.
Local Open Scope nat_scope.

(* X lies in the interval [L, R]: it contains an element of L and is inside R *)
Definition in_interval {A} (b : list (list A) * list A) (X : list A) : Prop :=
  (exists l, In l (fst b) /\ incl l X) /\ incl X (snd b).

Section Border.
  Context {A : Type} `{EqDec A} (iter : list A -> list A) (iter_perm : forall l, Permutation (iter l) l).

  Lemma In_iter l x : In x (iter l) <-> In x l.
  Proof. split; apply Permutation_in; [|symmetry]; apply iter_perm. Qed.

  (* what the list L has to be after the sets of S *)
  Definition describes (U : list A) (S : list (list A)) (L : list (list A)) : Prop :=
    (forall X, incl X U -> ((exists l, In l L /\ incl l X) <-> forall s, In s S -> ~ incl X s)) /\
    (forall l, In l L -> incl l U) /\
    (forall l l', In l L -> In l' L -> incl l l' -> incl l' l).

  Lemma not_incl_witness (X s : list A) : ~ incl X s -> exists x, In x X /\ ~ In x s.
  Proof.
    intros Hn; induction X as [|x X IH]; [exfalso; apply Hn; intros y []|].
    destruct (in_dec eq_dec x s) as [Hx|Hx]; [|exists x; split; [left; reflexivity | exact Hx]].
    destruct IH as [y [Hy Hs]]; [|exists y; split; [right; exact Hy | exact Hs]].
    intros Hi; apply Hn; intros y [<-|Hy]; auto.
  Qed.

  Lemma describes_first U s : describes U [s] (map (fun x => [x]) (iter (diff U s))).
  Proof.
    assert (Hm : forall l, In l (map (fun x => [x]) (iter (diff U s))) <-> exists x, l = [x] /\ In x U /\ ~ In x s).
    { intros l; rewrite in_map_iff; split.
      - intros [x [<- Hx]]; apply In_iter, In_diff in Hx; exists x; tauto.
      - intros [x [-> Hx]]; exists x; split; [reflexivity | apply In_iter, In_diff, Hx]. }
    split; [|split].
    - intros X HX; split.
      + intros [l [Hl Hi]] s' [<-|[]] Hs; apply Hm in Hl; destruct Hl as [x [-> [Hx1 Hx2]]].
        apply Hx2, Hs, Hi; left; reflexivity.
      + intros Hs; destruct (not_incl_witness X s) as [x [Hx1 Hx2]]; [apply Hs; left; reflexivity|].
        exists [x]; split; [apply Hm; exists x; split; [reflexivity|]; split; [apply HX, Hx1 | exact Hx2]|].
        intros y [<-|[]]; exact Hx1.
    - intros l Hl; apply Hm in Hl; destruct Hl as [x [-> [Hx _]]]; intros y [<-|[]]; exact Hx.
    - intros l l' Hl Hl' Hi; apply Hm in Hl; apply Hm in Hl'.
      destruct Hl as [x [-> _]]; destruct Hl' as [x' [-> _]].
      destruct (Hi x) as [->|[]]; [left; reflexivity | apply incl_refl].
  Qed.
  Lemma describes_step U S L s : describes U S L -> describes U (S ++ [s]) (bd_step iter U L s).
  Proof.
    intros [H1 [H2 _]]; unfold bd_step.
    set (M := flat_map (fun x => map (fun X => union X [x]) L) (iter (diff U s))).
    assert (HM : forall m, In m M <-> exists x X, m = union X [x] /\ In X L /\ In x U /\ ~ In x s).
    { intros m; unfold M; rewrite in_flat_map; split.
      - intros [x [Hx Hm]]; apply In_iter, In_diff in Hx; apply in_map_iff in Hm; destruct Hm as [X [<- HX]].
        exists x, X; tauto.
      - intros [x [X [-> [HX Hx]]]]; exists x; split; [apply In_iter, In_diff, Hx | apply in_map_iff; exists X; auto]. }
    assert (Hu : forall X x y, In y (union X [x]) <-> In y X \/ y = x).
    { intros X x y; rewrite In_union; simpl; intuition. }
    split; [|split].
    - intros X HX; split.
      + intros [l [Hl Hi]] s' Hs' Hsub; apply filter_minimal_In in Hl; destruct Hl as [Hl _].
        apply HM in Hl; destruct Hl as [x [Y [-> [HY [Hx Hxs]]]]].
        apply in_app_or in Hs'; destruct Hs' as [Hs'|[<-|[]]].
        * apply (proj1 (H1 X HX)) in Hs'; [exact (Hs' Hsub)|].
          exists Y; split; [exact HY|]; intros y Hy; apply Hi, Hu; left; exact Hy.
        * apply Hxs, Hsub, Hi, Hu; right; reflexivity.
      + intros Hs.
        destruct (proj2 (H1 X HX)) as [Y [HY HYX]]; [intros s' Hs'; apply Hs, in_or_app; left; exact Hs'|].
        destruct (not_incl_witness X s) as [x [Hx1 Hx2]]; [apply Hs, in_or_app; right; left; reflexivity|].
        assert (Hin : In (union Y [x]) M) by (apply HM; exists x, Y; auto).
        destruct (minimal_below M (card (union Y [x])) (union Y [x]) Hin (le_n _)) as [e [He [Hie Hmin]]].
        exists e; split; [apply filter_minimal_In; auto|].
        intros y Hy; apply Hie, Hu in Hy; destruct Hy as [Hy| ->]; [apply HYX, Hy | exact Hx1].
    - intros l Hl; apply filter_minimal_In in Hl; destruct Hl as [Hl _]; apply HM in Hl.
      destruct Hl as [x [Y [-> [HY [Hx _]]]]]; intros y Hy; apply Hu in Hy; destruct Hy as [Hy| ->]; [apply (H2 Y HY y Hy) | exact Hx].
    - intros l l' Hl Hl' Hi; apply filter_minimal_In in Hl; apply filter_minimal_In in Hl'.
      apply (proj2 Hl' l); [apply Hl | exact Hi].
  Qed.
  Lemma describes_fold U rest : forall S L, describes U S L ->
    describes U (S ++ rest) (fold_left (bd_step iter U) rest L).
  Proof.
    induction rest as [|s rest IH]; intros S L Hd; simpl; [rewrite app_nil_r; exact Hd|].
    replace (S ++ s :: rest) with ((S ++ [s]) ++ rest) by (rewrite <- app_assoc; reflexivity).
    apply IH, describes_step, Hd.
  Qed.

  Theorem C24_border_diff : forall (U : list A) (S : list (list A)),
    (S <> [] -> exists L, border_diff iter U S = Ret (L, U) /\
       (forall X, incl X U -> ((exists l, In l L /\ incl l X) <-> forall s, In s S -> ~ incl X s)) /\
       (forall l, In l L -> incl l U) /\
       (forall l l', In l L -> In l' L -> incl l l' -> incl l' l)) /\
    (S = [] -> border_diff iter U S = Exn IndexError).
  Proof.
    intros U S; split; [|intros ->; reflexivity]; destruct S as [|s0 rest]; [congruence|]; intros _; simpl.
    eexists; split; [reflexivity|].
    exact (describes_fold U rest [s0] _ (describes_first U s0)).
  Qed.

  Theorem C25_mbdllborder : forall (isets1 isets2 : list (list A)), isets1 <> [] ->
    exists borders, mbdllborder iter isets1 isets2 = Ret borders /\
      forall X, (exists b, In b borders /\ in_interval b X) <->
        (exists s, In s isets2 /\ incl X s) /\ (forall s, In s isets1 -> ~ incl X s).
  Proof.
    intros isets1 isets2 Hne; induction isets2 as [|iset rest IH]; simpl.
    - exists []; split; [reflexivity|]; intros X; split; [intros [b [[] _]] | intros [[s [[] _]] _]].
    - destruct IH as [bs [E HI]].
      destruct (existsb (fun e => psubset iset e) isets1) eqn:Ex.
      + exists bs; split; [exact E|]; intros X; rewrite HI; split; intros [[s [Hs Hi]] Hno]; (split; [|exact Hno]).
        * exists s; auto.
        * destruct Hs as [<-|Hs]; [|exists s; auto]; exfalso.
          apply existsb_exists in Ex; destruct Ex as [e [He Hp]]; apply psubset_spec in Hp.
          apply (Hno e He); intros x Hx; apply Hp, Hi, Hx.
      + set (inters := map (fun e => inter iset e) isets1).
        assert (HR : filter_maximal inters <> []).
        { destruct isets1 as [|e0 t]; [congruence|]; intros Hz.
          destruct (list_card_bound inters) as [n Hn].
          destruct (maximal_above inters n (inter iset e0)) as [m [Hm [_ Hmx]]].
          - left; reflexivity.
          - intros e He; specialize (Hn e He); lia.
          - assert (Hin : In m (filter_maximal inters)) by (apply filter_maximal_In; auto).
            rewrite Hz in Hin; destruct Hin. }
        destruct (C24_border_diff iset (filter_maximal inters)) as [Hbd _]; destruct (Hbd HR) as [L [EL [HL [HLU _]]]].
        rewrite EL; cbn [bind]; rewrite E; cbn [bind]; exists ((L, iset) :: bs); split; [reflexivity|].
        assert (Hkey : forall X, incl X iset -> (forall s, In s (filter_maximal inters) -> ~ incl X s) <->
                  (forall s, In s isets1 -> ~ incl X s)).
        { intros X HX; split.
          - intros Hs s Hin Hi; destruct (list_card_bound inters) as [n Hn].
            destruct (maximal_above inters n (inter iset s)) as [m [Hm [Hsm Hmx]]].
            + unfold inters; apply in_map_iff; exists s; auto.
            + intros e He; specialize (Hn e He); lia.
            + apply (Hs m); [apply filter_maximal_In; auto|].
              intros x Hx; apply Hsm, In_inter; auto.
          - intros Hs m Hm Hi; apply filter_maximal_In in Hm; destruct Hm as [Hm _].
            apply in_map_iff in Hm; destruct Hm as [e [<- He]]; apply (Hs e He).
            intros x Hx; apply Hi, In_inter in Hx; apply Hx. }
        intros X; split.
        * intros [b [[<-|Hb] Hint]].
          -- destruct Hint as [Hl Hr]; simpl in Hl, Hr; split; [exists iset; split; [left; reflexivity | exact Hr]|].
             apply (Hkey X Hr), (HL X Hr), Hl.
          -- destruct (proj1 (HI X)) as [[s [Hs Hi]] Hno]; [exists b; auto|]; split; [exists s; split; [right; exact Hs | exact Hi] | exact Hno].
        * intros [[s [[<-|Hs] Hi]] Hno].
          -- exists (L, iset); split; [left; reflexivity|]; split; [|exact Hi]; simpl; apply (HL X Hi), (Hkey X Hi), Hno.
          -- destruct (proj2 (HI X)) as [b [Hb Hint]]; [split; [exists s; auto | exact Hno]|]; exists b; split; [right; exact Hb | exact Hint].
  Qed.
  (* an empty first collection raises as soon as the second is not empty *)
  Lemma mbdllborder_empty iset (rest : list (list A)) : mbdllborder iter [] (iset :: rest) = Exn IndexError.
  Proof. reflexivity. Qed.
End Border.
Print Assumptions C24_border_diff.
Print Assumptions C25_mbdllborder.
Example C24_case : border_diff (fun l => l) [1;2;3;4] [[3;4]; [2;4]; [2;3]] = Ret ([[1]; [2;3;4]], [1;2;3;4]).
Proof. vm_compute. reflexivity. Qed.
Example C25_case : mbdllborder (fun l => l) [[1;2]; [2;3]] [[1;2;3]; [2]; [3;4]; [2;3]] =
  Ret [([[3;1]], [1;2;3]); ([[4]], [3;4]); ([], [2;3])].
Proof. vm_compute. reflexivity. Qed.

(* ------------------------------------------------------------------- C26 *)
Section Enumerate.
  Context {A : Type} `{EqDec A} (iter : list A -> list A) (iter_perm : forall l, Permutation (iter l) l).

  Lemma combinations_sound (l : list A) : forall k c, NoDup l -> In c (combinations l k) ->
    length c = k /\ incl c l /\ NoDup c.
  Proof.
    induction l as [|x l IH]; intros [|k] c Hn Hc; cbn [combinations] in Hc.
    - destruct Hc as [<-|[]]; repeat split; [intros y [] | constructor].
    - destruct Hc.
    - destruct Hc as [<-|[]]; repeat split; [intros y [] | constructor].
    - inversion Hn as [|? ? Hx Hl]; subst; apply in_app_or in Hc; destruct Hc as [Hc|Hc].
      + apply in_map_iff in Hc; destruct Hc as [c' [<- Hc]]; apply IH in Hc; [|exact Hl]; destruct Hc as [H1 [H2 H3]].
        split; [simpl; lia|]; split; [intros y [<-|Hy]; [left; reflexivity | right; apply H2, Hy]|].
        constructor; [intros Hi; apply Hx, H2, Hi | exact H3].
      + apply IH in Hc; [|exact Hl]; destruct Hc as [H1 [H2 H3]]; split; [exact H1|]; split; [intros y Hy; right; apply H2, Hy | exact H3].
  Qed.
  Lemma combinations_complete (l : list A) : forall k X, NoDup l -> NoDup X -> incl X l -> length X = k ->
    exists c, In c (combinations l k) /\ same_items c X.
  Proof.
    induction l as [|x l IH]; intros k X Hl HX Hi Hk.
    - assert (X = []) as -> by (destruct X as [|y X]; [reflexivity | destruct (Hi y); left; reflexivity]); simpl in Hk; subst k.
      exists []; split; [left; reflexivity | split; intros y []].
    - inversion Hl as [|? ? Hx Hl']; subst x0 l0.
      destruct k as [|k].
      { destruct X; [|discriminate]; exists []; split; [left; reflexivity | split; intros y []]. }
      cbn [combinations]; destruct (in_dec eq_dec x X) as [Hin|Hout].
      + destruct (in_split _ _ Hin) as [a [b ->]].
        assert (HN : NoDup (x :: a ++ b)) by (eapply Permutation_NoDup; [symmetry; apply Permutation_middle | exact HX]).
        inversion HN as [|? ? Hx' HN']; subst x0 l0.
        destruct (IH k (a ++ b) Hl' HN') as [c [Hc [S1 S2]]].
        * intros y Hy; destruct (Hi y) as [<-|Hy']; [apply in_app_or in Hy; apply in_or_app; simpl; tauto | contradiction | exact Hy'].
        * rewrite app_length in *; simpl in Hk; lia.
        * exists (x :: c); split; [apply in_or_app; left; apply in_map, Hc|]; split; intros y Hy.
          -- destruct Hy as [<-|Hy]; [exact Hin|]; apply S1, in_app_or in Hy; apply in_or_app; simpl; tauto.
          -- apply in_app_or in Hy; simpl in Hy; destruct Hy as [Hy|[<-|Hy]]; [right; apply S2, in_or_app; auto | left; reflexivity | right; apply S2, in_or_app; auto].
      + destruct (IH (S k) X Hl' HX) as [c [Hc Hs]].
        * intros y Hy; destruct (Hi y Hy) as [<-|Hy']; [contradiction | exact Hy'].
        * exact Hk.
        * exists c; split; [apply in_or_app; right; exact Hc | exact Hs].
  Qed.
  Lemma FOP_app {B} (R : B -> B -> Prop) l1 l2 : ForallOrdPairs R l1 -> ForallOrdPairs R l2 ->
    (forall a b, In a l1 -> In b l2 -> R a b) -> ForallOrdPairs R (l1 ++ l2).
  Proof.
    intros H1 H2 H12; induction H1 as [|a l Ha Hl IH]; simpl; [exact H2|]; constructor.
    - apply Forall_app; split; [exact Ha | apply Forall_forall; intros b Hb; apply H12; [left; reflexivity | exact Hb]].
    - apply IH; intros x y Hx Hy; apply H12; [right; exact Hx | exact Hy].
  Qed.
  Lemma combinations_distinct (l : list A) : forall k, NoDup l ->
    ForallOrdPairs (fun a b => ~ same_items a b) (combinations l k).
  Proof.
    induction l as [|x l IH]; intros [|k] Hn; cbn [combinations];
      try (constructor; [constructor | constructor]); [constructor|].
    inversion Hn as [|? ? Hx Hl]; subst; apply FOP_app; [|apply IH, Hl|].
    - assert (Hin : forall c, In c (combinations l k) -> ~ In x c).
      { intros c Hc Hi; apply combinations_sound in Hc; [|exact Hl]; apply Hx, Hc, Hi. }
      specialize (IH k Hl); induction IH as [|c cs Hc Hcs IH']; simpl; constructor.
      + apply Forall_forall; intros d Hd; apply in_map_iff in Hd; destruct Hd as [d' [<- Hd]].
        rewrite Forall_forall in Hc; intros [S1 S2]; apply (Hc d' Hd); split; intros y Hy.
        * destruct (S1 y) as [<-|Hy']; [right; exact Hy | | exact Hy']; exfalso; apply (Hin c); [left; reflexivity | exact Hy].
        * destruct (S2 y) as [<-|Hy']; [right; exact Hy | | exact Hy']; exfalso; apply (Hin d'); [right; exact Hd | exact Hy].
      + apply IH'; intros c' Hc'; apply Hin; right; exact Hc'.
    - intros a b Ha Hb [S1 S2]; apply in_map_iff in Ha; destruct Ha as [a' [<- Ha]].
      apply combinations_sound in Hb; [|exact Hl]; apply Hx, (proj1 (proj2 Hb)), S1; left; reflexivity.
  Qed.

  Lemma In_sizes n m k : In k (sizes n m) <-> m <= k < n.
  Proof. unfold sizes; rewrite filter_In, <- in_rev, in_seq, Nat.leb_le; lia. Qed.
  Lemma NoDup_sizes n m : NoDup (sizes n m).
  Proof. unfold sizes; apply NoDup_filter, NoDup_rev, seq_NoDup. Qed.
  Lemma FOP_flat {B C} (R : C -> C -> Prop) (f : B -> list C) l : NoDup l ->
    (forall x, In x l -> ForallOrdPairs R (f x)) ->
    (forall x y a b, In x l -> In y l -> x <> y -> In a (f x) -> In b (f y) -> R a b) ->
    ForallOrdPairs R (flat_map f l).
  Proof.
    intros Hn H1 H2; induction l as [|x l IH]; simpl; [constructor|]; inversion Hn as [|? ? Hx Hl]; subst.
    apply FOP_app; [apply H1; left; reflexivity | apply IH |].
    - exact Hl.
    - intros y Hy; apply H1; right; exact Hy.
    - intros a b c d Ha Hb; apply H2; right; assumption.
    - intros a b Ha Hb; apply in_flat_map in Hb; destruct Hb as [y [Hy Hb]].
      apply (H2 x y); [left; reflexivity | right; exact Hy | intros ->; contradiction | exact Ha | exact Hb].
  Qed.
  Lemma FOP_filter' {B} (R : B -> B -> Prop) f l : ForallOrdPairs R l -> ForallOrdPairs R (filter f l).
  Proof.
    induction 1 as [|a l Ha Hl IH]; simpl; [constructor|]; destruct (f a); [|exact IH].
    constructor; [|exact IH]; rewrite Forall_forall in *; intros b Hb; apply filter_In in Hb; apply Ha, Hb.
  Qed.

  (* What borders_to_patterns does list: the proper subsets of R of size at least
     min_size inside no element of L, each once.  For a border (no element of L
     strictly inside another), this includes every pattern of the interval [L, R]
     other than the elements of L and R: those are missing, and patterns outside the
     interval are listed, see the two refutations *)
  Theorem C26_enumerates_partial : forall left (right : list A) min_size, NoDup right ->
    (forall m, min_size = Some m -> m > 0) -> (min_size = None -> left <> []) ->
    exists m pats, borders_to_patterns iter left right min_size = Ret pats /\
      (forall k, min_size = Some k -> m = k) /\
      (min_size = None -> (forall l, In l left -> m <= card l) /\ exists l, In l left /\ m = card l) /\
      (forall X, NoDup X -> ((exists p, In p pats /\ same_items p X) <->
          incl X right /\ m <= length X < length right /\ forall l, In l left -> ~ incl X l)) /\
      (forall p, In p pats -> NoDup p) /\
      ForallOrdPairs (fun a b => ~ same_items a b) pats /\
      ((forall l l', In l left -> In l' left -> incl l l' -> incl l' l) ->
       forall X, NoDup X -> in_interval (left, right) X -> m <= length X < length right ->
         (forall l, In l left -> ~ same_items l X) -> exists p, In p pats /\ same_items p X).
  Proof.
    intros left right min_size Hn Hm Hl.
    assert (Hleast : exists m, least_size left min_size = Ret m /\ (forall k, min_size = Some k -> m = k) /\
              (min_size = None -> (forall l, In l left -> m <= card l) /\ exists l, In l left /\ m = card l)).
    { destruct min_size as [[|k]|]; [specialize (Hm 0 eq_refl); lia | |].
      - exists (S k); split; [reflexivity|]; split; [congruence | discriminate].
      - specialize (Hl eq_refl); destruct left as [|e t]; [congruence|]; unfold least_size; simpl.
        assert (Hfold : forall t c, let m := fold_left Nat.min (map card t) c in
                  (m <= c /\ forall l, In l t -> m <= card l) /\ (m = c \/ exists l, In l t /\ m = card l)).
        { clear; induction t as [|e t IH]; intros c; simpl; [split; [split; [lia | intros l []] | auto]|].
          destruct (IH (Nat.min c (card e))) as [[I1 I2] I3]; split.
          - split; [lia|]; intros l [<-|Hl]; [lia | apply I2, Hl].
          - destruct I3 as [I3|[l [I3 I4]]]; [|right; exists l; split; [right; exact I3 | exact I4]].
            destruct (Nat.min_spec c (card e)) as [[_ E]|[_ E]]; rewrite E in I3 at 2; [left; exact I3 | right; exists e; split; [left; reflexivity | exact I3]]. }
        destruct (Hfold t (card e)) as [[F1 F2] F3]; exists (fold_left Nat.min (map card t) (card e)).
        split; [reflexivity|]; split; [discriminate|]; intros _; split.
        + intros l [<-|Hin]; [exact F1 | apply F2, Hin].
        + destruct F3 as [F3|[l [F3 F4]]]; [exists e; split; [left; reflexivity | exact F3] | exists l; split; [right; exact F3 | exact F4]]. }
    destruct Hleast as [m [E [Hm1 Hm2]]]; unfold borders_to_patterns; rewrite E; cbn [bind].
    set (f := fun size => filter (fun pat => negb (existsb (fun e => subset pat e) left)) (combinations (iter right) size)).
    assert (Hn' : NoDup (iter right)) by (eapply Permutation_NoDup; [symmetry; apply iter_perm | exact Hn]).
    assert (Hf : forall size p, In p (f size) <-> In p (combinations (iter right) size) /\ forall l, In l left -> ~ incl p l).
    { intros size p; unfold f; rewrite filter_In, negb_true_iff; split; intros [H1 H2]; (split; [exact H1|]).
      - intros l Hin Hi; rewrite <- not_true_iff_false in H2; apply H2, existsb_exists; exists l; split; [exact Hin | apply subset_incl, Hi].
      - apply not_true_iff_false; intros Hex; apply existsb_exists in Hex; destruct Hex as [l [Hin Hi]].
        apply (H2 l Hin), subset_incl, Hi. }
    exists m, (flat_map f (sizes (length right) m)); split; [reflexivity|]; split; [exact Hm1|]; split; [exact Hm2|].
    assert (Hmain : forall X, NoDup X -> ((exists p, In p (flat_map f (sizes (length right) m)) /\ same_items p X) <->
          incl X right /\ m <= length X < length right /\ forall l, In l left -> ~ incl X l)).
    { intros X HX; split.
      - intros [p [Hp [S1 S2]]]; apply in_flat_map in Hp; destruct Hp as [k [Hk Hp]]; apply In_sizes in Hk.
        apply Hf in Hp; destruct Hp as [Hc Hno]; apply combinations_sound in Hc; [|exact Hn'].
        destruct Hc as [Hlen [Hinc Hnd]]; split; [|split].
        + intros x Hx; eapply Permutation_in; [apply iter_perm | apply Hinc, S2, Hx].
        + assert (length X = length p); [|lia]; apply Nat.le_antisymm; apply NoDup_incl_length; assumption.
        + intros l Hin Hi; apply (Hno l Hin); intros x Hx; apply Hi, S1, Hx.
      - intros [Hi [Hlen Hno]].
        destruct (combinations_complete (iter right) (length X) X Hn' HX) as [c [Hc [S1 S2]]]; [|reflexivity|].
        + intros x Hx; eapply Permutation_in; [symmetry; apply iter_perm | apply Hi, Hx].
        + exists c; split; [|split; assumption]; apply in_flat_map; exists (length X); split; [apply In_sizes; exact Hlen|].
          apply Hf; split; [exact Hc|]; intros l Hin Hl'; apply (Hno l Hin); intros x Hx; apply Hl', S2, Hx. }
    split; [exact Hmain|]; split; [|split].
    - intros p Hp; apply in_flat_map in Hp; destruct Hp as [k [_ Hp]]; apply Hf in Hp; destruct Hp as [Hp _].
      apply combinations_sound in Hp; [apply Hp | exact Hn'].
    - apply FOP_flat; [apply NoDup_sizes | |].
      + intros k _; apply FOP_filter', combinations_distinct, Hn'.
      + intros x y a b _ _ Hxy Ha Hb [S1 S2]; apply Hf in Ha; apply Hf in Hb; destruct Ha as [Ha _]; destruct Hb as [Hb _].
        apply combinations_sound in Ha; [|exact Hn']; apply combinations_sound in Hb; [|exact Hn'].
        destruct Ha as [L1 [_ N1]]; destruct Hb as [L2 [_ N2]]; apply Hxy; rewrite <- L1, <- L2.
        apply Nat.le_antisymm; apply NoDup_incl_length; assumption.
    - intros Hanti X HX [[l [Hin Hi]] Hr] Hlen Hne; simpl in Hin, Hr; apply (Hmain X HX); split; [exact Hr|]; split; [exact Hlen|].
      intros l' Hin' Hi'; apply (Hne l Hin); split; [exact Hi|].
      intros x Hx; apply (Hanti l l' Hin Hin'); [intros y Hy; apply Hi', Hi, Hy | apply Hi', Hx].
  Qed.
End Enumerate.
Print Assumptions C26_enumerates_partial.
(* the whole right border belongs to the interval and is never listed *)
Theorem C26_right_border_refuted :
  exists isets1 isets2 (b : list (list nat) * list nat) pats, mbdllborder (fun l => l) isets1 isets2 = Ret [b] /\
    borders_to_patterns (fun l => l) (fst b) (snd b) (Some 2) = Ret pats /\
    in_interval b [1;2;3] /\ ~ exists p, In p pats /\ same_items p [1;2;3].
Proof.
  exists [[1;2]; [3]], [[1;2;3]]; eexists; eexists; split; [vm_compute; reflexivity|]; split; [vm_compute; reflexivity|].
  split; [split; [exists [1;3]; split; [vm_compute; auto | intros x Hx; simpl in *; intuition] | apply incl_refl]|].
  intros [p [[<-|[]] [_ S2]]]; specialize (S2 3); simpl in S2; intuition discriminate.
Qed.
Print Assumptions C26_right_border_refuted.
(* a listed pattern that contains no element of L: it occurs in the first collection *)
Theorem C26_not_emerging_refuted :
  exists isets1 isets2 (b : list (list nat) * list nat) pats p, mbdllborder (fun l => l) isets1 isets2 = Ret [b] /\
    borders_to_patterns (fun l => l) (fst b) (snd b) (Some 2) = Ret pats /\
    In p pats /\ ~ in_interval b p /\ exists s, In s isets1 /\ incl p s.
Proof.
  exists [[1;2]; [3]], [[1;2;3]]; eexists; eexists; exists [1;2]; split; [vm_compute; reflexivity|]; split; [vm_compute; reflexivity|].
  split; [left; reflexivity|]; split; [|exists [1;2]; split; [left; reflexivity | apply incl_refl]].
  intros [[l [[<-|[<-|[]]] Hi]] _]; specialize (Hi 3); simpl in Hi; intuition discriminate.
Qed.
Print Assumptions C26_not_emerging_refuted.
Example C26_case : borders_to_patterns (fun l => l) [[1;3]; [2]] [1;2;3;4] (Some 1) =
  Ret [[1;2;3]; [1;2;4]; [1;3;4]; [2;3;4]; [1;2]; [1;4]; [2;3]; [2;4]; [3;4]; [4]].
Proof. vm_compute. reflexivity. Qed.

(* ------------------------------------------------------------------- C62 *)
Section Fit.
  Context {A : Type} `{EqDec A}.

  (* X is made of items of D and reaches the relative support q *)
  Definition frequent (q : Q) (D : list (list A)) (X : list A) : Prop :=
    (forall x, In x X -> occurs D x) /\ meets (Rel q) (length D) (support D X).

  Lemma support_anti (D : list (list A)) X Y : incl X Y -> support D Y <= support D X.
  Proof.
    intros Hi; unfold support; induction D as [|t D IH]; simpl; [lia|].
    destruct (subset Y t) eqn:E; [|destruct (subset X t); simpl; lia].
    assert (subset X t = true) as -> by (apply subset_incl in E; apply subset_incl; intros x Hx; apply E, Hi, Hx).
    simpl; lia.
  Qed.
  Lemma meets_up q n k k' : k <= k' -> meets (Rel q) n k -> meets (Rel q) n k'.
  Proof.
    simpl; intros Hk Hm; eapply Qle_trans; [exact Hm|]; rewrite <- Zle_Qle; lia.
  Qed.
  Lemma extends_to_maximal q (D : list (list A)) : forall n X, NoDup X ->
    length (filter (fun x => negb (mem x X)) (dkeys (vertical D))) <= n -> frequent q D X ->
    exists Y, NoDup Y /\ incl X Y /\ maximal_such (fun X => meets (Rel q) (length D) (support D X)) D Y.
  Proof.
    induction n as [|n IH]; intros X HX Hn [Ho Hm].
    - exists X; split; [exact HX|]; split; [apply incl_refl|]; split; [exact Hm|]; split; [exact Ho|].
      intros Y HY _ _ y Hy; destruct (mem_spec y X) as [|Hno]; [assumption|exfalso].
      assert (Hin : In y (filter (fun x => negb (mem x X)) (dkeys (vertical D)))).
      { apply filter_In; split; [apply vertical_keys, HY, Hy | apply negb_true_iff, mem_false, Hno]. }
      destruct (filter _ _); [destruct Hin | simpl in Hn; lia].
    - destruct (existsb (fun x => negb (mem x X) && reaches (Rel q) (length D) (support D (x :: X))) (dkeys (vertical D))) eqn:E.
      + apply existsb_exists in E; destruct E as [x [Hx E]]; apply andb_true_iff in E; destruct E as [E1 E2].
        apply negb_true_iff, mem_false in E1; apply vertical_keys in Hx.
        destruct (IH (x :: X)) as [Y [HY [Hi Hmax]]].
        * constructor; assumption.
        * assert (Hlt : length (filter (fun z => negb (mem z (x :: X))) (dkeys (vertical D))) <
                     length (filter (fun z => negb (mem z X)) (dkeys (vertical D)))); [|lia].
          apply vertical_keys in Hx; clear -Hx E1; induction (dkeys (vertical D)) as [|z l IHl]; [destruct Hx|].
          assert (Hle : forall l : list A, length (filter (fun z => negb (mem z (x :: X))) l) <= length (filter (fun z => negb (mem z X)) l)).
          { clear; induction l as [|z l IHl]; [simpl; lia|]; cbn [filter].
            change (mem z (x :: X)) with (eqd z x || mem z X); destruct (eqd z x), (mem z X); cbn [orb negb length]; lia. }
          cbn [filter]; change (mem z (x :: X)) with (eqd z x || mem z X); destruct Hx as [->|Hx].
          -- rewrite eqd_refl, (proj2 (mem_false x X) E1); cbn [orb negb length]; specialize (Hle l); lia.
          -- specialize (IHl Hx); destruct (eqd z x), (mem z X); cbn [orb negb length]; lia.
        * split; [intros z [<-|Hz]; auto | apply meets_reaches, E2].
        * exists Y; split; [exact HY|]; split; [intros z Hz; apply Hi; right; exact Hz | exact Hmax].
      + exists X; split; [exact HX|]; split; [apply incl_refl|]; split; [exact Hm|]; split; [exact Ho|].
        intros Y HY HXY HmY y Hy; destruct (mem_spec y X) as [|Hno]; [assumption|exfalso].
        rewrite <- not_true_iff_false in E; apply E, existsb_exists; exists y; split; [apply vertical_keys, HY, Hy|].
        apply andb_true_iff; split; [apply negb_true_iff, mem_false, Hno|]; apply meets_reaches.
        eapply meets_up; [|exact HmY]; apply support_anti; intros z [<-|Hz]; [exact Hy | apply HXY, Hz].
  Qed.
  Lemma occurs_known (D : list (list A)) x : {occurs D x} + {~ occurs D x}.
  Proof.
    destruct (in_dec eq_dec x (dkeys (vertical D))) as [Hx|Hx]; [left; apply vertical_keys, Hx|].
    right; intros Ho; apply Hx, vertical_keys, Ho.
  Qed.
  (* LCMMax's rows as a border of the frequent itemsets *)
  Lemma lcm_max_border (leA : A -> A -> bool) q (D : list (list A)) sched rows X :
    all_jobs (Rel q) D sched -> lcm_max leA (Rel q) D true (-1) sched = Some rows -> X <> [] ->
    ((exists s, In s (map r_items rows) /\ incl X s) <-> frequent q D X).
  Proof.
    intros J E Hne; destruct (C07_lcmmax_exact A H leA (Rel q) D true (-1) sched rows J E) as [H1 [H2 _]]; split.
    - intros [s [Hs Hi]]; apply in_map_iff in Hs; destruct Hs as [r [<- Hr]].
      destruct (H1 r Hr) as [_ [_ [_ [_ [[Hm [Ho _]] _]]]]]; split; [intros x Hx; apply Ho, Hi, Hx|].
      eapply meets_up; [apply support_anti, Hi | exact Hm].
    - intros [Ho Hm].
      destruct (extends_to_maximal q D (length (filter (fun x => negb (mem x (nodup eq_dec X))) (dkeys (vertical D)))) (nodup eq_dec X)) as [Y [HY [Hi Hmax]]].
      + apply NoDup_nodup.
      + lia.
      + split; [intros x Hx; apply nodup_In in Hx; apply Ho, Hx|].
        eapply meets_up; [|exact Hm]; apply support_anti; intros x Hx; apply nodup_In in Hx; exact Hx.
      + destruct (H2 Y) as [r [Hr [S1 S2]]]; [|exact HY|exact Hmax|left; reflexivity|].
        * intros ->; destruct X as [|x X]; [congruence|]; destruct (Hi x); apply nodup_In; left; reflexivity.
        * exists (r_items r); split; [apply in_map, Hr|]; intros x Hx; apply S2, Hi; apply nodup_In; exact Hx.
  Qed.

  Context (iter : list A -> list A) (iter_perm : forall l, Permutation (iter l) l).
  Context (leA : A -> A -> bool) {L : Type} `{EqDec L} (leL : L -> L -> bool).
  Context (leL_total : forall a b, leL a b = true \/ leL b a = true)
          (leL_trans : forall a b c, leL a b = true -> leL b c = true -> leL a c = true)
          (leL_anti : forall a b, leL a b = true -> leL b a = true -> a = b).

  (* the transactions of D labelled c, in order *)
  Fixpoint labelled (D : list (list A)) (y : list L) (c : L) : list (list A) :=
    match D, y with
    | t :: D', z :: y' => if eq_dec z c then t :: labelled D' y' c else labelled D' y' c
    | _, _ => []
    end.
  Lemma part_labelled D : forall y c, part D y c = labelled D y c.
  Proof.
    unfold part; induction D as [|t D IH]; intros [|z y] c; try reflexivity; simpl; unfold eqd.
    destruct (eq_dec z c); simpl; rewrite <- IH; reflexivity.
  Qed.

  Lemma two_labels {B} (D : list (list B)) y c1 c2 : length D = length y ->
    (forall c, In c y <-> c = c1 \/ c = c2) -> c1 <> c2 -> leL c1 c2 = true -> np_unique leL y = [c1; c2].
  Proof.
    intros Hl Hy Hne Hle.
    destruct (C20_partition_partial B L H0 leL true D y leL_total leL_trans leL_anti Hl) as [Hs [Hc _]].
    assert (Hm : map fst (classifier_fit leL true D y) = np_unique leL y).
    { unfold classifier_fit; rewrite map_map; apply map_id. }
    rewrite Hm in Hs, Hc; assert (Hc' : forall c, In c (np_unique leL y) <-> c = c1 \/ c = c2) by (intros c; rewrite Hc; apply Hy).
    clear -Hs Hc' Hne Hle leL_anti; destruct (np_unique leL y) as [|a [|b [|d l]]].
    - destruct (proj2 (Hc' c1)); auto.
    - destruct (proj2 (Hc' c1)) as [->|[]]; [auto|]; destruct (proj2 (Hc' c2)) as [->|[]]; [auto|]; congruence.
    - inversion Hs as [|? ? Hs1 Ha]; subst; inversion Ha as [|? ? [Hab Hnab] _]; subst.
      destruct (proj1 (Hc' a)) as [->| ->]; [left; reflexivity | |]; destruct (proj1 (Hc' b)) as [->| ->]; [right; left; reflexivity | congruence | reflexivity | right; left; reflexivity | | congruence].
      exfalso; apply Hne, leL_anti; assumption.
    - exfalso; inversion Hs as [|? ? Hs1 Ha]; subst; inversion Ha as [|? ? [_ Hab] Ha2]; subst; inversion Ha2 as [|? ? [_ Had] _]; subst.
      inversion Hs1 as [|? ? _ Hb]; subst; inversion Hb as [|? ? [_ Hbd] _]; subst.
      destruct (proj1 (Hc' a)) as [->| ->]; [left; reflexivity | |]; (destruct (proj1 (Hc' b)) as [->| ->]; [right; left; reflexivity | |]);
        (destruct (proj1 (Hc' d)) as [->| ->]; [right; right; left; reflexivity | |]); congruence.
  Qed.

  Theorem C62_emerging_borders : forall min_supp growth D y c1 c2 sched1 sched2,
    length D = length y ->
    (forall c, In c y <-> c = c1 \/ c = c2) -> c1 <> c2 -> leL c1 c2 = true ->
    let D1 := labelled D y c1 in let D2 := labelled D y c2 in
    (0 <= min_supp)%Q -> (min_supp <= 1)%Q -> (0 <= growth * min_supp)%Q -> (growth * min_supp <= 1)%Q ->
    (exists x, frequent min_supp D1 [x]) ->
    all_jobs (Rel min_supp) D1 sched1 -> all_jobs (Rel (growth * min_supp)) D2 sched2 ->
    exists borders, mbd_fit iter leA leL min_supp growth D y sched1 sched2 = Ret borders /\
      forall X, X <> [] -> ((exists b, In b borders /\ in_interval b X) <->
        frequent (growth * min_supp) D2 X /\ ~ frequent min_supp D1 X).
  Proof.
    intros q g D y c1 c2 sched1 sched2 Hl Hy Hne Hle D1 D2 Hq0 Hq1 Hg0 Hg1 [x0 Hx0] J1 J2.
    assert (Hu : np_unique leL y = [c1; c2]) by (apply (two_labels D); assumption).
    unfold mbd_fit; rewrite Hu, !part_labelled; fold D1 D2.
    destruct (proj1 (C02_lcm_defined A H leA (Rel q) D1 true (-1) sched1) (conj Hq0 Hq1)) as [rows1 E1'].
    destruct (proj1 (C02_lcm_defined A H leA (Rel (g * q)) D2 true (-1) sched2) (conj Hg0 Hg1)) as [rows2 E2'].
    assert (E1 : exists r1, lcm_max leA (Rel q) D1 true (-1) sched1 = Some r1).
    { unfold lcm in E1'; unfold lcm_max; destruct (fit (Rel q) D1); [eexists; reflexivity | discriminate]. }
    assert (E2 : exists r2, lcm_max leA (Rel (g * q)) D2 true (-1) sched2 = Some r2).
    { unfold lcm in E2'; unfold lcm_max; destruct (fit (Rel (g * q)) D2); [eexists; reflexivity | discriminate]. }
    destruct E1 as [r1 E1]; destruct E2 as [r2 E2]; rewrite E1, E2.
    destruct (C25_mbdllborder iter iter_perm (map r_items r1) (map r_items r2)) as [borders [Eb Hb]].
    { destruct (proj2 (lcm_max_border leA q D1 sched1 r1 [x0] J1 E1 ltac:(discriminate)) Hx0) as [s [Hs _]].
      destruct (map r_items r1); [destruct Hs | discriminate]. }
    exists borders; split; [exact Eb|]; intros X HX; rewrite Hb, (lcm_max_border leA _ D2 sched2 r2 X J2 E2 HX).
    split; intros [H1 H2]; (split; [exact H1|]).
    - intros Hf; apply (lcm_max_border leA q D1 sched1 r1 X J1 E1 HX) in Hf; destruct Hf as [s [Hs Hi]]; exact (H2 s Hs Hi).
    - intros s Hs Hi; apply H2, (lcm_max_border leA q D1 sched1 r1 X J1 E1 HX); exists s; auto.
  Qed.

  Lemma growth_of : forall q g (D1 D2 : list (list A)) X, D1 <> [] -> D2 <> [] -> (0 < q)%Q -> (0 < g)%Q ->
    frequent (g * q) D2 X -> ~ frequent q D1 X ->
    (g * (inject_Z (Z.of_nat (support D1 X)) / inject_Z (Z.of_nat (length D1)))
     < inject_Z (Z.of_nat (support D2 X)) / inject_Z (Z.of_nat (length D2)))%Q.
  Proof.
    intros q g D1 D2 X N1 N2 Hq Hg [Ho Hm] Hno.
    assert (P1 : (0 < inject_Z (Z.of_nat (length D1)))%Q) by (change 0%Q with (inject_Z 0); rewrite <- Zlt_Qlt; destruct D1; [congruence | simpl; lia]).
    assert (P2 : (0 < inject_Z (Z.of_nat (length D2)))%Q) by (change 0%Q with (inject_Z 0); rewrite <- Zlt_Qlt; destruct D2; [congruence | simpl; lia]).
    assert (Hs1 : (inject_Z (Z.of_nat (support D1 X)) < q * inject_Z (Z.of_nat (length D1)))%Q).
    { destruct (Qlt_le_dec (inject_Z (Z.of_nat (support D1 X))) (q * inject_Z (Z.of_nat (length D1)))) as [|Hge]; [assumption|].
      exfalso; apply Hno; split; [|exact Hge]; intros x Hx; destruct (occurs_known D1 x) as [|Hn]; [assumption|exfalso].
      assert (Hz : support D1 X = 0).
      { unfold support; apply length_zero_iff_nil.
        destruct (filter (fun t => subset X t) D1) as [|t l] eqn:F; [reflexivity|exfalso].
        assert (Hin : In t (filter (fun t => subset X t) D1)) by (rewrite F; left; reflexivity).
        apply filter_In in Hin; destruct Hin as [Ht Hsub]; apply Hn; exists t; split; [exact Ht|].
        apply subset_incl in Hsub; apply Hsub, Hx. }
      rewrite Hz in Hge; apply (Qlt_irrefl 0); eapply Qlt_le_trans; [|exact Hge].
      apply Qmult_lt_0_compat; assumption. }
    simpl in Hm.
    apply Qlt_le_trans with (g * q)%Q.
    - rewrite (Qmult_lt_l _ _ g) by exact Hg.
      apply Qlt_shift_div_r; [exact P1 | exact Hs1].
    - apply Qle_shift_div_l; [exact P2 | exact Hm].
  Qed.
  Lemma labelled_In D : forall y c, length D = length y -> In c y -> labelled D y c <> [].
  Proof.
    induction D as [|t D IH]; intros [|z y] c Hl Hin; try discriminate; [destruct Hin|]; simpl.
    destruct (eq_dec z c) as [->|Hne]; [discriminate|]; apply IH; [simpl in Hl; lia|].
    destruct Hin as [->|Hin]; [congruence | exact Hin].
  Qed.
  (* the growth rate: every pattern of a border is, in relative support, more than
     min_growth_rate times as frequent in the second collection as in the first *)
  Theorem C62_growth : forall min_supp growth D y c1 c2 sched1 sched2 borders b X,
    length D = length y ->
    (forall c, In c y <-> c = c1 \/ c = c2) -> c1 <> c2 -> leL c1 c2 = true ->
    let D1 := labelled D y c1 in let D2 := labelled D y c2 in
    (0 < min_supp)%Q -> (1 < growth)%Q -> (growth * min_supp <= 1)%Q ->
    (exists x, frequent min_supp D1 [x]) ->
    all_jobs (Rel min_supp) D1 sched1 -> all_jobs (Rel (growth * min_supp)) D2 sched2 ->
    mbd_fit iter leA leL min_supp growth D y sched1 sched2 = Ret borders ->
    In b borders -> in_interval b X -> X <> [] ->
    (growth * (inject_Z (Z.of_nat (support D1 X)) / inject_Z (Z.of_nat (length D1)))
     < inject_Z (Z.of_nat (support D2 X)) / inject_Z (Z.of_nat (length D2)))%Q.
  Proof.
    intros q g D y c1 c2 s1 s2 borders b X Hl Hy Hne Hle D1 D2 Hq Hg Hgq Hx J1 J2 E Hb Hi HX.
    assert (Hg0 : (0 < g)%Q) by (eapply Qlt_trans; [|exact Hg]; reflexivity).
    assert (Hq1 : (q <= 1)%Q).
    { eapply Qle_trans; [|exact Hgq]; rewrite <- (Qmult_1_l q) at 1; apply Qlt_le_weak, Qmult_lt_compat_r; assumption. }
    destruct (C62_emerging_borders q g D y c1 c2 s1 s2 Hl Hy Hne Hle) as [borders' [E' Hspec]]; try assumption.
    - apply Qlt_le_weak, Hq.
    - apply Qlt_le_weak, Qmult_lt_0_compat; assumption.
    - rewrite E in E'; injection E' as <-.
      destruct (proj1 (Hspec X HX)) as [F1 F2]; [exists b; auto|].
      apply (growth_of q g); try assumption; apply labelled_In; try assumption; apply Hy; auto.
  Qed.

  (* Which calls are refused, before any mining: labels that are not two, a threshold that is no
     proportion. *)
  Theorem C62_refuses : forall min_supp growth D y sched1 sched2, length D = length y ->
    let answer := mbd_fit iter leA leL min_supp growth D y sched1 sched2 in
    (~ (exists c1 c2, c1 <> c2 /\ forall c, In c y <-> c = c1 \/ c = c2) -> answer = Exn AssertionError) /\
    (forall c1 c2, c1 <> c2 -> (forall c, In c y <-> c = c1 \/ c = c2) ->
      ~ ((0 <= min_supp)%Q /\ (min_supp <= 1)%Q /\ (0 <= growth * min_supp)%Q /\ (growth * min_supp <= 1)%Q) -> answer = Exn ValueError).
  Proof.
    intros q g D y s1 s2 Hl answer. split.
    - intros Hno. unfold answer, mbd_fit.
      destruct (C20_partition_partial A L H0 leL true D y leL_total leL_trans leL_anti Hl) as [Hs [Hc _]].
      assert (Hm : map fst (classifier_fit leL true D y) = np_unique leL y).
      { unfold classifier_fit; rewrite map_map; apply map_id. }
      rewrite Hm in Hs, Hc. destruct (np_unique leL y) as [|a [|b [|d l]]]; try reflexivity.
      exfalso. apply Hno. exists a, b. split.
      + inversion Hs as [|? ? _ Ha]; subst. inversion Ha as [|? ? [_ Hab] _]; subst. congruence.
      + intros c. rewrite <- Hc. simpl. intuition congruence.
    - assert (W : forall c1 c2, c1 <> c2 -> leL c1 c2 = true -> (forall c, In c y <-> c = c1 \/ c = c2) ->
        ~ ((0 <= q)%Q /\ (q <= 1)%Q /\ (0 <= g * q)%Q /\ (g * q <= 1)%Q) -> answer = Exn ValueError).
      { intros c1 c2 Hne Hle Hy Hbad. unfold answer, mbd_fit. rewrite (two_labels D y c1 c2 Hl Hy Hne Hle).
        destruct (lcm_max leA (Rel q) (part D y c1) true (-1) s1) as [r1|] eqn:E1; [|reflexivity].
        destruct (lcm_max leA (Rel (g * q)) (part D y c2) true (-1) s2) as [r2|] eqn:E2; [|reflexivity].
        exfalso. apply Hbad.
        destruct (proj2 (C02_lcm_defined A H leA (Rel q) (part D y c1) true (-1) s1)) as [B1 B2].
        { unfold lcm_max in E1. unfold lcm. destruct (fit (Rel q) (part D y c1)); [eexists; reflexivity | discriminate]. }
        destruct (proj2 (C02_lcm_defined A H leA (Rel (g * q)) (part D y c2) true (-1) s2)) as [B3 B4].
        { unfold lcm_max in E2. unfold lcm. destruct (fit (Rel (g * q)) (part D y c2)); [eexists; reflexivity | discriminate]. }
        repeat split; assumption. }
      intros c1 c2 Hne Hy Hbad. destruct (leL_total c1 c2) as [Hle|Hle].
      + apply (W c1 c2); assumption.
      + apply (W c2 c1); [congruence | assumption | | assumption]. intros c. rewrite Hy. tauto.
  Qed.
End Fit.
Print Assumptions C62_refuses.
Print Assumptions C62_emerging_borders.
Print Assumptions C62_growth.
Definition emerging_db : list (list nat) := [[1;2]; [2;3]; [1;2;3]; [1;3;4]; [1;2;3;4]; [4]].
Definition emerging_y : list nat := [0;0;1;1;1;0].
Example C62_case : mbd_fit (fun l => l) Nat.leb Nat.leb (3#10) 2 emerging_db emerging_y [0;1;2;3] [0;1;2;3] =
    Ret [([[3;1]], [1;2;3]); ([[4;1]; [3;1]; [4;3]; [3;1]], [1;3;4])]
  /\ frequent (3#10) (labelled emerging_db emerging_y 0) [2] /\ frequent (6#10) (labelled emerging_db emerging_y 1) [1;4].
Proof.
  split; [vm_compute; reflexivity|]; split; split.
  - intros x [<-|[]]; exists [1;2]; simpl; auto.
  - vm_compute; discriminate.
  - intros x Hx; exists [1;3;4]; simpl in *; intuition.
  - vm_compute; discriminate.
Qed.
Example C62_refuses_case : mbd_fit (fun l => l) Nat.leb Nat.leb (3#10) 2 emerging_db [0;0;1;1;2;0] [] [] = Exn AssertionError
  /\ mbd_fit (fun l => l) Nat.leb Nat.leb (6#10) 2 emerging_db emerging_y [0;1;2;3] [] = Exn ValueError.
Proof. split; vm_compute; reflexivity. Qed.
(* nothing frequent in the first collection: fit raises *)
Example mbd_fit_raises : mbd_fit (fun l => l) Nat.leb Nat.leb (6#10) (3#2) [[1]; [2]; [3]] [0;0;1] [] [0] = Exn IndexError.
Proof. vm_compute. reflexivity. Qed.
