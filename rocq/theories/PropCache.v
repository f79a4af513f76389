(* C97: what a data set folder holds and what is read from it; C98: files of dated events. *)
From Coq Require Import NArith String Ascii Permutation.
From Verif Require Import Prelude CheckModel LCMModel TextModel SplitModel DatasetModel ExportModel CacheModel VerticalProofs TextProofs SplitProofs PropDataset.

(* ------------------------------------------------------------ specification *)
(* a field read_csv can have returned, without carriage return *)
Definition plain_field (f : field) : Prop :=
  match f with None => True | Some t => ~ In t na_words /\ ~ In cr t end.
Definition plain_row (r : field * field) : Prop := plain_field (fst r) /\ plain_field (snd r).
Definition separator (sep : char) : Prop := sep <> nl /\ sep <> cr /\ sep <> quote.
Definition no_start_blank (t : text) : Prop := forall c, hd_error t = Some c -> c <> sp.

(* ------------------------------------------------------------------ csv proofs *)
Definition txt (f : field) : text := match f with None => [] | Some t => t end.
Lemma field_txt f : plain_field f -> field_of (txt f) = f.
Proof.
  destruct f as [t|]; simpl; intros P; unfold field_of.
  - destruct (mem t na_words) eqn:E; [apply mem_In in E; tauto | reflexivity].
  - reflexivity.
Qed.
Lemma Neqb_false a b : a <> b -> N.eqb a b = false. Proof. apply N.eqb_neq. Qed.

Section Csv.
  Context (sep : char) (skip : bool) (Hsep : separator sep).
  Notation step := (csv_step sep skip).
  Lemma plain_chars t : needs_quotes sep t = false -> forall c, In c t -> c <> sep /\ c <> quote /\ c <> nl.
  Proof using.
    intros E c Hc. assert (K : (N.eqb c sep || N.eqb c quote || N.eqb c nl) = false).
    { unfold needs_quotes in E. apply not_true_iff_false. intros K. rewrite <- not_true_iff_false in E. apply E, existsb_exists. eauto. }
    apply orb_false_iff in K. destruct K as [K K3]. apply orb_false_iff in K. destruct K as [K1 K2].
    apply N.eqb_neq in K1, K2, K3. auto.
  Qed.
  Lemma step_in r c : r_mode r <> StartRecord -> r_mode r <> WhiteLine -> step r c = field_step sep skip r c.
  Proof using. intros H1 H2. unfold csv_step. destruct (r_mode r); congruence. Qed.
  Ltac inside M := rewrite step_in by (rewrite ?M; discriminate); unfold field_step; rewrite ?M; cbn [r_mode go].
  Lemma run_plain t : forall r, r_mode r = InField -> (forall c, In c t -> c <> sep /\ c <> quote /\ c <> nl /\ c <> cr) ->
    fold_left step t r = {| r_mode := InField; r_cur := r_cur r ++ t; r_row := r_row r; r_done := r_done r |}.
  Proof using.
    induction t as [|c t IH]; intros r Hm Hc; cbn [fold_left].
    - rewrite app_nil_r, <- Hm. destruct r; reflexivity.
    - destruct (Hc c (or_introl eq_refl)) as (H1 & H2 & H3 & H4).
      inside Hm. rewrite (Neqb_false c nl), (Neqb_false c cr), (Neqb_false c sep) by assumption. cbn [andb orb].
      rewrite IH; [|reflexivity | intros; apply Hc; right; assumption]. simpl. rewrite <- app_assoc. reflexivity.
  Qed.
  Lemma run_quoted t : forall r, r_mode r = InQuotes ->
    fold_left step (doubled t) r = {| r_mode := InQuotes; r_cur := r_cur r ++ t; r_row := r_row r; r_done := r_done r |}.
  Proof using.
    unfold doubled. induction t as [|c t IH]; intros r Hm; cbn [flat_map fold_left].
    - rewrite app_nil_r, <- Hm. destruct r; reflexivity.
    - destruct (N.eqb_spec c quote) as [->|Hq]; cbn [app fold_left].
      + assert (E : step (step r quote) quote = push InQuotes quote r).
        { assert (E : step r quote = go QuoteSeen r) by (inside Hm; rewrite N.eqb_refl; reflexivity). rewrite E. reflexivity. }
        rewrite E.
        rewrite IH by reflexivity. simpl. rewrite <- app_assoc. reflexivity.
      + inside Hm. rewrite (Neqb_false c quote) by assumption.
        rewrite IH by reflexivity. simpl. rewrite <- app_assoc. reflexivity.
  Qed.
  (* blanks before a field *)
  Lemma run_blanks k : skip = true -> sep <> sp -> forall r, r_mode r = StartField -> fold_left step (repeat sp k) r = r.
  Proof using.
    intros Hk Hs. induction k as [|k IH]; intros r Hm; simpl; [reflexivity|].
    assert (E : step r sp = r).
    { inside Hm. rewrite Hk, (Neqb_false sp sep) by congruence. cbn [N.eqb andb orb]. unfold go. rewrite <- Hm. destruct r; reflexivity. }
    rewrite E. apply IH, Hm.
  Qed.
  (* a line that does not hold blanks and tabs only is read from its start *)
  Definition shows (t : text) : Prop :=
    exists w c u, t = w ++ c :: u /\ Forall (fun x => white sep x = true) w /\ white sep c = false /\ c <> nl /\ c <> cr.
  Lemma white_not x : white sep x = true -> x <> nl /\ x <> cr /\ x <> sep /\ x <> quote.
  Proof using.
    unfold white. intros E. apply andb_true_iff in E. destruct E as [E1 E2]. apply negb_true_iff, N.eqb_neq in E2.
    apply orb_true_iff in E1. destruct E1 as [E1|E1]; apply N.eqb_eq in E1; subst x; repeat split; try assumption; discriminate.
  Qed.
  Lemma run_white w : Forall (fun x => white sep x = true) w -> forall m cur row done, m = StartRecord \/ m = WhiteLine ->
    fold_left step w {| r_mode := m; r_cur := cur; r_row := row; r_done := done |} =
    {| r_mode := match w with [] => m | _ => WhiteLine end; r_cur := cur ++ w; r_row := row; r_done := done |}.
  Proof using.
    induction 1 as [|x w Hx Hw IH]; intros m cur row done Hm; cbn [fold_left]; [rewrite app_nil_r; reflexivity|].
    destruct (white_not x Hx) as (N1 & N2 & _).
    assert (E : step {| r_mode := m; r_cur := cur; r_row := row; r_done := done |} x = {| r_mode := WhiteLine; r_cur := cur ++ [x]; r_row := row; r_done := done |}).
    { unfold csv_step. cbn [r_mode r_cur]. destruct Hm as [-> | ->]; rewrite (Neqb_false x nl), (Neqb_false x cr), Hx by assumption; reflexivity. }
    rewrite E, IH by (right; reflexivity). rewrite <- app_assoc. destruct w; reflexivity.
  Qed.
  Lemma fields_white w : Forall (fun x => white sep x = true) w -> forall r, r_mode r = StartField \/ r_mode r = InField ->
    fold_left (field_step sep skip) w r = fold_left step w r /\
    (r_mode (fold_left step w r) = StartField \/ r_mode (fold_left step w r) = InField).
  Proof using.
    induction 1 as [|x w Hx Hw IH]; intros r Hm; cbn [fold_left]; [auto|].
    destruct (white_not x Hx) as (N1 & N2 & N3 & N4).
    rewrite step_in by (destruct Hm as [-> | ->]; discriminate). apply IH.
    unfold field_step. destruct Hm as [-> | ->]; rewrite (Neqb_false x nl), (Neqb_false x cr), (Neqb_false x sep) by assumption; cbn [orb andb].
    - rewrite (Neqb_false x quote) by assumption. destruct (skip && (x =? sp)%N); cbn; auto.
    - cbn. auto.
  Qed.
  Lemma run_start t row done : shows t ->
    fold_left step t {| r_mode := StartRecord; r_cur := []; r_row := row; r_done := done |} =
    fold_left step t {| r_mode := StartField; r_cur := []; r_row := row; r_done := done |}.
  Proof using.
    intros (w & c & u & -> & Hw & Hc & N1 & N2). rewrite !fold_left_app. cbn [fold_left]. rewrite run_white by auto. cbn [app]. f_equal.
    destruct (fields_white w Hw {| r_mode := StartField; r_cur := []; r_row := row; r_done := done |} (or_introl eq_refl)) as [E M].
    rewrite (step_in (fold_left step w _)) by (destruct M as [-> | ->]; discriminate). rewrite <- E. unfold csv_step. cbn [r_mode r_cur].
    rewrite (Neqb_false c nl), (Neqb_false c cr), Hc by assumption. cbn [orb]. rewrite fold_left_app. destruct w; reflexivity.
  Qed.
  Lemma shows_app t u : shows t -> shows (t ++ u).
  Proof using. intros (w & c & v & -> & H). exists w, c, (v ++ u). rewrite <- app_assoc. split; [reflexivity | exact H]. Qed.
  (* what stands before a first character that is no blank, no tab and no line end *)
  Lemma shows_at t c u : (forall x, In x t -> x <> nl /\ x <> cr) -> white sep c = false -> c <> nl -> c <> cr -> shows (t ++ c :: u).
  Proof using.
    intros Ht Hc N1 N2. induction t as [|x t IH]; [exists [], c, u; auto|]. destruct (white sep x) eqn:E.
    - destruct IH as (w & d & v & Ev & Hw & Hd); [intros y Hy; apply Ht; right; exact Hy|]. exists (x :: w), d, v. cbn [app]. rewrite Ev. auto.
    - exists [], x, (t ++ c :: u). cbn [app]. repeat split; auto; apply Ht; left; reflexivity.
  Qed.
  Lemma white_sep : white sep sep = false. Proof using. unfold white. rewrite N.eqb_refl, andb_false_r. reflexivity. Qed.
  Lemma shows_field f u : plain_field f -> shows (csv_field sep f ++ [sep] ++ u).
  Proof using Hsep.
    intros Hp. destruct Hsep as (S1 & S2 & S3). destruct f as [t|]; cbn [csv_field].
    2:{ exists [], sep, u. rewrite white_sep. auto. }
    destruct (needs_quotes sep t) eqn:Eq.
    - eexists [], quote, _. split; [reflexivity|]. repeat split; auto; discriminate.
    - apply shows_at; auto using white_sep. intros x Hx. split; [apply (plain_chars t Eq x Hx)|]. intros ->. apply (proj2 Hp), Hx.
  Qed.
  (* a field and the character that ends it *)
  Lemma run_field f r e : plain_field f -> (skip = true -> no_start_blank (csv_field sep f)) ->
    r_mode r = StartField -> r_cur r = [] -> e = sep \/ e = nl ->
    fold_left step (csv_field sep f ++ [e]) r =
      (if N.eqb e nl then end_record else end_field)
        {| r_mode := r_mode r; r_cur := txt f; r_row := r_row r; r_done := r_done r |}.
  Proof using Hsep.
    intros Hp Hb Hm Hc He. destruct Hsep as (S1 & S2 & S3).
    assert (End : forall m row cur done, m = StartField \/ m = InField \/ m = QuoteSeen ->
      step {| r_mode := m; r_cur := cur; r_row := row; r_done := done |} e =
      (if N.eqb e nl then end_record else end_field) {| r_mode := r_mode r; r_cur := cur; r_row := row; r_done := done |}).
    { intros m row cur done Hmm. rewrite step_in by (cbn; intros ->; intuition discriminate). unfold field_step. cbn [r_mode].
      destruct He as [-> | ->].
      - rewrite (Neqb_false sep nl), (Neqb_false sep cr), (Neqb_false sep quote), N.eqb_refl by assumption. cbn [orb].
        destruct Hmm as [->|[->| ->]]; reflexivity.
      - destruct Hmm as [->|[->| ->]]; reflexivity. }
    assert (Hrr : r = {| r_mode := r_mode r; r_cur := []; r_row := r_row r; r_done := r_done r |}) by (rewrite <- Hc; destruct r; reflexivity).
    rewrite fold_left_app. cbn [fold_left].
    destruct f as [t|]; cbn [csv_field txt] in *.
    2:{ cbn [fold_left]. rewrite Hrr at 1. apply End. tauto. }
    destruct Hp as [Hna Hcr]. destruct (needs_quotes sep t) eqn:Eq.
    - rewrite !fold_left_app. cbn [fold_left].
      assert (E1 : step r quote = {| r_mode := InQuotes; r_cur := []; r_row := r_row r; r_done := r_done r |}).
      { inside Hm. unfold go. rewrite Hc, (Neqb_false quote sep) by congruence. reflexivity. }
      rewrite E1, run_quoted by reflexivity. cbn [r_cur r_row r_done app].
      assert (E2 : step {| r_mode := InQuotes; r_cur := t; r_row := r_row r; r_done := r_done r |} quote =
                   {| r_mode := QuoteSeen; r_cur := t; r_row := r_row r; r_done := r_done r |}) by reflexivity.
      rewrite E2. apply End. tauto.
    - pose proof (plain_chars t Eq) as Hch. destruct t as [|c t]; [exfalso; apply Hna; left; reflexivity|].
      assert (Hcc : forall x, In x (c :: t) -> x <> sep /\ x <> quote /\ x <> nl /\ x <> cr).
      { intros x Hx. destruct (Hch x Hx) as (? & ? & ?). repeat split; try assumption. intros ->. contradiction. }
      destruct (Hcc c (or_introl eq_refl)) as (H1 & H2 & H3 & H4). cbn [fold_left].
      assert (E1 : step r c = {| r_mode := InField; r_cur := [c]; r_row := r_row r; r_done := r_done r |}).
      { assert (Hsk : (true && skip && N.eqb c sp) = false).
        { destruct skip; [|reflexivity]. cbn [andb]. apply Neqb_false. apply Hb; reflexivity. }
        inside Hm. rewrite (Neqb_false c nl), (Neqb_false c cr), (Neqb_false c sep), (Neqb_false c quote), Hsk by assumption.
        unfold push. rewrite Hc. reflexivity. }
      rewrite E1, run_plain; [|reflexivity | intros x Hx; apply Hcc; right; exact Hx]. cbn [r_cur r_row r_done app].
      apply End. tauto.
  Qed.
End Csv.

Lemma run_lines sep skip k rows : separator sep -> (skip = true -> sep <> sp) -> (skip = false -> k = 0) ->
  Forall plain_row rows -> (skip = true -> Forall (fun r => no_start_blank (csv_field sep (fst r)) /\ no_start_blank (csv_field sep (snd r))) rows) ->
  forall done, fold_left (csv_step sep skip) (flat_map (fun r => csv_field sep (fst r) ++ [sep] ++ repeat sp k ++ csv_field sep (snd r) ++ [nl]) rows)
    {| r_mode := StartRecord; r_cur := []; r_row := []; r_done := done |} =
    {| r_mode := StartRecord; r_cur := []; r_row := []; r_done := done ++ map (fun r => [txt (fst r); txt (snd r)]) rows |}.
Proof.
  intros Hsep Hsp Hk Hp Hb. induction Hp as [|r rows [P1 P2] Hp IH]; intros done; cbn [flat_map map].
  - rewrite app_nil_r. reflexivity.
  - rewrite <- !app_assoc, run_start by (apply shows_field; assumption). rewrite (app_assoc (csv_field sep (fst r)) [sep]), fold_left_app.
    rewrite (run_field sep skip Hsep) by (try assumption; try (intros Hs; specialize (Hb Hs); inversion Hb; tauto); cbn; auto).
    destruct Hsep as (S1 & S2 & S3). rewrite (Neqb_false sep nl S1). cbn [r_mode r_row r_cur r_done end_field app].
    rewrite fold_left_app.
    assert (Hbl : forall q, r_mode q = StartField -> fold_left (csv_step sep skip) (repeat sp k) q = q).
    { intros q Hq. destruct skip.
      - apply run_blanks; auto.
      - rewrite (Hk eq_refl). reflexivity. }
    rewrite Hbl by reflexivity.
    match goal with |- context [csv_field sep (snd r) ++ nl :: ?x] => change (nl :: x) with ([nl] ++ x) end.
    rewrite (app_assoc (csv_field sep (snd r)) [nl]), fold_left_app.
    rewrite (run_field sep skip (conj S1 (conj S2 S3))) by (try assumption; try (intros Hs; specialize (Hb Hs); inversion Hb; tauto); cbn; auto).
    rewrite N.eqb_refl. unfold end_record, end_field at 1. cbn [r_mode r_row r_cur r_done end_field].
    etransitivity; [apply IH|].
    + intros Hs. specialize (Hb Hs). inversion Hb. assumption.
    + rewrite <- app_assoc. reflexivity.
Qed.
Lemma table_lines sep skip k rows : separator sep -> (skip = true -> sep <> sp) -> (skip = false -> k = 0) -> rows <> [] ->
  Forall plain_row rows -> (skip = true -> Forall (fun r => no_start_blank (csv_field sep (fst r)) /\ no_start_blank (csv_field sep (snd r))) rows) ->
  csv_table sep skip (flat_map (fun r => csv_field sep (fst r) ++ [sep] ++ repeat sp k ++ csv_field sep (snd r) ++ [nl]) rows)
  = Ret (2, map (fun r => [fst r; snd r]) rows).
Proof.
  intros Hsep Hsp Hk Hne Hp Hb. unfold csv_table, csv_records, csv_run. rewrite (run_lines sep skip k rows) by assumption.
  cbn [r_mode r_done bind app].
  assert (Hl : existsb (fun r : list text => 2 <? length r) (map (fun r : field * field => [txt (fst r); txt (snd r)]) rows) = false).
  { apply not_true_iff_false. intros K. apply existsb_exists in K. destruct K as (x & Hx & Hl). apply in_map_iff in Hx. destruct Hx as (y & <- & _). discriminate. }
  assert (Hm : map (fun r : list text => map field_of r ++ repeat None (2 - length r)) (map (fun r : field * field => [txt (fst r); txt (snd r)]) rows)
               = map (fun r => [fst r; snd r]) rows).
  { rewrite map_map. apply map_ext_in. intros r Hr. rewrite Forall_forall in Hp. destruct (Hp r Hr) as [P1 P2].
    cbn [map length Nat.sub repeat app]. rewrite !field_txt by assumption. reflexivity. }
  destruct rows as [|r0 rows]; [congruence|]. cbn [map] in *. cbn [length]. rewrite Hl. f_equal. f_equal. exact Hm.
Qed.
(* what to_csv writes, read_csv reads *)
Theorem C97_csv : forall sep rows, separator sep -> rows <> [] -> Forall plain_row rows ->
  csv_table sep false (csv_text sep rows) = Ret (2, map (fun r => [fst r; snd r]) rows).
Proof.
  intros sep rows Hsep Hne Hp. apply (table_lines sep false 0 rows Hsep); try discriminate; auto.
Qed.

(* ---------------------------------------------------------------- the folder *)
Section Folder.
  Context (home : text) (gunzip : text -> option text) (atomic : bool) (url_fimi url_cgi url_tv url_health : text).
  Notation fetch := (fetch home gunzip atomic url_fimi url_cgi url_tv url_health).
  Notation after := (after home gunzip atomic url_fimi url_cgi url_tv url_health).
  (* ------------------------------------------------------------ specification *)
  (* the file a call is about *)
  Definition place (c : call) : text := match c_home c with Some (x :: h) => x :: h | _ => home end.
  (* a reply that comes from a file *)
  Definition from_file (r : reply) : Prop := match r with Raised NoFolder | Raised NoAnswer | Killed => False | _ => True end.
  Definition good_rows (w : world) : Prop := forall url rows, w_rows w url = Some rows -> rows <> [] /\ Forall plain_row rows.
  (* what is read from the text of a file *)
  Definition contents (q : request) (t : text) : reply := match q with Any cgi => read_any gunzip cgi t | _ => read_log t end.
  (* the text a call stores when the file is not there *)
  Definition wanted (w : world) (c : call) : option text :=
    match c_what c with
    | Any true => w_text w (url_cgi ++ c_file c)
    | Any false => w_text w (url_fimi ++ c_file c)
    | Tv => option_map (csv_text comma) (w_rows w url_tv)
    | Health => option_map (csv_text comma) (w_rows w url_health)
    end.

  (* ------------------------------------------------------------------ proofs *)
  Lemma stored_store d h f t h' f' : dget d h <> None -> stored (store d h f t) h' f' = if eqd (h', f') (h, f) then Some t else stored d h' f'.
  Proof.
    intros Hd. unfold stored, store, eqd. destruct (dget d h) as [fs|] eqn:E; [|congruence]. rewrite dget_dset.
    destruct (eq_dec h' h) as [->|Hh].
    - rewrite dget_dset. rewrite E. destruct (eq_dec f' f) as [->|Hf]; destruct (eq_dec (h, _) (h, f)) as [K|K]; try congruence; reflexivity.
    - destruct (eq_dec (h', f') (h, f)) as [K|K]; [congruence | reflexivity].
  Qed.
  Lemma store_folder d h f t h' : dget (store d h f t) h' <> None <-> dget d h' <> None.
  Proof.
    unfold store. destruct (dget d h) as [fs|] eqn:E; [|tauto]. rewrite dget_dset. destruct (eq_dec h' h) as [->|]; [|tauto].
    rewrite E. split; discriminate.
  Qed.
  Definition opened (d : disk) (c : call) : disk := fst (folder home d (c_home c)).
  Lemma folder_place d c : folder home d (c_home c) = (opened d c, place c).
  Proof. unfold opened, folder, place. destruct (c_home c) as [[|x h]|]; reflexivity. Qed.
  Lemma opened_stored d c h f : stored (opened d c) h f = stored d h f.
  Proof.
    unfold opened, folder. destruct (c_home c) as [[|x t]|]; cbn [fst]; try reflexivity;
      unfold get_data_home; (destruct (dget d home) eqn:E; [reflexivity|]); unfold stored; rewrite dget_dset;
      (destruct (eq_dec h home) as [->|]; [rewrite E; reflexivity | reflexivity]).
  Qed.
  Lemma opened_folder d c h : dget d h <> None -> dget (opened d c) h <> None.
  Proof.
    intros Hd. unfold opened, folder. destruct (c_home c) as [[|x t]|]; cbn [fst]; try exact Hd;
      unfold get_data_home; (destruct (dget d home) eqn:E; [exact Hd|]); rewrite dget_dset; (destruct (eq_dec h home); [discriminate | exact Hd]).
  Qed.
  (* one call, in one statement *)
  Lemma fetch_spec w d c : let '(d', r) := fetch w d c in
    match stored d (place c) (c_file c) with
    | Some t => d' = opened d c /\ r = contents (c_what c) t
    | None =>
        if match dget (opened d c) (place c) with None => true | _ => false end then d' = opened d c /\ r = Raised NoFolder
        else match wanted w c with
        | None => d' = opened d c /\ r = Raised NoAnswer
        | Some t =>
            match w_kill w with
            | Some k => if k <? length t
                        then r = Killed /\ (d' = store (opened d c) (place c) (c_file c) (firstn k t) \/
                                            (d' = opened d c /\ atomic = true /\ exists cgi, c_what c = Any cgi))
                             /\ (atomic = true -> (exists cgi, c_what c = Any cgi) -> d' = opened d c)
                        else d' = store (opened d c) (place c) (c_file c) t /\
                             (r = contents (c_what c) t \/ exists url rows, w_rows w url = Some rows /\ t = csv_text comma rows /\ r = Log rows)
            | None => d' = store (opened d c) (place c) (c_file c) t /\
                      (r = contents (c_what c) t \/ exists url rows, w_rows w url = Some rows /\ t = csv_text comma rows /\ r = Log rows)
            end
        end
    end.
  Proof.
    rewrite <- (opened_stored d c). unfold CacheModel.fetch, wanted, contents, stored.
    assert (L : forall url, c_what c = Tv \/ c_what c = Health ->
      let '(d', r) := fetch_log home url w d (c_file c) (c_home c) in
      match match dget (opened d c) (place c) with Some fs => dget fs (c_file c) | None => None end with
      | Some t => d' = opened d c /\ r = read_log t
      | None =>
          if match dget (opened d c) (place c) with None => true | _ => false end then d' = opened d c /\ r = Raised NoFolder
          else match option_map (csv_text comma) (w_rows w url) with
          | None => d' = opened d c /\ r = Raised NoAnswer
          | Some t =>
            match w_kill w with
            | Some k => if k <? length t
                        then r = Killed /\ (d' = store (opened d c) (place c) (c_file c) (firstn k t) \/
                                            (d' = opened d c /\ atomic = true /\ exists cgi, c_what c = Any cgi))
                             /\ (atomic = true -> (exists cgi, c_what c = Any cgi) -> d' = opened d c)
                        else d' = store (opened d c) (place c) (c_file c) t /\
                             (r = read_log t \/ exists url rows, w_rows w url = Some rows /\ t = csv_text comma rows /\ r = Log rows)
            | None => d' = store (opened d c) (place c) (c_file c) t /\
                      (r = read_log t \/ exists url rows, w_rows w url = Some rows /\ t = csv_text comma rows /\ r = Log rows)
            end
          end
      end).
    { intros url Hw. unfold fetch_log. rewrite folder_place. destruct (dget (opened d c) (place c)) as [fs|] eqn:Ed; [|auto].
      destruct (dget fs (c_file c)) as [t|] eqn:Ef; [auto|]. destruct (w_rows w url) as [rows|] eqn:Er; cbn [option_map]; [|auto].
      unfold write. destruct (w_kill w) as [k|]; [destruct (k <? length (csv_text comma rows)) eqn:Ek|].
      - split; [reflexivity|]. split; [left; reflexivity|]. intros _ [cgi K]. destruct Hw; congruence.
      - split; [reflexivity|]. right. eauto.
      - split; [reflexivity|]. right. eauto. }
    destruct (c_what c) as [cgi| |] eqn:Ec.
    - unfold fetch_any. rewrite folder_place. destruct (dget (opened d c) (place c)) as [fs|] eqn:Ed; [|auto].
      destruct (dget fs (c_file c)) as [t|] eqn:Ef; [auto|].
      assert (Hu : w_text w ((if cgi then url_cgi else url_fimi) ++ c_file c) = if cgi then w_text w (url_cgi ++ c_file c) else w_text w (url_fimi ++ c_file c)) by (destruct cgi; reflexivity).
      rewrite Hu. replace (match cgi with true => _ | false => _ end) with (if cgi then w_text w (url_cgi ++ c_file c) else w_text w (url_fimi ++ c_file c)) by (destruct cgi; reflexivity).
      destruct (if cgi then w_text w (url_cgi ++ c_file c) else w_text w (url_fimi ++ c_file c)) as [t|]; [|auto].
      unfold download. destruct (w_kill w) as [k|]; [destruct (k <? length t) eqn:Ek|].
      + split; [reflexivity|]. destruct atomic; split; eauto. discriminate.
      + auto.
      + auto.
    - apply (L url_tv). auto.
    - apply (L url_health). auto.
  Qed.

  (* A file that is there stays as it is, whatever is fetched, downloaded or interrupted later. *)
  Lemma kept_once w d c h f t : stored d h f = Some t -> stored (fst (fetch w d c)) h f = Some t.
  Proof.
    intros Hs. pose proof (fetch_spec w d c) as Hf. destruct (fetch w d c) as [d' r]. cbn [fst].
    rewrite <- (opened_stored d c) in Hs.
    assert (Hst : forall x, stored d (place c) (c_file c) = None -> stored (store (opened d c) (place c) (c_file c) x) h f = Some t).
    { intros x Hn. destruct (dget (opened d c) (place c)) as [fs|] eqn:Ed.
      - rewrite stored_store by congruence. destruct (eqd (h, f) (place c, c_file c)) eqn:E; [|exact Hs].
        unfold eqd in E. destruct (eq_dec (h, f) (place c, c_file c)) as [K|]; [|discriminate]. injection K as -> ->. rewrite opened_stored in Hs. congruence.
      - unfold store. rewrite Ed. exact Hs. }
    destruct (stored d (place c) (c_file c)) as [t'|]; [destruct Hf as [-> _]; exact Hs|].
    destruct (match dget (opened d c) (place c) with None => true | _ => false end); [destruct Hf as [-> _]; exact Hs|].
    destruct (wanted w c) as [x|]; [|destruct Hf as [-> _]; exact Hs].
    destruct (w_kill w) as [k|]; [destruct (k <? length x)|].
    - destruct Hf as (_ & [->|[-> _]] & _); [apply Hst; reflexivity | exact Hs].
    - destruct Hf as [-> _]. apply Hst; reflexivity.
    - destruct Hf as [-> _]. apply Hst; reflexivity.
  Qed.
  Theorem C97_kept : forall d cs h f t, stored d h f = Some t -> stored (after d cs) h f = Some t.
  Proof.
    intros d cs. revert d. induction cs as [|[w c] cs IH]; intros d h f t Hs; [exact Hs|].
    unfold CacheModel.after. cbn [fold_left]. apply IH. cbn [fst snd]. apply kept_once, Hs.
  Qed.

  (* A data set that was read is read again, the same, after any history of calls and whatever the servers
     send by then or whether they answer at all. *)
  Theorem C97_again : forall w d c d' r cs w', fetch w d c = (d', r) -> from_file r -> good_rows w ->
    fetch w' (after d' cs) c = (after d' cs, r).
  Proof.
    intros w d c d' r cs w' Hf Hr Hg.
    assert (G : exists t, stored d' (place c) (c_file c) = Some t /\ contents (c_what c) t = r).
    { pose proof (fetch_spec w d c) as Hs. rewrite Hf in Hs.
      destruct (stored d (place c) (c_file c)) as [t|] eqn:E.
      - destruct Hs as [-> ->]. exists t. rewrite opened_stored. auto.
      - destruct (dget (opened d c) (place c)) as [fs|] eqn:Ed; [|destruct Hs as [_ ->]; destruct Hr].
        destruct (wanted w c) as [t|] eqn:Ew; [|destruct Hs as [_ ->]; destruct Hr].
        assert (F : d' = store (opened d c) (place c) (c_file c) t /\
                    (r = contents (c_what c) t \/ exists url rows, w_rows w url = Some rows /\ t = csv_text comma rows /\ r = Log rows)).
        { destruct (w_kill w) as [k|]; [destruct (k <? length t)|]; try exact Hs. destruct Hs as [-> _]. destruct Hr. }
        destruct F as [-> F]. exists t. split.
        + rewrite stored_store by congruence. unfold eqd. destruct (eq_dec (place c, c_file c) (place c, c_file c)); congruence.
        + destruct F as [->|(url & rows & Er & -> & ->)]; [reflexivity|]. destruct (Hg url rows Er) as [Hne Hp].
          unfold contents. destruct (c_what c) as [cgi| |] eqn:Ec.
          * pose proof Hf as Hf'. unfold CacheModel.fetch in Hf'. rewrite Ec in Hf'. unfold fetch_any in Hf'. rewrite folder_place, Ed in Hf'.
            exfalso. rewrite <- (opened_stored d c) in E. unfold stored in E. rewrite Ed in E.
            rewrite E in Hf'. destruct (w_text w ((if cgi then url_cgi else url_fimi) ++ c_file c)) as [x|]; [|discriminate].
            destruct (download atomic w (opened d c) (place c) (c_file c) x) as [dd []]; [|discriminate].
            assert (K : read_any gunzip cgi x = Log rows) by congruence. unfold read_any in K.
            destruct (if cgi then gunzip x else Some x); [destruct (read_dat_int [sp] t)|]; discriminate.
          * unfold read_log. rewrite C97_csv by (auto; repeat split; discriminate). cbn. f_equal. rewrite map_map. rewrite <- (map_id rows) at 2. apply map_ext. intros [a b]; reflexivity.
          * unfold read_log. rewrite C97_csv by (auto; repeat split; discriminate). cbn. f_equal. rewrite map_map. rewrite <- (map_id rows) at 2. apply map_ext. intros [a b]; reflexivity. }
    destruct G as (t & Ht & <-). pose proof (C97_kept d' cs _ _ _ Ht) as Hk.
    pose proof (fetch_spec w' (after d' cs) c) as Hs. destruct (fetch w' (after d' cs) c) as [d2 r2]. rewrite Hk in Hs. destruct Hs as [-> ->].
    f_equal. unfold opened, folder. destruct (c_home c) as [[|x h]|] eqn:Eh; cbn [fst]; try reflexivity;
      unfold get_data_home; unfold stored, place in Hk; rewrite Eh in Hk; (destruct (dget (after d' cs) home); [reflexivity | discriminate]).
  Qed.

  (* The first time, the answer is what the server has, and it is stored. *)
  Theorem C97_first : forall w d c d' r, fetch w d c = (d', r) -> stored d (place c) (c_file c) = None -> c_home c = None \/ dget d (place c) <> None -> w_kill w = None ->
    (forall D, c_what c = Any false -> w_text w (url_fimi ++ c_file c) = Some (write_dat [sp] (map (map str_z) D)) -> (forall t, In t D -> t <> []) ->
       r = Data D /\ stored d' (place c) (c_file c) = Some (write_dat [sp] (map (map str_z) D))) /\
    (forall D z, c_what c = Any true -> w_text w (url_cgi ++ c_file c) = Some z -> gunzip z = Some (write_dat [sp] (map (map str_z) D)) -> (forall t, In t D -> t <> []) ->
       r = Data D /\ stored d' (place c) (c_file c) = Some z) /\
    (forall rows, c_what c = Tv -> w_rows w url_tv = Some rows -> r = Log rows /\ stored d' (place c) (c_file c) = Some (csv_text comma rows)) /\
    (forall rows, c_what c = Health -> w_rows w url_health = Some rows -> r = Log rows /\ stored d' (place c) (c_file c) = Some (csv_text comma rows)).
  Proof.
    intros w d c d' r Hf Hn Hh Hk. unfold CacheModel.fetch in Hf.
    assert (Ho : exists fs, dget (opened d c) (place c) = Some fs /\ dget fs (c_file c) = None).
    { destruct (dget (opened d c) (place c)) as [fs|] eqn:E.
      - exists fs. split; [reflexivity|]. rewrite <- (opened_stored d c) in Hn. unfold stored in Hn. rewrite E in Hn. exact Hn.
      - exfalso. destruct Hh as [Hh|Hh]; [|apply (opened_folder d c) in Hh; congruence].
        unfold opened, folder, place in E. rewrite Hh in E. cbn [fst] in E. unfold get_data_home in E.
        destruct (dget d home) eqn:E'; [congruence|]. rewrite dget_dset in E. destruct (eq_dec home home); congruence. }
    destruct Ho as (fs & Hf1 & Hf2).
    assert (Hst : forall t, stored (store (opened d c) (place c) (c_file c) t) (place c) (c_file c) = Some t).
    { intros t. rewrite stored_store by congruence. unfold eqd. destruct (eq_dec (place c, c_file c) (place c, c_file c)); congruence. }
    assert (Hint : forall D : list (list Z), (forall t, In t D -> t <> []) -> read_dat_int [sp] (write_dat [sp] (map (map str_z) D)) = Ret D).
    { intros D HD. apply C61_int; [repeat constructor | intros K; vm_compute in K; intuition discriminate | discriminate | exact HD]. }
    destruct (c_what c) as [cgi| |] eqn:Ec; unfold fetch_any, fetch_log in Hf; rewrite folder_place, Hf1, Hf2 in Hf.
    - split; [|split; [|split; discriminate]].
      + intros D [= ->] Ew HD. rewrite Ew in Hf. unfold download in Hf. rewrite Hk in Hf. unfold read_any in Hf. rewrite Hint in Hf by exact HD.
        injection Hf as <- <-. auto.
      + intros D z [= ->] Ew Eg HD. rewrite Ew in Hf. unfold download in Hf. rewrite Hk in Hf. unfold read_any in Hf.
        rewrite Eg, Hint in Hf by exact HD. injection Hf as <- <-. auto.
    - split; [discriminate|]. split; [discriminate|]. split; [|discriminate]. intros rows _ Er. rewrite Er in Hf. unfold write in Hf. rewrite Hk in Hf.
      injection Hf as <- <-. auto.
    - split; [discriminate|]. split; [discriminate|]. split; [discriminate|]. intros rows _ Er. rewrite Er in Hf. unfold write in Hf. rewrite Hk in Hf.
      injection Hf as <- <-. auto.
  Qed.

  (* Fetching touches no other file and creates no folder but the default one; when nothing was
     downloaded, no file changes; a process that is killed leaves the beginning of the file, or nothing
     if downloads are atomic. *)
  Theorem C97_others : forall w d c d' r, fetch w d c = (d', r) ->
    (forall h f, (h, f) <> (place c, c_file c) -> stored d' h f = stored d h f) /\
    (forall h, dget d' h <> None -> dget d h <> None \/ h = home) /\
    (r = Raised NoFolder \/ r = Raised NoAnswer -> forall h f, stored d' h f = stored d h f) /\
    (r = Killed -> stored d (place c) (c_file c) = None /\ exists t k, wanted w c = Some t /\ k < length t /\
       (stored d' (place c) (c_file c) = Some (firstn k t) \/ (atomic = true /\ (exists cgi, c_what c = Any cgi) /\ stored d' (place c) (c_file c) = None)) /\
       (atomic = true -> (exists cgi, c_what c = Any cgi) -> stored d' (place c) (c_file c) = None)).
  Proof.
    intros w d c d' r Hf. pose proof (fetch_spec w d c) as Hs. rewrite Hf in Hs.
    assert (Hnew : forall h, dget (opened d c) h <> None -> dget d h <> None \/ h = home).
    { intros h. unfold opened, folder. destruct (c_home c) as [[|x t]|]; cbn [fst]; auto;
        unfold get_data_home; (destruct (dget d home) eqn:E; [auto|]); rewrite dget_dset; (destruct (eq_dec h home); auto). }
    assert (Same : d' = opened d c -> (forall h f, stored d' h f = stored d h f) /\ (forall h, dget d' h <> None -> dget d h <> None \/ h = home)).
    { intros ->. split; [intros; apply opened_stored | exact Hnew]. }
    assert (Put : forall t, dget (opened d c) (place c) <> None -> d' = store (opened d c) (place c) (c_file c) t ->
      (forall h f, (h, f) <> (place c, c_file c) -> stored d' h f = stored d h f) /\ (forall h, dget d' h <> None -> dget d h <> None \/ h = home)
      /\ stored d' (place c) (c_file c) = Some t).
    { intros t Hd ->. split; [|split].
      - intros h f Hne. rewrite stored_store by exact Hd. unfold eqd. destruct (eq_dec (h, f) (place c, c_file c)); [congruence|]. apply opened_stored.
      - intros h Hh. apply store_folder in Hh. apply Hnew, Hh.
      - rewrite stored_store by exact Hd. unfold eqd. destruct (eq_dec (place c, c_file c) (place c, c_file c)); congruence. }
    assert (Hcont : forall q t, contents q t <> Raised NoFolder /\ contents q t <> Raised NoAnswer /\ contents q t <> Killed).
    { intros [cgi| |] t; unfold contents, read_any, read_log; repeat split;
        try (destruct (if cgi then gunzip t else Some t) as [x|]; [destruct (read_dat_int [sp] x)|]; discriminate);
        (destruct (csv_table comma false t) as [[n rows]| |]; [destruct (n =? 2)| |]; discriminate). }
    destruct (stored d (place c) (c_file c)) as [t|] eqn:Es.
    - destruct Hs as [Hd ->]. destruct (Same Hd) as [S1 S2]. destruct (Hcont (c_what c) t) as (C1 & C2 & C3).
      split; [auto|]. split; [exact S2|]. split; [intros [K|K]; congruence | congruence].
    - destruct (dget (opened d c) (place c)) as [fs|] eqn:Ed.
      2:{ destruct Hs as [Hd ->]. destruct (Same Hd) as [S1 S2]. split; [auto|]. split; [exact S2|]. split; [auto | discriminate]. }
      destruct (wanted w c) as [t|].
      2:{ destruct Hs as [Hd ->]. destruct (Same Hd) as [S1 S2]. split; [auto|]. split; [exact S2|]. split; [auto | discriminate]. }
      assert (Full : d' = store (opened d c) (place c) (c_file c) t /\
         (r = contents (c_what c) t \/ exists url rows, w_rows w url = Some rows /\ t = csv_text comma rows /\ r = Log rows) ->
         (forall h f, (h, f) <> (place c, c_file c) -> stored d' h f = stored d h f) /\
         (forall h, dget d' h <> None -> dget d h <> None \/ h = home) /\
         (r = Raised NoFolder \/ r = Raised NoAnswer -> forall h f, stored d' h f = stored d h f) /\ r <> Killed).
      { intros [Hd Hr]. destruct (Put t) as (P1 & P2 & P3); [congruence | exact Hd|]. split; [exact P1|]. split; [exact P2|].
        destruct (Hcont (c_what c) t) as (C1 & C2 & C3).
        destruct Hr as [->|(u & rows & _ & _ & ->)]; (split; [intros [K|K]; congruence | congruence]). }
      destruct (w_kill w) as [k|]; [destruct (k <? length t) eqn:Ek|].
      + destruct Hs as (-> & Hd & Ha). apply Nat.ltb_lt in Ek.
        assert (Hnone : stored (opened d c) (place c) (c_file c) = None) by (rewrite opened_stored; exact Es).
        destruct Hd as [Hd|(Hd & Hat & Hany)].
        * destruct (Put (firstn k t)) as (P1 & P2 & P3); [congruence | exact Hd|]. split; [exact P1|]. split; [exact P2|]. split; [intros [K|K]; discriminate|].
          intros _. split; [reflexivity|]. exists t, k. repeat split; auto. intros H1 H2. rewrite (Ha H1 H2). exact Hnone.
        * destruct (Same Hd) as [S1 S2]. split; [auto|]. split; [exact S2|]. split; [intros [K|K]; discriminate|].
          intros _. split; [reflexivity|]. exists t, k. rewrite Hd. repeat split; auto.
      + destruct (Full Hs) as (F1 & F2 & F3 & F4). repeat split; auto; contradiction.
      + destruct (Full Hs) as (F1 & F2 & F3 & F4). repeat split; auto; contradiction.
  Qed.
End Folder.
Print Assumptions C97_csv.
Print Assumptions C97_kept.
Print Assumptions C97_again.
Print Assumptions C97_first.
Print Assumptions C97_others.

(* ------------------------------------------------------------ a concrete folder *)
Definition demo_fetch := fetch (lit "data") (fun t => Some t) true (lit "http://fimi/") (lit "https://cgi/") (lit "tv") (lit "health").
Definition demo_after := after (lit "data") (fun t => Some t) true (lit "http://fimi/") (lit "https://cgi/") (lit "tv") (lit "health").
Definition demo_rows : list (field * field) :=
  [(Some (lit "2020-08-01 06:00:00"), Some (lit "The ""Moblees"", again")); (Some (lit "2020-08-01 06:11:00"), None);
   (Some (lit "2020-08-01 06:13:00"), Some (lit "CBC Kids"))].
Definition demo_dat : text := write_dat [sp] (map (map str_z) [[1; 3]; [2; 3; 5]]%Z).
Definition online : world :=
  {| w_text := fun u => if eqd u (lit "http://fimi/chess.dat") then Some demo_dat
                        else if eqd u (lit "https://cgi/chess.dat") then Some (write_dat [sp] (map (map str_z) [[7]]%Z)) else None;
     w_rows := fun u => if eqd u (lit "tv") then Some demo_rows else None; w_kill := None |}.
Definition offline : world := {| w_text := fun _ => None; w_rows := fun _ => None; w_kill := None |}.
Definition killed_at (k : nat) : world := {| w_text := w_text online; w_rows := w_rows online; w_kill := Some k |}.
Definition chess (cgi : bool) : call := {| c_what := Any cgi; c_file := lit "chess.dat"; c_home := None |}.
Definition tv : call := {| c_what := Tv; c_file := lit "canadian_tv.txt"; c_home := None |}.
Lemma demo_good : good_rows online.
Proof.
  intros url rows. simpl. destruct (eqd url (lit "tv")); [|discriminate]. intros [= <-]. split; [discriminate|].
  repeat constructor; simpl; (intros K; repeat (destruct K as [K|K]; [discriminate|]); exact K).
Qed.
Example C97_case :
  let '(d1, r1) := demo_fetch online [] (chess false) in
  let '(d2, r2) := demo_fetch online d1 tv in
  let '(d3, r3) := demo_fetch offline d2 tv in
  r1 = Data [[1; 3]; [2; 3; 5]]%Z /\ r2 = Log demo_rows /\ r3 = Log demo_rows /\ snd (demo_fetch offline d3 (chess false)) = r1 /\
  from_file r1 /\ from_file r2 /\ good_rows online.
Proof.
  destruct (demo_fetch online [] (chess false)) as [d1 r1] eqn:E1. vm_compute in E1. injection E1 as <- <-.
  match goal with |- context [demo_fetch online ?d tv] => destruct (demo_fetch online d tv) as [d2 r2] eqn:E2 end.
  vm_compute in E2. injection E2 as <- <-.
  match goal with |- context [demo_fetch offline ?d tv] => destruct (demo_fetch offline d tv) as [d3 r3] eqn:E3 end.
  vm_compute in E3. injection E3 as <- <-. repeat match goal with |- _ /\ _ => split end; try exact demo_good; vm_compute; try reflexivity; exact I.
Qed.
(* Killed while it writes the log, the process leaves a file that later fetches take for the data set:
   they answer without it being complete, or raise, although the server still has it. *)
Theorem C97_killed_refuted : exists k d, demo_fetch (killed_at k) [] tv = (d, Killed) /\
  snd (demo_fetch online d tv) = Log (firstn 2 demo_rows) /\ length (firstn 2 demo_rows) < length demo_rows.
Proof. exists 65, (fst (demo_fetch (killed_at 65) [] tv)). repeat split; vm_compute; reflexivity. Qed.
Theorem C97_emptied_refuted : exists d, demo_fetch (killed_at 0) [] tv = (d, Killed) /\ snd (demo_fetch online d tv) = Raised Unreadable.
Proof. exists (fst (demo_fetch (killed_at 0) [] tv)). split; vm_compute; reflexivity. Qed.
(* The folder knows a data set by its file name only: the data set of another server is not fetched. *)
Theorem C97_source_refuted : let d := fst (demo_fetch online [] (chess false)) in
  snd (demo_fetch online [] (chess true)) = Data [[7]]%Z /\ snd (demo_fetch online d (chess true)) = Data [[1; 3]; [2; 3; 5]]%Z.
Proof. split; vm_compute; reflexivity. Qed.
(* A page that is no data set is stored like one: from then on every fetch raises. *)
Definition error_page : world := {| w_text := fun _ => Some (lit "<html>"); w_rows := fun _ => None; w_kill := None |}.
Theorem C97_error_page_refuted : let '(d, r) := demo_fetch error_page [] (chess false) in
  r = Raised Unreadable /\ forall cs w, snd (demo_fetch w (demo_after d cs) (chess false)) = Raised Unreadable.
Proof.
  destruct (demo_fetch error_page [] (chess false)) as [d r] eqn:E. assert (Hr : r = Raised Unreadable) by (vm_compute in E; congruence).
  split; [exact Hr|]. intros cs w. unfold demo_fetch, demo_after in *.
  rewrite (C97_again _ _ _ _ _ _ _ error_page [] (chess false) d r cs w E); [exact Hr | rewrite Hr; exact I | discriminate].
Qed.
(* The folder a caller names must exist; only the default one is made. *)
Theorem C97_folder_refuted : demo_fetch online [] {| c_what := Tv; c_file := lit "canadian_tv.txt"; c_home := Some (lit "mine") |} = ([], Raised NoFolder).
Proof. vm_compute. reflexivity. Qed.
Print Assumptions C97_killed_refuted.
Print Assumptions C97_emptied_refuted.
Print Assumptions C97_source_refuted.
Print Assumptions C97_error_page_refuted.
Print Assumptions C97_folder_refuted.

(* ============================================================ C98: files of dated events *)
(* a file of two columns, with k blanks after the separator, and one of one column; the first column may be
   put between quotes, like any other field *)
Definition two_columns (sep : char) (k : nat) (rows : list (field * field)) : text :=
  flat_map (fun r => csv_field sep (fst r) ++ [sep] ++ repeat sp k ++ csv_field sep (snd r) ++ [nl]) rows.
Definition one_column (sep : char) (events : list text) : text := flat_map (fun e => csv_field sep (Some e) ++ [nl]) events.
(* an event that is no word for a missing value, holds no carriage return and starts with no blank; one that
   can stand alone in its line is not made of tabs *)
Definition event (e : text) : Prop := ~ In e na_words /\ ~ In cr e /\ no_start_blank e.
Definition visible (e : text) : Prop := exists c, In c e /\ c <> sp /\ c <> tab.

Lemma event_field e sep : event e -> plain_field (Some e) /\ no_start_blank (csv_field sep (Some e)).
Proof.
  intros (E1 & E2 & E3). split; [split; assumption|]. cbn [csv_field]. destruct (needs_quotes sep e); [|exact E3].
  intros c Hc. injection Hc as <-. discriminate.
Qed.
Lemma event_opt o sep : (forall e, o = Some e -> event e) -> plain_field o /\ no_start_blank (csv_field sep o).
Proof. destruct o as [e|]; intros He; [apply event_field, He; reflexivity | split; [exact I | intros c Hc; discriminate]]. Qed.
Lemma number_event z : event (str_z z).
Proof.
  split; [|split].
  - intros K. assert (F : Forall (fun t => parse_int t = None) na_words) by (repeat constructor).
    rewrite Forall_forall in F. specialize (F _ K). rewrite parse_str_z in F. discriminate.
  - intros K. apply str_z_chars in K. destruct K as [K|K]; [|discriminate]. unfold is_digit in K. vm_compute in K. intuition congruence.
  - intros c Hc. pose proof (str_z_no_space z) as F. destruct (str_z z) as [|x t]; [discriminate|]. inversion F as [|? ? Hx]; subst.
    injection Hc as ->. intros ->. discriminate.
Qed.

(* Dates: every event with its date, in the order of the file. *)
Theorem C98_dates : forall to_datetime sep k rows ds, separator sep -> sep <> sp -> rows <> [] ->
  (forall r e, In r rows -> fst r = Some e \/ snd r = Some e -> event e) ->
  to_datetime (map fst rows) = Some ds -> length ds = length rows ->
  fetch_log_file to_datetime sep (two_columns sep k rows) = Ret (combine (map Date ds) (map snd rows)) /\
  map snd (combine (map Date ds) (map snd rows)) = map snd rows.
Proof.
  intros to_dt sep k rows ds Hs Hb Hne He Hd Hl.
  assert (Hr : Forall (fun r => (plain_field (fst r) /\ no_start_blank (csv_field sep (fst r))) /\ (plain_field (snd r) /\ no_start_blank (csv_field sep (snd r)))) rows).
  { apply Forall_forall. intros r Hr. split; apply event_opt; intros e E; apply (He r e Hr); auto. }
  unfold fetch_log_file, two_columns. rewrite table_lines; auto; try discriminate.
  - cbn [bind Nat.eqb]. rewrite !map_map. cbn [nth].
    match goal with |- context [match ?x with Some _ => _ | None => _ end] => replace x with (Some ds) by (symmetry; exact Hd) end. split; [reflexivity|].
    clear -Hl. revert rows Hl. induction ds as [|d ds IH]; intros [|r rows] Hl; try discriminate Hl; [reflexivity|]. cbn. f_equal. apply IH. injection Hl as Hl. exact Hl.
  - eapply Forall_impl; [|exact Hr]. cbn beta. intros r ((? & _) & (? & _)). split; assumption.
  - intros _. eapply Forall_impl; [|exact Hr]. cbn beta. intros r ((_ & ?) & (_ & ?)). split; assumption.
Qed.
(* Numbers: what is no date is read as integers. *)
Theorem C98_numbers : forall to_datetime sep k (log : list (Z * field)), separator sep -> sep <> sp -> log <> [] ->
  (forall z e, In (z, Some e) log -> event e) ->
  let rows := map (fun p => (Some (str_z (fst p)), snd p)) log in
  to_datetime (map fst rows) = None ->
  fetch_log_file to_datetime sep (two_columns sep k rows) = Ret (map (fun p => (Number (fst p), snd p)) log).
Proof.
  intros to_dt sep k log Hs Hb Hne He rows Hd.
  assert (Hr : Forall (fun r => (plain_field (fst r) /\ no_start_blank (csv_field sep (fst r))) /\ (plain_field (snd r) /\ no_start_blank (csv_field sep (snd r)))) rows).
  { apply Forall_forall. intros r Hr. apply in_map_iff in Hr. destruct Hr as ([z o] & <- & Hi). cbn [fst snd]. split; apply event_opt.
    - intros e [= <-]. apply number_event.
    - intros e ->. apply (He z e Hi). }
  unfold fetch_log_file, two_columns. rewrite table_lines; auto; try discriminate.
  - cbn [bind Nat.eqb]. rewrite !map_map. cbn [nth].
    match goal with |- match ?x with Some _ => _ | None => _ end = _ => replace x with (@None (list Z)) by (symmetry; exact Hd) end.
    assert (Em : map_opt as_number (map fst rows) = Ret (map fst log)).
    { unfold rows. rewrite map_map. cbn [fst]. clear. induction log as [|[z o] log IH]; [reflexivity|]. cbn [map fst map_opt as_number].
      rewrite parse_str_z. cbn [fst] in IH. rewrite IH. reflexivity. }
    match goal with |- bind ?x _ = _ => replace x with (Ret (map fst log)) by (symmetry; exact Em) end. cbn [bind]. f_equal. unfold rows. rewrite !map_map. cbn [snd]. clear. induction log as [|[z o] log IH]; [reflexivity|]. cbn. f_equal. exact IH.
  - unfold rows. destruct log; [congruence | discriminate].
  - eapply Forall_impl; [|exact Hr]. cbn beta. intros r ((? & _) & (? & _)). split; assumption.
  - intros _. eapply Forall_impl; [|exact Hr]. cbn beta. intros r ((_ & ?) & (_ & ?)). split; assumption.
Qed.

Lemma run_column sep events : separator sep -> Forall (fun e => event e /\ visible e) events ->
  forall done, fold_left (csv_step sep true) (one_column sep events) {| r_mode := StartRecord; r_cur := []; r_row := []; r_done := done |} =
    {| r_mode := StartRecord; r_cur := []; r_row := []; r_done := done ++ map (fun e => [e]) events |}.
Proof.
  intros Hs He. unfold one_column. induction He as [|e events [He Hv] Hes IH]; intros done; cbn [flat_map map].
  - rewrite app_nil_r. reflexivity.
  - rewrite fold_left_app. destruct (event_field e sep He) as [P1 P2].
    assert (E : fold_left (csv_step sep true) (csv_field sep (Some e) ++ [nl]) {| r_mode := StartRecord; r_cur := []; r_row := []; r_done := done |}
              = fold_left (csv_step sep true) (csv_field sep (Some e) ++ [nl]) {| r_mode := StartField; r_cur := []; r_row := []; r_done := done |}).
    { apply run_start. cbn [csv_field]. destruct (needs_quotes sep e) eqn:Eq.
      - eexists [], quote, _. split; [reflexivity|]. repeat split; auto; discriminate.
      - destruct Hv as (c & Hc & N1 & N2). apply in_split in Hc as (u & v & Ee). apply shows_app. subst e.
        assert (Hch : forall x, In x (u ++ c :: v) -> x <> nl /\ x <> cr).
        { intros x Hx. split; [apply (plain_chars sep _ Eq x Hx) | intros ->; apply (proj1 (proj2 He)), Hx]. }
        apply shows_at.
        + intros x Hx. apply Hch, in_app_iff. left. exact Hx.
        + unfold white. rewrite (Neqb_false c sp), (Neqb_false c tab) by assumption. reflexivity.
        + apply Hch, in_app_iff. right. left. reflexivity.
        + apply Hch, in_app_iff. right. left. reflexivity. }
    rewrite E, (run_field sep true Hs); auto. cbn [N.eqb].
    replace (N.eqb nl nl) with true by reflexivity. unfold end_record. cbn [r_row r_cur r_done txt app].
    rewrite IH, <- app_assoc. reflexivity.
Qed.
(* One column: every event with its place in the file, from 0. *)
Theorem C98_lines : forall to_datetime sep events, separator sep -> events <> [] -> (forall e, In e events -> event e /\ visible e) ->
  fetch_log_file to_datetime sep (one_column sep events) = Ret (combine (map Row (seq 0 (length events))) (map Some events)).
Proof.
  intros to_dt sep events Hs Hne He. assert (Hf : Forall (fun e => event e /\ visible e) events) by (apply Forall_forall; exact He).
  assert (Et : csv_table sep true (one_column sep events) = Ret (1, map (fun e => [Some e]) events)).
  { unfold csv_table, csv_records, csv_run. rewrite run_column by assumption. cbn [r_mode r_done bind app].
    assert (Hl : existsb (fun r : list text => 1 <? length r) (map (fun e => [e]) events) = false).
    { apply not_true_iff_false. intros K. apply existsb_exists in K. destruct K as (x & Hx & Hl). apply in_map_iff in Hx. destruct Hx as (y & <- & _). discriminate. }
    assert (Hm : map (fun r : list text => map field_of r ++ repeat None (1 - length r)) (map (fun e => [e]) events) = map (fun e => [Some e]) events).
    { rewrite map_map. apply map_ext_in. intros e Hi. cbn [map length Nat.sub repeat app]. f_equal. apply (field_txt (Some e)). apply (event_field e sep), He, Hi. }
    destruct events as [|e0 events]; [congruence|]. cbn [map] in *. cbn [length]. rewrite Hl. f_equal. f_equal. exact Hm. }
  unfold fetch_log_file. rewrite Et. cbn [bind Nat.eqb]. rewrite map_map, map_length. reflexivity.
Qed.
(* Any file without quotes: lines of cells put together with the separator, each line ended in any of the three
   ways, the last line maybe not ended. *)
Definition cell (sep : char) (t : text) : Prop := forall c, In c t -> c <> sep /\ c <> quote /\ c <> nl /\ c <> cr.
Definition line_end (e : text) : Prop := e = [nl] \/ e = [cr] \/ e = [cr; nl].
Definition file (sep : char) (lines : list (list text * text)) (rest : list text) : text :=
  flat_map (fun l => join [sep] (fst l) ++ snd l) lines ++ join [sep] rest.
Definition line (sep : char) (cells : list text) : Prop := cells <> [] /\ Forall (cell sep) cells.
(* a line that counts holds a separator or something other than blanks and tabs *)
Definition counts (cells : list text) : bool :=
  match cells with
  | [t] => existsb (fun c => negb (N.eqb c 32 || N.eqb c 9)) t
  | _ => true
  end.
(* a cell without the blanks it starts with; some words stand for nothing *)
Fixpoint no_blanks (t : text) : text := match t with c :: u => if N.eqb c 32 then no_blanks u else t | [] => [] end.
Definition nothing : list text :=
  map lit [""; "#N/A"; "#N/A N/A"; "#NA"; "-1.#IND"; "-1.#QNAN"; "-NaN"; "-nan"; "1.#IND"; "1.#QNAN"; "<NA>";
           "N/A"; "NA"; "NULL"; "NaN"; "None"; "n/a"; "nan"; "null"]%string.
Definition value (i : nat) (cells : list text) : field :=
  match nth_error cells i with
  | Some t => if in_dec (list_eq_dec N.eq_dec) (no_blanks t) nothing then None else Some (no_blanks t)
  | None => None
  end.

Section Plain.
  Context (sep : char) (Hsep : separator sep).
  Notation step := (csv_step sep true).
  Definition at_cell (row cur : list text) (t : text) (done : list (list text)) : reader :=
    {| r_mode := match t with [] => StartField | _ => InField end; r_cur := t; r_row := row; r_done := done |}.
  Lemma run_cell t row done : cell sep t ->
    fold_left step t {| r_mode := StartField; r_cur := []; r_row := row; r_done := done |} = at_cell row [] (no_blanks t) done.
  Proof using.
    induction t as [|c t IH]; intros Hc; [reflexivity|].
    destruct (Hc c (or_introl eq_refl)) as (H1 & H2 & H3 & H4). cbn [fold_left].
    rewrite step_in by (cbn; discriminate). unfold field_step. cbn [r_mode].
    rewrite (Neqb_false c nl), (Neqb_false c cr), (Neqb_false c sep), (Neqb_false c quote) by assumption. cbn [orb andb no_blanks].
    change (c =? sp)%N with (c =? 32)%N. destruct (c =? 32)%N.
    - unfold go. cbn [r_cur r_row r_done]. apply IH. intros x Hx. apply Hc. right. exact Hx.
    - rewrite run_plain; [reflexivity | reflexivity | intros x Hx; apply Hc; right; exact Hx].
  Qed.
  Lemma run_cells cells : line sep cells -> forall row done x, x = nl \/ x = cr ->
    fold_left step (join [sep] cells ++ [x]) {| r_mode := StartField; r_cur := []; r_row := row; r_done := done |} =
    {| r_mode := StartRecord; r_cur := []; r_row := []; r_done := done ++ [row ++ map no_blanks cells] |} /\
    exists q, fold_left step (join [sep] cells) {| r_mode := StartField; r_cur := []; r_row := row; r_done := done |} = q /\
      (r_mode q = StartField \/ r_mode q = InField) /\ r_done (end_record q) = done ++ [row ++ map no_blanks cells].
  Proof using Hsep.
    intros [Hne Hc]. destruct Hsep as (S1 & S2 & S3).
    assert (End : forall t row done x, x = nl \/ x = cr -> step (at_cell row [] t done) x =
      {| r_mode := StartRecord; r_cur := []; r_row := []; r_done := done ++ [row ++ [t]] |}).
    { intros t row done x Hx. unfold at_cell. rewrite step_in by (destruct t; cbn; discriminate). unfold field_step. cbn [r_mode].
      assert (E : (x =? nl)%N || (x =? cr)%N = true) by (destruct Hx as [-> | ->]; reflexivity). rewrite E. destruct t; reflexivity. }
    assert (Sep : forall t row done, step (at_cell row [] t done) sep =
      {| r_mode := StartField; r_cur := []; r_row := row ++ [t]; r_done := done |}).
    { intros t row done. unfold at_cell. rewrite step_in by (destruct t; cbn; discriminate). unfold field_step. cbn [r_mode].
      rewrite (Neqb_false sep nl), (Neqb_false sep cr), N.eqb_refl by assumption. destruct t; reflexivity. }
    induction Hc as [|t cells Ht Hc IH]; [congruence|]. intros row done x Hx.
    destruct cells as [|t' cells].
    - cbn [join map]. rewrite fold_left_app. cbn [fold_left]. rewrite run_cell by assumption. split; [apply End, Hx|].
      eexists. split; [reflexivity|]. unfold at_cell. cbn [r_mode]. split; [destruct (no_blanks t); auto | reflexivity].
    - specialize (IH ltac:(discriminate) (row ++ [no_blanks t]) done x Hx).
      change (join [sep] (t :: t' :: cells)) with (t ++ [sep] ++ join [sep] (t' :: cells)).
      rewrite <- !app_assoc, !(fold_left_app step t), !(fold_left_app step [sep]), run_cell by assumption.
      change (fold_left step [sep] ?q) with (step q sep). rewrite Sep, <- !app_assoc in *. exact IH.
  Qed.
  Lemma counts_shows cells x : line sep cells -> counts cells = true -> shows sep (join [sep] cells ++ x).
  Proof using Hsep.
    intros [Hne Hc] Hs. destruct Hsep as (S1 & S2 & S3). destruct Hc as [|t cells Ht Hc]; [congruence|].
    assert (Hn : forall y, In y t -> y <> nl /\ y <> cr) by (intros y Hy; destruct (Ht y Hy) as (_ & _ & ? & ?); auto).
    apply shows_app. destruct cells as [|t' cells].
    - cbn in Hs. apply existsb_exists in Hs. destruct Hs as (c & Hi & Hw). apply in_split in Hi as (u & v & ->). cbn [join].
      apply shows_at; try (apply Hn, in_app_iff; right; left; reflexivity).
      + intros y Hy. apply Hn, in_app_iff. left. exact Hy.
      + unfold white. change sp with 32%N. change tab with 9%N. apply negb_true_iff in Hw. rewrite Hw. reflexivity.
    - change (join [sep] (t :: t' :: cells)) with (t ++ sep :: join [sep] (t' :: cells)). apply shows_at; auto using white_sep.
  Qed.
  Lemma no_count cells row done : line sep cells -> counts cells = false ->
    exists q, fold_left step (join [sep] cells) {| r_mode := StartRecord; r_cur := []; r_row := row; r_done := done |} = q /\
      (r_mode q = StartRecord \/ r_mode q = WhiteLine) /\ r_row q = row /\ r_done q = done.
  Proof using.
    intros [Hne Hc] Hs. destruct cells as [|t [|t' cells]]; [congruence| |discriminate]. cbn [join]. cbn in Hs.
    assert (Hw : Forall (fun x => white sep x = true) t).
    { apply Forall_forall. intros y Hy. inversion Hc as [|? ? Ht _]; subst. destruct (Ht y Hy) as (N1 & _).
      unfold white. rewrite (Neqb_false y sep N1), andb_true_r. apply not_false_iff_true. intros E. rewrite <- not_true_iff_false in Hs.
      apply Hs, existsb_exists. exists y. split; [exact Hy|]. change sp with 32%N in E. change tab with 9%N in E. rewrite E. reflexivity. }
    rewrite run_white by auto. eexists. split; [reflexivity|]. cbn. split; [destruct t; auto | auto].
  Qed.
  Lemma step_end q x : r_mode q = StartRecord \/ r_mode q = WhiteLine -> x = nl \/ x = cr ->
    step q x = {| r_mode := StartRecord; r_cur := []; r_row := r_row q; r_done := r_done q |}.
  Proof using.
    intros Hq Hx. unfold csv_step. assert (E : (x =? nl)%N || (x =? cr)%N = true) by (destruct Hx as [-> | ->]; reflexivity).
    rewrite E. destruct Hq as [-> | ->]; reflexivity.
  Qed.
  Lemma run_line cells x done : line sep cells -> x = nl \/ x = cr ->
    fold_left step (join [sep] cells ++ [x]) {| r_mode := StartRecord; r_cur := []; r_row := []; r_done := done |} =
    {| r_mode := StartRecord; r_cur := []; r_row := []; r_done := done ++ map (map no_blanks) (filter counts [cells]) |}.
  Proof using Hsep.
    intros Hl Hx. cbn [filter]. destruct (counts cells) eqn:E.
    - rewrite (run_start sep true) by (apply counts_shows; assumption). rewrite (proj1 (run_cells cells Hl [] done x Hx)). reflexivity.
    - destruct (no_count cells [] done Hl E) as (q & Eq & Hm & Hr & Hd). rewrite fold_left_app, Eq. cbn [fold_left map].
      rewrite step_end, Hr, Hd, app_nil_r by assumption. reflexivity.
  Qed.
  Lemma run_file lines : Forall (fun l => line sep (fst l) /\ line_end (snd l)) lines -> forall done,
    fold_left step (flat_map (fun l => join [sep] (fst l) ++ snd l) lines) {| r_mode := StartRecord; r_cur := []; r_row := []; r_done := done |} =
    {| r_mode := StartRecord; r_cur := []; r_row := []; r_done := done ++ map (map no_blanks) (filter counts (map fst lines)) |}.
  Proof using Hsep.
    induction 1 as [|[cells e] lines [Hl He] Hls IH]; intros done; cbn [flat_map map fst snd filter] in *.
    - rewrite app_nil_r. reflexivity.
    - rewrite fold_left_app.
      assert (E : fold_left step (join [sep] cells ++ e) {| r_mode := StartRecord; r_cur := []; r_row := []; r_done := done |} =
        {| r_mode := StartRecord; r_cur := []; r_row := []; r_done := done ++ map (map no_blanks) (filter counts [cells]) |}).
      { destruct He as [->|[->| ->]]; try (apply run_line; auto).
        change [cr; nl] with ([cr] ++ [nl]). rewrite app_assoc, fold_left_app, run_line by auto. cbn [fold_left].
        rewrite step_end by auto. reflexivity. }
      rewrite E, IH, <- app_assoc. f_equal. f_equal. cbn [filter]. destruct (counts cells); reflexivity.
  Qed.
  Lemma file_records lines rest : Forall (fun l => line sep (fst l) /\ line_end (snd l)) lines -> line sep rest ->
    csv_records sep true (file sep lines rest) = Ret (map (map no_blanks) (filter counts (map fst lines ++ [rest]))).
  Proof using Hsep.
    intros Hl Hr. unfold csv_records, csv_run, file. rewrite fold_left_app, run_file by assumption. cbn [app].
    rewrite filter_app, map_app. set (done := map (map no_blanks) (filter counts (map fst lines))).
    destruct (counts rest) eqn:E; cbn [filter]; rewrite E.
    - rewrite (run_start sep true) by (rewrite <- (app_nil_r (join [sep] rest)); apply counts_shows; assumption).
      destruct (proj2 (run_cells rest Hr [] done nl (or_introl eq_refl))) as (q & -> & Hm & Hd).
      rewrite Hd. destruct Hm as [-> | ->]; reflexivity.
    - destruct (no_count rest [] done Hr E) as (q & -> & Hm & _ & Hd). cbn [map]. rewrite app_nil_r, Hd. destruct Hm as [-> | ->]; reflexivity.
  Qed.
End Plain.
Lemma nothing_words : na_words = nothing. Proof. reflexivity. Qed.
Lemma value_nth i n cells : length cells <= n -> nth i (map field_of (map no_blanks cells) ++ repeat None (n - length cells)) None = value i cells.
Proof.
  intros Hn. unfold value. destruct (nth_error cells i) as [t|] eqn:E.
  - assert (Hi : i < length cells) by (apply nth_error_Some; congruence). rewrite app_nth1 by (rewrite !map_length; exact Hi).
    rewrite map_map. rewrite (nth_indep _ None (field_of (no_blanks []))) by (rewrite map_length; exact Hi).
    rewrite (map_nth (fun x => field_of (no_blanks x))), (nth_error_nth _ _ _ E). unfold field_of.
    destruct (in_dec (list_eq_dec N.eq_dec) (no_blanks t) nothing) as [H|H]; rewrite <- nothing_words in H.
    + match goal with |- context [mem ?x ?l] => assert (M : mem x l = true) by (apply mem_In; exact H) end. rewrite M. reflexivity.
    + match goal with |- context [mem ?x ?l] => destruct (mem x l) eqn:M end; [apply mem_In in M; contradiction | reflexivity].
  - apply nth_error_None in E. rewrite app_nth2 by (rewrite !map_length; exact E). rewrite !map_length.
    destruct (nth_in_or_default (i - length cells) (repeat (@None text) (n - length cells)) None) as [H|H]; [apply repeat_spec in H|]; exact H.
Qed.
(* Every line that counts is read, whatever ends it: its cells without the blanks before them, the words for
   nothing read as nothing; what is missing at the end of a line is nothing; a file without a line that counts,
   and one with a line that has more cells than the first, are refused. *)
Theorem C98_plain : forall to_datetime sep lines rest, separator sep ->
  Forall (fun l => line sep (fst l) /\ line_end (snd l)) lines -> line sep rest ->
  let rows := filter counts (map fst lines ++ [rest]) in
  let n := length (hd [] rows) in
  (rows = [] \/ (exists r, In r rows /\ n < length r) -> fetch_log_file to_datetime sep (file sep lines rest) = Exn ValueError) /\
  (rows <> [] -> (forall r, In r rows -> length r <= n) ->
     (n = 1 -> fetch_log_file to_datetime sep (file sep lines rest) = Ret (combine (map Row (seq 0 (length rows))) (map (value 0) rows))) /\
     (n <> 1 -> forall ds, to_datetime (map (value 0) rows) = Some ds ->
        fetch_log_file to_datetime sep (file sep lines rest) = Ret (combine (map Date ds) (map (value 1) rows))) /\
     (n <> 1 -> to_datetime (map (value 0) rows) = None ->
        (forall zs, Forall2 (fun r z => exists t, value 0 r = Some t /\ parse_int t = Some z) rows zs ->
           fetch_log_file to_datetime sep (file sep lines rest) = Ret (combine (map Number zs) (map (value 1) rows))) /\
        ((exists r, In r rows /\ (forall t, value 0 r = Some t -> parse_int t = None)) ->
           fetch_log_file to_datetime sep (file sep lines rest) = Exn ValueError))).
Proof.
  intros to_dt sep lines rest Hs Hl Hr rows n.
  assert (Et : csv_table sep true (file sep lines rest) =
    match rows with
    | [] => Exn ValueError
    | _ => if existsb (fun r => n <? length r) rows then Exn ValueError
           else Ret (n, map (fun r => map field_of (map no_blanks r) ++ repeat None (n - length r)) rows)
    end).
  { unfold csv_table. rewrite (file_records sep Hs lines rest Hl Hr). fold rows. cbn [bind]. unfold n. destruct rows as [|r0 rs]; [reflexivity|].
    cbn [map hd]. rewrite map_length. change (map no_blanks r0 :: map (map no_blanks) rs) with (map (map no_blanks) (r0 :: rs)).
    assert (Ee : existsb (fun r => length r0 <? length r) (map (map no_blanks) (r0 :: rs)) = existsb (fun r : list text => length r0 <? length r) (r0 :: rs)).
    { induction (r0 :: rs) as [|r l IH]; [reflexivity|]. cbn [map existsb]. rewrite map_length, IH. reflexivity. }
    rewrite Ee. destruct (existsb _ (r0 :: rs)); [reflexivity|]. f_equal. f_equal. cbn [map]. f_equal. rewrite map_map. apply map_ext. intros r. rewrite map_length. reflexivity. }
  split.
  - intros Hx. unfold fetch_log_file. rewrite Et. destruct rows as [|r0 rs] eqn:Er; [reflexivity|]. destruct Hx as [Hx|(r & Hi & Hn)]; [discriminate|].
    assert (Ee : existsb (fun r => n <? length r) (r0 :: rs) = true) by (apply existsb_exists; exists r; split; [exact Hi | apply Nat.ltb_lt, Hn]).
    rewrite Ee. reflexivity.
  - intros Hne Hle.
    assert (Et' : csv_table sep true (file sep lines rest) = Ret (n, map (fun r => map field_of (map no_blanks r) ++ repeat None (n - length r)) rows)).
    { rewrite Et. assert (Ee : existsb (fun r => n <? length r) rows = false).
      { apply not_true_iff_false. intros K. apply existsb_exists in K. destruct K as (r & Hi & Hn). apply Nat.ltb_lt in Hn. specialize (Hle r Hi). lia. }
      rewrite Ee. destruct rows; [congruence | reflexivity]. }
    assert (Ev : forall i, map (fun r => nth i r None) (map (fun r => map field_of (map no_blanks r) ++ repeat None (n - length r)) rows) = map (value i) rows).
    { intros i. rewrite map_map. apply map_ext_in. intros r Hi. apply value_nth, Hle, Hi. }
    unfold fetch_log_file. rewrite Et'. cbn [bind]. rewrite !Ev, map_length. clear Et Et' Ev. split; [|split].
    + intros E1. rewrite (proj2 (Nat.eqb_eq n 1) E1). reflexivity.
    + intros N1 ds Hd. rewrite (proj2 (Nat.eqb_neq n 1) N1), Hd. reflexivity.
    + intros N1 Hd. rewrite (proj2 (Nat.eqb_neq n 1) N1), Hd. split.
      * intros zs F. assert (E : map_opt as_number (map (value 0) rows) = Ret zs).
        { clear -F. induction F as [|r z rs zs (t & Hv & Hp) F IH]; [reflexivity|]. cbn [map map_opt]. rewrite Hv. cbn [as_number]. rewrite Hp, IH. reflexivity. }
        rewrite E. reflexivity.
      * intros (r & Hi & Hv). assert (E : map_opt as_number (map (value 0) rows) = Exn ValueError).
        { clear -Hi Hv. induction rows as [|r0 rs IH]; [destruct Hi|]. cbn [map map_opt]. destruct (as_number (value 0 r0)) as [z|] eqn:E0; [|reflexivity].
          destruct Hi as [-> | Hi]; [exfalso; unfold as_number in E0; destruct (value 0 r) as [t|]; [rewrite (Hv t eq_refl) in E0|]; discriminate|].
          rewrite (IH Hi). reflexivity. }
        rewrite E. reflexivity.
Qed.
Print Assumptions C98_plain.
(* three line ends, a line of blanks, a short line, a word for nothing and a last line without end *)
Example C98_plain_case :
  let lines := [([lit "10"; lit " door"], [cr; nl]); ([lit "  "], [nl]); ([lit "20"], [cr]); ([lit "30"; lit " null"], [nl])] in
  let rest := [lit " 40"; lit "in  out "] in
  Forall (fun l => line comma (fst l) /\ line_end (snd l)) lines /\ line comma rest /\
  filter counts (map fst lines ++ [rest]) = [[lit "10"; lit " door"]; [lit "20"]; [lit "30"; lit " null"]; rest] /\
  fetch_log_file (fun _ => None) comma (file comma lines rest) =
    Ret [(Number 10, Some (lit "door")); (Number 20, None); (Number 30, None); (Number 40, Some (lit "in  out "))]%Z /\
  fetch_log_file (fun _ => None) comma (file comma ((([lit "x"], [nl])) :: lines) rest) = Exn ValueError.
Proof.
  cbn zeta. repeat match goal with |- _ /\ _ => split end; try (vm_compute; reflexivity); try discriminate.
  - assert (C : forall t, forallb (fun c => negb (N.eqb c comma || N.eqb c quote || N.eqb c nl || N.eqb c cr)) t = true -> cell comma t).
    { intros t E c Hc. rewrite forallb_forall in E. specialize (E c Hc). apply negb_true_iff in E.
      repeat (apply orb_false_iff in E; destruct E as [E ?]). repeat split; apply N.eqb_neq; assumption. }
    repeat apply Forall_cons; try apply Forall_nil; cbn [fst snd]; (split; [split; [discriminate|] | unfold line_end; auto]);
      repeat apply Forall_cons; try apply Forall_nil; apply C; reflexivity.
  - assert (C : forall t, forallb (fun c => negb (N.eqb c comma || N.eqb c quote || N.eqb c nl || N.eqb c cr)) t = true -> cell comma t).
    { intros t E c Hc. rewrite forallb_forall in E. specialize (E c Hc). apply negb_true_iff in E.
      repeat (apply orb_false_iff in E; destruct E as [E ?]). repeat split; apply N.eqb_neq; assumption. }
    split; [discriminate|]. repeat apply Forall_cons; try apply Forall_nil; apply C; reflexivity.
Qed.
Print Assumptions C98_dates.
Print Assumptions C98_numbers.
Print Assumptions C98_lines.

Definition demo_log : list (Z * field) := [(10, Some (lit "door, left")); (20, Some (lit "coffee")); (30, None)]%Z.
Example C98_case :
  let rows := map (fun p => (Some (str_z (fst p)), snd p)) demo_log in
  (forall z e, In (z, Some e) demo_log -> event e) /\
  two_columns comma 1 rows = lit "10, ""door, left""" ++ [nl] ++ lit "20, coffee" ++ [nl] ++ lit "30, " ++ [nl] /\
  fetch_log_file (fun _ => None) comma (two_columns comma 1 rows) =
    Ret [(Number 10, Some (lit "door, left")); (Number 20, Some (lit "coffee")); (Number 30, None)]%Z /\
  fetch_log_file (fun ts => Some (map (fun _ => 5%Z) ts)) comma (two_columns comma 0 rows) =
    Ret [(Date 5, Some (lit "door, left")); (Date 5, Some (lit "coffee")); (Date 5, None)]%Z /\
  fetch_log_file (fun _ => None) comma (one_column comma [lit "door, left"; lit "coffee"]) =
    Ret [(Row 0, Some (lit "door, left")); (Row 1, Some (lit "coffee"))].
Proof.
  cbn zeta. repeat match goal with |- _ /\ _ => split end; try (vm_compute; reflexivity).
  intros z e [K|[K|[K|[]]]]; injection K as _ K; try discriminate; subst e.
  all: split; [|split]; [intros K; repeat (destruct K as [K|K]; [discriminate|]); exact K
                        | intros K; repeat (destruct K as [K|K]; [discriminate|]); exact K | intros c Hc; injection Hc as <-; discriminate].
Qed.
(* The numbers given to the events of a file of one column are not the numbers of their lines: an empty line
   has no number. *)
Theorem C98_line_numbers_refuted : forall to_datetime,
  fetch_log_file to_datetime comma (lit "a" ++ [nl] ++ [nl] ++ lit "b" ++ [nl]) = Ret [(Row 0, Some (lit "a")); (Row 1, Some (lit "b"))].
Proof. intros. vm_compute. reflexivity. Qed.
(* An event written as tabs is no event. *)
Theorem C98_tabs_refuted : forall to_datetime,
  fetch_log_file to_datetime comma (one_column comma [lit "a"; [tab]; lit "b"]) = Ret [(Row 0, Some (lit "a")); (Row 1, Some (lit "b"))].
Proof. intros. vm_compute. reflexivity. Qed.
(* Some events are read as missing, and what comes after a second separator is not read. *)
Theorem C98_event_refuted : forall to_datetime, to_datetime [Some (lit "10"); Some (lit "20")] = None ->
  fetch_log_file to_datetime comma (lit "10,None" ++ [nl] ++ lit "20,null" ++ [nl]) = Ret [(Number 10, None); (Number 20, None)]%Z /\
  fetch_log_file to_datetime comma (lit "10,door,left" ++ [nl] ++ lit "20,door,right" ++ [nl]) =
    Ret [(Number 10, Some (lit "door")); (Number 20, Some (lit "door"))]%Z.
Proof.
  intros to_dt Hd. unfold fetch_log_file. split.
  - replace (csv_table comma true (lit "10,None" ++ [nl] ++ lit "20,null" ++ [nl])) with (Ret (2, [[Some (lit "10"); None]; [Some (lit "20"); None]])) by (vm_compute; reflexivity).
    cbn [bind Nat.eqb map nth]. rewrite Hd. vm_compute. reflexivity.
  - replace (csv_table comma true (lit "10,door,left" ++ [nl] ++ lit "20,door,right" ++ [nl]))
      with (Ret (3, [[Some (lit "10"); Some (lit "door"); Some (lit "left")]; [Some (lit "20"); Some (lit "door"); Some (lit "right")]])) by (vm_compute; reflexivity).
    cbn [bind Nat.eqb map nth]. rewrite Hd. vm_compute. reflexivity.
Qed.
Print Assumptions C98_line_numbers_refuted.
Print Assumptions C98_tabs_refuted.
Print Assumptions C98_event_refuted.

(* ============================================================ C99: labels *)
(* no transaction read is empty: an empty line is refused *)
Lemma split_nonempty fuel sep cur s : split_aux fuel sep cur s <> [].
Proof.
  revert cur s. induction fuel as [|n IH]; intros cur s; [discriminate|]. cbn [split_aux]. destruct s; [discriminate|].
  destruct (strip_prefix sep _); [discriminate | apply IH].
Qed.
Lemma read_no_empty sep content D : read_dat_int sep content = Ret D -> forall t, In t D -> t <> [].
Proof.
  unfold read_dat_int. generalize (splitlines (universal content)). intros ls. revert D.
  induction ls as [|l ls IH]; intros D E t Ht.
  - cbn in E. injection E as <-. destruct Ht.
  - cbn [map_out] in E. unfold split_str at 1 in E. destruct sep as [|c0 sep]; [discriminate|]. cbn [bind] in E.
    destruct (split_aux (S (length (rstrip l))) (c0 :: sep) [] (rstrip l)) as [|w ws] eqn:Ew; [exfalso; eapply split_nonempty, Ew|].
    cbn [map_opt] in E. destruct (parse_int w) as [z|]; [|discriminate]. destruct (map_opt parse_int ws) as [zs| |]; try discriminate. cbn [bind] in E.
    destruct (map_out _ ls) as [D'| |] eqn:E'; try discriminate. cbn [bind] in E. injection E as <-. destruct Ht as [<-|Ht]; [discriminate|].
    apply (IH D' eq_refl t Ht).
Qed.
(* Label and transaction number i are what line i held: the last item and the others; for mushroom the first
   item and the others, with class 2 called 0. *)
Theorem C99_labels : forall sep content D i t, read_dat_int sep content = Ret D -> nth_error D i = Some t ->
  (exists x y, nth_error (fst (last_as_label D)) i = Some x /\ nth_error (snd (last_as_label D)) i = Some (Some y) /\ t = x ++ [y]) /\
  (exists x y z, nth_error (fst (first_as_label D)) i = Some x /\ nth_error (snd (first_as_label D)) i = Some (Some y) /\ t = z :: x /\
     (z <> 2%Z -> y = z) /\ (z = 2%Z -> y = 0%Z)).
Proof.
  intros sep content D i t Hr Ht. assert (Hne : t <> []) by (apply (read_no_empty sep content D Hr), (nth_error_In _ _ Ht)).
  unfold last_as_label, first_as_label. cbn [fst snd]. split.
  - destruct (exists_last Hne) as (x & y & E). exists x, y. rewrite !(map_nth_error _ _ _ Ht), E, app_length.
    replace (length x + length [y] - 1) with (length x) by (simpl; lia).
    rewrite firstn_app, firstn_all, Nat.sub_diag, nth_error_app2, Nat.sub_diag by lia. cbn. rewrite app_nil_r. auto.
  - destruct t as [|z x]; [congruence|]. exists x, (if (z =? 2)%Z then 0%Z else z), z. rewrite !(map_nth_error _ _ _ Ht). cbn.
    repeat split; intros E; [apply Z.eqb_neq in E | apply Z.eqb_eq in E]; rewrite E; reflexivity.
Qed.
Theorem C99_lengths : forall D, length (fst (last_as_label D)) = length D /\ length (snd (last_as_label D)) = length D /\
  length (fst (first_as_label D)) = length D /\ length (snd (first_as_label D)) = length D.
Proof. intros D. unfold last_as_label, first_as_label. cbn [fst snd]. rewrite !map_length. auto. Qed.
Example C99_case : let D := [[1; 3; 9]; [2; 3]; [2]]%Z in read_dat_int [sp] (write_dat [sp] (map (map str_z) D)) = Ret D /\
  last_as_label D = ([[1; 3]; [2]; []], [Some 9; Some 3; Some 2])%Z /\ first_as_label D = ([[3; 9]; [3]; []], [Some 1; Some 0; Some 0])%Z.
Proof. repeat split; vm_compute; reflexivity. Qed.
Print Assumptions C99_labels.
Print Assumptions C99_lengths.

(* A quote that is opened at the start of a line and never closed: nothing is read. *)
Theorem C98_unclosed : forall to_datetime sep k rows u, separator sep -> sep <> sp ->
  (forall r e, In r rows -> fst r = Some e \/ snd r = Some e -> event e) -> ~ In quote u ->
  fetch_log_file to_datetime sep (two_columns sep k rows ++ [quote] ++ u) = Exn ValueError.
Proof.
  intros to_dt sep k rows u Hs Hb He Hu.
  assert (Hr : Forall (fun r => (plain_field (fst r) /\ no_start_blank (csv_field sep (fst r))) /\ (plain_field (snd r) /\ no_start_blank (csv_field sep (snd r)))) rows).
  { apply Forall_forall. intros r Hr. split; apply event_opt; intros e E; apply (He r e Hr); auto. }
  assert (Hq : quote <> sep) by (destruct Hs as (? & ? & ?); congruence).
  unfold fetch_log_file, csv_table, csv_records, csv_run, two_columns. rewrite fold_left_app, (run_lines sep true k rows); auto; try discriminate.
  - assert (E1 : forall done, csv_step sep true {| r_mode := StartRecord; r_cur := []; r_row := []; r_done := done |} quote =
              {| r_mode := InQuotes; r_cur := []; r_row := []; r_done := done |}).
    { intros done. unfold csv_step. cbn [r_mode r_cur]. replace (white sep quote) with false by reflexivity.
      change (N.eqb quote nl || N.eqb quote cr) with false. cbn [app fold_left]. unfold field_step. cbn [r_mode restart].
      change (N.eqb quote nl || N.eqb quote cr) with false. rewrite (Neqb_false _ _ Hq). reflexivity. }
    cbn [app fold_left]. rewrite E1.
    assert (E2 : forall q, r_mode q = InQuotes -> r_mode (fold_left (csv_step sep true) u q) = InQuotes).
    { clear -Hu. induction u as [|c u IH]; intros q Hm; [exact Hm|]. cbn [fold_left]. apply IH; [intros K; apply Hu; right; exact K|].
      unfold csv_step, field_step. rewrite Hm. rewrite Neqb_false by (intros ->; apply Hu; left; reflexivity). reflexivity. }
    rewrite E2 by reflexivity. reflexivity.
  - eapply Forall_impl; [|exact Hr]. cbn. intros r ((P1 & _) & P2 & _). split; assumption.
  - intros _. eapply Forall_impl; [|exact Hr]. cbn. intros r ((_ & P1) & _ & P2). split; assumption.
Qed.
Print Assumptions C98_unclosed.
Example C98_unclosed_case : fetch_log_file (fun _ => None) comma (two_columns comma 1 [(Some (lit "3"), Some (lit "a"))] ++ [quote] ++ lit "4, b") = Exn ValueError.
Proof. vm_compute. reflexivity. Qed.
