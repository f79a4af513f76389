(* Model of the folder of data sets: skmine/datasets/_base.py, the loaders of skmine/datasets/fimi.py 80-116
   and 219-225, 404-491, and of skmine/datasets/periodic.py 17-155.

   A file is its text; compression is the argument [gunzip].  What a server sends, whether it answers
   and whether the process is killed while a file is being written are part of each call.  pandas.read_csv
   and Series.to_csv are modelled for a separator of one character, with the quoting rules of their
   documentation; the conversion of the index by pandas.to_datetime is a function of what is modelled here
   and not a part of it, except in [fetch_log_file], where it is an argument. *)
From Coq Require Import NArith String Ascii.
From Verif Require Import Prelude CheckModel LCMModel TextModel SplitModel DatasetModel ExportModel.

Definition quote : char := 34%N.
Definition comma : char := 44%N.

(* ------------------------------------------------------------------ csv files *)
(* a field of a DataFrame of strings: None is missing *)
Definition field := option text.
(* the words read_csv takes for a missing value *)
Definition na_words : list text :=
  [] :: map lit ["#N/A"; "#N/A N/A"; "#NA"; "-1.#IND"; "-1.#QNAN"; "-NaN"; "-nan"; "1.#IND"; "1.#QNAN"; "<NA>";
                 "N/A"; "NA"; "NULL"; "NaN"; "None"; "n/a"; "nan"; "null"]%string.
Definition field_of (t : text) : field := if mem t na_words then None else Some t.

(* to_csv: a field is put between quotes when it holds the separator, a quote or a line feed *)
Definition needs_quotes (sep : char) (t : text) : bool :=
  existsb (fun c => N.eqb c sep || N.eqb c quote || N.eqb c nl) t.
Definition doubled (t : text) : text := flat_map (fun c => if N.eqb c quote then [quote; quote] else [c]) t.
Definition csv_field (sep : char) (f : field) : text :=
  match f with
  | None => []
  | Some t => if needs_quotes sep t then [quote] ++ doubled t ++ [quote] else t
  end.
Definition csv_line (sep : char) (r : field * field) : text :=
  csv_field sep (fst r) ++ [sep] ++ csv_field sep (snd r) ++ [nl].
Definition csv_text (sep : char) (rows : list (field * field)) : text := flat_map (csv_line sep) rows.

(* read_csv: the reader is a machine on characters, that ends records; lines of blanks and tabs only are
   skipped, so that the line feed after a carriage return is one more empty line; the blanks that start a line
   are read again when something else follows.  [skip] is skipinitialspace. *)
Inductive mode := StartRecord | WhiteLine | StartField | InField | InQuotes | QuoteSeen.
Record reader := { r_mode : mode; r_cur : text; r_row : list text; r_done : list (list text) }.
Definition end_record (r : reader) : reader :=
  {| r_mode := StartRecord; r_cur := []; r_row := []; r_done := r_done r ++ [r_row r ++ [r_cur r]] |}.
Definition end_field (r : reader) : reader :=
  {| r_mode := StartField; r_cur := []; r_row := r_row r ++ [r_cur r]; r_done := r_done r |}.
Definition go (m : mode) (r : reader) : reader :=
  {| r_mode := m; r_cur := r_cur r; r_row := r_row r; r_done := r_done r |}.
Definition push (m : mode) (c : char) (r : reader) : reader :=
  {| r_mode := m; r_cur := r_cur r ++ [c]; r_row := r_row r; r_done := r_done r |}.
Definition restart (m : mode) (r : reader) : reader :=
  {| r_mode := m; r_cur := []; r_row := r_row r; r_done := r_done r |}.
Definition tab : char := 9%N.
Definition white (sep c : char) : bool := (N.eqb c sp || N.eqb c tab) && negb (N.eqb c sep).
(* inside a line *)
Definition field_step (sep : char) (skip : bool) (r : reader) (c : char) : reader :=
  let outside (start : bool) :=
    if N.eqb c nl || N.eqb c cr then end_record r
    else if N.eqb c sep then end_field r
    else if start && N.eqb c quote then go InQuotes r
    else if start && skip && N.eqb c sp then go StartField r
    else push InField c r in
  match r_mode r with
  | InField => outside false
  | InQuotes => if N.eqb c quote then go QuoteSeen r else push InQuotes c r
  | QuoteSeen => if N.eqb c quote then push InQuotes c r else outside false
  | _ => outside true
  end.
Definition csv_step (sep : char) (skip : bool) (r : reader) (c : char) : reader :=
  match r_mode r with
  | StartRecord | WhiteLine =>
      if N.eqb c nl || N.eqb c cr then restart StartRecord r
      else if white sep c then push WhiteLine c r
      else fold_left (field_step sep skip) (r_cur r ++ [c]) (restart StartField r)
  | _ => field_step sep skip r c
  end.
Definition csv_run (sep : char) (skip : bool) (s : text) : reader :=
  fold_left (csv_step sep skip) s {| r_mode := StartRecord; r_cur := []; r_row := []; r_done := [] |}.
(* the records of a text; EOF inside quotes is a ParserError, a ValueError *)
Definition csv_records (sep : char) (skip : bool) (s : text) : outcome (list (list text)) :=
  let r := csv_run sep skip s in
  match r_mode r with
  | StartRecord | WhiteLine => Ret (r_done r)
  | InQuotes => Exn ValueError
  | _ => Ret (r_done (end_record r))
  end.
(* the table: the first record gives the number of columns; a longer record is a ParserError, a shorter one
   is filled up; no record at all is an EmptyDataError, a ValueError *)
Definition csv_table (sep : char) (skip : bool) (s : text) : outcome (nat * list (list field)) :=
  bind (csv_records sep skip s) (fun recs =>
  match recs with
  | [] => Exn ValueError
  | r0 :: _ =>
      let n := length r0 in
      if existsb (fun r => n <? length r) recs then Exn ValueError
      else Ret (n, map (fun r => map field_of r ++ repeat None (n - length r)) recs)
  end).

(* ----------------------------------------------------- periodic.py fetch_file 17-50 *)
Inductive moment := Row (i : nat) | Date (d : Z) | Number (z : Z).
Definition as_number (f : field) : option Z := match f with Some t => parse_int t | None => None end.
(* [to_datetime]: pandas.to_datetime with the given format, None when it raises ValueError *)
Definition fetch_log_file (to_datetime : list field -> option (list Z)) (sep : char) (content : text)
  : outcome (list (moment * field)) :=
  bind (csv_table sep true content) (fun nt =>
  let '(n, rows) := nt in
  if n =? 1 then Ret (combine (map Row (seq 0 (length rows))) (map (fun r => nth 0 r None) rows))   (* squeeze *)
  else
    let times := map (fun r => nth 0 r None) rows in
    let events := map (fun r => nth 1 r None) rows in
    match to_datetime times with
    | Some ds => Ret (combine (map Date ds) events)
    | None => bind (map_opt as_number times) (fun zs => Ret (combine (map Number zs) events))
    end).

(* ------------------------------------------------------------------ the folder *)
(* folders by path, each with its files by name *)
Definition disk := dict text (dict text text).
Definition in_folder (d : disk) (h : text) : option (dict text text) := dget d h.
Definition stored (d : disk) (h f : text) : option text :=
  match dget d h with Some fs => dget fs f | None => None end.
Definition store (d : disk) (h f content : text) : disk :=
  match dget d h with Some fs => dset d h (dset fs f content) | None => d end.

Inductive fault := NoFolder | NoAnswer | Unreadable.    (* FileNotFoundError, an error of the download, ValueError *)
Inductive reply :=
| Data (D : list (list Z))
| Log (rows : list (field * field))
| Table                                                  (* a DataFrame instead of a Series *)
| Raised (e : fault)
| Killed.
(* what happens outside during one call: the text at an address, the rows read_csv finds there, and after
   how many characters of a file being written the process is killed *)
Record world := { w_text : text -> option text; w_rows : text -> option (list (field * field)); w_kill : option nat }.

Section Cache.
  Variable home : text.                                  (* SCIKIT_MINE_DATA or the default, expanded *)
  Variable gunzip : text -> option text.
  (* does wget.download leave nothing behind when it is killed? *)
  Variable atomic : bool.
  Variables url_fimi url_cgi url_tv url_health : text.

  (* get_data_home() 8-36 without argument *)
  Definition get_data_home (d : disk) : disk := match dget d home with Some _ => d | None => dset d home [] end.
  (* [data_home or get_data_home()]: an empty path counts as none, a given one is not created *)
  Definition folder (d : disk) (data_home : option text) : disk * text :=
    match data_home with
    | Some (c :: h) => (d, c :: h)
    | _ => (get_data_home d, home)
    end.
  (* _read_dat 17-50 with int_values *)
  Definition read_any (cgi : bool) (content : text) : reply :=
    match (if cgi then gunzip content else Some content) with
    | None => Raised Unreadable
    | Some t => match read_dat_int [sp] t with Ret D => Data D | _ => Raised Unreadable end
    end.
  (* a file written by the process, maybe killed on the way *)
  Definition write (w : world) (d : disk) (h f content : text) : disk * bool :=
    match w_kill w with
    | None => (store d h f content, true)
    | Some k => if k <? length content then (store d h f (firstn k content), false) else (store d h f content, true)
    end.
  (* wget.download *)
  Definition download (w : world) (d : disk) (h f content : text) : disk * bool :=
    match w_kill w with
    | None => (store d h f content, true)
    | Some k => if k <? length content
                then ((if atomic then d else store d h f (firstn k content)), false) else (store d h f content, true)
    end.
  (* fimi.py fetch_any 80-116 *)
  Definition fetch_any (w : world) (d : disk) (filename : text) (cgi : bool) (data_home : option text) : disk * reply :=
    let '(d, h) := folder d data_home in
    match dget d h with
    | None => (d, Raised NoFolder)                                                        (* os.listdir *)
    | Some fs =>
        match dget fs filename with
        | Some content => (d, read_any cgi content)
        | None =>
            match w_text w ((if cgi then url_cgi else url_fimi) ++ filename) with
            | None => (d, Raised NoAnswer)
            | Some content =>
                let '(d', ok) := download w d h filename content in
                (d', if ok then read_any cgi content else Killed)
            end
        end
    end.
  (* pd.read_csv(p, header=None, index_col=0, dtype="string").squeeze(axis="columns") *)
  Definition read_log (content : text) : reply :=
    match csv_table comma false content with
    | Ret (n, rows) => if n =? 2 then Log (map (fun r => (nth 0 r None, nth 1 r None)) rows) else Table
    | _ => Raised Unreadable
    end.
  (* fetch_canadian_tv 142-155 and fetch_health_app 86-97 differ in the address, in how the server's file is
     read and in the conversion of the times *)
  Definition fetch_log (url : text) (w : world) (d : disk) (filename : text) (data_home : option text) : disk * reply :=
    let '(d, h) := folder d data_home in
    match dget d h with
    | None => (d, Raised NoFolder)
    | Some fs =>
        match dget fs filename with
        | Some content => (d, read_log content)
        | None =>
            match w_rows w url with
            | None => (d, Raised NoAnswer)
            | Some rows =>
                let '(d', ok) := write w d h filename (csv_text comma rows) in
                (d', if ok then Log rows else Killed)
            end
        end
    end.

  Inductive request := Any (cgi : bool) | Tv | Health.
  Record call := { c_what : request; c_file : text; c_home : option text }.
  Definition fetch (w : world) (d : disk) (c : call) : disk * reply :=
    match c_what c with
    | Any cgi => fetch_any w d (c_file c) cgi (c_home c)
    | Tv => fetch_log url_tv w d (c_file c) (c_home c)
    | Health => fetch_log url_health w d (c_file c) (c_home c)
    end.
  Definition after (d : disk) (cs : list (world * call)) : disk :=
    fold_left (fun d wc => fst (fetch (fst wc) d (snd wc))) cs d.
End Cache.

(* ------------------------------------------- labels: fimi.py 219-225 and 404-410, 444-450, 485-491 *)
(* mush.str[0].replace(2, 0) and mush.str[1:]; None is NaN *)
Definition first_as_label (D : list (list Z)) : list (list Z) * list (option Z) :=
  (map (fun t => skipn 1 t) D,
   map (fun t => match t with [] => None | x :: _ => Some (if (x =? 2)%Z then 0%Z else x) end) D).
(* .str[-1] and .str[:-1] *)
Definition last_as_label (D : list (list Z)) : list (list Z) * list (option Z) :=
  (map (fun t => firstn (length t - 1) t) D, map (fun t => nth_error t (length t - 1)) D).
