(** src/elli/importer/woollam.py *)
From Coq Require Import Ascii String List Arith Bool Reals.
From Verif.Base Require Import Py.
From Verif.Model Require Import FormulaText Regex TextTable.
Import ListNotations.
Open Scope char_scope.
Open Scope list_scope.
Open Scope py_scope.

(** 19: [+-]?(\d+([.]\d* )?([eE][+-]?\d+)?|[.]\d+([eE][+-]?\d+)?) without the blank *)
Definition float_sign : regex := optional (one_of ["+"; "-"]).
Definition float_exponent : regex := optional (Cat (one_of ["e"; "E"]) (Cat float_sign (plus digit))).
Definition is_float_regex : regex :=
  Cat float_sign
    (Alt (Cat (plus digit) (Cat (optional (Cat (char ".") (Star digit))) float_exponent))
         (Cat (char ".") (Cat (plus digit) float_exponent))).

(** 22-35 is_float, for strings and for the values of a data frame; nan is a float *)
Definition is_float_str (s : text) : bool := search is_float_regex s.
Definition is_float (v : cell) : bool :=
  match v with Num _ | Nan => true | Txt t => is_float_str t end.

(** 38-48: ^(-?\d*\.\d*\s+){5}\d*\.\d*$ *)
Definition wvase_number : regex := Cat (Star digit) (Cat (char ".") (Star digit)).
Definition is_wvase_tabular (line : text) : bool :=
  search_line (Cat (times 5 (Cat (optional (char "-")) (Cat wvase_number (plus space)))) wvase_number) line.

(** 51-61: ^[a-zA-Z]+\s+(\d+\.\d+\s+){5}\d+\.\d+$ *)
Definition ease_number : regex := Cat (plus digit) (Cat (char ".") (plus digit)).
Definition is_complete_ease_tabular (line : text) : bool :=
  search_line (Cat (plus alpha) (Cat (plus space) (Cat (times 5 (Cat ease_number (plus space))) ease_number))) line.

(** 64-74: ^[a-zA-Z]+\s+TRIG *)
Definition is_tan_cos_format (line : text) : bool :=
  search_start (Cat (plus alpha) (Cat (plus space) (Cat (char "T") (Cat (char "R") (Cat (char "I") (char "G")))))) line.

Inductive format := Wvase | CompleteEase.

(** 186-205: the loop.  The lines from the first line of the table on, and the lines before it. *)
Fixpoint find_table (metadata lines : list text) : res (format * list text * list text) :=
  match lines with
  | [] => Err ValueError
  | line :: rest =>
      if is_wvase_tabular line then Ok (Wvase, metadata, lines)
      else if is_complete_ease_tabular line then Ok (CompleteEase, metadata, lines)
      else if is_tan_cos_format line then Err NotImplementedError
      else find_table (metadata ++ [line]) rest
  end.

(** A row of the result: its index, and the columns Ψ and Δ.  The two columns of errors are dropped (218). *)
Record row := Row { aoi : cell; wavelength : cell; psi : cell; delta : cell }.

Section Read.
Variable num : text -> option R.
(** 92, 99, 106: ureg(unit).to("nm").magnitude; [None] if pint does not know the unit or it is no length *)
Variable to_nm : text -> option R.

(** 94: astype(float) of a value of the index.  Missing values are not among the levels of an index. *)
Definition as_float (v : cell) : res cell :=
  match v with
  | Num _ | Nan => Ok v
  | Txt t => match num t with Some r => Ok (Num r) | None => Err ValueError end
  end.
Definition scaled (k : R) (v : cell) : cell := match v with Num r => Num (r * k) | _ => v end.

Definition text_eq (a b : text) : {a = b} + {a <> b} := list_eq_dec ascii_dec a b.
Definition cell_eq (a b : cell) : {a = b} + {a <> b}.
Proof. decide equality; [apply Req_EM_T|apply text_eq]. Defined.
(** pandas.MultiIndex: the levels are the different values of the index that are not missing *)
Definition levels (l : list cell) : list cell :=
  nodup cell_eq (filter (fun v => match v with Nan => false | _ => true end) l).
Definition unique (l : list cell) : bool := (length (nodup cell_eq l) =? length l)%nat.

(** 77-112 scale_to_nm.  [all] are the values of the index when it was made; set_levels raises ValueError if the new
    levels are not different. *)
Definition scale_to_nm (unit : text) (all : list cell) (rows : list row) : res (list row) :=
  match to_nm unit with
  | None => Ok rows
  | Some k =>
      let* new := rmapM (fun v => let* f := as_float v in Ok (scaled k f)) (levels all) in
      if unique new then
        rmapM (fun r => let* f := as_float (wavelength r) in Ok (Row (aoi r) (scaled k f) (psi r) (delta r))) rows
      else Err ValueError
  end.

Definition data_rows (lines : list text) : list (list text) :=
  map tab_fields (filter (fun l => negb (tab_blank l)) lines).
Definition wide (n : nat) (rows : list (list text)) : bool := existsb (fun r => (n <? length r)%nat) rows.

Definition zip_rows (a w p d : list cell) : list row :=
  map (fun '(((a, w), p), d) => Row a w p d) (combine (combine (combine a w) p) d).

(** 115-142 _read_wvase_dataframe, the rows and the values of the wavelength in the index.  pandas raises for rows with
    too many fields (if it is the first row, pandas shifts the columns instead; this is not modelled).  The columns are
    not all of integers, as the first line has a decimal point in every field. *)
Definition read_wvase (lines : list text) : res (list row * list cell) :=
  let rows := data_rows lines in
  if wide 6 rows then Err ParseError else
  let col := fun j => nth_column num j rows in
  let kept := filter (fun r => is_float (wavelength r)) (zip_rows (col 1%nat) (col 0%nat) (col 2%nat) (col 3%nat)) in
  Ok (kept, map wavelength kept).

(** 145-164 _read_complete_ease_dataframe: the number of columns is that of the first row; other numbers than seven
    do not fit the names of the columns or the index (the class of the exception is ValueError for the former). *)
Definition read_complete_ease (lines : list text) : res (list row * list cell) :=
  let rows := data_rows lines in
  let n := length (hd [] rows) in
  if wide n rows then Err ParseError else
  if negb (n =? 7)%nat then Err ValueError else
  let col := fun j => nth_column num j rows in
  let all := combine (col 0%nat) (zip_rows (col 2%nat) (col 1%nat) (col 3%nat) (col 4%nat)) in
  let kept := map snd (filter (fun p => match fst p with Txt t => same t (chars "E") | _ => false end) all) in
  Ok (kept, col 1%nat).

(** 167-218 read_woollam_psi_delta; 217: metadata[-1] *)
Definition read_woollam_psi_delta (lines : list text) : res (list row) :=
  let* t := find_table [] lines in
  let '(f, metadata, rest) := t in
  let* d := (match f with Wvase => read_wvase rest | CompleteEase => read_complete_ease rest end) in
  match rev metadata with
  | [] => Err IndexError
  | unit :: _ => scale_to_nm unit (snd d) (fst d)
  end.
End Read.
