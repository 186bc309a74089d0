(** src/elli/importer/accurion.py.  The assumptions on pandas.read_csv are those of Model/TextTable.v, with line ends
    already translated; the conversions of strings to numbers by read_csv and by astype are assumed to be the same. *)
From Coq Require Import Ascii String List Arith Bool Reals.
From Verif.Base Require Import Py.
From Verif.Model Require Import FormulaText Regex TextTable DeltaRange SpectraRayPsi.
Import ListNotations.
Open Scope list_scope.
Open Scope py_scope.

(** DataFrame[name] and reindex: the first column of this name (read_csv renames the others) *)
Fixpoint index_of (name : text) (names : list text) : option nat :=
  match names with
  | [] => None
  | n :: names' => if same n name then Some O else option_map S (index_of name names')
  end.

(** A row of the data frame of line 24: AOI, Lambda, Delta and Psi *)
Definition values : Type := cell * cell * cell * cell.

Section Read.
Variable num : text -> option R.

(** 23: astype(float) *)
Definition to_float (c : cell) : res cell :=
  match c with Txt t => match num t with Some r => Ok (Num r) | None => Err ValueError end | _ => Ok c end.

(** 21-23: the columns without the row of units.  Line 23 takes rows from the second one on, after read_csv has chosen the types of the columns. *)
Definition float_columns (n : nat) (rows : list (list text)) : res (list (list cell)) :=
  rmapM (fun j => rmapM to_float (tl (nth_column num j rows))) (seq 0 n).

(** 24: reindex; a missing column holds nan *)
Definition reindexed (names : list text) (cols : list (list cell)) (name : string) : list cell :=
  match index_of (chars name) names with Some j => nth j cols [] | None => [] end.
Definition frame (names : list text) (cols : list (list cell)) (rows : nat) : list values :=
  map (fun i => let get name := nth i (reindexed names cols name) Nan in (get "AOI"%string, get "Lambda"%string, get "Delta"%string, get "Psi"%string)) (seq 0 rows).

(** 33: groupby of the angle and the wavelength: nan is no key, the groups are sorted *)
Definition key_of (v : values) : option (R * R) :=
  match v with (Num a, Num w, _, _) => Some (a, w) | _ => None end.
Definition keys (l : list values) : list (R * R) := flat_map (fun v => match key_of v with Some k => [k] | None => [] end) l.
Definition key_dec (k l : R * R) : {k = l} + {k <> l}.
Proof. decide equality; apply Req_EM_T. Defined.
Definition le_key (k l : R * R) : bool :=
  if Rlt_dec (fst k) (fst l) then true else if Req_EM_T (fst k) (fst l) then if Rle_dec (snd k) (snd l) then true else false else false.
Definition groups (l : list values) : list (R * R) := isort le_key (nodup key_dec (keys l)).
(** sum: nan is left out *)
Definition amount (c : cell) : R := match c with Num r => r | _ => 0%R end.
Definition in_group (k : R * R) (v : values) : bool :=
  match key_of v with Some l => if key_dec k l then true else false | None => false end.
Definition total (f : values -> cell) (k : R * R) (l : list values) : R :=
  fold_left (fun s v => (s + amount (f v))%R) (filter (in_group k) l) 0%R.
Definition delta_of (v : values) : cell := match v with (_, _, d, _) => d end.
Definition psi_of (v : values) : cell := match v with (_, _, _, p) => p end.

(** 36 *)
Definition result_row (l : list values) (k : R * R) : res (R * R * R * R) :=
  let* d := convert_delta_range (total delta_of k l) (PyInt (-180)) (PyInt 180) in
  Ok (fst k, snd k, d, total psi_of k l).

(** 11-38 read_accurion_psi_delta: rows of angle, wavelength, delta and psi.  pandas raises for rows with more fields than names (if it is the
    first row, pandas shifts the columns instead; this is not modelled). *)
Definition read_accurion (lines : list text) : res (list (R * R * R * R)) :=
  match map tab_fields (filter (fun l => negb (tab_blank l)) lines) with
  | [] => Err ValueError
  | names :: rows =>
      if too_wide (length names) rows then Err ParseError else
      let* cols := float_columns (length names) rows in
      let f := frame names cols (length (tl rows)) in
      rmapM (result_row f) (groups f)
  end.
End Read.
