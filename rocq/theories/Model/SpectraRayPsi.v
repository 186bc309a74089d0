(** src/elli/importer/spectraray.py:14-112 read_spectraray_psi_delta and read_spectraray_mmatrix, with the default
    separator.  The same assumptions on pandas.read_csv as in Model/TextTable.v; the version of pandas is at least 2.2. *)
From Coq Require Import Ascii String List Arith Bool Reals.
From Verif.Base Require Import Py.
From Verif.Model Require Import FormulaText Regex TextTable DeltaRange.
Import ListNotations.
Open Scope list_scope.
Open Scope py_scope.

(** re.split(r"\s+", s): white space at the ends gives empty strings *)
Fixpoint re_split (s : text) : list text :=
  match s with
  | [] => [[]]
  | c :: s' =>
      if is_space c then
        match s' with
        | d :: _ => if is_space d then re_split s' else [] :: re_split s'
        | [] => [[]; []]
        end
      else match re_split s' with f :: fs => (c :: f) :: fs | [] => [[c]] end
  end.

(** l[::2] *)
Fixpoint every_second {A} (l : list A) : list A :=
  match l with
  | a :: _ :: l' => a :: every_second l'
  | _ => l
  end.

(** A stable sort *)
Section Sort.
Context {A : Type}.
Variable le : A -> A -> bool.
Fixpoint insert (a : A) (l : list A) : list A :=
  match l with
  | [] => [a]
  | b :: l' => if le a b then a :: l else b :: insert a l'
  end.
Definition isort (l : list A) : list A := fold_right insert [] l.
End Sort.

(** A row of the result *)
Record row := Row { aoi : R; wavelength : cell; psi : cell; delta : cell }.

(** stack: the columns of the angles (psi, delta) for each row of the file *)
Fixpoint pairs {A} (l : list A) : list (A * A) :=
  match l with a :: b :: l' => (a, b) :: pairs l' | _ => [] end.

Section Read.
(** The conversion of fields by read_csv with the argument decimal, and Python's float *)
Variable num pyfloat : text -> option R.
(** The order of the index of wavelengths; all that is needed of it is what it does on numbers *)
Variable le_index : cell -> cell -> bool.

(** 49: the angles *)
Definition aois (header : text) : res (list R) :=
  rmapM (fun t => match pyfloat t with Some r => Ok r | None => Err ValueError end) (every_second (skipn 3 (re_split header))).

(** 32-40 read_csv with header=None: the rows; the number of columns is that of the first row *)
Definition body (lines : list text) : list (list text) :=
  map space_fields (filter (fun l => negb (space_blank l)) lines).
Definition too_wide (n : nat) (rows : list (list text)) : bool := existsb (fun r => (n <? length r)%nat) rows.
Definition is_nan (c : cell) : bool := match c with Nan => true | _ => false end.

(** 41: dropna(axis="columns", how="all") *)
Definition columns (first n : nat) (rows : list (list text)) : list (list cell) := map (fun j => nth_column num j rows) (seq first (n - first)).
Definition not_empty (c : list cell) : bool := negb (forallb is_nan c).

(** 50-60: the rows for all angles *)
Definition unpivot (angles : list R) (index : list cell) (cols : list (list cell)) : list row :=
  flat_map (fun i => map (fun '(a, (p, d)) => Row a (nth i index Nan) (nth i p Nan) (nth i d Nan)) (combine angles (pairs cols)))
    (seq 0 (length index)).

(** 61: sort_index by angle, then by wavelength *)
Definition le_row (r s : row) : bool :=
  if Rlt_dec (aoi r) (aoi s) then true
  else if Req_EM_T (aoi r) (aoi s) then le_index (wavelength r) (wavelength s) else false.

(** 65: a string cannot be added to a number *)
Definition convert (r : row) : res row :=
  match delta r with
  | Txt _ => Err TypeError
  | Nan => Ok r
  | Num d => let* d' := convert_delta_range d (PyInt (-180)) (PyInt 180) in Ok (Row (aoi r) (wavelength r) (psi r) (Num d'))
  end.

Definition distinct (l : list R) : bool := (length (nodup Req_EM_T l) =? length l)%nat.

(** 14-67 read_spectraray_psi_delta.  An empty table is an error of read_csv (EmptyDataError, a ValueError); 53: the
    number of columns must be right; 57: stack does not take columns of the same name. *)
Definition read_psi_delta (lines : list text) : res (list row) :=
  let rows := body (tl lines) in
  match rows with
  | [] => Err ValueError
  | first :: _ =>
      let n := length first in
      if too_wide n rows then Err ParseError else
      let cols := filter not_empty (columns 1 n rows) in
      let* angles := aois (hd [] lines) in
      if negb (length cols =? 2 * length angles)%nat then Err ValueError else
      if negb (distinct angles) then Err ValueError else
      rmapM convert (isort le_row (unpivot angles (nth_column num 0 rows) cols))
  end.

(** 70-112 read_spectraray_mmatrix: the first line has the names of the columns; iloc[:, -17:-1] has sixteen columns
    only if there are seventeen or more (92: there are 16 names).  pandas raises for rows with more fields than names (if it is the
    first row, pandas shifts the columns instead; this is not modelled). *)
Definition last_columns {A} (l : list A) : list A :=
  firstn (length l - 1 - (length l - 17)) (skipn (length l - 17) l).
Definition read_mmatrix (lines : list text) : res (list (cell * list cell)) :=
  match body lines with
  | [] => Err ValueError
  | names :: rows =>
      let n := length names in
      if too_wide n rows then Err ParseError else
      let cols := last_columns (columns 1 n rows) in
      if negb (length cols =? 16)%nat then Err ValueError else
      Ok (map (fun i => (nth i (nth_column num 0 rows) Nan, map (fun c => nth i c Nan) cols)) (seq 0 (length rows)))
  end.
End Read.
