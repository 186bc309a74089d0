(** src/elli/dispersions/table_spectraray.py *)
From Coq Require Import Ascii String List Arith Bool Reals.
From Coquelicot Require Import Complex.
From Verif.Base Require Import Py Cx.
From Verif.Model Require Import FormulaText Regex TextTable Units Tables.
Import ListNotations.
Open Scope char_scope.
Open Scope list_scope.
Open Scope py_scope.

(** 39, 41: line.strip() == "..." *)
Definition is_begin (line : text) : bool := same (strip_both line) (chars "Begin of array").
Definition is_end (line : text) : bool := same (strip_both line) (chars "End of array").

(** 46-47: line.startswith("Units=") and line.split("=")[1].split(",")[0] *)
Definition is_units (line : text) : bool := starts_with (chars "Units=") line.
Definition unit_name (line : text) : text :=
  hd [] (split (fun c => c =? ",") (nth 1 (split (fun c => c =? "=") line) [])).

(** 33-47: the loop.  [line] is the line in hand and [rest] what is left in the file; after the last line readline
    returns the empty string, which ends the loop. *)
Fixpoint scan (line : text) (rest : list text) (cnt start stop : nat) (x_unit : option text) : nat * nat * option text :=
  let start := if is_begin line then S cnt else start in
  let stop := if is_end line then cnt else stop in
  match rest with
  | [] => (start, stop, x_unit)
  | l :: rest' => scan l rest' (S cnt) start stop (if is_units l then Some (unit_name l) else x_unit)
  end.
Definition markers (lines : list text) : nat * nat * option text :=
  match lines with [] => (0, 0, None)%nat | l :: rest => scan l rest 0 0 0 None end.

Section Load.
Variable num : text -> option R.
(** utils.py:213: speed of light and Planck constant *)
Variables c h : R.

(** 49-57: pandas.read_csv: the first lines are skipped, nrows counts the lines that are not blank *)
Definition csv_rows (start n : nat) (lines : list text) : list (list text) :=
  map space_fields (firstn n (filter (fun l => negb (space_blank l)) (skipn start lines))).

(** Numbers of a column; [None] for missing values, strings raise in the arithmetic of 60-66 *)
Fixpoint numbers (l : list cell) : res (option (list R)) :=
  match l with
  | [] => Ok (Some [])
  | Txt _ :: _ => Err TypeError
  | Nan :: l' => let* _ := numbers l' in Ok None
  | Num r :: l' => let* o := numbers l' in Ok (let? v := o in Some (r :: v))
  end.

(** 64-66: conversion_wavelength_energy of the index; [None] for a division by zero *)
Fixpoint to_wavelengths (l : list R) : option (list R) :=
  match l with
  | [] => Some []
  | e :: l' => let? w := wavelength_energy c h e in let? v := to_wavelengths l' in Some (w :: v)
  end.

(** 20-66 load_dispersion_table: the table of wavelengths and permittivities; [None] if it has values that are not
    finite.  59-62: df.iloc[:, "ϵ2"] raises ValueError. *)
Definition load_dispersion_table (lines : list text) : res (option (list point)) :=
  let '(start, stop, x_unit) := markers lines in
  match x_unit with
  | None => Err UnboundLocalError
  | Some unit =>
      if (stop <? start)%nat then Err ValueError else
      let rows := csv_rows start (stop - start) lines in
      if same unit (chars "Wavelength") then Err ValueError else
      let* x := numbers (nth_column num 0 rows) in
      let* e1 := numbers (nth_column num 1 rows) in
      let* e2 := numbers (nth_column num 2 rows) in
      match rows with
      | [] => Err InvalidParameters
      | _ =>
          match x, e1, e2 with
          | Some x, Some e1, Some e2 =>
              match to_wavelengths x with
              | Some w => let* l := table w (map (fun '(a, b) => (a, b) : C) (combine e1 e2)) in Ok (Some l)
              | None => Ok None
              end
          | _, _, _ => Ok None
          end
      end
  end.
End Load.
