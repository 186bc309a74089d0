(** What the importers use of Python's str and of pandas.read_csv.  Neither is part of the repository; the definitions
    say what is assumed of them.  Characters are ASCII, lines are what readline returns (with the newline at the end, but
    for the last one), quotation marks and the names of missing values have no special meaning, and the conversion of a
    field to a number is the argument [num]. *)
From Coq Require Import Ascii String List Arith Bool Reals.
From Verif.Model Require Import FormulaText Regex.
Import ListNotations.
Open Scope char_scope.
Open Scope list_scope.

(** str.strip() *)
Fixpoint strip_left (s : text) : text :=
  match s with c :: s' => if is_space c then strip_left s' else s | [] => [] end.
Definition strip_both (s : text) : text := rev (strip_left (rev (strip_left s))).

Fixpoint same (a b : text) : bool :=
  match a, b with
  | [], [] => true
  | c :: a', d :: b' => (c =? d) && same a' b'
  | _, _ => false
  end.

(** str.startswith *)
Definition starts_with (w s : text) : bool := match strip w s with Some _ => true | None => false end.

(** str.split(c), and with a class of characters *)
Fixpoint split (p : ascii -> bool) (s : text) : list text :=
  match s with
  | [] => [[]]
  | c :: s' =>
      if p c then [] :: split p s'
      else match split p s' with f :: fs => (c :: f) :: fs | [] => [[c]] end
  end.

Definition is_nil (s : text) : bool := match s with [] => true | _ => false end.
Definition is_newline (c : ascii) : bool := c =? newline.
Definition is_tab (c : ascii) : bool := c =? "009".

(** The line without the newline *)
Definition content (s : text) : text := hd [] (split is_newline s).

(** read_csv(sep="\t"): the fields of a line, and the lines that are skipped (skip_blank_lines) *)
Definition tab_fields (s : text) : list text := split is_tab (content s).
Definition tab_blank (s : text) : bool := forallb (fun c => c =? " ") (content s).
(** read_csv(sep=r"\s+") *)
Definition space_fields (s : text) : list text := filter (fun f => negb (is_nil f)) (split is_blank (content s)).
Definition space_blank (s : text) : bool := forallb is_blank (content s).

(** A value of a data frame *)
Inductive cell := Num (r : R) | Txt (t : text) | Nan.

Section Columns.
Variable num : text -> option R.

Definition is_number (t : text) : bool := match num t with Some _ => true | None => false end.

(** read_csv: a column holds numbers if every field of it is a number or missing, otherwise strings *)
Definition as_number (t : text) : cell :=
  match t with [] => Nan | _ => match num t with Some r => Num r | None => Nan end end.
Definition as_text (t : text) : cell := match t with [] => Nan | _ => Txt t end.
Definition column (l : list text) : list cell :=
  if forallb (fun t => is_nil t || is_number t) l then map as_number l else map as_text l.

(** Column j of the rows; missing fields at the end of a row are missing values *)
Definition nth_column (j : nat) (rows : list (list text)) : list cell := column (map (fun r => nth j r []) rows).
End Columns.
