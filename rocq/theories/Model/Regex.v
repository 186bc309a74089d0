(** Regular expressions of the importers (src/elli/importer/woollam.py).  Python's re module is not part of the
    repository; of it the following is assumed: for the expressions used, without back references, search finds a match
    exactly if some part of the text is in the language of the expression; \d, \s and letter ranges are taken for ASCII
    characters. *)
From Coq Require Import Ascii List Arith Bool.
From Verif.Model Require Import FormulaText.
Import ListNotations.
Open Scope char_scope.

Inductive regex :=
| Nothing
| Empty
| Chr (p : ascii -> bool)
| Cat (r s : regex)
| Alt (r s : regex)
| Star (r : regex).

Fixpoint nullable (r : regex) : bool :=
  match r with
  | Nothing => false
  | Empty => true
  | Chr _ => false
  | Cat r s => nullable r && nullable s
  | Alt r s => nullable r || nullable s
  | Star _ => true
  end.

(** The expression for the rest of the text after the character *)
Fixpoint rest (c : ascii) (r : regex) : regex :=
  match r with
  | Nothing | Empty => Nothing
  | Chr p => if p c then Empty else Nothing
  | Cat r s => if nullable r then Alt (Cat (rest c r) s) (rest c s) else Cat (rest c r) s
  | Alt r s => Alt (rest c r) (rest c s)
  | Star r => Cat (rest c r) (Star r)
  end.

(** re.fullmatch *)
Fixpoint fullmatch (r : regex) (s : text) : bool :=
  match s with [] => nullable r | c :: s' => fullmatch (rest c r) s' end.

Definition anything : regex := Star (Chr (fun _ => true)).
Definition newline : ascii := "010".

(** re.search(r, s) *)
Definition search (r : regex) (s : text) : bool := fullmatch (Cat anything (Cat r anything)) s.
(** re.search("^r", s) *)
Definition search_start (r : regex) (s : text) : bool := fullmatch (Cat r anything) s.
(** re.search("^r$", s): $ matches at the end and before a newline at the end *)
Definition search_line (r : regex) (s : text) : bool :=
  fullmatch (Cat r (Alt Empty (Chr (fun c => c =? newline)))) s.

Definition char (c : ascii) : regex := Chr (fun d => d =? c).
Definition one_of (l : text) : regex := Chr (fun d => existsb (fun c => d =? c) l).
Definition digit : regex := Chr is_digit.
(** [a-zA-Z] *)
Definition is_alpha (c : ascii) : bool := between "a" "z" c || between "A" "Z" c.
Definition alpha : regex := Chr is_alpha.
(** \s and str.strip: tab to carriage return, the separators 28 to 31, blank *)
Definition is_space (c : ascii) : bool := between "009" "013" c || between "028" "032" c.
Definition space : regex := Chr is_space.
Definition plus (r : regex) : regex := Cat r (Star r).
Definition optional (r : regex) : regex := Alt r Empty.
Fixpoint times (n : nat) (r : regex) : regex := match n with 0%nat => Empty | S n' => Cat r (times n' r) end.
