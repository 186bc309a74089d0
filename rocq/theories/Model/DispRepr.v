(** src/elli/dispersions/base_dispersion.py: the text of a dispersion.  A parameter is its name and the
    text that Python's str gives for its value. *)
From Coq Require Import String Ascii List.
Import ListNotations.
Open Scope string_scope.

Definition nl : string := String (ascii_of_nat 10) "".

(** Python's str.join *)
Fixpoint join (sep : string) (l : list string) : string :=
  match l with
  | [] => ""
  | [x] => x
  | x :: l => x ++ sep ++ join sep l
  end.

(** "=" * n *)
Fixpoint underline (n : nat) : string := match n with O => "" | S n => "=" ++ underline n end.

(** base_dispersion.py:182-183 _dict_to_str; a dictionary in its order of insertion *)
Definition dict := list (string * string).
Definition dict_to_str (d : dict) : string := join ", " (map (fun item => fst item ++ " = " ++ snd item) d).

(** A dispersion: the name of its class, single_params and rep_params *)
Record disp := Disp { class : string; single_params : dict; rep_params : list dict }.

(** base_dispersion.py:181-198 BaseDispersion.__repr__ *)
Definition repr (d : disp) : string :=
  class d ++ nl ++ underline (String.length (class d)) ++ nl ++ dict_to_str (single_params d) ++
  match rep_params d with
  | [] => ""
  | l => nl ++ nl ++ "Oscillators" ++ nl ++ "===========" ++ nl ++ join nl (map dict_to_str l)
  end.

(** base_dispersion.py:370-376, 415-421 __repr__ of DispersionSum and IndexDispersionSum *)
Definition sum_repr (index : bool) (l : list disp) : string :=
  (if index then "IndexDispersionSum" else "DispersionSum") ++ nl ++ underline 13 ++ nl ++ nl ++ join (nl ++ nl) (map repr l).

(** What can be printed.  The summands of a sum are no sums: __add__ (221-223, 350-362) merges them. *)
Inductive printed := One (d : disp) | Sum (index : bool) (l : list disp).
Definition text (p : printed) : string := match p with One d => repr d | Sum b l => sum_repr b l end.
