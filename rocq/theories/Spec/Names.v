(** The documented names of the quantities of a Result (module docstring of result.py and docs),
    written as a table: the name, the array it stands for. *)
From Coq Require Import Reals String Ascii List.
From Coquelicot Require Import Complex.
Import ListNotations.
Open Scope string_scope.

(** Complete arrays *)
Definition whole_names : list (string * string) :=
  [("rho", "rho"); ("rho_t", "rho_t"); ("psi", "psi"); ("psi_t", "psi_t"); ("delta", "delta"); ("delta_t", "delta_t");
   ("rho_matrix", "rho_matrix"); ("rho_matrix_t", "rho_matrix_t");
   ("psi_matrix", "psi_matrix"); ("psi_matrix_t", "psi_matrix_t");
   ("delta_matrix", "delta_matrix"); ("delta_matrix_t", "delta_matrix_t"); ("mueller_matrix", "mueller_matrix");
   ("jones_matrix_r", "jones_matrix_r"); ("jones_matrix_t", "jones_matrix_t");
   ("jones_matrix_rc", "jones_matrix_rc"); ("jones_matrix_tc", "jones_matrix_tc");
   ("R", "R"); ("R_matrix", "R_matrix"); ("T", "T"); ("T_matrix", "T_matrix");
   ("Rc_matrix", "Rc_matrix"); ("Tc_matrix", "Tc_matrix");
   ("Ψ", "psi"); ("Δ", "delta"); ("ρ", "rho");
   ("r", "jones_matrix_r"); ("t", "jones_matrix_t"); ("rc", "jones_matrix_rc"); ("tc", "jones_matrix_tc");
   ("Rc", "Rc_matrix"); ("Tc", "Tc_matrix")].

(** Arrays of matrices, of which an element can be asked for with two index letters after an
    underscore, and the size of the matrices *)
Definition matrix_names : list (string * (string * nat)) :=
  [("psi", ("psi_matrix", 2)); ("delta", ("delta_matrix", 2)); ("rho", ("rho_matrix", 2));
   ("Ψ", ("psi_matrix", 2)); ("Δ", ("delta_matrix", 2)); ("ρ", ("rho_matrix", 2));
   ("R", ("R_matrix", 2)); ("T", ("T_matrix", 2)); ("Rc", ("Rc_matrix", 2)); ("Tc", ("Tc_matrix", 2));
   ("r", ("jones_matrix_r", 2)); ("t", ("jones_matrix_t", 2)); ("rc", ("jones_matrix_rc", 2)); ("tc", ("jones_matrix_tc", 2));
   ("psi_matrix", ("psi_matrix", 2)); ("psi_matrix_t", ("psi_matrix_t", 2));
   ("delta_matrix", ("delta_matrix", 2)); ("delta_matrix_t", ("delta_matrix_t", 2));
   ("rho_matrix", ("rho_matrix", 2)); ("rho_matrix_t", ("rho_matrix_t", 2));
   ("R_matrix", ("R_matrix", 2)); ("T_matrix", ("T_matrix", 2)); ("Rc_matrix", ("Rc_matrix", 2)); ("Tc_matrix", ("Tc_matrix", 2));
   ("jones_matrix_r", ("jones_matrix_r", 2)); ("jones_matrix_t", ("jones_matrix_t", 2));
   ("jones_matrix_rc", ("jones_matrix_rc", 2)); ("jones_matrix_tc", ("jones_matrix_tc", 2));
   ("mueller_matrix", ("mueller_matrix", 4))]%nat.

(** Index letters: the position they stand for *)
Definition letters : list (ascii * nat) :=
  [("1", 0); ("2", 1); ("3", 2); ("4", 3); ("p", 0); ("s", 1); ("L", 0); ("R", 1)]%char%nat.

(** The name of an element *)
Definition suffixed (prefix : string) (a b : ascii) : string :=
  prefix ++ String "_" (String a (String b EmptyString)).

(** Reflection or transmission with a Jones matrix: a component of the outgoing field for incident
    light of one polarisation and unit amplitude ("from ... to ...") *)
Definition from_to (J : nat -> nat -> C) (from to : nat) : C :=
  let E := fun k => if Nat.eqb k from then RtoC 1%R else RtoC 0%R in
  Cplus (Cmult (J to 0%nat) (E 0%nat)) (Cmult (J to 1%nat) (E 1%nat)).
