(** src/elli/experiment.py: Experiment (28-165); src/elli/structure.py:488-507 Structure.evaluate; the quantities of
    src/elli/result.py that depend on the light. *)
From Coq Require Import Reals List.
From Coquelicot Require Import Complex.
From Verif.Base Require Import Py Cx Mat.
From Verif.Model Require Import Polar Ellips.
Import ListNotations.
Open Scope py_scope.

Section Experiment.
(** Structures.  [solver]: what a solver computes as jones_matrix_r (or jones_matrix_t) for the structure, the angle and
    a wavelength; the solvers copy the Jones vector (solver.py:34) but do not use it. *)
Variable Str : Type.
Variable solver : Str -> R -> R -> mat.

(** The attributes; jones_vector and stokes_vector are None until set (30-34) *)
Record experiment := Exp { structure : Str; theta_i : R; lbda : list R; incident : option light }.

(** A number, or an array with one axis.  Arrays with more axes are not modelled. *)
Inductive array_like := Single (x : R) | Several (l : list R).

(** experiment.py:141-149 set_lbda *)
Definition as_wavelengths (a : array_like) : list R := match a with Single x => [x] | Several l => l end.

(** experiment.py:36-55 __init__ *)
Definition init (s : Str) (l : array_like) (t : R) (v : vector) : experiment := Exp s t (as_wavelengths l) (set_vector None v).

(** experiment.py:57-149 the setters *)
Inductive call := SetStructure (s : Str) | SetVector (v : vector) | SetTheta (t : R) | SetLbda (l : array_like).
Definition apply (e : experiment) (c : call) : experiment :=
  match c with
  | SetStructure s => Exp s (theta_i e) (lbda e) (incident e)
  | SetVector v => Exp (structure e) (theta_i e) (lbda e) (set_vector (incident e) v)
  | SetTheta t => Exp (structure e) t (lbda e) (incident e)
  | SetLbda l => Exp (structure e) (theta_i e) (as_wavelengths l) (incident e)
  end.

(** experiment.py:151-165 evaluate, structure.py:488-507 *)
Definition evaluate (e : experiment) : list mat := map (solver (structure e) (theta_i e)) (lbda e).
Definition structure_evaluate (s : Str) (l : array_like) (t : R) : experiment := init s l t VNone.

(** result.py:57-132 rho, psi, delta of the result (and rho_t, psi_t, delta_t): for every wavelength; [None] is nan.
    np.dot with None raises TypeError. *)
Definition with_light {A} (f : mat -> (nat -> C) -> option A) (e : experiment) : res (list (option A)) :=
  match incident e with
  | None => Err TypeError
  | Some l => Ok (map (fun J => let? (a, b) := jones_vector l in f J (vec_of [a; b])) (evaluate e))
  end.
Definition result_rho (rg : drange) : experiment -> res (list (option C)) := with_light (rho rg).
Definition result_psi (rg : drange) : experiment -> res (list (option R)) := with_light (psi rg).
Definition result_delta (rg : drange) : experiment -> res (list (option R)) := with_light (delta rg).
(** result.py:222-235 *)
Definition result_mueller (e : experiment) : list (option (nat -> nat -> R)) := map mueller_matrix (evaluate e).
End Experiment.
Arguments Exp {Str}. Arguments structure {Str}. Arguments theta_i {Str}. Arguments lbda {Str}. Arguments incident {Str}.
Arguments init {Str}. Arguments apply {Str}. Arguments evaluate {Str}. Arguments structure_evaluate {Str}.
Arguments SetStructure {Str}. Arguments SetVector {Str}. Arguments SetTheta {Str}. Arguments SetLbda {Str}.
Arguments with_light {Str} solver {A}. Arguments result_rho {Str}. Arguments result_psi {Str}. Arguments result_delta {Str}. Arguments result_mueller {Str}.
