(** Very thin films, independent of the solvers. *)
From Coq Require Import Reals.
From Coquelicot Require Import Complex.
From Verif.Base Require Import Cx.
Open Scope R_scope.

(** Around thickness 0 the function is defined and equals c + d L up to an error that is small
    compared with d. *)
Definition first_order (f : R -> option C) (c L : C) : Prop :=
  forall eta, 0 < eta -> exists d0, 0 < d0 /\ forall d, Rabs d <= d0 ->
    exists z, f d = Some z /\ Cmod (z - c - RtoC d * L)%C <= eta * Rabs d.

Open Scope C_scope.
(** A film of permittivity e on a sample with the reflection r.  k is the vacuum wave number, x the
    permittivity of the front medium, q the normal and s the tangential component of the wave vector
    there, in units of k. *)
Definition film_s (k q s : R) (e r : C) : C :=
  Ci * RtoC k / 2 * ((e - RtoC (s * s)) / RtoC q * ((1 + r) * (1 + r)) - RtoC q * ((1 - r) * (1 - r))).
Definition film_p (k x q s : R) (e r : C) : C :=
  Ci * RtoC k / 2 * ((1 - RtoC (s * s) / e) * RtoC (x / q) * ((1 + r) * (1 + r)) - e * RtoC (q / x) * ((1 - r) * (1 - r))).

(** Drude's formula: the relative change of rho per thickness of a film of permittivity e on a
    substrate of permittivity eb *)
Definition drude_film (k x q s : R) (e eb : C) : C :=
  2 * Ci * RtoC k * RtoC q * RtoC (s * s) * eb * (eb - e) * (e - RtoC x) /
  (e * (eb - RtoC x) * (RtoC x * eb - RtoC (s * s) * (eb + RtoC x))).
