(** Polarised light, independent of the model. *)
From Coq Require Import Reals.
From Coquelicot Require Import Complex.
From Verif.Base Require Import Cx.
Open Scope R_scope.

(** Stokes vector of a Jones vector (Ep, Es) in the convention of the code base:
    S0 total power, S1 p minus s, S2 +45 minus -45, S3 circular. *)
Definition stokes (p s : C) (i : nat) : R :=
  match i with
  | 0%nat => Cnorm2 p + Cnorm2 s
  | 1%nat => Cnorm2 p - Cnorm2 s
  | 2%nat => 2 * Re (p * Cconj s)
  | 3%nat => - 2 * Im (p * Cconj s)
  | _ => 0
  end.

(** rho = tan(psi) exp(-i delta), angles in degrees. *)
Definition is_rho (psi delta : R) (z : C) : Prop :=
  Re z = tan (psi * PI / 180) * cos (delta * PI / 180) /\
  Im z = - (tan (psi * PI / 180) * sin (delta * PI / 180)).

(** Circularly polarised unit vectors (components p, s).  Handedness 0 is "L". *)
Definition circ_vec (k i : nat) : C :=
  match k, i with
  | 0%nat, 0%nat => RtoC (1 / sqrt 2)
  | 0%nat, 1%nat => (0, 1 / sqrt 2)
  | 1%nat, 0%nat => RtoC (1 / sqrt 2)
  | 1%nat, 1%nat => (0, - (1 / sqrt 2))
  | _, _ => RtoC 0
  end.

(** Power reflected from unpolarised light of unit power: the mean over any two orthogonal
    polarisations, here p and s, of the whole reflected power. *)
Definition unpolarised_power (pp ps sp ss : C) : R :=
  (Cnorm2 pp + Cnorm2 sp + (Cnorm2 ps + Cnorm2 ss)) / 2.
