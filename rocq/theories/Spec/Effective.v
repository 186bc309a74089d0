(** Specification vocabulary for materials and effective media (C25 - C30, C61, C62). *)
From Coq Require Import Reals.
From Coquelicot Require Import Complex.
From Verif.Base Require Import Cx Mat.
Open Scope R_scope.
Open Scope C_scope.

Definition symmetric3 (A : mat) : Prop := forall i j, (i < 3)%nat -> (j < 3)%nat -> A i j = A j i.
Definition trace3 (A : mat) : C := A 0%nat 0%nat + A 1%nat 1%nat + A 2%nat 2%nat.
(** The tensor of a medium seen from a frame turned by R. *)
Definition seen (Rm A : mat) : mat := mmul 3 (mmul 3 Rm A) (mtr Rm).
(** An isotropic tensor *)
Definition iso (e : C) : mat := fun i j => if Nat.eqb i j then e else 0.

(** Maxwell-Garnett: (e - h) / (e + 2 h) = f (g - h) / (g + 2 h), without the denominators. *)
Definition mg_equation (f : R) (h g e : C) : Prop :=
  (e - h) * (g + 2 * h) = RtoC f * (g - h) * (e + 2 * h).
(** Bruggeman: the two volume fractions weigh (eps_i - e) / (eps_i + 2 e) to zero. *)
Definition bruggeman_equation (f : R) (h g e : C) : Prop :=
  RtoC (1 - f) * ((h - e) * (g + 2 * e)) + RtoC f * ((g - e) * (h + 2 * e)) = 0.

(** w is the cube root of z with argument in (-60, 60] degrees. *)
Definition cube_root (w z : C) : Prop :=
  w * w * w = z /\ (w = 0 \/ (- sqrt 3 * fst w < snd w <= sqrt 3 * fst w)%R).

(** A medium without gain, in the sign convention of the package. *)
Definition passive (e : C) : Prop := (0 <= snd e)%R.
(** One constituent has a positive, the other a negative real permittivity. *)
Definition lossless_opposite (h g : C) : Prop := snd h = 0%R /\ snd g = 0%R /\ (fst h * fst g < 0)%R.
