(** The Kramers-Kronig relation between the parts of a dielectric function of the photon energy,
    independent of the model. *)
From Coq Require Import Reals.
From Coquelicot Require Import Coquelicot.
Open Scope R_scope.

(** 2/pi times the integral of x e2(x) / (x^2 - E^2) over the positive axis, as principal value: a
    symmetric neighbourhood of E is left out and shrinks to zero, the upper limit grows. *)
Definition kk_transform (e2 : R -> R) (E V : R) : Prop :=
  forall eps, 0 < eps -> exists s M0, 0 < s /\ forall d M, 0 < d < s -> M0 < M -> exists u v,
    is_RInt (fun x => x * e2 x / (x ^ 2 - E ^ 2)) 0 (E - d) u /\
    is_RInt (fun x => x * e2 x / (x ^ 2 - E ^ 2)) (E + d) M v /\
    Rabs (2 / PI * (u + v) - V) < eps.

(** The wavelength in nm of the energy E in eV *)
Definition wavelength_of (c h E : R) : R := c * h * 10 ^ 9 / E.

(** e2 is the imaginary part of [eps], a function of the wavelength, wherever this has a value *)
Definition absorption (c h : R) (eps : R -> option C) (e2 : R -> R) : Prop :=
  forall x z, 0 < x -> eps (wavelength_of c h x) = Some z -> e2 x = Im z.

(** The real part of [eps], without the constant, is the transform of the imaginary part. *)
Definition kramers_kronig (c h : R) (eps : R -> option C) (constant : R) : Prop :=
  forall E z e2, 0 < E -> eps (wavelength_of c h E) = Some z -> absorption c h eps e2 ->
    kk_transform e2 E (Re z - constant).
