(** The static dielectric constant and the absorption, independent of the model. *)
From Coq Require Import Reals.
From Coquelicot Require Import Coquelicot.
From Verif.Spec Require Import Causal.
Open Scope R_scope.

(** 2/pi times the integral of e2(x) / x from 0 to M tends to S when M grows. *)
Definition static_rule (e2 : R -> R) (S : R) : Prop :=
  forall eps, 0 < eps -> exists M0, forall M, M0 < M -> exists u,
    is_RInt (fun x => e2 x / x) 0 M u /\ Rabs (2 / PI * u - S) < eps.

(** For photon energies tending to zero (long wavelengths) [eps] has values, which tend to the real
    number V. *)
Definition static_value (c h : R) (eps : R -> option C) (V : R) : Prop :=
  forall eta, 0 < eta -> exists s, 0 < s /\ forall E, 0 < E < s -> exists z,
    eps (wavelength_of c h E) = Some z /\ Rabs (Re z - V) < eta /\ Rabs (Im z) < eta.
