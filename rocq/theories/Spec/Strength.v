(** The total strength of an absorption spectrum: the integral of the photon energy times the
    imaginary part of the dielectric function. *)
From Coq Require Import Reals.
From Coquelicot Require Import Coquelicot.
From Verif.Spec Require Import Causal.
Open Scope R_scope.

(** The integral of x e2(x) from 0 to M tends to S when M grows. *)
Definition sum_rule (e2 : R -> R) (S : R) : Prop :=
  forall eps, 0 < eps -> exists M0, forall M, M0 < M -> exists u,
    is_RInt (fun x => x * e2 x) 0 M u /\ Rabs (u - S) < eps.

(** The strength of a dielectric function of the wavelength *)
Definition has_strength (c h : R) (eps : R -> option C) (S : R) : Prop :=
  forall e2, absorption c h eps e2 -> sum_rule e2 S.

(** Sum over the oscillators of a model *)
Fixpoint total {T} (s : T -> R) (l : list T) : R := match l with nil => 0 | cons t l => s t + total s l end.

(** Strength of a Tauc-Lorentz oscillator: gap, amplitude, resonance and width *)
Definition tauc_strength (g A E C : R) : R :=
  let al := sqrt (4 * E ^ 2 - C ^ 2) in
  A * E * C *
  ((1 + g ^ 2 / E ^ 2) / (2 * C) * (PI - atan ((2 * g + al) / C) - atan ((2 * g - al) / C))
   - 2 * g / (al * C) * (PI / 2 - atan ((2 * g ^ 2 - 2 * E ^ 2 + C ^ 2) / (al * C)))
   + (1 - g ^ 2 / E ^ 2) / (4 * al) * (ln (g ^ 2 + al * g + E ^ 2) - ln (g ^ 2 - al * g + E ^ 2))).
