(** Normal dispersion of a transparent material, independent of the model. *)
From Coq Require Import Reals.
From Coquelicot Require Import Complex.
From Verif.Base Require Import Cx.
Open Scope R_scope.

(** A function of the wavelength has real values at both wavelengths and the one at the longer
    wavelength is smaller. *)
Definition falls (f : R -> option C) (short long : R) : Prop :=
  exists y y' : R, f short = Some (RtoC y) /\ f long = Some (RtoC y') /\ y' < y.
