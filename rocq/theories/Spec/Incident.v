(** Incident light, and what a polarimeter sees of the reflected light. *)
From Coq Require Import Reals.
From Coquelicot Require Import Complex.
From Verif.Base Require Import Cx.
From Verif.Model Require Import Polar.
From Verif.Spec Require Import Light.
Open Scope R_scope.

(** The arguments that describe light whose polarised part has the components a and b: its Jones vector with any power
    and phase, the Stokes vector with any power, also with unpolarised light added, and None for light that is polarised
    diagonally *)
Inductive describes : vector -> C -> C -> Prop :=
| by_jones k a b : k <> RtoC 0 -> describes (VJones (k * a) (k * b)) a b
| by_stokes s0 k a b : 0 < k -> k * stokes a b 0 <= s0 ->
    describes (VStokes s0 (k * stokes a b 1) (k * stokes a b 2) (k * stokes a b 3)) a b
| by_default a : describes VNone a a.

(** The Stokes vector with unit power of light with the ellipsometric angles psi and delta in degrees *)
Definition angles_stokes (psi delta : R) (i : nat) : R :=
  let p := psi * PI / 180 in let d := delta * PI / 180 in
  match i with
  | 0%nat => 1
  | 1%nat => - cos (2 * p)
  | 2%nat => sin (2 * p) * cos d
  | 3%nat => sin (2 * p) * sin d
  | _ => 0
  end.

(** The ratio of the components p and s after a sample; there is none for light polarised like p *)
Definition field_ratio (J : nat -> nat -> C) (a b z : C) : Prop :=
  (J 1%nat 0%nat * a + J 1%nat 1%nat * b <> 0)%C /\
  (z * (J 1%nat 0%nat * a + J 1%nat 1%nat * b) = J 0%nat 0%nat * a + J 0%nat 1%nat * b)%C.

(** The vectors that set_vector understands *)
Definition understood (v : vector) : bool := match v with VOther => false | _ => true end.
