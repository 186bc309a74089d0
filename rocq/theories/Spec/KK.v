(** The Kramers-Kronig sums according to Maclaurin's formula (Ohta and Ishida 1988), independent
    of the model. *)
From Coq Require Import Reals List Arith.
Import ListNotations.
Open Scope R_scope.

(** Sum over a finite set of indices *)
Definition rsum (f : nat -> R) (l : list nat) : R := fold_right (fun j s => f j + s) 0 l.

(** The indices below n whose parity differs from that of i *)
Definition opposite (n i : nat) : list nat := filter (fun j => Nat.odd (i + j)) (seq 0 n).

(** 2/pi times the integral of g around the pole x_i, by the trapezoids of width 2h that avoid it *)
Definition maclaurin (n : nat) (h : R) (y x : nat -> R) (g : R -> R -> R -> R) (i : nat) : R :=
  2 / PI * (2 * h * rsum (fun j => g (y j) (x j) (x i)) (opposite n i)).

(** The integrands of the two relations over an energy axis and over its reciprocal (wavelength) *)
Definition g_im (y x x_i : R) : R := y * x / (x ^ 2 - x_i ^ 2).
Definition g_re (y x x_i : R) : R := y * x_i / (x ^ 2 - x_i ^ 2).
(* dE = - dx / x^2 under E = 1 / x, the minus sign is that of the reversed axis *)
Definition g_im_reciprocal (y x x_i : R) : R := g_im y (1 / x) (1 / x_i) / x ^ 2.
Definition g_re_reciprocal (y x x_i : R) : R := g_re y (1 / x) (1 / x_i) / x ^ 2.

Definition equidistant (x : list R) (h : R) : Prop :=
  forall i, (S i < length x)%nat -> nth (S i) x 0 - nth i x 0 = h.
