(** Principal values of integrals over the positive axis, and smooth spectra that vanish outside an
    interval, independent of the model. *)
From Coq Require Import Reals.
From Coquelicot Require Import Coquelicot.
Open Scope R_scope.

(** The integral of f from 0 to M, leaving out a symmetric neighbourhood of c that shrinks to zero *)
Definition principal_value (f : R -> R) (c M V : R) : Prop :=
  forall e, 0 < e -> exists s, 0 < s /\ forall d, 0 < d < s -> exists u v,
    is_RInt f 0 (c - d) u /\ is_RInt f (c + d) M v /\ Rabs (u + v - V) < e.

(** A spectrum p with the slope p', which is bounded by B and changes at a rate of at most L; it is
    zero outside the interval from a to b. *)
Definition spectrum (p p' : R -> R) (a b B L : R) : Prop :=
  0 < a /\ a < b /\ (forall x, x <= a \/ b <= x -> p x = 0) /\
  (forall x, is_derive p x (p' x)) /\ (forall x, Rabs (p' x) <= B) /\
  (forall x y, Rabs (p' x - p' y) <= L * Rabs (x - y)).
