(** Light going to and fro inside one layer of a sample, independent of the solvers. *)
From Coq Require Import Reals.
From Coquelicot Require Import Complex.
From Verif.Base Require Import Cx.
Open Scope C_scope.

(** The layer divides the sample in an upper part, with the reflection ra and the transmission ta
    from the front and ra', ta' from inside the layer, and a lower part with rb and tb seen from
    inside the layer.  h is the phase factor of one passage through the layer. *)

(** The wave that is reflected at the upper part, and the one that leaves after n + 1 round trips *)
Definition reflected_wave (ra ta ra' ta' rb h : C) (n : nat) : C :=
  match n with
  | O => ra
  | S n => ta * (h * rb * h) * Cpow (ra' * (h * rb * h)) n * ta'
  end.
(** The wave that is transmitted after n round trips *)
Definition transmitted_wave (ta ra' rb tb h : C) (n : nat) : C :=
  ta * Cpow (h * rb * h * ra') n * h * tb.

Fixpoint total (f : nat -> C) (n : nat) : C := match n with O => 0 | S n => total f n + f n end.
(** The sum of infinitely many waves *)
Definition sums_to (f : nat -> C) (z : C) : Prop :=
  forall eta, (0 < eta)%R -> exists N, forall n, (N <= n)%nat -> (Cmod (total f n - z) < eta)%R.

(** A plate that forgets phases: the powers of the waves leaving it after 0, 1, ... round trips add
    up, with the reflectance r of each surface.  The sum of all of them is [incoherent]. *)
Definition power_after (r : R) (k : nat) : R := ((1 - r) * (r * r) ^ k * (1 - r))%R.
Definition incoherent (r : R) : R := ((1 - r) / (1 + r))%R.
