(** Specification vocabulary for rotations (C07, C08). *)
From Coq Require Import Reals List.
From Coquelicot Require Import Complex.
From Verif.Base Require Import Cx Mat.
Import ListNotations.
Open Scope R_scope.
Open Scope C_scope.

(** Elementary rotations about the z and the x axis by an angle in radians. *)
Definition rot_z (t : R) : mat :=
  mat_of [[RtoC (cos t); - RtoC (sin t); RtoC 0]; [RtoC (sin t); RtoC (cos t); RtoC 0];
          [RtoC 0; RtoC 0; RtoC 1]].
Definition rot_x (t : R) : mat :=
  mat_of [[RtoC 1; RtoC 0; RtoC 0]; [RtoC 0; RtoC (cos t); - RtoC (sin t)];
          [RtoC 0; RtoC (sin t); RtoC (cos t)]].

Definition det3 (A : mat) : C :=
  A 0%nat 0%nat * (A 1%nat 1%nat * A 2%nat 2%nat - A 1%nat 2%nat * A 2%nat 1%nat)
  - A 0%nat 1%nat * (A 1%nat 0%nat * A 2%nat 2%nat - A 1%nat 2%nat * A 2%nat 0%nat)
  + A 0%nat 2%nat * (A 1%nat 0%nat * A 2%nat 1%nat - A 1%nat 1%nat * A 2%nat 0%nat).

Definition real_mat (A : mat) : Prop := forall i j, (i < 3)%nat -> (j < 3)%nat -> snd (A i j) = 0%R.

(** A proper rotation: real, inverse = transpose, determinant one. *)
Definition proper_rotation (A : mat) : Prop :=
  real_mat A /\ is_inverse 3 A (mtr A) /\ det3 A = 1.

Definition dot3 (u v : nat -> R) : R := (u 0%nat * v 0%nat + u 1%nat * v 1%nat + u 2%nat * v 2%nat)%R.
Definition cross3 (u v : nat -> R) : nat -> R := fun i =>
  nth i [u 1%nat * v 2%nat - u 2%nat * v 1%nat;
         u 2%nat * v 0%nat - u 0%nat * v 2%nat;
         u 0%nat * v 1%nat - u 1%nat * v 0%nat]%R 0%R.
Definition unit3 (v : nat -> R) : Prop := dot3 v v = 1%R.
Definition apply3 (A : mat) (u : nat -> R) : nat -> C := mvec 3 A (fun i => RtoC (u i)).

(** Rotation of the vector u about the unit axis v by the angle t (in radians). *)
Definition turn (v : nat -> R) (t : R) (u : nat -> R) : nat -> R := fun i =>
  (u i * cos t + cross3 v u i * sin t + v i * dot3 v u * (1 - cos t))%R.
