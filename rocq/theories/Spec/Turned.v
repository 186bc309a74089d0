(** Moving a sample as a rigid body: what happens to its permittivity tensors, independent of the
    solvers.  z is the normal of the layers, xz the plane of incidence. *)
From Coq Require Import Reals List.
From Coquelicot Require Import Complex.
From Verif.Base Require Import Cx Mat.
Import ListNotations.
Open Scope C_scope.

(** A turn by phi about the normal *)
Definition z_turn (phi : R) : mat := mat_of
  [[RtoC (cos phi); RtoC (- sin phi); RtoC 0];
   [RtoC (sin phi); RtoC (cos phi); RtoC 0];
   [RtoC 0; RtoC 0; RtoC 1]].
(** The mirror at the plane of incidence *)
Definition y_mirror : mat := mat_of
  [[RtoC 1; RtoC 0; RtoC 0]; [RtoC 0; RtoC (-1); RtoC 0]; [RtoC 0; RtoC 0; RtoC 1]].
(** Half a turn about y, which puts the back side to the front *)
Definition y_half_turn : mat := mat_of
  [[RtoC (-1); RtoC 0; RtoC 0]; [RtoC 0; RtoC 1; RtoC 0]; [RtoC 0; RtoC 0; RtoC (-1)]].

(** eps' is the tensor eps after the motion Q. *)
Definition moved (Q eps eps' : mat) : Prop := meq 3 eps' (mmul 3 (mmul 3 Q eps) (mtr Q)).
Definition moved_layers (Q : mat) (ls ls' : list (R * mat)) : Prop :=
  Forall2 (fun l l' => fst l' = fst l /\ moved Q (snd l) (snd l')) ls ls'.

(** A reciprocal material, absorbing or not: no Faraday rotation. *)
Definition reciprocal (eps : mat) : Prop := meq 3 (mtr eps) eps.

(** Turning the two components of a field in a plane by phi *)
Definition plane_turn (phi : R) : mat := mat_of
  [[RtoC (cos phi); RtoC (- sin phi)]; [RtoC (sin phi); RtoC (cos phi)]].
