(** Permittivity tensors that are symmetric with respect to the plane of incidence (the plane of the
    axes 0 and 2), and what they are for the two polarisations. *)
From Coq Require Import Reals.
From Coquelicot Require Import Complex.
From Verif.Base Require Import Mat.
Open Scope C_scope.

Definition plane_symmetric (eps : mat) : Prop :=
  eps 0%nat 1%nat = 0 /\ eps 1%nat 0%nat = 0 /\ eps 1%nat 2%nat = 0 /\ eps 2%nat 1%nat = 0.

(** The field of s polarised light is along the axis 1, that of p polarised light in the plane. *)
Definition same_across (eps eps' : mat) : Prop := eps 1%nat 1%nat = eps' 1%nat 1%nat.
Definition same_within (eps eps' : mat) : Prop :=
  eps 0%nat 0%nat = eps' 0%nat 0%nat /\ eps 0%nat 2%nat = eps' 0%nat 2%nat /\
  eps 2%nat 0%nat = eps' 2%nat 0%nat /\ eps 2%nat 2%nat = eps' 2%nat 2%nat.
