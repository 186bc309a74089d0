(** Permittivity tensors and eigen-decompositions, independent of the solvers. *)
From Coq Require Import Reals List.
From Coquelicot Require Import Complex.
From Verif.Base Require Import Cx Mat.
Import ListNotations.
Open Scope C_scope.

(** A tensor that is a multiple e of the identity *)
Definition isotropic (eps : mat) (e : C) : Prop := meq 3 eps (mscal e mid).

(** Lossless: the tensor equals its conjugate transpose. *)
Definition hermitian (eps : mat) : Prop := meq 3 (madj eps) eps.

(** Passive: the dissipated power Im (E* . eps E) is never negative. *)
Definition dissipation (eps : mat) (E : nat -> C) : R :=
  Im (csum 3 (fun i => Cconj (E i) * mvec 3 eps E i)).
Definition passive (eps : mat) : Prop := forall E, (0 <= dissipation eps E)%R.

(** A complete eigen-decomposition of A: eigenvalues and a matrix whose columns are linearly
    independent eigenvectors, in any order and of any length *)
Definition eigen_decomposition (n : nat) (A : mat) (e : (nat -> C) * mat) : Prop :=
  (forall i j, (i < n)%nat -> (j < n)%nat ->
     csum n (fun k => A i k * snd e k j) = fst e j * snd e i j) /\
  exists v, is_inverse n (snd e) v.

(** Waves exp(i q z) that decay or travel along z; a medium has two of them. *)
Definition forward_value (q : C) : Prop := (0 < Im q)%R \/ Im q = 0%R /\ (0 < Re q)%R.
Definition two_forward (q : nat -> C) : Prop :=
  exists i j, (i < 4)%nat /\ (j < 4)%nat /\ i <> j /\ forall k, (k < 4)%nat -> (forward_value (q k) <-> k = i \/ k = j).
