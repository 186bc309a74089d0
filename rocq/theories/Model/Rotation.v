(** src/elli/utils.py:281-364: rotation matrices.  Real matrices are complex matrices with
    real entries here, as in the products with permittivity tensors. *)
From Coq Require Import Reals List.
From Coquelicot Require Import Complex.
From Verif.Base Require Import Cx Mat Mexp.
From Verif.Model Require Import Ellips.
Import ListNotations.
Open Scope R_scope.
Open Scope C_scope.

Definition rmat_of (l : list (list R)) : mat := fun i j => RtoC (nth j (nth i l nil) 0%R).

(** utils.py:281-312 rotation_euler *)
Definition rotation_euler (p n r : R) : mat :=
  let p := deg2rad p in let n := deg2rad n in let r := deg2rad r in
  let c1 := cos p in let s1 := sin p in
  let c2 := cos n in let s2 := sin n in
  let c3 := cos r in let s3 := sin r in
  rmat_of
    [[c1 * c3 - s1 * c2 * s3; - c1 * s3 - s1 * c2 * c3; s1 * s2];
     [s1 * c3 + c1 * c2 * s3; - s1 * s3 + c1 * c2 * c3; - c1 * s2];
     [s2 * s3; s2 * c3; c2]]%R.

(** utils.py:334-336, 355-357: the antisymmetric matrix m_w of the vector v *)
Definition m_w (v : nat -> R) : mat :=
  rmat_of
    [[0; - v 2%nat; v 1%nat];
     [v 2%nat; 0; - v 0%nat];
     [- v 1%nat; v 0%nat; 0]]%R.

(** utils.py:315-339 rotation_v; scipy's expm is the matrix exponential *)
Definition rotation_v (v : nat -> R) : mat := mexp 3 (m_w v).

(** utils.py:342-364 rotation_v_theta *)
Definition rotation_v_theta (v : nat -> R) (theta : R) : mat :=
  madd (madd mid (mscal (RtoC (sin (deg2rad theta))) (m_w v)))
       (mscal (RtoC (1 - cos (deg2rad theta))) (mpow 3 (m_w v) 2)).
