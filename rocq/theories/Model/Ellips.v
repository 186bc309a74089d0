(** src/elli/result.py: the properties of a Result, and the psi/delta helpers of
    src/elli/utils.py.  All of them work elementwise on the wavelength axis, so the
    model is written for one wavelength: a Jones matrix is one 2x2 matrix with the
    index order p = 0, s = 1.  A result that is not finite (division by zero) is [None]. *)
From Coq Require Import Reals ZArith List.
From Coquelicot Require Import Complex.
From Verif.Base Require Import Py Cx Mat.
From Verif.Model Require Import DeltaRange.
Import ListNotations.
Open Scope R_scope.
Open Scope C_scope.
Open Scope py_scope.

(* np.deg2rad / np.rad2deg *)
Definition deg2rad (x : R) : R := (x * PI / 180)%R.
Definition rad2deg (x : R) : R := (x * 180 / PI)%R.

(** The stored DeltaRange (lower, upper) of a Result, result.py:364, 454. *)
Definition drange := (R * R)%type.

(** result.py:134-148 rho_matrix and 150-164 rho_matrix_t: division by r_ss (t_ss). *)
Definition rho_matrix (J : mat) : option mat :=
  if Ceq_dec (J 1%nat 1%nat) 0 then None
  else Some (fun i j => J i j / J 1%nat 1%nat).

(** result.py:68-69 (78-79): np.dot with the Jones vector, then the quotient. *)
Definition rho_raw (J : mat) (E : nat -> C) : option C :=
  let? m := rho_matrix J in
  let v := mvec 2 m E in
  cdiv (v 0%nat) (v 1%nat).

(** result.py:71-73 (80-82): folding for the range (0, 180). *)
Definition fold_rho (rg : drange) (z : C) : C :=
  if andb (Reqb (fst rg) 0) (Reqb (snd rg) 180) then (fst z, - Rabs (snd z))%R else z.

(** result.py:57-82 rho, rho_t *)
Definition rho (rg : drange) (J : mat) (E : nat -> C) : option C :=
  let? z := rho_raw J E in Some (fold_rho rg z).

(** result.py:93, 104, 176, 188: psi from rho. *)
Definition psi_of (z : C) : R := rad2deg (atan (Cmod z)).

(** result.py:115-118, 129-132, 200-203, 215-220: delta from rho. *)
Definition delta_of (rg : drange) (z : C) : R :=
  (np_mod (- rad2deg (Carg z) + fst rg) 360 + fst rg)%R.

(** result.py:84-104 psi, psi_t *)
Definition psi (rg : drange) (J : mat) (E : nat -> C) : option R :=
  let? z := rho rg J E in Some (psi_of z).

(** result.py:106-132 delta, delta_t *)
Definition delta (rg : drange) (J : mat) (E : nat -> C) : option R :=
  let? z := rho rg J E in Some (delta_of rg z).

(** result.py:166-188 psi_matrix, psi_matrix_t *)
Definition psi_matrix (J : mat) (i j : nat) : option R :=
  let? m := rho_matrix J in Some (psi_of (m i j)).

(** result.py:190-220 delta_matrix, delta_matrix_t: no folding here. *)
Definition delta_matrix (rg : drange) (J : mat) (i j : nat) : option R :=
  let? m := rho_matrix J in Some (delta_of rg (m i j)).

(** result.py:225 *)
Definition mm_a : mat :=
  mat_of [[RtoC 1; RtoC 0; RtoC 0; RtoC 1];
          [RtoC 1; RtoC 0; RtoC 0; - RtoC 1];
          [RtoC 0; RtoC 1; RtoC 1; RtoC 0];
          [RtoC 0; Ci; - Ci; RtoC 0]].

(** np.linalg.inv(a) of line 232, written out; [mm_a_inv_ok] (Proof/EllipsP.v) shows
    that it is the inverse. *)
Definition mm_a_inv : mat :=
  mscal (/ 2)
  (mat_of [[RtoC 1; RtoC 1; RtoC 0; RtoC 0];
           [RtoC 0; RtoC 0; RtoC 1; - Ci];
           [RtoC 0; RtoC 0; RtoC 1; Ci];
           [RtoC 1; - RtoC 1; RtoC 0; RtoC 0]]).

(** result.py:228-232 without np.real: a (S kron S* ) a^-1 *)
Definition mueller_complex (m : mat) : mat :=
  mmul 4 (mmul 4 mm_a (kron2 m (mconj m))) mm_a_inv.

(** result.py:222-235 mueller_matrix *)
Definition mueller_matrix (J : mat) : option (nat -> nat -> R) :=
  let? m := rho_matrix J in
  let mm := fun i j => fst (mueller_complex m i j) in
  let mm11 := mm 0%nat 0%nat in
  if Req_EM_T mm11 0 then None else Some (fun i j => mm i j / mm11)%R.

(** result.py:269, 285: the matrix c; line 270: d = -c.  Their inverses are written out,
    see [circ_c_inv_ok]. *)
Definition circ_c : mat :=
  mscal (RtoC (1 / sqrt 2)) (mat_of [[RtoC 1; RtoC 1]; [Ci; - Ci]]).
Definition circ_d : mat :=
  mscal (RtoC (1 / sqrt 2)) (mat_of [[- RtoC 1; - RtoC 1]; [- Ci; Ci]]).
Definition circ_c_inv : mat :=
  mscal (RtoC (1 / sqrt 2)) (mat_of [[RtoC 1; - Ci]; [RtoC 1; Ci]]).
Definition circ_d_inv : mat :=
  mscal (RtoC (1 / sqrt 2)) (mat_of [[- RtoC 1; Ci]; [- RtoC 1; - Ci]]).

(** result.py:259-273 jones_matrix_rc *)
Definition jones_matrix_rc (J : mat) : mat := mmul 2 (mmul 2 circ_d_inv J) circ_c.
(** result.py:275-288 jones_matrix_tc *)
Definition jones_matrix_tc (J : mat) : mat := mmul 2 (mmul 2 circ_c_inv J) circ_c.

(** result.py:299-306 R_matrix, 317-324 T_matrix, 326-333 Rc_matrix, 335-342 Tc_matrix *)
Definition R_matrix (J : mat) (i j : nat) : R := (Cmod (J i j) * Cmod (J i j))%R.
Definition T_matrix (pc : R) (J : mat) (i j : nat) : R :=
  (Cmod (J i j) * Cmod (J i j) * pc)%R.
Definition Rc_matrix (J : mat) (i j : nat) : R := R_matrix (jones_matrix_rc J) i j.
Definition Tc_matrix (pc : R) (J : mat) (i j : nat) : R := T_matrix pc (jones_matrix_tc J) i j.

(** result.py:290-297 R, 308-315 T *)
Definition Rtot (J : mat) : R := ((R_matrix J 0 0 + R_matrix J 1 1) / 2)%R.
Definition Ttot (pc : R) (J : mat) : R := ((T_matrix pc J 0 0 + T_matrix pc J 1 1) / 2)%R.

(** utils.py:87-105 calc_rho, for one row *)
Definition calc_rho (psi delta : R) : C :=
  RtoC (tan (deg2rad psi)) * Cexp (- Ci * RtoC (deg2rad delta)).

(** utils.py:56-80 calc_pseudo_diel with output="epsi", for one row *)
Definition calc_pseudo_diel (rho : C) (angle : R) : option C :=
  let theta := (angle * PI / 180)%R in
  let? q := cdiv (1 - rho) (1 + rho) in
  Some (RtoC (sin theta * sin theta) * (1 + RtoC (tan theta * tan theta) * (q * q))).

(** utils.py:108-178, the 4x4 matrix for one (angle, wavelength): no conversion from
    degrees, and C and S are the same expression, as in the code. *)
Definition psi_delta_to_mueller (psi delta : R) : nat -> nat -> R :=
  let N := cos (2 * psi) in
  let Cc := (sin (2 * psi) * cos (2 * delta))%R in
  let S := (sin (2 * psi) * cos (2 * delta))%R in
  fun i j => nth j (nth i
    [[1; - N; 0; 0];
     [- N; 1; 0; 0];
     [0; 0; Cc; S];
     [0; 0; - S; Cc]]%R nil) 0%R.
