(** src/elli/materials.py: material objects and their permittivity tensors at one wavelength.
    A dispersion is represented by its permittivity at that wavelength. *)
From Coq Require Import Reals List.
From Coquelicot Require Import Complex.
From Verif.Base Require Import Py Cx Mat.
Import ListNotations.
Open Scope R_scope.
Open Scope C_scope.
Open Scope py_scope.

(** An argument passed where a dispersion is expected: a BaseDispersion with this permittivity,
    or some other object. *)
Inductive darg := Disp (eps : C) | NoDisp.

(** materials.py:65-76, the attributes of a SingleMaterial object *)
Record material := Mat3 {
  dispersion_x : C; dispersion_y : C; dispersion_z : C;
  rotated : bool; rotation_matrix : mat }.

(** The isinstance loop of the set_dispersion methods: materials.py:137-140, 177-181, 216-220 *)
Fixpoint check_dispersions (l : list darg) : res (list C) :=
  match l with
  | [] => Ok []
  | Disp e :: l => let* r := check_dispersions l in Ok (e :: r)
  | NoDisp :: _ => Err TypeError
  end.

(** Class attributes of SingleMaterial, materials.py:68-72: not rotated. *)
Definition fresh (x y z : C) : material := Mat3 x y z false mid.

(** materials.py:121-144 IsotropicMaterial *)
Definition isotropic (d : darg) : res material :=
  let* l := check_dispersions [d] in
  match l with [e] => Ok (fresh e e e) | _ => Err TypeError end.
(** materials.py:151-187 UniaxialMaterial *)
Definition uniaxial (o e : darg) : res material :=
  let* l := check_dispersions [o; e] in
  match l with [o; e] => Ok (fresh o o e) | _ => Err TypeError end.
(** materials.py:193-225 BiaxialMaterial *)
Definition biaxial (x y z : darg) : res material :=
  let* l := check_dispersions [x; y; z] in
  match l with [x; y; z] => Ok (fresh x y z) | _ => Err TypeError end.

(** materials.py:78-86 set_rotation; the matrix is not validated *)
Definition set_rotation (m : material) (r : mat) : material :=
  Mat3 (dispersion_x m) (dispersion_y m) (dispersion_z m) true r.

(** materials.py:88-115 SingleMaterial.get_tensor *)
Definition get_tensor (m : material) : mat :=
  let epsilon := mdiag (fun i => nth i [dispersion_x m; dispersion_y m; dispersion_z m] (RtoC 0)) in
  if rotated m
  then mmul 3 (mmul 3 (rotation_matrix m) epsilon) (mtr (rotation_matrix m))
  else epsilon.
