(** src/elli/dispersions/pseudo_dielectric.py:46-67, the dispersion PseudoDielectricFunction.  The
    wavelengths, psi and delta are one dimensional arrays and the angle is a number; missing
    parameters are not modelled.  Not a number is [None]. *)
From Coq Require Import Reals List.
From Coquelicot Require Import Complex.
From Verif.Base Require Import Py Cx.
From Verif.Model Require Import Units Ellips Tables TableKinds.
Import ListNotations.
Open Scope R_scope.
Open Scope C_scope.
Open Scope py_scope.

(** pseudo_dielectric.py:49-55, for one row.  numpy.tan is finite at 90 degrees, because pi/2 is not a
    floating point number; here there is no value. *)
Definition pseudo_row (angle psi delta : R) : option C :=
  let? t := rdiv (sin (deg2rad psi)) (cos (deg2rad psi)) in
  let rho := RtoC t * Cexp (- Ci * RtoC (deg2rad delta)) in
  let theta := (angle * PI / 180)%R in
  let? w := rdiv (sin theta) (cos theta) in
  let? q := cdiv (1 - rho) (1 + rho) in
  Some (RtoC (sin theta * sin theta) * (1 + RtoC (w * w) * (q * q))).

(** numpy's broadcasting of psi and delta in line 49 *)
Definition broadcast (psi delta : list R) : res (list (R * R)) :=
  if Nat.eqb (length psi) (length delta) then Ok (combine psi delta)
  else match psi, delta with
    | [p], _ => Ok (map (fun d => (p, d)) delta)
    | _, [d] => Ok (map (fun p => (p, d)) psi)
    | _, _ => Err ValueError
    end.

Definition is_nan (v : option C) : bool := match v with None => true | _ => false end.

(** pseudo_dielectric.py:46-61 __init__: whether there is a nan, and the sorted rows.  interp1d puts ones
    in place of all values if one of them is nan, and makes all its results nan. *)
Definition pseudo_new (angle : R) (lbda psi delta : list R) : res (bool * list point) :=
  let* angles := broadcast psi delta in
  let eps := map (fun pd => pseudo_row angle (fst pd) (snd pd)) angles in
  if Nat.eqb (length eps) (length lbda) then
    let nan := existsb is_nan eps in
    let ys := map (fun e => match e with Some e => if nan then RtoC 1 else e | None => RtoC 1 end) eps in
    let rows := sorted (combine lbda ys) in
    if Nat.ltb (length rows) 4 then Err ValueError
    else if increasing rows then Ok (nan, rows) else Err ValueError
  else Err ValueError.

(** pseudo_dielectric.py:66-67 dielectric_function at one wavelength *)
Definition pseudo_value (t : bool * list point) (x : R) : res (option C) :=
  let* v := kind_value true (Cubic, snd t) x in
  Ok (if fst t then None else v).
