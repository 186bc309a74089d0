(** Dispersion formulas of src/elli/dispersions, at one wavelength [lbda] (nm).  [None] stands
    for a result that is not finite (division by zero, logarithm of zero).  Repeated parameter
    sets are lists of tuples in the order of the template.  [c], [h] as in Units.v; [eps0] is
    scipy's vacuum permittivity.  Parameters are real numbers. *)
From Coq Require Import Reals ZArith List.
From Coquelicot Require Import Complex Hierarchy RInt.
From Verif.Base Require Import Py Cx.
From Verif.Model Require Import Units.
Import ListNotations.
Open Scope R_scope.
Open Scope C_scope.
Open Scope py_scope.

(** The builtin sum over the parameter sets, started at 0. *)
Definition osum {A} (f : A -> option C) (l : list A) : option C :=
  fold_left (fun acc x => let? a := acc in let? t := f x in Some (a + t)) l (Some (RtoC 0)).

(** x ** y of floats.  For a negative base only integral exponents are modelled. *)
Definition rpow (x y : R) : option R :=
  if Rlt_dec 0 x then Some (Rpower x y)
  else if Req_EM_T y (IZR (Int_part y))
       then if Req_EM_T x 0
            then if Rlt_dec y 0 then None else Some (if Req_EM_T y 0 then 1%R else 0%R)
            else Some (powerRZ x (Int_part y))
       else if Req_EM_T x 0 then if Rlt_dec 0 y then Some 0%R else None else None.

(** np.heaviside *)
Definition heaviside (x at0 : R) : R :=
  if Rlt_dec x 0 then 0%R else if Rlt_dec 0 x then 1%R else at0.

Section Disp.
Variables c h eps0 : R.
Let conv := wavelength_energy c h.

(** cauchy.py:35-46 (a refractive index) *)
Definition cauchy (n0 n1 n2 k0 k1 k2 lbda : R) : option C :=
  let? a := rdiv (10 ^ 2 * n1) (lbda ^ 2) in
  let? b := rdiv (10 ^ 7 * n2) (lbda ^ 4) in
  let? a' := rdiv (10 ^ 2 * k1) (lbda ^ 2) in
  let? b' := rdiv (10 ^ 7 * k2) (lbda ^ 4) in
  Some (RtoC (n0 + a + b) + Ci * RtoC (k0 + a' + b')).

(** cauchy_custom.py:28-31 (a refractive index); rep: f, e *)
Definition cauchy_custom (n0 : R) (rep : list (R * R)) (lbda : R) : option C :=
  let? s := osum (fun '(f, e) => let? p := rpow lbda e in Some (RtoC (f * p))) rep in
  Some (RtoC n0 + s).

(** cauchy_urbach.py:39-50 (a refractive index) *)
Definition cauchy_urbach (n0 B Cc D Eg Eu lbda : R) : option C :=
  let? e := conv lbda in
  let? q := rdiv (e - Eg) Eu in
  Some (RtoC (n0 + B * e ^ 2 + Cc * e ^ 4) + Ci * RtoC (D * exp q)).

(** polynomial.py:28-31; rep: f, e *)
Definition polynomial (e0 : R) (rep : list (R * R)) (lbda : R) : option C :=
  let? s := osum (fun '(f, e) => let? p := rpow lbda e in Some (RtoC (f * p))) rep in
  Some (RtoC e0 + s).

(** sellmeier.py:30-34; rep: A, B *)
Definition sellmeier (rep : list (R * R)) (lbda : R) : option C :=
  let l := (lbda / 10 ^ 3)%R in
  let? s := osum (fun '(A, B) => let? q := rdiv (A * l ^ 2) (l ^ 2 - B) in Some (RtoC q)) rep in
  Some (1 + s).

(** sellmeier_custom.py:32-37; rep: A, e_A, B, e_B *)
Definition sellmeier_custom (rep : list (R * R * R * R)) (lbda : R) : option C :=
  let l := (lbda / 10 ^ 3)%R in
  osum (fun '(A, eA, B, eB) =>
    let? p := rpow l eA in let? b := rpow B eB in
    let? q := rdiv (A * p) (l ^ 2 - b) in Some (RtoC q)) rep.

(** poles.py:31-35 *)
Definition poles (A_ir A_uv E_uv lbda : R) : option C :=
  let? e := conv lbda in
  let? a := rdiv A_ir (e ^ 2) in let? b := rdiv A_uv (E_uv ^ 2 - e ^ 2) in
  Some (RtoC (a + b)).

(** drude_energy.py:32-36 *)
Definition drude_energy (A gamma lbda : R) : option C :=
  let? e := conv lbda in
  cdiv (RtoC A) (RtoC (e ^ 2) - Ci * RtoC gamma * RtoC e).

(** drude_resistivity.py:38-47 *)
Definition drude_resistivity (rho_opt tau lbda : R) : option C :=
  let? e := conv lbda in
  let hbar := (h / 2 / PI)%R in
  let eps0 := (eps0 * / 10 ^ 2)%R in
  cdiv (RtoC (hbar ^ 2))
       (RtoC eps0 * RtoC rho_opt * (RtoC (tau * e ^ 2) - Ci * RtoC hbar * RtoC e)).

(** lorentz_energy.py:32-37; rep: A, E, gamma *)
Definition lorentz_energy (rep : list (R * R * R)) (lbda : R) : option C :=
  let? e := conv lbda in
  let? s := osum (fun '(A, E, g) =>
    cdiv (RtoC A) (RtoC (E ^ 2) - RtoC (e ^ 2) - Ci * RtoC g * RtoC e)) rep in
  Some (1 + s).

(** lorentz_lambda.py:33-39; rep: A, lambda_r, gamma *)
Definition lorentz_lambda (rep : list (R * R * R)) (lbda : R) : option C :=
  let? s := osum (fun '(A, lr, g) =>
    cdiv (RtoC (A * lbda ^ 2)) (RtoC (lbda ^ 2) - RtoC (lr ^ 2) - Ci * RtoC g * RtoC lbda)) rep in
  Some (1 + s).

(** scipy.special.dawsn *)
Definition dawsn (x : R) : R := (exp (- (x * x)) * @RInt R_CompleteNormedModule (fun t => exp (t * t)) 0 x)%R.

(** gaussian.py:54-73; rep: A, E, sigma *)
Definition gaussian (rep : list (R * R * R)) (lbda : R) : option C :=
  let? e := conv lbda in
  let ftos := (2 * sqrt (ln 2))%R in
  osum (fun '(A, E, s) =>
    let? x := rdiv (ftos * (e + E)) s in
    let? y := rdiv (ftos * (e - E)) s in
    Some (RtoC (2 * A / sqrt PI * (dawsn x - dawsn y)) +
          Ci * RtoC (A * exp (- y ^ 2) - A * exp (- x ^ 2)))) rep.

(** np.log of a real array: finite only for a positive argument (a negative one gives nan) *)
Definition rlog (x : R) : option R := if Rlt_dec 0 x then Some (ln x) else None.
(** np.log and np.arctan of complex numbers; on its branch cut above i the arctangent has real
    part pi / 2, which is numpy's value for a positive zero as real part. *)
Definition clog (z : C) : option C := if Ceq_dec z 0 then None else Some (Clog z).
Definition Catan (z : C) : C := Ci / 2 * (Clog (1 - Ci * z) - Clog (1 + Ci * z)).

(** tauc_lorentz.py:36-52 TaucLorentz.eps1.  The square root alpha is imaginary for 4 Ei^2 <
    Ci^2.  gamma2 is the square of a square root, so Ei^2 - Ci^2 / 2 itself, and alpha occurs
    in zeta4 only squared. *)
Definition tl_eps1 (E Eg Ai Ei Ci' : R) : option C :=
  let gamma2 := (Ei ^ 2 - Ci' ^ 2 / 2)%R in
  let alpha := Csqrt (RtoC (4 * Ei ^ 2 - Ci' ^ 2)) in
  let aL := ((Eg ^ 2 - Ei ^ 2) * E ^ 2 + Eg ^ 2 * Ci' ^ 2 - Ei ^ 2 * (Ei ^ 2 + 3 * Eg ^ 2))%R in
  let aA := ((E ^ 2 - Ei ^ 2) * (Ei ^ 2 + Eg ^ 2) + Eg ^ 2 * Ci' ^ 2)%R in
  let zeta4 := ((E ^ 2 - gamma2) ^ 2 + (4 * Ei ^ 2 - Ci' ^ 2) * Ci' ^ 2 / 4)%R in
  if Ceq_dec alpha 0 then None else
  let? w := rdiv 1 (zeta4 * Ei * Ci' * E) in
  let? q1 := cdiv (RtoC (Ei ^ 2 + Eg ^ 2) + alpha * RtoC Eg) (RtoC (Ei ^ 2 + Eg ^ 2) - alpha * RtoC Eg) in
  let? l1 := clog q1 in
  let? q2 := rdiv (Rabs (E - Eg)) (E + Eg) in
  let? l2 := rlog q2 in
  let? q3 := rdiv (Rabs (E - Eg) * (E + Eg))
                  (sqrt ((Ei ^ 2 - Eg ^ 2) ^ 2 + Eg ^ 2 * Ci' ^ 2)) in
  let? l3 := rlog q3 in
  Some (RtoC (Ai * Ci' * aL / 2 / PI / zeta4) / alpha / RtoC Ei * l1
        - RtoC (Ai * aA / PI / zeta4 / Ei) *
            (RtoC PI - Catan ((RtoC (2 * Eg) + alpha) / RtoC Ci') + Catan ((alpha - RtoC (2 * Eg)) / RtoC Ci'))
        + RtoC (2 * Ai * Ei * Eg / PI / zeta4) / alpha * RtoC (E ^ 2 - gamma2)
            * (RtoC PI + RtoC 2 * Catan (RtoC 2 / alpha / RtoC Ci' * RtoC (gamma2 - Eg ^ 2)))
        - RtoC (Ai * Ei * Ci' * (E ^ 2 + Eg ^ 2) / PI / zeta4 / E * l2)
        + RtoC (2 * Ai * Ei * Ci' * Eg / PI / zeta4 * l3)).

(** tauc_lorentz.py:54-72; rep: A, E, C *)
Definition tauc_lorentz (Eg : R) (rep : list (R * R * R)) (lbda : R) : option C :=
  let? e := conv lbda in
  osum (fun '(A, E, Cc) =>
    let? q := rdiv (A * E * Cc * (e - Eg) ^ 2) ((e ^ 2 - E ^ 2) ^ 2 + Cc ^ 2 * e ^ 2) in
    let? q := rdiv q e in
    let? r := tl_eps1 e Eg A E Cc in
    Some (Ci * RtoC q * RtoC (heaviside (e - Eg) 0) + r)) rep.

(** cody_lorentz.py:50-66 CodyLorentz.eps2; 54-55 and 57-58 its local functions G and L *)
Definition cl_G (Eg Ep E : R) : option R := rdiv ((E - Eg) ^ 2) ((E - Eg) ^ 2 + Ep ^ 2).
Definition cl_L (A gamma E0 E : R) : option R :=
  rdiv (A * E0 * gamma * E) ((E ^ 2 - E0 ^ 2) ^ 2 + gamma ^ 2 * E ^ 2).
Definition cl_eps2 (Eg A Et gamma Ep E0 Eu E : R) : option R :=
  let? gt := cl_G Eg Ep Et in let? lt := cl_L A gamma E0 Et in
  let E1 := (Et * gt * lt)%R in
  let? a := rdiv E1 E in let? b := rdiv (E - Et) Eu in
  let? g := cl_G Eg Ep E in let? l := cl_L A gamma E0 E in
  Some (a * exp b * heaviside (Et - E) 1 + g * l * heaviside (E - Et) 0)%R.

(** cody_lorentz.py:69-79.  [eps1] is the interpolated Kramers-Kronig transform at [lbda] (real,
    [None] outside its grid); its computation is modelled in KKR.v. *)
Definition cody_lorentz (eps1 : R -> option R) (Eg A Et gamma Ep E0 Eu lbda : R) : option C :=
  let? e := conv lbda in
  let? r := eps1 lbda in
  let? i := cl_eps2 Eg A Et gamma Ep E0 Eu e in
  Some (RtoC r + Ci * RtoC i).

End Disp.
