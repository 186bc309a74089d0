(** The Tanguy dispersion at one wavelength (nm).  [None] stands for a result that is not finite. *)
From Coq Require Import Reals.
From Coquelicot Require Import Complex.
From Verif.Base Require Import Py Cx Special.
From Verif.Model Require Import Units Dispersions.
Open Scope R_scope.
Open Scope C_scope.
Open Scope py_scope.

(** tanguy.py:77-79 xsi.  For a real z above Eg (no broadening) the quotient is a negative number, and
    numpy decides by the sign of its zero imaginary part which of the two imaginary roots it returns;
    here it is the one with the positive imaginary part. *)
Definition xsi (z : C) (Rb Eg : R) : option C := let? q := cdiv (RtoC Rb) (RtoC Eg - z) in Some (Csqrt q).

(** 1 / np.tan(w), taken to be cos / sin *)
Definition cot (w : C) : option C := cdiv (Ccos w) (Csin w).
(** xsi ** p for complex xsi; at 0 the other factors of g have no value *)
Definition cpower (x : C) (p : R) : option C := if Ceq_dec x 0 then None else Some (Cpowr x p).

(** tanguy.py:81-97 g.  gamma at a pole has no value here; scipy gives inf at 0 for a real argument,
    and dividing by it 0, which needs d <= 1. *)
Definition g (x : C) (d : R) : option C :=
  if Req_EM_T d 2 then
    let? l := clog x in let? p := digamma (RtoC 0.5 - x) in Some (2 * l - 2 * p)
  else if Req_EM_T d 3 then
    let? l := clog x in let? p := digamma (1 - x) in let? i := cdiv 1 x in Some (2 * l - 2 * p - i)
  else
    let D := (d - 1)%R in
    let? a := Cgamma (RtoC (D / 2) + x) in
    let? b := Cgamma (RtoC (D / 2)) in
    let? e := Cgamma (1 - RtoC (D / 2) + x) in
    let? p := cpower x (d - 2) in
    let? q := cdiv (2 * RtoC PI * a) (b * b) in
    let? q := cdiv q e in
    let? q := cdiv q p in
    let? u := cot (RtoC PI * (RtoC (D / 2) - x)) in
    let? v := cot (RtoC (PI * D)) in
    Some (q * (u - v)).

(** tanguy.py:54-75 dielectric_function *)
Definition tanguy (c h A d gam Rb Eg a b lbda : R) : option C :=
  let? E := wavelength_energy c h lbda in
  let z := RtoC E + Ci * RtoC gam in
  let? s := rdiv a (b - E ^ 2) in
  let? w := rpow Rb (d / 2 - 1) in
  let? f := cdiv (RtoC (A * w)) (z * z) in
  let? x1 := xsi z Rb Eg in let? g1 := g x1 d in
  let? x2 := xsi (- z) Rb Eg in let? g2 := g x2 d in
  let? x0 := xsi 0 Rb Eg in let? g0 := g x0 d in
  Some (1 + RtoC s + f * (g1 + g2 - 2 * g0)).
