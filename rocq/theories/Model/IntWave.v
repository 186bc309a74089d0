(** Wavelengths given as integers.  experiment.py:141-150 makes a numpy array of them, and an array
    of Python integers has the type int64, in which the dispersions then calculate.  The model
    follows the type of one element through the formulas that use the wavelength directly.
    Not modelled: Python integers beyond int64 (numpy makes other types of them or raises), other
    integer types that a user may choose. *)
From Coq Require Import Reals ZArith List.
From Coquelicot Require Import Complex.
From Coq Require Import List.
From Verif.Base Require Import Py Cx.
From Verif.Model Require Import Units Dispersions.
Import ListNotations.
Open Scope R_scope.
Open Scope py_scope.

(** A Python number: a wavelength or a parameter of a dispersion *)
Inductive num := NInt (z : Z) | NFloat (x : R).
Definition num_R (a : num) : R := match a with NInt z => IZR z | NFloat x => x end.

(** An element of an array of type int64, float64 or complex128; [None] is nan or inf. *)
Inductive elt := EI (z : Z) | EF (x : option R) | EK (z : option C).

(** The result of an int64 operation is reduced modulo 2^64. *)
Definition wrap (z : Z) : Z := ((z + 2 ^ 63) mod 2 ^ 64 - 2 ^ 63)%Z.

Definition scalar (a : num) : elt := match a with NInt z => EI z | NFloat x => EF (Some x) end.
Definition to_R (a : elt) : option R :=
  match a with EI z => Some (IZR z) | EF x => x | EK _ => None end.
(** np.asarray(., dtype=np.complex128), base_dispersion.py:116 *)
Definition to_C (a : elt) : option C :=
  match a with EI z => Some (RtoC (IZR z)) | EF x => option_map RtoC x | EK z => z end.

(** a + b, a - b, a * b, a / b of numpy with the usual promotion of types *)
Definition lift2 (oz : Z -> Z -> Z) (ofl : R -> R -> R) (oc : C -> C -> C) (a b : elt) : elt :=
  match a, b with
  | EI x, EI y => EI (wrap (oz x y))
  | EK _, _ | _, EK _ => EK (let? x := to_C a in let? y := to_C b in Some (oc x y))
  | _, _ => EF (let? x := to_R a in let? y := to_R b in Some (ofl x y))
  end.
Definition eadd : elt -> elt -> elt := lift2 Z.add Rplus Cplus.
Definition esub : elt -> elt -> elt := lift2 Z.sub Rminus Cminus.
Definition emul : elt -> elt -> elt := lift2 Z.mul Rmult Cmult.
Definition ediv (a b : elt) : elt :=
  match a, b with
  | EK _, _ | _, EK _ => EK (let? x := to_C a in let? y := to_C b in cdiv x y)
  | _, _ => EF (let? x := to_R a in let? y := to_R b in rdiv x y)
  end.

(** a ** e of an array and a Python number; negative powers of integers raise ValueError *)
Definition epow (a : elt) (e : num) : res elt :=
  match a, e with
  | EI z, NInt e => if (e <? 0)%Z then Err ValueError else Ok (EI (wrap (z ^ e)))
  | EK _, _ => Ok (EK None)   (* not used by the code modelled here *)
  | _, _ => Ok (EF (let? x := to_R a in rpow x (num_R e)))
  end.
(** a ** 2 of any element *)
Definition esquare (a : elt) : elt := emul a a.

(** cauchy.py:35-46; the parameters are multiplied with floats first, so their type does not matter *)
Definition cauchy_elt (n0 n1 n2 k0 k1 k2 : R) (lbda : elt) : res elt :=
  let* l2 := epow lbda (NInt 2) in
  let* l4 := epow lbda (NInt 4) in
  let part a b c := eadd (eadd (EF (Some a)) (ediv (EF (Some (10 ^ 2 * b)%R)) l2)) (ediv (EF (Some (10 ^ 7 * c)%R)) l4) in
  Ok (eadd (part n0 n1 n2) (emul (EK (Some Ci)) (part k0 k1 k2))).

(** cauchy_custom.py:28-31, polynomial.py:28-31: first + sum(f * lbda ** e); without terms the result
    is a Python number, which does not overflow *)
Definition powers_elt (first : num) (rep : list (num * num)) (lbda : elt) : res elt :=
  if (length rep =? 0)%nat then Ok (EF (Some (num_R first))) else
  let* s := fold_left (fun acc '(f, e) =>
    let* a := acc in let* p := epow lbda e in Ok (eadd a (emul (scalar f) p))) rep (Ok (EI 0)) in
  Ok (eadd (scalar first) s).

(** lorentz_lambda.py:33-39; rep: A, lambda_r, gamma.  lambda_r ** 2 is a Python number. *)
Definition num_square (a : num) : num := match a with NInt z => NInt (z * z) | NFloat x => NFloat (x * x) end.
Definition lorentz_lambda_elt (rep : list (num * num * num)) (lbda : elt) : res elt :=
  let* s := fold_left (fun acc '(A, lr, g) =>
    let* a := acc in
    let* l2 := epow lbda (NInt 2) in
    let d := esub (esub l2 (scalar (num_square lr))) (emul (EK (Some (Ci * RtoC (num_R g))%C)) lbda) in
    Ok (eadd a (ediv (emul (scalar A) l2) d))) rep (Ok (EI 0)) in
  Ok (eadd (EI 1) s).

(** The dispersions.  [Converting f] stands for the classes that first make floats of the
    wavelengths: by conversion_wavelength_energy (utils.py:213, value * 1e-9) in CauchyUrbach,
    CodyLorentz, DrudeEnergy, DrudeResistivity, Gaussian, LorentzEnergy, Poles, Tanguy and
    TaucLorentz, by lbda / 1e3 in Sellmeier and SellmeierCustomExponent (sellmeier.py:31,
    sellmeier_custom.py:33), by the interpolation in the tables, and for constants, which do not
    use the wavelength. *)
Inductive disp :=
  | Cauchy (n0 n1 n2 k0 k1 k2 : R)
  | CauchyCustom (n0 : num) (rep : list (num * num))
  | Polynomial (e0 : num) (rep : list (num * num))
  | LorentzLambda (rep : list (num * num * num))
  | Converting (f : R -> option C).

(** base_dispersion.py:112-116 get_dielectric and 310-311 dielectric_function of an index
    dispersion, for one wavelength *)
Definition dielectric_elt (d : disp) (lbda : elt) : res (option C) :=
  match d with
  | Cauchy n0 n1 n2 k0 k1 k2 => let* n := cauchy_elt n0 n1 n2 k0 k1 k2 lbda in Ok (to_C (esquare n))
  | CauchyCustom n0 rep => let* n := powers_elt n0 rep lbda in Ok (to_C (esquare n))
  | Polynomial e0 rep => let* e := powers_elt e0 rep lbda in Ok (to_C e)
  | LorentzLambda rep => let* e := lorentz_lambda_elt rep lbda in Ok (to_C e)
  | Converting f => Ok (let? x := to_R lbda in f x)
  end.

(** experiment.py:141-150 set_lbda: a number or a list of numbers; with a float among them all
    become floats *)
Inductive warg := WNum (a : num) | WList (l : list num).
Definition warg_list (a : warg) : list num := match a with WNum x => [x] | WList l => l end.
Definition is_int (a : num) : bool := match a with NInt _ => true | NFloat _ => false end.
Definition set_lbda (a : warg) : list elt :=
  let l := warg_list a in
  if forallb is_int l then map scalar l else map (fun x => EF (Some (num_R x))) l.

(** The dielectric function of a dispersion at the wavelengths of an experiment *)
Definition spectrum (d : disp) (a : warg) : res (list (option C)) := rmapM (dielectric_elt d) (set_lbda a).
