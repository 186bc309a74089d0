(** The formulas in the documentation of the dispersion classes (C65), written with total
    division; [total f l] is the sum of f over the parameter sets. *)
From Coq Require Import Reals List.
From Coquelicot Require Import Complex.
From Verif.Base Require Import Cx.
Import ListNotations.
Open Scope R_scope.
Open Scope C_scope.

Definition total {A} (f : A -> C) (l : list A) : C := fold_right Cplus (RtoC 0) (map f l).

(** E is the photon energy at the wavelength lbda (nm) *)
Definition photon (c h lbda E : R) : Prop := (E * (lbda / 10 ^ 9) = c * h)%R.

Definition doc_cauchy (n0 n1 n2 k0 k1 k2 lbda : R) : C :=
  RtoC (n0 + 100 * n1 / lbda ^ 2 + 10 ^ 7 * n2 / lbda ^ 4) +
  Ci * RtoC (k0 + 100 * k1 / lbda ^ 2 + 10 ^ 7 * k2 / lbda ^ 4).
Definition doc_powers (n0 : R) (l : list (R * R)) (lbda : R) : C :=
  RtoC n0 + total (fun '(f, e) => RtoC (f * Rpower lbda e)) l.
Definition doc_urbach (n0 B Cc D Eg Eu E : R) : C :=
  RtoC (n0 + B * E ^ 2 + Cc * E ^ 4) + Ci * RtoC D * RtoC (exp ((E - Eg) / Eu)).
(** wavelength in micrometres *)
Definition doc_sellmeier (l : list (R * R)) (lbda : R) : C :=
  RtoC 1 + total (fun '(A, B) => RtoC (A * lbda ^ 2 / (lbda ^ 2 - B))) l.
Definition doc_sellmeier_custom (l : list (R * R * R * R)) (lbda : R) : C :=
  total (fun '(A, eA, B, eB) => RtoC (A * Rpower lbda eA / (lbda ^ 2 - Rpower B eB))) l.
Definition doc_poles (A_ir A_uv E_uv E : R) : C := RtoC (A_ir / E ^ 2 + A_uv / (E_uv ^ 2 - E ^ 2)).
Definition doc_drude_energy (A gamma E : R) : C := RtoC A / (RtoC (E ^ 2) - Ci * RtoC gamma * RtoC E).
Definition doc_drude_resistivity (hbar eps0 rho tau E : R) : C :=
  RtoC hbar / (RtoC (eps0 * rho * tau * E ^ 2) - Ci * RtoC hbar * RtoC E).
Definition doc_lorentz_energy (l : list (R * R * R)) (E : R) : C :=
  RtoC 1 + total (fun '(A, Ej, g) => RtoC A / (RtoC (E ^ 2) - RtoC (Ej ^ 2) + Ci * RtoC g * RtoC E)) l.
Definition doc_lorentz_lambda (l : list (R * R * R)) (lbda : R) : C :=
  RtoC 1 + total (fun '(A, lr, g) =>
    RtoC (A * lbda ^ 2) / (RtoC (lbda ^ 2) - RtoC (lr ^ 2) + Ci * RtoC g * RtoC lbda)) l.
(** imaginary part *)
Definition doc_gaussian_im (A Ej sigma E : R) : R :=
  (A * exp (- (4 * ln 2 * (E - Ej) / sigma) ^ 2) - A * exp (- (4 * ln 2 * (E + Ej) / sigma) ^ 2))%R.
