(** The pseudo dielectric function (C103, C104) *)
From Coq Require Import Reals.
From Coquelicot Require Import Complex.
From Verif.Base Require Import Cx.
Open Scope R_scope.
Open Scope C_scope.

(** The dielectric function of a bare substrate in air whose reflection coefficients have the ratio rho, at
    the angle of incidence theta *)
Definition bulk_epsilon (theta : R) (rho : C) : C :=
  RtoC (sin theta * sin theta) * (1 + RtoC (tan theta * tan theta) * ((1 - rho) / (1 + rho) * ((1 - rho) / (1 + rho)))).
(** The formula of the documentation, pseudo_dielectric.py:29-38, without a square *)
Definition documented_epsilon (theta : R) (rho : C) : C :=
  RtoC (sin theta * sin theta) * (1 + RtoC (tan theta * tan theta) * ((1 - rho) / (1 + rho))).
