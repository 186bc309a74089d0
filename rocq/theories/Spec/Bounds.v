(** Bounds for the dielectric constant of a mixture of two transparent media (C113); f is the
    volume fraction of the second. *)
From Coq Require Import Reals.
Open Scope R_scope.

(** Wiener: fields along and across layers *)
Definition arithmetic_mean (f h g : R) : R := (1 - f) * h + f * g.
Definition harmonic_mean (f h g : R) : R := / ((1 - f) / h + f / g).
(** Hashin and Shtrikman: the mixture e with 1 / (e + 2 m) the average of 1 / (h + 2 m) and
    1 / (g + 2 m); isotropic mixtures lie between the values with m the smaller and m the larger of
    h and g. *)
Definition hashin_shtrikman (m f h g : R) : R := / ((1 - f) / (h + 2 * m) + f / (g + 2 * m)) - 2 * m.
