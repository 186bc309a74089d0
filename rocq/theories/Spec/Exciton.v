(** Bound states of an exciton in d dimensions (1 < d <= 3) with the binding constant Rb below the gap
    Eg: E = Eg - Rb / (n + (d - 3) / 2)^2 for n = 1, 2, ...; here n is counted from 0. *)
From Coq Require Import Reals.
Open Scope R_scope.

Definition bound_state (d Rb Eg E : R) : Prop := exists n : nat, E = Eg - Rb / (INR n + (d - 1) / 2) ^ 2.
(** The lowest bound state has a positive energy *)
Definition stable (d Rb Eg : R) : Prop := 0 < Eg - Rb / ((d - 1) / 2) ^ 2.
(** Residue of the dielectric function at the n-th bound state (n from 0) for the amplitude A: the
    oscillator strengths fall off as the third power of the quantum number (Elliott). *)
Definition strength (A d Rb Eg : R) (n : nat) : R :=
  4 * A * Rpower Rb (d / 2) / (INR n + (d - 1) / 2) ^ 3 / (Eg - Rb / (INR n + (d - 1) / 2) ^ 2) ^ 2.
(** The same transitions without Coulomb attraction: critical points in three and two dimensions *)
Definition free_pairs (A d Eg E : R) : R :=
  if Req_EM_T d 3 then A / E ^ 2 * (2 * sqrt Eg - sqrt (Eg - E) - sqrt (Eg + E))
  else A / E ^ 2 * ln (Eg ^ 2 / (Eg ^ 2 - E ^ 2)).

(** Gauss's limit for the gamma function: (m + 1)^x m! / (x (x + 1) ... (x + m)) *)
Fixpoint rising (x : R) (m : nat) : R := match m with O => 1 | S k => rising x k * (x + INR k) end.
Definition gauss (x G : R) : Prop :=
  forall eps, 0 < eps -> exists M : nat, forall m, (M <= m)%nat ->
    Rabs (Rpower (INR m + 1) x * INR (fact m) / rising x (S m) - G) < eps.
(** Oscillator strengths in d dimensions: those of [strength] times the factor
    Gamma(n + d - 1) / (n! Gamma((d - 1) / 2)^2 (n + (d - 1) / 2)^(d - 2)); n is counted from 0.
    G0 and G1 are the two values of the gamma function. *)
Definition strength_d (A d Rb Eg : R) (n : nat) (G0 G1 : R) : R :=
  strength A d Rb Eg n * (G1 / (INR (fact n) * G0 ^ 2 * Rpower (INR n + (d - 1) / 2) (d - 2))).
