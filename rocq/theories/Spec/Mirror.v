(** Textbook optics of quarter wave stacks at normal incidence, independent of the solvers. *)
From Coq Require Import Reals List.
Import ListNotations.
Open Scope R_scope.

(** The thickness of an odd number of quarter waves in a medium of permittivity e *)
Definition quarters (lbda e : R) (m : nat) : R := (2 * INR m + 1) * lbda / (4 * sqrt e).

(** The index a substrate of index n seems to have under quarter wave layers of permittivities es *)
Fixpoint seen_index (es : list R) (n : R) : R :=
  match es with [] => n | e :: rest => e / seen_index rest n end.

(** The reflected amplitude between two indices *)
Definition reflected (n0 n1 : R) : R := (n0 - n1) / (n0 + n1).
