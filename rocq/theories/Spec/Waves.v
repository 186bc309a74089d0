(** Textbook notions about plane waves at layers, independent of the solvers. *)
From Coq Require Import Reals ZArith.
From Coquelicot Require Import Complex.
Open Scope R_scope.

(** The square of the wave number along the interfaces, for an angle in degrees in a medium of
    permittivity x, in units of the vacuum wave number. *)
Definition tangential2 (x theta : R) : R := x * (sin (theta * PI / 180) * sin (theta * PI / 180)).

(** The thickness across which a wave in a transparent layer of permittivity e acquires half a
    period. *)
Definition half_wave (lbda e s2 : R) : R := lbda / (2 * sqrt (e - s2)).

(** The sign of m half periods *)
Definition sign_of (m : Z) : R := if Z.even m then 1 else -1.
