(** What a Stokes vector means, independent of the model. *)
From Coq Require Import Reals.
From Coquelicot Require Import Complex.
From Verif.Base Require Import Cx.
Open Scope R_scope.

(** Power of the light (p, s) behind an analyser for the unit vector (u, v) *)
Definition analysed (u v p s : C) : R := Cnorm2 (Cconj u * p + Cconj v * s)%C.

(** Sums and differences of powers behind pairs of orthogonal analysers: p and s, +45 and -45
    degrees, the two circular polarisations. *)
Definition measured (p s : C) (S : R * R * R * R) : Prop :=
  let d := RtoC (1 / sqrt 2) in
  let '(s0, s1, s2, s3) := S in
  s0 = analysed (RtoC 1) (RtoC 0) p s + analysed (RtoC 0) (RtoC 1) p s /\
  s1 = analysed (RtoC 1) (RtoC 0) p s - analysed (RtoC 0) (RtoC 1) p s /\
  s2 = analysed d d p s - analysed d (- d)%C p s /\
  s3 = analysed d (Ci * d)%C p s - analysed d (- (Ci * d))%C p s.
