(** Maxwell's equations in plane stratified anisotropic media, independent of the solvers.

    Fields have the factor exp(i k (kx x) - i omega t), k is the wave number in vacuum and kx the
    reduced tangential wave number; H is scaled with the impedance of vacuum.  A field is given by
    its six components as functions of z. *)
From Coq Require Import Reals List.
From Coquelicot Require Import Complex.
From Verif.Base Require Import Cx Mat Mexp.
Import ListNotations.
Open Scope C_scope.

Record field := Field { Ex : R -> C; Ey : R -> C; Ez : R -> C; Hx : R -> C; Hy : R -> C; Hz : R -> C }.

(** Row i of D = eps E *)
Definition displacement (eps : mat) (F : field) (i : nat) (z : R) : C :=
  eps i 0%nat * Ex F z + eps i 1%nat * Ey F z + eps i 2%nat * Ez F z.

(** curl E = i k H and curl H = - i k eps E, at one depth and in a homogeneous medium *)
Definition maxwell_at (k : R) (kx : C) (eps : mat) (F : field) (z : R) : Prop :=
  cder (Ey F) z (- (Ci * RtoC k * Hx F z)) /\
  cder (Ex F) z (Ci * RtoC k * kx * Ez F z + Ci * RtoC k * Hy F z) /\
  Ci * RtoC k * kx * Ey F z = Ci * RtoC k * Hz F z /\
  cder (Hy F) z (Ci * RtoC k * displacement eps F 0 z) /\
  cder (Hx F) z (Ci * RtoC k * kx * Hz F z - Ci * RtoC k * displacement eps F 1 z) /\
  Ci * RtoC k * kx * Hy F z = - (Ci * RtoC k * displacement eps F 2 z).
Definition maxwell (k : R) (kx : C) (eps : mat) (F : field) : Prop := forall z, maxwell_at k kx eps F z.

(** The components that are continuous at an interface *)
Definition tangential (F : field) (z : R) : nat -> C := vec_of [Ex F z; Ey F z; Hx F z; Hy F z].

(** Fields u in front of the layers and v behind them belong to one solution. *)
Fixpoint in_stack (k : R) (kx : C) (layers : list (R * mat)) (u v : nat -> C) : Prop :=
  match layers with
  | [] => veq 4 u v
  | (d, eps) :: rest => exists F,
      maxwell k kx eps F /\ veq 4 (tangential F 0) u /\ in_stack k kx rest (tangential F d) v
  end.

(** Waves in a half space of index n with cosine c: amplitudes of the waves towards +z (ap, as)
    and -z (bp, bs) of both polarisations, with the signs used for Jones matrices. *)
Definition half_space (k : R) (kx n c ap as_ bp bs : C) : field :=
  let q := n * c in
  let f z := Cexp (RtoC z * (Ci * RtoC k * q)) in
  let b z := Cexp (RtoC z * - (Ci * RtoC k * q)) in
  Field (fun z => c * (ap * f z - bp * b z))
        (fun z => as_ * f z + bs * b z)
        (fun z => - (kx / n) * (ap * f z + bp * b z))
        (fun z => - q * (as_ * f z - bs * b z))
        (fun z => n * (ap * f z + bp * b z))
        (fun z => kx * (as_ * f z + bs * b z)).
