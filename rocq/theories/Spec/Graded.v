(** Maxwell's equations in stratified media whose permittivity varies continuously with the depth. *)
From Coq Require Import Reals List.
From Coquelicot Require Import Complex.
From Verif.Base Require Import Cx Mat Mexp.
From Verif.Spec Require Import Maxwell.
Import ListNotations.
Open Scope R_scope.

(** A slab of the thickness d, homogeneous or with a permittivity that depends on the depth z in it *)
Inductive slab := Uniform (d : R) (eps : mat) | Graded (d : R) (eps : R -> mat).
Definition depth (s : slab) : R := match s with Uniform d _ => d | Graded d _ => d end.
Definition permittivity (s : slab) (z : R) : mat := match s with Uniform _ eps => eps | Graded _ eps => eps z end.

(** Fields u in front of the slabs and v behind them belong to one solution. *)
Fixpoint in_slabs (k : R) (kx : C) (slabs : list slab) (u v : nat -> C) : Prop :=
  match slabs with
  | [] => veq 4 u v
  | s :: rest => exists F,
      (forall z, 0 <= z <= depth s -> maxwell_at k kx (permittivity s z) F z) /\
      veq 4 (tangential F 0) u /\ in_slabs k kx rest (tangential F (depth s)) v
  end.

(** The tensor changes at a bounded rate, and its zz component stays away from zero. *)
Definition smooth (s : slab) : Prop := 0 <= depth s /\ exists m L, 0 < m /\
  (forall z, 0 <= z <= depth s -> m <= Cmod (permittivity s z 2%nat 2%nat)) /\
  (forall z z' i j, 0 <= z <= depth s -> 0 <= z' <= depth s -> (i < 3)%nat -> (j < 3)%nat ->
     Cmod (permittivity s z i j - permittivity s z' i j)%C <= L * Rabs (z - z')).

(** Two matrices that give all solutions for waves incident from the front *)
Definition scattering (k : R) (kx n_f c_f n_b c_b : C) (slabs : list slab) (J_r J_t : mat) : Prop :=
  forall ap as_ bp bs tp ts,
    in_slabs k kx slabs (tangential (half_space k kx n_f c_f ap as_ bp bs) 0)
                        (tangential (half_space k kx n_b c_b tp ts 0 0) 0) <->
    (bp = J_r 0%nat 0%nat * ap + J_r 0%nat 1%nat * as_ /\ bs = J_r 1%nat 0%nat * ap + J_r 1%nat 1%nat * as_ /\
     tp = J_t 0%nat 0%nat * ap + J_t 0%nat 1%nat * as_ /\ ts = J_t 1%nat 0%nat * ap + J_t 1%nat 1%nat * as_)%C.

(** No wave leaves the structure unless one enters it. *)
Definition no_resonance (k : R) (kx n_f c_f n_b c_b : C) (slabs : list slab) : Prop := forall bp bs tp ts,
  in_slabs k kx slabs (tangential (half_space k kx n_f c_f 0 0 bp bs) 0)
                      (tangential (half_space k kx n_b c_b tp ts 0 0) 0) -> tp = RtoC 0 /\ ts = RtoC 0.
