(** Light along the axis of a helix: the waves in the frame that turns with the medium, independent
    of the solvers. *)
From Coq Require Import Reals List.
From Coquelicot Require Import Complex.
From Verif.Base Require Import Cx Mat Mexp.
From Verif.Spec Require Import Maxwell.
Open Scope C_scope.

(** A wave exp(i m z) whose components A, B along the turning axes (permittivities e1, e2) stay
    constant; k is the wave number in vacuum, q the angle per length *)
Definition helix_wave (k q : R) (e1 e2 m A B : C) : Prop :=
  (m * m + RtoC q * RtoC q - RtoC k * RtoC k * e1) * A + 2 * Ci * RtoC q * m * B = 0 /\
  (m * m + RtoC q * RtoC q - RtoC k * RtoC k * e2) * B - 2 * Ci * RtoC q * m * A = 0.
(** Its field *)
Definition helix_field (k q : R) (m A B : C) : field :=
  let f z := Cexp (RtoC z * (Ci * m)) in
  let c z := RtoC (cos (q * z)) in
  let s z := RtoC (sin (q * z)) in
  let a := (m * A + Ci * RtoC q * B) / RtoC k in
  let b := (m * B - Ci * RtoC q * A) / RtoC k in
  Field (fun z => f z * (c z * A - s z * B)) (fun z => f z * (s z * A + c z * B)) (fun _ => RtoC 0)
        (fun z => - (f z * (s z * a + c z * b))) (fun z => f z * (c z * a - s z * b)) (fun _ => RtoC 0).

(** The four propagation constants m1, -m1, m2, -m2 *)
Definition four (m1 m2 : C) (j : nat) : C := match j with O => m1 | 1%nat => - m1 | 2%nat => m2 | _ => - m2 end.
Definition helix_modes (k q : R) (e1 e2 m1 m2 : C) : Prop :=
  m1 * m1 + m2 * m2 = 2 * RtoC q * RtoC q + RtoC k * RtoC k * (e1 + e2) /\
  m1 * m1 * (m2 * m2) = (RtoC q * RtoC q - RtoC k * RtoC k * e1) * (RtoC q * RtoC q - RtoC k * RtoC k * e2) /\
  m1 <> 0 /\ m2 <> 0 /\ m1 * m1 <> m2 * m2.

(** Fields u in front of the helix and v behind it belong to a sum of four such waves. *)
Definition in_helix (k q : R) (e1 e2 m1 m2 : C) (d : R) (u v : nat -> C) : Prop := exists A B : nat -> C,
  (forall j, (j < 4)%nat -> helix_wave k q e1 e2 (four m1 m2 j) (A j) (B j)) /\
  veq 4 u (fun i => csum 4 (fun j => tangential (helix_field k q (four m1 m2 j) (A j) (B j)) 0 i)) /\
  veq 4 v (fun i => csum 4 (fun j => tangential (helix_field k q (four m1 m2 j) (A j) (B j)) d i)).
