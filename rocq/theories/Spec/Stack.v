(** Plane waves in a stack of layers, independent of the solvers.

    In one polarisation a medium is described by two numbers p, q: a forward wave of amplitude A
    and a backward wave of amplitude B have the tangential fields p (A + B) and q (A - B).  For s
    polarisation p = 1, q = n cos; for p polarisation p = n, q = cos.  A layer also has the phase
    delta a wave acquires across it. *)
From Coq Require Import Reals List.
From Coquelicot Require Import Complex.
From Verif.Base Require Import Cx.
Import ListNotations.
Open Scope C_scope.

(** Tangential fields u, v in front of the layers continue, through every layer and interface,
    to a single transmitted wave of amplitude t in the back medium. *)
Fixpoint matched (u v : C) (layers : list (C * C * C)) (pb qb t : C) : Prop :=
  match layers with
  | [] => u = pb * t /\ v = qb * t
  | (p, q, delta) :: rest => exists A B : C,
      u = p * (A + B) /\ v = q * (A - B) /\
      let A' := A * Cexp (Ci * delta) in
      let B' := B * Cexp (- (Ci * delta)) in
      matched (p * (A' + B')) (q * (A' - B')) rest pb qb t
  end.

(** An incident wave of amplitude a, with reflected amplitude r and transmitted amplitude t. *)
Definition scattering (p0 q0 : C) (layers : list (C * C * C)) (pb qb a r t : C) : Prop :=
  matched (p0 * (a + r)) (q0 * (a - r)) layers pb qb t.

(** No source-free wave: without incident wave nothing is transmitted. *)
Definition no_mode (p0 q0 : C) (layers : list (C * C * C)) (pb qb : C) : Prop :=
  forall r t : C, scattering p0 q0 layers pb qb 0 r t -> t = 0.
