(** Interpolating splines (C58) *)
From Coq Require Import Reals List.
From Coquelicot Require Import Complex.
From Verif.Base Require Import Cx.
Import ListNotations.
Open Scope R_scope.

(** (x - b)^k for x >= b and 0 otherwise *)
Definition trunc (k : nat) (b x : R) : R := if Rlt_dec x b then 0 else (x - b) ^ k.
Fixpoint polynomial (cs : list C) (x : R) : C :=
  match cs with [] => RtoC 0 | c :: cs' => (c + RtoC x * polynomial cs' x)%C end.
Fixpoint jumps (k : nat) (bs : list R) (cs : list C) (x : R) : C :=
  match bs, cs with b :: bs', c :: cs' => (c * RtoC (trunc k b x) + jumps k bs' cs' x)%C | _, _ => RtoC 0 end.
(** A spline of degree k with the knots bs: polynomials of degree k between the knots, with k - 1
    continuous derivatives *)
Definition spline (k : nat) (bs : list R) (f : R -> C) : Prop :=
  exists P cs, length P = S k /\ length cs = length bs /\ forall x, f x = (polynomial P x + jumps k bs cs x)%C.
Definition through (rows : list (R * C)) (f : R -> C) : Prop := forall p, In p rows -> f (fst p) = snd p.

(** All but the first m and the last m *)
Definition inner {A} (m : nat) (l : list A) : list A := firstn (length l - 2 * m) (skipn m l).
Fixpoint means (xs : list R) : list R :=
  match xs with x :: ((y :: _) as xs') => (x + y) / 2 :: means xs' | _ => [] end.
(** The default knots of the interpolating splines of degree 3 (not a knot) and 2 *)
Definition cubic_knots (xs : list R) : list R := inner 2 xs.
Definition quadratic_knots (xs : list R) : list R := inner 1 (means xs).
