(** What the kinds of interpolation mean (C58) *)
From Coq Require Import Reals String List Sorted Permutation.
From Coquelicot Require Import Complex.
From Verif.Base Require Import Cx.
From Verif.Spec Require Import Table SplineDoc.
Import ListNotations.
Open Scope R_scope.

(** The value of a closest row, and of the smaller or larger x of two closest ones, of the last row at or before x, of the first row at or behind x *)
Definition closest (larger : bool) (rows : list (R * C)) (x : R) (v : C) : Prop :=
  exists r, In r rows /\ v = snd r /\ forall q, In q rows -> Rabs (x - fst r) <= Rabs (x - fst q) /\
    (Rabs (x - fst q) = Rabs (x - fst r) -> if larger then fst q <= fst r else fst r <= fst q).
Definition before (rows : list (R * C)) (x : R) (v : C) : Prop :=
  exists r, In r rows /\ v = snd r /\ fst r <= x /\ forall q, In q rows -> fst q <= x -> fst q <= fst r.
Definition behind (rows : list (R * C)) (x : R) (v : C) : Prop :=
  exists r, In r rows /\ v = snd r /\ x <= fst r /\ forall q, In q rows -> x <= fst q -> fst r <= fst q.
(** The value of the only spline of degree k through the rows, whose knots follow from the sorted x *)
Definition splined (k : nat) (knots : list R -> list R) (rows : list (R * C)) (x : R) (v : C) : Prop :=
  exists xs f, StronglySorted Rlt xs /\ Permutation (map fst rows) xs /\
    spline k (knots xs) f /\ through rows f /\ v = f x /\
    forall g, spline k (knots xs) g -> through rows g -> forall y, g y = f y.

Definition kind_meaning (s : string) (rows : list (R * C)) (x : R) (v : C) : Prop :=
  if (String.eqb s "linear" || String.eqb s "slinear")%bool then on_table rows x v
  else if String.eqb s "nearest" then closest false rows x v
  else if String.eqb s "nearest-up" then closest true rows x v
  else if (String.eqb s "previous" || String.eqb s "zero")%bool then before rows x v
  else if String.eqb s "next" then behind rows x v
  else if String.eqb s "quadratic" then splined 2 quadratic_knots rows x v
  else if String.eqb s "cubic" then splined 3 cubic_knots rows x v
  else False.

(** A value between those of the neighbours of x *)
Definition between_neighbours (rows : list (R * C)) (x : R) (v : C) : Prop :=
  exists a b t, neighbours rows a b /\ fst a <= x <= fst b /\ 0 <= t <= 1 /\ at_fraction t (snd a) (snd b) v.
