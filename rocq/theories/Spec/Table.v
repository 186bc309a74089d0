(** What a table means (C58): the tabulated value, or the value on the straight line between the
    neighbours. *)
From Coq Require Import Reals List.
From Coquelicot Require Import Complex.
From Verif.Base Require Import Cx.
Import ListNotations.
Open Scope R_scope.
Open Scope C_scope.

(** Two rows with no other row between them *)
Definition neighbours (rows : list (R * C)) (a b : R * C) : Prop :=
  In a rows /\ In b rows /\ (fst a < fst b)%R /\ forall p, In p rows -> (fst p <= fst a \/ fst b <= fst p)%R.

(** v lies at the fraction t of the way from a to b *)
Definition at_fraction (t : R) (a b v : C) : Prop := v = (a + RtoC t * (b - a))%C.

Definition on_table (rows : list (R * C)) (x : R) (v : C) : Prop :=
  exists a b t, neighbours rows a b /\ (0 <= t <= 1)%R /\ x = (fst a + t * (fst b - fst a))%R /\
    at_fraction t (snd a) (snd b) v.

Definition inside (rows : list (R * C)) (x : R) : Prop :=
  (exists p, In p rows /\ (fst p <= x)%R) /\ (exists p, In p rows /\ (x <= fst p)%R).
