(** Labels of Mueller matrix elements and what a figure shows (C57, C76). *)
From Coq Require Import Reals String Ascii List Arith.
From Verif.Model Require Import MMatrixFit.
Import ListNotations.
Open Scope R_scope.

(** The label Mij; i and j count from zero *)
Definition digit (i : nat) : ascii := ascii_of_nat (49 + i).
Definition label (i j : nat) : string := String "M" (String (digit i) (String (digit j) EmptyString)).
Definition labels : list string := flat_map (fun i => map (label i) [0; 1; 2; 3]%nat) [0; 1; 2; 3]%nat.

(** The frame has the value x in the row k and the column with the given name *)
Definition holds_at (df : frame) (k : nat) (name : string) (x : R) : Prop :=
  exists c row, nth_error (f_columns df) c = Some name /\ (forall c', nth_error (f_columns df) c' = Some name -> c' = c) /\
    nth_error (f_rows df) k = Some row /\ nth_error row c = Some x.

Definition well_formed (df : frame) : Prop :=
  length (f_rows df) = length (f_index df) /\ Forall (fun row => length row = length (f_columns df)) (f_rows df).

Definition zero (r : list mueller) : Prop :=
  forall k m, nth_error r k = Some m -> forall i j, (i < 4)%nat -> (j < 4)%nat -> m i j = 0.

(** The figure shows in the line t the values of an element, in its plot of the grid unless all share one *)
Definition shows (single : bool) (i j : nat) (suffix : string) (index : list R) (value : nat -> R) (t : trace) : Prop :=
  t_name t = (label i j ++ suffix)%string /\ t_x t = index /\ t_y t = map value (seq 0 (length index)) /\
  t_place t = (if single then None else Some (i + 1, j + 1)%nat).
