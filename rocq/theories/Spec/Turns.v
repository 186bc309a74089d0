(** Lists of layers that are the same for light, independent of the classes that made them. *)
From Coq Require Import Reals List.
From Verif.Base Require Import Mat.
Open Scope R_scope.

Definition same_layers (ls ls' : list (R * mat)) : Prop :=
  Forall2 (fun l l' => fst l = fst l' /\ meq 3 (snd l) (snd l')) ls ls'.
