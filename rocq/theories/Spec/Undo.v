(** A bounded undo stack: the current values, and the versions that were saved, the latest last. *)
From Coq Require Import Reals ZArith String List Arith.
From Verif.Base Require Import Py.
Import ListNotations.
Open Scope string_scope.
Open Scope list_scope.

(** Values by name *)
Definition vmap := string -> option R.

Record undo := mkundo { now : vmap; saved : list vmap; bound : nat }.

Definition put (m : vmap) (k : string) (v : R) : vmap := fun j => if k =? j then Some v else m j.
(** The values of m, and those of n for names that m does not have *)
Definition over (m n : vmap) : vmap := fun j => match m j with Some v => Some v | None => n j end.

Definition save (s : undo) : undo :=
  mkundo (now s) ((if (bound s <=? length (saved s))%nat then tl (saved s) else saved s) ++ [now s]) (bound s).
Definition change (s : undo) (m : vmap) : undo := mkundo m (saved s) (bound s).
Definition undo1 (s : undo) : undo :=
  match saved s with
  | [] => s
  | _ => mkundo (over (last (saved s) (now s)) (now s)) (removelast (saved s)) (bound s)
  end.
(** Only the last n versions are kept *)
Definition limit (s : undo) (n : nat) : undo := mkundo (now s) (skipn (length (saved s) - n) (saved s)) n.
