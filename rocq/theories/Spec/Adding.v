(** Specification vocabulary for adding dispersions (C11-C16). *)
From Coq Require Import Reals List Arith Bool.
From Coquelicot Require Import Complex.
From Verif.Base Require Import Py Cx.
From Verif.Model Require Import DispAdd.
Import ListNotations.
Open Scope R_scope.
Open Scope C_scope.

(** The quantity that adds up: the dielectric function of a dielectric dispersion, the
    refractive index of an index dispersion. *)
Definition optics (h : heap) (r : nat) (lbda : R) : option C :=
  match nth_error h r with
  | None => None
  | Some o => match okind o with
              | KEps => get_dielectric h r lbda
              | KIdx => get_refractive_index h r lbda
              end
  end.

(** A number stands for the constant function. *)
Definition operand_optics (h : heap) (o : operand) (lbda : R) : option C :=
  match o with ONum x => Some (RtoC x) | ORef r => optics h r lbda | OOther => None end.

(** The sum of finitely many values; undefined as soon as one of them is. *)
Fixpoint total (l : list (option C)) : option C :=
  match l with
  | [] => Some (RtoC 0)
  | None :: _ => None
  | Some x :: l' => match total l' with Some y => Some (x + y) | None => None end
  end.

(** The operands an expression is built from, in order. *)
Fixpoint operands (e : expr) : list operand :=
  match e with EVal o => [o] | EAdd a b => operands a ++ operands b end.

(** The sums among them. *)
Definition sum_at (h : heap) (r : nat) : bool :=
  match nth_error h r with Some (Sum _ _) => true | _ => false end.
Definition sum_operand (h : heap) (o : operand) : list nat :=
  match o with ORef r => if sum_at h r then [r] else [] | _ => [] end.
Definition sum_operands (h : heap) (l : list operand) : list nat := flat_map (sum_operand h) l.

Definition exists_in (h : heap) (o : operand) : Prop :=
  match o with ORef r => (r < length h)%nat | _ => True end.

(** C13: no sum in a sum, one kind per sum. *)
Definition flat (h : heap) : Prop :=
  forall s k ps p, nth_error h s = Some (Sum k ps) -> In p ps ->
    exists o, nth_error h p = Some o /\ is_sum o = false /\ okind o = k.

(** The heaps a program can reach. *)
Definition reachable (h : heap) : Prop := exists cs, h = fold_left exec cs [].
