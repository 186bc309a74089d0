(** Finely layered media: the tensor that connects the mean fields, independent of the model. *)
From Coq Require Import Reals List.
From Coquelicot Require Import Complex.
From Verif.Base Require Import Cx Mat.
From Verif.Spec Require Import Graded.
Import ListNotations.
Open Scope R_scope.

(** The layers of a period: the share of the thickness and the permittivity of each *)
Definition period := list (R * mat).
Definition mean (p : period) (f : R * mat -> C) : C := fold_right (fun q s => RtoC (fst q) * f q + s)%C (RtoC 0) p.
Definition shares (p : period) : Prop :=
  Forall (fun q => 0 <= fst q) p /\ fold_right (fun q s => fst q + s) 0 p = 1.

(** The fields in the layers have the tangential components of E and the normal component of D in
    common; then e connects the means of E and of D. *)
Definition averages (p : period) (e : mat) : Prop := forall (F : R * mat -> nat -> C) (Ex Ey Dz : C),
  (forall q, In q p -> F q 0%nat = Ex /\ F q 1%nat = Ey /\ mvec 3 (snd q) (F q) 2%nat = Dz) ->
  veq 3 (fun i => mean p (fun q => mvec 3 (snd q) (F q) i)) (mvec 3 e (fun j => mean p (fun q => F q j))).

(** A stack of slabs and of fine periods with the total thickness d, and what it looks like to light *)
Inductive part := Whole (s : slab) | Periods (d : R) (p : period) (e : mat).
Definition smeared (a : part) : slab := match a with Whole s => s | Periods d _ e => Uniform d e end.
Definition sound (a : part) : Prop :=
  match a with
  | Whole s => smooth s
  | Periods d p e => 0 <= d /\ shares p /\ Forall (fun q : R * mat => snd q 2%nat 2%nat <> RtoC 0) p /\ averages p e
  end.
