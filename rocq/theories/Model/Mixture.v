(** src/elli/materials.py:228-469: mixtures.  The mixing formulas work elementwise on the
    tensors of host and guest, so they are modelled on one element [h], [g]; [f] is the volume
    fraction of the guest. *)
From Coq Require Import Reals List.
From Coquelicot Require Import Complex.
From Verif.Base Require Import Py Cx Mat.
Import ListNotations.
Open Scope R_scope.
Open Scope C_scope.
Open Scope py_scope.

(** materials.py:319-334 VCAMaterial.get_tensor_fraction *)
Definition vca (f : R) (h g : C) : C := h * (1 - RtoC f) + g * RtoC f.

(** materials.py:355-370 LooyengaEMA.get_tensor_fraction; x ** (1/3) is the principal power and
    0 at 0 *)
Definition looyenga (f : R) (h g : C) : C :=
  Cpow (Cpowr h (1 / 3) * (1 - RtoC f) + Cpowr g (1 / 3) * RtoC f) 3.

(** materials.py:390-418 MaxwellGarnettEMA.get_tensor_fraction; [None] is a division by zero *)
Definition maxwell_garnett (f : R) (h g : C) : option C :=
  if Ceq_dec h 0 then
    if Ceq_dec g 0 then Some h
    else cdiv (h * (2 * RtoC f * (g - h) + g + 2 * h)) (2 * h + g - RtoC f * (g - h))
  else cdiv (h * (2 * RtoC f * (g - h) + g + 2 * h)) (2 * h + g - RtoC f * (g - h)).

(** materials.py:441-469 BruggemanEMA.get_tensor_fraction *)
Definition bruggeman (f : R) (h g : C) : option C :=
  if Ceq_dec h g then Some h else
  let root_h := Csqrt h in
  let root_g := Csqrt g in
  let? p := cdiv root_h root_g in
  let? ip := cdiv 1 p in
  let b := RtoC (1 / 4) * (RtoC (3 * f - 1) * (ip - p) + p) in
  let z := b + Csqrt (b * b + RtoC (1 / 2)) in
  Some (z * root_h * root_g).

(** The tensor of a mixture of two tensors, element by element. *)
Definition mix {A} (formula : R -> C -> C -> A) (f : R) (h g : mat) : nat -> nat -> A :=
  fun i j => formula f (h i j) (g i j).

(** MixtureMaterial objects.  A fraction argument is a number, nan, or something that cannot be
    compared with numbers. *)
Inductive farg := FNum (x : R) | FNan | FBad.
(** An argument for a constituent: a Material with this identity, or another object. *)
Inductive marg := IsMat (id : nat) | NotMat.

(** [fraction] is None in the class body; an unset constituent is 0. *)
Record mixture := Mixture { host_material : nat; guest_material : nat; fraction : option R }.

(** Methods act on an object and may raise: the object afterwards and the exception. *)
(** materials.py:248-267 set_constituents: both checks precede the assignments *)
Definition set_constituents (self : mixture) (h g : marg) : mixture * option exn :=
  match h with
  | NotMat => (self, Some TypeError)
  | IsMat h =>
    match g with
    | NotMat => (self, Some TypeError)
    | IsMat g => (Mixture h g (fraction self), None)
    end
  end.
(** materials.py:269-278 set_fraction: the guard [not 0 <= fraction <= 1] *)
Definition set_fraction (self : mixture) (f : farg) : mixture * option exn :=
  match f with
  | FNum x =>
    if Rle_dec 0 x then
      if Rle_dec x 1 then (Mixture (host_material self) (guest_material self) (Some x), None)
      else (self, Some ValueError)
    else (self, Some ValueError)
  | FNan => (self, Some ValueError)
  | FBad => (self, Some TypeError)
  end.
(** materials.py:228-246: class attributes and the constructor *)
Definition new_mixture (h g : marg) (f : farg) : res mixture :=
  match set_constituents (Mixture 0 0 None) h g with
  | (_, Some e) => Err e
  | (self, None) =>
    match set_fraction self f with
    | (_, Some e) => Err e
    | (self, None) => Ok self
    end
  end.

(** A program acting on a growing collection of mixtures. *)
Inductive mop := New (h g : marg) (f : farg) | SetConst (k : nat) (h g : marg)
               | SetFraction (k : nat) (f : farg).

Fixpoint upd {A} (l : list A) (k : nat) (x : A) : list A :=
  match l, k with
  | [], _ => []
  | _ :: l, O => x :: l
  | a :: l, S k => a :: upd l k x
  end.

(** One statement of the program, inside try / except. *)
Definition step (s : list mixture) (o : mop) : list mixture * option exn :=
  match o with
  | New h g f =>
      match new_mixture h g f with
      | Ok m => (s ++ [m], None)
      | Err e => (s, Some e)
      end
  | SetConst k h g =>
      match nth_error s k with
      | None => (s, Some IndexError)
      | Some m => let (m', e) := set_constituents m h g in (upd s k m', e)
      end
  | SetFraction k f =>
      match nth_error s k with
      | None => (s, Some IndexError)
      | Some m => let (m', e) := set_fraction m f in (upd s k m', e)
      end
  end.

Definition run (ops : list mop) : list mixture := fold_left (fun s o => fst (step s o)) ops [].
