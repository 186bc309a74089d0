(** What a formula means at one wavelength: no arrays. *)
From Coq Require Import String List.
From Verif.Model Require Import Formula.
Import ListNotations.
Open Scope string_scope.
Open Scope list_scope.

Section Meaning.
Variable A : Type.
Variables (num const : string -> A) (op : binop -> A -> A -> A) (fn : string -> A -> A) (total : list A -> A).

(** A name means a number, or nothing. *)
Definition env := string -> option A.

Definition both (f : A -> A -> A) (a b : option A) : option A :=
  match a, b with Some x, Some y => Some (f x y) | _, _ => None end.

Fixpoint meaning_r (rho : env) (e : rexpr) : option A :=
  match e with
  | RNum s => Some (num s)
  | RName n => rho n
  | RBuiltin n => Some (const n)
  | RFunc f a => option_map (fn f) (meaning_r rho a)
  | RBin o a b => both (op o) (meaning_r rho a) (meaning_r rho b)
  end.

Fixpoint collect (l : list (option A)) : option (list A) :=
  match l with
  | [] => Some []
  | None :: _ => None
  | Some a :: l' => option_map (cons a) (collect l')
  end.

(** [sets]: what names mean within each of the parameter sets *)
Fixpoint meaning (rho : env) (sets : list env) (e : expr) : option A :=
  match e with
  | ENum s => Some (num s)
  | EName n => rho n
  | EBuiltin n => Some (const n)
  | EFunc f a => option_map (fn f) (meaning rho sets a)
  | EBin o a b => both (op o) (meaning rho sets a) (meaning rho sets b)
  | ESum r => option_map total (collect (map (fun s => meaning_r s r) sets))
  end.
End Meaning.

(** The wavelength hides a single parameter of the same name, which hides a repeated one. *)
Definition named {A} (d : list (string * A)) (n : string) : option A :=
  match find (fun p => fst p =? n) d with Some p => Some (snd p) | None => None end.
Definition outer {A} (axis : string) (x : A) (single : list (string * A)) : env A :=
  fun n => if n =? axis then Some x else named single n.
Definition inner {A} (axis : string) (x : A) (single : list (string * A)) (set : list (string * A)) : env A :=
  fun n => match outer axis x single n with Some a => Some a | None => named set n end.
