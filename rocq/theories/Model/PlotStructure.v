(** src/elli/plot/structure.py: the index profile of a structure and where it is drawn. *)
From Coq Require Import Reals List.
From Coquelicot Require Import Complex.
From Verif.Base Require Import Py Cx Mat.
From Verif.Model Require Import Structure.
Import ListNotations.
Open Scope R_scope.

(** 17-25 get_permittivity_profile; [None] is an infinite thickness *)
Definition permittivity_profile (s : structure mat) : list (option R * mat) :=
  let layers := fold_left (fun acc l => acc ++ map (fun p => (Some (fst p), snd p)) (profile l)) (layers s) [] in
  [(None, front_material s)] ++ layers ++ [(None, back_material s)].

(** A direction is an array of shape (3,), as E_X of utils.py:196, or a column of shape (3, 1) *)
Inductive direction := Flat (v : nat -> R) | Column (v : nat -> R).
Definition components (d : direction) : nat -> R := match d with Flat v | Column v => v end.

(** 35 v.T * eps * v: elementwise products with broadcasting; a flat v runs along the last axis, as does the
    transpose of a column, and a column along the axis before *)
Definition product (d : direction) (eps : mat) : mat := fun i j =>
  match d with
  | Flat v => (RtoC (v j) * eps i j * RtoC (v j))%C
  | Column v => (RtoC (v j) * eps i j * RtoC (v i))%C
  end.

(** 28-36 get_index_profile at the first wavelength; scimath.sqrt is the principal root *)
Definition index_profile (s : structure mat) (d : direction) : list (option R * C) :=
  map (fun p => (fst p, Csqrt (product d (snd p) 0%nat 0%nat))) (permittivity_profile s).

(** 12-13 utils.E_X *)
Definition E_X : direction := Flat (fun i => match i with O => 1 | _ => 0 end).

(** np.cumsum *)
Fixpoint cumsum (acc : R) (l : list R) : list R :=
  match l with [] => [] | x :: l' => (acc + x) :: cumsum (acc + x) l' end.

(** l[1:-1] *)
Definition inner {A} (l : list A) : list A := removelast (tl l).

(** 46-55 of draw_structure: the depths of the borders.  The thicknesses between the first and the last are
    finite, an infinite one does not occur there. *)
Definition finite (h : option R) : R := match h with Some x => x | None => 0 end.
Definition borders (margin : R) (h : list (option R)) : list R :=
  let z_layers := 0 :: cumsum 0 (map finite (inner h)) in
  let z_max := last z_layers 0 in
  let z_margin := if Req_EM_T z_max 0 then / 10 ^ 6 else margin * z_max in
  [- z_margin] ++ z_layers ++ [z_max + z_margin].

(** 65-74 _draw_structure_graph: ax.step(z, n.real, where="post") draws the value n[k] from z[k] to z[k+1]; a
    piece is given by its two ends and its value.  n gets its last value once more, which draws nothing. *)
Fixpoint steps (z : list R) (n : list C) : list (R * R * R) :=
  match z, n with
  | a :: ((b :: _) as z'), x :: n' => (a, b, fst x) :: steps z' n'
  | _, _ => []
  end.
Definition graph (s : structure mat) (margin : R) : list (R * R * R) :=
  let p := index_profile s E_X in
  let n := map snd p in
  steps (borders margin (map fst p)) (n ++ [last n (RtoC 0)]).
