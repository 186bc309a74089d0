(** Tabulated dispersions: src/elli/dispersions/table_index.py:35-54, 78-79 and
    table_epsilon.py:34-55, 77-78 (the same code).  Only the default kind of interpolation,
    "linear", is modelled.  scipy.interpolate.interp1d(x, y) with its other defaults sorts the points
    by x (stable), raises ValueError outside of the range of x and interpolates linearly between the
    last point below and the first point at or above the argument. *)
From Coq Require Import Reals List.
From Coquelicot Require Import Complex.
From Verif.Base Require Import Py Cx.
From Verif.Model Require Import Units.
Import ListNotations.
Open Scope R_scope.
Open Scope C_scope.
Open Scope py_scope.

Definition point : Type := R * C.

Fixpoint insert (p : point) (l : list point) : list point :=
  match l with
  | [] => [p]
  | q :: l' => if Rlt_dec (fst q) (fst p) then q :: insert p l' else p :: l
  end.
(** interp1d: x = x[argsort(x)], y = y[argsort(x)] *)
Definition sorted (l : list point) : list point := fold_right insert [] l.

(** interp1d: searchsorted(x, x_new) with its result kept between 1 and len(x) - 1 *)
Fixpoint segment_from (p : point) (l : list point) (x : R) : option (point * point) :=
  match l with
  | [] => None
  | [q] => Some (p, q)
  | q :: l' => if Rle_dec x (fst q) then Some (p, q) else segment_from q l' x
  end.
Definition segment (l : list point) (x : R) : option (point * point) :=
  match l with [] => None | p :: l' => segment_from p l' x end.

(** interp1d: y_lo + slope * (x - x_lo); [None] for nan *)
Definition on_segment (s : point * point) (x : R) : option C :=
  let '((x0, y0), (x1, y1)) := s in
  let? t := rdiv 1 (x1 - x0) in Some ((y1 - y0) * RtoC t * RtoC (x - x0) + y0).

(** interp1d.__call__.  For a table of one point the result depends on the version of scipy and on
    the type of the values; it is [None] here. *)
Definition interp (l : list point) (x : R) : res (option C) :=
  match sorted l with
  | [] => Err ValueError
  | p :: r =>
      if Rlt_dec x (fst p) then Err ValueError
      else if Rlt_dec (fst (last (p :: r) p)) x then Err ValueError
      else Ok (let? s := segment (p :: r) x in on_segment s x)
  end.

(** table_index.py:35-54, table_epsilon.py:34-55 __init__: the points of the interpolation *)
Definition table (lbda : list R) (n : list C) : res (list point) :=
  match lbda with
  | [] => Err InvalidParameters
  | _ => if Nat.eqb (length n) (length lbda) then Ok (combine lbda n) else Err InvalidParameters
  end.

(** table_index.py:78-79 refractive_index, table_epsilon.py:77-78 dielectric_function at one
    wavelength *)
Definition table_value (l : list point) (x : R) : res (option C) := interp l x.
