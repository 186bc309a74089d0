(** scipy.interpolate.make_interp_spline(x, y, k) for k = 2 and 3 with its default knots, as interp1d
    uses it (table_index.py:35-54, table_epsilon.py:34-55, pseudo_dielectric.py:57-61).  For k = 3 the
    knots are the x except the second and the last but one, for k = 2 the means of neighbouring x except
    the first and the last.  scipy solves for the coefficients of B-splines; here the unknowns are the
    slopes at the rows (for k = 2 at the rows between the first and the last), which gives a
    tridiagonal system for the same function.  The x are different and increasing. *)
From Coq Require Import Reals List.
From Coquelicot Require Import Complex.
From Verif.Base Require Import Py Cx.
From Verif.Model Require Import Units Tables.
Import ListNotations.
Open Scope R_scope.
Open Scope C_scope.
Open Scope py_scope.

(** below u_(i-1) + diag u_i + above u_(i+1) = rhs *)
Record eqn := Eqn { below : R; diag : R; above : R; rhs : C }.
(** Elimination (make_interp_spline: gbsv), where the unknown before the first one is p - q u *)
Fixpoint solve (q : R) (p : C) (l : list eqn) : option (list C) :=
  match l with
  | [] => Some []
  | e :: l' =>
      let? w := rdiv 1 (diag e - below e * q)%R in
      let p' := RtoC w * (rhs e - RtoC (below e) * p) in
      let q' := (above e * w)%R in
      let? us := solve q' p' l' in
      Some (p' - RtoC q' * hd (RtoC 0) us :: us)
  end.

Definition gap (p q : point) : R := (fst q - fst p)%R.
Definition rise (p q : point) : C := (snd q - snd p) / RtoC (gap p q).

(** make_interp_spline with k = 3: the third derivative does not jump at the second row, the second
    derivative not at any row, and the third one not at the last but one *)
Definition cubic_first (p q r : point) : eqn :=
  Eqn 0 (gap q r) (gap p q + gap q r)
    ((RtoC (gap p q * gap p q) * rise q r + RtoC (gap q r * (2 * gap q r + 3 * gap p q)) * rise p q) / RtoC (gap p q + gap q r)).
Definition cubic_mid (p q r : point) : eqn :=
  Eqn (gap q r) (2 * (gap p q + gap q r)) (gap p q) (3 * (RtoC (gap q r) * rise p q + RtoC (gap p q) * rise q r)).
Definition cubic_last (p q r : point) : eqn :=
  Eqn (gap p q + gap q r) (gap p q) 0
    ((RtoC (gap q r * gap q r) * rise p q + RtoC (gap p q * (2 * gap p q + 3 * gap q r)) * rise q r) / RtoC (gap p q + gap q r)).
Fixpoint cubic_rest (l : list point) : list eqn :=
  match l with
  | p :: ((q :: r :: l'') as l') => cubic_mid p q r :: match l'' with [] => [cubic_last p q r] | _ => cubic_rest l' end
  | _ => []
  end.
Definition cubic_slopes (l : list point) : option (list C) :=
  match l with p :: q :: r :: _ => solve 0 0 (cubic_first p q r :: cubic_rest l) | _ => None end.
(** The cubic polynomial with given values and slopes at two rows *)
Definition hermite (p : point) (s : C) (q : point) (s' : C) (x : R) : C :=
  let h := RtoC (gap p q) in let t := RtoC (x - fst p) in let d := rise p q in
  snd p + t * (s + t * ((3 * d - 2 * s - s') / h + t * ((s + s' - 2 * d) / (h * h)))).
(** BSpline.__call__ *)
Fixpoint cubic_at (l : list point) (ss : list C) (x : R) : option C :=
  match l, ss with
  | p :: ((q :: r) as l'), s :: ((s' :: _) as ss') =>
      match r with
      | [] => Some (hermite p s q s' x)
      | _ => if Rle_dec x (fst q) then Some (hermite p s q s' x) else cubic_at l' ss' x
      end
  | _, _ => None
  end.

(** make_interp_spline with k = 2.  The polynomial around the row q has the value and the slope of q; its
    curvature follows from the one before, or from the first row, and from the one behind, or from the
    last row *)
Definition quad_row (first last : bool) (p q r : point) : eqn :=
  let a := (/ gap p q)%R in let b := (/ gap q r)%R in
  Eqn (if first then 0 else a / 2)%R ((if first then a else 3 * a / 2) + (if last then b else 3 * b / 2))%R (if last then 0 else b / 2)%R
    ((if first then RtoC 1 else RtoC 2) * RtoC a * rise p q + (if last then RtoC 1 else RtoC 2) * RtoC b * rise q r).
Fixpoint quad_rows (first : bool) (l : list point) : list eqn :=
  match l with
  | p :: ((q :: r :: l'') as l') => quad_row first (match l'' with [] => true | _ => false end) p q r :: quad_rows false l'
  | _ => []
  end.
(** [before]: the slope at p, if there is a polynomial around p *)
Definition curvature (before : option C) (p q : point) (s : C) : C :=
  match before with
  | None => (s - rise p q) / RtoC (gap p q)
  | Some s0 => ((s0 + 3 * s) / 2 - 2 * rise p q) / RtoC (gap p q)
  end.
Definition parabola (q : point) (s c : C) (x : R) : C :=
  let t := RtoC (x - fst q) in snd q + t * (s + t * c).
Fixpoint quad_at (before : option C) (l : list point) (ss : list C) (x : R) : option C :=
  match l, ss with
  | p :: ((q :: r :: l'') as l'), s :: ss' =>
      match l'' with
      | [] => Some (parabola q s (curvature before p q s) x)
      | _ => if Rle_dec x ((fst q + fst r) / 2) then Some (parabola q s (curvature before p q s) x) else quad_at (Some s) l' ss' x
      end
  | _, _ => None
  end.

Definition cubic_spline (l : list point) (x : R) : option C := let? ss := cubic_slopes l in cubic_at l ss x.
Definition quad_spline (l : list point) (x : R) : option C := let? ss := solve 0 0 (quad_rows true l) in quad_at None l ss x.
