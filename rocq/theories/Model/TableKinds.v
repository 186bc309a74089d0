(** The parameter kind of the tabulated dispersions, table_index.py:35-54 and table_epsilon.py:34-55:
    scipy.interpolate.interp1d(x, y, kind=kind) with its other defaults.  It sorts the rows by x
    (stable), makes floats or complex numbers of y and selects a method:
    "linear" with real y: numpy.interp; with complex y: its own code, which is in Tables.v;
    "nearest" and "nearest-up": searchsorted among the means of neighbours, side left and right;
    "previous" and "next": searchsorted among x moved by one floating point number, which is <= and <;
    "zero", "slinear", "quadratic", "cubic": scipy.interpolate.make_interp_spline of the order 0, 1, 2, 3,
    which needs one row more than its order and different x; the last two are in Spline.v. *)
From Coq Require Import Reals String List.
From Coquelicot Require Import Complex.
From Verif.Base Require Import Py Cx.
From Verif.Model Require Import Units Tables Spline.
Import ListNotations.
Open Scope R_scope.
Open Scope C_scope.
Open Scope py_scope.

Inductive kind := Linear | Nearest | NearestUp | Previous | Next | Zero | Slinear | Quadratic | Cubic.
(** Any other text raises NotImplementedError *)
Definition kind_of (s : string) : res kind :=
  if String.eqb s "linear" then Ok Linear else if String.eqb s "nearest" then Ok Nearest
  else if String.eqb s "nearest-up" then Ok NearestUp else if String.eqb s "previous" then Ok Previous
  else if String.eqb s "next" then Ok Next else if String.eqb s "zero" then Ok Zero
  else if String.eqb s "slinear" then Ok Slinear else if String.eqb s "quadratic" then Ok Quadratic
  else if String.eqb s "cubic" then Ok Cubic else Err NotImplementedError.

Definition spline_order (k : kind) : option nat :=
  match k with Zero => Some 0%nat | Slinear => Some 1%nat | Quadratic => Some 2%nat | Cubic => Some 3%nat | _ => None end.

(** make_interp_spline: "Expect x to not have duplicates" *)
Fixpoint increasing (l : list point) : bool :=
  match l with p :: ((q :: _) as l') => if Rlt_dec (fst p) (fst q) then increasing l' else false | _ => true end.

(** table_index.py:35-54, table_epsilon.py:34-55 __init__: the sorted rows or an exception *)
Definition table_kind (s : string) (lbda : list R) (n : list C) : res (kind * list point) :=
  let* rows := table lbda n in
  let* k := kind_of s in
  let rows := sorted rows in
  match spline_order k with
  | None => Ok (k, rows)
  | Some o => if Nat.ltb (length rows) (o + 1) then Err ValueError
              else if increasing rows then Ok (k, rows) else Err ValueError
  end.

(** searchsorted: the last row with x_i <= x, and the first one with x <= x_i *)
Fixpoint previous_row (p : point) (l : list point) (x : R) : point :=
  match l with [] => p | q :: l' => if Rle_dec (fst q) x then previous_row q l' x else p end.
Fixpoint next_row (p : point) (l : list point) (x : R) : point :=
  match l with [] => p | q :: l' => if Rlt_dec (fst p) x then next_row q l' x else p end.
(** the row whose limits, the means with its neighbours, contain x; [up]: side = right *)
Fixpoint nearest_row (up : bool) (p : point) (l : list point) (x : R) : point :=
  match l with
  | [] => p
  | q :: l' =>
      let b := (fst p / 2 + fst q / 2)%R in
      if (if up then if Rle_dec b x then true else false else if Rlt_dec b x then true else false)
      then nearest_row up q l' x else p
  end.
(** numpy.interp: the last row j with x_j <= x, and the straight line to the next one *)
Fixpoint np_interp (p : point) (l : list point) (x : R) : C :=
  match l with
  | [] => snd p
  | q :: l' => if Rle_dec (fst q) x then np_interp q l' x
               else (snd q - snd p) / RtoC (fst q - fst p) * RtoC (x - fst p) + snd p
  end.
(** interp1d.__call__ at one wavelength; [complex]: the values of the table are complex numbers.
    [None]: not a number. *)
Definition kind_value (complex : bool) (t : kind * list point) (x : R) : res (option C) :=
  let '(k, rows) := t in
  match rows with
  | [] => Err ValueError
  | p :: r =>
      if Rlt_dec x (fst p) then Err ValueError
      else if Rlt_dec (fst (last (p :: r) p)) x then Err ValueError
      else Ok match k with
        | Linear => if complex then let? s := segment (p :: r) x in on_segment s x else Some (np_interp p r x)
        | Nearest => Some (snd (nearest_row false p r x))
        | NearestUp => Some (snd (nearest_row true p r x))
        | Previous | Zero => Some (snd (previous_row p r x))
        | Next => Some (snd (next_row p r x))
        | Slinear => Some (np_interp p r x)
        | Quadratic => quad_spline rows x
        | Cubic => cubic_spline rows x
        end
  end.
