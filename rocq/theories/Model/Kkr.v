(** src/elli/kkr/kkr.py.  Arrays are lists of reals; a value that is not finite is [None]. *)
From Coq Require Import Reals List Arith.
From Verif.Base Require Import Py.
From Verif.Model Require Import Units.
Import ListNotations.
Open Scope R_scope.
Open Scope py_scope.

(** np.sum along an axis; not finite if one of the terms is not *)
Fixpoint np_sum (l : list (option R)) : option R :=
  match l with
  | [] => Some 0
  | x :: l' => let? a := x in let? b := np_sum l' in Some (a + b)
  end.

(** One term of the sums of kkr.py:36-48 _integrate_im, 51-66 _integrate_im_reciprocal, 69-80
    _integrate_re, 83-97 _integrate_re_reciprocal: the value y at x, seen from x_i.  In the
    reciprocal ones x * x / 0 is infinite for x <> 0, so that the term is zero. *)
Definition term_im (y x x_i : R) : option R := rdiv (x * y) (x * x - x_i * x_i).
Definition term_im_reciprocal (y x x_i : R) : option R :=
  if Req_EM_T x_i 0 then (if Req_EM_T x 0 then None else Some 0)
  else rdiv y (x * (1 - x * x / (x_i * x_i))).
Definition term_re (y x x_i : R) : option R := rdiv (x_i * y) (x * x - x_i * x_i).
Definition term_re_reciprocal (y x x_i : R) : option R :=
  if Req_EM_T x_i 0 then (if Req_EM_T x 0 then None else Some 0)
  else rdiv y (x_i - x * x / x_i).

(** The slices 0::2 and 1::2, kkr.py:129-130 *)
Fixpoint evens {A} (l : list A) : list A :=
  match l with
  | [] => []
  | [x] => [x]
  | x :: _ :: l' => x :: evens l'
  end.
Definition odds {A} (l : list A) : list A := evens (tl l).

(** An array filled at the slices 0::2 and 1::2 *)
Fixpoint weave {A} (e o : list A) : list A :=
  match e with
  | [] => o
  | x :: e' => match o with [] => x :: e' | y :: o' => x :: y :: weave e' o' end
  end.

(** np.diff(x, prepend=p) *)
Fixpoint np_diff (p : R) (x : list R) : list R :=
  match x with [] => [] | a :: x' => (a - p) :: np_diff a x' end.

(** kkr.py:36-97: all points of a slice, the sum over the other slice *)
Definition integrate (term : R -> R -> R -> option R) (t x x_i : list R) : list (option R) :=
  map (fun a => np_sum (map (fun '(y, b) => term y b a) (combine t x))) x_i.

(** kkr.py:100-143 _calc_kkr *)
Definition calc_kkr (t x : list R) (term : R -> R -> R -> option R) : res (list (option R)) :=
  if negb (length t =? length x)%nat then Err ValueError else
  match x with
  | x0 :: x1 :: _ =>
      let interval := np_diff (x1 - x0) x in
      let integral := weave (integrate term (odds t) (odds x) (evens x))
                            (integrate term (evens t) (evens x) (odds x)) in
      Ok (map (fun '(w, s) => let? v := s in Some (4 / PI * w * v)) (combine interval integral))
  | _ => Err IndexError
  end.

(** kkr.py:146-165 re2im, 168-187 im2re, 190-210 re2im_reciprocal, 213-233 im2re_reciprocal *)
Definition re2im (re x : list R) := calc_kkr re x term_re.
Definition im2re (im x : list R) := calc_kkr im x term_im.
Definition re2im_reciprocal (re x : list R) := calc_kkr re x term_re_reciprocal.
Definition im2re_reciprocal (im x : list R) := calc_kkr im x term_im_reciprocal.
