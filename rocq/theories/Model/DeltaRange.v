(** src/elli/utils.py: DeltaRange and convert_delta_range. *)
From Coq Require Import Reals ZArith.
From Verif.Base Require Import Py.
Open Scope R_scope.

(** The Python values that can be passed as a bound.  [PyOther] stands for a value
    that is neither int nor float (e.g. a string); comparing it with a number
    raises TypeError.  bool (a subclass of int) and numpy scalars are not
    distinguished: a numpy integer is a [PyFloat] here since it is no [int]. *)
Inductive pyval : Type :=
| PyInt (z : Z)
| PyFloat (r : R)
| PyOther.

(* isinstance(x, int), used in utils.py:19 *)
Definition is_int (v : pyval) : bool :=
  match v with PyInt _ => true | _ => false end.

Definition num_of (v : pyval) : option R :=
  match v with PyInt z => Some (IZR z) | PyFloat r => Some r | PyOther => None end.

Definition Rleb (x y : R) : bool := if Rle_dec x y then true else false.
Definition Reqb (x y : R) : bool := if Req_EM_T x y then true else false.

(** np.mod(x, m) for m > 0: x - m * floor(x / m). *)
Definition np_mod (x m : R) : R := x - m * IZR (Int_part (x / m)).

(** utils.py:13-36, DeltaRange.__post_init__, in the order of its checks.
    Line 19 is written with [or] as in the code. *)
Definition delta_range (lower upper : pyval) : res (R * R) :=
  if negb (orb (is_int lower) (is_int upper)) then Err TypeError        (* 19-20 *)
  else
    match num_of lower with
    | None => Err TypeError                                            (* 22: comparison *)
    | Some l =>
        if negb (andb (Rleb (-360) l) (Rleb l 0)) then Err ValueError   (* 22-25 *)
        else
          match num_of upper with
          | None => Err TypeError                                      (* 27: comparison *)
          | Some u =>
              if negb (andb (Rleb 0 u) (Rleb u 360)) then Err ValueError  (* 27-30 *)
              else if negb (orb (andb (Reqb l 0) (Reqb u 180))
                                (Reqb (Rabs (u - l)) 360))
              then Err ValueError                                      (* 32-36 *)
              else Ok (l, u)
          end
    end.

(** utils.py:39-53, for one element of the array. *)
Definition convert_delta_range (delta : R) (lower upper : pyval) : res R :=
  match delta_range lower upper with
  | Err e => Err e
  | Ok (l, _) => Ok (np_mod (delta + l) 360 + l)                        (* 53 *)
  end.
