(** src/elli/experiment.py: Experiment.set_vector (65-131). *)
From Coq Require Import Reals.
From Coquelicot Require Import Complex.
From Verif.Base Require Import Py Cx.
From Verif.Model Require Import Units.
Open Scope R_scope.
Open Scope py_scope.

(** The argument: None, an array of shape (2,), of shape (4,) with real entries, or any other
    shape.  Complex entries in a vector of shape (4,) are not modelled. *)
Inductive vector :=
| VNone
| VJones (a b : C)
| VStokes (s0 s1 s2 s3 : R)
| VOther.

(** The attributes jones_vector and stokes_vector.  A Jones vector with a nan component is [None]. *)
Record light := Light { jones_vector : option (C * C); stokes_vector : R * R * R * R }.

(** experiment.py:88-103 *)
Definition jones_to_stokes (a b : C) : R * R * R * R :=
  ((Cmod a) ^ 2 + (Cmod b) ^ 2, (Cmod a) ^ 2 - (Cmod b) ^ 2,
   2 * Re (a * Cconj b)%C, - 2 * Im (a * Cconj b)%C).

(** experiment.py:108-131.  Numpy returns nan or infinities for the quotients by zero; all of
    them lead to nan in the Jones vector. *)
Definition stokes_to_jones (s0 s1 s2 s3 : R) : option (C * C) :=
  let? p := rdiv (sqrt (s1 ^ 2 + s2 ^ 2 + s3 ^ 2)) s0 in
  let? Q := rdiv s1 (s0 * p) in
  let? U := rdiv s2 (s0 * p) in
  let? V := rdiv s3 (s0 * p) in
  if Req_EM_T Q (-1) then Some (RtoC 0, RtoC 1)
  else
    let a := sqrt ((1 + Q) / 2) in
    let? u := rdiv U (2 * a) in
    let? v := rdiv V (2 * a) in
    Some (RtoC a, (RtoC u + Ci * RtoC v)%C).

(** experiment.py:65-131: the new attributes from the old ones (an unset attribute is [None] here
    in the whole, i.e. before the first call of __init__) *)
Definition set_vector (old : option light) (v : vector) : option light :=
  match v with
  | VJones a b => Some (Light (Some (a, b)) (jones_to_stokes a b))
  | VNone => Some (Light (stokes_to_jones 1 0 1 0) (1, 0, 1, 0))
  | VStokes s0 s1 s2 s3 => Some (Light (stokes_to_jones s0 s1 s2 s3) (s0, s1, s2, s3))
  | VOther => old
  end.
