(** src/elli/result.py:458-544: ResultList and AveragedResultList.  Arrays have a shape and the
    elements in row-major order.  A Result is given by what its attributes return. *)
From Coq Require Import Reals String List Arith Bool.
From Coquelicot Require Import Complex.
From Verif.Base Require Import Py Cx.
Import ListNotations.
Open Scope nat_scope.
Open Scope py_scope.

Record arr (A : Type) := mkarr { shape : list nat; data : list A }.
Arguments mkarr {A}.
Arguments shape {A}.
Arguments data {A}.

Definition list_nat_eqb (a b : list nat) : bool := if list_eq_dec Nat.eq_dec a b then true else false.

(** np.array of a list of arrays: they must have the same shape (numpy >= 1.24) *)
Definition np_array {A} (l : list (arr A)) : res (arr A) :=
  match l with
  | [] => Ok (mkarr [0] [])
  | a :: _ =>
      if forallb (fun b => list_nat_eqb (shape b) (shape a)) l
      then Ok (mkarr (length l :: shape a) (concat (map data l)))
      else Err ValueError
  end.

(** np.squeeze: drops the axes of length one *)
Definition squeeze {A} (a : arr A) : arr A :=
  mkarr (filter (fun n => negb (n =? 1)) (shape a)) (data a).

Definition csum (l : list C) : C := fold_right Cplus (RtoC 0) l.

(** np.mean(a, axis=0); the mean over an empty axis is NaN, written None *)
Definition mean0 (a : arr C) : res (arr (option C)) :=
  match shape a with
  | [] => Err AxisError
  | n :: rest =>
      let m := fold_right Nat.mul 1 rest in
      Ok (mkarr rest (map (fun k => cdiv (csum (map (fun i => nth (i * m + k) (data a) (RtoC 0)) (seq 0 n))) (RtoC (INR n))) (seq 0 m)))
  end.

(** What getattr(result, name) gives *)
Definition result := string -> res (arr C).

(** result.py:489-512 ResultList.__getattr__ (for a name other than 'mean') *)
Definition list_attr (rs : list result) (name : string) : res (arr C) :=
  let* l := rmapM (fun r : result => r name) rs in
  let* a := np_array l in
  Ok (squeeze a).

(** result.py:521-544 AveragedResultList.__getattr__; ResultList(rs).mean.name *)
Definition mean_attr (rs : list result) (name : string) : res (arr (option C)) :=
  if String.eqb name "mean" then Err ValueError
  else let* a := list_attr rs name in mean0 a.
