(** Outcomes of Python calls: a value or a raised exception.
    Only the class of an exception is modelled, not its message. *)

Inductive exn : Type :=
| TypeError
| ValueError
| KeyError
| IndexError
| AttributeError
| ZeroDivisionError
| NotImplementedError
| UnboundLocalError
| RecursionError
| InvalidParameters       (* elli.dispersions.base_dispersion.InvalidParameters *)
| LinAlgError             (* numpy.linalg.LinAlgError *)
| AxisError               (* numpy.exceptions.AxisError *)
| ParseError.             (* lark.exceptions.UnexpectedInput *)

Inductive res (A : Type) : Type :=
| Ok (a : A)
| Err (e : exn).
Arguments Ok {A} _.
Arguments Err {A} _.

Definition rbind {A B} (x : res A) (f : A -> res B) : res B :=
  match x with Ok a => f a | Err e => Err e end.

Definition rmap {A B} (f : A -> B) (x : res A) : res B :=
  match x with Ok a => Ok (f a) | Err e => Err e end.

(** [map] over a list, stopping at the first exception. *)
Fixpoint rmapM {A B} (f : A -> res B) (l : list A) : res (list B) :=
  match l with
  | nil => Ok nil
  | cons a l' =>
      match f a with
      | Err e => Err e
      | Ok b => match rmapM f l' with
                | Err e => Err e
                | Ok bs => Ok (cons b bs)
                end
      end
  end.

Definition is_ok {A} (x : res A) : Prop := exists a, x = Ok a.

(** A number that may have become NaN or infinite: [None] is "not finite". *)
Definition obind {A B} (x : option A) (f : A -> option B) : option B :=
  match x with Some a => f a | None => None end.

Declare Scope py_scope.
Delimit Scope py_scope with py.
Notation "'let*' x ':=' a 'in' b" := (rbind a (fun x => b))
  (at level 200, x pattern, a at level 100, b at level 200) : py_scope.
Notation "'let?' x ':=' a 'in' b" := (obind a (fun x => b))
  (at level 200, x pattern, a at level 100, b at level 200) : py_scope.
