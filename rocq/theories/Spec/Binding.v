(** How a call's arguments bind a list of declared parameters, independent of the model. *)
From Coq Require Import String List.
Import ListNotations.

Section Binding.
Context {V : Type}.
(** [decl]: declared names with their defaults, in order. *)
Variable decl : list (string * option V).
Variable args : list (option V).
Variable kw : list (string * option V).

(** The call is well formed: known keywords, no parameter bound twice, not too many. *)
Definition well_formed : Prop :=
  (forall k v, In (k, v) kw -> In k (map fst decl)) /\
  length kw + length args <= length decl /\
  (forall k v i, In (k, v) kw -> nth_error (map fst decl) i = Some k -> length args <= i).

(** The value that parameter [k] gets. *)
Inductive bound : string -> option V -> Prop :=
| bound_pos : forall i k v,
    nth_error (map fst decl) i = Some k -> nth_error args i = Some v -> bound k v
| bound_kw : forall k v, In (k, v) kw -> bound k v
| bound_default : forall i k v,
    nth_error decl i = Some (k, v) -> length args <= i -> ~ In k (map fst kw) -> bound k v.
End Binding.

(** Keyword names that a Python method with parameters "self" or "template" cannot receive. *)
Definition reserved_free {V} (kw : list (string * option V)) : Prop :=
  ~ In "self"%string (map fst kw) /\ ~ In "template"%string (map fst kw).

(** The parameter sets stored by a history of calls (positional, keyword): one for each well
    formed call, in order, and none for the others. *)
Inductive added {V} (decl : list (string * option V)) :
  list (list (option V) * list (string * option V)) -> list (list (string * option V)) -> Prop :=
| added_nil : added decl [] []
| added_skip : forall args kw calls ds, ~ well_formed decl args kw -> added decl calls ds ->
    added decl ((args, kw) :: calls) ds
| added_cons : forall args kw calls d ds, well_formed decl args kw ->
    map fst d = map fst decl ->
    (forall k v, In (k, v) d <-> bound decl args kw k v) -> added decl calls ds ->
    added decl ((args, kw) :: calls) (d :: ds).
