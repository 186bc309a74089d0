(** Parameter binding of dispersions: src/elli/dispersions/base_dispersion.py:37-110.
    Dictionaries are association lists in insertion order and live in a heap, because the
    class template is a mutable dictionary that all instances share. A value is
    [option V]; [None] is Python's None. *)
From Coq Require Import String List Arith Bool.
From Verif.Base Require Import Py.
Import ListNotations.
Open Scope list_scope.

Section Params.
Context {V : Type}.

Definition dict := list (string * option V).
Definition dheap := list dict.

(* Python's dict: keys(), d[k] = v, membership *)
Definition keys {A} (d : list (string * A)) : list string := map fst d.
Definition mem (k : string) (l : list string) : bool := existsb (String.eqb k) l.
Fixpoint dset (k : string) (v : option V) (d : dict) : dict :=
  match d with
  | [] => [(k, v)]
  | (k', v') :: d' => if String.eqb k k' then (k', v) :: d' else (k', v') :: dset k v d'
  end.

(* the heap of dictionaries *)
Definition hget (h : dheap) (r : nat) : dict := nth r h [].
Fixpoint hset (h : dheap) (r : nat) (d : dict) : dheap :=
  match h, r with
  | [], _ => []
  | _ :: h', O => d :: h'
  | x :: h', S r' => x :: hset h' r' d
  end.

(** base_dispersion.py:37-44 _guard_invalid_params: true when some name is unknown. *)
Definition guard_invalid (params1 params2 : list string) : bool :=
  existsb (fun k => negb (mem k params2)) params1.

(** base_dispersion.py:56-59: the loop over the positional arguments. [t] and [p] are the
    references of the template and of the new dictionary. *)
Fixpoint pos_loop (h : dheap) (t p i : nat) (args : list (option V)) (pos : list string)
  : dheap * res (list string) :=
  match args with
  | [] => (h, Ok pos)
  | v :: args' =>
      match nth_error (keys (hget h t)) i with
      | None => (h, Err IndexError)
      | Some k => pos_loop (hset h p (dset k v (hget h p))) t p (S i) args' (k :: pos)
      end
  end.

(** base_dispersion.py:61-66: the loop over the keyword arguments. *)
Fixpoint kw_loop (h : dheap) (p : nat) (kw : dict) (pos : list string)
  : dheap * res unit :=
  match kw with
  | [] => (h, Ok tt)
  | (k, v) :: kw' =>
      if mem k pos then (h, Err InvalidParameters)
      else kw_loop (hset h p (dset k v (hget h p))) p kw' pos
  end.

(** base_dispersion.py:46-68 _fill_params_dict.  The parameter is called "template", so a
    keyword argument of that name is refused by Python's call with TypeError. *)
Definition fill_params (h : dheap) (t : nat) (args : list (option V)) (kw : dict)
  : dheap * res nat :=
  if mem "template"%string (keys kw) then (h, Err TypeError)
  else if guard_invalid (keys kw) (keys (hget h t)) then (h, Err InvalidParameters)
  else if length (hget h t) <? length kw + length args then (h, Err InvalidParameters)
  else
    let p := length h in
    let h1 := h ++ [hget h t] in
    match pos_loop h1 t p 0 args [] with
    | (h2, Err e) => (h2, Err e)
    | (h2, Ok pos) =>
        match kw_loop h2 p kw pos with
        | (h3, Err e) => (h3, Err e)
        | (h3, Ok _) => (h3, Ok p)
        end
    end.

(** A dispersion object: the references of single_params and rep_params. *)
Record disp := { d_single : nat; d_rep : list nat }.

Definition is_none (kv : string * option V) : bool :=
  match snd kv with None => true | Some _ => false end.

(** base_dispersion.py:70-80 __init__ ("self" is refused as a keyword by Python's call). *)
Definition init (h : dheap) (t : nat) (args : list (option V)) (kw : dict)
  : dheap * res disp :=
  if mem "self"%string (keys kw) then (h, Err TypeError)
  else match fill_params h t args kw with
  | (h', Err e) => (h', Err e)
  | (h', Ok p) =>
      if existsb is_none (hget h' p) then (h', Err InvalidParameters)
      else (h', Ok {| d_single := p; d_rep := [] |})
  end.

(** base_dispersion.py:99-110 add: no check for None here. *)
Definition add (h : dheap) (o : disp) (t : nat) (args : list (option V)) (kw : dict)
  : dheap * disp * res unit :=
  if mem "self"%string (keys kw) then (h, o, Err TypeError)
  else match fill_params h t args kw with
  | (h', Err e) => (h', o, Err e)
  | (h', Ok p) => (h', {| d_single := d_single o; d_rep := d_rep o ++ [p] |}, Ok tt)
  end.

(** A sequence of add calls on one object, going on after an exception. *)
Fixpoint adds (h : dheap) (o : disp) (t : nat) (calls : list (list (option V) * dict))
  : dheap * disp :=
  match calls with
  | [] => (h, o)
  | (args, kw) :: calls' =>
      let '(h', o', _) := add h o t args kw in adds h' o' t calls'
  end.

End Params.
Arguments dict : clear implicits.
Arguments dheap : clear implicits.
