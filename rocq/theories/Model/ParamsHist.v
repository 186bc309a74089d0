(** src/elli/fitting/params_hist.py: lmfit Parameters with a history.  lmfit itself is not part of
    the repository; of it the following is assumed (lmfit/parameter.py): a Parameters object is a
    dictionary from names to mutable Parameter objects; copy and deepcopy give an object of the same
    class, made with its constructor, with new Parameter objects; add stores a new Parameter object;
    update stores the Parameter objects of the other dictionary itself.
    Of a Parameter only the value is modelled (not bounds, vary or expressions). *)
From Coq Require Import Reals ZArith String List Arith Bool.
From Verif.Base Require Import Py.
Import ListNotations.
Open Scope string_scope.
Open Scope list_scope.

(** The Parameter objects, by address: their values *)
Definition heap := list R.
(** A dictionary from names to Parameter objects.  The order of the keys is not modelled. *)
Definition dict := list (string * nat).

Definition lookup (d : dict) (k : string) : option nat :=
  match find (fun p => fst p =? k) d with Some p => Some (snd p) | None => None end.

(** d[k] = parameter *)
Fixpoint dset (d : dict) (k : string) (a : nat) : dict :=
  match d with
  | [] => [(k, a)]
  | p :: d' => if fst p =? k then (k, a) :: d' else p :: dset d' k a
  end.

(** Parameters.update: the objects of e are stored in d *)
Definition dupdate (d e : dict) : dict := fold_right (fun p d => dset d (fst p) (snd p)) d e.

(** parameter.value = v *)
Fixpoint hset (h : heap) (a : nat) (v : R) : heap :=
  match h, a with
  | [], _ => []
  | _ :: h', O => v :: h'
  | x :: h', S a' => x :: hset h' a' v
  end.

Definition alloc (h : heap) (v : R) : heap * nat := (h ++ [v], length h).

(** Parameters.__deepcopy__, copy: new Parameter objects *)
Fixpoint clone (h : heap) (d : dict) : heap * dict :=
  match d with
  | [] => (h, [])
  | (k, a) :: d' =>
      let (h1, b) := alloc h (nth a h 0%R) in
      let (h2, d2) := clone h1 d' in
      (h2, (k, b) :: d2)
  end.

(** A new Parameters object with the given values (the first one for a repeated name) *)
Fixpoint new_dict (h : heap) (l : list (string * R)) : heap * dict :=
  match l with
  | [] => (h, [])
  | (k, v) :: l' =>
      let (h1, b) := alloc h v in
      let (h2, d2) := new_dict h1 l' in
      (h2, dset d2 k b)
  end.

(** A ParamsHist object: params_hist.py:22-25.  The stored versions are ParamsHist objects as well,
    with an empty history (the constructor is called by deepcopy), so that a dictionary suffices. *)
Record ph := mkph { cur : dict; hist : list dict; maxl : nat }.

(** params_hist.py:22-25 __init__ *)
Definition init : ph := mkph [] [] 50.

(** params_hist.py:122-127 commit *)
Definition commit (h : heap) (p : ph) : heap * ph :=
  let hist1 := if (maxl p <=? length (hist p))%nat then tl (hist p) else hist p in
  let (h1, c) := clone h (cur p) in
  (h1, mkph (cur p) (hist1 ++ [c]) (maxl p)).

(** params_hist.py:78-85 revert; Python's % with a zero divisor raises, and an index that is too
    large or too small raises in the subscript (the condition itself is always true) *)
Definition revert (h : heap) (p : ph) (pos : Z) : res ph :=
  let n := Z.of_nat (length (hist p)) in
  if (n =? 0)%Z then Err ZeroDivisionError
  else if (pos mod n <? n)%Z then
    let i := if (pos <? 0)%Z then (pos + n)%Z else pos in
    if ((0 <=? i) && (i <? n))%Z%bool
    then Ok (mkph (dupdate (cur p) (nth (Z.to_nat i) (hist p) [])) (hist p) (maxl p))
    else Err IndexError
  else Ok p.

(** params_hist.py:87-95 pop: the returned copy is the second component *)
Definition pop (h : heap) (p : ph) : heap * ph * option dict :=
  match hist p with
  | [] => (h, p, None)
  | _ =>
      let (h1, c) := clone h (cur p) in
      (h1, mkph (dupdate (cur p) (last (hist p) [])) (removelast (hist p)) (maxl p), Some c)
  end.

(** self[key].value = v (KeyError for an unknown key) *)
Definition set_value (h : heap) (p : ph) (k : string) (v : R) : res heap :=
  match lookup (cur p) k with Some a => Ok (hset h a v) | None => Err KeyError end.

(** The operations of a program.  UpdateParams is given a new Parameters object, UpdateFrom an
    existing one. *)
Inductive op :=
| Add (k : string) (v : R)            (* lmfit add, untracked *)
| SetValue (k : string) (v : R)       (* params[k].value = v, untracked *)
| TrackedAdd (k : string) (v : R)     (* params_hist.py:117-120 *)
| UpdateValue (k : string) (v : R)    (* params_hist.py:97-105 *)
| UpdateParams (l : list (string * R))
| UpdateFrom (d : dict)               (* params_hist.py:107-115 *)
| Commit | Pop | Revert (pos : Z)
| SetMax (n : Z)                      (* params_hist.py:55-76 *)
| Clear.                              (* params_hist.py:36-38 *)

Definition add (h : heap) (p : ph) (k : string) (v : R) : heap * ph :=
  let (h1, a) := alloc h v in (h1, mkph (dset (cur p) k a) (hist p) (maxl p)).

(** One operation: the new state, and the exception if one is raised (what was done before it
    stays done) *)
Definition step (s : heap * ph) (o : op) : (heap * ph) * option exn :=
  let (h, p) := s in
  match o with
  | Add k v => (add h p k v, None)
  | SetValue k v =>
      match set_value h p k v with Ok h1 => ((h1, p), None) | Err e => ((h, p), Some e) end
  | TrackedAdd k v => let (h1, p1) := commit h p in (add h1 p1 k v, None)
  | UpdateValue k v =>
      let (h1, p1) := commit h p in
      match set_value h1 p1 k v with Ok h2 => ((h2, p1), None) | Err e => ((h1, p1), Some e) end
  | UpdateParams l =>
      let (h0, d) := new_dict h l in
      let (h1, p1) := commit h0 p in
      ((h1, mkph (dupdate (cur p1) d) (hist p1) (maxl p1)), None)
  | UpdateFrom d =>
      let (h1, p1) := commit h p in
      ((h1, mkph (dupdate (cur p1) d) (hist p1) (maxl p1)), None)
  | Commit => (commit h p, None)
  | Pop => let '(h1, p1, _) := pop h p in ((h1, p1), None)
  | Revert pos => match revert h p pos with Ok p1 => ((h, p1), None) | Err e => ((h, p), Some e) end
  | SetMax n =>
      if (n <? 1)%Z then ((h, p), Some ValueError)
      else ((h, mkph (cur p) (skipn (length (hist p) - Z.to_nat n) (hist p)) (Z.to_nat n)), None)
  | Clear => ((h, mkph (cur p) [] (maxl p)), None)
  end.

Definition run (s : heap * ph) (ops : list op) : heap * ph := fold_left (fun s o => fst (step s o)) ops s.

(** The value of a parameter *)
Definition value (h : heap) (d : dict) (k : string) : option R :=
  match lookup d k with Some a => nth_error h a | None => None end.
