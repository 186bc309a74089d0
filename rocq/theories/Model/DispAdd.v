(** Adding dispersions: src/elli/dispersions/base_dispersion.py:201-421, with the overriding
    methods of table_epsilon.py, table_index.py and pseudo_dielectric.py.

    Objects live in a heap and are named by their position, because DispersionSum.__add__
    changes the object in place.  A single (non-sum) dispersion is represented by the function
    it computes at one wavelength; [None] means that the call raises or is not finite.  For a
    dielectric dispersion that is the dielectric function, for an index dispersion the
    refractive index. *)
From Coq Require Import Reals List Arith Bool.
From Coquelicot Require Import Complex.
From Verif.Base Require Import Py Cx.
Import ListNotations.
Open Scope R_scope.
Open Scope C_scope.
Open Scope py_scope.

Inductive kind := KEps | KIdx.   (* subclass of Dispersion / of IndexDispersion *)
Definition kind_eqb (a b : kind) : bool :=
  match a, b with KEps, KEps | KIdx, KIdx => true | _, _ => false end.

(** How a single dispersion's class treats +: [LTable] is TableEpsilon (KEps) or Table (KIdx),
    [LPseudo] is PseudoDielectricFunction, [LPlain] every other class.  Only LTable and LPseudo
    have mandatory single parameters (the template value None). *)
Inductive lclass := LPlain | LTable | LPseudo.

Inductive obj :=
| Leaf (k : kind) (c : lclass) (v : R -> option C)
| Sum (k : kind) (parts : list nat)     (* DispersionSum / IndexDispersionSum *)
| AsIdx (src : nat).                    (* AnonymousIndexDispersion of as_index *)

Definition heap := list obj.

Definition okind (o : obj) : kind :=
  match o with Leaf k _ _ => k | Sum k _ => k | AsIdx _ => KIdx end.
Definition is_sum (o : obj) : bool := match o with Sum _ _ => true | _ => false end.

(** An operand of +: a number (int or float), a dispersion object, or a value of any other
    type that does not define addition with dispersions itself. *)
Inductive operand := ONum (x : R) | ORef (r : nat) | OOther.

Fixpoint update (h : heap) (r : nat) (o : obj) : heap :=
  match h, r with
  | [], _ => []
  | _ :: h', O => o :: h'
  | x :: h', S r' => x :: update h' r' o
  end.

(** epsilon_inf.py:24-28 and constant_refractive_index.py:23-27: EpsilonInf(x) and
    ConstantRefractiveIndex(x). *)
Definition const_leaf (k : kind) (x : R) : obj := Leaf k LPlain (fun _ => Some (RtoC x)).

(** base_dispersion.py:350-362 DispersionSum.__add__ and 392-405 IndexDispersionSum.__add__.
    The operand check (204-208, 278-282) refuses the other kind and other types.  [l += l2]
    appends a copy of l2's elements, also when both are the same list. *)
Definition sum_add (h : heap) (s : nat) (other : operand) : heap * res operand :=
  match nth_error h s with
  | Some (Sum k parts) =>
      match other with
      | OOther => (h, Err TypeError)
      | ONum x =>
          (update (h ++ [const_leaf k x]) s (Sum k (parts ++ [length h])), Ok (ORef s))
      | ORef r =>
          match nth_error h r with
          | None => (h, Err TypeError)
          | Some o =>
              if kind_eqb (okind o) k then
                match o with
                | Sum _ parts2 => (update h s (Sum k (parts ++ parts2)), Ok (ORef s))
                | _ => (update h s (Sum k (parts ++ [r])), Ok (ORef s))
                end
              else (h, Err TypeError)
          end
      end
  | _ => (h, Err TypeError)
  end.

(** base_dispersion.py:347-348, 389-390: the loop  for disp in disps: self += disp *)
Fixpoint sum_loop (h : heap) (s : nat) (ops : list operand) : heap * res operand :=
  match ops with
  | [] => (h, Ok (ORef s))
  | o :: ops' =>
      match sum_add h s o with
      | (h', Err e) => (h', Err e)
      | (h', Ok _) => sum_loop h' s ops'
      end
  end.

(** base_dispersion.py:343-348, 385-390: the constructors of the two sum classes. *)
Definition new_sum (h : heap) (k : kind) (ops : list operand) : heap * res operand :=
  sum_loop (h ++ [Sum k []]) (length h) ops.

(** table_epsilon.py:56-75 TableEpsilon.__add__ and table_index.py:56-76 Table.__add__.
    Table + number calls ConstantRefractiveIndex(eps=...), which has no parameter eps. *)
Definition table_add (h : heap) (self : nat) (k : kind) (other : operand) : heap * res operand :=
  match other with
  | OOther => (h, Err TypeError)
  | ONum x =>
      match k with
      | KEps => new_sum (h ++ [const_leaf KEps x]) KEps [ORef self; ORef (length h)]
      | KIdx => (h, Err InvalidParameters)
      end
  | ORef r =>
      match nth_error h r with
      | None => (h, Err TypeError)
      | Some o =>
          if kind_eqb (okind o) k then
            match o with
            | Leaf _ LTable _ => (h, Err NotImplementedError)
            | _ => new_sum h k [ORef self; ORef r]
            end
          else (h, Err TypeError)
      end
  end.

(** base_dispersion.py:214-232 Dispersion.__add__ and 290-308 IndexDispersion.__add__. *)
Definition plain_add (h : heap) (self : nat) (k : kind) (other : operand) : heap * res operand :=
  match other with
  | OOther => (h, Err TypeError)
  | ONum x => new_sum (h ++ [const_leaf k x]) k [ORef self; ORef (length h)]
  | ORef r =>
      match nth_error h r with
      | None => (h, Err TypeError)
      | Some o =>
          if kind_eqb (okind o) k then
            match o with
            | Leaf _ LTable _ => table_add h r k (ORef self)
            | Sum _ parts => (update h r (Sum k (parts ++ [self])), Ok (ORef r))
            | _ => new_sum h k [ORef self; ORef r]
            end
          else (h, Err TypeError)
      end
  end.

(** The method x.__add__(other) of the object at [self]; pseudo_dielectric.py:63-64. *)
Definition disp_add (h : heap) (self : nat) (other : operand) : heap * res operand :=
  match nth_error h self with
  | None => (h, Err TypeError)
  | Some (Sum _ _) => sum_add h self other
  | Some (AsIdx _) => plain_add h self KIdx other
  | Some (Leaf k LPlain _) => plain_add h self k other
  | Some (Leaf k LTable _) => table_add h self k other
  | Some (Leaf _ LPseudo _) => (h, Err NotImplementedError)
  end.

(** Python's  l + r:  __add__ of the left operand, or __radd__ (base_dispersion.py:210-212,
    284-288, which calls __add__) of the right one when the left is no dispersion. *)
Definition py_add (h : heap) (l r : operand) : heap * res operand :=
  match l, r with
  | ORef a, _ => disp_add h a r
  | ONum x, ORef b => disp_add h b (ONum x)
  | OOther, ORef b => disp_add h b OOther
  | ONum x, ONum y => (h, Ok (ONum (x + y)%R))
  | _, _ => (h, Err TypeError)
  end.

(** base_dispersion.py:234-259 as_index: the anonymous class is instantiated without arguments,
    which raises InvalidParameters when the template has a mandatory parameter. *)
Definition as_index (h : heap) (r : nat) : heap * res operand :=
  match nth_error h r with
  | Some (Leaf KEps LPlain _) => (h ++ [AsIdx r], Ok (ORef (length h)))
  | Some (Sum KEps _) => (h ++ [AsIdx r], Ok (ORef (length h)))
  | Some (Leaf KEps _ _) => (h, Err InvalidParameters)
  | _ => (h, Err AttributeError)
  end.

Definition oplus (a b : option C) : option C :=
  let? x := a in let? y := b in Some (x + y).
Definition osum (l : list (option C)) : option C := fold_left oplus l (Some (RtoC 0)).

(** dielectric_function of a dielectric dispersion, refractive_index of an index dispersion
    (base_dispersion.py:364-368, 407-411: Python's sum starts from 0; 250-252 for as_index).
    The recursion over object references needs a bound; four levels are enough for every
    reachable heap ([Proof/DispAddP.v], eval_stable). *)
Fixpoint eval (n : nat) (h : heap) (r : nat) (lbda : R) : option C :=
  match n with
  | O => None
  | S n' =>
      match nth_error h r with
      | None => None
      | Some (Leaf _ _ v) => v lbda
      | Some (Sum _ parts) => osum (map (fun p => eval n' h p lbda) parts)
      | Some (AsIdx src) => let? e := eval n' h src lbda in Some (Csqrt e)
      end
  end.

Definition value (h : heap) (r : nat) (lbda : R) : option C := eval 4 h r lbda.

(** base_dispersion.py:112-116 get_dielectric: dielectric_function of any dispersion; 310-311
    for index dispersions; 249 for as_index, whose method is that of the source. *)
Definition get_dielectric (h : heap) (r : nat) (lbda : R) : option C :=
  match nth_error h r with
  | None => None
  | Some (AsIdx src) => value h src lbda
  | Some o => match okind o with
              | KEps => value h r lbda
              | KIdx => let? n := value h r lbda in Some (n * n)
              end
  end.

(** base_dispersion.py:118-125 get_refractive_index *)
Definition get_refractive_index (h : heap) (r : nat) (lbda : R) : option C :=
  match nth_error h r with
  | None => None
  | Some o => match okind o with
              | KIdx => value h r lbda
              | KEps => let? e := get_dielectric h r lbda in Some (Csqrt e)
              end
  end.

(** What a user can do with dispersions. *)
Inductive cmd :=
| CNew (k : kind) (c : lclass) (v : R -> option C)   (* construct a single dispersion *)
| CSum (k : kind) (ops : list operand)               (* DispersionSum(...) *)
| CAsIndex (r : nat)
| CAdd (l r : operand).

Definition exec (h : heap) (c : cmd) : heap :=
  match c with
  | CNew KIdx LPseudo _ => h        (* there is no such class *)
  | CNew k c v => h ++ [Leaf k c v]
  | CSum k ops => fst (new_sum h k ops)
  | CAsIndex r => fst (as_index h r)
  | CAdd l r => fst (py_add h l r)
  end.

(** An expression built with +; its leaves are values already at hand. Python evaluates the
    left operand first. *)
Inductive expr := EVal (o : operand) | EAdd (e1 e2 : expr).
Fixpoint eval_expr (h : heap) (e : expr) : heap * res operand :=
  match e with
  | EVal o => (h, Ok o)
  | EAdd e1 e2 =>
      match eval_expr h e1 with
      | (h1, Err x) => (h1, Err x)
      | (h1, Ok a) =>
          match eval_expr h1 e2 with
          | (h2, Err x) => (h2, Err x)
          | (h2, Ok b) => py_add h2 a b
          end
      end
  end.
