(** src/elli/formula_parser/parser.py and src/elli/dispersions/formula.py: evaluation of a parsed
    formula.  Parsing the text is in Model/FormulaText.v.
    The model holds for every kind of numbers: Python's and numpy's arithmetic are given by a record
    [arith].  numpy's functions and operators work element by element, with broadcasting.
    lark wraps an exception of a callback in VisitError; the wrapped exception is given here. *)
From Coq Require Import String List Arith Bool.
From Verif.Base Require Import Py.
Import ListNotations.
Open Scope string_scope.
Open Scope list_scope.
Open Scope py_scope.

Inductive binop := Add | Sub | Mul | Div | Pow.

(** The tree of a formula: dispersion_function_grammar.lark:7-42.  Inside sum[...] there is no
    other sum. *)
Inductive rexpr :=
| RNum (s : string) | RName (s : string) | RBuiltin (s : string) | RFunc (f : string) (e : rexpr)
| RBin (o : binop) (a b : rexpr).
Inductive expr :=
| ENum (s : string) | EName (s : string) | EBuiltin (s : string) | EFunc (f : string) (e : expr)
| EBin (o : binop) (a b : expr) | ESum (e : rexpr).

(** dispersion_function_grammar.lark:1-5; a kkr term is an expression of its own *)
Inductive repr := Eps | Index.
Inductive formula := Assign (r : repr) (e : expr) | AssignKkr (r : repr) (e : expr).

(** The numbers: [sbin], [sfn] for two Python (or numpy) scalars, which may raise, [bin], [fn] for
    elements of arrays.  [total] is numpy's sum of a row. *)
Record arith := {
  elt : Type;
  number : string -> elt;
  constant : string -> elt;
  bin : binop -> elt -> elt -> elt;
  sbin : binop -> elt -> elt -> res elt;
  fn : string -> elt -> elt;
  sfn : string -> elt -> res elt;
  total : list elt -> elt }.

Section Eval.
Variable ar : arith.
Let A := elt ar.

(** Scalar; array over the wavelengths; array over the parameter sets; array over both *)
Inductive val := S (a : A) | V (l : list A) | P (l : list A) | M (l : list (list A)).

Fixpoint map2 {X Y Z : Type} (f : X -> Y -> Z) (l : list X) (m : list Y) : list Z :=
  match l, m with x :: l', y :: m' => f x y :: map2 f l' m' | _, _ => [] end.

(** parser.py:22-28 add, sub, mul, truediv, pow with numpy's broadcasting.  Arrays over the
    wavelengths do not meet arrays over the parameter sets in a tree of this grammar. *)
Definition binary (o : binop) (x y : val) : res val :=
  match x, y with
  | S a, S b => rmap S (sbin ar o a b)
  | S a, V l => Ok (V (map (bin ar o a) l))
  | V l, S b => Ok (V (map (fun a => bin ar o a b) l))
  | V l, V m => Ok (V (map2 (bin ar o) l m))
  | S a, P l => Ok (P (map (bin ar o a) l))
  | P l, S b => Ok (P (map (fun a => bin ar o a b) l))
  | P l, P m => Ok (P (map2 (bin ar o) l m))
  | S a, M l => Ok (M (map (map (bin ar o a)) l))
  | M l, S b => Ok (M (map (map (fun a => bin ar o a b)) l))
  | P l, M m => Ok (M (map (map2 (bin ar o) l) m))
  | M l, P m => Ok (M (map (fun r => map2 (bin ar o) r m) l))
  | M l, M m => Ok (M (map2 (map2 (bin ar o)) l m))
  | V _, P _ | V _, M _ | P _, V _ | M _, V _ => Err ValueError
  end.

(** parser.py:97-112 func: np.heaviside needs two arguments and is called with one *)
Definition functions : list string := ["sin"; "cos"; "tan"; "sqrt"; "dawsn"; "ln"; "log"; "heaviside"].
Definition func (f : string) (x : val) : res val :=
  if existsb (String.eqb f) functions then
    if f =? "heaviside" then Err TypeError
    else match x with
         | S a => rmap S (sfn ar f a)
         | V l => Ok (V (map (fn ar f) l))
         | P l => Ok (P (map (fn ar f) l))
         | M l => Ok (M (map (map (fn ar f)) l))
         end
  else Err ValueError.

(** parser.py:114-128 builtin *)
Definition builtins : list string := ["1j"; "pi"; "eps_0"; "hbar"; "h"; "c"].
Definition builtin (n : string) : res val :=
  if existsb (String.eqb n) builtins then Ok (S (constant ar n)) else Err ValueError.

(** parser.py:130-132 sum_expr: a float has no method sum, an array over the parameter sets has no
    axis 1 *)
Definition sum_expr (x : val) : res val :=
  match x with
  | M l => Ok (V (map (total ar) l))
  | P _ | V _ => Err AxisError
  | S _ => Err AttributeError
  end.

(** Python's d[k] *)
Definition get {X} (d : list (string * X)) (k : string) : option X :=
  match find (fun p => fst p =? k) d with Some p => Some (snd p) | None => None end.

Variables (axis : string) (lbda : list A) (single : list (string * A)) (rep : list (string * list A)).

(** parser.py:30-50 _check_and_set: the number of sets *)
Definition n_sets : nat := match rep with [] => 0 | p :: _ => length (snd p) end.
Definition check_sets : bool := forallb (fun p => length (snd p) =? n_sets)%nat rep.

(** parser.py:134-142 single_param_name *)
Definition single_param_name (n : string) : res val :=
  if n =? axis then Ok (V lbda)
  else match get single n with Some a => Ok (S a) | None => Err ValueError end.

(** parser.py:144-157 param_name: np.einsum("i,j->ij", values, ones(n)) repeats each value *)
Definition param_name (n : string) : res val :=
  if n =? axis then Ok (M (map (fun x => repeat x n_sets) lbda))
  else match get single n with
       | Some a => Ok (S a)
       | None => match get rep n with Some l => Ok (P l) | None => Err ValueError end
       end.

(** The transformer calls the callbacks bottom up, from left to right. *)
Fixpoint eval_r (e : rexpr) : res val :=
  match e with
  | RNum s => Ok (S (number ar s))
  | RName n => param_name n
  | RBuiltin n => builtin n
  | RFunc f a => let* x := eval_r a in func f x
  | RBin o a b => let* x := eval_r a in let* y := eval_r b in binary o x y
  end.

Fixpoint eval (e : expr) : res val :=
  match e with
  | ENum s => Ok (S (number ar s))
  | EName n => single_param_name n
  | EBuiltin n => builtin n
  | EFunc f a => let* x := eval a in func f x
  | EBin o a b => let* x := eval a in let* y := eval b in binary o x y
  | ESum r => let* x := eval_r r in sum_expr x
  end.

(** parser.py:59-86 __init__ and transform; parser.py:93-95 kkr_term.  (The types of the parameters
    are right in this model: floats and arrays of floats.) *)
Definition transform (f : formula) : res (repr * val) :=
  if check_sets then
    match f with
    | Assign r e => let* v := eval e in Ok (r, v)
    | AssignKkr _ e => let* v := eval e in Err NotImplementedError
    end
  else Err ValueError.

End Eval.
Arguments S {ar} _.
Arguments V {ar} _.
Arguments P {ar} _.
Arguments M {ar} _.

(** formula.py: the dispersion classes Formula (Eps) and FormulaIndex (Index).
    [f_rep] are the parameter sets of BaseDispersion.rep_params, [f_dl] is rep_params_dl, made
    once by the constructor.  [f_axis_fn] maps wavelengths in nm to values of the axis. *)
Record fobj (ar : arith) := mkfobj {
  f_formula : formula; f_axis : string; f_single : list (string * elt ar);
  f_rep : list (list (string * elt ar)); f_dl : list (string * list (elt ar));
  f_axis_fn : elt ar -> elt ar }.
Arguments mkfobj {ar}.
Arguments f_formula {ar}. Arguments f_axis {ar}. Arguments f_single {ar}. Arguments f_rep {ar}.
Arguments f_dl {ar}. Arguments f_axis_fn {ar}.

Section Sets.
Context {X : Type}.

(** formula.py:41-44: value number i of a parameter goes into set number i *)
Fixpoint put_values (k : string) (values : list X) (sets : list (list (string * X))) : list (list (string * X)) :=
  match values, sets with
  | [], _ => sets
  | v :: vs, [] => [(k, v)] :: put_values k vs []
  | v :: vs, s :: ss => (s ++ [(k, v)]) :: put_values k vs ss
  end.

(** formula.py:34-55: the loop over the repeated parameters (a dictionary: the names differ) *)
Fixpoint to_sets (rep : list (string * list X)) (len : option nat) (sets : list (list (string * X)))
  : res (list (list (string * X))) :=
  match rep with
  | [] => Ok sets
  | (k, values) :: rep' =>
      let sets' := put_values k values sets in
      match len with
      | None => to_sets rep' (Some (length values)) sets'
      | Some n => if (length values =? n)%nat then to_sets rep' len sets' else Err ValueError
      end
  end.

(** formula.py:65-70: rep_params_dl; the keys are those of the first set *)
Definition to_lists (sets : list (list (string * X))) : list (string * list X) :=
  match sets with
  | [] => []
  | s :: _ => map (fun p => (fst p, flat_map (fun t => match get t (fst p) with Some v => [v] | None => [] end) sets)) s
  end.
End Sets.

(** The unit of the axis, as pint sees it: what it measures, and 1 nm expressed in this unit *)
Inductive unit_kind (X : Type) := Length (nm : X) | Energy (nm : X) | OtherUnit.
Arguments Length {X} _. Arguments Energy {X} _. Arguments OtherUnit {X}.

(** formula.py:77-95 _set_unit_conversion *)
Definition axis_fn (ar : arith) (u : option (unit_kind (elt ar))) : res (elt ar -> elt ar) :=
  match u with
  | None => Ok (fun x => x)
  | Some (Length s) => Ok (fun x => bin ar Mul s x)
  | Some (Energy s) => Ok (fun x => bin ar Div s x)
  | Some OtherUnit => Err ValueError
  end.

(** formula.py:23-75 __init__ of Formula ([cls] = Eps) and FormulaIndex ([cls] = Index).  The calls of
    add with the sets succeed: all sets have the names of the first one.  97-108: _check_repr *)
Definition construct (ar : arith) (cls : repr) (f : formula) (axis : string) (single : list (string * elt ar))
  (rep : list (string * list (elt ar))) (u : option (unit_kind (elt ar))) : res (fobj ar) :=
  let* sets := to_sets rep None [] in
  let r := match f with Assign r _ | AssignKkr r _ => r end in
  match cls, r with
  | Eps, Eps | Index, Index =>
      let* g := axis_fn ar u in
      Ok (mkfobj f axis single sets (to_lists sets) g)
  | _, _ => Err ValueError
  end.

(** base_dispersion.py:99-110 add of a complete set of parameters *)
Definition add_set {ar} (o : fobj ar) (s : list (string * elt ar)) : fobj ar :=
  mkfobj (f_formula o) (f_axis o) (f_single o) (f_rep o ++ [s]) (f_dl o) (f_axis_fn o).

(** The wavelengths: an array, or one number *)
Inductive wavelengths (X : Type) := Array (l : list X) | Scalar (x : X).
Arguments Array {X} _. Arguments Scalar {X} _.

(** formula.py:110-116 __dispersion_function, with the check of parser.py:70-71 *)
Definition dispersion_function {ar} (o : fobj ar) (l : wavelengths (elt ar)) : res (val ar) :=
  match l with
  | Scalar _ => Err TypeError
  | Array l =>
      let* v := transform ar (f_axis o) (map (f_axis_fn o) l) (f_single o) (f_dl o) (f_formula o) in
      Ok (snd v)
  end.
