(** src/elli/fitting/decorator.py and decorator_psi_delta.py: what the widgets and buttons of the
    fit decorators do to the parameters.  Drawing, the vary checkboxes and the bounds of the widgets
    are not modelled.  The same assumptions on lmfit as in Model/ParamsHist.v; lmfit.minimize
    returns a new Parameters object with the same names and arbitrary values. *)
From Coq Require Import Reals ZArith String List Arith Bool.
From Verif.Base Require Import Py.
From Verif.Model Require Import ParamsHist.
Import ListNotations.
Open Scope string_scope.
Open Scope list_scope.

Record gui := mkgui { g_heap : heap; g_params : ph; g_last : option dict; g_fitted : dict; g_initial : dict }.

(** decorator_psi_delta.py:391-400 __init__ with params a ParamsHist *)
Definition start (h : heap) (p : ph) : gui :=
  let (h1, fitted) := clone h (cur p) in
  let (h2, initial) := clone h1 (cur p) in
  mkgui h2 p None fitted initial.

Inductive click :=
| Change (k : string) (v : R)   (* a new value in the widget of parameter k *)
| Fit (f : string -> R)         (* the Fit button; f: the result of the minimisation *)
| Undo | Redo | SetInitial.

(** decorator.py:168-179 update_params *)
Definition change_widget (g : gui) (k : string) (v : R) : gui * option exn :=
  let (h1, p1) := commit (g_heap g) (g_params g) in
  match set_value h1 p1 k v with
  | Ok h2 => (mkgui h2 p1 (g_last g) (g_fitted g) (g_initial g), None)
  | Err e => (mkgui h1 p1 (g_last g) (g_fitted g) (g_initial g), Some e)
  end.

(** decorator_psi_delta.py:259-278 fit *)
Definition fit (g : gui) (f : string -> R) : gui :=
  let (h1, d) := new_dict (g_heap g) (map (fun p => (fst p, f (fst p))) (cur (g_params g))) in
  mkgui h1 (g_params g) (g_last g) d (g_initial g).

(** params.update_params(d), params_hist.py:107-115 *)
Definition update_from (h : heap) (p : ph) (d : dict) : heap * ph :=
  let (h1, p1) := commit h p in (h1, mkph (dupdate (cur p1) d) (hist p1) (maxl p1)).

(** decorator.py:122-135 fit_button_clicked, for a ParamsHist *)
Definition fit_button (g : gui) (f : string -> R) : gui :=
  let g1 := fit g f in
  let (h1, p1) := commit (g_heap g1) (g_params g1) in
  let (h2, p2) := update_from h1 p1 (g_fitted g1) in
  mkgui h2 p2 (g_last g1) (g_fitted g1) (g_initial g1).

(** decorator.py:137-155 re_undo_button_clicked *)
Definition undo_button (g : gui) : gui :=
  let '(h1, p1, l) := pop (g_heap g) (g_params g) in
  mkgui h1 p1 l (g_fitted g) (g_initial g).

Definition redo_button (g : gui) : gui :=
  match g_last g with
  | None => g
  | Some l => let (h1, p1) := update_from (g_heap g) (g_params g) l in mkgui h1 p1 None (g_fitted g) (g_initial g)
  end.

(** decorator.py:157-166 reset_to_init_params *)
Definition initial_button (g : gui) : gui :=
  let '(h1, _, l) := pop (g_heap g) (g_params g) in
  let (h2, d) := clone h1 (g_initial g) in
  mkgui h2 (mkph d [] 50) l (g_fitted g) (g_initial g).

Definition on_click (g : gui) (c : click) : gui * option exn :=
  match c with
  | Change k v => change_widget g k v
  | Fit f => (fit_button g f, None)
  | Undo => (undo_button g, None)
  | Redo => (redo_button g, None)
  | SetInitial => (initial_button g, None)
  end.

Definition clicks (g : gui) (l : list click) : gui := fold_left (fun g c => fst (on_click g c)) l g.

(** The values of the current parameters *)
Definition shown (g : gui) (k : string) : option R := value (g_heap g) (cur (g_params g)) k.
(** The stored result of the last fit, and the initial parameters *)
Definition fitted (g : gui) (k : string) : option R := value (g_heap g) (g_fitted g) k.
Definition initial (g : gui) (k : string) : option R := value (g_heap g) (g_initial g) k.

(** decorator.py:122-135 for params that are lmfit Parameters without a history: they have no
    method update_params, which is called after the fit whatever the class. *)
Definition fit_button_plain (g : gui) (f : string -> R) : gui * option exn := (fit g f, Some AttributeError).
