(** src/elli/fitting/decorator.py, decorator_psi_delta.py and decorator_mmatrix.py: what the number
    boxes and the checkboxes of the parameters show.  The clicks act on the parameters as in
    Model/FitGui.v.  The parameters have fixed bounds; names are those of the parameters at the
    start.  Of ipywidgets it is assumed that a BoundedFloatText caps its value, also its first one, by min and max
    and that its observers are called when its value changes. *)
From Coq Require Import Reals String List Arith Bool.
From Verif.Base Require Import Py.
From Verif.Model Require Import ParamsHist FitGui.
Import ListNotations.
Open Scope R_scope.
Open Scope string_scope.
Open Scope list_scope.

(** The bounds of a parameter or of a widget: None is -inf or inf *)
Record bounds := Bounds { lower : option R; upper : option R }.

(** sys.float_info.min and sys.float_info.max: the smallest positive normal number, and the largest *)
Definition float_min : R := / 2 ^ 1022.
Definition float_max : R := (2 - / 2 ^ 52) * 2 ^ 1023.

(** decorator_psi_delta.py:176-190: infinite bounds are replaced *)
Definition rho_widget (b : bounds) : bounds :=
  Bounds (Some (match lower b with None => float_min | Some a => a end))
         (Some (match upper b with None => float_max | Some a => a end)).
(** decorator_mmatrix.py:110-116 *)
Definition mm_widget (b : bounds) : bounds := b.

(** ipywidgets BoundedFloatText: min(max(value, self.min), self.max) if outside *)
Definition cap (b : bounds) (v : R) : R :=
  let v1 := match lower b with Some a => Rmax v a | None => v end in
  match upper b with Some a => Rmin v1 a | None => v1 end.

(** The object and the values in its number boxes *)
Record panel := Panel { p_gui : gui; p_box : string -> option R }.

(** decorator.py:181-191 update_widgets *)
Definition update_widgets (w : string -> bounds) (g : gui) (box : string -> option R) : string -> option R :=
  fun k => match box k, shown g k with
           | Some _, Some v => Some (cap (w k) v)
           | b, _ => b
           end.

(** decorator_psi_delta.py:168-193, decorator_mmatrix.py:102-119: a box for each parameter *)
Definition create (w : string -> bounds) (g : gui) : panel :=
  Panel g (fun k => option_map (cap (w k)) (shown g k)).

Inductive action := Type_in (k : string) (v : R) | Press (c : click).

(** A number typed into a box, or a button.  The observer of the box (decorator.py:168-179) is
    called with the capped value if the value changes; the buttons (122-166) update the boxes. *)
Definition act (w : string -> bounds) (p : panel) (a : action) : panel :=
  match a with
  | Type_in k v =>
      match p_box p k with
      | None => p
      | Some old =>
          let v1 := cap (w k) v in
          if Req_EM_T old v1 then p
          else Panel (fst (change_widget (p_gui p) k v1)) (fun j => if String.eqb j k then Some v1 else p_box p j)
      end
  | Press c =>
      let g := fst (on_click (p_gui p) c) in Panel g (update_widgets w g (p_box p))
  end.

Definition acts (w : string -> bounds) (p : panel) (l : list action) : panel := fold_left (act w) l p.

(** The attribute vary of the parameters.  It lives in the same Parameter objects as the value, so
    that it is copied and shared in the same way: the same functions as for the values are run on
    a heap that holds 1 for a varied parameter and 0 for a fixed one. *)
Definition flag (b : bool) : R := if b then 1 else 0.
Record vary_panel := VaryPanel { v_gui : gui; v_box : string -> option bool }.

(** decorator.py:118-120 set_vary_param *)
Definition set_vary_param (g : gui) (k : string) (b : bool) : gui :=
  let h1 := match lookup (g_initial g) k with Some a => hset (g_heap g) a (flag b) | None => g_heap g end in
  let h2 := match lookup (cur (g_params g)) k with Some a => hset h1 a (flag b) | None => h1 end in
  mkgui h2 (g_params g) (g_last g) (g_fitted g) (g_initial g).

Inductive vary_action := Toggle (k : string) (b : bool) | Value (k : string) | FitAll | UndoVary | RedoVary | InitialVary.

(** What the actions do to the flags: a new value leaves them as they are, and the parameters that lmfit's
    minimize returns have the flags of those it was given. *)
Definition act_vary (p : vary_panel) (a : vary_action) : vary_panel :=
  let g := v_gui p in
  let kept k := match shown g k with Some x => x | None => 0 end in
  match a with
  | Toggle k b =>
      match v_box p k with
      | None => p
      | Some _ => VaryPanel (set_vary_param g k b) (fun j => if String.eqb j k then Some b else v_box p j)
      end
  | Value k => VaryPanel (fst (change_widget g k (kept k))) (v_box p)
  | FitAll => VaryPanel (fit_button g kept) (v_box p)
  | UndoVary => VaryPanel (undo_button g) (v_box p)
  | RedoVary => VaryPanel (redo_button g) (v_box p)
  | InitialVary => VaryPanel (initial_button g) (v_box p)
  end.
Definition acts_vary (p : vary_panel) (l : list vary_action) : vary_panel := fold_left act_vary l p.

(** decorator_psi_delta.py:168-175: a checkbox for each parameter *)
Definition create_vary (g : gui) (vary : string -> bool) : vary_panel :=
  VaryPanel g (fun k => option_map (fun _ => vary k) (shown g k)).
