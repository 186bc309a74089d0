(** src/elli/structure.py: layers and structures.  [T] is the type of permittivity tensors at
    the wavelength of interest; a thickness is a real number or infinite. *)
From Coq Require Import Reals List ZArith.
From Coquelicot Require Import Complex.
From Verif.Base Require Import Py Cx Mat.
From Verif.Model Require Import Units Rotation.
Import ListNotations.
Open Scope R_scope.
Open Scope py_scope.

Section Layers.
Variable T : Type.

(** Layer objects that passed their constructor: Layer (147-203), InhomogeneousLayer (205-271,
    the tensor at the depth z is a function), RepeatedLayers (53-144). *)
Inductive layer :=
| Homogeneous (thickness : R) (tensor : T)
| Inhomogeneous (thickness : R) (div : nat) (tensor : R -> T)
| Repeated (layers : list layer) (repetitions before after : nat).

(** structure.py:161-163, 167-176 Layer; the type of the material is not checked here *)
Definition make_layer (tensor : T) (thickness : R) : res layer :=
  if Rlt_dec thickness 0 then Err ValueError else Ok (Homogeneous thickness tensor).

(** structure.py:213-222, 237-246: set_thickness and set_divisions of inhomogeneous layers; any
    other setter of the subclasses accepts its argument *)
Definition make_inhomogeneous (tensor : R -> T) (thickness : R) (div : Z) : res layer :=
  if Rlt_dec thickness 0 then Err ValueError
  else if (div <? 1)%Z then Err ValueError
  else Ok (Inhomogeneous thickness (Z.to_nat div) tensor).

(** structure.py:61-120 RepeatedLayers.__init__, set_repetitions, set_layers *)
Definition make_repeated (layers : list layer) (repetitions before after : Z) : res layer :=
  if (repetitions <? 1)%Z then Err ValueError
  else if (before <? 0)%Z then Err ValueError
  else if (after <? 0)%Z then Err ValueError
  else Ok (Repeated layers (Z.to_nat repetitions) (Z.to_nat before) (Z.to_nat after)).

(** structure.py:248-254 get_slices: np.linspace(0, thickness, div + 1) *)
Definition get_slices (thickness : R) (div : nat) : list R :=
  map (fun k => INR k * (thickness / INR div)) (seq 0 (div + 1)).

(** np.diff, and the mean of neighbours of structure.py:272 *)
Fixpoint diff (z : list R) : list R :=
  match z with a :: ((b :: _) as z') => (b - a) :: diff z' | _ => [] end.
Fixpoint zmid (z : list R) : list R :=
  match z with a :: ((b :: _) as z') => ((a + b) / 2) :: zmid z' | _ => [] end.

(** Python slices of a list: l[-n:] for n > 0, and l[:n] *)
Definition last_n {A} (n : nat) (l : list A) : list A := skipn (length l - n) l.

(** n * l for lists *)
Fixpoint times {A} (n : nat) (l : list A) : list A :=
  match n with O => [] | S n => l ++ times n l end.

(** get_permittivity_profile of the three classes: structure.py:186-198, 260-274, 122-144 *)
Fixpoint profile (l : layer) : list (R * T) :=
  match l with
  | Homogeneous d eps => [(d, eps)]
  | Inhomogeneous d div tensor =>
      let z := get_slices d div in
      combine (diff z) (map tensor (zmid z))
  | Repeated ls reps before after =>
      let layers := (fix all (ls : list layer) : list (R * T) :=
        match ls with [] => [] | l :: ls => profile l ++ all ls end) ls in
      let before' := match before with O => [] | S _ => last_n before layers end in
      before' ++ times reps layers ++ firstn after layers
  end.

(** structure.py:467-486 Structure.get_permittivity_profile; [None] is np.inf *)
Record structure := Structure { front_material : T; layers : list layer; back_material : T }.

Definition structure_profile (s : structure) : list (option R * T) :=
  (None, front_material s) ::
  fold_left (fun acc l => acc ++ map (fun p => (Some (fst p), snd p)) (profile l)) (layers s) []
  ++ [(None, back_material s)].
End Layers.
Arguments Homogeneous {T}. Arguments Inhomogeneous {T}. Arguments Repeated {T}.
Arguments make_layer {T}. Arguments make_inhomogeneous {T}. Arguments make_repeated {T}.
Arguments profile {T}. Arguments Structure {T}. Arguments structure_profile {T}.
Arguments front_material {T}. Arguments layers {T}. Arguments back_material {T}.

(** utils.py:20 E_Z *)
Definition E_Z : nat -> R := fun i => match i with 2%nat => 1 | _ => 0 end.

(** structure.py:310-322 TwistedLayer.get_tensor; the quotient is nan for zero thickness *)
Definition twisted_tensor (eps : mat) (thickness angle z : R) : option mat :=
  let? a := rdiv (angle * z) thickness in
  let m_r := rotation_v_theta E_Z a in
  Some (mmul 3 (mmul 3 m_r eps) (mtr m_r)).

(** structure.py:384-397 VaryingMixtureLayer.get_tensor *)
Definition varying_tensor {A} (get_tensor_fraction : R -> A) (fraction_modulation : R -> R)
    (thickness z : R) : option A :=
  let? q := rdiv z thickness in
  Some (get_tensor_fraction (fraction_modulation q)).
