(** What Solver4x4 does at one wavelength, written down without arrays: every material has a tensor of
    numbers at this wavelength, and these are handed to the model of Solver4x4 at one wavelength. *)
From Coq Require Import Reals List.
From Coquelicot Require Import Complex.
From Coq Require Import List.
From Verif.Base Require Import Py Cx Mat Det.
From Verif.Model Require Import Units Ellips Structure Mixture Solver2 Solver4 Spectrum Spectrum4.
From Verif.Spec Require Import Pointwise.
Import ListNotations.
Open Scope R_scope.
Open Scope py_scope.

(** The nine elements have the values [e] *)
Definition has_tensor (m : material) (x : R) (e : mat) : Prop :=
  exists t, tensor_at m x = Ok t /\ forall i j, (i < 3)%nat -> (j < 3)%nat -> t i j = Some (e i j).
(** The sample has these tensors: incident half space, layers with their thickness, exit half space *)
Definition sample_at (s : structure material) (x : R) (f : mat) (ls : list (R * mat)) (b : mat) : Prop :=
  Forall2 (fun l l' => fst l = fst l' /\ has_tensor (snd l) x (snd l')) (structure_profile s)
    ((None, f) :: map (fun l => (Some (fst l), snd l)) ls ++ [(None, b)]).
(** The tensors can be computed, and element i j of one of them is nan *)
Definition computable (s : structure material) (x : R) : Prop :=
  forall l, In l (structure_profile s) -> is_ok (tensor_at (snd l) x).
Definition is_nan (m : material) (x : R) (i j : nat) : Prop := exists t, tensor_at m x = Ok t /\ t i j = None.
(** A material of a layer, not of a half space *)
Definition inner_in (s : structure material) (m : material) : Prop := exists d, In (Some d, m) (structure_profile s).

(** The propagators at one wavelength; [eig] stands for np.linalg.eig *)
Definition single (eig : mat -> option ((nat -> C) * mat)) (p : propagator) (delta : mat) (t x : R) : option mat :=
  match p with
  | Linear => propagator_linear delta t x
  | Expm => propagator_expm delta t x
  | Eig => let? qw := eig delta in propagator_eig qw t x
  end.
(** It looks at the sixteen elements of its argument only *)
Definition elementwise (eig : mat -> option ((nat -> C) * mat)) : Prop := forall A B, meq 4 A B -> eig A = eig B.

(** The result of one wavelength: the arrays have one entry, with the amplitudes of [q], or without a value *)
Definition entry_of (r : result4_arrays) (q : option result4) : Prop :=
  exists jr jt pw, r = Result4Arrays [jr] [jt] [pw] /\
    match q with
    | Some q => (forall i j, (i < 2)%nat -> (j < 2)%nat -> jr i j = Some (jones_r4 q i j) /\ jt i j = Some (jones_t4 q i j)) /\ pw = power_correction4 q
    | None => forall i j, (i < 2)%nat -> (j < 2)%nat -> jr i j = None /\ jt i j = None
    end.

(** Between isotropic half spaces: the transfer matrix and the block of it that the solver inverts *)
Definition transfer (prop : mat -> R -> R -> option mat) (th x : R) (f : mat) (ls : list (R * mat)) (b : mat) : option mat :=
  let k := reduced_k_x th f in
  let? e := transition_matrix_iso_halfspace k b false in
  let? m := layer_product prop k x ls e in
  let? a := transition_matrix_iso_halfspace k f true in
  Some (mmul 4 a m).
Definition incident_block (m : mat) : mat := mat_of [[m 2%nat 2%nat; m 2%nat 0%nat]; [m 0%nat 2%nat; m 0%nat 0%nat]].
