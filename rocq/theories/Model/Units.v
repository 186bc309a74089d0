(** src/elli/utils.py:201-274: unit conversions, for one value.  [c] and [h] are scipy's
    speed of light (m/s) and Planck constant (eV/Hz), passed as parameters: nothing but their
    being non-zero is used.  Division by zero is [None]. *)
From Coq Require Import Reals.
From Verif.Base Require Import Cx Mat.
Open Scope R_scope.

Section Units.
Variables c h : R.

Definition rdiv (x y : R) : option R := if Req_EM_T y 0 then None else Some (x / y).

(** utils.py:201-213 conversion_wavelength_energy *)
Definition wavelength_energy (v : R) : option R := rdiv (c * h) (v * / 10 ^ 9).
(** utils.py:216-228 conversion_frequency2energy *)
Definition frequency2energy (f : R) : R := f * h.
(** utils.py:231-243 conversion_energy2frequency *)
Definition energy2frequency (e : R) : option R := rdiv e h.
(** utils.py:246-258 conversion_wavelength_frequency *)
Definition wavelength_frequency (v : R) : option R := rdiv c (v * / 10 ^ 9).
(** utils.py:261-274 conversion_wavelength_wavenumber *)
Definition wavelength_wavenumber (v : R) : option R := rdiv (10 ^ 7) v.
End Units.

(** materials.py:52-61 Material.get_refractive_index at one wavelength: the elementwise
    principal square root of the permittivity tensor *)
Definition index_tensor (eps : mat) : mat := fun i j => Csqrt (eps i j).

(** utils.py:181-192 get_qwp_thickness; [eps] is the material's tensor at the wavelength *)
Definition qwp_thickness (eps : mat) (lbda : R) : option R :=
  let nr := fst (index_tensor eps 0%nat 0%nat) in
  rdiv lbda (4 * nr).
