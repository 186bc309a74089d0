(** C03, C05, C43, C44, C60: the quantities of a Result at one wavelength. *)
From Coq Require Import Reals ZArith List Lra Lia.
From Coquelicot Require Import Complex.
From Verif.Base Require Import Py Cx Mat.
From Verif.Model Require Import DeltaRange Ellips.
From Verif.Spec Require Import Angle Light.
From Verif.Proof Require Import DeltaRangeP EllipsP MuellerP MuellerP2.
Import ListNotations.
Open Scope R_scope.
Open Scope C_scope.

(** C03: rho is the ratio of the two components of the reflected Jones vector. *)
Theorem C03_rho_is_field_ratio : forall (J : mat) (E : nat -> C) (z : C),
  rho (IZR (-180), IZR 180) J E = Some z <->
  J 1%nat 1%nat <> 0 /\
  (let p := J 0%nat 0%nat * E 0%nat + J 0%nat 1%nat * E 1%nat in
   let s := J 1%nat 0%nat * E 0%nat + J 1%nat 1%nat * E 1%nat in s <> 0 /\ z = p / s).
Proof. exact rho_ratio. Qed.
Print Assumptions C03_rho_is_field_ratio.

(** C03, for the ranges that start at 0, -180 or -360 (among them the default and the folded
    range): psi is in [0, 90), delta in the turn, and they determine rho.  The full claim is
    for every accepted range; the other ranges are refuted below. *)
Theorem C03_psi_delta_rho_partial : forall (l u : Z) (J : mat) (E : nat -> C) (z : C),
  allowed_range l u -> (l = 0 \/ l = -180 \/ l = -360)%Z ->
  rho (IZR l, IZR u) J E = Some z ->
  exists p d, psi (IZR l, IZR u) J E = Some p /\ delta (IZR l, IZR u) J E = Some d /\
    (0 <= p < 90)%R /\ in_turn (IZR l) d /\ is_rho p d z.
Proof. exact result_consistent. Qed.
Print Assumptions C03_psi_delta_rho_partial.

(** C03: in the folded range (0, 180) delta is between 0 and 180 degrees. *)
Theorem C03_folded_range : forall (J : mat) (E : nat -> C) (z : C) (d : R),
  rho (0, 180)%R J E = Some z -> delta (0, 180)%R J E = Some d ->
  (Im z <= 0)%R /\ (0 <= d <= 180)%R.
Proof. exact result_folded_range. Qed.

(** C03: for a non-zero rho, delta describes rho for exactly three lower bounds. *)
Theorem C03_consistent_iff : forall (l u : Z) (J : mat) (E : nat -> C) (z : C) (p d : R),
  allowed_range l u -> rho (IZR l, IZR u) J E = Some z -> z <> 0 ->
  psi (IZR l, IZR u) J E = Some p -> delta (IZR l, IZR u) J E = Some d ->
  (is_rho p d z <-> (l = 0 \/ l = -180 \/ l = -360)%Z).
Proof. exact result_consistent_iff. Qed.

Definition J_ex : mat := mat_of [[Ci; RtoC 0]; [RtoC 0; RtoC 2]].
Definition E_ex : nat -> C := vec_of [RtoC 1; RtoC 1].

(** A non-trivial case: rho = i/2, so delta is 270 degrees or -90 degrees. *)
Example C03_example : rho (IZR (-180), IZR 180) J_ex E_ex = Some (Ci / 2) /\
  exists p d, psi (IZR (-180), IZR 180) J_ex E_ex = Some p /\
    delta (IZR (-180), IZR 180) J_ex E_ex = Some d /\ is_rho p d (Ci / 2).
Proof.
  assert (N : (2 : C) <> 0) by (apply C_of_R_neq; lra).
  assert (H : rho (IZR (-180), IZR 180) J_ex E_ex = Some (Ci / 2)).
  { apply C03_rho_is_field_ratio. unfold J_ex, E_ex, mat_of, vec_of; simpl.
    split; [auto|]. split.
    - intros K. apply N. rewrite <- K. ring.
    - field. auto. }
  split; [exact H|].
  destruct (C03_psi_delta_rho_partial (-180) 180 J_ex E_ex (Ci / 2)) as (p & d & A & B & _ & _ & D);
    eauto. right; lia.
Qed.

(** C03 refuted for the accepted range (-90, 270). *)
Theorem C03_psi_delta_rho_refuted : exists (l u : Z) (J : mat) (E : nat -> C) (z : C) (p d : R),
  allowed_range l u /\ rho (IZR l, IZR u) J E = Some z /\ z <> 0 /\
  psi (IZR l, IZR u) J E = Some p /\ delta (IZR l, IZR u) J E = Some d /\ ~ is_rho p d z.
Proof.
  assert (A : allowed_range (-90) 270) by (right; lia).
  assert (H : rho (IZR (-90), IZR 270) J_ex E_ex = Some (Ci / 2)).
  { rewrite <- (proj1 C03_example). unfold rho, obind. destruct rho_raw; auto.
    f_equal. rewrite !fold_id; auto; left; simpl; apply IZR_neq; lia. }
  assert (N : Ci / 2 <> 0).
  { apply Cdiv_neq0; [apply Ci_neq0|apply C_of_R_neq; lra]. }
  exists (-90)%Z, 270%Z, J_ex, E_ex, (Ci / 2), (psi_of (Ci / 2)),
    (delta_of (IZR (-90), IZR 270) (Ci / 2)).
  unfold psi, delta, obind. rewrite H. repeat split; auto.
  intros K. apply (consistent_iff (-90) 270) in K; auto. lia.
Qed.

(** C03: the matrix form of delta is not folded in the range (0, 180). *)
Theorem C03_delta_matrix_folded_refuted : exists (J : mat) (d : R),
  delta_matrix (0, 180)%R J 0%nat 0%nat = Some d /\ ~ (0 <= d <= 180)%R.
Proof. exists Jquarter, 270%R. split; [exact delta_matrix_unfolded|lra]. Qed.

(** C43: the complex product is real, so that nothing is lost by taking the real part. *)
Theorem C43_real : forall (m : mat) i j, (i < 4)%nat -> (j < 4)%nat ->
  Im (mueller_complex m i j) = 0%R.
Proof. exact mueller_complex_real. Qed.
Print Assumptions C43_real.

(** C43: the Mueller matrix exists exactly when r_ss is not zero, and then M11 = 1. *)
Theorem C43_defined : forall J : mat,
  J 1%nat 1%nat <> 0 <-> exists M, mueller_matrix J = Some M.
Proof. exact mueller_total. Qed.

Theorem C43_normalised : forall (J : mat) M, mueller_matrix J = Some M -> M 0%nat 0%nat = 1%R.
Proof. exact mueller_M11. Qed.

(** C43: it is non-depolarising. *)
Theorem C43_nondepolarising : forall (J : mat) M, mueller_matrix J = Some M ->
  sum_f_R0 (fun i => sum_f_R0 (fun j => M i j * M i j)%R 3) 3 = 4%R.
Proof. exact mueller_nondep. Qed.
Print Assumptions C43_nondepolarising.

(** C43: it maps the Stokes vector of incident light to that of the reflected light, divided
    by the power reflected from unpolarised light. *)
Theorem C43_stokes : forall (J : mat) M (x y : C) (i : nat),
  mueller_matrix J = Some M -> (i < 4)%nat ->
  sum_f_R0 (fun j => M i j * stokes x y j)%R 3 =
  (stokes (J 0%nat 0%nat * x + J 0%nat 1%nat * y)%C (J 1%nat 0%nat * x + J 1%nat 1%nat * y)%C i
   / unpolarised_power (J 0 0)%nat (J 0 1)%nat (J 1 0)%nat (J 1 1)%nat)%R.
Proof. exact mueller_stokes_action. Qed.
Print Assumptions C43_stokes.

(** C43: the usual table for a sample without polarisation conversion.  The sign of the
    elements M34 and M43 is that of the library's delta. *)
Theorem C43_isotropic_table : forall (J : mat) M (p d : R),
  J 0%nat 1%nat = 0 -> J 1%nat 0%nat = 0 -> mueller_matrix J = Some M ->
  is_rho p d (J 0%nat 0%nat / J 1%nat 1%nat) -> (0 <= p < 90)%R ->
  let N := cos (2 * rad p) in
  let Cc := (sin (2 * rad p) * cos (rad d))%R in
  let S := (sin (2 * rad p) * sin (rad d))%R in
  forall i j, (i < 4)%nat -> (j < 4)%nat ->
  M i j = nth j (nth i
    [[1; - N; 0; 0]; [- N; 1; 0; 0]; [0; 0; Cc; - S]; [0; 0; - - S; Cc]] nil)%R 0%R.
Proof. exact mueller_isotropic. Qed.
Print Assumptions C43_isotropic_table.

Example C43_example : exists M, mueller_matrix J_ex = Some M /\
  M 0%nat 1%nat = (- (3 / 5))%R /\ M 2%nat 3%nat = (4 / 5)%R.
Proof.
  assert (N : (2 : C) <> 0) by (apply C_of_R_neq; lra).
  destruct (proj1 (C43_defined J_ex)) as [M H]; [exact N|].
  exists M. split; [exact H|].
  pose proof (mueller_val _ _ H) as V. rewrite !V.
  rewrite !mueller_complex_table by lia.
  unfold mueller_table, power2, mdivc, J_ex, mat_of, Cnorm2, Ci; simpl.
  split; field.
Qed.

(** C05 refuted: for r_pp = r_ss (psi = 45, delta = 0 degrees) the simulation gives the
    identity, the conversion gives M33 = M34. *)
Theorem C05_psi_delta_to_mueller_refuted : exists (J : mat) M (p d : R),
  J 0%nat 1%nat = 0 /\ J 1%nat 0%nat = 0 /\ mueller_matrix J = Some M /\
  (0 <= p < 90)%R /\ is_rho p d (J 0%nat 0%nat / J 1%nat 1%nat) /\
  exists i j, (i < 4)%nat /\ (j < 4)%nat /\ psi_delta_to_mueller p d i j <> M i j.
Proof. exact psi_delta_refuted. Qed.
Print Assumptions C05_psi_delta_to_mueller_refuted.

(** C05: how often it is wrong: whenever cos(delta) and -sin(delta) differ and psi is not 0. *)
Theorem C05_wrong_whenever : forall (J : mat) M (p d : R),
  J 0%nat 1%nat = 0 -> J 1%nat 0%nat = 0 -> mueller_matrix J = Some M ->
  (0 < p < 90)%R -> is_rho p d (J 0%nat 0%nat / J 1%nat 1%nat) ->
  cos (rad d) <> (- sin (rad d))%R ->
  ~ (forall i j, (i < 4)%nat -> (j < 4)%nat -> psi_delta_to_mueller p d i j = M i j).
Proof. exact psi_delta_wrong. Qed.

(** C44: circular light of handedness k is reflected to the combination of circular vectors
    that column k of jones_matrix_rc gives (with the sign of the mirrored frame). *)
Theorem C44_reflection : forall (J : mat) k i, (k < 2)%nat -> (i < 2)%nat ->
  J i 0%nat * circ_vec k 0 + J i 1%nat * circ_vec k 1 =
  - (jones_matrix_rc J 0%nat k * circ_vec 0 i + jones_matrix_rc J 1%nat k * circ_vec 1 i).
Proof. exact circ_refl. Qed.
Print Assumptions C44_reflection.

Theorem C44_transmission : forall (J : mat) k i, (k < 2)%nat -> (i < 2)%nat ->
  J i 0%nat * circ_vec k 0 + J i 1%nat * circ_vec k 1 =
  jones_matrix_tc J 0%nat k * circ_vec 0 i + jones_matrix_tc J 1%nat k * circ_vec 1 i.
Proof. exact circ_trans. Qed.

(** C44: the power in the circular basis equals the power of the reflected field, for each
    handedness, and in total. *)
Theorem C44_power_per_handedness : forall (J : mat) k, (k < 2)%nat ->
  (Rc_matrix J 0%nat k + Rc_matrix J 1%nat k =
   Cnorm2 (J 0%nat 0%nat * circ_vec k 0 + J 0%nat 1%nat * circ_vec k 1)%C +
   Cnorm2 (J 1%nat 0%nat * circ_vec k 0 + J 1%nat 1%nat * circ_vec k 1)%C)%R.
Proof. exact circ_power_col'. Qed.

Theorem C44_total_power : forall (pc : R) (J : mat),
  (Rc_matrix J 0 0 + Rc_matrix J 0 1 + Rc_matrix J 1 0 + Rc_matrix J 1 1 =
   R_matrix J 0 0 + R_matrix J 0 1 + R_matrix J 1 0 + R_matrix J 1 1)%R /\
  (Tc_matrix pc J 0 0 + Tc_matrix pc J 0 1 + Tc_matrix pc J 1 0 + Tc_matrix pc J 1 1 =
   T_matrix pc J 0 0 + T_matrix pc J 0 1 + T_matrix pc J 1 0 + T_matrix pc J 1 1)%R.
Proof. intros pc J. exact (conj (circ_power_total J) (circ_power_total_t pc J)). Qed.
Print Assumptions C44_total_power.

(** C44: a mirror at normal incidence (r_pp = -r_ss) only swaps the handedness. *)
Theorem C44_normal_incidence : forall (J : mat) (r : C),
  J 0%nat 0%nat = - r -> J 1%nat 1%nat = r -> J 0%nat 1%nat = 0 -> J 1%nat 0%nat = 0 ->
  jones_matrix_rc J 0%nat 0%nat = 0 /\ jones_matrix_rc J 1%nat 1%nat = 0 /\
  jones_matrix_rc J 0%nat 1%nat = r /\ jones_matrix_rc J 1%nat 0%nat = r.
Proof. exact circ_normal_r. Qed.

Example C44_example : let J := mat_of [[- RtoC 2; RtoC 0]; [RtoC 0; RtoC 2]] in
  jones_matrix_rc J 0%nat 1%nat = 2 /\ Rc_matrix J 0 0 = 0%R.
Proof.
  intros J. destruct (C44_normal_incidence J 2) as (A & _ & B & _); try reflexivity.
  split; [exact B|]. unfold Rc_matrix. rewrite R_matrix_norm, A. unfold Cnorm2; simpl; ring.
Qed.

(** C60: Result.R is the reflectance for unpolarised light of samples without polarisation
    conversion.  The full claim is for all samples; it is refuted below. *)
Theorem C60_R_unpolarised_partial : forall J : mat, J 0%nat 1%nat = 0 -> J 1%nat 0%nat = 0 ->
  Rtot J = unpolarised_power (J 0 0)%nat (J 0 1)%nat (J 1 0)%nat (J 1 1)%nat.
Proof. exact Rtot_unpolarised. Qed.
Print Assumptions C60_R_unpolarised_partial.

(** C60: what is lost is exactly the mean of the cross-polarised power. *)
Theorem C60_R_deficit : forall J : mat,
  (unpolarised_power (J 0 0)%nat (J 0 1)%nat (J 1 0)%nat (J 1 1)%nat - Rtot J =
   (Cnorm2 (J 0%nat 1%nat) + Cnorm2 (J 1%nat 0%nat)) / 2)%R.
Proof. exact Rtot_deficit. Qed.

(** C60 refuted: a half-wave plate that swaps p and s reflects everything, R is 0. *)
Theorem C60_R_unpolarised_refuted : exists J : mat,
  Rtot J = 0%R /\ unpolarised_power (J 0 0)%nat (J 0 1)%nat (J 1 0)%nat (J 1 1)%nat = 1%R.
Proof.
  exists (mat_of [[RtoC 0; RtoC 1]; [RtoC 1; RtoC 0]]).
  unfold Rtot, unpolarised_power. rewrite !R_matrix_norm. unfold Cnorm2, mat_of; simpl.
  split; field.
Qed.

(** A plate that reflects half of the p amplitude and all of s, and one that also mixes them. *)
Example C60_example :
  (Rtot (mat_of [[RtoC (1 / 2); RtoC 0]; [RtoC 0; RtoC 1]]) = 5 / 8)%R /\
  (Rtot (mat_of [[RtoC (1 / 2); RtoC (1 / 2)]; [RtoC 0; RtoC (1 / 2)]]) = 1 / 4)%R.
Proof.
  unfold Rtot. rewrite !R_matrix_norm. unfold Cnorm2, mat_of; simpl. split; field.
Qed.
