(** C07, C08: rotation matrices. *)
From Coq Require Import Reals Lra List Lia.
From Coquelicot Require Import Complex.
From Verif.Base Require Import Cx Mat Mexp.
From Verif.Model Require Import Ellips Rotation.
From Verif.Spec Require Import Rot.
From Verif.Proof Require Import RotationP.
Open Scope R_scope.
Open Scope C_scope.

(** C07: rotation_euler is the product of elementary rotations about z, x and z (angles in
    degrees), a proper rotation, and undone by the negated angles in reverse order. *)
Theorem C07_product : forall p n r, meq 3 (rotation_euler p n r)
  (mmul 3 (mmul 3 (rot_z (p * PI / 180)) (rot_x (n * PI / 180))) (rot_z (r * PI / 180))).
Proof.
  intros. rewrite euler_product. unfold deg2rad. unfold Rdiv. rewrite !Rmult_assoc. reflexivity.
Qed.
Print Assumptions C07_product.

Theorem C07_proper : forall p n r, proper_rotation (rotation_euler p n r).
Proof.
  intros. split; [apply rmat_real|split; [apply euler_inv_tr|apply euler_det]].
Qed.
Print Assumptions C07_proper.

Theorem C07_identity : meq 3 (rotation_euler 0 0 0) mid.
Proof. exact euler_id. Qed.
Print Assumptions C07_identity.

Theorem C07_inverse : forall p n r,
  is_inverse 3 (rotation_euler p n r) (rotation_euler (- r) (- n) (- p)).
Proof.
  intros. eapply inv_meq; [reflexivity|apply euler_inverse|apply euler_inv_tr].
Qed.
Print Assumptions C07_inverse.

(** A quarter turn about z takes x to y. *)
Example C07_example : apply3 (rotation_euler 90 0 0) (fun i => if Nat.eqb i 0 then 1%R else 0%R) 1%nat = 1.
Proof.
  unfold apply3, mvec, rotation_euler, rmat_of; cbn [csum nth Nat.eqb].
  replace (deg2rad 90) with (PI / 2)%R by (unfold deg2rad; lra).
  replace (deg2rad 0) with 0%R by (unfold deg2rad; lra).
  rewrite cos_PI2, sin_PI2, cos_0, sin_0. apply C_ext; simpl; ring.
Qed.

(** C08: rotation_v_theta turns every vector about the axis (the right handed rotation
    formula), is a proper rotation, fixes the axis and composes additively. *)
Theorem C08_action : forall v theta u, unit3 v ->
  veq 3 (apply3 (rotation_v_theta v theta) u) (fun i => RtoC (turn v (theta * PI / 180) u i)).
Proof.
  intros. rewrite rotation_v_theta_rodr. replace (theta * PI / 180)%R with (deg2rad theta) by (unfold deg2rad; lra).
  now apply rodr_action.
Qed.
Print Assumptions C08_action.

Theorem C08_proper : forall v theta, unit3 v -> proper_rotation (rotation_v_theta v theta).
Proof. intros. rewrite rotation_v_theta_rodr. now apply rodr_proper. Qed.
Print Assumptions C08_proper.

Theorem C08_fixes_axis : forall v theta, unit3 v ->
  veq 3 (apply3 (rotation_v_theta v theta) v) (fun i => RtoC (v i)).
Proof.
  intros v theta Hv i Hi. rewrite rotation_v_theta_rodr, (rodr_action v _ v Hv i Hi). f_equal.
  unfold turn. unfold unit3 in Hv. rewrite Hv. unfold cross3.
  assert (i = 0 \/ i = 1 \/ i = 2)%nat as [->|[->| ->]] by lia; cbn [nth]; ring.
Qed.
Print Assumptions C08_fixes_axis.

Theorem C08_additive : forall v s t, unit3 v ->
  meq 3 (mmul 3 (rotation_v_theta v s) (rotation_v_theta v t)) (rotation_v_theta v (s + t)).
Proof.
  intros. rewrite !rotation_v_theta_rodr, deg2rad_plus. now apply rodr_plus.
Qed.
Print Assumptions C08_additive.

Theorem C08_constructors_agree : forall v theta, unit3 v ->
  meq 3 (rotation_v (fun i => theta * PI / 180 * v i)%R) (rotation_v_theta v theta).
Proof.
  intros. rewrite rotation_v_theta_rodr, <- rotation_v_scaled by auto.
  unfold deg2rad. apply mexp_meq, m_w_ext. intros. unfold Rdiv. ring.
Qed.
Print Assumptions C08_constructors_agree.

(** Beyond the claim: rotation_v is a proper rotation that fixes its argument for every vector,
    of whatever length. *)
Theorem C08_rotation_v_proper : forall v, proper_rotation (rotation_v v) /\
  veq 3 (apply3 (rotation_v v) v) (fun i => RtoC (v i)).
Proof. intros. split; [apply rotation_v_proper|apply rotation_v_fixes]. Qed.
Print Assumptions C08_rotation_v_proper.

(** The unit length is needed: nothing in rotation_v_theta normalises the axis, and half a turn
    about (0, 0, 2) is not orthogonal. *)
Theorem C08_axis_not_normalised : exists v theta, ~ proper_rotation (rotation_v_theta v theta).
Proof.
  exists (fun i => if Nat.eqb i 2 then 2%R else 0%R), 180%R. intros (_ & _ & D). revert D.
  unfold rotation_v_theta. replace (deg2rad 180) with PI by (unfold deg2rad; lra). rewrite cos_PI, sin_PI.
  unfold det3, madd, mscal, mid, m_w, rmat_of. cbn [mpow]. unfold mmul, mid. cbn [csum nth Nat.eqb].
  intros D. apply (f_equal fst) in D. simpl in D. lra.
Qed.
Print Assumptions C08_axis_not_normalised.

Example C08_example : unit3 (fun i => if Nat.eqb i 2 then 0.6%R else if Nat.eqb i 1 then 0.8%R else 0%R).
Proof. unfold unit3, dot3; cbn [Nat.eqb]. lra. Qed.
