(** C01, C02: DeltaRange and convert_delta_range. *)
From Coq Require Import Reals ZArith Lra Lia.
From Verif.Base Require Import Py.
From Verif.Model Require Import DeltaRange.
From Verif.Spec Require Import Angle.
From Verif.Proof Require Import DeltaRangeP.
Open Scope R_scope.

(** C01: two integers are accepted exactly when the documentation allows them. *)
Theorem C01_integer_ranges_accepted : forall l u : Z,
  is_ok (delta_range (PyInt l) (PyInt u)) <-> allowed_range l u.
Proof. exact delta_range_allowed. Qed.
Print Assumptions C01_integer_ranges_accepted.

(** C01: every other pair of integers raises ValueError. *)
Theorem C01_other_integers_rejected : forall l u : Z,
  ~ allowed_range l u -> delta_range (PyInt l) (PyInt u) = Err ValueError.
Proof. exact delta_range_rejects. Qed.

(** C01, TypeError clause: holds when neither bound is an integer.  Full claim: "when
    either bound is not an integer"; the missing half is refuted below. *)
Theorem C01_non_integers_rejected_partial : forall a b : pyval,
  is_int a = false -> is_int b = false -> delta_range a b = Err TypeError.
Proof. exact delta_range_both_nonint. Qed.

(** C01, TypeError clause refuted: one bound that is not an integer is accepted. *)
Theorem C01_non_integer_rejected_refuted :
  exists a b : pyval, is_int a = false /\ is_ok (delta_range a b).
Proof.
  exists (PyFloat (-180)), (PyInt 180). split; [reflexivity|].
  exists (-180, 180). exact delta_range_float_accepted.
Qed.

Example C01_example_accepted : is_ok (delta_range (PyInt (-90)) (PyInt 270)).
Proof. apply C01_integer_ranges_accepted. right. lia. Qed.
Example C01_example_rejected : delta_range (PyInt (-90)) (PyInt 180) = Err ValueError.
Proof. apply C01_other_integers_rejected. unfold allowed_range. lia. Qed.

(** C02: the result lies in the turn that starts at the lower bound. *)
Theorem C02_result_in_turn : forall d l u d',
  convert_delta_range d (PyInt l) (PyInt u) = Ok d' -> in_turn (IZR l) d'.
Proof. exact convert_in_turn. Qed.
Print Assumptions C02_result_in_turn.

(** C02: every allowed range gives a result. *)
Theorem C02_total : forall d l u,
  allowed_range l u -> exists d', convert_delta_range d (PyInt l) (PyInt u) = Ok d'.
Proof. exact convert_total. Qed.

(** C02: what is returned is the angle d + 2*lower, not d. *)
Theorem C02_result_is_shifted : forall d l u d',
  convert_delta_range d (PyInt l) (PyInt u) = Ok d' -> same_angle (d + 2 * IZR l) d'.
Proof. exact convert_shifts. Qed.

(** C02: the angle is preserved for exactly three lower bounds. *)
Theorem C02_angle_preserved_iff : forall l u,
  allowed_range l u ->
  ((forall d d', convert_delta_range d (PyInt l) (PyInt u) = Ok d' -> same_angle d d')
   <-> (l = 0 \/ l = -180 \/ l = -360)%Z).
Proof. exact convert_faithful_iff. Qed.
Print Assumptions C02_angle_preserved_iff.

(** C02 refuted: an allowed range, (-90, 270), changes the angle. *)
Theorem C02_angle_preserved_refuted : exists d l u d',
  allowed_range l u /\ convert_delta_range d (PyInt l) (PyInt u) = Ok d' /\ ~ same_angle d d'.
Proof.
  assert (A : allowed_range (-90) 270) by (right; lia).
  destruct (C02_total 0 _ _ A) as [d' E].
  exists 0, (-90)%Z, 270%Z, d'. repeat split; auto.
  intros [k K]. destruct (C02_result_is_shifted _ _ _ _ E) as [j J].
  assert (Q : IZR (-180) = IZR (360 * (k - j))) by (rewrite mult_IZR, minus_IZR; lra).
  apply eq_IZR in Q. lia.
Qed.

(** C02 refuted for the folded range: the result can lie above the upper bound 180. *)
Theorem C02_upper_bound_refuted : exists d l u d',
  allowed_range l u /\ convert_delta_range d (PyInt l) (PyInt u) = Ok d' /\ IZR u < d'.
Proof.
  exists 270, 0%Z, 180%Z, 270. repeat split.
  - left; lia.
  - exact convert_0_180_out.
  - lra.
Qed.

Example C02_example : exists d', convert_delta_range 200 (PyInt (-180)) (PyInt 180) = Ok d'
  /\ in_turn (-180) d' /\ same_angle 200 d'.
Proof.
  assert (A : allowed_range (-180) 180) by (right; lia).
  destruct (C02_total 200 _ _ A) as [d' E]. exists d'. split; auto. split.
  - now apply C02_result_in_turn in E.
  - apply (proj2 (C02_angle_preserved_iff _ _ A)) in E; auto.
Qed.
