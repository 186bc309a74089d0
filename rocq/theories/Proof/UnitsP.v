From Coq Require Import Reals Lra.
From Coquelicot Require Import Complex.
From Verif.Base Require Import Cx Mat.
From Verif.Model Require Import Units.
Open Scope R_scope.

Lemma rdiv_Some x y z : rdiv x y = Some z <-> y <> 0 /\ z = x / y.
Proof.
  unfold rdiv. destruct (Req_EM_T y 0) as [E|E]; split.
  - discriminate.
  - intros [H _]. contradiction.
  - intros H. injection H as <-. auto.
  - intros [_ ->]. reflexivity.
Qed.
Lemma rdiv_None x y : rdiv x y = None <-> y = 0.
Proof. unfold rdiv. destruct (Req_EM_T y 0); split; intros; auto; congruence. Qed.
Lemma rdiv_nz x y : y <> 0 -> rdiv x y = Some (x / y).
Proof. intros H. apply rdiv_Some. auto. Qed.

Lemma giga_nz : 10 ^ 9 <> 0.
Proof. apply pow_nonzero. lra. Qed.
Lemma ten7_nz : 10 ^ 7 <> 0.
Proof. apply pow_nonzero. lra. Qed.

(** k / (v / 1e9) *)
Lemma inv_law k v : k <> 0 -> v <> 0 ->
  rdiv k (v * / 10 ^ 9) = Some (k * 10 ^ 9 / v).
Proof.
  intros Hk Hv. pose proof giga_nz. rewrite rdiv_nz.
  - f_equal. field. auto.
  - apply Rmult_integral_contrapositive_currified; auto. now apply Rinv_neq_0_compat.
Qed.
Lemma inv_law_0 k v : rdiv k (v * / 10 ^ 9) = None <-> v = 0.
Proof.
  pose proof (Rinv_neq_0_compat _ giga_nz) as N. rewrite rdiv_None. split.
  - intros H. apply Rmult_integral in H. tauto.
  - intros ->. ring.
Qed.
Lemma frac_nz k v : k <> 0 -> v <> 0 -> k * 10 ^ 9 / v <> 0.
Proof.
  intros Hk Hv. pose proof giga_nz. unfold Rdiv.
  apply Rmult_integral_contrapositive_currified; [|now apply Rinv_neq_0_compat].
  now apply Rmult_integral_contrapositive_currified.
Qed.
Lemma frac_invol k v : k <> 0 -> v <> 0 -> k * 10 ^ 9 / (k * 10 ^ 9 / v) = v.
Proof. intros Hk Hv. pose proof giga_nz. field. auto. Qed.
