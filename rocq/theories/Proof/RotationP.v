From Coq Require Import Reals Psatz Lra Lia List Arith Setoid Morphisms.
From Coquelicot Require Import Complex Derive Hierarchy.
From Verif.Base Require Import Cx Mat Mexp.
From Verif.Model Require Import Ellips Rotation.
From Verif.Spec Require Import Rot.
Import ListNotations.
Open Scope R_scope.
Open Scope C_scope.

Lemma deg2rad_opp x : deg2rad (- x) = (- deg2rad x)%R.
Proof. unfold deg2rad. lra. Qed.
Lemma deg2rad_0 : deg2rad 0 = 0%R.
Proof. unfold deg2rad. lra. Qed.
Lemma deg2rad_plus x y : deg2rad (x + y) = (deg2rad x + deg2rad y)%R.
Proof. unfold deg2rad. lra. Qed.

Lemma cs1 x : (sin x * sin x = 1 - cos x * cos x)%R.
Proof. pose proof (sin2_cos2 x). unfold Rsqr in H. lra. Qed.

(** Matrices with real entries *)
Ltac ent := cbn [nth]; unfold mid; cbn [Nat.eqb].

Lemma euler_product p n r : meq 3 (rotation_euler p n r)
  (mmul 3 (mmul 3 (rot_z (deg2rad p)) (rot_x (deg2rad n))) (rot_z (deg2rad r))).
Proof.
  unfold rotation_euler, rmat_of, rot_z, rot_x, mat_of, mmul.
  generalize (cos (deg2rad p)) (sin (deg2rad p)) (cos (deg2rad n)) (sin (deg2rad n))
    (cos (deg2rad r)) (sin (deg2rad r)). intros c1 s1 c2 s2 c3 s3.
  mexpl; cbn [csum nth]; apply C_ext; simpl; ring.
Qed.

Lemma rot_z_inv t : is_inverse 3 (rot_z t) (mtr (rot_z t)).
Proof.
  unfold rot_z, mat_of, mmul, mtr. pose proof (cs1 t) as E.
  generalize dependent (sin t). intros s. generalize (cos t). intros c E.
  split; mexpl; unfold mmul, mtr, mid; cbn [csum nth Nat.eqb]; apply C_ext; simpl; ring_simplify;
    try ring [E]; nra.
Qed.
Lemma rot_x_inv t : is_inverse 3 (rot_x t) (mtr (rot_x t)).
Proof.
  unfold rot_x, mat_of, mmul, mtr. pose proof (cs1 t) as E.
  generalize dependent (sin t). intros s. generalize (cos t). intros c E.
  split; mexpl; unfold mmul, mtr, mid; cbn [csum nth Nat.eqb]; apply C_ext; simpl; ring_simplify;
    try ring [E]; nra.
Qed.

Lemma inv_mul n A A' B B' : is_inverse n A A' -> is_inverse n B B' ->
  is_inverse n (mmul n A B) (mmul n B' A').
Proof.
  intros [H1 H2] [K1 K2]. split.
  - rewrite <- mmul_assoc, (mmul_assoc n B), K1, mmul_1_l. exact H1.
  - rewrite <- mmul_assoc, (mmul_assoc n A'), H2, mmul_1_l. exact K2.
Qed.
Lemma inv_meq n A A' B B' : meq n A A' -> meq n B B' -> is_inverse n A B -> is_inverse n A' B'.
Proof. intros E F [H K]. split; [rewrite <- E, <- F|rewrite <- E, <- F]; auto. Qed.

Lemma inv_tr_mul A B : is_inverse 3 A (mtr A) -> is_inverse 3 B (mtr B) ->
  is_inverse 3 (mmul 3 A B) (mtr (mmul 3 A B)).
Proof.
  intros H K. eapply inv_meq; [reflexivity|symmetry; apply mtr_mul|]. now apply inv_mul.
Qed.

Lemma euler_inv_tr p n r : is_inverse 3 (rotation_euler p n r) (mtr (rotation_euler p n r)).
Proof.
  eapply inv_meq; [symmetry; apply euler_product|apply mtr_proper; symmetry; apply euler_product|].
  apply inv_tr_mul; [apply inv_tr_mul|]; auto using rot_z_inv, rot_x_inv.
Qed.

Lemma rmat_real l : real_mat (rmat_of l).
Proof. intros i j _ _. reflexivity. Qed.

Lemma euler_det p n r : det3 (rotation_euler p n r) = 1.
Proof.
  unfold det3, rotation_euler, rmat_of; cbn [nth].
  pose proof (cs1 (deg2rad p)) as E1. pose proof (cs1 (deg2rad n)) as E2. pose proof (cs1 (deg2rad r)) as E3.
  generalize dependent (sin (deg2rad p)). generalize (cos (deg2rad p)).
  generalize dependent (sin (deg2rad n)). generalize (cos (deg2rad n)).
  generalize dependent (sin (deg2rad r)). generalize (cos (deg2rad r)).
  intros c3 s3 E3 c2 s2 E2 c1 s1 E1. apply C_ext; simpl; [|ring].
  ring [E1 E2 E3].
Qed.

Lemma euler_inverse p n r : meq 3 (mtr (rotation_euler p n r)) (rotation_euler (- r) (- n) (- p)).
Proof.
  unfold rotation_euler. rewrite !deg2rad_opp, !cos_neg, !sin_neg.
  unfold mtr, rmat_of. mexpl; cbn [nth]; f_equal; ring.
Qed.

Lemma euler_id : meq 3 (rotation_euler 0 0 0) mid.
Proof.
  unfold rotation_euler. rewrite deg2rad_0, cos_0, sin_0.
  mexpl; unfold rmat_of, mid; cbn [nth Nat.eqb]; f_equal; ring.
Qed.

(** ** Axis and angle *)
Section Axis.
Variable v : nat -> R.
Hypothesis Hv : unit3 v.

Lemma unit_eq : (v 2%nat * v 2%nat = 1 - v 0%nat * v 0%nat - v 1%nat * v 1%nat)%R.
Proof. unfold unit3, dot3 in Hv. lra. Qed.

Definition rodr (t : R) : mat :=
  madd (madd mid (mscal (RtoC (sin t)) (m_w v)))
       (mscal (RtoC (1 - cos t)) (mpow 3 (m_w v) 2)).

Lemma mw2 : meq 3 (mpow 3 (m_w v) 2) (fun i j => RtoC (v i * v j - (if Nat.eqb i j then 1 else 0))).
Proof.
  pose proof unit_eq as E. unfold m_w, rmat_of.
  mexpl; cbn [mpow]; unfold mmul, mid; cbn [csum nth Nat.eqb]; apply C_ext; simpl; try ring [E].
Qed.
Lemma mw3 : meq 3 (mmul 3 (m_w v) (mpow 3 (m_w v) 2)) (mscal (RtoC (-1)) (m_w v)).
Proof.
  pose proof unit_eq as E.
  assert (Q : meq 3 (mmul 3 (m_w v) (fun i j => RtoC (v i * v j - (if Nat.eqb i j then 1 else 0))))
       (mscal (RtoC (-1)) (m_w v))).
  { mexpl; unfold mmul, mscal, m_w, rmat_of; cbn [csum nth Nat.eqb]; apply C_ext; simpl; ring. }
  rewrite <- Q. apply mmul_proper; [reflexivity|apply mw2].
Qed.

Lemma rodr_ode t : meq 3 (rodr t) (mexpt 3 (m_w v) t).
Proof.
  revert t. apply (ode_unique 3 (m_w v) rodr).
  - intros t. apply mder_meq with
      (madd (mscal (RtoC (cos t)) (m_w v)) (mscal (RtoC (sin t)) (mpow 3 (m_w v) 2))).
    + intros i j Hi Hj. unfold rodr, madd, mscal.
      set (a := m_w v i j). set (b := mpow 3 (m_w v) 2 i j). set (e := mid i j).
      assert (S : cder (fun x => RtoC (sin x)) t (RtoC (cos t))).
      { split; simpl; [apply is_derive_Reals, derivable_pt_lim_sin|apply @is_derive_const]. }
      assert (K : cder (fun x => RtoC (1 - cos x)) t (RtoC (sin t))).
      { split; simpl; [|apply @is_derive_const].
        apply (is_derive_ext (fun x => minus 1 (cos x))%R); [reflexivity|].
        replace (sin t) with (minus 0 (- sin t))%R by (unfold minus, plus, opp; simpl; ring).
        apply @is_derive_minus; [apply @is_derive_const|apply is_derive_Reals, derivable_pt_lim_cos]. }
      eapply cder_eq.
      * apply cder_plus; [apply cder_plus; [apply cder_const|]|].
        -- apply cder_mult; [exact S|apply cder_const].
        -- apply cder_mult; [exact K|apply cder_const].
      * cbv beta. ring.
    + symmetry. unfold rodr. rewrite !mmul_add_r, !mmul_scal_r, mw3, mmul_1_r, mscal_mscal.
      intros i j Hi Hj. unfold madd, mscal.
      replace (mmul 3 (m_w v) (m_w v) i j) with (mpow 3 (m_w v) 2 i j).
      2: { symmetry. cbn [mpow]. apply mmul_proper; auto; [reflexivity|]. symmetry. apply mmul_1_r. }
      rewrite RtoC_minus. apply C_ext; simpl; ring.
  - unfold rodr. rewrite sin_0, cos_0. intros i j Hi Hj. unfold madd, mscal. apply C_ext; simpl; ring.
Qed.

Lemma mw_skew : meq 3 (mtr (m_w v)) (mscal (RtoC (-1)) (m_w v)).
Proof. unfold mtr, mscal, m_w, rmat_of. mexpl; cbn [nth]; apply C_ext; simpl; ring. Qed.
End Axis.

Lemma rotation_v_theta_rodr v theta : rotation_v_theta v theta = rodr v (deg2rad theta).
Proof. reflexivity. Qed.

Lemma exp_inv_tr v t : is_inverse 3 (mexpt 3 (m_w v) t) (mtr (mexpt 3 (m_w v) t)).
Proof.
  eapply inv_meq; [reflexivity| |apply mexpt_inv].
  rewrite mexpt_tr. symmetry. rewrite (mexpt_meq 3 _ _ t (mw_skew v)), mexpt_scal.
  replace (-1 * t)%R with (- t)%R by ring. reflexivity.
Qed.

Lemma mpow_real v k : real_mat (mpow 3 (m_w v) k).
Proof.
  induction k as [|k IH]; intros i j Hi Hj; cbn [mpow].
  - unfold mid. destruct (Nat.eqb i j); reflexivity.
  - unfold mmul. cbn [csum]. unfold m_w at 1 2 3, rmat_of. simpl.
    rewrite !IH by lia. ring.
Qed.

Lemma det3_meq A B : meq 3 A B -> det3 A = det3 B.
Proof. intros E. unfold det3. now rewrite !E by lia. Qed.

Lemma rodr_real v t : real_mat (rodr v t).
Proof.
  intros i j Hi Hj. unfold rodr, madd, mscal.
  pose proof (mpow_real v 2 i j Hi Hj) as E. revert E. generalize (mpow 3 (m_w v) 2 i j).
  intros z E. unfold m_w, rmat_of, mid. destruct (Nat.eqb i j); simpl; rewrite E; ring.
Qed.

Lemma rodr_det v t : unit3 v -> det3 (rodr v t) = 1.
Proof.
  intros Hv. rewrite (det3_meq _ (madd (madd mid (mscal (RtoC (sin t)) (m_w v)))
       (mscal (RtoC (1 - cos t)) (fun i j => RtoC (v i * v j - (if Nat.eqb i j then 1 else 0)))))).
  2: { intros i j Hi Hj. unfold rodr, madd, mscal. now rewrite (mw2 v Hv i j Hi Hj). }
  pose proof (unit_eq v Hv) as E. pose proof (cs1 t) as S.
  unfold det3, madd, mscal, mid, m_w, rmat_of; cbn [nth Nat.eqb].
  generalize dependent (sin t). generalize (cos t). intros c s S.
  apply C_ext; simpl; [|ring].
  generalize dependent (v 0%nat). generalize dependent (v 1%nat). generalize dependent (v 2%nat).
  intros z y x E. ring [E S].
Qed.

Lemma rodr_action v t u : unit3 v -> veq 3 (apply3 (rodr v t) u) (fun i => RtoC (turn v t u i)).
Proof.
  intros Hv. intros i Hi. unfold apply3, mvec.
  rewrite (csum_ext 3 _ (fun j => madd (madd mid (mscal (RtoC (sin t)) (m_w v)))
       (mscal (RtoC (1 - cos t)) (fun i j => RtoC (v i * v j - (if Nat.eqb i j then 1 else 0)))) i j * RtoC (u j))).
  2: { intros j Hj. unfold rodr, madd, mscal. now rewrite (mw2 v Hv i j Hi Hj). }
  unfold turn, dot3, cross3, madd, mscal, mid, m_w, rmat_of.
  idx i; cbn [csum nth Nat.eqb]; apply C_ext; simpl; ring.
Qed.

Lemma rodr_inv_tr v t : unit3 v -> is_inverse 3 (rodr v t) (mtr (rodr v t)).
Proof.
  intros Hv. eapply inv_meq; [symmetry; apply rodr_ode, Hv|apply mtr_proper; symmetry; apply rodr_ode, Hv|].
  apply exp_inv_tr.
Qed.

Lemma rodr_proper v t : unit3 v -> proper_rotation (rodr v t).
Proof.
  intros Hv. split; [apply rodr_real|split; [apply rodr_inv_tr, Hv|apply rodr_det, Hv]].
Qed.

Lemma rodr_plus v s t : unit3 v -> meq 3 (mmul 3 (rodr v s) (rodr v t)) (rodr v (s + t)).
Proof.
  intros Hv. rewrite (rodr_ode v Hv s), (rodr_ode v Hv t), (rodr_ode v Hv (s + t)). symmetry. apply mexpt_plus.
Qed.

Lemma m_w_scal t v : meq 3 (m_w (fun i => t * v i)%R) (mscal (RtoC t) (m_w v)).
Proof. unfold mscal, m_w, rmat_of. mexpl; cbn [nth]; apply C_ext; simpl; ring. Qed.

Lemma rotation_v_scaled v t : unit3 v -> meq 3 (rotation_v (fun i => t * v i)%R) (rodr v t).
Proof.
  intros Hv. unfold rotation_v. rewrite (mexp_meq 3 _ _ (m_w_scal t v)), mexp_scal. symmetry. now apply rodr_ode.
Qed.

Lemma unit_direction (v : nat -> R) : (0 < dot3 v v)%R ->
  exists u t, unit3 u /\ forall i, v i = (t * u i)%R.
Proof.
  intros H. set (t := sqrt (dot3 v v)). assert (Ht : (0 < t)%R) by (apply sqrt_lt_R0, H).
  assert (Ht2 : (t * t = dot3 v v)%R) by (apply sqrt_sqrt; lra).
  exists (fun i => v i / t)%R, t. split.
  - unfold unit3. unfold dot3 at 1. replace (_ + _ + _)%R with (dot3 v v / (t * t))%R by (unfold dot3; field; lra).
    rewrite Ht2. field. lra.
  - intros i. field. lra.
Qed.

Lemma dot3_zero v : dot3 v v = 0%R -> v 0%nat = 0%R /\ v 1%nat = 0%R /\ v 2%nat = 0%R.
Proof. unfold dot3. intros H. repeat split; nra. Qed.

Lemma m_w_ext v w : (forall i, v i = w i) -> meq 3 (m_w v) (m_w w).
Proof. intros E i j Hi Hj. unfold m_w, rmat_of. now rewrite !E. Qed.

Lemma m_w_zero v : dot3 v v = 0%R -> meq 3 (m_w v) (mscal (RtoC 0) (m_w v)).
Proof.
  intros H. destruct (dot3_zero v H) as (A & B & D). unfold mscal, m_w, rmat_of. rewrite A, B, D.
  mexpl; cbn [nth]; apply C_ext; simpl; ring.
Qed.

Lemma proper_meq A B : meq 3 A B -> proper_rotation A -> proper_rotation B.
Proof.
  intros E (H & K & D). split; [|split].
  - intros i j Hi Hj. rewrite <- (E i j Hi Hj). now apply H.
  - eapply inv_meq; [exact E|apply mtr_proper, E|exact K].
  - now rewrite <- (det3_meq _ _ E).
Qed.

Lemma proper_mid : proper_rotation mid.
Proof.
  split; [|split].
  - intros i j _ _. unfold mid. destruct (Nat.eqb i j); reflexivity.
  - split; mexpl; unfold mmul, mtr, mid; cbn [csum Nat.eqb]; ring.
  - unfold det3, mid; cbn [Nat.eqb]. ring.
Qed.

Lemma rotation_v_proper v : proper_rotation (rotation_v v).
Proof.
  assert (P : (0 <= dot3 v v)%R) by (unfold dot3; nra).
  destruct (Rle_lt_or_eq_dec _ _ P) as [H|H].
  - destruct (unit_direction v H) as (u & t & Hu & E).
    apply (proper_meq (rodr u t)); [|now apply rodr_proper].
    rewrite <- (rotation_v_scaled u t Hu). apply mexp_meq, m_w_ext. intros i. now rewrite E.
  - apply (proper_meq mid); [|apply proper_mid].
    unfold rotation_v. rewrite (mexp_meq 3 _ _ (m_w_zero v (eq_sym H))), mexp_scal. symmetry. apply mexpt_0.
Qed.

Lemma rotation_v_fixes v : veq 3 (apply3 (rotation_v v) v) (fun i => RtoC (v i)).
Proof.
  assert (P : (0 <= dot3 v v)%R) by (unfold dot3; nra).
  destruct (Rle_lt_or_eq_dec _ _ P) as [H|H].
  - destruct (unit_direction v H) as (u & t & Hu & E).
    assert (Q : meq 3 (rotation_v v) (rodr u t)).
    { rewrite <- (rotation_v_scaled u t Hu). apply mexp_meq, m_w_ext. intros i. now rewrite E. }
    intros i Hi. transitivity (apply3 (rodr u t) v i).
    + unfold apply3, mvec. apply csum_ext. intros j Hj. now rewrite (Q i j Hi Hj).
    + rewrite (rodr_action u t v Hu i Hi). f_equal. unfold turn, cross3, dot3.
      pose proof (unit_eq u Hu) as U. rewrite !E.
      assert (i = 0 \/ i = 1 \/ i = 2)%nat as [->|[->| ->]] by lia; cbn [nth]; try rewrite !E; ring [U].
  - destruct (dot3_zero v (eq_sym H)) as (A & B & D).
    intros i Hi. unfold apply3, mvec. cbn [csum]. rewrite A, B, D.
    assert (i = 0 \/ i = 1 \/ i = 2)%nat as [->|[->| ->]] by lia; rewrite ?A, ?B, ?D; ring.
Qed.
