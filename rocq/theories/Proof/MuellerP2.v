From Coq Require Import Reals ZArith List Lra Lia Psatz.
From Coquelicot Require Import Complex.
From Verif.Base Require Import Py Cx Mat.
From Verif.Model Require Import DeltaRange Ellips.
From Verif.Spec Require Import Angle Light.
From Verif.Proof Require Import DeltaRangeP EllipsP MuellerP.
Import ListNotations.
Open Scope R_scope.
Open Scope C_scope.

(** without polarisation conversion *)
Definition table44 (N Cc S : R) (i j : nat) : R :=
  nth j (nth i [[1; - N; 0; 0]; [- N; 1; 0; 0]; [0; 0; Cc; S]; [0; 0; - S; Cc]] nil)%R 0%R.

Lemma mueller_complex_diag (m : mat) a b : m 0%nat 0%nat = (a, b) -> m 0%nat 1%nat = 0 ->
  m 1%nat 0%nat = 0 -> m 1%nat 1%nat = 1 ->
  forall i j, (i < 4)%nat -> (j < 4)%nat ->
  fst (mueller_complex m i j) = nth j (nth i
   [[(a*a+b*b+1)/2; (a*a+b*b-1)/2; 0; 0]; [(a*a+b*b-1)/2; (a*a+b*b+1)/2; 0; 0];
    [0; 0; a; b]; [0; 0; - b; a]] nil)%R 0%R.
Proof.
  intros E1 E2 E3 E4 i j Hi Hj. rewrite mueller_complex_table by auto.
  unfold mueller_table. rewrite E1, E2, E3, E4.
  idx i; idx j; unfold Cnorm2; simpl; field.
Qed.

Lemma mueller_isotropic (J : mat) M p d :
  J 0%nat 1%nat = 0 -> J 1%nat 0%nat = 0 -> mueller_matrix J = Some M ->
  is_rho p d (J 0%nat 0%nat / J 1%nat 1%nat) -> (0 <= p < 90)%R ->
  forall i j, (i < 4)%nat -> (j < 4)%nat ->
  M i j = table44 (cos (2 * rad p)) (sin (2 * rad p) * cos (rad d))
    (- (sin (2 * rad p) * sin (rad d))) i j.
Proof.
  intros Z1 Z2 H R Hp.
  assert (Nz : J 1%nat 1%nat <> 0) by (apply mueller_total; eauto).
  pose proof (mueller_val J M H) as V. clear H.
  set (m := mdivc J (J 1 1)%nat).
  set (a := (tan (rad p) * cos (rad d))%R). set (b := (- (tan (rad p) * sin (rad d)))%R).
  assert (M00 : m 0%nat 0%nat = (a, b)).
  { unfold m, mdivc. destruct R as [R1 R2]. apply C_ext; simpl; [exact R1|exact R2]. }
  assert (M11 : m 1%nat 1%nat = 1) by (unfold m, mdivc; field; auto).
  assert (M01 : m 0%nat 1%nat = 0) by (unfold m, mdivc; rewrite Z1; field; auto).
  assert (M10 : m 1%nat 0%nat = 0) by (unfold m, mdivc; rewrite Z2; field; auto).
  set (t := rad p) in *. set (e := rad d) in *.
  assert (Ct : (0 < cos t)%R).
  { apply cos_gt_0; unfold t, rad; pose proof PI_RGT_0; nra. }
  pose proof (sin2_cos2 t) as T1. pose proof (sin2_cos2 e) as E1. unfold Rsqr in *.
  assert (AB : (a * a + b * b = sin t * sin t / (cos t * cos t))%R).
  { unfold a, b, tan. 
    transitivity (sin t * sin t * (sin e * sin e + cos e * cos e) / (cos t * cos t))%R;
      [field; lra|]. rewrite E1. field. lra. }
  assert (P : power2 m = (/ (2 * (cos t * cos t)))%R).
  { unfold power2. rewrite M00, M11, M01, M10. unfold Cnorm2; simpl.
    replace (a * a + b * b + (0 * 0 + 0 * 0) + (0 * 0 + 0 * 0) + (1 * 1 + 0 * 0))%R
      with (a * a + b * b + 1)%R by ring.
    rewrite AB. replace 1%R with (sin t * sin t + cos t * cos t)%R at 1 by auto.
    transitivity ((sin t * sin t + (sin t * sin t + cos t * cos t) * (cos t * cos t)) / (2 * (cos t * cos t)))%R;
     [field; lra|].
    rewrite T1. replace (sin t * sin t + 1 * (cos t * cos t))%R with 1%R by lra. field. lra. }
  intros i j Hi Hj. rewrite V. fold m. rewrite P, (mueller_complex_diag m a b); auto.
  rewrite AB, cos_2a, sin_2a.
  assert (CC : (cos t * cos t - sin t * sin t = - (sin t * sin t - cos t * cos t))%R) by ring.
  idx i; idx j; unfold table44; simpl; try lra;
  unfold a, b, tan; try (field; lra);
  try (transitivity (sin t * sin t + cos t * cos t)%R; [field; lra|exact T1]).
Qed.

Lemma psi_delta_to_mueller_CS p d :
  psi_delta_to_mueller p d 2%nat 2%nat = psi_delta_to_mueller p d 2%nat 3%nat.
Proof. reflexivity. Qed.

(** ** Circular amplitudes *)
Lemma sqrt2_inv2 : (1 / sqrt 2 * (1 / sqrt 2) = / 2)%R.
Proof.
  assert (A : (sqrt 2 * sqrt 2 = 2)%R) by (apply sqrt_sqrt; lra).
  assert (B : sqrt 2 <> 0%R) by (intros H; rewrite H in A; lra).
  transitivity (/ (sqrt 2 * sqrt 2))%R; [field; auto|]. now rewrite A.
Qed.

Lemma circ_c_inv_ok : is_inverse 2 circ_c circ_c_inv.
Proof.
  pose proof sqrt2_inv2 as H.
  split; intros i j Hi Hj; idx i; idx j;
  unfold mmul, circ_c, circ_c_inv, mscal, mat_of, mid; simpl; unfold Ci;
  set (s := (1 / sqrt 2)%R) in *; Ccomp; nra.
Qed.

Lemma circ_d_inv_ok : is_inverse 2 circ_d circ_d_inv.
Proof.
  pose proof sqrt2_inv2 as H.
  split; intros i j Hi Hj; idx i; idx j;
  unfold mmul, circ_d, circ_d_inv, mscal, mat_of, mid; simpl; unfold Ci;
  set (s := (1 / sqrt 2)%R) in *; Ccomp; nra.
Qed.

Lemma circ_d_neg : meq 2 circ_d (mscal (- RtoC 1) circ_c).
Proof.
  intros i j Hi Hj; idx i; idx j; unfold circ_d, circ_c, mscal, mat_of; simpl; ring.
Qed.

(** closed forms of the circular amplitudes *)
Lemma circ_closed (J : mat) :
  let a := J 0%nat 0%nat in let b := J 0%nat 1%nat in
  let c := J 1%nat 0%nat in let d := J 1%nat 1%nat in
  jones_matrix_rc J 0%nat 0%nat = - ((a + d + Ci * (b - c)) / 2) /\
  jones_matrix_rc J 0%nat 1%nat = - ((a - d - Ci * (b + c)) / 2) /\
  jones_matrix_rc J 1%nat 0%nat = - ((a - d + Ci * (b + c)) / 2) /\
  jones_matrix_rc J 1%nat 1%nat = - ((a + d - Ci * (b - c)) / 2) /\
  jones_matrix_tc J 0%nat 0%nat = (a + d + Ci * (b - c)) / 2 /\
  jones_matrix_tc J 0%nat 1%nat = (a - d - Ci * (b + c)) / 2 /\
  jones_matrix_tc J 1%nat 0%nat = (a - d + Ci * (b + c)) / 2 /\
  jones_matrix_tc J 1%nat 1%nat = (a + d - Ci * (b - c)) / 2.
Proof.
  intros a b c d.
  assert (H : (2 * (1 / sqrt 2 * (1 / sqrt 2)) = 1)%R) by (rewrite sqrt2_inv2; field).
  unfold jones_matrix_rc, jones_matrix_tc, mmul, circ_c, circ_d_inv, circ_c_inv, mscal, mat_of; simpl.
  fold a b c d. set (s := (1 / sqrt 2)%R) in *. clearbody s a b c d. unfold Ci.
  destruct a as [a a'], b as [b b'], c as [c c'], d as [d d'].
  repeat split; apply C_ext; simpl;
  match goal with |- _ = ?y => transitivity (2 * (s * s) * y)%R; [field|rewrite H; ring] end.
Qed.

(** reflected circular light *)
Lemma circ_action_r (J : mat) k i : (k < 2)%nat -> (i < 2)%nat ->
  mvec 2 J (circ_vec k) i =
  - (jones_matrix_rc J 0%nat k * circ_vec 0 i + jones_matrix_rc J 1%nat k * circ_vec 1 i).
Proof.
  destruct (circ_closed J) as (E1 & E2 & E3 & E4 & _).
  intros Hk Hi; idx k; idx i; rewrite ?E1, ?E2, ?E3, ?E4;
  unfold mvec, circ_vec; simpl; unfold Ci;
  destruct (J 0%nat 0%nat) as [a a'], (J 0%nat 1%nat) as [b b'],
    (J 1%nat 0%nat) as [c c'], (J 1%nat 1%nat) as [d d']; set (s := (1 / sqrt 2)%R); clearbody s;
  apply C_ext; simpl; field.
Qed.

Lemma circ_action_t (J : mat) k i : (k < 2)%nat -> (i < 2)%nat ->
  mvec 2 J (circ_vec k) i =
  jones_matrix_tc J 0%nat k * circ_vec 0 i + jones_matrix_tc J 1%nat k * circ_vec 1 i.
Proof.
  destruct (circ_closed J) as (_ & _ & _ & _ & E1 & E2 & E3 & E4).
  intros Hk Hi; idx k; idx i; rewrite ?E1, ?E2, ?E3, ?E4;
  unfold mvec, circ_vec; simpl; unfold Ci;
  destruct (J 0%nat 0%nat) as [a a'], (J 0%nat 1%nat) as [b b'],
    (J 1%nat 0%nat) as [c c'], (J 1%nat 1%nat) as [d d']; set (s := (1 / sqrt 2)%R); clearbody s;
  apply C_ext; simpl; field.
Qed.

Lemma R_matrix_norm J i j : R_matrix J i j = Cnorm2 (J i j).
Proof. unfold R_matrix. now rewrite <- Cmod_sqr. Qed.

Lemma circ_power_col (J : mat) k : (k < 2)%nat ->
  (Rc_matrix J 0%nat k + Rc_matrix J 1%nat k =
   Cnorm2 (mvec 2 J (circ_vec k) 0%nat) + Cnorm2 (mvec 2 J (circ_vec k) 1%nat))%R.
Proof.
  intros Hk. rewrite !circ_action_r by auto. unfold Rc_matrix. rewrite !R_matrix_norm.
  pose proof sqrt2_inv2 as H. set (x := jones_matrix_rc J 0%nat k).
  set (y := jones_matrix_rc J 1%nat k). unfold circ_vec.
  set (s := (1 / sqrt 2)%R) in *. clearbody s x y.
  destruct x as [x x'], y as [y y']. unfold Cnorm2; simpl.
  transitivity (2 * (s * s) * (x * x + x' * x' + (y * y + y' * y')))%R; [rewrite H; field|ring].
Qed.

Lemma circ_power_total (J : mat) :
  ((Rc_matrix J 0 0 + Rc_matrix J 0 1 + Rc_matrix J 1 0 + Rc_matrix J 1 1) =
   (R_matrix J 0 0 + R_matrix J 0 1 + R_matrix J 1 0 + R_matrix J 1 1))%R.
Proof.
  unfold Rc_matrix. rewrite !R_matrix_norm.
  destruct (circ_closed J) as (E1 & E2 & E3 & E4 & _). rewrite E1, E2, E3, E4.
  unfold Ci, Cnorm2.
  destruct (J 0%nat 0%nat) as [a a'], (J 0%nat 1%nat) as [b b'],
    (J 1%nat 0%nat) as [c c'], (J 1%nat 1%nat) as [d d']; simpl; field.
Qed.

Lemma T_matrix_norm pc J i j : T_matrix pc J i j = (Cnorm2 (J i j) * pc)%R.
Proof. unfold T_matrix. now rewrite <- Cmod_sqr. Qed.

Lemma circ_power_total_t pc (J : mat) :
  ((Tc_matrix pc J 0 0 + Tc_matrix pc J 0 1 + Tc_matrix pc J 1 0 + Tc_matrix pc J 1 1) =
   (T_matrix pc J 0 0 + T_matrix pc J 0 1 + T_matrix pc J 1 0 + T_matrix pc J 1 1))%R.
Proof.
  unfold Tc_matrix. rewrite !T_matrix_norm.
  destruct (circ_closed J) as (_ & _ & _ & _ & E1 & E2 & E3 & E4). rewrite E1, E2, E3, E4.
  unfold Ci, Cnorm2.
  destruct (J 0%nat 0%nat) as [a a'], (J 0%nat 1%nat) as [b b'],
    (J 1%nat 0%nat) as [c c'], (J 1%nat 1%nat) as [d d']; simpl; field.
Qed.

Lemma circ_normal_r (J : mat) r :
  J 0%nat 0%nat = - r -> J 1%nat 1%nat = r -> J 0%nat 1%nat = 0 -> J 1%nat 0%nat = 0 ->
  jones_matrix_rc J 0%nat 0%nat = 0 /\ jones_matrix_rc J 1%nat 1%nat = 0 /\
  jones_matrix_rc J 0%nat 1%nat = r /\ jones_matrix_rc J 1%nat 0%nat = r.
Proof.
  intros A B D E. destruct (circ_closed J) as (E1 & E2 & E3 & E4 & _).
  rewrite E1, E2, E3, E4, A, B, D, E.
  assert (N : (2 : C) <> 0) by (apply C_of_R_neq; lra).
  repeat split; field; auto.
Qed.

Lemma Rtot_unpolarised (J : mat) : J 0%nat 1%nat = 0 -> J 1%nat 0%nat = 0 ->
  Rtot J = unpolarised_power (J 0 0)%nat (J 0 1)%nat (J 1 0)%nat (J 1 1)%nat.
Proof.
  intros A B. unfold Rtot, unpolarised_power. rewrite !R_matrix_norm, A, B.
  unfold Cnorm2; simpl. field.
Qed.

Lemma rho_raw_ratio (J : mat) E z : rho_raw J E = Some z <->
  J 1%nat 1%nat <> 0 /\ mvec 2 J E 1%nat <> 0 /\ z = mvec 2 J E 0%nat / mvec 2 J E 1%nat.
Proof.
  unfold rho_raw, rho_matrix, obind.
  destruct Ceq_dec as [e|n]; [split; [discriminate|tauto]|].
  set (k := J 1%nat 1%nat) in *.
  assert (S : forall i, mvec 2 (fun i j => J i j / k) E i = mvec 2 J E i / k).
  { intros i. unfold mvec; simpl. field. auto. }
  rewrite !S. unfold cdiv. destruct Ceq_dec as [e|m].
  - split; [discriminate|]. intros (_ & N & _). exfalso. apply N.
    transitivity (mvec 2 J E 1%nat / k * k); [field; auto|]. rewrite e. ring.
  - assert (N : mvec 2 J E 1%nat <> 0).
    { intros Z. apply m. rewrite Z. field. auto. }
    split.
    + intros H. injection H as <-. split; [auto|]. split; [auto|]. field; auto.
    + intros (_ & _ & ->). f_equal. field. auto.
Qed.

(** ** In the form of the theorems *)
Lemma rho_ratio (J : mat) (E : nat -> C) (z : C) :
  rho (IZR (-180), IZR 180) J E = Some z <->
  J 1%nat 1%nat <> 0 /\
  (let p := J 0%nat 0%nat * E 0%nat + J 0%nat 1%nat * E 1%nat in
   let s := J 1%nat 0%nat * E 0%nat + J 1%nat 1%nat * E 1%nat in s <> 0 /\ z = p / s).
Proof.
  assert (V : forall i, mvec 2 J E i = J i 0%nat * E 0%nat + J i 1%nat * E 1%nat)
    by (intros; unfold mvec; simpl; ring).
  assert (Q : rho (IZR (-180), IZR 180) J E = Some z <-> rho_raw J E = Some z).
  { unfold rho, obind. destruct (rho_raw J E); [|tauto].
    rewrite fold_id; [tauto|]. left. simpl. apply IZR_neq. lia. }
  rewrite Q, rho_raw_ratio, !V. tauto.
Qed.

Lemma result_consistent_iff l u (J : mat) E (z : C) p d :
  allowed_range l u -> rho (IZR l, IZR u) J E = Some z -> z <> 0 ->
  psi (IZR l, IZR u) J E = Some p -> delta (IZR l, IZR u) J E = Some d ->
  (is_rho p d z <-> (l = 0 \/ l = -180 \/ l = -360)%Z).
Proof.
  unfold psi, delta, obind. intros A H N. rewrite H. intros P D.
  injection P as <-. injection D as <-. now apply consistent_iff.
Qed.

Lemma mueller_nondep (J : mat) M : mueller_matrix J = Some M ->
  sum_f_R0 (fun i => sum_f_R0 (fun j => M i j * M i j)%R 3) 3 = 4%R.
Proof. intros H. rewrite <- (mueller_nondepolarising J M H). unfold sum44. simpl. ring. Qed.

Lemma power2_unpol (J : mat) :
  power2 J = unpolarised_power (J 0 0)%nat (J 0 1)%nat (J 1 0)%nat (J 1 1)%nat.
Proof. unfold power2, unpolarised_power. field. Qed.

Lemma mueller_stokes_action (J : mat) M (x y : C) (i : nat) :
  mueller_matrix J = Some M -> (i < 4)%nat ->
  sum_f_R0 (fun j => M i j * stokes x y j)%R 3 =
  (stokes (J 0%nat 0%nat * x + J 0%nat 1%nat * y)%C (J 1%nat 0%nat * x + J 1%nat 1%nat * y)%C i
   / unpolarised_power (J 0 0)%nat (J 0 1)%nat (J 1 0)%nat (J 1 1)%nat)%R.
Proof.
  intros H Hi. rewrite <- power2_unpol, <- (mueller_action J M x y i H Hi). simpl. ring.
Qed.

Lemma psi_delta_wrong (J : mat) M p d :
  J 0%nat 1%nat = 0 -> J 1%nat 0%nat = 0 -> mueller_matrix J = Some M ->
  (0 < p < 90)%R -> is_rho p d (J 0%nat 0%nat / J 1%nat 1%nat) ->
  cos (rad d) <> (- sin (rad d))%R ->
  ~ (forall i j, (i < 4)%nat -> (j < 4)%nat -> psi_delta_to_mueller p d i j = M i j).
Proof.
  intros A B H Hp R N K.
  assert (Q : M 2%nat 2%nat = M 2%nat 3%nat).
  { rewrite <- !K by lia. apply psi_delta_to_mueller_CS. }
  rewrite !(mueller_isotropic J M p d) in Q; auto; try lia; try lra.
  unfold table44 in Q; simpl in Q.
  assert (P : (0 < sin (2 * rad p))%R).
  { apply sin_gt_0; unfold rad; pose proof PI_RGT_0; nra. }
  apply N. apply Rmult_eq_reg_l with (sin (2 * rad p)); lra.
Qed.

Lemma psi_delta_refuted : exists (J : mat) M (p d : R),
  J 0%nat 1%nat = 0 /\ J 1%nat 0%nat = 0 /\ mueller_matrix J = Some M /\
  (0 <= p < 90)%R /\ is_rho p d (J 0%nat 0%nat / J 1%nat 1%nat) /\
  exists i j, (i < 4)%nat /\ (j < 4)%nat /\ psi_delta_to_mueller p d i j <> M i j.
Proof.
  set (J := mat_of [[RtoC 1; RtoC 0]; [RtoC 0; RtoC 1]]).
  assert (N : J 1%nat 1%nat <> 0) by (apply C_of_R_neq; lra).
  destruct (proj1 (mueller_total J) N) as [M H].
  assert (R : is_rho 45 0 (J 0%nat 0%nat / J 1%nat 1%nat)).
  { apply is_rho_calc. unfold calc_rho, deg2rad, J, mat_of; simpl.
    replace (45 * PI / 180)%R with (PI / 4)%R by field. rewrite tan_PI4.
    replace (0 * PI / 180)%R with 0%R by field.
    replace (- Ci * 0) with (0 : C) by ring. rewrite Cexp_0. field. apply C_of_R_neq; lra. }
  exists J, M, 45%R, 0%R. repeat split; auto; try lra; try apply R.
  assert (V : M 2%nat 2%nat = 1%R /\ M 2%nat 3%nat = 0%R).
  { rewrite !(mueller_isotropic J M 45 0); auto; try lia; try lra.
    unfold table44; simpl. unfold rad.
    replace (2 * (45 * PI / 180))%R with (PI / 2)%R by field.
    replace (0 * PI / 180)%R with 0%R by field.
    rewrite sin_PI2, cos_0, sin_0. split; ring. }
  destruct V as [V1 V2].
  destruct (Req_dec (psi_delta_to_mueller 45 0 2%nat 2%nat) 1) as [e|n].
  - exists 2%nat, 3%nat. rewrite <- psi_delta_to_mueller_CS, e, V2. repeat split; try lia; lra.
  - exists 2%nat, 2%nat. rewrite V1. repeat split; try lia; auto.
Qed.

Lemma circ_refl (J : mat) k i : (k < 2)%nat -> (i < 2)%nat ->
  J i 0%nat * circ_vec k 0 + J i 1%nat * circ_vec k 1 =
  - (jones_matrix_rc J 0%nat k * circ_vec 0 i + jones_matrix_rc J 1%nat k * circ_vec 1 i).
Proof. intros. rewrite <- circ_action_r by auto. unfold mvec; simpl; ring. Qed.

Lemma circ_trans (J : mat) k i : (k < 2)%nat -> (i < 2)%nat ->
  J i 0%nat * circ_vec k 0 + J i 1%nat * circ_vec k 1 =
  jones_matrix_tc J 0%nat k * circ_vec 0 i + jones_matrix_tc J 1%nat k * circ_vec 1 i.
Proof. intros. rewrite <- circ_action_t by auto. unfold mvec; simpl; ring. Qed.

Lemma circ_power_col' (J : mat) k : (k < 2)%nat ->
  (Rc_matrix J 0%nat k + Rc_matrix J 1%nat k =
   Cnorm2 (J 0%nat 0%nat * circ_vec k 0 + J 0%nat 1%nat * circ_vec k 1)%C +
   Cnorm2 (J 1%nat 0%nat * circ_vec k 0 + J 1%nat 1%nat * circ_vec k 1)%C)%R.
Proof.
  intros H. rewrite circ_power_col by auto. f_equal; f_equal; unfold mvec; simpl; ring.
Qed.

Lemma Rtot_deficit (J : mat) :
  (unpolarised_power (J 0 0)%nat (J 0 1)%nat (J 1 0)%nat (J 1 1)%nat - Rtot J =
   (Cnorm2 (J 0%nat 1%nat) + Cnorm2 (J 1%nat 0%nat)) / 2)%R.
Proof. unfold Rtot, unpolarised_power. rewrite !R_matrix_norm. field. Qed.
