From Coq Require Import Reals ZArith List Lra Lia Psatz.
From Coquelicot Require Import Complex.
From Verif.Base Require Import Py Cx Mat.
From Verif.Model Require Import DeltaRange Ellips.
From Verif.Spec Require Import Angle Light.
From Verif.Proof Require Import DeltaRangeP.
Import ListNotations.
Open Scope R_scope.
Open Scope C_scope.

Lemma deg2rad_rad2deg x : deg2rad (rad2deg x) = x.
Proof. unfold deg2rad, rad2deg. pose proof PI_RGT_0. field. lra. Qed.

Lemma tan_psi z : tan (deg2rad (psi_of z)) = Cmod z.
Proof. unfold psi_of. rewrite deg2rad_rad2deg. apply tan_atan. Qed.

Lemma psi_range z : (0 <= psi_of z < 90)%R.
Proof.
  unfold psi_of, rad2deg. pose proof PI_RGT_0 as P.
  pose proof (atan_bound (Cmod z)) as B.
  assert (A : (0 <= atan (Cmod z))%R).
  { pose proof (Cmod_ge_0 z) as [H|H].
    - left. rewrite <- atan_0. now apply atan_increasing.
    - rewrite <- H, atan_0. lra. }
  split.
  - apply Rmult_le_pos; [lra|]. left. now apply Rinv_0_lt_compat.
  - apply Rmult_lt_reg_r with PI; auto.
    replace (atan (Cmod z) * 180 / PI * PI)%R with (atan (Cmod z) * 180)%R by (field; lra).
    lra.
Qed.

Lemma delta_in_turn rg z : in_turn (fst rg) (delta_of rg z).
Proof.
  unfold in_turn, delta_of.
  pose proof (np_mod_bound (- rad2deg (Carg z) + fst rg) 360). lra.
Qed.

Lemma cos_turns x k : cos (x + 2 * PI * IZR k) = cos x.
Proof.
  destruct k as [|p|p].
  - f_equal. ring.
  - rewrite <- (positive_nat_Z p), <- INR_IZR_INZ.
    replace (x + 2 * PI * INR (Pos.to_nat p))%R with (x + 2 * INR (Pos.to_nat p) * PI)%R by ring.
    apply cos_period.
  - rewrite <- (cos_period (x + 2 * PI * IZR (Z.neg p)) (Pos.to_nat p)).
    f_equal. rewrite INR_IZR_INZ, positive_nat_Z.
    change (Z.neg p) with (- Z.pos p)%Z. rewrite opp_IZR. ring.
Qed.

Lemma sin_turns x k : sin (x + 2 * PI * IZR k) = sin x.
Proof.
  rewrite <- !cos_shift.
  replace (PI / 2 - (x + 2 * PI * IZR k))%R with (PI / 2 - x + 2 * PI * IZR (- k))%R
    by (rewrite opp_IZR; ring).
  apply cos_turns.
Qed.

Lemma cis_turns x k : cis (x + 2 * PI * IZR k) = cis x.
Proof. unfold cis. now rewrite cos_turns, sin_turns. Qed.

Lemma delta_cong rg z :
  exists k : Z, deg2rad (delta_of rg z) =
    (- Carg z + deg2rad (2 * fst rg) + 2 * PI * IZR k)%R.
Proof.
  destruct (np_mod_cong (- rad2deg (Carg z) + fst rg) 360) as [k E].
  exists k. unfold delta_of. rewrite E. unfold deg2rad, rad2deg.
  pose proof PI_RGT_0. field. lra.
Qed.

Lemma Cexp_mi x : Cexp (- Ci * RtoC x) = cis (- x).
Proof.
  rewrite cis_Cexp. f_equal. rewrite RtoC_opp. ring.
Qed.

(** What calc_rho returns for the psi and delta of a complex number. *)
Lemma calc_rho_shift rg z :
  calc_rho (psi_of z) (delta_of rg z) = z * cis (- deg2rad (2 * fst rg)).
Proof.
  unfold calc_rho. rewrite tan_psi, Cexp_mi.
  destruct (delta_cong rg z) as [k E]. rewrite E.
  replace (- (- Carg z + deg2rad (2 * fst rg) + 2 * PI * IZR k))%R
    with (Carg z + - deg2rad (2 * fst rg) + 2 * PI * IZR (- k))%R by (rewrite opp_IZR; ring).
  rewrite cis_turns, cis_plus. rewrite (C_polar z) at 3. ring.
Qed.

Lemma cis_0 : cis 0 = 1.
Proof. unfold cis. now rewrite cos_0, sin_0. Qed.

Lemma cis_half_turns k : cis (- deg2rad (2 * IZR (180 * k))) = 1.
Proof.
  replace (- deg2rad (2 * IZR (180 * k)))%R with (0 + 2 * PI * IZR (- k))%R.
  - rewrite cis_turns. apply cis_0.
  - unfold deg2rad. rewrite mult_IZR, opp_IZR. field.
Qed.

Lemma is_rho_calc p d z : is_rho p d z <-> z = calc_rho p d.
Proof.
  unfold is_rho, calc_rho. rewrite Cexp_mi. unfold cis.
  rewrite cos_neg, sin_neg. fold (deg2rad p) (deg2rad d).
  destruct z as [x y]; simpl; unfold Re, Im; simpl. split.
  - intros [A B]. rewrite A, B. Ccomp; ring.
  - intros H. injection H as A B. rewrite A, B. split; ring.
Qed.

(** The folded value for (0, 180) *)
Lemma fold_Im rg z : fst rg = 0%R -> snd rg = 180%R -> (snd (fold_rho rg z) <= 0)%R.
Proof.
  intros A B. unfold fold_rho, Reqb. rewrite A, B.
  destruct Req_EM_T; [|tauto]. destruct Req_EM_T; [|tauto]. simpl.
  pose proof (Rabs_pos (snd z)). lra.
Qed.

Lemma fold_Re rg z : fst (fold_rho rg z) = fst z.
Proof. unfold fold_rho. destruct andb; auto. Qed.

Lemma fold_mod rg z : Cmod (fold_rho rg z) = Cmod z.
Proof.
  rewrite !Cmod_sqrt. f_equal. unfold Cnorm2. rewrite fold_Re.
  unfold fold_rho. destruct andb; simpl; auto.
  pose proof (Rsqr_abs (snd z)) as H. unfold Rsqr in H. lra.
Qed.

Lemma fold_id rg z : (fst rg <> 0 \/ snd rg <> 180)%R -> fold_rho rg z = z.
Proof.
  intros H. unfold fold_rho, Reqb.
  destruct Req_EM_T; simpl; auto. destruct Req_EM_T; simpl; auto. lra.
Qed.

Lemma Carg_neg_Im z : (snd z <= 0)%R -> (Carg z <= 0)%R \/ Carg z = PI.
Proof.
  intros H. unfold Carg. pose proof PI_RGT_0 as P.
  destruct (Rlt_dec 0 (fst z)).
  - left. rewrite <- atan_0.
    assert (snd z / fst z <= 0)%R as [L|E].
    { replace (snd z / fst z)%R with (- (- snd z * / fst z))%R by (field; lra).
      assert (0 <= - snd z * / fst z)%R; [|lra].
      apply Rmult_le_pos; [lra|]. left. now apply Rinv_0_lt_compat. }
    + left. now apply atan_increasing.
    + rewrite E. lra.
  - destruct (Rlt_dec (fst z) 0).
    + destruct (Rlt_dec (snd z) 0).
      * left. pose proof (atan_bound (snd z / fst z)). lra.
      * right. assert (E : snd z = 0%R) by lra. rewrite E.
        replace (0 / fst z)%R with 0%R by (field; lra). rewrite atan_0. ring.
    + destruct (Rlt_dec 0 (snd z)); [lra|]. destruct (Rlt_dec (snd z) 0); left; lra.
Qed.

Lemma delta_folded rg z : fst rg = 0%R -> snd rg = 180%R ->
  (0 <= delta_of rg (fold_rho rg z) <= 180)%R.
Proof.
  intros A B. pose proof (fold_Im rg z A B) as I.
  set (w := fold_rho rg z) in *. unfold delta_of. rewrite A.
  pose proof PI_RGT_0 as P. pose proof (Carg_bound w) as Cb.
  assert (E : (0 <= - rad2deg (Carg w) < 180)%R \/ (- rad2deg (Carg w) = -180)%R).
  { destruct (Carg_neg_Im w I) as [L|L].
    - left. unfold rad2deg.
      replace (- (Carg w * 180 / PI))%R with (- Carg w * (180 / PI))%R by (field; lra).
      assert (Q : (0 < 180 / PI)%R) by (apply Rdiv_lt_0_compat; lra). split.
      + apply Rmult_le_pos; lra.
      + replace 180%R with (PI * (180 / PI))%R at 2 by (field; lra).
        apply Rmult_lt_compat_r; lra.
    - right. unfold rad2deg. rewrite L. field. lra. }
  destruct E as [E|E].
  - rewrite (np_mod_unique _ _ (- rad2deg (Carg w))); try lra. exists 0%Z. lra.
  - rewrite (np_mod_unique _ _ 180); try lra. exists 1%Z. lra.
Qed.

(** ** The three statements on a Result *)
Lemma rho_fold rg (J : mat) E z : rho rg J E = Some z -> exists w, rho_raw J E = Some w /\ z = fold_rho rg w.
Proof.
  unfold rho, obind. destruct (rho_raw J E) as [w|]; intros H; inversion H; eauto.
Qed.

Lemma result_consistent l u (J : mat) E z : allowed_range l u ->
  (l = 0 \/ l = -180 \/ l = -360)%Z ->
  rho (IZR l, IZR u) J E = Some z ->
  exists p d, psi (IZR l, IZR u) J E = Some p /\ delta (IZR l, IZR u) J E = Some d /\
    (0 <= p < 90)%R /\ in_turn (IZR l) d /\ is_rho p d z.
Proof.
  intros A L H. unfold psi, delta, obind. rewrite H.
  exists (psi_of z), (delta_of (IZR l, IZR u) z).
  split; [reflexivity|]. split; [reflexivity|]. split; [apply psi_range|].
  split; [apply (delta_in_turn (IZR l, IZR u))|].
  apply is_rho_calc. rewrite calc_rho_shift. simpl fst.
  assert (exists k, l = 180 * k)%Z as [k ->].
  { destruct L as [->|[->| ->]]; [exists 0%Z|exists (-1)%Z|exists (-2)%Z]; lia. }
  rewrite cis_half_turns. ring.
Qed.

Lemma result_folded_range (J : mat) E z d :
  rho (0, 180)%R J E = Some z -> delta (0, 180)%R J E = Some d ->
  (snd z <= 0)%R /\ (0 <= d <= 180)%R.
Proof.
  unfold delta, obind. intros H. rewrite H. intros K. inversion K as [K']; subst d.
  apply rho_fold in H as (w & _ & ->). split.
  - now apply fold_Im.
  - now apply delta_folded.
Qed.

(** For every allowed range: consistent exactly for three lower bounds. *)
Lemma cis_eq1 x : cis x = 1 -> exists k : Z, x = (2 * PI * IZR k)%R.
Proof.
  intros H. injection H as Hc Hs.
  destruct (sin_eq_0_0 x Hs) as [k K]. subst x.
  assert (Even : exists m, k = (2 * m)%Z).
  { destruct (Z.Even_or_Odd k) as [[m ->]|[m ->]]; [eauto|]. exfalso.
    rewrite plus_IZR, mult_IZR in Hc.
    replace ((2 * IZR m + 1) * PI)%R with (PI + 2 * PI * IZR m)%R in Hc by ring.
    rewrite cos_turns, cos_PI in Hc. lra. }
  destruct Even as [m ->]. exists m. rewrite mult_IZR. ring.
Qed.

Lemma consistent_iff l u (z : C) : allowed_range l u -> z <> 0 ->
  (is_rho (psi_of z) (delta_of (IZR l, IZR u) z) z <-> (l = 0 \/ l = -180 \/ l = -360)%Z).
Proof.
  intros A N. rewrite is_rho_calc, calc_rho_shift. simpl fst. split.
  - intros H.
    assert (K : cis (- deg2rad (2 * IZR l)) = 1).
    { apply Cmult_cancel with z; auto. rewrite <- H. ring. }
    apply cis_eq1 in K as [k K]. unfold deg2rad in K. pose proof PI_RGT_0 as P.
    assert (Q : (PI * (- (2 * IZR l)) = PI * (360 * IZR k))%R) by lra.
    apply Rmult_eq_reg_l in Q; [|lra].
    assert (Q' : IZR (- (2 * l)) = IZR (360 * k)) by (rewrite opp_IZR, !mult_IZR; lra).
    apply eq_IZR in Q'. unfold allowed_range in A. lia.
  - intros L. assert (exists k, l = 180 * k)%Z as [k ->].
    { destruct L as [->|[->| ->]]; [exists 0%Z|exists (-1)%Z|exists (-2)%Z]; lia. }
    rewrite cis_half_turns. ring.
Qed.

(** delta_matrix is not folded *)
Definition Jquarter : mat := mat_of [[Ci; RtoC 0]; [RtoC 0; RtoC 1]].

Lemma delta_matrix_unfolded : delta_matrix (0, 180)%R Jquarter 0 0 = Some 270%R.
Proof.
  unfold delta_matrix, rho_matrix, obind.
  assert (E1 : Jquarter 1%nat 1%nat = 1) by reflexivity.
  assert (E2 : Jquarter 0%nat 0%nat = Ci) by reflexivity.
  destruct Ceq_dec as [E|_]; [rewrite E1 in E; injection E; lra|].
  cbv beta. rewrite E1, E2.
  replace (Ci / 1) with Ci by (field; apply C_of_R_neq; lra).
  f_equal. unfold delta_of; cbn [fst].
  assert (Ca : Carg Ci = (PI / 2)%R).
  { unfold Carg, Ci; simpl. destruct Rlt_dec; [lra|]. destruct Rlt_dec; [lra|].
    destruct Rlt_dec; lra. }
  rewrite Ca. unfold rad2deg. pose proof PI_RGT_0 as P.
  rewrite (np_mod_unique _ _ 270); try lra.
  exists 1%Z. field. lra.
Qed.

