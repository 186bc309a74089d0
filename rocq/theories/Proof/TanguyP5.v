(** The dimension near two, for C102. *)
From Coq Require Import Reals ZArith Lra Lia Psatz.
From Coquelicot Require Import Coquelicot.
From Verif.Base Require Import Py Cx Special.
From Verif.Model Require Import Units Dispersions Tanguy.
From Verif.Proof Require Import DispersionsP SpecialP TanguyP TanguyP3.
Open Scope R_scope.

(** Logarithm of the gamma function *)
Definition lnG (x : R) : R := Series (rterm x) - ln x.
Lemma gamma_lnG x : 0 < x -> Cgamma (RtoC x) = Some (RtoC (exp (lnG x))).
Proof.
  intros H. rewrite gamma_series by exact H. do 2 f_equal. unfold lnG, Rminus. rewrite exp_plus, exp_Ropp, exp_ln by exact H. reflexivity.
Qed.
Definition squares : R := Series (fun k => / ((INR k + 1) * (INR k + 1))).
Lemma rterm_lip M y z k : 1 <= M -> 0 < z -> z <= y -> y <= M -> Rabs (rterm y k - rterm z k) <= M * (y - z) * / ((INR k + 1) * (INR k + 1)).
Proof.
  intros M1' Z Y Y2. assert (K := pos_INR k). unfold rterm. set (u := / (INR k + 1)). assert (U : 0 < u) by (apply Rinv_0_lt_compat; lra).
  replace (y / (INR k + 1)) with (y * u) by reflexivity. replace (z / (INR k + 1)) with (z * u) by reflexivity. rewrite Rinv_mult. fold u.
  assert (A1 := ln_upper u ltac:(lra)). assert (A2 := ln_lower u ltac:(lra)).
  set (v := (y - z) * u * / (1 + z * u)).
  assert (ZU : 0 < z * u) by nra. assert (IV : 0 < / (1 + z * u)) by (apply Rinv_0_lt_compat; lra).
  assert (V0 : 0 <= v) by (unfold v; apply Rmult_le_pos; [apply Rmult_le_pos; lra|lra]).
  assert (LN : ln (1 + y * u) - ln (1 + z * u) = ln (1 + v)).
  { rewrite <- ln_div by nra. f_equal. unfold v. field. lra. }
  assert (B1 := ln_upper v V0). assert (B2 := ln_lower v V0).
  assert (I1 : / (1 + z * u) <= 1) by (rewrite <- Rinv_1; apply Rinv_le_contravar; lra).
  assert (I2 : 1 - z * u <= / (1 + z * u)).
  { apply Rmult_le_reg_r with (1 + z * u); [lra|]. rewrite Rinv_l by lra. nra. }
  assert (YU : 0 <= (y - z) * u) by (apply Rmult_le_pos; lra).
  assert (V1 : v <= (y - z) * u) by (unfold v; rewrite <- (Rmult_1_r ((y - z) * u)) at 2; apply Rmult_le_compat_l; assumption).
  assert (V2 : (y - z) * u * (1 - z * u) <= v) by (unfold v; apply Rmult_le_compat_l; assumption).
  assert (VV : v * v <= (y - z) * u * ((y - z) * u)) by (apply Rmult_le_compat; assumption).
  replace (y * ln (1 + u) - ln (1 + y * u) - (z * ln (1 + u) - ln (1 + z * u))) with ((y - z) * ln (1 + u) - ln (1 + v)) by (rewrite <- LN; ring).
  assert (M1 : (y - z) * ln (1 + u) <= (y - z) * u) by (apply Rmult_le_compat_l; lra).
  assert (M2 : (y - z) * (u - u * u / 2) <= (y - z) * ln (1 + u)) by (apply Rmult_le_compat_l; lra).
  assert (W : 0 <= (y - z) * (u * u)) by (apply Rmult_le_pos; nra).
  assert (W2 : (y - z) * (u * u) * (z + (y - z) / 2) <= (y - z) * (u * u) * M) by (apply Rmult_le_compat_l; lra).
  assert (W3 : (y - z) * (u * u) * 1 <= (y - z) * (u * u) * M) by (apply Rmult_le_compat_l; lra).
  apply Rabs_le. split; [nra|]. clear B1 A1 A2 I1 I2 IV M2 LN W3. nra.
Qed.
Lemma rseries_lip M y z : 1 <= M -> 0 < z -> z <= y -> y <= M -> Rabs (Series (rterm y) - Series (rterm z)) <= M * squares * (y - z).
Proof.
  intros HM Z Y Y2. assert (CY := gamma_converges y ltac:(lra)). assert (CZ := gamma_converges z Z). rewrite <- Series_minus by assumption.
  assert (EX : ex_series (fun k => M * (y - z) * / ((INR k + 1) * (INR k + 1)))) by exact (ex_series_scal_l (M * (y - z)) _ sum_squares).
  assert (EA : ex_series (fun k => Rabs (rterm y k - rterm z k))).
  { apply (ex_series_le (V := R_CompleteNormedModule) _ (fun k => M * (y - z) * / ((INR k + 1) * (INR k + 1)))); [|exact EX]. intros k. change (Rabs (Rabs (rterm y k - rterm z k)) <= M * (y - z) * / ((INR k + 1) * (INR k + 1))). rewrite Rabs_Rabsolu. now apply rterm_lip. }
  eapply Rle_trans; [apply Series_Rabs; exact EA|].
  replace (M * squares * (y - z)) with (Series (fun k => M * (y - z) * / ((INR k + 1) * (INR k + 1)))) by (rewrite Series_scal_l; unfold squares; ring).
  apply Series_le; [|exact EX]. intros k. split; [apply Rabs_pos|now apply rterm_lip].
Qed.
Lemma squares_pos : 0 <= squares.
Proof.
  unfold squares. rewrite <- (Series_zero (fun _ => 0)) by reflexivity. apply Series_le; [|exact sum_squares]. intros k. assert (K := pos_INR k). split; [lra|]. left. apply Rinv_0_lt_compat. nra.
Qed.
Definition lipG : R := 2 * squares + 4.
Lemma lnG_lip y z : 1 / 4 <= z -> 1 / 4 <= y -> z <= 2 -> y <= 2 -> Rabs (lnG y - lnG z) <= lipG * Rabs (y - z).
Proof.
  assert (ORD : forall y z, 1 / 4 <= z -> z <= y -> y <= 2 -> Rabs (lnG y - lnG z) <= lipG * (y - z)).
  { intros y' z' Z Y Y2. unfold lnG, lipG. assert (S := rseries_lip 2 y' z' ltac:(lra) ltac:(lra) Y Y2).
    assert (L : 0 <= ln y' - ln z' <= 4 * (y' - z')).
    { rewrite <- ln_div by lra. replace (y' / z') with (1 + (y' - z') * / z') by (field; lra). assert (IZ : / z' <= 4) by (replace 4 with (/ (1 / 4)) by field; apply Rinv_le_contravar; lra). assert (IZ0 : 0 < / z') by (apply Rinv_0_lt_compat; lra).
      assert (Q : 0 <= (y' - z') * / z') by (apply Rmult_le_pos; lra). split.
      - rewrite <- ln_1. destruct (Req_dec ((y' - z') * / z') 0) as [->|N]; [rewrite Rplus_0_r; lra|]. left. apply ln_increasing; lra.
      - eapply Rle_trans; [apply ln_upper; exact Q|]. rewrite Rmult_comm. apply Rmult_le_compat_r; lra. }
    replace (Series (rterm y') - ln y' - (Series (rterm z') - ln z')) with ((Series (rterm y') - Series (rterm z')) - (ln y' - ln z')) by ring.
    apply Rabs_le_between in S. apply Rabs_le. lra. }
  intros Z Y Z2 Y2. destruct (Rle_dec z y) as [L|L].
  - rewrite (Rabs_pos_eq (y - z)) by lra. now apply ORD.
  - rewrite Rabs_minus_sym, (Rabs_minus_sym y z), (Rabs_pos_eq (z - y)) by lra. apply ORD; lra.
Qed.

(** Gamma (1/2)^2 >= 3 (it is pi) *)
Lemma half_series : - (1 / 8) <= Series (rterm (1 / 2)).
Proof.
  assert (T : is_series (fun k => / ((INR k + 1)) - / (INR (S k) + 1)) (/ (INR 0 + 1) - 0)).
  { apply (telescope (fun k => / (INR k + 1)) 0). apply inv_INR_lim. }
  assert (T8 : Series (fun k => 1 / 8 * (/ (INR k + 1) - / (INR (S k) + 1))) = 1 / 8).
  { rewrite Series_scal_l, (is_series_unique _ _ T). simpl. field. }
  assert (EX8 : ex_series (fun k => 1 / 8 * (/ (INR k + 1) - / (INR (S k) + 1)))) by (exact (ex_series_scal_l (1 / 8) _ (ex_intro _ _ T))).
  assert (CV := gamma_converges (1 / 2) ltac:(lra)).
  assert (N : Series (fun k => - rterm (1 / 2) k) <= 1 / 8).
  { rewrite <- T8. apply Series_le; [|exact EX8]. intros k. assert (K := pos_INR k). unfold rterm. rewrite S_INR. set (u := / (INR k + 1)). assert (U : 0 < u) by (apply Rinv_0_lt_compat; lra).
    replace (1 / 2 / (INR k + 1)) with (u / 2) by (unfold u; field; lra).
    assert (EQ : - (1 / 2 * ln (1 + u) - ln (1 + u / 2)) = 1 / 2 * ln (1 + u * u / (4 * (1 + u)))).
    { replace (1 + u * u / (4 * (1 + u))) with ((1 + u / 2) * (1 + u / 2) / (1 + u)) by (field; lra). rewrite ln_div, ln_mult by nra. field. }
    rewrite EQ. assert (Q : 0 <= u * u / (4 * (1 + u))) by (apply Rmult_le_pos; [nra|left; apply Rinv_0_lt_compat; lra]).
    assert (A := ln_upper _ Q). split.
    - apply Rmult_le_pos; [lra|]. rewrite <- ln_1. destruct (Req_dec (u * u / (4 * (1 + u))) 0) as [->|NZ]; [rewrite Rplus_0_r; lra|]. left. apply ln_increasing; lra.
    - replace (1 / 8 * (u - / (INR k + 1 + 1))) with (1 / 2 * (u * u / (4 * (1 + u)))) by (unfold u; field; lra). lra. }
  rewrite Series_opp in N. lra.
Qed.
Lemma gamma_half : 3 <= exp (2 * lnG (1 / 2)).
Proof.
  assert (H := half_series). unfold lnG. replace (ln (1 / 2)) with (- ln 2) by (rewrite <- ln_Rinv by lra; f_equal; field).
  replace (2 * (Series (rterm (1 / 2)) - - ln 2)) with (ln 2 + ln 2 + 2 * Series (rterm (1 / 2))) by ring. rewrite !exp_plus, exp_ln by lra.
  assert (E : 1 + - (1 / 4) < exp (- (1 / 4))) by (apply exp_ineq1; lra).
  assert (M : exp (- (1 / 4)) <= exp (2 * Series (rterm (1 / 2)))).
  { destruct (Req_dec (2 * Series (rterm (1 / 2))) (- (1 / 4))) as [->|N]; [lra|]. left. apply exp_increasing. lra. }
  lra.
Qed.

(** Cotangent *)
Definition rcot (t : R) : R := cos t / sin t.
Lemma x_cos_sin x : 0 <= x -> x <= PI / 2 -> x * cos x <= sin x.
Proof.
  intros X P. destruct (MVT_gen (fun t => sin t - t * cos t) 0 x (fun t => t * sin t)) as (c & [C1 C2] & E).
  - intros t _. auto_derive; [exact I|]. ring.
  - intros t _. apply continuity_pt_filterlim. apply (ex_derive_continuous (fun t => sin t - t * cos t)). auto_derive. exact I.
  - rewrite Rmin_left in C1 by exact X. rewrite Rmax_right in C2 by exact X. rewrite sin_0, Rmult_0_l, Rminus_0_r in E.
    assert (0 <= sin c) by (apply sin_ge_0; lra). assert (0 <= c * sin c * (x - 0)) by (apply Rmult_le_pos; [apply Rmult_le_pos|]; lra). lra.
Qed.
Lemma rcot_bound s : 0 < s -> s <= 1 / 2 -> 0 <= rcot (PI * s) <= / (PI * s).
Proof.
  intros S0 S1. assert (P := PI_RGT_0). assert (X : 0 < PI * s) by nra. assert (X2 : PI * s <= PI / 2) by nra.
  assert (SN : 0 < sin (PI * s)) by (apply sin_gt_0; lra). assert (CS : 0 <= cos (PI * s)) by (apply cos_ge_0; lra). unfold rcot. split.
  - apply Rmult_le_pos; [exact CS|left; apply Rinv_0_lt_compat; exact SN].
  - assert (L := x_cos_sin (PI * s) ltac:(lra) X2). apply Rmult_le_reg_r with (sin (PI * s)); [exact SN|]. apply Rmult_le_reg_l with (PI * s); [exact X|].
    field_simplify; lra.
Qed.
Lemma rcot_period t : rcot (t + PI) = rcot t.
Proof.
  unfold rcot. rewrite neg_cos, neg_sin. destruct (Req_dec (sin t) 0) as [->|N]; [rewrite Ropp_0; unfold Rdiv; rewrite Rinv_0; ring|]. field. exact N.
Qed.
Lemma rcot_opp t : rcot (- t) = - rcot t.
Proof.
  unfold rcot. rewrite cos_neg, sin_neg. destruct (Req_dec (sin t) 0) as [->|N]; [rewrite Ropp_0; unfold Rdiv; rewrite Rinv_0; ring|]. field. exact N.
Qed.
Lemma rcot_D dl : dl <> 0 -> Rabs dl <= 1 / 2 -> Rabs (rcot (PI * (1 + dl))) <= / (PI * Rabs dl).
Proof.
  intros N B. replace (PI * (1 + dl)) with (PI * dl + PI) by ring. rewrite rcot_period. destruct (Rle_dec 0 dl) as [L|L].
  - rewrite (Rabs_pos_eq dl) in * by exact L. destruct (rcot_bound dl) as [A1 A2]; [lra..|]. now rewrite Rabs_pos_eq.
  - rewrite (Rabs_left dl) in * by lra. destruct (rcot_bound (- dl)) as [A1 A2]; [lra..|].
    replace (PI * dl) with (- (PI * - dl)) by ring. rewrite rcot_opp, Rabs_Ropp, Rabs_pos_eq by exact A1. exact A2.
Qed.

(** g in real numbers for other dimensions *)
Definition expo (dl x : R) : R := lnG (1 / 2 + dl / 2 + x) - lnG (1 / 2 - dl / 2 + x) - dl * ln x.
Definition pref (dl : R) : R := 2 * PI * exp (- (2 * lnG (1 / 2 + dl / 2))).
Definition rgd (dl x : R) : R := pref dl * exp (expo dl x) * (rcot (PI * (1 / 2 + dl / 2 - x)) - rcot (PI * (1 + dl))).
Lemma cot_rcot t : sin t <> 0 -> cot (RtoC t) = Some (RtoC (rcot t)).
Proof. intros H. unfold cot. rewrite Ccos_R, Csin_R, cdiv_real by exact H. reflexivity. Qed.
Lemma cpower_exp x p : 0 < x -> cpower (RtoC x) p = Some (RtoC (exp (p * ln x))).
Proof.
  intros H. unfold cpower, Cpowr. destruct (Ceq_dec (RtoC x) (RtoC 0)) as [E|_]; [apply RtoC_inj in E; lra|]. rewrite Clog_real by exact H.
  f_equal. rewrite <- RtoC_mult. unfold Cexp, RtoC. cbn [fst snd]. rewrite cos_0, sin_0. f_equal; ring.
Qed.
Lemma g_rgd dl x : dl <> 0 -> Rabs dl < 1 -> 0 < x -> (forall n, x <> INR n + (1 / 2 + dl / 2)) -> g (RtoC x) (2 + dl) = Some (RtoC (rgd dl x)).
Proof.
  intros N B X NB. apply Rabs_def2 in B. unfold g. destruct (Req_EM_T (2 + dl) 2) as [K|_]; [lra|]. destruct (Req_EM_T (2 + dl) 3) as [K|_]; [lra|]. cbv zeta.
  replace ((2 + dl - 1) / 2) with (1 / 2 + dl / 2) by field. rewrite <- RtoC_minus, <- !RtoC_plus.
  rewrite !gamma_lnG by lra. cbn [obind]. rewrite cpower_exp by exact X. cbn [obind]. rewrite <- !RtoC_mult.
  assert (E0 : forall t, exp t <> 0) by (intros t; apply Rgt_not_eq, exp_pos).
  rewrite cdiv_real by (apply Rmult_integral_contrapositive_currified; apply E0). cbn [obind]. rewrite cdiv_real by apply E0. cbn [obind]. rewrite cdiv_real by apply E0. cbn [obind].
  rewrite <- RtoC_minus, <- RtoC_mult. rewrite cot_rcot.
  2:{ intros S. destruct (sin_bound x (2 + dl) X) as [n En]; [lra|lra| |apply (NB n); lra]. rewrite <- S. f_equal. field. }
  cbn [obind]. rewrite cot_rcot by (apply sin_PI_D; lra). cbn [obind]. rewrite <- RtoC_minus, <- RtoC_mult. do 2 f_equal. unfold rgd, pref.
  replace (1 - (1 / 2 + dl / 2) + x) with (1 / 2 - dl / 2 + x) by field. replace (2 + dl - 2) with dl by ring. replace (2 + dl - 1) with (1 + dl) by ring. f_equal.
  assert (EX : exp (expo dl x) = exp (lnG (1 / 2 + dl / 2 + x)) * / exp (lnG (1 / 2 - dl / 2 + x)) * / exp (dl * ln x)).
  { unfold expo, Rminus. now rewrite !exp_plus, !exp_Ropp. }
  rewrite EX, exp_Ropp. replace (2 * lnG (1 / 2 + dl / 2)) with (lnG (1 / 2 + dl / 2) + lnG (1 / 2 + dl / 2)) by ring. rewrite exp_plus. field. repeat split; apply E0.
Qed.

(** Estimates near dimension two *)
Definition uG : R := lipG + 7.
Lemma lipG_ge : 4 <= lipG.
Proof. unfold lipG. assert (H := squares_pos). lra. Qed.
Lemma exp_close y : Rabs y <= 1 -> Rabs (exp y - 1) <= 3 * Rabs y.
Proof.
  intros B. assert (E1 : forall z, 1 + z <= exp z) by (intros z; destruct (Req_dec z 0) as [->|N]; [rewrite exp_0; lra|left; now apply exp_ineq1]).
  assert (A := E1 y). assert (A' := E1 (- y)). assert (P := exp_pos y). assert (M : exp (- y) * exp y = 1) by (rewrite <- exp_plus, Rplus_opp_l; apply exp_0).
  assert (E3 := exp_le_3). destruct (Rle_dec 0 y) as [L|L].
  - rewrite (Rabs_pos_eq y) in * by exact L. assert (X : exp y <= 3).
    { destruct (Req_dec y 1) as [->|N]; [exact E3|]. left. eapply Rlt_le_trans; [apply exp_increasing with (y := 1)|exact E3]. lra. }
    apply Rabs_le. split; [lra|]. assert ((1 - y) * exp y <= 1) by nra. nra.
  - rewrite (Rabs_left y) in * by lra. apply Rabs_le. split; [lra|]. assert (exp y < 1) by (rewrite <- exp_0; apply exp_increasing; lra). lra.
Qed.
Lemma ln_small x : 1 / 8 <= x -> x <= 1 / 2 -> Rabs (ln x) <= 7.
Proof.
  intros A B. assert (L : ln x < 0) by (rewrite <- ln_1; apply ln_increasing; lra). rewrite Rabs_left by exact L.
  rewrite <- ln_Rinv by lra. assert (I : / x <= 8) by (replace 8 with (/ (1 / 8)) by field; apply Rinv_le_contravar; lra). assert (I1 : 1 < / x) by (rewrite <- Rinv_1; apply Rinv_lt_contravar; lra).
  replace (/ x) with (1 + (/ x - 1)) by ring. eapply Rle_trans; [apply ln_upper; lra|lra].
Qed.
Lemma expo_bound dl x : Rabs dl <= 1 / 4 -> 1 / 8 <= x -> x <= 1 / 2 -> Rabs (expo dl x) <= uG * Rabs dl.
Proof.
  intros B A1 A2. apply Rabs_le_between in B as B'. unfold expo, uG. assert (L := lnG_lip (1 / 2 + dl / 2 + x) (1 / 2 - dl / 2 + x) ltac:(lra) ltac:(lra) ltac:(lra) ltac:(lra)).
  replace (1 / 2 + dl / 2 + x - (1 / 2 - dl / 2 + x)) with dl in L by field. assert (N := ln_small x A1 A2).
  unfold Rminus at 1. eapply Rle_trans; [apply Rabs_triang|]. rewrite Rabs_Ropp, Rabs_mult. assert (P := Rabs_pos dl).
  assert (Rabs dl * Rabs (ln x) <= Rabs dl * 7) by (apply Rmult_le_compat_l; assumption). lra.
Qed.
Lemma pref_bound dl : Rabs dl <= 1 / 4 -> 0 < pref dl /\ pref dl <= 2 * PI / 3 * exp (lipG * Rabs dl).
Proof.
  intros B. apply Rabs_le_between in B as B'. assert (P := PI_RGT_0). unfold pref. split; [apply Rmult_lt_0_compat; [lra|apply exp_pos]|].
  assert (L := lnG_lip (1 / 2 + dl / 2) (1 / 2) ltac:(lra) ltac:(lra) ltac:(lra) ltac:(lra)).
  replace (1 / 2 + dl / 2 - 1 / 2) with (dl * / 2) in L by field. rewrite Rabs_mult, (Rabs_pos_eq (/ 2)) in L by lra. apply Rabs_le_between in L.
  assert (M : exp (- (2 * lnG (1 / 2 + dl / 2))) <= exp (- (2 * lnG (1 / 2))) * exp (lipG * Rabs dl)).
  { rewrite <- exp_plus. destruct (Req_dec (- (2 * lnG (1 / 2 + dl / 2))) (- (2 * lnG (1 / 2)) + lipG * Rabs dl)) as [->|N]; [lra|]. left. apply exp_increasing. lra. }
  assert (G3 := gamma_half). assert (I : exp (- (2 * lnG (1 / 2))) <= / 3) by (rewrite exp_Ropp; apply Rinv_le_contravar; lra).
  assert (X := exp_pos (lipG * Rabs dl)). assert (I2 : exp (- (2 * lnG (1 / 2))) * exp (lipG * Rabs dl) <= / 3 * exp (lipG * Rabs dl)) by (apply Rmult_le_compat_r; lra).
  replace (2 * PI / 3 * exp (lipG * Rabs dl)) with (2 * PI * (/ 3 * exp (lipG * Rabs dl))) by field. apply Rmult_le_compat_l; lra.
Qed.
Definition psiB : R := Rabs (rpsi (1 / 4)) + Rabs (rpsi 2).
Lemma psi_bounded y : 1 / 4 <= y -> y <= 2 -> Rabs (rpsi y) <= psiB.
Proof.
  intros A B. assert (L := rpsi_mono (1 / 4) y ltac:(lra) A). assert (U := rpsi_mono y 2 ltac:(lra) B). unfold psiB, Rabs. repeat destruct Rcase_abs; lra.
Qed.

Section Near2.
Variables (dl t x2 : R).
Hypothesis DN : dl <> 0.
Hypothesis T0 : 0 < t <= 1 / 8.
Hypothesis DT : Rabs dl <= t / 5.
Hypothesis DU : uG * Rabs dl <= 1 / 24.
Hypothesis X2 : 1 / 8 <= x2 <= 1 / 4.
Lemma small_dl : Rabs dl <= 1 / 40. Proof. lra. Qed.
Lemma exp_lip : exp (lipG * Rabs dl) <= 9 / 8.
Proof.
  assert (P := Rabs_pos dl). assert (L := lipG_ge). unfold uG in DU. assert (Q : lipG * Rabs dl <= 1 / 24) by lra. assert (Q0 : 0 <= lipG * Rabs dl) by (apply Rmult_le_pos; lra).
  assert (E := exp_close (lipG * Rabs dl)). rewrite (Rabs_pos_eq (lipG * Rabs dl)) in E by exact Q0. specialize (E ltac:(lra)). apply Rabs_le_between in E. lra.
Qed.
Lemma exp_expo x : 1 / 8 <= x <= 1 / 2 -> 0 < exp (expo dl x) <= 9 / 8 /\ Rabs (exp (expo dl x) - 1) <= 3 * (uG * Rabs dl).
Proof.
  intros [A B]. assert (S := small_dl). assert (E := expo_bound dl x ltac:(lra) A B). assert (C := exp_close (expo dl x) ltac:(lra)). assert (P := exp_pos (expo dl x)). split; [split; [exact P|]|lra].
  apply Rabs_le_between in C. lra.
Qed.
Lemma pref_small : 0 < pref dl <= 2 * PI / 3 * (9 / 8).
Proof.
  assert (S := small_dl). destruct (pref_bound dl ltac:(lra)) as [A B]. split; [exact A|]. eapply Rle_trans; [exact B|]. apply Rmult_le_compat_l; [assert (P := PI_RGT_0); lra|apply exp_lip].
Qed.
Definition hpart (x : R) : R := pref dl * exp (expo dl x) * rcot (PI * (1 / 2 + dl / 2 - x)).
Lemma hpart_bound x s : 1 / 8 <= x <= 1 / 2 -> s = 1 / 2 + dl / 2 - x -> 0 < s <= 1 / 2 -> 0 <= hpart x <= 27 / 32 / s.
Proof.
  intros X Hs S. assert (P := PI_RGT_0). destruct (exp_expo x X) as [[E0 E1] _]. destruct pref_small as [P0 P1]. destruct (rcot_bound s) as [C0 C1]; [lra..|]. unfold hpart. rewrite <- Hs.
  assert (PE : 0 <= pref dl * exp (expo dl x) <= 2 * PI / 3 * (9 / 8) * (9 / 8)) by (split; [apply Rmult_le_pos; lra|apply Rmult_le_compat; lra]).
  split; [apply Rmult_le_pos; lra|]. replace (27 / 32 / s) with (2 * PI / 3 * (9 / 8) * (9 / 8) * / (PI * s)) by (field; lra). apply Rmult_le_compat; lra.
Qed.
Lemma near2_upper : rgd dl (1 / 2 - t) + rgd dl x2 - 2 * rgd dl (1 / 4) <= 1 / t + 14 + 10 * uG.
Proof.
  assert (P := PI_RGT_0). assert (S := small_dl). assert (U0 : 0 < uG) by (unfold uG; assert (L := lipG_ge); lra). assert (DT' := DT). apply Rabs_le_between in DT'. apply Rabs_le_between in S as S'.
  destruct (hpart_bound (1 / 2 - t) (t + dl / 2)) as [_ H1]; [lra|field|lra|].
  destruct (hpart_bound x2 (1 / 2 + dl / 2 - x2)) as [_ H2]; [lra|reflexivity|lra|].
  destruct (hpart_bound (1 / 4) (1 / 2 + dl / 2 - 1 / 4)) as [H0 _]; [lra|reflexivity|lra|].
  assert (B1 : 27 / 32 / (t + dl / 2) <= 1 / t).
  { unfold Rdiv. apply Rmult_le_reg_r with (t + dl * / 2); [lra|]. replace (27 * / 32 * / (t + dl * / 2) * (t + dl * / 2)) with (27 * / 32) by (field; lra).
    replace (1 * / t * (t + dl * / 2)) with (1 + dl * / 2 * / t) by (field; lra). assert (Q : - (1 / 10) <= dl * / 2 * / t); [|lra].
    apply Rmult_le_reg_r with t; [lra|]. replace (dl * / 2 * / t * t) with (dl * / 2) by (field; lra). lra. }
  assert (B2 : 27 / 32 / (1 / 2 + dl / 2 - x2) <= 14).
  { apply Rle_trans with (27 / 32 / (1 / 16)); [|lra]. apply Rmult_le_compat_l; [lra|]. apply Rinv_le_contravar; lra. }
  destruct pref_small as [P0 P1]. destruct (exp_expo (1 / 2 - t)) as [_ E1]; [lra|]. destruct (exp_expo x2) as [_ E2]; [lra|]. destruct (exp_expo (1 / 4)) as [_ E0]; [lra|].
  assert (RC := rcot_D dl DN ltac:(lra)).
  set (V := exp (expo dl (1 / 2 - t)) + exp (expo dl x2) - 2 * exp (expo dl (1 / 4))).
  assert (AV : Rabs V <= 12 * (uG * Rabs dl)).
  { unfold V. apply Rabs_le_between in E1, E2, E0. apply Rabs_le. lra. }
  assert (EQ : rgd dl (1 / 2 - t) + rgd dl x2 - 2 * rgd dl (1 / 4) = hpart (1 / 2 - t) + hpart x2 - 2 * hpart (1 / 4) - pref dl * V * rcot (PI * (1 + dl))).
  { unfold rgd, hpart, V. ring. }
  assert (AD : 0 < Rabs dl) by now apply Rabs_pos_lt.
  assert (LAST : Rabs (pref dl * V * rcot (PI * (1 + dl))) <= 9 * uG).
  { rewrite !Rabs_mult, (Rabs_pos_eq (pref dl)) by lra.
    apply Rle_trans with (2 * PI / 3 * (9 / 8) * (12 * (uG * Rabs dl)) * / (PI * Rabs dl)).
    - apply Rmult_le_compat; [apply Rmult_le_pos; [lra|apply Rabs_pos]|apply Rabs_pos| |exact RC]. apply Rmult_le_compat; [lra|apply Rabs_pos|lra|exact AV].
    - right. field. split; lra. }
  rewrite EQ. apply Rabs_le_between in LAST. lra.
Qed.
Lemma near2_lower : 2 / t - 56 - 8 * psiB <= rg 2 (1 / 2 - t) + rg 2 x2 - 2 * rg 2 (1 / 4).
Proof.
  assert (Z0 : forall y, 0 / y = 0) by (intros y; unfold Rdiv; ring). unfold rg. replace (2 - 2) with 0 by ring. rewrite !Z0.
  replace ((2 - 1) / 2 - (1 / 2 - t)) with t by field. replace ((2 - 1) / 2 - x2) with (1 / 2 - x2) by field. replace ((2 - 1) / 2 - 1 / 4) with (1 / 4) by field.
  assert (ST := rpsi_step t (pos_no_pole t ltac:(lra))).
  assert (L1 := ln_small (1 / 2 - t) ltac:(lra) ltac:(lra)). assert (L2 := ln_small x2 ltac:(lra) ltac:(lra)). assert (L0 := ln_small (1 / 4) ltac:(lra) ltac:(lra)).
  assert (Q1 := psi_bounded (t + 1) ltac:(lra) ltac:(lra)). assert (Q2 := psi_bounded (1 / 2 - x2) ltac:(lra) ltac:(lra)). assert (Q0 := psi_bounded (1 / 4) ltac:(lra) ltac:(lra)).
  apply Rabs_le_between in L1, L2, L0, Q1, Q2, Q0. replace (2 / t) with (2 * / t) by reflexivity. lra.
Qed.
End Near2.

(** Continuity in the dimension *)
Lemma lip_continuous (f : R -> R) (x K dlt : R) : 0 < dlt -> (forall y, Rabs (y - x) < dlt -> Rabs (f y - f x) <= K * Rabs (y - x)) -> continuous f x.
Proof.
  intros D H. apply continuity_pt_filterlim. intros eps He. assert (K0 : 0 < Rabs K + 1) by (assert (Q := Rabs_pos K); lra).
  exists (Rmin dlt (eps / (Rabs K + 1))). split; [apply Rmin_pos; [exact D|apply Rdiv_lt_0_compat; assumption]|].
  intros y [_ Y]. simpl in *. unfold R_dist in *. assert (Y1 := Rlt_le_trans _ _ _ Y (Rmin_l _ _)). assert (Y2 := Rlt_le_trans _ _ _ Y (Rmin_r _ _)).
  specialize (H y Y1). assert (P := Rabs_pos (y - x)). assert (Q := Rle_abs K). apply Rle_lt_trans with ((Rabs K + 1) * Rabs (y - x)); [eapply Rle_trans; [exact H|apply Rmult_le_compat_r; lra]|].
  apply Rmult_lt_compat_l with (r := Rabs K + 1) in Y2; [|exact K0]. replace ((Rabs K + 1) * (eps / (Rabs K + 1))) with eps in Y2 by (field; lra). exact Y2.
Qed.
Lemma lnG_cont x : 0 < x -> continuous lnG x.
Proof.
  intros X. unfold lnG. apply (continuous_minus (V := R_NormedModule)).
  - apply (lip_continuous _ x ((x + 2) * squares) (Rmin 1 (x / 2))); [apply Rmin_pos; lra|]. intros y Y. assert (Y1 := Rlt_le_trans _ _ _ Y (Rmin_l _ _)). assert (Y2 := Rlt_le_trans _ _ _ Y (Rmin_r _ _)).
    apply Rabs_def2 in Y1, Y2. destruct (Rle_dec x y) as [L|L].
    + rewrite (Rabs_pos_eq (y - x)) by lra. apply rseries_lip; lra.
    + rewrite (Rabs_left (y - x)), Rabs_minus_sym by lra. replace (- (y - x)) with (x - y) by ring. apply rseries_lip; lra.
  - apply (ex_derive_continuous ln). auto_derive. exact X.
Qed.
Lemma near_neq (f : R -> R) (x v : R) : continuous f x -> f x <> v -> locally x (fun y => f y <> v).
Proof.
  intros H N. destruct (Rtotal_order (f x) v) as [L|[E|G]]; [|contradiction|].
  - generalize (near_cont f x (f x - 1) v H ltac:(lra)). apply filter_imp. intros y Y. lra.
  - generalize (near_cont f x v (f x + 1) H ltac:(lra)). apply filter_imp. intros y Y. lra.
Qed.
Lemma rcot_cont t : sin t <> 0 -> continuous rcot t.
Proof. intros H. apply (ex_derive_continuous rcot). unfold rcot. auto_derive. repeat split; assumption. Qed.
Lemma lin_cont (u v x : R) : continuous (fun d => u + v * d) x.
Proof. apply (ex_derive_continuous (fun d => u + v * d)). auto_derive. exact I. Qed.
Lemma exp_cont x : continuous exp x.
Proof. apply (ex_derive_continuous exp). auto_derive. exact I. Qed.
Lemma ext_cont (f h : R -> R) x : (forall y, f y = h y) -> continuous h x -> continuous f x.
Proof. intros E H. apply (continuous_ext h); [intros y; symmetry; apply E|exact H]. Qed.
Lemma sin_arg_cont x d0 : continuous (fun d => sin (PI * (1 / 2 + (d - 2) / 2 - x))) d0.
Proof. apply (ex_derive_continuous (fun d => sin (PI * (1 / 2 + (d - 2) / 2 - x)))). auto_derive. exact I. Qed.
Lemma not_bound_sin x d : 1 < d < 3 -> 0 < x -> (forall n, x <> INR n + (d - 1) / 2) -> sin (PI * (1 / 2 + (d - 2) / 2 - x)) <> 0.
Proof. intros D X H E. destruct (sin_bound x d X) as [n En]; [lra|lra| |exact (H n En)]. rewrite <- E. f_equal. field. Qed.
Lemma sin_not_bound x d : sin (PI * (1 / 2 + (d - 2) / 2 - x)) <> 0 -> forall n, x <> INR n + (1 / 2 + (d - 2) / 2).
Proof.
  intros H n E. apply H. apply sin_eq_0_1. exists (- Z.of_nat n)%Z. rewrite opp_IZR, <- INR_IZR_INZ. rewrite E. ring.
Qed.
Lemma rgd_cont x d0 : 1 < d0 < 3 -> d0 <> 2 -> 0 < x -> sin (PI * (1 / 2 + (d0 - 2) / 2 - x)) <> 0 -> continuous (fun d => rgd (d - 2) x) d0.
Proof.
  intros D N2 X S. unfold rgd. apply (continuous_mult (K := R_AbsRing)); [apply (continuous_mult (K := R_AbsRing))|apply (continuous_minus (V := R_NormedModule))].
  - unfold pref. apply (continuous_mult (K := R_AbsRing)); [apply continuous_const|]. apply (continuous_comp (fun d => - (2 * lnG (1 / 2 + (d - 2) / 2))) exp); [|apply exp_cont].
    apply (continuous_opp (V := R_NormedModule)). apply (continuous_mult (K := R_AbsRing)); [apply continuous_const|].
    apply (continuous_comp (fun d => 1 / 2 + (d - 2) / 2) lnG); [|apply lnG_cont; lra]. apply (ext_cont _ (fun d => - (1 / 2) + 1 / 2 * d)); [intros y; field|apply lin_cont].
  - apply (continuous_comp (fun d => expo (d - 2) x) exp); [|apply exp_cont]. unfold expo.
    apply (continuous_minus (V := R_NormedModule)); [apply (continuous_minus (V := R_NormedModule))|].
    + apply (continuous_comp (fun d => 1 / 2 + (d - 2) / 2 + x) lnG); [|apply lnG_cont; lra]. apply (ext_cont _ (fun d => (x - 1 / 2) + 1 / 2 * d)); [intros y; field|apply lin_cont].
    + apply (continuous_comp (fun d => 1 / 2 - (d - 2) / 2 + x) lnG); [|apply lnG_cont; lra]. apply (ext_cont _ (fun d => (x + 3 / 2) + - (1 / 2) * d)); [intros y; field|apply lin_cont].
    + apply (ext_cont _ (fun d => - 2 * ln x + ln x * d)); [intros y; ring|apply lin_cont].
  - apply (continuous_comp (fun d => PI * (1 / 2 + (d - 2) / 2 - x)) rcot); [|apply rcot_cont; exact S]. apply (ext_cont _ (fun d => PI * (- (1 / 2) - x) + PI / 2 * d)); [intros y; field|apply lin_cont].
  - apply (continuous_comp (fun d => PI * (1 + (d - 2))) rcot); [|apply rcot_cont].
    + apply (ext_cont _ (fun d => - PI + PI * d)); [intros y; field|apply lin_cont].
    + replace (1 + (d0 - 2)) with (d0 - 1) by ring. apply sin_PI_D; lra.
Qed.
Definition rtanguy_d (A d Rb Eg a b E : R) : R :=
  1 + a / (b - E ^ 2) + A * Rpower Rb (d / 2 - 1) / (E * E) * (rgd (d - 2) (rxsi Rb Eg E) + rgd (d - 2) (rxsi Rb Eg (- E)) - 2 * rgd (d - 2) (rxsi Rb Eg 0)).
Lemma rtanguy_cont A d0 Rb Eg a b E : 1 < d0 < 3 -> d0 <> 2 -> 0 < E < Eg -> 0 < Rb ->
  (forall e, e = E \/ e = - E \/ e = 0 -> sin (PI * (1 / 2 + (d0 - 2) / 2 - rxsi Rb Eg e)) <> 0) ->
  continuous (fun d => rtanguy_d A d Rb Eg a b E) d0.
Proof.
  intros D N2 HE HR S. assert (XP : forall e, e < Eg -> 0 < rxsi Rb Eg e) by (intros e H; apply sqrt_lt_R0, Rdiv_lt_0_compat; lra).
  unfold rtanguy_d. apply (continuous_plus (V := R_NormedModule)); [apply continuous_const|]. apply (continuous_mult (K := R_AbsRing)).
  - apply (ex_derive_continuous (fun d => A * Rpower Rb (d / 2 - 1) / (E * E))). unfold Rpower. auto_derive. exact I.
  - apply (continuous_minus (V := R_NormedModule)); [apply (continuous_plus (V := R_NormedModule))|apply (continuous_mult (K := R_AbsRing)); [apply continuous_const|]];
      apply rgd_cont; try assumption; try (apply XP; lra); apply S; tauto.
Qed.
