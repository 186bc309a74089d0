(** The dimension near three, for C102. *)
From Coq Require Import Reals ZArith Lra Lia Psatz.
From Coquelicot Require Import Coquelicot.
From Verif.Base Require Import Py Cx Special.
From Verif.Model Require Import Units Dispersions Tanguy.
From Verif.Proof Require Import DispersionsP SpecialP TanguyP TanguyP3 TanguyP4 TanguyP5 TanguyP7 ReflectP.
Open Scope R_scope.

(** The logarithmic derivative of the gamma function is digamma *)
Lemma ln_le_sub u : 0 < u -> ln u <= u - 1.
Proof.
  intros H. destruct (Req_dec u 1) as [->|N]; [rewrite ln_1; lra|]. left. rewrite <- (ln_exp (u - 1)). apply ln_increasing; [exact H|].
  replace u with (1 + (u - 1)) at 1 by ring. apply exp_ineq1. lra.
Qed.
Lemma ln_close t : - (1 / 2) <= t -> 0 <= t - ln (1 + t) <= 2 * (t * t).
Proof.
  intros H. assert (A := ln_le_sub (1 + t) ltac:(lra)). assert (B := ln_le_sub (/ (1 + t)) ltac:(apply Rinv_0_lt_compat; lra)). rewrite ln_Rinv in B by lra.
  split; [lra|]. assert (C : t + / (1 + t) - 1 = t * t * / (1 + t)) by (field; lra).
  assert (D : / (1 + t) <= 2) by (replace 2 with (/ (1 / 2)) by lra; apply Rinv_le_contravar; lra).
  assert (E : t * t * / (1 + t) <= t * t * 2) by (apply Rmult_le_compat_l; nra). lra.
Qed.
Lemma quad_derive (f : R -> R) (x l K dlt : R) : 0 < dlt -> (forall h, Rabs h < dlt -> Rabs (f (x + h) - f x - l * h) <= K * (h * h)) -> is_derive f x l.
Proof.
  intros D H. apply is_derive_Reals. intros eps He. assert (K0 : 0 < Rabs K + 1) by (assert (Q := Rabs_pos K); lra).
  assert (PM : 0 < Rmin dlt (eps / (Rabs K + 1))) by (apply Rmin_pos; [exact D|apply Rdiv_lt_0_compat; assumption]).
  exists (mkposreal _ PM). intros h N Hh. cbn [pos] in Hh. assert (Y1 := Rlt_le_trans _ _ _ Hh (Rmin_l _ _)). assert (Y2 := Rlt_le_trans _ _ _ Hh (Rmin_r _ _)).
  specialize (H h Y1). assert (HP := Rabs_pos_lt h N). assert (Q := Rle_abs K).
  replace ((f (x + h) - f x) / h - l) with ((f (x + h) - f x - l * h) * / h) by (field; exact N). rewrite Rabs_mult, Rabs_inv.
  assert (HH : h * h = Rabs h * Rabs h) by (rewrite <- Rabs_mult, Rabs_pos_eq; [reflexivity|apply Rle_0_sqr]). rewrite HH in H.
  apply Rle_lt_trans with (K * (Rabs h * Rabs h) * / Rabs h); [apply Rmult_le_compat_r; [left; now apply Rinv_0_lt_compat|exact H]|].
  replace (K * (Rabs h * Rabs h) * / Rabs h) with (K * Rabs h) by (field; lra).
  apply Rle_lt_trans with ((Rabs K + 1) * Rabs h); [apply Rmult_le_compat_r; lra|].
  apply Rmult_lt_compat_l with (r := Rabs K + 1) in Y2; [|exact K0]. replace ((Rabs K + 1) * (eps / (Rabs K + 1))) with eps in Y2 by (field; lra). exact Y2.
Qed.
Lemma euler_conv : ex_series (fun k => / (INR k + 1) - ln (1 + / (INR k + 1))).
Proof.
  apply (ex_series_le (V := R_CompleteNormedModule) _ (fun k => 2 * / ((INR k + 1) * (INR k + 1)))).
  - intros k. assert (P := pos_INR k). assert (U : 0 < / (INR k + 1)) by (apply Rinv_0_lt_compat; lra). destruct (ln_close (/ (INR k + 1)) ltac:(lra)) as [A B].
    change (Rabs (/ (INR k + 1) - ln (1 + / (INR k + 1))) <= 2 * / ((INR k + 1) * (INR k + 1))). rewrite Rabs_pos_eq by exact A. rewrite Rinv_mult. exact B.
  - exact (ex_series_scal_l 2 _ sum_squares).
Qed.
Definition rterm' (x : R) (k : nat) : R := ln (1 + / (INR k + 1)) - / (INR k + (x + 1)).
Lemma rterm'_series x : 0 < x -> is_series (rterm' x) (rpsi (x + 1)).
Proof.
  intros X. assert (A := Series_correct _ (rpsi_conv (x + 1) (pos_no_pole (x + 1) ltac:(lra)))). assert (B := Series_correct _ euler_conv).
  unfold rpsi, euler_gamma. apply (is_series_ext (fun k => minus (/ (INR k + 1) - / (INR k + (x + 1))) (/ (INR k + 1) - ln (1 + / (INR k + 1))))).
  - intros k. unfold minus, plus, opp, rterm'; simpl. ring.
  - apply (is_series_minus (V := R_NormedModule)); assumption.
Qed.
Lemma rterm_quad x h k : 0 < x -> Rabs h < Rmin (1 / 2) (x / 2) -> Rabs (rterm (x + h) k - rterm x k - rterm' x k * h) <= 2 * (h * h) * / ((INR k + 1) * (INR k + 1)).
Proof.
  intros X H. assert (H1 := Rlt_le_trans _ _ _ H (Rmin_l _ _)). assert (H2 := Rlt_le_trans _ _ _ H (Rmin_r _ _)). apply Rabs_def2 in H1, H2. assert (P := pos_INR k). unfold rterm, rterm'.
  set (n := INR k + 1) in *. assert (N : 1 <= n) by (unfold n; lra). replace (INR k + (x + 1)) with (n + x) by (unfold n; ring). clearbody n.
  set (t := h / (n + x)).
  assert (IN : 0 < / (n + x) <= / n) by (split; [apply Rinv_0_lt_compat; lra|apply Rinv_le_contravar; lra]). assert (IN1 : / n <= 1) by (rewrite <- Rinv_1; apply Rinv_le_contravar; lra).
  assert (T : - (1 / 2) <= t) by (unfold t, Rdiv; nra).
  replace (ln (1 + (x + h) / n)) with (ln (1 + x / n) + ln (1 + t)).
  2:{ rewrite <- ln_mult; [f_equal; unfold t; field; lra| |lra]. assert (0 < x / n) by (apply Rdiv_lt_0_compat; lra). lra. }
  replace ((x + h) * ln (1 + / n) - (ln (1 + x / n) + ln (1 + t)) - (x * ln (1 + / n) - ln (1 + x / n)) - (ln (1 + / n) - / (n + x)) * h) with (t - ln (1 + t)) by (unfold t; field; lra).
  destruct (ln_close t T) as [A B]. rewrite Rabs_pos_eq by exact A. eapply Rle_trans; [exact B|]. rewrite Rinv_mult. unfold t, Rdiv.
  replace (2 * (h * / (n + x) * (h * / (n + x)))) with (2 * (h * h) * (/ (n + x) * / (n + x))) by ring. apply Rmult_le_compat_l; [nra|]. apply Rmult_le_compat; lra.
Qed.
Lemma rseries_derive x : 0 < x -> is_derive (fun x => Series (rterm x)) x (rpsi (x + 1)).
Proof.
  intros X. apply (quad_derive _ _ _ (2 * squares) (Rmin (1 / 2) (x / 2))); [apply Rmin_pos; lra|]. intros h H.
  assert (H2 := Rlt_le_trans _ _ _ H (Rmin_r _ _)). apply Rabs_def2 in H2. assert (C1 := gamma_converges (x + h) ltac:(lra)). assert (C2 := gamma_converges x X). assert (C3 := rterm'_series x X).
  rewrite <- (is_series_unique _ _ C3). assert (C4 : ex_series (rterm' x)) by now exists (rpsi (x + 1)).
  assert (C5 : ex_series (fun k => rterm' x k * h)) by (now apply (ex_series_scal_r h)). assert (C6 : ex_series (fun k => rterm (x + h) k - rterm x k)) by exact (ex_series_minus (V := R_NormedModule) _ _ C1 C2).
  rewrite <- Series_scal_r. rewrite <- (Series_minus _ _ C1 C2). rewrite <- (Series_minus _ _ C6 C5).
  assert (EX : ex_series (fun k => 2 * (h * h) * / ((INR k + 1) * (INR k + 1)))) by exact (ex_series_scal_l (2 * (h * h)) _ sum_squares).
  assert (EA : ex_series (fun k => Rabs (rterm (x + h) k - rterm x k - rterm' x k * h))).
  { apply (ex_series_le (V := R_CompleteNormedModule) _ (fun k => 2 * (h * h) * / ((INR k + 1) * (INR k + 1)))); [|exact EX]. intros k.
    change (Rabs (Rabs (rterm (x + h) k - rterm x k - rterm' x k * h)) <= 2 * (h * h) * / ((INR k + 1) * (INR k + 1))). rewrite Rabs_Rabsolu. now apply rterm_quad. }
  eapply Rle_trans; [apply Series_Rabs; exact EA|].
  replace (2 * squares * (h * h)) with (Series (fun k => 2 * (h * h) * / ((INR k + 1) * (INR k + 1)))) by (rewrite Series_scal_l; unfold squares; ring).
  apply Series_le; [|exact EX]. intros k. split; [apply Rabs_pos|now apply rterm_quad].
Qed.
Lemma lnG_derive x : 0 < x -> is_derive lnG x (rpsi x).
Proof.
  intros X. unfold lnG. replace (rpsi x) with (minus (rpsi (x + 1)) (/ x)) by (unfold minus, plus, opp; simpl; rewrite rpsi_step by (apply pos_no_pole; exact X); ring).
  apply (is_derive_minus (fun x => Series (rterm x)) ln x); [now apply rseries_derive|]. apply is_derive_Reals, derivable_pt_lim_ln. exact X.
Qed.
Lemma lnG_step x : 0 < x -> lnG (x + 1) = lnG x + ln x.
Proof.
  intros X. apply exp_inv. assert (A := gamma_lnG (x + 1) ltac:(lra)). rewrite (gamma_step _ _ X (gamma_lnG x X)) in A. injection A as A. rewrite <- A, exp_plus, exp_ln by exact X. ring.
Qed.
Lemma lnG_1 : lnG 1 = 0.
Proof. apply exp_inv. rewrite exp_0. assert (A := lnG_fact 0). simpl in A. now rewrite Rplus_0_l in A. Qed.

Definition lw (x dl : R) : R := - (2 * lnG (1 / 2 + dl / 2)) + (lnG (1 / 2 + dl / 2 + x) - lnG (1 / 2 - dl / 2 + x) - dl * ln x).
Definition wt (x dl : R) : R := 2 * PI * exp (lw x dl).
Lemma rgd_wt dl x : rgd dl x = wt x dl * (rcot (PI * (1 / 2 + dl / 2 - x)) - rcot (PI * (1 + dl))).
Proof. unfold rgd, pref, wt, lw, expo. rewrite exp_plus. ring. Qed.
Definition slope (x : R) : R := - rpsi 1 + (rpsi (x + 1) + rpsi x) / 2 - ln x.
Lemma lw_1 x : 0 < x -> lw x 1 = 0.
Proof.
  intros X. unfold lw. replace (1 / 2 + 1 / 2) with 1 by field. replace (1 / 2 - 1 / 2 + x) with x by field. rewrite lnG_1, (Rplus_comm 1 x), lnG_step by exact X. ring.
Qed.
Lemma lw_derive x : 0 < x -> is_derive (lw x) 1 (slope x).
Proof.
  intros X. unfold lw. auto_derive.
  - repeat split; [exists (rpsi (1 / 2 + 1 / 2))|exists (rpsi (1 / 2 + 1 / 2 + x))|exists (rpsi (1 / 2 - 1 / 2 + x))]; apply lnG_derive; lra.
  - assert (DL : forall y, 0 < y -> Derive (fun x => lnG x) y = rpsi y) by (intros y Y; apply is_derive_unique; now apply lnG_derive).
    rewrite !DL by lra. unfold slope.
    replace (1 * / 2 + x) with (1 / 2 + x) by field. replace (1 / 2 + 1 * / 2) with 1 by field. replace (1 / 2 + - (1 * / 2) + x) with x by field. rewrite (Rplus_comm 1 x). field.
Qed.
Lemma wt_1 x : 0 < x -> wt x 1 = 2 * PI.
Proof. intros X. unfold wt. rewrite lw_1, exp_0 by exact X. ring. Qed.
Lemma wt_derive x : 0 < x -> is_derive (wt x) 1 (2 * PI * slope x).
Proof.
  intros X. unfold wt. auto_derive; [exists (slope x); now apply lw_derive|]. assert (DL : Derive (fun dl : R => lw x dl) 1 = slope x) by (apply is_derive_unique; now apply lw_derive). rewrite DL, lw_1, exp_0 by exact X. ring.
Qed.
Lemma derive_quotient (f : R -> R) (x l : R) : is_derive f x l -> is_lim (fun y => (f y - f x) / (y - x)) x l.
Proof.
  intros H. apply is_derive_Reals in H. apply is_lim_spec. intros eps. destruct (H eps (cond_pos eps)) as [del Hd]. exists del.
  assert (G : forall y : R, Rabs (y - x) < del -> y <> x -> Rabs ((f y - f x) / (y - x) - l) < eps); [|intros y By N; apply G; assumption].
  intros y By N. specialize (Hd (y - x) (Rminus_eq_contra _ _ N) By). replace (x + (y - x)) with y in Hd by ring. exact Hd.
Qed.

Section Near3.
Variables (x1 x2 x0 : R).
Hypothesis X1 : 0 < x1.
Hypothesis X2 : 0 < x2.
Hypothesis X0 : 0 < x0.
Let mix (f : R -> R) : R := f x1 + f x2 - 2 * f x0.
Let S1 : R := mix (fun x => 2 * PI * slope x).
Let ph (dl : R) : R := mix (fun x => wt x dl).
Local Lemma ph_1 : ph 1 = 0.
Proof. unfold ph, mix. rewrite !wt_1 by assumption. ring. Qed.
Local Lemma ph_derive : is_derive ph 1 S1.
Proof.
  unfold ph, mix, S1, mix. apply (is_derive_minus (fun dl => wt x1 dl + wt x2 dl) (fun dl => 2 * wt x0 dl)).
  - apply (is_derive_plus (wt x1) (wt x2)); now apply wt_derive.
  - apply is_derive_scal. now apply wt_derive.
Qed.
Let phq (dl : R) : R := if Req_EM_T dl 1 then S1 else (ph dl - ph 1) / (dl - 1).
Local Lemma phq_cont : continuous phq 1.
Proof. apply (fill_cont (fun dl => (ph dl - ph 1) / (dl - 1))). apply derive_quotient, ph_derive. Qed.
Let near (dl : R) : R := mix (fun x => wt x dl * rcot (PI * (1 / 2 + dl / 2 - x))) - cos (PI * (dl - 1)) / sinq (dl - 1) * phq dl.
Local Lemma near_val dl : dl <> 1 -> near dl = mix (rgd dl).
Proof.
  intros N. unfold near, phq. destruct (Req_EM_T dl 1) as [K|_]; [contradiction|]. rewrite ph_1. unfold sinq. destruct (Req_EM_T (dl - 1) 0) as [K|_]; [lra|].
  assert (R1 : rcot (PI * (1 + dl)) = cos (PI * (dl - 1)) / sin (PI * (dl - 1))).
  { replace (PI * (1 + dl)) with (PI * (dl - 1) + INR 2 * PI) by (simpl; ring). now rewrite rcot_periods. }
  unfold mix. rewrite !rgd_wt, R1. unfold ph, mix. set (c := cos (PI * (dl - 1))). set (s := sin (PI * (dl - 1))).
  replace (c / (s / (dl - 1)) * ((wt x1 dl + wt x2 dl - 2 * wt x0 dl - 0) / (dl - 1))) with (c / s * (wt x1 dl + wt x2 dl - 2 * wt x0 dl)); [ring|].
  unfold Rdiv. rewrite Rinv_mult, Rinv_inv. generalize (/ s). intros u. field. lra.
Qed.
Hypothesis N1 : forall n, x1 <> INR n + 1.
Hypothesis N2 : forall n, x2 <> INR n + 1.
Hypothesis N0 : forall n, x0 <> INR n + 1.
Local Lemma frac_part x : 0 < x -> (forall n, x <> INR n + 1) -> exists y n, 0 < y < 1 /\ x = y + INR n.
Proof.
  intros X N. destruct (archimed x) as [U1 U2]. set (u := up x) in *. assert (UP : (0 < u)%Z) by (apply lt_IZR; lra).
  exists (x - IZR (u - 1)), (Z.to_nat (u - 1)). rewrite INR_IZR_INZ, Z2Nat.id by lia. rewrite minus_IZR. split; [|ring]. split; [|lra].
  destruct (Req_dec x (IZR u - 1)) as [E|NE]; [|lra]. exfalso. destruct (Z.eq_dec u 1) as [->|NU]; [lra|].
  apply (N (Z.to_nat (u - 2))). rewrite INR_IZR_INZ, Z2Nat.id by lia. rewrite minus_IZR. lra.
Qed.
Local Lemma mir x : 0 < x -> (forall n, x <> INR n + 1) -> rpsi (1 - x) = rpsi x + PI * rcot (PI * x) /\ sin (PI * (1 / 2 + 1 / 2 - x)) <> 0.
Proof.
  intros X N. destruct (frac_part x X N) as (y & n & Y & E). split.
  - rewrite E. rewrite <- reflection by exact Y. ring.
  - replace (PI * (1 / 2 + 1 / 2 - x)) with (PI - PI * x) by field. rewrite sin_PI_x, E. intros Z. apply sin_eq_0_0 in Z. destruct Z as [k Z]. assert (P := PI_RGT_0).
    assert (Ek : y + INR n = IZR k) by (apply (Rmult_eq_reg_l PI); lra). rewrite INR_IZR_INZ in Ek. assert (F : y = IZR (k - Z.of_nat n)) by (rewrite minus_IZR; lra). rewrite F in Y. destruct Y as [Ya Yb]. apply lt_IZR in Ya, Yb. lia.
Qed.
Local Lemma part x : 0 < x -> (forall n, x <> INR n + 1) -> 2 * PI * rcot (PI * (1 / 2 + 1 / 2 - x)) - / PI * (2 * PI * slope x) = rg 3 x + 2 * rpsi 1.
Proof.
  intros X N. destruct (mir x X N) as [M _]. unfold rg, slope. replace ((3 - 1) / 2 - x) with (1 - x) by field. rewrite M. rewrite rpsi_step by (apply pos_no_pole; exact X).
  replace (PI * (1 / 2 + 1 / 2 - x)) with (- (PI * x) + PI) by field. rewrite rcot_period, rcot_opp. assert (P := PI_RGT_0). field. lra.
Qed.
Local Lemma near_1 : near 1 = mix (rg 3).
Proof.
  unfold near, phq, sinq. destruct (Req_EM_T 1 1) as [_|K]; [|now elim K]. replace (1 - 1) with 0 by ring. destruct (Req_EM_T 0 0) as [_|K]; [|now elim K]. rewrite Rmult_0_r, cos_0.
  unfold S1, mix. rewrite !wt_1 by assumption. assert (Q1 := part x1 X1 N1). assert (Q2 := part x2 X2 N2). assert (Q0 := part x0 X0 N0).
  revert Q1 Q2 Q0. replace (1 / PI) with (/ PI) by (unfold Rdiv; ring). generalize (2 * PI * slope x1) (2 * PI * slope x2) (2 * PI * slope x0) (/ PI) (2 * PI * rcot (PI * (1 / 2 + 1 / 2 - x1))) (2 * PI * rcot (PI * (1 / 2 + 1 / 2 - x2))) (2 * PI * rcot (PI * (1 / 2 + 1 / 2 - x0))) (rg 3 x1) (rg 3 x2) (rg 3 x0) (rpsi 1).
  clear. intros s1 s2 s0 p c1 c2 c0 r1 r2 r0 e Q1 Q2 Q0. replace r1 with (c1 - p * s1 - 2 * e) by lra. replace r2 with (c2 - p * s2 - 2 * e) by lra. replace r0 with (c0 - p * s0 - 2 * e) by lra. ring.
Qed.
Local Lemma wt_cont x : 0 < x -> continuous (wt x) 1.
Proof. intros X. apply (ex_derive_continuous (wt x)). eexists. now apply wt_derive. Qed.
Local Lemma rcot_arg_cont x : sin (PI * (1 / 2 + 1 / 2 - x)) <> 0 -> continuous (fun dl => rcot (PI * (1 / 2 + dl / 2 - x))) 1.
Proof.
  intros S. apply (continuous_comp (fun dl => PI * (1 / 2 + dl / 2 - x)) rcot); [|apply rcot_cont; exact S]. apply (ext_cont _ (fun dl => PI * (1 / 2 - x) + PI / 2 * dl)); [intros y; field|apply lin_cont].
Qed.
Local Lemma near_cont3 : continuous near 1.
Proof.
  assert (T : forall x, 0 < x -> (forall n, x <> INR n + 1) -> continuous (fun dl => wt x dl * rcot (PI * (1 / 2 + dl / 2 - x))) 1).
  { intros x X N. apply (continuous_mult (K := R_AbsRing)); [now apply wt_cont|]. apply rcot_arg_cont. now apply mir. }
  unfold near, mix. apply (continuous_minus (V := R_NormedModule)); [apply (continuous_minus (V := R_NormedModule)); [apply (continuous_plus (V := R_NormedModule))|]|].
  - now apply T.
  - now apply T.
  - apply (continuous_mult (K := R_AbsRing)); [apply continuous_const|now apply T].
  - apply (continuous_mult (K := R_AbsRing)); [|apply phq_cont]. unfold Rdiv. apply (continuous_mult (K := R_AbsRing)).
    + apply (ex_derive_continuous (fun dl => cos (PI * (dl - 1)))). auto_derive. exact I.
    + apply (continuous_comp (fun dl => dl - 1) (fun t => / sinq t)).
      * apply (ext_cont _ (fun dl => - 1 + 1 * dl)); [intros y; ring|apply lin_cont].
      * replace (1 - 1) with 0 by ring. apply (continuous_comp sinq Rinv); [apply sinq_cont|]. apply continuous_Rinv. unfold sinq. destruct (Req_EM_T 0 0) as [_|K]; [|now elim K]. apply Rgt_not_eq, PI_RGT_0.
Qed.
Lemma mix_lim : is_lim (fun dl => rgd dl x1 + rgd dl x2 - 2 * rgd dl x0) 1 (rg 3 x1 + rg 3 x2 - 2 * rg 3 x0).
Proof.
  apply (is_lim_ext_loc near); [exists (mkposreal 1 Rlt_0_1); intros y _ N; now apply near_val|].
  replace (Finite (rg 3 x1 + rg 3 x2 - 2 * rg 3 x0)) with (Finite (near 1)) by (f_equal; exact near_1). apply is_lim_continuity. apply continuity_pt_filterlim. exact near_cont3.
Qed.
End Near3.

Lemma sin_near3 dl : 0 < dl < 2 -> dl <> 1 -> sin (PI * (1 + dl)) <> 0.
Proof.
  intros D N E. apply sin_eq_0_0 in E. destruct E as [k E]. assert (P := PI_RGT_0).
  assert (Ek : 1 + dl = IZR k) by (apply (Rmult_eq_reg_l PI); lra). assert (K1 : (1 < k)%Z) by (apply lt_IZR; lra). assert (K2 : (k < 3)%Z) by (apply lt_IZR; lra).
  assert (k = 2%Z) by lia. subst k. lra.
Qed.
Lemma g_rgd3 dl x : 0 < dl < 2 -> dl <> 1 -> 0 < x -> 0 < 1 / 2 - dl / 2 + x -> sin (PI * (1 / 2 + dl / 2 - x)) <> 0 -> g (RtoC x) (2 + dl) = Some (RtoC (rgd dl x)).
Proof.
  intros B N X X' NB. unfold g. destruct (Req_EM_T (2 + dl) 2) as [K|_]; [lra|]. destruct (Req_EM_T (2 + dl) 3) as [K|_]; [lra|]. cbv zeta.
  replace ((2 + dl - 1) / 2) with (1 / 2 + dl / 2) by field. rewrite <- RtoC_minus, <- !RtoC_plus.
  rewrite !gamma_lnG by lra. cbn [obind]. rewrite cpower_exp by exact X. cbn [obind]. rewrite <- !RtoC_mult.
  assert (E0 : forall t, exp t <> 0) by (intros t; apply Rgt_not_eq, exp_pos).
  rewrite cdiv_real by (apply Rmult_integral_contrapositive_currified; apply E0). cbn [obind]. rewrite cdiv_real by apply E0. cbn [obind]. rewrite cdiv_real by apply E0. cbn [obind].
  rewrite <- RtoC_minus, <- RtoC_mult. rewrite cot_rcot by exact NB.
  replace (2 + dl - 1) with (1 + dl) by ring. cbn [obind]. rewrite cot_rcot by now apply sin_near3. cbn [obind]. rewrite <- RtoC_minus, <- RtoC_mult. do 2 f_equal. unfold rgd, pref.
  replace (1 - (1 / 2 + dl / 2) + x) with (1 / 2 - dl / 2 + x) by field. replace (2 + dl - 2) with dl by ring. f_equal.
  assert (EX : exp (expo dl x) = exp (lnG (1 / 2 + dl / 2 + x)) * / exp (lnG (1 / 2 - dl / 2 + x)) * / exp (dl * ln x)).
  { unfold expo, Rminus. now rewrite !exp_plus, !exp_Ropp. }
  rewrite EX, exp_Ropp. replace (2 * lnG (1 / 2 + dl / 2)) with (lnG (1 / 2 + dl / 2) + lnG (1 / 2 + dl / 2)) by ring. rewrite exp_plus. field. repeat split; apply E0.
Qed.
(** Dimensions near three where g has the value [rgd] *)
Lemma g_near3 x : 0 < x -> (forall n, x <> INR n + 1) -> locally 3 (fun d => d <> 3 -> g (RtoC x) d = Some (RtoC (rgd (d - 2) x))).
Proof.
  intros X N. assert (C1 : locally 3 (fun d => 2 < d < 4)) by (apply (near_cont (fun d => d)); [apply continuous_id|lra]).
  assert (C2 : locally 3 (fun d => 0 < 1 / 2 - (d - 2) / 2 + x < x + 1)).
  { apply (near_cont (fun d => 1 / 2 - (d - 2) / 2 + x)); [|lra]. apply (ext_cont _ (fun d => (x + 3 / 2) + - (1 / 2) * d)); [intros y; field|apply lin_cont]. }
  assert (S0 : sin (PI * (1 / 2 + (3 - 2) / 2 - x)) <> 0) by (replace (3 - 2) with 1 by ring; now apply mir).
  assert (C3 := near_neq _ _ _ (sin_arg_cont x 3) S0).
  generalize (filter_and _ _ C1 (filter_and _ _ C2 C3)). apply filter_imp. intros d (H1 & H2 & H3) N3. replace d with (2 + (d - 2)) at 1 by ring. apply g_rgd3; try assumption; lra.
Qed.
Lemma rtanguy_lim3 A Rb Eg a b E : 0 < E < Eg -> 0 < Rb -> (forall e, e = E \/ e = - E \/ e = 0 -> forall n, rxsi Rb Eg e <> INR n + 1) ->
  is_lim (fun d => rtanguy_d A d Rb Eg a b E) 3 (rtanguy A 3 Rb Eg a b E).
Proof.
  intros HE HR NB. assert (XP : forall e, e < Eg -> 0 < rxsi Rb Eg e) by (intros e H; apply sqrt_lt_R0, Rdiv_lt_0_compat; lra).
  assert (L := mix_lim (rxsi Rb Eg E) (rxsi Rb Eg (- E)) (rxsi Rb Eg 0) (XP E ltac:(lra)) (XP (- E) ltac:(lra)) (XP 0 ltac:(lra)) (NB E ltac:(tauto)) (NB (- E) ltac:(tauto)) (NB 0 ltac:(tauto))).
  unfold rtanguy_d, rtanguy. apply (is_lim_plus' _ _ _ (1 + a / (b - E ^ 2))); [apply is_lim_const|]. apply (is_lim_mult _ _ _ (A * Rpower Rb (3 / 2 - 1) / (E * E))  (rg 3 (rxsi Rb Eg E) + rg 3 (rxsi Rb Eg (- E)) - 2 * rg 3 (rxsi Rb Eg 0))); [| |exact I].
  - apply (is_lim_continuity (fun d => A * Rpower Rb (d / 2 - 1) / (E * E)) 3). apply continuity_pt_filterlim. apply (ex_derive_continuous (fun d => A * Rpower Rb (d / 2 - 1) / (E * E))). unfold Rpower. auto_derive. exact I.
  - apply is_lim_spec. apply is_lim_spec in L. intros eps. destruct (L eps) as [del Hd]. exists del. intros d Bd N. apply (Hd (d - 2)).
    + change (Rabs (d - 2 - 1) < del). replace (d - 2 - 1) with (d - 3) by ring. exact Bd.
    + intros K. apply N. lra.
Qed.
