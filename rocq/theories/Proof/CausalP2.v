(** The oscillators of Model/Dispersions.v and their Kramers-Kronig integrals *)
From Coq Require Import Reals Lra Psatz.
From Coquelicot Require Import Coquelicot.
From Coq Require Import List.
From Verif.Base Require Import Py Cx.
From Verif.Model Require Import Units Dispersions.
From Verif.Spec Require Import Causal.
From Verif.Proof Require Import UnitsP DispersionsP DispersionsP2 CausalP.
Open Scope R_scope.

(** Tauc-Lorentz.  The coefficients of the primitive; B = A E0 C *)
Section Tauc.
Variables al Cc E g B : R.
Hypothesis HC : 0 < Cc.
Hypothesis Hal : 0 < al.
Hypothesis HE : 0 < E.
Hypothesis Hg : 0 < g.
Definition zt := qp al Cc E * qm al Cc E.
Definition w := wq al Cc.
Definition ta := - B * ((g ^ 2 - w) * E ^ 2 + g ^ 2 * Cc ^ 2 - w * (w + 3 * g ^ 2)) / (4 * zt * al * w).
Definition tb := - B * ((E ^ 2 - w) * (w + g ^ 2) + g ^ 2 * Cc ^ 2) / (2 * zt * Cc * w).
Definition tc := 2 * B * g * (E ^ 2 - g2 al Cc) / (zt * Cc * al).
Definition td := B * (E ^ 2 + g ^ 2) / (2 * zt * E).
Definition te := - B * g / zt.
Lemma zt_pos : 0 < zt.
Proof. apply Rmult_lt_0_compat; [apply qp_pos|apply qm_pos]; exact HC. Qed.
Lemma w_pos : 0 < w.
Proof. unfold w, wq. assert (0 < Cc ^ 2) by (apply pow_lt; exact HC). assert (0 < al ^ 2) by (apply pow_lt; exact Hal). lra. Qed.
Lemma tauc_fraction x : 0 < x -> x <> E ->
  B * (x - g) ^ 2 / (qp al Cc x * qm al Cc x) / (x ^ 2 - E ^ 2) = fu al Cc E ta tb tc td te x.
Proof.
  intros Hx Hn. assert (Z := zt_pos). assert (W := w_pos). assert (P := qp_pos al Cc HC x). assert (M := qm_pos al Cc HC x). assert (P' := qp_pos al Cc HC E). assert (M' := qm_pos al Cc HC E).
  unfold fu, su, ta, tb, tc, td, te, zt, w, g2 in *. unfold qp, qm, wq in *. field. repeat split; try lra. intros Q. apply Hn. nra.
Qed.
End Tauc.

(** Below critical damping, eps1 in real numbers *)
Lemma tl_value E g A Ei Cc r : 0 < E -> 0 < g -> E <> g -> 0 < Ei -> 0 < Cc -> Cc ^ 2 < 4 * Ei ^ 2 ->
  tl_eps1 E g A Ei Cc = Some r ->
  let al := sqrt (4 * Ei ^ 2 - Cc ^ 2) in let B := A * Ei * Cc in
  fst r = 2 / PI * (tb al Cc E g B * PI + tc al Cc E g B * (PI / 2)
    - Fu al Cc E (ta al Cc E g B) (tb al Cc E g B) (tc al Cc E g B) (td al Cc E g B) (te al Cc E g B) g).
Proof.
  intros HE Hg Hn HI HC U H al B. unfold tl_eps1 in H. cbv zeta in H. rewrite Csqrt_pos in H by lra. fold al in H.
  assert (Ha : 0 < al) by (apply sqrt_lt_R0; lra). assert (Ha2 : al ^ 2 = 4 * Ei ^ 2 - Cc ^ 2) by (unfold al; rewrite pow2_sqrt; lra).
  assert (W : Ei ^ 2 = wq al Cc) by (unfold wq; lra). assert (P := qp_pos al Cc HC g). assert (M := qm_pos al Cc HC g). assert (Z := zt_pos al Cc E HC). assert (Pi := PI_RGT_0).
  assert (EP : Ei ^ 2 + g ^ 2 + al * g = qp al Cc g) by (unfold qp; lra). assert (EM : Ei ^ 2 + g ^ 2 - al * g = qm al Cc g) by (unfold qm; lra).
  assert (EZ : (E ^ 2 - (Ei ^ 2 - Cc ^ 2 / 2)) ^ 2 + (4 * Ei ^ 2 - Cc ^ 2) * Cc ^ 2 / 4 = zt al Cc E) by (rewrite <- Ha2, W; unfold zt, qp, qm, wq; field).
  assert (EQ : (Ei ^ 2 - g ^ 2) ^ 2 + g ^ 2 * Cc ^ 2 = qp al Cc g * qm al Cc g) by (rewrite W; unfold qp, qm, wq; field).
  rewrite EZ in H. destruct (Ceq_dec (RtoC al) 0) as [|_]; [discriminate|]. destruct (rdiv 1 _) as [w'|]; [|discriminate]. cbn [obind] in H.
  destruct (cdiv _ _) as [q1|] eqn:E1; [|discriminate]. cbn [obind] in H. apply cdiv_Some in E1 as [_ E1].
  assert (Q1 : q1 = RtoC (qp al Cc g / qm al Cc g)) by (rewrite E1, RtoC_div by lra; rewrite <- EP, <- EM, (RtoC_plus (Ei ^ 2 + g ^ 2) (al * g)), (RtoC_minus (Ei ^ 2 + g ^ 2) (al * g)), RtoC_mult; reflexivity).
  clear E1. subst q1. unfold clog in H. destruct (Ceq_dec _ 0) as [|_]; [discriminate|]. cbn [obind] in H. rewrite Clog_real in H by (apply Rdiv_lt_0_compat; assumption).
  destruct (rdiv (Rabs _) _) as [q2|] eqn:Q2; [|discriminate]. cbn [obind] in H. apply rdiv_Some in Q2 as [_ ->].
  destruct (rlog (_ / (E + g))) as [l2|] eqn:L2; [|discriminate]. cbn [obind] in H. unfold rlog in L2. destruct (Rlt_dec 0 _); [|discriminate]. apply Some_eq in L2; subst l2.
  destruct (rdiv (Rabs _ * _) _) as [q3|] eqn:Q3; [|discriminate]. cbn [obind] in H. apply rdiv_Some in Q3 as [_ ->].
  destruct (rlog _) as [l3|] eqn:L3; [|discriminate]. cbn [obind] in H. unfold rlog in L3. destruct (Rlt_dec 0 _); [|discriminate]. apply Some_eq in L3; subst l3.
  assert (Hd : 0 < Rabs (E - g)) by (apply Rabs_pos_lt; lra). assert (Hd2 : ln ((g - E) ^ 2) = 2 * ln (Rabs (E - g))) by (replace ((g - E) ^ 2) with (Rabs (E - g) * Rabs (E - g)) by (rewrite <- Rabs_mult, Rabs_pos_eq; [ring|apply Rle_0_sqr]); rewrite ln_mult by assumption; ring).
  assert (HQ : 0 < qp al Cc g * qm al Cc g) by (apply Rmult_lt_0_compat; assumption).
  assert (LS : ln (sqrt (qp al Cc g * qm al Cc g)) = ln (qp al Cc g) / 2 + ln (qm al Cc g) / 2) by (assert (LQ : ln (qp al Cc g * qm al Cc g) = 2 * ln (sqrt (qp al Cc g * qm al Cc g))) by (rewrite <- (sqrt_sqrt (qp al Cc g * qm al Cc g)) at 1 by lra; rewrite ln_mult by (apply sqrt_lt_R0; exact HQ); ring); rewrite ln_mult in LQ by assumption; lra).
  assert (AT : forall x : R, Catan (RtoC x) = RtoC (atan x)) by apply Catan_real.
  replace ((RtoC (2 * g) + RtoC al) / RtoC Cc)%C with (RtoC ((2 * g + al) / Cc)) in H by (rewrite RtoC_div, RtoC_plus by lra; reflexivity).
  replace ((RtoC al - RtoC (2 * g)) / RtoC Cc)%C with (RtoC (- ((2 * g - al) / Cc))) in H by (replace (- ((2 * g - al) / Cc)) with ((al - 2 * g) / Cc) by (field; lra); rewrite RtoC_div, RtoC_minus by lra; reflexivity).
  replace (RtoC 2 / RtoC al / RtoC Cc * RtoC (Ei ^ 2 - Cc ^ 2 / 2 - g ^ 2))%C with (RtoC (- (2 * (g ^ 2 - g2 al Cc) / (al * Cc)))) in H.
  2: { replace (- (2 * (g ^ 2 - g2 al Cc) / (al * Cc))) with (2 / al / Cc * (Ei ^ 2 - Cc ^ 2 / 2 - g ^ 2)) by (rewrite W; unfold g2, wq; field; lra). rewrite RtoC_mult, !RtoC_div by lra. reflexivity. }
  rewrite !AT, !atan_opp, EQ in H. rewrite !ln_div in H by (try assumption; try apply Rmult_lt_0_compat; try apply sqrt_lt_R0; try assumption; lra). rewrite ln_mult, LS in H by (try assumption; lra).
  apply Some_eq in H. unfold Fu, Su. rewrite Hd2, (Rplus_comm g E).
  rewrite <- H, <- !RtoC_mult, <- !RtoC_plus, <- !RtoC_minus, <- !RtoC_plus, <- !RtoC_div, <- !RtoC_mult, <- !RtoC_minus, <- !RtoC_plus, <- !RtoC_minus, <- !RtoC_plus by lra.
  assert (G2 : g2 al Cc = Ei ^ 2 - Cc ^ 2 / 2) by (rewrite W; unfold g2, wq; field). unfold ta, tb, tc, td, te, w, B. rewrite <- W, G2. cbn [fst RtoC]. 
  field. repeat split; lra.
Qed.

Definition tl_im g A Ei Cc x := A * Ei * Cc * (x - g) ^ 2 / ((x ^ 2 - Ei ^ 2) ^ 2 + Cc ^ 2 * x ^ 2) / x * heaviside (x - g) 0.
Lemma kk_tauc E g A Ei Cc r : 0 < E -> 0 < g -> 0 < Ei -> 0 < Cc -> Cc ^ 2 < 4 * Ei ^ 2 ->
  tl_eps1 E g A Ei Cc = Some r -> kk_transform (tl_im g A Ei Cc) E (fst r).
Proof.
  intros HE Hg HI HC U H. assert (Hn : E <> g) by (intros ->; rewrite tl_eps1_gap in H; discriminate).
  rewrite (tl_value E g A Ei Cc r HE Hg Hn HI HC U H). set (al := sqrt (4 * Ei ^ 2 - Cc ^ 2)).
  assert (Ha : 0 < al) by (apply sqrt_lt_R0; lra). assert (Ha2 : al ^ 2 = 4 * Ei ^ 2 - Cc ^ 2) by (unfold al; rewrite pow2_sqrt; lra).
  apply kk_under; [exact HC|exact Ha|exact HE|lra|congruence| |].
  - intros x Hx. unfold tl_im. rewrite heaviside_neg by lra. ring.
  - intros x Hx Hne. rewrite <- tauc_fraction by (try assumption; lra). unfold tl_im. rewrite heaviside_pos by lra.
    assert (EQ : (x ^ 2 - Ei ^ 2) ^ 2 + Cc ^ 2 * x ^ 2 = qp al Cc x * qm al Cc x) by (replace (Ei ^ 2) with (wq al Cc) by (unfold wq; lra); unfold qp, qm, wq; field).
    rewrite EQ. assert (0 < qp al Cc x) by now apply qp_pos. assert (0 < qm al Cc x) by now apply qm_pos. field. repeat split; try lra. intros Q. apply Hne. nra.
Qed.

(** The Lorentz oscillator *)
Definition lo_im A Ei Cc x := A * (Cc * x) / ((Ei ^ 2 - x ^ 2) ^ 2 + (Cc * x) ^ 2).
Definition lo_re A Ei Cc x := A * (Ei ^ 2 - x ^ 2) / ((Ei ^ 2 - x ^ 2) ^ 2 + (Cc * x) ^ 2).
Lemma lo_under E A Ei Cc : 0 < E -> 0 < Ei -> 0 < Cc -> Cc ^ 2 < 4 * Ei ^ 2 -> kk_transform (lo_im A Ei Cc) E (lo_re A Ei Cc E).
Proof.
  intros HE HI HC U. set (al := sqrt (4 * Ei ^ 2 - Cc ^ 2)).
  assert (Ha : 0 < al) by (apply sqrt_lt_R0; lra). assert (Ha2 : al ^ 2 = 4 * Ei ^ 2 - Cc ^ 2) by (unfold al; rewrite pow2_sqrt; lra). clearbody al.
  assert (W : Ei ^ 2 = wq al Cc) by (unfold wq; lra). assert (Z := zt_pos al Cc E HC). assert (Pi := PI_RGT_0).
  assert (EQ : forall x, (Ei ^ 2 - x ^ 2) ^ 2 + (Cc * x) ^ 2 = qp al Cc x * qm al Cc x) by (intros x; rewrite W; unfold qp, qm, wq; field).
  set (ka := A * Cc * (wq al Cc + E ^ 2) / (4 * al * zt al Cc E)). set (kb := A * (wq al Cc - E ^ 2) / (2 * zt al Cc E)). set (kd := A * Cc * E / (2 * zt al Cc E)).
  replace (lo_re A Ei Cc E) with (2 / PI * (kb * PI + 0 * (PI / 2) - Fu al Cc E ka kb 0 kd 0 0)).
  - apply kk_under; [exact HC|exact Ha|exact HE|lra|lra|intros x Hx; lra|]. intros x Hx Hne. unfold lo_im. rewrite EQ. assert (P := qp_pos al Cc HC x). assert (M := qm_pos al Cc HC x). assert (P' := qp_pos al Cc HC E). assert (M' := qm_pos al Cc HC E).
    unfold fu, su, ka, kb, kd, zt in *. unfold qp, qm, wq in *. field. repeat split; try lra. intros Q. apply Hne. nra.
  - unfold Fu, Su. replace (qp al Cc 0) with (qm al Cc 0) by (unfold qp, qm; ring). replace ((2 * 0 - al) / Cc) with (- ((2 * 0 + al) / Cc)) by (field; lra). rewrite atan_opp.
    replace ((0 - E) ^ 2) with (E * E) by ring. rewrite ln_mult, Rplus_0_l by assumption. unfold lo_re. rewrite EQ. fold (zt al Cc E). unfold kb. rewrite W. field. split; lra.
Qed.

(** Rational functions with the denominators x^2 + p^2, x^2 + q^2, x^2 - E^2 *)
Section Over.
Variables p q E k1 k2 k3 kd : R.
Hypothesis Hp : 0 < p.
Hypothesis Hq : 0 < q.
Hypothesis HE : 0 < E.
Definition So x := k1 * atan (x / p) + k2 * atan (x / q) + k3 * (x / (x ^ 2 + p ^ 2)) - kd * ln (x + E).
Definition so x := k1 * (p / (x ^ 2 + p ^ 2)) + k2 * (q / (x ^ 2 + q ^ 2)) + k3 * ((p ^ 2 - x ^ 2) / (x ^ 2 + p ^ 2) ^ 2) - kd * (1 / (x + E)).
Definition fo x := so x + kd / (x - E).
Lemma sum_sq x y : 0 < y -> 0 < x ^ 2 + y ^ 2.
Proof. intros H. assert (0 < y ^ 2) by now apply pow_lt. assert (0 <= x ^ 2) by apply pow2_ge_0. lra. Qed.
Lemma So_derive x : 0 < x + E -> is_derive So x (so x).
Proof.
  intros Hx. assert (P := sum_sq x p Hp). assert (Q := sum_sq x q Hq). unfold So, so. apply der_minus; [apply der_plus; [apply der_plus|]|]; apply der_scal.
  - auto_derive; [lra|]. field. split; [intros X; nra|lra].
  - auto_derive; [lra|]. field. split; [intros X; nra|lra].
  - auto_derive; [nra|]. field. lra.
  - auto_derive; [lra|]. field. lra.
Qed.
Definition Ho y := k1 * (PI / 2 - atan (p * y)) + k2 * (PI / 2 - atan (q * y)) + k3 * (y / (1 + p ^ 2 * y ^ 2)) - kd * ln (1 + E * y) + kd / 2 * ln ((1 - E * y) ^ 2).
Lemma kk_over (e2 : R -> R) : (forall x, 0 < x -> x <> E -> x * e2 x / (x ^ 2 - E ^ 2) = fo x) -> kk_transform e2 E (k1 + k2).
Proof.
  intros X. assert (Pi := PI_RGT_0). assert (H0 : Ho 0 = (k1 + k2) * (PI / 2)).
  { unfold Ho. replace (1 + E * 0) with 1 by ring. replace ((1 - E * 0) ^ 2) with 1 by ring. rewrite !Rmult_0_r, atan_0, ln_1. unfold Rdiv. ring. }
  replace (k1 + k2) with (2 / PI * (Ho 0 - (So 0 + kd / 2 * ln ((0 - E) ^ 2)))).
  2: { rewrite H0. unfold So. replace ((0 - E) ^ 2) with (E * E) by ring. rewrite ln_mult, Rplus_0_l by assumption. replace (0 / p) with 0 by (unfold Rdiv; ring). replace (0 / q) with 0 by (unfold Rdiv; ring). rewrite atan_0. field. split; [intros Y; nra|lra]. }
  apply (kk_primitive e2 fo So (kd / 2) E 0 (Ho 0) HE); [lra|lra|intros x Hx; lra|exact X| | | |].
  - intros x Hx Hn. assert (P := sum_sq x p Hp). assert (Q := sum_sq x q Hq). apply (ex_derive_continuous (K := R_AbsRing) (V := R_NormedModule)). unfold fo, so. assert (0 < (x ^ 2 + p ^ 2) ^ 2) by now apply pow_lt. auto_derive. repeat split; lra.
  - intros x Hx Hn. assert (0 < (x - E) ^ 2) by (apply pow2_gt_0; lra). apply der_plus; [apply So_derive; lra|]. auto_derive; [nra|field; lra].
  - apply (ex_derive_continuous (K := R_AbsRing) (V := R_NormedModule)). exists (so E). apply So_derive. lra.
  - apply (at_infinity (fun x => So x + kd / 2 * ln ((x - E) ^ 2)) Ho E).
    + apply (ex_derive_continuous (K := R_AbsRing) (V := R_NormedModule)). unfold Ho. auto_derive. repeat split; lra.
    + intros M HM. assert (M0 : 0 < M) by lra. assert (M2 : 0 < M ^ 2) by now apply pow_lt. assert (iM : 0 < / M) by now apply Rinv_0_lt_compat. assert (HEi : 0 < E * / M) by (apply Rmult_lt_0_compat; assumption). assert (HEl : E * / M < 1) by (apply (Rmult_lt_reg_r M); [exact M0|]; rewrite Rmult_assoc, Rinv_l by lra; lra).
      assert (L2 : ln (M ^ 2) = 2 * ln M) by (replace (M ^ 2) with (M * M) by ring; rewrite ln_mult by assumption; ring).
      assert (E3 : ln (M + E) = ln M + ln (1 + E * / M)) by (rewrite <- ln_mult by lra; f_equal; field; lra). assert (E4 : ln ((M - E) ^ 2) = 2 * ln M + ln ((1 - E * / M) ^ 2)) by (rewrite <- L2, <- ln_mult; [f_equal; field; lra|exact M2|apply pow_lt; lra]).
      assert (A : forall z, 0 < z -> atan z = PI / 2 - atan (/ z)) by (intros z Hz; rewrite (atan_inv z Hz); ring).
      unfold So, Ho. rewrite E3, E4, (A (M / p)), (A (M / q)) by (apply Rdiv_lt_0_compat; assumption). replace (/ (M / p)) with (p * / M) by (field; lra). replace (/ (M / q)) with (q * / M) by (field; lra). replace (/ M / (1 + p ^ 2 * (/ M) ^ 2)) with (M / (M ^ 2 + p ^ 2)) by (assert (S := sum_sq M p Hp); field; split; [|lra]; intros Y; nra). field. assert (S := sum_sq M p Hp). lra.
Qed.
End Over.

Lemma lo_over E A Ei Cc : 0 < E -> 0 < Ei -> 0 < Cc -> 4 * Ei ^ 2 < Cc ^ 2 -> kk_transform (lo_im A Ei Cc) E (lo_re A Ei Cc E).
Proof.
  intros HE HI HC U. set (be := sqrt (Cc ^ 2 - 4 * Ei ^ 2)). assert (Hb : 0 < be) by (apply sqrt_lt_R0; lra). assert (Hb2 : be ^ 2 = Cc ^ 2 - 4 * Ei ^ 2) by (unfold be; rewrite pow2_sqrt; lra). clearbody be.
  assert (I2 : 0 < Ei ^ 2) by now apply pow_lt. assert (bC : be < Cc) by nra. set (p := (Cc + be) / 2). set (q := (Cc - be) / 2). assert (Hp : 0 < p) by (unfold p; lra). assert (Hq : 0 < q) by (unfold q; lra).
  assert (S1 : Cc = p + q) by (unfold p, q; field). assert (S2 : Ei ^ 2 = p * q) by (unfold p, q; lra). assert (S3 : q < p) by (unfold p, q; lra). clearbody p q. clear U Hb2 bC I2 Hb be. subst Cc.
  assert (EQ : forall x, (Ei ^ 2 - x ^ 2) ^ 2 + ((p + q) * x) ^ 2 = (x ^ 2 + p ^ 2) * (x ^ 2 + q ^ 2)) by (intros x; rewrite S2; ring).
  assert (P := fun x => sum_sq x p Hp). assert (Q := fun x => sum_sq x q Hq). assert (PE := P E). assert (QE := Q E).
  replace (lo_re A Ei (p + q) E) with (A * (p + q) * p / ((q ^ 2 - p ^ 2) * (E ^ 2 + p ^ 2)) + - (A * (p + q) * q / ((q ^ 2 - p ^ 2) * (E ^ 2 + q ^ 2)))).
  - apply (kk_over p q E _ _ 0 (A * (p + q) * E / (2 * ((E ^ 2 + p ^ 2) * (E ^ 2 + q ^ 2)))) Hp Hq HE). intros x Hx Hn. unfold lo_im. rewrite EQ. assert (Px := P x). assert (Qx := Q x). unfold fo, so. field. repeat split; try lra; intros X; nra.
  - unfold lo_re. rewrite EQ, S2. field. repeat split; try lra; intros X; nra.
Qed.
Lemma lo_critical E A Ei : 0 < E -> 0 < Ei -> kk_transform (lo_im A Ei (2 * Ei)) E (lo_re A Ei (2 * Ei) E).
Proof.
  intros HE HI. assert (EQ : forall x, (Ei ^ 2 - x ^ 2) ^ 2 + (2 * Ei * x) ^ 2 = (x ^ 2 + Ei ^ 2) * (x ^ 2 + Ei ^ 2)) by (intros x; ring). assert (P := fun x => sum_sq x Ei HI). assert (PE := P E).
  replace (lo_re A Ei (2 * Ei) E) with (A * (Ei ^ 2 - E ^ 2) / ((E ^ 2 + Ei ^ 2) * (E ^ 2 + Ei ^ 2)) + 0) by (unfold lo_re; rewrite EQ; ring).
  apply (kk_over Ei Ei E _ 0 (A * Ei / (E ^ 2 + Ei ^ 2)) (A * Ei * E / ((E ^ 2 + Ei ^ 2) * (E ^ 2 + Ei ^ 2))) HI HI HE). intros x Hx Hn. unfold lo_im. rewrite EQ. assert (Px := P x). unfold fo, so. field. repeat split; try lra; intros X; nra.
Qed.
Lemma kk_lorentz E A Ei Cc : 0 < E -> 0 < Ei -> 0 < Cc -> kk_transform (lo_im A Ei Cc) E (lo_re A Ei Cc E).
Proof.
  intros HE HI HC. destruct (Rtotal_order (Cc ^ 2) (4 * Ei ^ 2)) as [H|[H|H]]; [now apply lo_under| |now apply lo_over].
  assert (Cc = 2 * Ei) as -> by nra. now apply lo_critical.
Qed.
Lemma kk_drude E A g : 0 < E -> 0 < g -> kk_transform (fun x => A * (g * x) / (x ^ 2 * x ^ 2 + (g * x) ^ 2)) E (- (A * E ^ 2 / (E ^ 2 * E ^ 2 + (g * E) ^ 2))).
Proof.
  intros HE Hg. assert (P := fun x => sum_sq x g Hg). assert (PE := P E). assert (D : forall x, x ^ 2 * x ^ 2 + (g * x) ^ 2 = x ^ 2 * (x ^ 2 + g ^ 2)) by (intros x; ring).
  replace (- (A * E ^ 2 / (E ^ 2 * E ^ 2 + (g * E) ^ 2))) with (- A / (E ^ 2 + g ^ 2) + 0) by (rewrite D; field; split; lra).
  apply (kk_over g g E _ 0 0 (A * g / (2 * E * (E ^ 2 + g ^ 2))) Hg Hg HE). intros x Hx Hn. assert (Px := P x). rewrite D. unfold fo, so. field. repeat split; try lra; intros X; nra.
Qed.

Lemma kk_sum {T} (f : T -> R -> option C) rep E s : 0 < E ->
  (forall t, In t rep -> exists im, (forall x z, 0 < x -> f t x = Some z -> snd z = im x) /\
    forall z, f t E = Some z -> kk_transform im E (fst z)) ->
  osum (fun t => f t E) rep = Some s ->
  exists im, (forall x z, 0 < x -> osum (fun t => f t x) rep = Some z -> snd z = im x) /\ kk_transform im E (fst s).
Proof.
  intros HE. revert s. induction rep as [|t rep IH]; intros s H S.
  - injection S as <-. exists (fun _ => 0). split; [|apply kk_zero; exact HE]. intros x z _ Z. injection Z as <-. reflexivity.
  - rewrite osum_cons in S. destruct (f t E) as [a|] eqn:Ea; [|discriminate]. cbn [obind] in S. destruct (osum (fun t => f t E) rep) as [b|] eqn:Eb; [|discriminate]. cbn [obind] in S. apply Some_eq in S. subst s.
    destruct (H t (or_introl eq_refl)) as (im & I1 & I2). destruct (IH b (fun u Hu => H u (or_intror Hu)) eq_refl) as (im' & J1 & J2). exists (fun x => im x + im' x). split.
    + intros x z Hx Z. rewrite osum_cons in Z. destruct (f t x) as [u|] eqn:Eu; [|discriminate]. cbn [obind] in Z. destruct (osum (fun t => f t x) rep) as [v|] eqn:Ev; [|discriminate]. cbn [obind] in Z. apply Some_eq in Z. subst z. cbn. rewrite (I1 x u Hx Eu), (J1 x v Hx Ev). reflexivity.
    + cbn. apply kk_plus; [apply I2; exact Ea|exact J2].
Qed.
Lemma kk_osum {T} (f : T -> R -> option C) rep p E s e2 : 0 < E ->
  (forall t, In t rep -> exists im, (forall x z, 0 < x -> f t x = Some z -> snd z = im x) /\
    forall z, f t E = Some z -> kk_transform im E (fst z)) ->
  (forall t x, In t rep -> 0 < x -> x <> p -> f t x <> None) ->
  osum (fun t => f t E) rep = Some s ->
  (forall x z, 0 < x -> osum (fun t => f t x) rep = Some z -> e2 x = snd z) -> kk_transform e2 E (fst s).
Proof.
  intros HE H D S X. destruct (kk_sum f rep E s HE H S) as (im & I1 & I2). apply (kk_ext im e2 E p (fst s) HE); [|exact I2]. intros x Hx Hn.
  destruct (osum (fun t => f t x) rep) as [z|] eqn:Z; [rewrite (X x z Hx Z); symmetry; exact (I1 x z Hx Z)|]. exfalso. apply (proj1 (osum_defined (fun t => f t x) rep)); [|exact Z]. intros t Ht. now apply D.
Qed.
Lemma kk_unique e2 E V V' : kk_transform e2 E V -> kk_transform e2 E V' -> V = V'.
Proof.
  intros H H'. destruct (Req_dec V V') as [|N]; [assumption|exfalso]. assert (P : 0 < Rabs (V - V') / 2) by (apply Rdiv_lt_0_compat; [apply Rabs_pos_lt; lra|lra]).
  destruct (H _ P) as (s & M & Hs & K). destruct (H' _ P) as (s' & M' & Hs' & K'). set (d := Rmin s s' / 2). assert (Q : 0 < Rmin s s') by now apply Rmin_glb_lt. assert (Q1 := Rmin_l s s'). assert (Q2 := Rmin_r s s'). set (N' := Rmax M M' + 1). assert (R1 := Rmax_l M M'). assert (R2 := Rmax_r M M').
  destruct (K d N') as (u & v & Hu & Hv & B); [unfold d; lra|unfold N'; lra|]. destruct (K' d N') as (u' & v' & Hu' & Hv' & B'); [unfold d; lra|unfold N'; lra|].
  assert (u = u') by (rewrite <- (is_RInt_unique (V := R_CompleteNormedModule) _ _ _ _ Hu); exact (is_RInt_unique (V := R_CompleteNormedModule) _ _ _ _ Hu')). assert (v = v') by (rewrite <- (is_RInt_unique (V := R_CompleteNormedModule) _ _ _ _ Hv); exact (is_RInt_unique (V := R_CompleteNormedModule) _ _ _ _ Hv')). subst u' v'.
  assert (Rabs (V - V') < Rabs (V - V')); [|lra]. replace (V - V') with ((2 / PI * (u + v) - V') - (2 / PI * (u + v) - V)) at 1 by ring. eapply Rle_lt_trans; [apply Rabs_triang|]. rewrite Rabs_Ropp. lra.
Qed.
Lemma wavelength_of_energy c h x : 0 < c -> 0 < h -> 0 < x -> wavelength_energy c h (wavelength_of c h x) = Some x /\ 0 < wavelength_of c h x.
Proof.
  intros Hc Hh Hx. assert (K : 0 < c * h * 10 ^ 9) by (apply Rmult_lt_0_compat; [apply Rmult_lt_0_compat; assumption|apply pow_lt; lra]). assert (L : 0 < wavelength_of c h x) by (unfold wavelength_of; apply Rdiv_lt_0_compat; assumption). split; [|exact L].
  destruct (conv_pos c h _ Hc Hh L) as (e & E & _ & ->). rewrite E. f_equal. unfold wavelength_of. field. repeat split; lra.
Qed.

Section Models.
Variables c h : R.
Hypothesis Hc : 0 < c.
Hypothesis Hh : 0 < h.
Definition lor_term (t : R * R * R) (x : R) : option C := let '(A, E, g) := t in cdiv (RtoC A) (RtoC (E ^ 2 - x ^ 2) - Ci * RtoC (g * x))%C.
Lemma lor_parts A E g x z : lor_term (A, E, g) x = Some z -> snd z = lo_im A E g x /\ fst z = lo_re A E g x.
Proof.
  intros H. apply cdiv_resp in H as (_ & R1 & I1). unfold lo_im, lo_re. replace ((E ^ 2 - x ^ 2) ^ 2 + (g * x) ^ 2) with ((E ^ 2 - x ^ 2) * (E ^ 2 - x ^ 2) + g * x * (g * x)) by ring. auto.
Qed.
Lemma lor_defined A E g x : 0 < g -> 0 < x -> lor_term (A, E, g) x <> None.
Proof.
  intros Hg Hx. unfold lor_term. rewrite cdiv_nz; [discriminate|]. apply resp_nz. assert (0 < g * x) by (apply Rmult_lt_0_compat; assumption). assert (0 < g * x * (g * x)) by (apply Rmult_lt_0_compat; assumption). assert (Q := Rle_0_sqr (E ^ 2 - x ^ 2)). unfold Rsqr in Q. lra.
Qed.
Lemma lor_sum rep E s e2 : 0 < E -> Forall (fun '(A, E0, g) => 0 < E0 /\ 0 < g) rep -> osum (fun t => lor_term t E) rep = Some s ->
  (forall x z, 0 < x -> osum (fun t => lor_term t x) rep = Some z -> e2 x = snd z) -> kk_transform e2 E (fst s).
Proof.
  intros HE F S X. rewrite Forall_forall in F. apply (kk_osum lor_term rep 0 E s e2 HE); [| |exact S|exact X].
  - intros [[A E0] g] Ht. destruct (F _ Ht) as [H1 H2]. exists (lo_im A E0 g). split; [intros x z _ Z; apply (lor_parts _ _ _ _ _ Z)|]. intros z Z. rewrite (proj2 (lor_parts _ _ _ _ _ Z)). now apply kk_lorentz.
  - intros [[A E0] g] x Ht Hx _. destruct (F _ Ht) as [H1 H2]. now apply lor_defined.
Qed.
Lemma lorentz_energy_sum rep x : 0 < x -> lorentz_energy c h rep (wavelength_of c h x) = obind (osum (fun t => lor_term t x) rep) (fun s => Some (1 + s)%C).
Proof.
  intros Hx. unfold lorentz_energy. rewrite (proj1 (wavelength_of_energy c h x Hc Hh Hx)). cbn [obind]. f_equal. rewrite <- (map_id rep) at 2. apply osum_ext. intros [[A E] g] _. unfold lor_term, id. now rewrite lor_den.
Qed.
(** in wavelengths *)
Definition lam (t : R * R * R) : R * R * R := let '(A, lr, g) := t in let E := c * h * 10 ^ 9 / lr in (A * E ^ 2, E, g * E ^ 2 / (c * h * 10 ^ 9)).
Lemma lorentz_lambda_sum rep x : 0 < x -> Forall (fun '(A, lr, g) => 0 < lr /\ 0 < g) rep ->
  lorentz_lambda rep (wavelength_of c h x) = obind (osum (fun t => lor_term t x) (map lam rep)) (fun s => Some (1 + s)%C).
Proof.
  intros Hx F. unfold lorentz_lambda. f_equal. apply osum_ext. intros [[A lr] g] Ht. rewrite Forall_forall in F. destruct (F _ Ht) as [H1 H2].
  assert (K : 0 < c * h * 10 ^ 9) by (apply Rmult_lt_0_compat; [apply Rmult_lt_0_compat; assumption|apply pow_lt; lra]). unfold lam, lor_term, wavelength_of. set (k := c * h * 10 ^ 9) in *. clearbody k.
  rewrite lam_den. assert (D1 : ((k / x) ^ 2 - lr ^ 2) * ((k / x) ^ 2 - lr ^ 2) + g * (k / x) * (g * (k / x)) <> 0).
  { assert (0 < g * (k / x)) by (apply Rmult_lt_0_compat; [assumption|apply Rdiv_lt_0_compat; assumption]). assert (0 < g * (k / x) * (g * (k / x))) by (apply Rmult_lt_0_compat; assumption). assert (Q := Rle_0_sqr ((k / x) ^ 2 - lr ^ 2)). unfold Rsqr in Q. lra. }
  assert (D2 : ((k / lr) ^ 2 - x ^ 2) * ((k / lr) ^ 2 - x ^ 2) + g * (k / lr) ^ 2 / k * x * (g * (k / lr) ^ 2 / k * x) <> 0).
  { assert (0 < g * (k / lr) ^ 2 / k * x) by (apply Rmult_lt_0_compat; [apply Rdiv_lt_0_compat; [apply Rmult_lt_0_compat; [assumption|apply pow_lt, Rdiv_lt_0_compat; assumption]|assumption]|assumption]). assert (0 < g * (k / lr) ^ 2 / k * x * (g * (k / lr) ^ 2 / k * x)) by (apply Rmult_lt_0_compat; assumption). assert (Q := Rle_0_sqr ((k / lr) ^ 2 - x ^ 2)). unfold Rsqr in Q. lra. }
  rewrite !cdiv_nz by now apply resp_nz. f_equal. rewrite !resp by assumption.
  assert (S1 : (k / x) ^ 2 - lr ^ 2 = (lr / x) ^ 2 * ((k / lr) ^ 2 - x ^ 2)) by (field; lra). assert (S2 : g * (k / x) = (lr / x) ^ 2 * (g * (k / lr) ^ 2 / k * x)) by (field; lra).
  assert (S3 : A * (k / x) ^ 2 = (lr / x) ^ 2 * (A * (k / lr) ^ 2)) by (field; lra). rewrite S1, S2 in D1. rewrite S1, S2, S3. set (a := (k / lr) ^ 2 - x ^ 2) in *. set (b := g * (k / lr) ^ 2 / k * x) in *. set (m := (lr / x) ^ 2) in *. set (B := A * (k / lr) ^ 2). assert (Hm : 0 < m) by (unfold m; apply pow_lt, Rdiv_lt_0_compat; assumption). clearbody a b m B. clear - Hm D2.
  assert (D3 : m * a * (m * a) + m * b * (m * b) <> 0) by (intros X; apply D2; apply (Rmult_eq_reg_l (m * m)); [rewrite Rmult_0_r, <- X; ring|nra]).
  apply C_ext; cbn [fst snd]; field; split; assumption.
Qed.
Definition tl_term_at g (t : R * R * R) (x : R) : option C := let '(A, E, Cc) := t in
  (let? q := rdiv (A * E * Cc * (x - g) ^ 2) ((x ^ 2 - E ^ 2) ^ 2 + Cc ^ 2 * x ^ 2) in
   let? q := rdiv q x in
   let? r := tl_eps1 x g A E Cc in
   Some (Ci * RtoC q * RtoC (heaviside (x - g) 0) + r)%C)%py.
Lemma tauc_sum g rep x : 0 < x -> tauc_lorentz c h g rep (wavelength_of c h x) = osum (fun t => tl_term_at g t x) rep.
Proof.
  intros Hx. unfold tauc_lorentz. rewrite (proj1 (wavelength_of_energy c h x Hc Hh Hx)). cbn [obind]. rewrite <- (map_id rep) at 2. apply osum_ext. intros [[A E] g'] _. reflexivity.
Qed.
Lemma tl_at_defined g A E Cc x : 0 < x -> 0 < g -> x <> g -> 0 < E -> 0 < Cc -> Cc ^ 2 < 4 * E ^ 2 -> tl_term_at g (A, E, Cc) x <> None.
Proof.
  intros Hx Hg Hn HE HC U. unfold tl_term_at. assert (D : 0 < (x ^ 2 - E ^ 2) ^ 2 + Cc ^ 2 * x ^ 2) by (assert (0 < Cc ^ 2 * x ^ 2) by (apply Rmult_lt_0_compat; apply pow_lt; assumption); assert (Q := pow2_ge_0 (x ^ 2 - E ^ 2)); lra).
  rewrite rdiv_nz by lra. cbn [obind]. rewrite rdiv_nz by lra. cbn [obind]. destruct (tl_eps1_defined x g A E Cc) as [r ->]; [lra..|discriminate].
Qed.
Lemma tl_kk g A E0 Cc E : 0 < E -> 0 < g -> 0 < E0 -> 0 < Cc -> Cc ^ 2 < 4 * E0 ^ 2 ->
  (forall x z, 0 < x -> tl_term_at g (A, E0, Cc) x = Some z -> snd z = tl_im g A E0 Cc x) /\
  forall z, tl_term_at g (A, E0, Cc) E = Some z -> kk_transform (tl_im g A E0 Cc) E (fst z).
Proof.
  intros HE Hg HI HC U. split.
  - intros x z Hx Z. destruct (tl_term _ _ _ _ _ _ Z) as (r & Hr & _ & _ & I1). rewrite I1, (tl_eps1_real _ _ _ _ _ _ U Hr). unfold tl_im. ring.
  - intros z Z. assert (exists r, tl_eps1 E g A E0 Cc = Some r /\ fst z = fst r) as (r & Hr & ->); [|now apply kk_tauc].
    unfold tl_term_at in Z. destruct (rdiv _ _) as [q0|]; [|discriminate]. cbn [obind] in Z. destruct (rdiv _ _) as [q|]; [|discriminate]. cbn [obind] in Z. destruct (tl_eps1 E g A E0 Cc) as [r|]; [|discriminate]. cbn [obind] in Z. apply Some_eq in Z. exists r. split; [reflexivity|]. subst z. cbn. ring.
Qed.
End Models.
