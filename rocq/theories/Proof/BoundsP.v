From Coq Require Import Reals Lra Lia Psatz List.
From Coquelicot Require Import Complex.
From Verif.Base Require Import Py Cx Mat.
From Verif.Model Require Import Mixture.
From Verif.Spec Require Import Effective Bounds.
From Verif.Proof Require Import DispersionsP MixtureP MixtureP2 MixtureP3.
Import ListNotations.
Open Scope R_scope.

Section Means.
Variables f h g : R.
Hypothesis Hf : 0 <= f <= 1.
Hypothesis Hh : 0 < h.
Hypothesis Hg : 0 < g.

Lemma other_pos : 0 < arithmetic_mean f g h.
Proof. unfold arithmetic_mean. destruct (Rlt_dec 0 f) as [F|F]; [assert (0 < f * h) by (apply Rmult_lt_0_compat; assumption); assert (0 <= (1 - f) * g) by (apply Rmult_le_pos; lra); lra|]. assert (f = 0) by lra. subst f. lra. Qed.
Lemma mean_pos : 0 < arithmetic_mean f h g.
Proof. unfold arithmetic_mean. destruct (Rlt_dec 0 f) as [F|F]; [assert (0 < f * g) by (apply Rmult_lt_0_compat; assumption); assert (0 <= (1 - f) * h) by (apply Rmult_le_pos; lra); lra|]. assert (f = 0) by lra. subst f. lra. Qed.
Lemma mean_product : arithmetic_mean f h g * arithmetic_mean f g h - h * g = f * (1 - f) * (g - h) ^ 2.
Proof. unfold arithmetic_mean. ring. Qed.
Lemma mean_product_ge : h * g <= arithmetic_mean f h g * arithmetic_mean f g h.
Proof. assert (E := mean_product). assert (0 <= f * (1 - f) * (g - h) ^ 2) by (apply Rmult_le_pos; [apply Rmult_le_pos; lra|apply pow2_ge_0]). lra. Qed.

Lemma hs_fraction m : 0 <= m -> hashin_shtrikman m f h g = (h * g + 2 * m * arithmetic_mean f h g) / (arithmetic_mean f g h + 2 * m).
Proof.
  intros Hm. assert (B := other_pos). unfold hashin_shtrikman. replace ((1 - f) / (h + 2 * m) + f / (g + 2 * m)) with ((arithmetic_mean f g h + 2 * m) / ((h + 2 * m) * (g + 2 * m))).
  - unfold arithmetic_mean in *. field. split; [lra|split; lra].
  - unfold arithmetic_mean in *. field. split; lra.
Qed.
Lemma hs_zero : hashin_shtrikman 0 f h g = harmonic_mean f h g.
Proof. unfold hashin_shtrikman, harmonic_mean. replace (h + 2 * 0) with h by ring. replace (g + 2 * 0) with g by ring. ring. Qed.
Lemma hs_mono m n : 0 <= m <= n -> hashin_shtrikman m f h g <= hashin_shtrikman n f h g.
Proof.
  intros [H1 H2]. rewrite !hs_fraction by lra. assert (B := other_pos). assert (G := mean_product_ge). set (b := arithmetic_mean f g h) in *. set (a := arithmetic_mean f h g) in *. clearbody a b.
  apply Rmult_le_reg_r with ((b + 2 * m) * (b + 2 * n)); [apply Rmult_lt_0_compat; lra|].
  replace ((h * g + 2 * m * a) / (b + 2 * m) * ((b + 2 * m) * (b + 2 * n))) with ((h * g + 2 * m * a) * (b + 2 * n)) by (field; lra). replace ((h * g + 2 * n * a) / (b + 2 * n) * ((b + 2 * m) * (b + 2 * n))) with ((h * g + 2 * n * a) * (b + 2 * m)) by (field; lra).
  assert (0 <= (n - m) * (a * b - h * g)) by (apply Rmult_le_pos; lra). lra.
Qed.
Lemma hs_below m : 0 <= m -> hashin_shtrikman m f h g <= arithmetic_mean f h g.
Proof.
  intros H1. rewrite !hs_fraction by lra. assert (B := other_pos). assert (G := mean_product_ge). set (b := arithmetic_mean f g h) in *. set (a := arithmetic_mean f h g) in *. clearbody a b.
  apply Rmult_le_reg_r with (b + 2 * m); [lra|]. replace ((h * g + 2 * m * a) / (b + 2 * m) * (b + 2 * m)) with (h * g + 2 * m * a) by (field; lra). lra.
Qed.
Lemma hs_above m : 0 <= m -> harmonic_mean f h g <= hashin_shtrikman m f h g.
Proof. intros H. rewrite <- hs_zero. apply hs_mono. lra. Qed.
Lemma harmonic_pos : 0 < harmonic_mean f h g.
Proof. rewrite <- hs_zero, hs_fraction by lra. assert (B := other_pos). apply Rdiv_lt_0_compat; [|lra]. assert (0 < h * g) by now apply Rmult_lt_0_compat. lra. Qed.
Lemma harmonic_above : Rmin h g <= harmonic_mean f h g.
Proof.
  rewrite <- hs_zero, hs_fraction by lra. assert (B := other_pos). set (m := Rmin h g). assert (M1 : m <= h) by apply Rmin_l. assert (M2 : m <= g) by apply Rmin_r. assert (M0 : 0 < m) by now apply Rmin_glb_lt.
  apply Rmult_le_reg_r with (arithmetic_mean f g h); [lra|]. replace ((h * g + 2 * 0 * arithmetic_mean f h g) / (arithmetic_mean f g h + 2 * 0) * arithmetic_mean f g h) with (h * g) by (field; lra).
  unfold arithmetic_mean. assert (0 <= (1 - f) * (g * (h - m))) by (apply Rmult_le_pos; [lra|apply Rmult_le_pos; lra]). assert (0 <= f * (h * (g - m))) by (apply Rmult_le_pos; [lra|apply Rmult_le_pos; lra]). lra.
Qed.
Lemma arithmetic_below : arithmetic_mean f h g <= Rmax h g.
Proof. set (m := Rmax h g). assert (M1 : h <= m) by apply Rmax_l. assert (M2 : g <= m) by apply Rmax_r. unfold arithmetic_mean. assert (0 <= (1 - f) * (m - h)) by (apply Rmult_le_pos; lra). assert (0 <= f * (m - g)) by (apply Rmult_le_pos; lra). lra. Qed.
End Means.

(** ** The four rules with positive real constituents *)
Lemma vca_real f h g : vca f (RtoC h) (RtoC g) = RtoC (arithmetic_mean f h g).
Proof. unfold vca, arithmetic_mean. apply C_ext; cbn; ring. Qed.

Lemma mg_real f h g : 0 <= f <= 1 -> 0 < h -> 0 < g -> maxwell_garnett f (RtoC h) (RtoC g) = Some (RtoC (hashin_shtrikman h f h g)).
Proof.
  intros Hf Hh Hg. unfold maxwell_garnett. destruct (Ceq_dec (RtoC h) 0) as [E|E]; [apply (f_equal fst) in E; cbn in E; lra|].
  assert (B := other_pos f h g Hf Hh Hg). assert (D : (2 * RtoC h + RtoC g - RtoC f * (RtoC g - RtoC h))%C = RtoC (arithmetic_mean f g h + 2 * h)) by (unfold arithmetic_mean; apply C_ext; cbn; ring).
  rewrite D, cdiv_nz by (intros K; apply (f_equal fst) in K; cbn in K; lra). f_equal. rewrite hs_fraction by lra.
  replace (RtoC h * (2 * RtoC f * (RtoC g - RtoC h) + RtoC g + 2 * RtoC h))%C with (RtoC (h * g + 2 * h * arithmetic_mean f h g)) by (unfold arithmetic_mean; apply C_ext; cbn; ring).
  rewrite <- RtoC_div by lra. reflexivity.
Qed.

Lemma brugg_real f h g : 0 < h -> 0 < g -> exists e, bruggeman f (RtoC h) (RtoC g) = Some (RtoC e) /\ 0 < e /\
  2 * e ^ 2 - e * ((2 - 3 * f) * h + (3 * f - 1) * g) - h * g = 0.
Proof.
  intros Hh Hg. unfold bruggeman. destruct (Ceq_dec (RtoC h) (RtoC g)) as [E|E].
  - apply (f_equal fst) in E. cbn in E. subst g. exists h. split; [reflexivity|]. split; [exact Hh|]. ring.
  - rewrite !Csqrt_pos by lra. assert (S1 := sqrt_lt_R0 h Hh). assert (S2 := sqrt_lt_R0 g Hg). assert (Q1 := sqrt_sqrt h ltac:(lra)). assert (Q2 := sqrt_sqrt g ltac:(lra)). set (s := sqrt h) in *. set (t := sqrt g) in *. clearbody s t.
    rewrite cdiv_nz by (intros K; apply (f_equal fst) in K; cbn in K; lra). cbn [obind]. rewrite <- RtoC_div by lra. assert (P : 0 < s / t) by now apply Rdiv_lt_0_compat.
    rewrite cdiv_nz by (intros K; apply (f_equal fst) in K; cbn in K; lra). cbn [obind].
    set (b := 1 / 4 * ((3 * f - 1) * (t / s - s / t) + s / t)). assert (Eb : (RtoC (1 / 4) * (RtoC (3 * f - 1) * (1 / RtoC (s / t) - RtoC (s / t)) + RtoC (s / t)))%C = RtoC b).
    { replace (1 / RtoC (s / t))%C with (RtoC (t / s)); [unfold b; apply C_ext; cbn; ring|]. rewrite <- RtoC_div by lra. f_equal. field. split; lra. }
    rewrite Eb. rewrite <- RtoC_mult, <- RtoC_plus. assert (B0 := Rle_0_sqr b). unfold Rsqr in B0. rewrite Csqrt_pos by lra. assert (R0 := sqrt_lt_R0 (b * b + 1 / 2) ltac:(lra)). assert (R1 := sqrt_sqrt (b * b + 1 / 2) ltac:(lra)). set (r := sqrt (b * b + 1 / 2)) in *. clearbody r.
    assert (Z : 0 < b + r) by (destruct (Rle_dec 0 b); [lra|]; assert (0 < (r - b) * (b + r)) by lra; apply Rmult_lt_reg_l with (r - b); lra).
    exists ((b + r) * s * t). rewrite <- RtoC_plus, <- !RtoC_mult. split; [reflexivity|]. split; [repeat apply Rmult_lt_0_compat; assumption|].
    assert (Bst : 4 * b * (s * t) = (3 * f - 1) * (g - h) + h) by (unfold b; rewrite <- Q1, <- Q2; field; split; lra).
    replace (2 * ((b + r) * s * t) ^ 2) with (2 * (b * b + 2 * b * r + r * r) * ((s * s) * (t * t))) by ring. rewrite R1, Q1, Q2. replace ((2 - 3 * f) * h + (3 * f - 1) * g) with (4 * b * (s * t)) by lra.
    replace ((b + r) * s * t * (4 * b * (s * t))) with (4 * b * (b + r) * ((s * s) * (t * t))) by ring. rewrite Q1, Q2. field.
Qed.
Lemma brugg_fixed f h g e : 0 <= f <= 1 -> 0 < h -> 0 < g -> 0 < e -> 2 * e ^ 2 - e * ((2 - 3 * f) * h + (3 * f - 1) * g) - h * g = 0 ->
  e = hashin_shtrikman e f h g.
Proof.
  intros Hf Hh Hg He E. rewrite hs_fraction by lra. assert (B := other_pos f h g Hf Hh Hg). apply Rmult_eq_reg_r with (arithmetic_mean f g h + 2 * e); [|lra].
  replace ((h * g + 2 * e * arithmetic_mean f h g) / (arithmetic_mean f g h + 2 * e) * (arithmetic_mean f g h + 2 * e)) with (h * g + 2 * e * arithmetic_mean f h g) by (field; lra). unfold arithmetic_mean. lra.
Qed.
Lemma brugg_inc f1 f2 h g e1 e2 : f1 < f2 -> 0 < h < g -> 0 < e1 -> 0 < e2 ->
  2 * e1 ^ 2 - e1 * ((2 - 3 * f1) * h + (3 * f1 - 1) * g) - h * g = 0 ->
  2 * e2 ^ 2 - e2 * ((2 - 3 * f2) * h + (3 * f2 - 1) * g) - h * g = 0 -> e1 < e2.
Proof.
  intros Hf Hh H1 H2 E1 E2. destruct (Rlt_dec e1 e2) as [L|L]; [exact L|]. exfalso. assert (L' : e2 <= e1) by lra. clear L.
  assert (B : 0 < (f2 - f1) * (g - h)) by (apply Rmult_lt_0_compat; lra). assert (P : 0 < h * g) by (apply Rmult_lt_0_compat; lra).
  assert (X1 : 2 * e1 - h * g / e1 = (2 - 3 * f1) * h + (3 * f1 - 1) * g) by (apply Rmult_eq_reg_l with e1; [field_simplify; lra|lra]).
  assert (X2 : 2 * e2 - h * g / e2 = (2 - 3 * f2) * h + (3 * f2 - 1) * g) by (apply Rmult_eq_reg_l with e2; [field_simplify; lra|lra]).
  assert (I : h * g / e1 <= h * g / e2) by (apply Rmult_le_compat_l; [lra|apply Rinv_le_contravar; assumption]). lra.
Qed.
Lemma hs_inc f1 f2 h g : 0 <= f1 -> f1 < f2 -> f2 <= 1 -> 0 < h < g -> hashin_shtrikman h f1 h g < hashin_shtrikman h f2 h g.
Proof.
  intros H0 H1 H2 H. unfold hashin_shtrikman. assert (P1 : 0 < / (h + 2 * h)) by (apply Rinv_0_lt_compat; lra). assert (P2 : 0 < / (g + 2 * h)) by (apply Rinv_0_lt_compat; lra). assert (P3 : / (g + 2 * h) < / (h + 2 * h)) by (apply Rinv_lt_contravar; [apply Rmult_lt_0_compat; lra|lra]).
  unfold Rdiv. set (u := / (h + 2 * h)) in *. set (v := / (g + 2 * h)) in *. clearbody u v. assert (0 < (f2 - f1) * (u - v)) by (apply Rmult_lt_0_compat; lra).
  assert (Q : 0 < (1 - f2) * u + f2 * v). { assert (0 <= (1 - f2) * (u - v)) by (apply Rmult_le_pos; lra). lra. }
  apply Rplus_lt_compat_r, Rinv_lt_contravar; [apply Rmult_lt_0_compat; lra|lra].
Qed.


Lemma real_root h : 0 < h -> exists a, 0 < a /\ a ^ 3 = h.
Proof.
  intros H. exists (Rpower h (/ 3)). assert (P : 0 < Rpower h (/ 3)) by apply exp_pos. split; [exact P|]. rewrite <- Rpower_pow by exact P. rewrite Rpower_mult. replace (/ 3 * INR 3) with 1 by (cbn; field). now apply Rpower_1.
Qed.
Lemma cube_root_real a : 0 < a -> cube_root (RtoC a) (RtoC (a ^ 3)).
Proof. intros H. split; [apply C_ext; cbn; ring|]. right. cbn. assert (0 < sqrt 3) by (apply sqrt_lt_R0; lra). assert (0 < sqrt 3 * a) by now apply Rmult_lt_0_compat. lra. Qed.
Lemma looy_real h g : 0 < h -> 0 < g -> exists a b, 0 < a /\ 0 < b /\ a ^ 3 = h /\ b ^ 3 = g /\
  forall f, 0 <= f <= 1 -> looyenga f (RtoC h) (RtoC g) = RtoC ((a * (1 - f) + b * f) ^ 3).
Proof.
  intros Hh Hg. destruct (real_root h Hh) as (a & Ha & <-). destruct (real_root g Hg) as (b & Hb & <-). exists a, b. repeat split; try assumption. intros f Hf.
  destruct (looyenga_root f _ _ _ _ Hf (cube_root_real a Ha) (cube_root_real b Hb)) as [<- _]. apply C_ext; cbn; ring.
Qed.

Lemma looy_lower f a b : 0 <= f <= 1 -> 0 < a <= b -> hashin_shtrikman (a ^ 3) f (a ^ 3) (b ^ 3) <= (a * (1 - f) + b * f) ^ 3.
Proof.
  intros Hf Hab. assert (A3 : 0 < a ^ 3) by (apply pow_lt; lra). assert (B3 : 0 < b ^ 3) by (apply pow_lt; lra). rewrite hs_fraction by lra. assert (B := other_pos f (a ^ 3) (b ^ 3) Hf A3 B3).
  apply Rmult_le_reg_r with (arithmetic_mean f (b ^ 3) (a ^ 3) + 2 * a ^ 3); [lra|]. replace ((a ^ 3 * b ^ 3 + 2 * a ^ 3 * arithmetic_mean f (a ^ 3) (b ^ 3)) / (arithmetic_mean f (b ^ 3) (a ^ 3) + 2 * a ^ 3) * (arithmetic_mean f (b ^ 3) (a ^ 3) + 2 * a ^ 3)) with (a ^ 3 * b ^ 3 + 2 * a ^ 3 * arithmetic_mean f (a ^ 3) (b ^ 3)) by (field; lra).
  clear B A3 B3. unfold arithmetic_mean. pose (t := b - a). assert (Ht : 0 <= t) by (unfold t; lra). replace b with (a + t) by (unfold t; ring). clearbody t.
  assert (P : 0 <= f * (1 - f) * t ^ 2 * (a ^ 3 * t * 6 * (1 + f) + a ^ 2 * t ^ 2 * (3 + 9 * f + 3 * f ^ 2) + a * t ^ 3 * (3 * f + 3 * f ^ 2) + t ^ 4 * f ^ 2)).
  { assert (F2 : 0 <= f ^ 2) by apply pow2_ge_0. assert (Ha : 0 <= a) by lra. apply Rmult_le_pos; [apply Rmult_le_pos; [apply Rmult_le_pos; lra|apply pow2_ge_0]|]. repeat apply Rplus_le_le_0_compat; repeat apply Rmult_le_pos; try apply pow_le; lra. }
  match goal with |- ?x <= ?y => replace y with (x + f * (1 - f) * t ^ 2 * (a ^ 3 * t * 6 * (1 + f) + a ^ 2 * t ^ 2 * (3 + 9 * f + 3 * f ^ 2) + a * t ^ 3 * (3 * f + 3 * f ^ 2) + t ^ 4 * f ^ 2)) by ring end. lra.
Qed.
Lemma looy_upper f a b : 0 <= f <= 1 -> 0 < a <= b -> (a * (1 - f) + b * f) ^ 3 <= hashin_shtrikman (b ^ 3) f (a ^ 3) (b ^ 3).
Proof.
  intros Hf Hab. assert (A3 : 0 < a ^ 3) by (apply pow_lt; lra). assert (B3 : 0 < b ^ 3) by (apply pow_lt; lra). rewrite hs_fraction by lra. assert (B := other_pos f (a ^ 3) (b ^ 3) Hf A3 B3).
  apply Rmult_le_reg_r with (arithmetic_mean f (b ^ 3) (a ^ 3) + 2 * b ^ 3); [lra|]. replace ((a ^ 3 * b ^ 3 + 2 * b ^ 3 * arithmetic_mean f (a ^ 3) (b ^ 3)) / (arithmetic_mean f (b ^ 3) (a ^ 3) + 2 * b ^ 3) * (arithmetic_mean f (b ^ 3) (a ^ 3) + 2 * b ^ 3)) with (a ^ 3 * b ^ 3 + 2 * b ^ 3 * arithmetic_mean f (a ^ 3) (b ^ 3)) by (field; lra).
  clear B A3 B3. unfold arithmetic_mean. pose (t := b - a). assert (Ht : 0 <= t) by (unfold t; lra). assert (Htb : t <= b) by (unfold t; lra). replace a with (b - t) by (unfold t; ring). clearbody t. pose (s := 1 - f). assert (Hs : 0 <= s <= 1) by (unfold s; lra). replace f with (1 - s) by (unfold s; ring). clearbody s. clear Hf f Hab.
  pose (u := b - t). assert (Hu : 0 <= u) by (unfold u; lra).
  set (Q := 6 * (1 + s) * b ^ 3 - (3 + 9 * s + 3 * s ^ 2) * b ^ 2 * t + (3 * s + 3 * s ^ 2) * b * t ^ 2 - s ^ 2 * t ^ 3).
  assert (HQ : 0 <= Q).
  { replace Q with (6 * (1 + s) * u ^ 3 + (15 + 9 * s - 3 * s ^ 2) * u ^ 2 * t + (12 + 3 * s - 3 * s ^ 2) * u * t ^ 2 + (3 - s ^ 2) * t ^ 3) by (unfold Q, u; ring). assert (S2 : 0 <= s ^ 2 <= 1) by (split; [apply pow2_ge_0|nra]). repeat apply Rplus_le_le_0_compat; repeat apply Rmult_le_pos; try apply pow_le; lra. }
  assert (P : 0 <= s * (1 - s) * t ^ 3 * Q) by (apply Rmult_le_pos; [apply Rmult_le_pos; [apply Rmult_le_pos; lra|now apply pow_le]|exact HQ]). unfold Q in P.
  match goal with |- ?x <= ?y => assert (E : y = x + s * (1 - s) * t ^ 3 * (6 * (1 + s) * b ^ 3 - (3 + 9 * s + 3 * s ^ 2) * b ^ 2 * t + (3 * s + 3 * s ^ 2) * b * t ^ 2 - s ^ 2 * t ^ 3)) by ring; rewrite E end. lra.
Qed.
Lemma hs_swap m f h g : hashin_shtrikman m f h g = hashin_shtrikman m (1 - f) g h.
Proof. unfold hashin_shtrikman. replace (1 - (1 - f)) with f by ring. now rewrite (Rplus_comm ((1 - f) / (h + 2 * m))). Qed.
Lemma looy_between f a b : 0 <= f <= 1 -> 0 < a -> 0 < b ->
  hashin_shtrikman (Rmin (a ^ 3) (b ^ 3)) f (a ^ 3) (b ^ 3) <= (a * (1 - f) + b * f) ^ 3 <= hashin_shtrikman (Rmax (a ^ 3) (b ^ 3)) f (a ^ 3) (b ^ 3).
Proof.
  intros Hf Ha Hb. destruct (Rle_dec a b) as [H|H].
  - assert (a ^ 3 <= b ^ 3) by (apply pow_incr; lra). rewrite Rmin_left, Rmax_right by assumption. split; [apply looy_lower|apply looy_upper]; lra.
  - assert (b ^ 3 <= a ^ 3) by (apply pow_incr; lra). rewrite Rmin_right, Rmax_left by assumption. rewrite !(hs_swap _ f). replace (a * (1 - f) + b * f) with (b * (1 - (1 - f)) + a * (1 - f)) by ring. split; [apply looy_lower|apply looy_upper]; lra.
Qed.
Lemma brugg_between f h g e : 0 <= f <= 1 -> 0 < h -> 0 < g -> 0 < e -> e = hashin_shtrikman e f h g ->
  hashin_shtrikman (Rmin h g) f h g <= e <= hashin_shtrikman (Rmax h g) f h g.
Proof.
  intros Hf Hh Hg He E. assert (L : Rmin h g <= e) by (rewrite E; apply Rle_trans with (harmonic_mean f h g); [now apply harmonic_above|apply hs_above; lra]). assert (U : e <= Rmax h g) by (rewrite E; apply Rle_trans with (arithmetic_mean f h g); [apply hs_below; lra|now apply arithmetic_below]).
  assert (0 < Rmin h g) by now apply Rmin_glb_lt. split; rewrite E at 2 || rewrite E at 1; apply hs_mono; lra.
Qed.
