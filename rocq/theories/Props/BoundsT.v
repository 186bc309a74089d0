(** C113: mixtures of transparent media stay within the bounds of Wiener and of Hashin and
    Shtrikman and determine the fraction. *)
From Coq Require Import Reals Lra Psatz List.
From Coquelicot Require Import Complex.
From Verif.Base Require Import Py Cx Mat.
From Verif.Model Require Import Mixture.
From Verif.Spec Require Import Effective Bounds.
From Verif.Proof Require Import DispersionsP MixtureP MixtureP2 MixtureP3 BoundsP.
Import ListNotations.
Open Scope R_scope.

(** The mixing formulas of materials.py; the last three are for isotropic mixtures *)
Definition isotropic_rules : list (R -> C -> C -> option C) :=
  [fun f h g => Some (looyenga f h g); maxwell_garnett; bruggeman].
Definition rules : list (R -> C -> C -> option C) := (fun f h g => Some (vca f h g)) :: isotropic_rules.

(** C113: the order of the bounds themselves *)
Theorem C113_bounds : forall f h g m n, 0 <= f <= 1 -> 0 < h -> 0 < g -> 0 <= m <= n ->
  Rmin h g <= harmonic_mean f h g <= hashin_shtrikman m f h g /\
  hashin_shtrikman m f h g <= hashin_shtrikman n f h g <= arithmetic_mean f h g /\
  arithmetic_mean f h g <= Rmax h g.
Proof.
  intros f h g m n Hf Hh Hg H. repeat split; [now apply harmonic_above|apply hs_above; lra|apply hs_mono; lra|apply hs_below; lra|now apply arithmetic_below].
Qed.
Print Assumptions C113_bounds.

(** C113: Looyenga, Maxwell-Garnett and Bruggeman give positive numbers within the bounds of Hashin
    and Shtrikman *)
Theorem C113_hashin_shtrikman : forall rule f h g, In rule isotropic_rules -> 0 <= f <= 1 -> 0 < h -> 0 < g ->
  exists e, rule f (RtoC h) (RtoC g) = Some (RtoC e) /\
    hashin_shtrikman (Rmin h g) f h g <= e <= hashin_shtrikman (Rmax h g) f h g.
Proof.
  intros rule f h g [<-|[<-|[<-|[]]]] Hf Hh Hg.
  - destruct (looy_real h g Hh Hg) as (a & b & Ha & Hb & <- & <- & E). rewrite E by assumption. eexists. split; [reflexivity|]. now apply looy_between.
  - rewrite mg_real by assumption. eexists. split; [reflexivity|]. assert (M : 0 < Rmin h g) by now apply Rmin_glb_lt. assert (L := Rmin_l h g). assert (U := Rmax_l h g). split; apply hs_mono; lra.
  - destruct (brugg_real f h g Hh Hg) as (e & E & He & Q). exists e. split; [exact E|]. apply brugg_between; try assumption. now apply brugg_fixed.
Qed.
Print Assumptions C113_hashin_shtrikman.

(** C113: all four lie within the bounds of Wiener *)
Theorem C113_wiener : forall rule f h g, In rule rules -> 0 <= f <= 1 -> 0 < h -> 0 < g ->
  exists e, rule f (RtoC h) (RtoC g) = Some (RtoC e) /\ harmonic_mean f h g <= e <= arithmetic_mean f h g.
Proof.
  intros rule f h g [<-|H] Hf Hh Hg.
  - exists (arithmetic_mean f h g). rewrite vca_real. split; [reflexivity|]. split; [|lra]. apply Rle_trans with (hashin_shtrikman 0 f h g); [apply hs_above; lra|apply hs_below; lra].
  - destruct (C113_hashin_shtrikman rule f h g H Hf Hh Hg) as (e & E & L & U). exists e. split; [exact E|]. assert (M : 0 < Rmin h g) by now apply Rmin_glb_lt. assert (M' : Rmin h g <= Rmax h g) by (apply Rle_trans with h; [apply Rmin_l|apply Rmax_l]).
    assert (X1 := hs_above f h g Hf Hh Hg (Rmin h g) ltac:(lra)). assert (X2 := hs_below f h g Hf Hh Hg (Rmax h g) ltac:(lra)). lra.
Qed.
Print Assumptions C113_wiener.

(** C113: VCA is the upper bound of Wiener; Maxwell-Garnett is the bound with the host around
    inclusions, the lower one if the host has the smaller constant; Bruggeman is the only self-consistent value *)
Theorem C113_which : forall f h g, 0 <= f <= 1 -> 0 < h -> 0 < g ->
  vca f (RtoC h) (RtoC g) = RtoC (arithmetic_mean f h g) /\
  maxwell_garnett f (RtoC h) (RtoC g) = Some (RtoC (hashin_shtrikman h f h g)) /\
  exists e, bruggeman f (RtoC h) (RtoC g) = Some (RtoC e) /\ 0 < e /\ e = hashin_shtrikman e f h g /\
    forall e', 0 < e' -> e' = hashin_shtrikman e' f h g -> e' = e.
Proof.
  intros f h g Hf Hh Hg. split; [apply vca_real|]. split; [now apply mg_real|]. destruct (brugg_real f h g Hh Hg) as (e & E & He & Q). exists e. split; [exact E|]. split; [exact He|]. split; [now apply brugg_fixed|].
  intros e' He' X. rewrite hs_fraction in X by lra. assert (B := other_pos f h g Hf Hh Hg). assert (X' : e' * (arithmetic_mean f g h + 2 * e') = h * g + 2 * e' * arithmetic_mean f h g) by (rewrite X at 1; field; lra). unfold arithmetic_mean in X'.
  assert (P : 0 < h * g) by now apply Rmult_lt_0_compat. assert (Z : (e' - e) * (2 * (e' * e) + h * g) = 0).
  { assert (Q' : 2 * e' ^ 2 - e' * ((2 - 3 * f) * h + (3 * f - 1) * g) - h * g = 0) by lra. replace ((e' - e) * (2 * (e' * e) + h * g)) with (e * (2 * e' ^ 2 - e' * ((2 - 3 * f) * h + (3 * f - 1) * g) - h * g) - e' * (2 * e ^ 2 - e * ((2 - 3 * f) * h + (3 * f - 1) * g) - h * g)) by ring. rewrite Q, Q'. ring. }
  apply Rmult_integral in Z as [Z|Z]; [lra|]. assert (0 < e' * e) by now apply Rmult_lt_0_compat. lra.
Qed.
Print Assumptions C113_which.

(** C113: adding more of the medium with the larger constant increases the value, so that the
    fraction can be recovered from it *)
Theorem C113_monotone : forall rule f1 f2 h g, In rule rules -> 0 <= f1 -> f1 < f2 -> f2 <= 1 -> 0 < h -> 0 < g -> h <> g ->
  exists e1 e2, rule f1 (RtoC h) (RtoC g) = Some (RtoC e1) /\ rule f2 (RtoC h) (RtoC g) = Some (RtoC e2) /\
    (h < g -> e1 < e2) /\ (g < h -> e2 < e1).
Proof.
  intros rule f1 f2 h g H H1 H12 H2 Hh Hg N. assert (F1 : 0 <= f1 <= 1) by lra. assert (F2 : 0 <= f2 <= 1) by lra. destruct H as [<-|[<-|[<-|[<-|[]]]]].
  - rewrite !vca_real. do 2 eexists. split; [reflexivity|]. split; [reflexivity|]. unfold arithmetic_mean. split; intros L.
    + assert (0 < (f2 - f1) * (g - h)) by (apply Rmult_lt_0_compat; lra). lra.
    + assert (0 < (f2 - f1) * (h - g)) by (apply Rmult_lt_0_compat; lra). lra.
  - destruct (looy_real h g Hh Hg) as (a & b & Ha & Hb & <- & <- & E). rewrite !E by assumption. do 2 eexists. split; [reflexivity|]. split; [reflexivity|].
    assert (Pos : forall f, 0 <= f <= 1 -> 0 < a * (1 - f) + b * f). { intros f Hf. assert (X := mean_pos f a b Hf Ha Hb). unfold arithmetic_mean in X. lra. }
    assert (Cu : forall x y, 0 < x -> x < y -> x ^ 3 < y ^ 3). { intros x y Hx Hy. assert (x ^ 2 < y ^ 2) by (cbn; assert (0 < (y - x) * (x + y)) by (apply Rmult_lt_0_compat; lra); lra). assert (0 < y ^ 2) by (apply pow_lt; lra). assert (0 < (y ^ 2 - x ^ 2) * x) by (apply Rmult_lt_0_compat; lra). assert (0 < y ^ 2 * (y - x)) by (apply Rmult_lt_0_compat; lra). replace (y ^ 3 ) with (y ^ 2 * y) by ring. replace (x ^ 3) with (x ^ 2 * x) by ring. lra. }
    split; intros L; apply Cu; try now apply Pos.
    + assert (a < b) by (destruct (Rlt_dec a b) as [K|K]; [exact K|]; exfalso; assert (b ^ 3 <= a ^ 3) by (apply pow_incr; lra); lra). assert (0 < (f2 - f1) * (b - a)) by (apply Rmult_lt_0_compat; lra). lra.
    + assert (b < a) by (destruct (Rlt_dec b a) as [K|K]; [exact K|]; exfalso; assert (a ^ 3 <= b ^ 3) by (apply pow_incr; lra); lra). assert (0 < (f2 - f1) * (a - b)) by (apply Rmult_lt_0_compat; lra). lra.
  - rewrite !mg_real by assumption. do 2 eexists. split; [reflexivity|]. split; [reflexivity|]. split; intros L; [apply hs_inc; lra|].
    rewrite !hs_fraction by lra. assert (B1 := other_pos f1 h g F1 Hh Hg). assert (B2 := other_pos f2 h g F2 Hh Hg).
    apply Rmult_lt_reg_r with ((arithmetic_mean f1 g h + 2 * h) * (arithmetic_mean f2 g h + 2 * h)); [apply Rmult_lt_0_compat; lra|].
    match goal with |- ?x / ?d2 * (?d1 * _) < ?y / _ * _ => replace (x / d2 * (d1 * d2)) with (x * d1) by (field; lra); replace (y / d1 * (d1 * d2)) with (y * d2) by (field; lra) end.
    assert (0 < (f2 - f1) * (h - g) * (3 * h * (2 * h + g))) by (apply Rmult_lt_0_compat; [apply Rmult_lt_0_compat; lra|apply Rmult_lt_0_compat; lra]). unfold arithmetic_mean. lra.
  - destruct (brugg_real f1 h g Hh Hg) as (e1 & E1 & P1 & Q1). destruct (brugg_real f2 h g Hh Hg) as (e2 & E2 & P2 & Q2). exists e1, e2. split; [exact E1|]. split; [exact E2|]. split; intros L.
    + apply (brugg_inc f1 f2 h g); try assumption; lra.
    + apply (brugg_inc (1 - f2) (1 - f1) g h); try assumption; lra.
Qed.
Print Assumptions C113_monotone.

Theorem C113_fraction : forall rule f1 f2 h g, In rule rules -> 0 <= f1 <= 1 -> 0 <= f2 <= 1 -> 0 < h -> 0 < g -> h <> g ->
  rule f1 (RtoC h) (RtoC g) = rule f2 (RtoC h) (RtoC g) -> f1 = f2.
Proof.
  intros rule f1 f2 h g H H1 H2 Hh Hg N E. destruct (Rtotal_order f1 f2) as [L|[L|L]]; [exfalso| exact L|exfalso].
  - destruct (C113_monotone rule f1 f2 h g H ltac:(lra) L ltac:(lra) Hh Hg N) as (e1 & e2 & X1 & X2 & M1 & M2). rewrite X1, X2 in E. injection E as E. destruct (Rlt_dec h g) as [K|K]; [specialize (M1 K); lra|]. specialize (M2 ltac:(lra)). lra.
  - destruct (C113_monotone rule f2 f1 h g H ltac:(lra) L ltac:(lra) Hh Hg N) as (e1 & e2 & X1 & X2 & M1 & M2). rewrite X1, X2 in E. injection E as E. destruct (Rlt_dec h g) as [K|K]; [specialize (M1 K); lra|]. specialize (M2 ltac:(lra)). lra.
Qed.
Print Assumptions C113_fraction.

(** C113: the constants must be positive: with a metal of -5 in air the value is larger than that
    of air *)
Theorem C113_metal : exists f h g e, 0 < f < 1 /\ g < 0 < h /\ maxwell_garnett f (RtoC h) (RtoC g) = Some (RtoC e) /\ h < e.
Proof.
  exists (1 / 4), 1, (- (5)), 4. split; [lra|]. split; [lra|]. split; [|lra].
  unfold maxwell_garnett. destruct (Ceq_dec (RtoC 1) 0) as [E|E]; [apply (f_equal fst) in E; cbn in E; lra|].
  replace (2 * RtoC 1 + RtoC (- (5)) - RtoC (1 / 4) * (RtoC (- (5)) - RtoC 1))%C with (RtoC (- (3 / 2))) by (apply C_ext; cbn; lra).
  replace (RtoC 1 * (2 * RtoC (1 / 4) * (RtoC (- (5)) - RtoC 1) + RtoC (- (5)) + 2 * RtoC 1))%C with (RtoC (- (6))) by (apply C_ext; cbn; lra).
  rewrite cdiv_nz by (intros K; apply (f_equal fst) in K; cbn in K; lra). rewrite <- RtoC_div by lra. do 2 f_equal. field.
Qed.
Print Assumptions C113_metal.

(** Glass 2.25 and titania 6.25, one third of the latter *)
Example C113_example : harmonic_mean (1 / 3) (9 / 4) (25 / 4) = 675 / 236 /\ arithmetic_mean (1 / 3) (9 / 4) (25 / 4) = 43 / 12 /\
  maxwell_garnett (1 / 3) (RtoC (9 / 4)) (RtoC (25 / 4)) = Some (RtoC (1449 / 452)).
Proof.
  split; [unfold harmonic_mean; field|]. split; [unfold arithmetic_mean; field|]. rewrite mg_real by lra. do 2 f_equal. unfold hashin_shtrikman. field.
Qed.
