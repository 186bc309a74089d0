(** The sign of the imaginary part of the Tanguy dispersion, for C101. *)
From Coq Require Import Reals ZArith Lra Lia Psatz.
From Coquelicot Require Import Coquelicot.
From Verif.Base Require Import Py Cx Special.
From Verif.Model Require Import Units Dispersions Tanguy.
From Verif.Proof Require Import DispersionsP SpecialP TanguyP TanguyP2 TanguyP3 TanguyP5.
Open Scope R_scope.
Open Scope C_scope.

Notation im w := (snd w%C) (only parsing).
Notation re w := (fst w%C) (only parsing).
(** Fourth quadrant *)
Definition Q4 (w : C) : Prop := (0 < fst w /\ snd w < 0)%R.
Lemma Q4_plus u w : Q4 u -> Q4 w -> Q4 (u + w).
Proof. unfold Q4. destruct u, w. simpl. lra. Qed.
Lemma Q4_R r w : (0 <= r)%R -> Q4 w -> Q4 (RtoC r + w).
Proof. unfold Q4. destruct w. simpl. lra. Qed.
Lemma Q4_scal r w : (0 < r)%R -> Q4 w -> Q4 (RtoC r * w).
Proof. unfold Q4. destruct w as [a b]. simpl. intros R [A B]. split; nra. Qed.
Lemma Q4_mult u w : Q4 u -> Q4 w -> (im (u * w) < 0)%R.
Proof. unfold Q4. destruct u as [a b], w as [c d]. simpl. intros [A B] [C D]. nra. Qed.
Lemma Q4_neq w : Q4 w -> w <> 0.
Proof. intros [_ H] E. rewrite E in H. simpl in H. lra. Qed.
Lemma lower_neq (w : C) : (snd w < 0)%R -> w <> 0.
Proof. intros H E. rewrite E in H. simpl in H. lra. Qed.
Lemma two_neq : (2 : C) <> 0.
Proof. apply C_of_R_neq. lra. Qed.
Lemma inv_lower r (w : C) : (0 < r)%R -> (snd w < 0)%R -> (0 < im (RtoC r / w))%R.
Proof.
  intros R H. assert (N := lower_neq w H). assert (P := norm_pos w N). unfold Cdiv. replace (im (RtoC r * / w)) with (r * im (/ w)%C)%R by (generalize (/ w)%C; intros v; simpl; ring).
  rewrite inv_im by exact N. apply Rmult_lt_0_compat; [exact R|]. apply Rdiv_lt_0_compat; [lra|exact P].
Qed.
Lemma snd_plus (u w : C) : im (u + w) = (snd u + snd w)%R. Proof. reflexivity. Qed.

Section Pair.
Variables (a1 a2 Z : C) (q : R).
Hypothesis H1 : Q4 a1.
Hypothesis H2 : (0 < fst a2 /\ 0 < snd a2)%R.
Hypothesis E1 : a1 * a1 = RtoC q * RtoC q - Z.
Hypothesis E2 : a2 * a2 = RtoC q * RtoC q + Z.
Hypothesis HZ : (0 < fst Z /\ 0 < snd Z)%R.
Local Notation s := (a1 + a2).
Local Notation p := (a1 * a2).
Lemma pair_Z : Z = (a2 * a2 - a1 * a1) / 2.
Proof. rewrite E1, E2. field. apply two_neq. Qed.
Lemma pair_q : RtoC q * RtoC q = (a1 * a1 + a2 * a2) / 2.
Proof. rewrite E1, E2. field. apply two_neq. Qed.
Lemma Z2_im : (0 < im (Z * Z))%R.
Proof. destruct Z as [x y]. simpl in *. nra. Qed.
Lemma Z_neq : Z <> 0.
Proof. intros E. assert (K := Z2_im). rewrite E in K. simpl in K. lra. Qed.
Lemma p_Q4 : Q4 p.
Proof.
  assert (K : p * p = RtoC (q * q * (q * q)) - Z * Z).
  { replace (p * p) with ((a1 * a1) * (a2 * a2)) by ring. rewrite E1, E2, !RtoC_mult. ring. }
  assert (I := Z2_im). assert (J : (im (p * p) < 0)%R) by (rewrite K; generalize (Z * Z)%C I; intros [x y]; simpl; lra).
  assert (R : (0 < re p)%R) by (destruct H1; destruct H2; destruct a1 as [x1 y1], a2 as [x2 y2]; simpl in *; nra).
  split; [exact R|]. revert R J. generalize p. intros [x y]. simpl. intros R J. destruct (Rlt_dec y 0) as [L|L]; [exact L|]. exfalso. nra.
Qed.
Lemma s2_eq : s * s = RtoC (2 * (q * q)) + RtoC 2 * p.
Proof. rewrite !RtoC_mult, pair_q. field. apply two_neq. Qed.
Lemma s2_Q4 : Q4 (s * s).
Proof. rewrite s2_eq. apply Q4_R; [nra|]. apply Q4_scal; [lra|apply p_Q4]. Qed.
Lemma s_Q4 : Q4 s.
Proof.
  assert (K := s2_Q4). destruct K as [_ K]. assert (R : (0 < re s)%R) by (destruct H1, H2; destruct a1, a2; simpl in *; lra).
  split; [exact R|]. revert R K. generalize s. intros [x y]. simpl. intros. destruct (Rlt_dec y 0) as [L|L]; [exact L|]. exfalso. nra.
Qed.
Lemma gap_eq : (RtoC (2 * q) - s) * (s * s * (RtoC (2 * q) + s)) = RtoC 4 * (Z * Z).
Proof.
  replace ((RtoC (2 * q) - s) * (s * s * (RtoC (2 * q) + s))) with ((4 * (RtoC q * RtoC q) - s * s) * (s * s)) by (rewrite RtoC_mult; ring).
  rewrite pair_q, pair_Z. field. apply two_neq.
Qed.
Lemma root_pair : (0 < q)%R -> (0 < im ((RtoC (2 * q) - s) / (Z * Z)))%R.
Proof.
  intros Q. assert (N0 := Z_neq). assert (NS := Q4_neq _ s2_Q4). assert (S2 : Q4 (RtoC (2 * q) + s)) by (apply Q4_R; [lra|apply s_Q4]). assert (N2 := Q4_neq _ S2).
  assert (L := Q4_mult _ _ s2_Q4 S2). assert (NL := lower_neq _ L).
  replace ((RtoC (2 * q) - s) / (Z * Z)) with (RtoC 4 / (s * s * (RtoC (2 * q) + s))); [apply inv_lower; [lra|exact L]|].
  assert (NS1 := Q4_neq _ s_Q4). assert (W : RtoC (2 * q) - s = RtoC 4 * (Z * Z) / (s * s * (RtoC (2 * q) + s))).
  { rewrite <- gap_eq. field. split; assumption. }
  rewrite W. field. repeat split; assumption.
Qed.
Hypothesis Q1 : (1 < q)%R.
Definition smooth : C := / (a1 + 1) + / (a2 + 1) - 2 / (RtoC q + 1).
Lemma ps1_Q4 : Q4 (p + s + 1).
Proof. replace (p + s + 1) with (RtoC 1 + (p + s)) by ring. apply Q4_R; [lra|]. apply Q4_plus; [apply p_Q4|apply s_Q4]. Qed.
Definition TT : C := s * s * (RtoC (2 * q) + s) / (s + RtoC (q + 1)).
Lemma TT_Q4 : Q4 TT.
Proof.
  assert (M : Q4 (s + RtoC (q + 1))) by (replace (s + RtoC (q + 1)) with (RtoC (q + 1) + s) by ring; apply Q4_R; [lra|apply s_Q4]). assert (NM := Q4_neq _ M).
  replace TT with (s * s + RtoC (q - 1) * (s * s / (s + RtoC (q + 1)))).
  2:{ unfold TT. field_simplify_eq; [|exact NM]. rewrite ?RtoC_minus, ?RtoC_plus, ?RtoC_mult. ring. }
  apply Q4_plus; [apply s2_Q4|]. apply Q4_scal; [lra|].
  assert (A := s_Q4). assert (B := s2_Q4). assert (NP := norm_pos _ NM).
  revert A B M NM NP. generalize s. intros [x y]. intros [A1 A2] [B1 B2] M NM NP. simpl in A1, A2, B1, B2.
  unfold Cdiv. 
  assert (I : / ((x, y) + RtoC (q + 1)) = ((x + (q + 1)) / ((x + (q + 1)) ^ 2 + y ^ 2), - y / ((x + (q + 1)) ^ 2 + y ^ 2))%R).
  { unfold Cinv. simpl. f_equal; f_equal; f_equal; f_equal; try ring. }
  rewrite I. set (n := ((x + (q + 1)) ^ 2 + y ^ 2)%R). assert (NN : (0 < n)%R) by (unfold n; nra). assert (NI := Rinv_0_lt_compat _ NN). unfold Q4, Rdiv. simpl. generalize dependent (/ n)%R. intros ni NI. split.
  - replace ((x * x - y * y) * ((x + (q + 1)) * ni) - (x * y + y * x) * (- y * ni))%R with (((x * x - y * y) * (q + 1) + x * (x * x + y * y)) * ni)%R by ring. apply Rmult_lt_0_compat; [nra|exact NI].
  - replace ((x * x - y * y) * (- y * ni) + (x * y + y * x) * ((x + (q + 1)) * ni))%R with (- ((- y) * (x * x + y * y + 2 * x * (q + 1)) * ni))%R by ring. assert (0 < (- y) * (x * x + y * y + 2 * x * (q + 1)) * ni)%R; [|lra].
    apply Rmult_lt_0_compat; [apply Rmult_lt_0_compat; nra|exact NI].
Qed.
Lemma q1_neq : RtoC q + 1 <> 0.
Proof. change (1 : C) with (RtoC 1). rewrite <- RtoC_plus. apply C_of_R_neq. lra. Qed.
Lemma qm1_neq : RtoC q - 1 <> 0.
Proof. change (1 : C) with (RtoC 1). rewrite <- RtoC_minus. apply C_of_R_neq. lra. Qed.
Lemma a1_neq r : a1 + RtoC r <> 0.
Proof. apply lower_neq. destruct H1. destruct a1. simpl in *. lra. Qed.
Lemma a2_neq r : a2 + RtoC r <> 0.
Proof. apply nonreal. destruct H2. destruct a2. simpl in *. lra. Qed.
Lemma smooth_eq : smooth / (Z * Z) = RtoC (4 / (q + 1)) / (TT * (p + s + 1)).
Proof.
  assert (M : Q4 (s + RtoC (q + 1))) by (replace (s + RtoC (q + 1)) with (RtoC (q + 1) + s) by ring; apply Q4_R; [lra|apply s_Q4]). assert (NM := Q4_neq _ M).
  assert (N0 := Z_neq). assert (NS := Q4_neq _ s_Q4). assert (S2 : Q4 (RtoC (2 * q) + s)) by (apply Q4_R; [lra|apply s_Q4]). assert (N2 := Q4_neq _ S2).
  assert (NP := Q4_neq _ ps1_Q4). assert (NQ := q1_neq). assert (N1 := a1_neq 1). assert (N3 := a2_neq 1). assert (G := gap_eq).
  assert (X : smooth * ((p + s + 1) * (RtoC q + 1)) = (RtoC (2 * q) - s) * (s + RtoC (q + 1))).
  { unfold smooth. transitivity ((s + 2) * (RtoC q + 1) - 2 * (p + s + 1)); [field; repeat split; assumption|].
    assert (QQ := pair_q). rewrite !RtoC_mult, RtoC_plus.
    replace ((RtoC 2 * RtoC q - s) * (s + (RtoC q + RtoC 1))) with (RtoC q * s + 2 * (RtoC q * RtoC q) + 2 * RtoC q - s * s - s) by ring. rewrite QQ. field. apply two_neq. }
  assert (Y : smooth = (RtoC (2 * q) - s) * (s + RtoC (q + 1)) / ((p + s + 1) * (RtoC q + 1))).
  { rewrite <- X. field. split; assumption. }
  assert (W : RtoC (2 * q) - s = RtoC 4 * (Z * Z) / (s * s * (RtoC (2 * q) + s))).
  { rewrite <- G. field. split; assumption. }
  rewrite Y, W. unfold TT. rewrite RtoC_div by lra. rewrite (RtoC_plus q 1). rewrite (RtoC_plus q 1) in NM. field. repeat split; assumption.
Qed.
Lemma smooth_im : (0 < im (smooth / (Z * Z)))%R.
Proof. rewrite smooth_eq. apply inv_lower; [apply Rdiv_lt_0_compat; lra|]. apply Q4_mult; [apply TT_Q4|apply ps1_Q4]. Qed.
Lemma pole_pair : (0 < im ((/ (a1 - 1) + / (a2 - 1) - 2 / (RtoC q - 1)) / (Z * Z)))%R.
Proof.
  set (c := (q * q - 1)%R). assert (C0 : (0 < c)%R) by (unfold c; nra). assert (CE : RtoC c = RtoC q * RtoC q - 1) by (unfold c; rewrite RtoC_minus, RtoC_mult; reflexivity).
  assert (N0 := Z_neq). assert (L : (im (RtoC (c * c) - Z * Z) < 0)%R) by (assert (I := Z2_im); revert I; generalize (Z * Z)%C; intros [x y]; simpl; lra). assert (NL := lower_neq _ L).
  assert (A1 : a1 - 1 <> 0) by (replace (a1 - 1) with (a1 + RtoC (Ropp 1)) by (rewrite RtoC_opp; ring); apply a1_neq).
  assert (A2 : a2 - 1 <> 0) by (replace (a2 - 1) with (a2 + RtoC (Ropp 1)) by (rewrite RtoC_opp; ring); apply a2_neq).
  assert (B1 := a1_neq 1). assert (B2 := a2_neq 1). assert (NQ := q1_neq). assert (NM := qm1_neq).
  assert (D1 : RtoC c - Z = (a1 - 1) * (a1 + 1)) by (replace ((a1 - 1) * (a1 + 1)) with (a1 * a1 - 1) by ring; rewrite E1, CE; ring).
  assert (D2 : RtoC c + Z = (a2 - 1) * (a2 + 1)) by (replace ((a2 - 1) * (a2 + 1)) with (a2 * a2 - 1) by ring; rewrite E2, CE; ring).
  assert (D0 : RtoC c = (RtoC q - 1) * (RtoC q + 1)) by (rewrite CE; ring).
  assert (F1 : RtoC c - Z <> 0) by (rewrite D1; intros K; apply C_integral in K; tauto).
  assert (F2 : RtoC c + Z <> 0) by (rewrite D2; intros K; apply C_integral in K; tauto).
  assert (F0 : RtoC c <> 0) by (apply C_of_R_neq; lra).
  replace ((/ (a1 - 1) + / (a2 - 1) - 2 / (RtoC q - 1)) / (Z * Z)) with (smooth / (Z * Z) + RtoC (4 / c) / (RtoC (c * c) - Z * Z)).
  - rewrite snd_plus. assert (K := smooth_im). assert (J := inv_lower (4 / c) _ ltac:(apply Rdiv_lt_0_compat; lra) L). lra.
  - assert (P1 : / (a1 - 1) = 2 / (RtoC c - Z) + / (a1 + 1)) by (rewrite D1; field; split; assumption).
    assert (P2 : / (a2 - 1) = 2 / (RtoC c + Z) + / (a2 + 1)) by (rewrite D2; field; split; assumption).
    assert (P0 : 2 / (RtoC q - 1) = 4 / RtoC c + 2 / (RtoC q + 1)) by (rewrite D0; field; split; assumption).
    rewrite P1, P2, P0. unfold smooth. rewrite RtoC_div, RtoC_mult by lra. rewrite RtoC_mult in NL. clear P1 P2 P0 D1 D2 D0 CE.
    field. repeat split; assumption.
Qed.
End Pair.

(** The logarithm *)
Lemma log_passive (l th : R) : (0 < th < PI)%R -> (0 < th * (1 - exp (- l) * cos th) - l * (exp (- l) * sin th))%R.
Proof.
  intros T. assert (SP : (0 < sin th)%R) by (apply sin_gt_0; lra). assert (ST : (sin th < th)%R) by (apply sin_lt_x; lra).
  set (k := (th * cos th / sin th - 1)%R). assert (K0 : (k <= 0)%R).
  { assert (TC : (th * cos th <= sin th)%R).
    { destruct (Rle_dec th (PI / 2)) as [H|H]; [apply x_cos_sin; lra|]. assert (cos th <= 0)%R by (apply cos_le_0; lra). nra. }
    assert (th * cos th / sin th <= 1)%R; [|unfold k; lra]. apply Rmult_le_reg_r with (sin th); [exact SP|]. unfold Rdiv. rewrite Rmult_assoc, Rinv_l by lra. lra. }
  assert (EK : (exp k <= 1)%R) by (rewrite <- exp_0; destruct K0 as [K0|K0]; [left; apply exp_increasing; exact K0|rewrite K0; lra]).
  assert (Y := exp_ineq1_le (k + l)). rewrite exp_plus in Y. assert (RP := exp_pos (- l)). assert (RI : (exp (- l) * exp l = 1)%R) by (rewrite <- exp_plus, Rplus_opp_l; apply exp_0).
  assert (Y2 : (exp (- l) * (1 + (k + l)) <= exp k)%R).
  { apply Rmult_le_compat_l with (r := exp (- l)) in Y; [|lra]. replace (exp (- l) * (exp k * exp l))%R with (exp k * (exp (- l) * exp l))%R in Y by ring. rewrite RI in Y. lra. }
  assert (KS : ((1 + k) * sin th = th * cos th)%R) by (unfold k; field; lra).
  apply Rmult_le_compat_r with (r := sin th) in Y2; [|lra]. replace (exp (- l) * (1 + (k + l)) * sin th)%R with (exp (- l) * ((1 + k) * sin th) + l * (exp (- l) * sin th))%R in Y2 by ring. rewrite KS in Y2.
  assert (exp k * sin th <= sin th)%R by nra. lra.
Qed.
Lemma im_div (v w : C) : w <> 0 -> im (v / w) = ((im v * re w - re v * im w) / (re w ^ 2 + im w ^ 2))%R.
Proof. intros H. assert (P := norm_pos w H). destruct v as [a b], w as [c e]. simpl in *. field. lra. Qed.

Section Total.
Variables (x1 x2 z : C) (x0 Rb Eg : R).
Hypothesis X1 : (0 < fst x1 /\ 0 < snd x1)%R.
Hypothesis X2 : (0 < fst x2 /\ snd x2 < 0)%R.
Hypothesis X0 : (0 < x0)%R.
Hypothesis HR : (0 < Rb)%R.
Hypothesis HG : (0 < Eg)%R.
Hypothesis HZ : (0 < fst z /\ 0 < snd z)%R.
Hypothesis E1 : x1 * x1 * (RtoC Eg - z) = RtoC Rb.
Hypothesis E2 : x2 * x2 * (RtoC Eg + z) = RtoC Rb.
Hypothesis E0 : (x0 * x0 * Eg = Rb)%R.
Lemma zz_im : (0 < im (z * z))%R.
Proof. destruct z as [a b]. simpl in *. nra. Qed.
Lemma zz_neq : z * z <> 0.
Proof. apply nonreal. assert (K := zz_im). lra. Qed.
Lemma z_neq : z <> 0.
Proof. intros K. apply zz_neq. rewrite K. ring. Qed.
Lemma x1_neq : x1 <> 0. Proof. apply nonreal. lra. Qed.
Lemma x2_neq : x2 <> 0. Proof. apply nonreal. lra. Qed.
Lemma x0_neq : RtoC x0 <> 0. Proof. apply C_of_R_neq. lra. Qed.
Lemma Rb_neq : RtoC Rb <> 0. Proof. apply C_of_R_neq. lra. Qed.
Lemma Eg_neq : RtoC Eg <> 0. Proof. apply C_of_R_neq. lra. Qed.
Definition J (v : C) : R := im (v / (z * z)).
Lemma J_plus u v : J (u + v) = (J u + J v)%R.
Proof. unfold J. unfold Cdiv. rewrite Cmult_plus_distr_r. reflexivity. Qed.
Lemma J_scal r v : J (RtoC r * v) = (r * J v)%R.
Proof. unfold J, Cdiv. rewrite <- Cmult_assoc. generalize (v * / (z * z)). intros [a b]. simpl. ring. Qed.
Lemma J_lin v : J v = (fst v * im (/ (z * z)) + snd v * re (/ (z * z)))%R.
Proof. unfold J, Cdiv. destruct v as [a b]. generalize (/ (z * z)). intros [c e]. simpl. ring. Qed.
Lemma J_series f : ex_series (fun k => fst (f k)) -> ex_series (fun k => snd (f k)) -> J (CSeries f) = Series (fun k => J (f k)) /\ ex_series (fun k => J (f k)).
Proof.
  intros A B. assert (A' := ex_series_scal_r (im (/ (z * z))) _ A). assert (B' := ex_series_scal_r (re (/ (z * z))) _ B). split.
  - rewrite (Series_ext _ (fun k => fst (f k) * im (/ (z * z)) + snd (f k) * re (/ (z * z)))%R) by (intros k; apply J_lin).
    rewrite Series_plus by assumption. rewrite !Series_scal_r. rewrite J_lin. reflexivity.
  - apply (ex_series_ext (fun k => fst (f k) * im (/ (z * z)) + snd (f k) * re (/ (z * z)))%R); [intros k; symmetry; apply J_lin|].
    apply (ex_series_plus (V := R_NormedModule)); assumption.
Qed.

(** scaled by n *)
Section Scaled.
Variable n : R.
Hypothesis N0 : (0 < n)%R.
Lemma n_neq : RtoC n <> 0. Proof. apply C_of_R_neq. lra. Qed.
Lemma inv_Q4 (x : C) : (0 < fst x /\ 0 < snd x)%R -> Q4 (RtoC n / x).
Proof.
  intros [A B]. assert (NX : x <> 0) by (apply nonreal; lra). assert (P := norm_pos x NX). assert (PI := Rinv_0_lt_compat _ P). destruct x as [a b]. unfold Q4. simpl in *.
  unfold Rdiv. generalize dependent (/ (a * (a * 1) + b * (b * 1)))%R. intros i I. assert (U := Rmult_lt_0_compat _ _ N0 I). split; nra.
Qed.
Lemma inv_Q1 (x : C) : (0 < fst x /\ snd x < 0)%R -> (0 < re (RtoC n / x) /\ 0 < im (RtoC n / x))%R.
Proof.
  intros [A B]. assert (NX : x <> 0) by (apply nonreal; lra). assert (P := norm_pos x NX). assert (PI := Rinv_0_lt_compat _ P). destruct x as [a b]. simpl in *.
  unfold Rdiv. generalize dependent (/ (a * (a * 1) + b * (b * 1)))%R. intros i I. assert (U := Rmult_lt_0_compat _ _ N0 I). split; nra.
Qed.
Local Notation a1 := (RtoC n / x1).
Local Notation a2 := (RtoC n / x2).
Local Notation q := (n / x0)%R.
Local Notation Z := (RtoC (n * n / Rb) * z).
Lemma sc1 : a1 * a1 = RtoC q * RtoC q - Z.
Proof.
  assert (A := x1_neq). assert (B := x0_neq). assert (Q := Rb_neq). assert (G := Eg_neq). assert (F : RtoC x0 * RtoC x0 * RtoC Eg = RtoC Rb) by (rewrite <- E0, !RtoC_mult; reflexivity).
  rewrite !RtoC_div, RtoC_mult by lra. transitivity (RtoC n * RtoC n * (RtoC Eg - z) / RtoC Rb).
  - rewrite <- E1. field. split; [|exact A]. intros K. apply Q. rewrite <- E1, K. ring.
  - replace (RtoC n / RtoC x0 * (RtoC n / RtoC x0)) with (RtoC n * RtoC n * RtoC Eg / RtoC Rb) by (rewrite <- F; field; split; assumption). field. exact Q.
Qed.
Lemma sc2 : a2 * a2 = RtoC q * RtoC q + Z.
Proof.
  assert (A := x2_neq). assert (B := x0_neq). assert (Q := Rb_neq). assert (G := Eg_neq). assert (F : RtoC x0 * RtoC x0 * RtoC Eg = RtoC Rb) by (rewrite <- E0, !RtoC_mult; reflexivity).
  rewrite !RtoC_div, RtoC_mult by lra. transitivity (RtoC n * RtoC n * (RtoC Eg + z) / RtoC Rb).
  - rewrite <- E2. field. split; [|exact A]. intros K. apply Q. rewrite <- E2, K. ring.
  - replace (RtoC n / RtoC x0 * (RtoC n / RtoC x0)) with (RtoC n * RtoC n * RtoC Eg / RtoC Rb) by (rewrite <- F; field; split; assumption). field. exact Q.
Qed.
Lemma scZ : (0 < re Z /\ 0 < im Z)%R.
Proof.
  assert (P : (0 < n * n / Rb)%R) by (apply Rdiv_lt_0_compat; nra). destruct HZ as [A B]. destruct z as [a b]. simpl in *. split; nra.
Qed.
Lemma J_Z v : J v = ((n * n / Rb) * (n * n / Rb) * im (v / (Z * Z)))%R.
Proof.
  assert (P : (0 < n * n / Rb)%R) by (apply Rdiv_lt_0_compat; nra). assert (NP : RtoC (n * n / Rb) <> 0) by (apply C_of_R_neq; lra).
  unfold J. replace (v / (z * z)) with (RtoC (n * n / Rb * (n * n / Rb)) * (v / (Z * Z))); [generalize (v / (Z * Z)); intros [a b]; simpl; ring|].
  rewrite (RtoC_mult (n * n / Rb)). field. split; [exact z_neq|exact NP].
Qed.
Lemma J_pole : (x0 < n)%R -> (0 < J (/ (a1 - 1) + / (a2 - 1) - 2 / (RtoC q - 1))%C)%R.
Proof.
  intros H. assert (P : (0 < n * n / Rb)%R) by (apply Rdiv_lt_0_compat; nra). rewrite J_Z. apply Rmult_lt_0_compat; [apply Rmult_lt_0_compat; exact P|].
  apply pole_pair; [apply inv_Q4, X1|apply inv_Q1, X2|exact sc1|exact sc2|exact scZ|].
  apply Rmult_lt_reg_r with x0; [exact X0|]. replace (n / x0 * x0)%R with n by (field; lra). lra.
Qed.
Lemma J_root : (0 < J (RtoC (2 * q) - (a1 + a2))%C)%R.
Proof.
  assert (P : (0 < n * n / Rb)%R) by (apply Rdiv_lt_0_compat; nra). rewrite J_Z. apply Rmult_lt_0_compat; [apply Rmult_lt_0_compat; exact P|].
  apply root_pair; [apply inv_Q4, X1|apply inv_Q1, X2|exact sc1|exact sc2|exact scZ|]. apply Rdiv_lt_0_compat; assumption.
Qed.
Lemma J_term : (x0 < n)%R -> (0 < J (/ (RtoC n - x1) + / (RtoC n - x2) - 2 / (RtoC n - RtoC x0))%C)%R.
Proof.
  intros H. assert (A := x1_neq). assert (A2 := x2_neq). assert (B := x0_neq). assert (NN := n_neq).
  assert (D1 : RtoC n - x1 <> 0) by (apply nonreal; destruct x1; simpl in *; lra). assert (D2 : RtoC n - x2 <> 0) by (apply nonreal; destruct x2; simpl in *; lra).
  assert (D0 : RtoC n - RtoC x0 <> 0) by (rewrite <- RtoC_minus; apply C_of_R_neq; lra).
  replace (/ (RtoC n - x1) + / (RtoC n - x2) - 2 / (RtoC n - RtoC x0)) with (RtoC (/ n) * (/ (a1 - 1) + / (a2 - 1) - 2 / (RtoC q - 1))).
  - rewrite J_scal. apply Rmult_lt_0_compat; [apply Rinv_0_lt_compat; exact N0|apply J_pole, H].
  - rewrite RtoC_inv, RtoC_div by lra.
    replace (a1 - 1) with ((RtoC n - x1) / x1) by (field; exact A). replace (a2 - 1) with ((RtoC n - x2) / x2) by (field; exact A2). replace (RtoC n / RtoC x0 - 1) with ((RtoC n - RtoC x0) / RtoC x0) by (field; exact B).
    field. repeat split; assumption.
Qed.
End Scaled.

Lemma arg_half (x : C) : (0 < fst x)%R -> (- (PI / 2) < im (Clog x) < PI / 2)%R.
Proof. intros H. unfold Clog, Carg. cbn [snd]. destruct (Rlt_dec 0 (fst x)) as [_|N]; [|contradiction]. assert (B := atan_bound (snd x / fst x)). lra. Qed.
Lemma J_log : (0 < J (2 * Clog x1 + 2 * Clog x2 - 4 * Clog (RtoC x0))%C)%R.
Proof.
  assert (A := x1_neq). assert (A2 := x2_neq). assert (B := x0_neq). assert (NZ := zz_neq). assert (G := Eg_neq). assert (F : RtoC x0 * RtoC x0 * RtoC Eg = RtoC Rb) by (rewrite <- E0, !RtoC_mult; reflexivity).
  assert (H1 := arg_half x1 ltac:(tauto)). assert (H2 := arg_half x2 ltac:(tauto)).
  assert (H3 := Clog_upper x1 ltac:(tauto)). assert (H4 : (im (Clog x2) < 0)%R).
  { assert (U := Clog_upper (Cconj x2) ltac:(destruct x2; simpl in *; lra)). rewrite Clog_conj in U by tauto. revert U. generalize (Clog x2). intros [a b]. simpl. lra. }
  set (L := 2 * Clog x1 + 2 * Clog x2 - 4 * Clog (RtoC x0)).
  assert (EL : Cexp (- L) = 1 - z * z / (RtoC Eg * RtoC Eg)).
  { assert (K1 : RtoC Eg - z <> 0) by (intros K; apply Rb_neq; rewrite <- E1, K; ring). assert (K2 : RtoC Eg + z <> 0) by (intros K; apply Rb_neq; rewrite <- E2, K; ring).
    replace (- L) with (- (Clog x1 + Clog x1 + (Clog x2 + Clog x2)) + (Clog (RtoC x0) + Clog (RtoC x0) + (Clog (RtoC x0) + Clog (RtoC x0)))) by (unfold L; ring).
    rewrite Cexp_plus, Cexp_opp, !Cexp_plus, !Cexp_Clog by assumption.
    replace (x1 * x1) with (RtoC Rb / (RtoC Eg - z)) by (rewrite <- E1; field; exact K1). replace (x2 * x2) with (RtoC Rb / (RtoC Eg + z)) by (rewrite <- E2; field; exact K2).
    replace (RtoC x0 * RtoC x0) with (RtoC Rb / RtoC Eg) by (rewrite <- F; field; exact G). field. repeat split; try assumption. apply Rb_neq. }
  assert (ZL : z * z = RtoC (Eg * Eg) * (1 - Cexp (- L))) by (rewrite EL, RtoC_mult; field; exact G).
  assert (TB : (- PI < snd L < PI)%R).
  { unfold L. rewrite (Clog_real x0) by exact X0. revert H1 H2 H3 H4. generalize (Clog x1) (Clog x2). intros [a b] [c e]. simpl. intros. lra. }
  assert (I := zz_im). unfold J. rewrite im_div by exact NZ. apply Rdiv_lt_0_compat; [|apply norm_pos; exact NZ].
  clearbody L. destruct L as [l th]. cbn [fst snd] in *.
  assert (ZR : re (z * z) = (Eg * Eg * (1 - exp (- l) * cos th))%R) by (rewrite ZL; unfold Cexp; simpl; rewrite cos_neg; ring).
  assert (ZI : im (z * z) = (Eg * Eg * (exp (- l) * sin th))%R) by (rewrite ZL; unfold Cexp; simpl; rewrite sin_neg; ring).
  assert (EE : (0 < Eg * Eg)%R) by nra. rewrite ZI in I. rewrite ZR, ZI. assert (RP := exp_pos (- l)).
  assert (SP : (0 < sin th)%R). { destruct (Rlt_dec 0 (sin th)) as [S|S]; [exact S|]. exfalso. assert (exp (- l) * sin th <= 0)%R by nra. nra. }
  assert (TP : (0 < th)%R). { destruct (Rlt_dec 0 th) as [S|S]; [exact S|]. exfalso. assert (0 <= sin (- th))%R by (apply sin_ge_0; lra). rewrite sin_neg in H. lra. }
  assert (K := log_passive l th ltac:(lra)). replace (th * (Eg * Eg * (1 - exp (- l) * cos th)) - l * (Eg * Eg * (exp (- l) * sin th)))%R with (Eg * Eg * (th * (1 - exp (- l) * cos th) - l * (exp (- l) * sin th)))%R by ring.
  apply Rmult_lt_0_compat; assumption.
Qed.

Definition gform (d : R) (x : C) : C := 2 * Clog x - 2 * (CSeries (digamma_term (RtoC ((d - 1) / 2) - x)) - RtoC euler_gamma) - RtoC (d - 2) / x.
Lemma g_form d (x : C) : d = 2%R \/ d = 3%R -> x <> 0 -> ~ pole (RtoC ((d - 1) / 2) - x) -> g x d = Some (gform d x).
Proof.
  intros D N P. unfold g, gform. destruct D as [-> | ->].
  - destruct (Req_EM_T 2 2) as [_|K]; [|lra]. rewrite clog_ok by exact N. cbn [obind]. replace 0.5%R with ((2 - 1) / 2)%R by lra. unfold digamma. destruct (pole_dec _) as [K|_]; [contradiction|]. cbn [obind].
    f_equal. replace (2 - 2)%R with 0%R by ring. field. exact N.
  - destruct (Req_EM_T 3 2) as [K|_]; [lra|]. destruct (Req_EM_T 3 3) as [_|K]; [|lra]. rewrite clog_ok by exact N. cbn [obind]. replace ((3 - 1) / 2)%R with 1%R in * by lra. unfold digamma. destruct (pole_dec _) as [K|_]; [contradiction|]. cbn [obind].
    rewrite cdiv_ok by exact N. cbn [obind]. f_equal. replace (3 - 2)%R with 1%R by ring. reflexivity.
Qed.
Lemma g_total d : d = 2%R \/ d = 3%R -> (x0 < (d - 1) / 2)%R ->
  exists v1 v2 v0, g x1 d = Some v1 /\ g x2 d = Some v2 /\ g (RtoC x0) d = Some v0 /\ (0 < J (v1 + v2 - 2 * v0)%C)%R.
Proof.
  intros D H. set (kap := ((d - 1) / 2)%R) in *.
  assert (P1 : ~ pole (RtoC kap - x1)) by (apply nonreal_pole; destruct x1; simpl in *; lra).
  assert (P2 : ~ pole (RtoC kap - x2)) by (apply nonreal_pole; destruct x2; simpl in *; lra).
  assert (P0 : ~ pole (RtoC kap - RtoC x0)) by (rewrite <- RtoC_minus; apply pos_no_pole; lra).
  exists (gform d x1), (gform d x2), (gform d (RtoC x0)). split; [apply g_form; [exact D|apply x1_neq|exact P1]|]. split; [apply g_form; [exact D|apply x2_neq|exact P2]|]. split; [apply g_form; [exact D|apply x0_neq|exact P0]|].
  unfold gform. fold kap.
  set (f1 := digamma_term (RtoC kap - x1)). set (f2 := digamma_term (RtoC kap - x2)). set (f0 := digamma_term (RtoC kap - RtoC x0)).
  destruct (digamma_converges _ P1) as [C1 C1']. destruct (digamma_converges _ P2) as [C2 C2']. destruct (digamma_converges _ P0) as [C0 C0']. fold f1 in C1, C1'. fold f2 in C2, C2'. fold f0 in C0, C0'.
  destruct (J_series f1 C1 C1') as [S1 X1']. destruct (J_series f2 C2 C2') as [S2 X2']. destruct (J_series f0 C0 C0') as [S0 X0'].
  replace (2 * Clog x1 - 2 * (CSeries f1 - RtoC euler_gamma) - RtoC (d - 2) / x1 + (2 * Clog x2 - 2 * (CSeries f2 - RtoC euler_gamma) - RtoC (d - 2) / x2) - 2 * (2 * Clog (RtoC x0) - 2 * (CSeries f0 - RtoC euler_gamma) - RtoC (d - 2) / RtoC x0))
    with (2 * Clog x1 + 2 * Clog x2 - 4 * Clog (RtoC x0) + RtoC (- 2) * (CSeries f1 + (CSeries f2 + RtoC (- 2) * CSeries f0)) + RtoC (d - 2) * (RtoC (2 * (1 / x0)) - (RtoC 1 / x1 + RtoC 1 / x2))).
  2:{ rewrite RtoC_mult, RtoC_div by lra. change (RtoC (-2)) with (RtoC (IZR (Z.opp 2))). rewrite opp_IZR, RtoC_opp. field. repeat split; [apply x0_neq|apply x2_neq|apply x1_neq]. }
  rewrite !J_plus, !J_scal, !J_plus, J_scal, S1, S2, S0.
  assert (R : (0 < J (RtoC (2 * (1 / x0)) - (RtoC 1 / x1 + RtoC 1 / x2))%C)%R) by (apply J_root; lra).
  assert (LG := J_log).
  assert (SS : (0 <= Series (fun k => - 2 * (J (f1 k) + (J (f2 k) + -2 * J (f0 k)))))%R).
  { assert (XX : ex_series (fun k => - 2 * (J (f1 k) + (J (f2 k) + -2 * J (f0 k))))%R).
    { exact (ex_series_scal_l (-2)%R _ (ex_series_plus (V := R_NormedModule) _ _ X1' (ex_series_plus (V := R_NormedModule) _ _ X2' (ex_series_scal_l (-2)%R _ X0')))). }
    rewrite <- (Series_zero (fun _ => 0%R)) by reflexivity. apply Series_le; [|exact XX]. intros k. split; [lra|]. left.
    assert (KP := pos_INR k). assert (KD : (0 < kap)%R) by lra. assert (T := J_term (INR k + kap) ltac:(lra) ltac:(lra)).
    assert (EQ : (- 2 * (J (f1 k) + (J (f2 k) + -2 * J (f0 k))) = 2 * J (/ (RtoC (INR k + kap) - x1) + / (RtoC (INR k + kap) - x2) - 2 / (RtoC (INR k + kap) - RtoC x0))%C)%R); [|rewrite EQ; lra].
    rewrite <- !J_scal, <- !J_plus, <- !J_scal. f_equal. unfold f1, f2, f0, digamma_term.
    replace (RtoC (INR k) + (RtoC kap - x1)) with (RtoC (INR k + kap) - x1) by (rewrite RtoC_plus; ring). replace (RtoC (INR k) + (RtoC kap - x2)) with (RtoC (INR k + kap) - x2) by (rewrite RtoC_plus; ring).
    replace (RtoC (INR k) + (RtoC kap - RtoC x0)) with (RtoC (INR k + kap) - RtoC x0) by (rewrite RtoC_plus; ring).
    change (RtoC (-2)) with (RtoC (IZR (Z.opp 2))). rewrite opp_IZR, RtoC_opp. unfold Cdiv. ring. }
  rewrite Series_scal_l in SS. rewrite Series_plus in SS; [|exact X1'|exact (ex_series_plus (V := R_NormedModule) _ _ X2' (ex_series_scal_l (-2)%R _ X0'))].
  rewrite Series_plus in SS; [|exact X2'|exact (ex_series_scal_l (-2)%R _ X0')]. rewrite Series_scal_l in SS.
  assert (D2 : (0 <= (d - 2))%R) by (destruct D; lra). nra.
Qed.
End Total.
Lemma xsi_quad (z : C) Rb Eg : (0 < snd z)%R -> (0 < Rb)%R -> exists x, xsi z Rb Eg = Some x /\ (0 < fst x /\ 0 < snd x)%R /\ x * x * (RtoC Eg - z) = RtoC Rb.
Proof.
  intros H HR. destruct (xsi_upper z Rb Eg H HR) as (x & X & P). exists x. split; [exact X|]. unfold xsi in X. assert (N : RtoC Eg - z <> 0) by (apply nonreal; simpl; lra).
  rewrite cdiv_ok in X by exact N. cbn [obind] in X. injection X as X. assert (S := Csqrt_sqr (RtoC Rb / (RtoC Eg - z))). assert (F := Csqrt_Re_ge0 (RtoC Rb / (RtoC Eg - z))). rewrite X in S, F.
  assert (E : x * x * (RtoC Eg - z) = RtoC Rb) by (rewrite S; field; exact N). split; [|exact E]. split; [|exact P].
  destruct F as [F|F]; [exact F|]. exfalso. apply (f_equal snd) in E. destruct x as [a b], z as [u v]. simpl in *. rewrite <- F in E. ring_simplify in E. assert (b ^ 2 * v > 0)%R by (apply Rmult_lt_0_compat; [apply pow_lt; exact P|exact H]). lra.
Qed.
Lemma xsi_quad_neg (z : C) Rb Eg : (0 < snd z)%R -> (0 < Rb)%R -> exists x, xsi (- z) Rb Eg = Some x /\ (0 < fst x /\ snd x < 0)%R /\ x * x * (RtoC Eg + z) = RtoC Rb.
Proof.
  intros H HR. assert (H' : (0 < snd (Cconj (- z)))%R) by (destruct z; simpl in *; lra). destruct (xsi_quad (Cconj (- z)) Rb Eg H' HR) as (x & X & [P1 P2] & E).
  exists (Cconj x). replace (- z) with (Cconj (Cconj (- z))) by apply Cconj_conj. rewrite xsi_conj by (try exact HR; lra). rewrite X. split; [reflexivity|].
  split; [destruct x; simpl in *; lra|]. replace (RtoC Eg + z) with (Cconj (RtoC Eg - Cconj (- z))) by (rewrite Cconj_minus, Cconj_R, Cconj_conj; ring).
  rewrite <- !Cconj_mult, E. apply Cconj_R.
Qed.
