(** C102: the Tanguy dispersion as a function of the dimension d; the poles of C101 between one and three
    dimensions. *)
From Coq Require Import Reals ZArith Lra Lia.
From Coquelicot Require Import Coquelicot.
From Verif.Base Require Import Py Cx Special.
From Verif.Model Require Import Units Dispersions Tanguy.
From Verif.Spec Require Import DispDoc Exciton.
From Verif.Proof Require Import UnitsP DispersionsP DispersionsP3 SpecialP TanguyP TanguyP2 TanguyP3 TanguyP5 TanguyP7 TanguyP8.
From Verif.Props Require Import Dispersions2T TanguyT.
Open Scope R_scope.
Open Scope C_scope.
Open Scope py_scope.

Lemma tanguy_rgd c h A d Rb Eg a b lbda E : (0 < Rb)%R -> lbda <> 0%R -> photon c h lbda E -> (0 < E < Eg)%R -> b <> (E ^ 2)%R ->
  (forall e, (e = E \/ e = - E \/ e = 0)%R -> g (RtoC (rxsi Rb Eg e)) d = Some (RtoC (rgd (d - 2) (rxsi Rb Eg e)))) ->
  tanguy c h A d 0 Rb Eg a b lbda = Some (RtoC (rtanguy_d A d Rb Eg a b E)).
Proof.
  intros HR N P E0 NB GG.
  unfold tanguy. rewrite (photon_conv _ _ _ E N P). cbn [obind]. cbv zeta. rewrite zero_z.
  rewrite rdiv_nz by lra. cbn [obind]. rewrite rpow_pos by exact HR. cbn [obind]. rewrite <- RtoC_mult. rewrite cdiv_real by nra. cbn [obind].
  rewrite xsi_below by lra. cbn [obind]. fold (rxsi Rb Eg E). rewrite GG by tauto.
  cbn [obind]. rewrite <- RtoC_opp, xsi_below by lra. cbn [obind]. fold (rxsi Rb Eg (- E)). rewrite GG by tauto.
  cbn [obind]. rewrite (xsi_below 0) by lra. cbn [obind]. fold (rxsi Rb Eg 0). rewrite GG by tauto.
  cbn [obind]. unfold rtanguy_d. f_equal. rewrite <- !RtoC_plus, <- !RtoC_mult, <- !RtoC_minus, <- !RtoC_mult, <- !RtoC_plus. reflexivity.
Qed.
Lemma tanguy_real_d c h A d Rb Eg a b lbda E : (1 < d < 3)%R -> d <> 2%R -> (0 < Rb)%R -> lbda <> 0%R -> photon c h lbda E ->
  (0 < E < Eg)%R -> b <> (E ^ 2)%R ->
  (forall e, (e = E \/ e = - E \/ e = 0)%R -> forall n, rxsi Rb Eg e <> (INR n + (1 / 2 + (d - 2) / 2))%R) ->
  tanguy c h A d 0 Rb Eg a b lbda = Some (RtoC (rtanguy_d A d Rb Eg a b E)).
Proof.
  intros D N2 HR N P E0 NB NS.
  assert (XP : forall e, (e < Eg)%R -> (0 < rxsi Rb Eg e)%R) by (intros e H; apply sqrt_lt_R0; apply Rdiv_lt_0_compat; lra).
  apply tanguy_rgd; try assumption. intros e K. rewrite <- g_rgd; [f_equal; ring|lra|apply Rabs_def1; lra| |exact (NS e K)]. apply XP. destruct K as [->|[->| ->]]; lra.
Qed.

(** Gauss's limit exists and is positive *)
Lemma gauss_exists x : (0 < x)%R -> exists G, gauss x G /\ (0 < G)%R.
Proof. intros X. exists (exp (lnG x)). split; [now apply gauss_lnG|apply exp_pos]. Qed.

(** Between one and three dimensions, except at two, the bound states are simple poles, and their
    residues are the oscillator strengths *)
Theorem C101_strength_dimension : forall c h A d Rb Eg a b n G0 G1 eps, (1 < d < 3)%R -> d <> 2%R -> (0 < Rb)%R -> stable d Rb Eg ->
  gauss ((d - 1) / 2) G0 -> gauss (INR n + d - 1) G1 ->
  let En := (Eg - Rb / (INR n + (d - 1) / 2) ^ 2)%R in b <> (En ^ 2)%R -> (0 < eps)%R ->
  exists delta, (0 < delta)%R /\ forall lbda E, lbda <> 0%R -> photon c h lbda E -> (0 < Rabs (E - En) < delta)%R ->
    exists v : R, tanguy c h A d 0 Rb Eg a b lbda = Some (RtoC v) /\
      (Rabs ((En - E) * v - strength_d A d Rb Eg n G0 G1) < eps)%R.
Proof.
  intros c h A d Rb Eg a b n G0 G1 eps D N2 HR S HG0 HG1 En B He. assert (P := pos_INR n).
  apply gauss_unique in HG0; [|lra]. apply gauss_unique in HG1; [|lra]. subst G0 G1.
  assert (L := pole_lim_d A d Rb Eg a b n D HR S B). apply is_lim_spec in L. specialize (L (mkposreal eps He)). cbn [pos] in L.
  assert (W := near_state_d d Rb Eg b n D HR S B). fold En in L, W.
  destruct L as [d1 L]. destruct W as [d2 W]. exists (Rmin d1 d2). split; [apply Rmin_pos; apply cond_pos|].
  intros lbda E N PH [K1 K2]. assert (NE : E <> En) by (intros ->; rewrite Rminus_diag_eq, Rabs_R0 in K1 by reflexivity; lra).
  destruct (W E) as (E0 & I & NB).
  { change (Rabs (E - En) < d2)%R. eapply Rlt_le_trans; [exact K2|apply Rmin_r]. }
  exists (rtanguy_d A d Rb Eg a b E). split.
  - apply tanguy_real_d; try assumption. intros e K m. replace (1 / 2 + (d - 2) / 2)%R with ((d - 1) / 2)%R by field.
    destruct K as [->|K]; [exact (state_only_d d Rb Eg n D HR E m ltac:(lra) NE I)|].
    intros Q. assert (HG := stable_gap d Rb Eg ltac:(lra) HR S). apply bound_xsi in Q; [|destruct K as [->| ->]; lra..]. assert (BS : bound_state d Rb Eg e) by now exists m.
    apply stable_state in BS; [destruct K as [->| ->]; lra|lra|exact HR|exact S].
  - apply L; [|exact NE]. change (Rabs (E - En) < d1)%R. eapply Rlt_le_trans; [exact K2|apply Rmin_l].
Qed.
Print Assumptions C101_strength_dimension.

(** Between one and three dimensions, except at two, the value depends continuously on the dimension *)
Theorem C102_continuous : forall c h A d0 Rb Eg a b lbda E, lbda <> 0%R -> photon c h lbda E ->
  (1 < d0 < 3)%R -> d0 <> 2%R -> (0 < Rb)%R -> stable d0 Rb Eg -> (0 < E < Eg)%R -> ~ bound_state d0 Rb Eg E -> b <> (E ^ 2)%R ->
  exists v0 : R, tanguy c h A d0 0 Rb Eg a b lbda = Some (RtoC v0) /\
  forall eps, (0 < eps)%R -> exists delta, (0 < delta)%R /\ forall d, (Rabs (d - d0) < delta)%R ->
    exists v : R, tanguy c h A d 0 Rb Eg a b lbda = Some (RtoC v) /\ (Rabs (v - v0) < eps)%R.
Proof.
  intros c h A d0 Rb Eg a b lbda E L P D N2 HR S HE NB B.
  assert (XP : forall e, (e < Eg)%R -> (0 < rxsi Rb Eg e)%R) by (intros e H; apply sqrt_lt_R0; apply Rdiv_lt_0_compat; lra).
  assert (SN : forall e, (e = E \/ e = - E \/ e = 0)%R -> sin (PI * (1 / 2 + (d0 - 2) / 2 - rxsi Rb Eg e)) <> 0%R).
  { intros e K. apply not_bound_sin; [exact D|apply XP; destruct K as [->|[->| ->]]; lra|]. intros n En.
    apply bound_xsi in En; [|destruct K as [->|[->| ->]]; lra..]. assert (BS : bound_state d0 Rb Eg e) by now exists n.
    destruct K as [->|K]; [exact (NB BS)|]. apply stable_state in BS; [destruct K as [->| ->]; lra|lra|exact HR|exact S]. }
  assert (LN : forall e, (e = E \/ e = - E \/ e = 0)%R -> locally d0 (fun d => sin (PI * (1 / 2 + (d - 2) / 2 - rxsi Rb Eg e)) <> 0%R)).
  { intros e K. exact (near_neq _ _ _ (sin_arg_cont (rxsi Rb Eg e) d0) (SN e K)). }
  exists (rtanguy_d A d0 Rb Eg a b E). split.
  - apply tanguy_real_d; try assumption. intros e K. apply sin_not_bound, SN, K.
  - intros eps He. assert (CT := rtanguy_cont A d0 Rb Eg a b E D N2 HE HR SN).
    assert (C1 := CT _ (locally_ball (rtanguy_d A d0 Rb Eg a b E) (mkposreal eps He))).
    unfold filtermap in C1.
    assert (C2 : locally d0 (fun d => (1 < d < 3)%R)) by (apply (near_cont (fun d => d)); [apply continuous_id|exact D]).
    assert (C3 := near_neq (fun d => d) d0 2 (continuous_id d0) N2).
    assert (C4 := LN E ltac:(tauto)). assert (C5 := LN (- E)%R ltac:(tauto)). assert (C6 := LN 0%R ltac:(tauto)).
    destruct (filter_and _ _ C1 (filter_and _ _ C2 (filter_and _ _ C3 (filter_and _ _ C4 (filter_and _ _ C5 C6))))) as [del W].
    exists del. split; [apply cond_pos|]. intros d Hd. destruct (W d Hd) as (W1 & W2 & W3 & W4 & W5 & W6).
    exists (rtanguy_d A d Rb Eg a b E). split; [|exact W1].
    apply tanguy_real_d; try assumption. intros e [->|[->| ->]]; apply sin_not_bound; assumption.
Qed.
Print Assumptions C102_continuous.

(** At three dimensions too: the general formula tends to the one for three dimensions, from both sides *)
Theorem C102_three_dimensions : forall c h A Rb Eg a b lbda E, lbda <> 0%R -> photon c h lbda E ->
  (0 < Rb)%R -> stable 3 Rb Eg -> (0 < E < Eg)%R -> ~ bound_state 3 Rb Eg E -> b <> (E ^ 2)%R ->
  exists v0 : R, tanguy c h A 3 0 Rb Eg a b lbda = Some (RtoC v0) /\
  forall eps, (0 < eps)%R -> exists delta, (0 < delta)%R /\ forall d, (Rabs (d - 3) < delta)%R ->
    exists v : R, tanguy c h A d 0 Rb Eg a b lbda = Some (RtoC v) /\ (Rabs (v - v0) < eps)%R.
Proof.
  intros c h A Rb Eg a b lbda E L P HR S HE NB B.
  assert (XP : forall e, (e < Eg)%R -> (0 < rxsi Rb Eg e)%R) by (intros e H; apply sqrt_lt_R0; apply Rdiv_lt_0_compat; lra).
  assert (NS : forall e, (e = E \/ e = - E \/ e = 0)%R -> forall n, rxsi Rb Eg e <> (INR n + (3 - 1) / 2)%R).
  { intros e K n Q. apply bound_xsi in Q; [|destruct K as [->|[->| ->]]; lra..]. assert (BS : bound_state 3 Rb Eg e) by now exists n.
    destruct K as [->|K]; [exact (NB BS)|]. apply stable_state in BS; [destruct K as [->| ->]; lra|lra|exact HR|exact S]. }
  assert (NS1 : forall e, (e = E \/ e = - E \/ e = 0)%R -> forall n, rxsi Rb Eg e <> (INR n + 1)%R) by (intros e K n Q; apply (NS e K n); lra).
  assert (V3 : tanguy c h A 3 0 Rb Eg a b lbda = Some (RtoC (rtanguy A 3 Rb Eg a b E))).
  { apply tanguy_real; try assumption; [now right|exact (NS E (or_introl eq_refl))|intros Z; apply B; symmetry; exact Z]. }
  exists (rtanguy A 3 Rb Eg a b E). split; [exact V3|]. intros eps He.
  assert (LM := rtanguy_lim3 A Rb Eg a b E HE HR NS1). apply is_lim_spec in LM. specialize (LM (mkposreal eps He)). cbn [pos] in LM. destruct LM as [d1 LM].
  assert (G3 : forall e, (e = E \/ e = - E \/ e = 0)%R -> locally 3%R (fun d => d <> 3%R -> g (RtoC (rxsi Rb Eg e)) d = Some (RtoC (rgd (d - 2) (rxsi Rb Eg e))))).
  { intros e K. apply g_near3; [apply XP; destruct K as [->|[->| ->]]; lra|exact (NS1 e K)]. }
  destruct (filter_and _ _ (G3 E (or_introl eq_refl)) (filter_and _ _ (G3 (- E)%R (or_intror (or_introl eq_refl))) (G3 0%R (or_intror (or_intror eq_refl))))) as [d2 W].
  exists (Rmin d1 d2). split; [apply Rmin_pos; apply cond_pos|]. intros d Hd.
  destruct (Req_dec d 3) as [->|N3]; [exists (rtanguy A 3 Rb Eg a b E); split; [exact V3|]; rewrite Rminus_diag_eq, Rabs_R0 by reflexivity; exact He|].
  destruct (W d) as (W1 & W2 & W3). { change (Rabs (d - 3) < d2)%R. eapply Rlt_le_trans; [exact Hd|apply Rmin_r]. }
  exists (rtanguy_d A d Rb Eg a b E). split.
  - apply tanguy_rgd; try assumption. intros e [->|[->| ->]]; auto.
  - apply LM; [|exact N3]. change (Rabs (d - 3) < d1)%R. eapply Rlt_le_trans; [exact Hd|apply Rmin_l].
Qed.
Print Assumptions C102_three_dimensions.

(** At two dimensions it jumps: every dimension near two gives a value that is lower by at least one *)
Theorem C102_two_dimensions_refuted : exists c h A Rb Eg a b lbda v2 delta,
  stable 2 Rb Eg /\ (0 < delta)%R /\ tanguy c h A 2 0 Rb Eg a b lbda = Some (RtoC v2) /\
  forall d, (0 < Rabs (d - 2) < delta)%R -> exists v : R, tanguy c h A d 0 Rb Eg a b lbda = Some (RtoC v) /\ (v <= v2 - 1)%R.
Proof.
  assert (U := lipG_ge). assert (UG : (11 <= uG)%R) by (unfold uG; lra).
  assert (PB : (0 <= psiB)%R) by (unfold psiB; assert (Q1 := Rabs_pos (rpsi (1 / 4))); assert (Q2 := Rabs_pos (rpsi 2)); lra).
  set (m := (80 + 10 * uG + 8 * psiB)%R). assert (M : (80 <= m)%R) by (unfold m; lra).
  set (t := (/ m)%R). assert (T0 : (0 < t <= 1 / 8)%R).
  { split; [apply Rinv_0_lt_compat; lra|]. unfold t. replace (1 / 8)%R with (/ 8)%R by lra. apply Rinv_le_contravar; lra. }
  assert (TI : (1 / t = m)%R) by (unfold t; field; lra).
  set (x1 := (1 / 2 - t)%R). assert (X1 : (3 / 8 <= x1 < 1 / 2)%R) by (unfold x1; lra).
  set (E := (16 - / (x1 * x1))%R). assert (HE : (8 <= E < 12)%R).
  { assert (Q1 : (9 / 64 <= x1 * x1 < 1 / 4)%R) by nra. unfold E. assert (Q2 : (/ (x1 * x1) <= / (9 / 64))%R) by (apply Rinv_le_contravar; lra).
    assert (Q3 : (/ (1 / 4) < / (x1 * x1))%R) by (apply Rinv_lt_contravar; [apply Rmult_lt_0_compat; lra|lra]). lra. }
  assert (XE : rxsi 1 16 E = x1).
  { unfold rxsi, E. replace (1 / (16 - (16 - / (x1 * x1))))%R with (x1 * x1)%R; [apply sqrt_square; lra|]. field. nra. }
  assert (X0 : rxsi 1 16 0 = (1 / 4)%R) by (unfold rxsi; replace (1 / (16 - 0))%R with ((1 / 4) * (1 / 4))%R by lra; apply sqrt_square; lra).
  set (x2 := rxsi 1 16 (- E)). assert (X2 : (1 / 8 <= x2 <= 1 / 4)%R).
  { unfold x2, rxsi. split.
    - replace (1 / 8)%R with (sqrt ((1 / 8) * (1 / 8))) by (apply sqrt_square; lra). apply sqrt_le_1_alt. replace (1 / 8 * (1 / 8))%R with (/ 64)%R by lra. unfold Rdiv. rewrite Rmult_1_l. apply Rinv_le_contravar; lra.
    - replace (1 / 4)%R with (sqrt ((1 / 4) * (1 / 4))) by (apply sqrt_square; lra). apply sqrt_le_1_alt. replace (1 / 4 * (1 / 4))%R with (/ 16)%R by lra. unfold Rdiv. rewrite Rmult_1_l. apply Rinv_le_contravar; lra. }
  assert (P : photon 1 1 (10 ^ 9 / E) E) by (unfold photon; field; lra).
  assert (LN : (10 ^ 9 / E)%R <> 0%R) by (apply Rgt_not_eq, Rdiv_lt_0_compat; lra).
  assert (ST : stable 2 1 16) by (unfold stable; lra).
  assert (B : 0%R <> (E ^ 2)%R) by nra.
  assert (F : (E * E * 1 / (E * E))%R = 1%R) by (field; lra).
  assert (R1 : forall p, Rpower 1 p = 1%R) by (intros p; unfold Rpower; rewrite ln_1, Rmult_0_r; apply exp_0).
  exists 1%R, 1%R, (E * E)%R, 1%R, 16%R, 0%R, 0%R, (10 ^ 9 / E)%R, (rtanguy (E * E) 2 1 16 0 0 E), (Rmin (t / 5) (1 / (24 * uG)))%R.
  split; [exact ST|]. split; [apply Rmin_pos; [lra|apply Rdiv_lt_0_compat; lra]|]. split.
  - apply tanguy_real; try assumption; try lra; try (now left); try (intros Z; apply B; symmetry; exact Z). rewrite XE. intros k K. assert (KP := pos_INR k). lra.
  - intros d [D0 D1]. set (dl := (d - 2)%R) in *. assert (DN : dl <> 0%R) by (intros Z; rewrite Z, Rabs_R0 in D0; lra).
    assert (DT : (Rabs dl <= t / 5)%R) by (left; eapply Rlt_le_trans; [exact D1|apply Rmin_l]).
    assert (DU : (uG * Rabs dl <= 1 / 24)%R).
    { assert (Q := Rlt_le_trans _ _ _ D1 (Rmin_r _ _)). apply Rmult_lt_compat_l with (r := uG) in Q; [|lra]. replace (uG * (1 / (24 * uG)))%R with (1 / 24)%R in Q by (field; lra). lra. }
    assert (DB := Rle_abs dl). assert (DB' := Rle_abs (- dl)). rewrite Rabs_Ropp in DB'.
    exists (rtanguy_d (E * E) d 1 16 0 0 E). split.
    + apply tanguy_real_d; try assumption; try (unfold dl in *; lra).
      intros e K n. fold dl. assert (KP := pos_INR n). destruct K as [->|[->| ->]]; rewrite ?XE, ?X0; fold x2; unfold x1; lra.
    + assert (UP := near2_upper dl t x2 DN T0 DT DU X2). assert (LO := near2_lower t x2 T0 X2). fold x1 in UP, LO.
      unfold rtanguy_d, rtanguy. fold dl. rewrite XE, X0. fold x2. rewrite !R1, F. rewrite TI in UP.
      replace (2 / t)%R with (2 * (1 / t))%R in LO by (field; lra). rewrite TI in LO. unfold m in *. lra.
Qed.
Print Assumptions C102_two_dimensions_refuted.

Example C102_three_example : stable 3 (1 / 100) 1 /\ ~ bound_state 3 (1 / 100) 1 (1 / 2).
Proof.
  split; [unfold stable; lra|]. intros [n E]. assert (K := pos_INR n). assert (Q : (1 / 100 / (INR n + (3 - 1) / 2) ^ 2 <= 1 / 100 / 1 ^ 2)%R).
  { apply Rmult_le_compat_l; [lra|]. apply Rinv_le_contravar; [lra|]. apply pow_incr. lra. }
  lra.
Qed.

(** Both ends of a continuous step between one and two dimensions *)
Example C102_example : stable (3 / 2) (1 / 100) 1 /\ ~ bound_state (3 / 2) (1 / 100) 1 (1 / 2) /\ photon 1 1 (10 ^ 9 / 0.5) (1 / 2).
Proof.
  split; [unfold stable; lra|]. split; [|unfold photon; lra].
  intros [n E]. assert (K := pos_INR n). assert (Q : (1 / 100 / (INR n + (3 / 2 - 1) / 2) ^ 2 <= 1 / 100 / (1 / 4) ^ 2)%R).
  { apply Rmult_le_compat_l; [lra|]. apply Rinv_le_contravar; [lra|]. apply pow_incr. lra. }
  lra.
Qed.
Example C101_strength_dimension_example : stable (5 / 2) (1 / 4) 1 /\
  exists G0 G1, gauss ((5 / 2 - 1) / 2) G0 /\ gauss (INR 0 + 5 / 2 - 1) G1 /\ (0 < strength_d 1 (5 / 2) (1 / 4) 1 0 G0 G1)%R.
Proof.
  split; [unfold stable; lra|]. destruct (gauss_exists ((5 / 2 - 1) / 2)) as (G0 & H0 & P0); [lra|]. destruct (gauss_exists (INR 0 + 5 / 2 - 1)) as (G1 & H1 & P1); [simpl; lra|].
  exists G0, G1. split; [exact H0|]. split; [exact H1|]. unfold strength_d, strength. simpl (INR 0).
  apply Rmult_lt_0_compat.
  - repeat apply Rdiv_lt_0_compat; try lra. apply Rmult_lt_0_compat; [lra|apply exp_pos].
  - apply Rdiv_lt_0_compat; [exact P1|]. apply Rmult_lt_0_compat; [|apply exp_pos]. apply Rmult_lt_0_compat; [apply INR_fact_lt_0|apply pow_lt; exact P0].
Qed.
