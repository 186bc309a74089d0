(** C101: where the Tanguy dispersion has a value, and what is known of it. *)
From Coq Require Import Reals ZArith Lra Lia.
From Coquelicot Require Import Coquelicot.
From Verif.Base Require Import Py Cx Special.
From Verif.Model Require Import Units Dispersions Tanguy.
From Verif.Spec Require Import DispDoc Exciton.
From Verif.Proof Require Import UnitsP DispersionsP DispersionsP3 SpecialP TanguyP TanguyP2 TanguyP3 TanguyP4 TanguyP6.
From Verif.Props Require Import Dispersions2T.
Open Scope R_scope.
Open Scope C_scope.
Open Scope py_scope.

Lemma stable_gap d Rb Eg : (1 < d)%R -> (0 < Rb)%R -> stable d Rb Eg -> (0 < Eg)%R.
Proof. intros D HR S. unfold stable in S. assert (0 < Rb / ((d - 1) / 2) ^ 2)%R by (apply Rdiv_lt_0_compat; [exact HR|apply pow_lt; lra]). lra. Qed.
Lemma stable_state d Rb Eg E : (1 < d)%R -> (0 < Rb)%R -> stable d Rb Eg -> bound_state d Rb Eg E -> (0 < E < Eg)%R.
Proof.
  intros D HR S [n ->]. unfold stable in S. assert (K := pos_INR n).
  assert (0 < Rb / (INR n + (d - 1) / 2) ^ 2)%R by (apply Rdiv_lt_0_compat; [exact HR|apply pow_lt; lra]).
  assert (Rb / (INR n + (d - 1) / 2) ^ 2 <= Rb / ((d - 1) / 2) ^ 2)%R.
  { apply Rmult_le_compat_l; [lra|]. apply Rinv_le_contravar; [apply pow_lt; lra|]. apply pow_incr. lra. }
  lra.
Qed.
(** xsi and g at real energies below the gap *)
Lemma below_free d Rb Eg E : (1 < d <= 3)%R -> (0 < Rb)%R -> (E < Eg)%R -> ~ bound_state d Rb Eg E -> exists x, xsi (RtoC E) Rb Eg = Some x /\ real (g x d).
Proof.
  intros D HR HE NB. rewrite xsi_below by assumption. eexists. split; [reflexivity|]. apply g_real; [|exact D|].
  - apply sqrt_lt_R0. apply Rdiv_lt_0_compat; lra.
  - intros n En. apply NB. exists n. now apply bound_xsi.
Qed.
Lemma below_bound d Rb Eg E : (1 < d <= 3)%R -> (0 < Rb)%R -> (E < Eg)%R -> bound_state d Rb Eg E -> exists x, xsi (RtoC E) Rb Eg = Some x /\ g x d = None.
Proof.
  intros D HR HE [n En]. rewrite xsi_below by assumption. eexists. split; [reflexivity|]. apply bound_xsi in En; [|lra..]. rewrite En. now apply g_bound.
Qed.
Lemma zero_z E : RtoC E + Ci * RtoC 0 = RtoC E.
Proof. ring. Qed.

(** C101: below the gap, without broadening: no value exactly at the bound states, and a real value
    (no absorption) at all other energies *)
Theorem C101_below : forall c h A d Rb Eg a b lbda E, lbda <> 0%R -> photon c h lbda E ->
  (1 < d <= 3)%R -> (0 < Rb)%R -> stable d Rb Eg -> (0 < E < Eg)%R -> b <> (E ^ 2)%R ->
  (bound_state d Rb Eg E -> tanguy c h A d 0 Rb Eg a b lbda = None) /\
  (~ bound_state d Rb Eg E -> exists v : R, tanguy c h A d 0 Rb Eg a b lbda = Some (RtoC v)).
Proof.
  intros c h A d Rb Eg a b lbda E L P D HR S [E0 EG] B. assert (G := stable_gap d Rb Eg ltac:(lra) HR S).
  unfold tanguy. rewrite (photon_conv _ _ _ E L P). cbn [obind]. cbv zeta. rewrite zero_z.
  rewrite rdiv_nz by lra. cbn [obind]. rewrite rpow_pos by exact HR. cbn [obind]. rewrite <- RtoC_mult. rewrite cdiv_real by nra. cbn [obind]. split; intros H.
  - destruct (below_bound d Rb Eg E D HR EG H) as (x & -> & GX). cbn [obind]. rewrite GX. reflexivity.
  - destruct (below_free d Rb Eg E D HR EG H) as (x & -> & v1 & Gv1). cbn [obind]. rewrite Gv1. cbn [obind]. rewrite <- RtoC_opp.
    destruct (below_free d Rb Eg (- E) D HR) as (x2 & -> & v2 & Gv2); [lra| |].
    { intros K. apply stable_state in K; [lra|lra|exact HR|exact S]. }
    cbn [obind]. rewrite Gv2. cbn [obind]. destruct (below_free d Rb Eg 0 D HR) as (x0 & -> & v0 & Gv0); [lra| |].
    { intros K. apply stable_state in K; [lra|lra|exact HR|exact S]. }
    cbn [obind]. rewrite Gv0. cbn [obind]. eexists. rewrite <- !RtoC_plus, <- !RtoC_mult, <- !RtoC_minus, <- !RtoC_mult, <- !RtoC_plus. reflexivity.
Qed.
Print Assumptions C101_below.

(** at the gap there is no value without broadening; above it there is one *)
Theorem C101_gap : forall c h A d Rb Eg a b lbda, lbda <> 0%R -> photon c h lbda Eg ->
  tanguy c h A d 0 Rb Eg a b lbda = None.
Proof.
  intros c h A d Rb Eg a b lbda L P. unfold tanguy. rewrite (photon_conv _ _ _ Eg L P). cbn [obind]. cbv zeta. rewrite zero_z.
  destruct (rdiv _ _); [|reflexivity]. cbn [obind]. destruct (rpow _ _); [|reflexivity]. cbn [obind]. destruct (cdiv (RtoC _) _); [|reflexivity]. cbn [obind].
  unfold xsi at 1. replace (RtoC Eg - RtoC Eg) with (RtoC 0) by ring. rewrite cdiv_0. reflexivity.
Qed.
Print Assumptions C101_gap.

Lemma zero_ok d Rb Eg : (1 < d <= 3)%R -> (0 < Rb)%R -> stable d Rb Eg -> exists x, xsi 0 Rb Eg = Some x /\ real (g x d).
Proof.
  intros D HR S. assert (G := stable_gap d Rb Eg ltac:(lra) HR S). apply below_free; [exact D|exact HR|lra|]. intros K. apply stable_state in K; [lra|lra|exact HR|exact S].
Qed.
Theorem C101_above : forall c h A d Rb Eg a b lbda E, lbda <> 0%R -> photon c h lbda E ->
  (1 < d <= 3)%R -> (0 < Rb)%R -> stable d Rb Eg -> (Eg < E)%R -> b <> (E ^ 2)%R ->
  exists v, tanguy c h A d 0 Rb Eg a b lbda = Some v.
Proof.
  intros c h A d Rb Eg a b lbda E L P D HR S EG B. assert (G := stable_gap d Rb Eg ltac:(lra) HR S).
  unfold tanguy. rewrite (photon_conv _ _ _ E L P). cbn [obind]. cbv zeta. rewrite zero_z.
  rewrite rdiv_nz by lra. cbn [obind]. rewrite rpow_pos by exact HR. cbn [obind]. rewrite <- RtoC_mult. rewrite cdiv_real by nra. cbn [obind].
  rewrite xsi_above by assumption. cbn [obind]. destruct (g_nonreal (0, sqrt (Rb / (E - Eg)))%R d) as [v1 ->]; [|exact D|].
  { apply Rgt_not_eq. apply sqrt_lt_R0. apply Rdiv_lt_0_compat; lra. }
  cbn [obind]. rewrite <- RtoC_opp.
  destruct (below_free d Rb Eg (- E) D HR) as (x2 & -> & v2 & Gv2); [lra| |].
  { intros K. apply stable_state in K; [lra|lra|exact HR|exact S]. }
  cbn [obind]. rewrite Gv2. cbn [obind]. destruct (zero_ok d Rb Eg D HR S) as (x0 & -> & v0 & Gv0). cbn [obind]. rewrite Gv0. eexists. reflexivity.
Qed.
Print Assumptions C101_above.

Lemma im_z E gam : snd (RtoC E + Ci * RtoC gam) = gam.
Proof. simpl. ring. Qed.
(** With broadening there is a value at every energy *)
Theorem C101_broadened : forall c h A d gam Rb Eg a b lbda E, lbda <> 0%R -> photon c h lbda E ->
  (1 < d <= 3)%R -> (0 < Rb)%R -> stable d Rb Eg -> gam <> 0%R -> b <> (E ^ 2)%R ->
  exists v, tanguy c h A d gam Rb Eg a b lbda = Some v.
Proof.
  intros c h A d gam Rb Eg a b lbda E L P D HR S NG B.
  unfold tanguy. rewrite (photon_conv _ _ _ E L P). cbn [obind]. cbv zeta. assert (I := im_z E gam). set (z := RtoC E + Ci * RtoC gam) in *. clearbody z.
  assert (Z : z <> 0) by (apply nonreal; rewrite I; exact NG).
  rewrite rdiv_nz by lra. cbn [obind]. rewrite rpow_pos by exact HR. cbn [obind]. rewrite cdiv_ok by (intros K; apply C_integral in K; tauto). cbn [obind].
  destruct (xsi_nonreal z Rb Eg) as (x1 & -> & X1); [now rewrite I|exact HR|]. cbn [obind]. destruct (g_nonreal x1 d X1 D) as [v1 ->]. cbn [obind].
  destruct (xsi_nonreal (- z) Rb Eg) as (x2 & -> & X2); [simpl; rewrite I; lra|exact HR|]. cbn [obind]. destruct (g_nonreal x2 d X2 D) as [v2 ->]. cbn [obind].
  destruct (zero_ok d Rb Eg D HR S) as (x0 & -> & v0 & Gv0). cbn [obind]. rewrite Gv0. eexists. reflexivity.
Qed.
Print Assumptions C101_broadened.

(** The documented ranges of the parameters are not enough: with the ground state at energy zero there
    is no value at any wavelength, whatever the broadening *)
Theorem C101_documented_refuted : exists d Rb Eg, (1 < d <= 3)%R /\ (0 < Rb)%R /\ (0 < Eg)%R /\
  forall c h A gam a b lbda, tanguy c h A d gam Rb Eg a b lbda = None.
Proof.
  exists 3%R, 1%R, 1%R. split; [lra|]. split; [lra|]. split; [lra|]. intros c h A gam a b lbda. unfold tanguy.
  destruct (wavelength_energy _ _ _); [|reflexivity]. cbn [obind]. cbv zeta. destruct (rdiv _ _); [|reflexivity]. cbn [obind]. destruct (rpow _ _); [|reflexivity]. cbn [obind].
  destruct (cdiv (RtoC _) _); [|reflexivity]. cbn [obind]. destruct (xsi (_ + _) _ _); [|reflexivity]. cbn [obind]. destruct (g _ _); [|reflexivity]. cbn [obind].
  destruct (xsi (- _) _ _); [|reflexivity]. cbn [obind]. destruct (g _ _); [|reflexivity]. cbn [obind].
  destruct (below_bound 3 1 1 0) as (x & -> & GX); [lra|lra|lra| |cbn [obind]; rewrite GX; reflexivity]. exists 0%nat. simpl. field.
Qed.
Print Assumptions C101_documented_refuted.

(** With the opposite broadening the value is the complex conjugate *)
Theorem C101_conjugate : forall c h A d gam Rb Eg a b lbda,
  (1 < d <= 3)%R -> (0 < Rb)%R -> stable d Rb Eg -> gam <> 0%R ->
  tanguy c h A d (- gam) Rb Eg a b lbda = option_map Cconj (tanguy c h A d gam Rb Eg a b lbda).
Proof.
  intros c h A d gam Rb Eg a b lbda D HR S NG. unfold tanguy. destruct (wavelength_energy c h lbda) as [E|]; [|reflexivity]. cbn [obind]. cbv zeta.
  replace (RtoC E + Ci * RtoC (- gam)) with (Cconj (RtoC E + Ci * RtoC gam)) by (rewrite Cconj_plus, Cconj_mult, !Cconj_R, Cconj_Ci, RtoC_opp; ring).
  assert (I := im_z E gam). set (z := RtoC E + Ci * RtoC gam) in *. clearbody z.
  destruct (rdiv _ _) as [s|]; [|reflexivity]. cbn [obind]. destruct (rpow _ _) as [w|]; [|reflexivity]. cbn [obind].
  replace (cdiv (RtoC (A * w)) (Cconj z * Cconj z)) with (option_map Cconj (cdiv (RtoC (A * w)) (z * z))) by now rewrite <- cdiv_conj, Cconj_mult, Cconj_R.
  destruct (cdiv (RtoC (A * w)) (z * z)) as [f|]; [|reflexivity]. cbn [obind option_map].
  rewrite xsi_conj by (try exact HR; rewrite I; exact NG). destruct (xsi_nonreal z Rb Eg) as (x1 & -> & X1); [now rewrite I|exact HR|]. cbn [obind option_map].
  rewrite g_conj by assumption. destruct (g x1 d) as [g1|]; [|reflexivity]. cbn [obind option_map].
  replace (- Cconj z) with (Cconj (- z)) by now rewrite Cconj_opp.
  assert (I2 : snd (- z) <> 0%R) by (simpl; rewrite I; lra).
  rewrite xsi_conj by (try exact HR; exact I2). destruct (xsi_nonreal (- z) Rb Eg I2 HR) as (x2 & -> & X2). cbn [obind option_map].
  rewrite g_conj by assumption. destruct (g x2 d) as [g2|]; [|reflexivity]. cbn [obind option_map].
  destruct (zero_ok d Rb Eg D HR S) as (x0 & -> & v0 & Gv0). cbn [obind]. rewrite Gv0. cbn [obind option_map]. f_equal.
  rewrite !Cconj_plus, Cconj_mult, Cconj_minus, Cconj_plus, Cconj_mult, !Cconj_R. reflexivity.
Qed.
Print Assumptions C101_conjugate.

(** In two and three dimensions the resonant part has a positive imaginary part for a positive
    broadening *)
Theorem C101_absorbs : forall d gam Rb Eg E, d = 2%R \/ d = 3%R -> (0 < Rb)%R -> (0 < gam)%R ->
  exists x v, xsi (RtoC E + Ci * RtoC gam) Rb Eg = Some x /\ g x d = Some v /\ (0 < snd v)%R.
Proof.
  intros d gam Rb Eg E D HR G. destruct (xsi_upper (RtoC E + Ci * RtoC gam) Rb Eg) as (x & -> & X); [now rewrite im_z|exact HR|].
  destruct (g_upper x d X D) as (v & Hv & V). exists x, v. repeat split; assumption.
Qed.
Print Assumptions C101_absorbs.

(** and so has the whole dielectric function, for a positive amplitude: light is absorbed at every photon
    energy *)
Theorem C101_passive : forall c h A d gam Rb Eg a b lbda E, lbda <> 0%R -> photon c h lbda E ->
  d = 2%R \/ d = 3%R -> (0 < A)%R -> (0 < Rb)%R -> stable d Rb Eg -> (0 < gam)%R -> (0 < E)%R -> b <> (E ^ 2)%R ->
  exists v, tanguy c h A d gam Rb Eg a b lbda = Some v /\ (0 < snd v)%R.
Proof.
  intros c h A d gam Rb Eg a b lbda E L P D HA HR S G E0 B. assert (D' : (1 < d <= 3)%R) by (destruct D; lra). assert (HG := stable_gap d Rb Eg ltac:(lra) HR S).
  unfold tanguy. rewrite (photon_conv _ _ _ E L P). cbn [obind]. cbv zeta. assert (I := im_z E gam). assert (R : fst (RtoC E + Ci * RtoC gam) = E) by (simpl; ring). set (z := RtoC E + Ci * RtoC gam) in *. clearbody z.
  assert (HZ : (0 < fst z /\ 0 < snd z)%R) by lra. assert (NZ : z * z <> 0) by (apply nonreal; destruct z as [p q]; simpl in *; nra).
  rewrite rdiv_nz by lra. cbn [obind]. rewrite rpow_pos by exact HR. cbn [obind]. rewrite cdiv_ok by exact NZ. cbn [obind].
  destruct (xsi_quad z Rb Eg ltac:(lra) HR) as (x1 & -> & X1 & E1). destruct (xsi_quad_neg z Rb Eg ltac:(lra) HR) as (x2 & -> & X2 & E2). rewrite (xsi_below 0) by lra. cbn [obind].
  set (x0 := sqrt (Rb / (Eg - 0))). assert (X0 : (0 < x0)%R) by (apply sqrt_lt_R0, Rdiv_lt_0_compat; lra).
  assert (Q0 : (x0 * x0 * Eg = Rb)%R) by (unfold x0; rewrite sqrt_sqrt by (left; apply Rdiv_lt_0_compat; lra); field; lra).
  assert (K0 : (x0 < (d - 1) / 2)%R).
  { assert (KP : (0 < (d - 1) / 2)%R) by lra. unfold stable in S. destruct (Rlt_dec x0 ((d - 1) / 2)) as [K|K]; [exact K|]. exfalso.
    assert (SQ : (((d - 1) / 2) ^ 2 <= x0 * x0)%R) by nra. assert (Eg * ((d - 1) / 2) ^ 2 <= Rb)%R by nra.
    assert (Eg <= Rb / ((d - 1) / 2) ^ 2)%R; [|lra]. apply Rmult_le_reg_r with (((d - 1) / 2) ^ 2)%R; [apply pow_lt; lra|]. replace (Rb / ((d - 1) / 2) ^ 2 * ((d - 1) / 2) ^ 2)%R with Rb by (field; lra). lra. }
  destruct (g_total x1 x2 z x0 Rb Eg X1 X2 X0 HR HG HZ E1 E2 Q0 d D K0) as (v1 & v2 & v0 & -> & -> & -> & V). cbn [obind]. eexists. split; [reflexivity|].
  set (w := Rpower Rb (d / 2 - 1)). assert (W : (0 < A * w)%R) by (apply Rmult_lt_0_compat; [exact HA|apply exp_pos]).
  unfold J in V. replace (RtoC (A * w) / (z * z) * (v1 + v2 - 2 * v0)) with (RtoC (A * w) * ((v1 + v2 - 2 * v0) / (z * z))) by (field; intros K; apply NZ; rewrite K; ring).
  revert V. generalize ((v1 + v2 - 2 * v0) / (z * z)). intros [p q]. cbn [snd]. intros V. assert (0 < A * w * q)%R by (apply Rmult_lt_0_compat; assumption). simpl. lra.
Qed.
Print Assumptions C101_passive.

(** The amplitude multiplies the exciton's part *)
Theorem C101_amplitude : forall c h k A d gam Rb Eg a b lbda v, tanguy c h A d gam Rb Eg a b lbda = Some v ->
  exists v0, tanguy c h 0 d gam Rb Eg a b lbda = Some v0 /\ snd v0 = 0%R /\
  tanguy c h (k * A) d gam Rb Eg a b lbda = Some (v0 + RtoC k * (v - v0)).
Proof.
  intros c h k A d gam Rb Eg a b lbda v. unfold tanguy. destruct (wavelength_energy c h lbda) as [E|]; [|discriminate]. cbn [obind]. cbv zeta. set (z := RtoC E + Ci * RtoC gam). clearbody z.
  destruct (rdiv _ _) as [s|]; [|discriminate]. cbn [obind]. destruct (rpow _ _) as [w|]; [|discriminate]. cbn [obind].
  destruct (Ceq_dec (z * z) 0) as [->|N]; [rewrite cdiv_0; discriminate|]. rewrite !cdiv_ok by exact N. cbn [obind].
  destruct (xsi z Rb Eg) as [x1|]; [|discriminate]. cbn [obind]. destruct (g x1 d) as [g1|]; [|discriminate]. cbn [obind].
  destruct (xsi (- z) Rb Eg) as [x2|]; [|discriminate]. cbn [obind]. destruct (g x2 d) as [g2|]; [|discriminate]. cbn [obind].
  destruct (xsi 0 Rb Eg) as [x0|]; [|discriminate]. cbn [obind]. destruct (g x0 d) as [g0|]; [|discriminate]. cbn [obind].
  intros H. injection H as <-. exists (1 + RtoC s). split; [|split; [simpl; ring|]].
  - f_equal. rewrite !RtoC_mult. field. intros K. apply N. rewrite K. ring.
  - f_equal. rewrite !RtoC_mult. field. intros K. apply N. rewrite K. ring.
Qed.
Print Assumptions C101_amplitude.

Lemma tanguy_real c h A d Rb Eg a b lbda E : d = 2%R \/ d = 3%R -> (0 < Rb)%R -> stable d Rb Eg -> lbda <> 0%R -> photon c h lbda E ->
  (0 < E < Eg)%R -> (forall k, rxsi Rb Eg E <> (INR k + (d - 1) / 2)%R) -> (E ^ 2)%R <> b ->
  tanguy c h A d 0 Rb Eg a b lbda = Some (RtoC (rtanguy A d Rb Eg a b E)).
Proof.
  intros D HR S N P E0 NK NB. assert (D' : (1 < d <= 3)%R) by (destruct D; lra). assert (G := stable_gap d Rb Eg ltac:(lra) HR S).
  assert (NS : forall e, (e <= 0)%R -> forall k, rxsi Rb Eg e <> (INR k + (d - 1) / 2)%R).
  { intros e H k K. apply bound_xsi in K; [|lra..]. assert (KK : bound_state d Rb Eg e) by now exists k. apply stable_state in KK; [lra|lra|exact HR|exact S]. }
  assert (XP : forall e, (e < Eg)%R -> (0 < rxsi Rb Eg e)%R) by (intros e H; apply sqrt_lt_R0; apply Rdiv_lt_0_compat; lra).
  unfold tanguy. rewrite (photon_conv _ _ _ E N P). cbn [obind]. cbv zeta. rewrite zero_z.
  rewrite rdiv_nz by lra. cbn [obind]. rewrite rpow_pos by exact HR. cbn [obind]. rewrite <- RtoC_mult. rewrite cdiv_real by nra. cbn [obind].
  rewrite xsi_below by lra. cbn [obind]. fold (rxsi Rb Eg E). rewrite (g_rg d _ D) by (first [apply XP; lra|exact NK]).
  cbn [obind]. rewrite <- RtoC_opp, xsi_below by lra. cbn [obind]. fold (rxsi Rb Eg (- E)). rewrite (g_rg d _ D) by (first [apply XP; lra|apply NS; lra]).
  cbn [obind]. rewrite (xsi_below 0) by lra. cbn [obind]. fold (rxsi Rb Eg 0). rewrite (g_rg d _ D) by (first [apply XP; lra|apply NS; lra]).
  cbn [obind]. unfold rtanguy. f_equal. rewrite <- !RtoC_plus, <- !RtoC_mult, <- !RtoC_minus, <- !RtoC_mult, <- !RtoC_plus. reflexivity.
Qed.

(** In two and three dimensions the bound states are simple poles, and their residues are the
    oscillator strengths *)
Theorem C101_strength : forall c h A d Rb Eg a b n eps, d = 2%R \/ d = 3%R -> (0 < Rb)%R -> stable d Rb Eg ->
  let En := (Eg - Rb / (INR n + (d - 1) / 2) ^ 2)%R in b <> (En ^ 2)%R -> (0 < eps)%R ->
  exists delta, (0 < delta)%R /\ forall lbda E, lbda <> 0%R -> photon c h lbda E -> (0 < Rabs (E - En) < delta)%R ->
    exists v : R, tanguy c h A d 0 Rb Eg a b lbda = Some (RtoC v) /\
      (Rabs ((En - E) * v - strength A d Rb Eg n) < eps)%R.
Proof.
  intros c h A d Rb Eg a b n eps D HR S En B He. assert (D' : (1 < d <= 3)%R) by (destruct D; lra). assert (G := stable_gap d Rb Eg ltac:(lra) HR S).
  assert (L := pole_lim A d Rb Eg a b n D HR S B). apply is_lim_spec in L. specialize (L (mkposreal eps He)). cbn [pos] in L.
  assert (W := near_state d Rb Eg b n D HR S B). fold En in L, W.
  destruct L as [d1 L]. destruct W as [d2 W]. exists (Rmin d1 d2). split; [apply Rmin_pos; apply cond_pos|].
  intros lbda E N P [K1 K2]. assert (NE : E <> En) by (intros ->; rewrite Rminus_diag_eq, Rabs_R0 in K1 by reflexivity; lra).
  assert (L' : (Rabs ((En - E) * rtanguy A d Rb Eg a b E - strength A d Rb Eg n) < eps)%R).
  { unfold strength. apply L; [|exact NE]. change (Rabs (E - En) < d1)%R. eapply Rlt_le_trans; [exact K2|apply Rmin_l]. }
  destruct (W E) as (E0 & I & NB).
  { change (Rabs (E - En) < d2)%R. eapply Rlt_le_trans; [exact K2|apply Rmin_r]. }
  exists (rtanguy A d Rb Eg a b E). split; [|exact L'].
  apply tanguy_real; try assumption. intros m. exact (state_only d Rb Eg n D HR E m ltac:(lra) NE I).
Qed.
Print Assumptions C101_strength.

(** Below the gap the dielectric function of weakly bound excitons tends to that of free pairs, as the
    square root of the binding energy *)
Theorem C101_weak_binding : forall c h A d Eg a b lbda E, d = 2%R \/ d = 3%R -> lbda <> 0%R -> photon c h lbda E ->
  (0 < E < Eg)%R -> b <> (E ^ 2)%R ->
  exists L delta, (0 < delta)%R /\ forall Rb, (0 < Rb < delta)%R ->
    exists v : R, tanguy c h A d 0 Rb Eg a b lbda = Some (RtoC v) /\
      (Rabs (v - (1 + a / (b - E ^ 2) + free_pairs A d Eg E)) <= L * sqrt Rb)%R.
Proof.
  intros c h A d Eg a b lbda E D N P HE B. exists (weak_L A Eg E), (Rmin 1 ((Eg - E) / 16)). split; [apply Rmin_pos; lra|].
  intros Rb [R0 R1]. assert (M1 := Rmin_l 1 ((Eg - E) / 16)). assert (M2 := Rmin_r 1 ((Eg - E) / 16)).
  exists (rtanguy A d Rb Eg a b E). split; [|apply weak_bound; try assumption; lra].
  apply tanguy_real; try assumption; try (intros K; apply B; symmetry; exact K).
  - unfold stable. destruct D as [-> | ->]; lra.
  - intros k K. assert (KP := pos_INR k). assert (X : (rxsi Rb Eg E < 1 / 2)%R).
    { unfold rxsi. replace (1 / 2)%R with (sqrt ((1 / 2) * (1 / 2))) by (apply sqrt_square; lra). apply sqrt_lt_1_alt. split; [left; apply Rdiv_lt_0_compat; lra|].
      apply Rmult_lt_reg_r with (Eg - E)%R; [lra|]. replace (Rb / (Eg - E) * (Eg - E))%R with Rb by (field; lra). lra. }
    destruct D as [-> | ->]; lra.
Qed.
Print Assumptions C101_weak_binding.

(** The default parameters: bound states at 0.9 eV, 0.975 eV, ... *)
Example C101_example : let c := 1%R in let h := 1%R in
  stable 3 0.1 1 /\ bound_state 3 0.1 1 0.9 /\ bound_state 3 0.1 1 0.975 /\ ~ bound_state 3 0.1 1 0.5 /\
  photon c h (10 ^ 9 / 0.9) 0.9 /\ tanguy c h 1 3 0 0.1 1 0 0 (10 ^ 9 / 0.9) = None /\
  (exists v : R, tanguy c h 1 3 0 0.1 1 0 0 (10 ^ 9 / 0.5) = Some (RtoC v)) /\
  (exists v, tanguy c h 1 3 0.1 0.1 1 0 0 (10 ^ 9 / 0.9) = Some v /\ (0 < snd v)%R).
Proof.
  cbv zeta. assert (S : stable 3 0.1 1) by (unfold stable; lra).
  assert (B : bound_state 3 0.1 1 0.9) by (exists 0%nat; simpl; lra).
  assert (NB : ~ bound_state 3 0.1 1 0.5).
  { intros [n E]. assert (K := pos_INR n). assert (Q : (0.1 / (INR n + (3 - 1) / 2) ^ 2 <= 0.1 / 1)%R).
    { apply Rmult_le_compat_l; [lra|]. apply Rinv_le_contravar; [lra|]. nra. }
    lra. }
  assert (P9 : photon 1 1 (10 ^ 9 / 0.9) 0.9) by (unfold photon; lra).
  assert (P5 : photon 1 1 (10 ^ 9 / 0.5) 0.5) by (unfold photon; lra).
  split; [exact S|]. split; [exact B|]. split; [exists 1%nat; simpl; lra|]. split; [exact NB|]. split; [exact P9|]. split; [|split].
  - apply (C101_below 1 1 1 3 0.1 1 0 0 _ 0.9); try assumption; lra.
  - apply (C101_below 1 1 1 3 0.1 1 0 0 _ 0.5); try assumption; lra.
  - apply (C101_passive 1 1 1 3 0.1 0.1 1 0 0 _ 0.9); try assumption; lra.
Qed.

(** and the ground state of three dimensions with Rb = 1/4, Eg = 1 at 3/4 eV has the strength 8/9 *)
Example C101_strength_example : stable 3 (1 / 4) 1 /\ strength 1 3 (1 / 4) 1 0 = (8 / 9)%R.
Proof.
  split; [unfold stable; lra|]. unfold strength. simpl (INR 0).
  replace (Rpower (1 / 4) (3 / 2)) with (1 / 8)%R; [field|].
  replace (3 / 2)%R with (1 + / 2)%R by field. rewrite Rpower_plus, Rpower_1, Rpower_sqrt by lra.
  replace (1 / 4)%R with ((1 / 2) * (1 / 2))%R by field. rewrite sqrt_square by lra. field.
Qed.

(** Free pairs with the gap 1 at the energy 3/5: 2 - sqrt (2/5) - sqrt (8/5) in three dimensions and a
    logarithm in two *)
Example C101_weak_example : photon 1 1 (10 ^ 9 / 0.6) 0.6 /\ free_pairs 0.36 2 1 0.6 = ln (25 / 16).
Proof.
  split; [unfold photon; lra|]. unfold free_pairs. destruct (Req_EM_T 2 3) as [K|_]; [lra|].
  replace (1 ^ 2 / (1 ^ 2 - 0.6 ^ 2))%R with (25 / 16)%R by lra. replace (0.36 / 0.6 ^ 2)%R with 1%R by lra. ring.
Qed.
