(** Lemmas for the static sum rule. *)
From Coq Require Import Reals Lra Psatz.
From Coquelicot Require Import Coquelicot.
From Coq Require Import List.
From Verif.Base Require Import Py Cx.
From Verif.Model Require Import Units Dispersions.
From Verif.Spec Require Import Causal Strength Static.
From Verif.Proof Require Import UnitsP DispersionsP DispersionsP2 CausalP CausalP2 GaussP GaussP2 StrengthP.
Import ListNotations.
Open Scope R_scope.

Section Static.
Variables E g : R.
Hypothesis HE : 0 < E.
Hypothesis Hg : 0 < g.
Definition sf x := g / ((E ^ 2 - x ^ 2) ^ 2 + (g * x) ^ 2).
Lemma sf_cont (x : R) : continuous sf x.
Proof. apply (ex_derive_continuous (K := R_AbsRing) (V := R_NormedModule)). assert (L := l_den E g HE Hg x). unfold sf. auto_derive. repeat split; trivial. cbn in L. lra. Qed.
Definition sq (x : R) : R := RInt (V := R_CompleteNormedModule) sf 0 x.
Lemma sq_der x : is_derive sq x (sf x).
Proof.
  apply (is_derive_RInt (V := R_NormedModule) sf sq 0 x); [|apply sf_cont]. exists (mkposreal 1 Rlt_0_1). intros y _. apply (RInt_correct (V := R_CompleteNormedModule)).
  apply (ex_RInt_continuous (V := R_CompleteNormedModule)). intros; apply sf_cont.
Qed.
Lemma sq_0 : sq 0 = 0.
Proof. unfold sq. now rewrite RInt_point. Qed.
Definition sH x := sq x + / E ^ 2 * lp E g (E ^ 2 / x).
Lemma sH_der x : 0 < x -> is_derive sH x 0.
Proof.
  intros Hx. assert (L := l_den E g HE Hg x).
  assert (D2 : is_derive (fun x => lp E g (E ^ 2 / x)) x (- (E ^ 2 / x ^ 2) * lf E g x)).
  { rewrite <- (lf_sym E g HE Hg x Hx). apply (is_derive_comp (V := R_NormedModule) (lp E g) (fun x => E ^ 2 / x) x); [now apply lp_der|]. auto_derive; [lra|field; lra]. }
  assert (Q := der_plus _ _ _ _ _ (sq_der x) (der_scal (/ E ^ 2) _ _ _ D2)).
  replace 0 with (sf x + / E ^ 2 * (- (E ^ 2 / x ^ 2) * lf E g x)); [exact Q|].
  unfold sf, lf. set (d := (E ^ 2 - x ^ 2) ^ 2 + (g * x) ^ 2) in *. clearbody d. field. repeat split; lra.
Qed.
Lemma sH_const a b : 0 < a -> 0 < b -> sH b = sH a.
Proof.
  intros Ha Hb. destruct (MVT_gen sH a b (fun _ => 0)) as (c & Hc & Eq).
  - intros x Hx. apply sH_der. assert (Q := Rmin_glb_lt a b 0 Ha Hb). lra.
  - intros x Hx. apply derivable_continuous_pt. exists 0. apply is_derive_Reals, sH_der. assert (Q := Rmin_glb_lt a b 0 Ha Hb). lra.
  - lra.
Qed.
Lemma sH_value b : 0 < b -> sH b = PI / 2 / E ^ 2.
Proof.
  intros Hb. assert (E2 : 0 < E ^ 2) by now apply pow_lt.
  destruct (Req_dec (sH b) (PI / 2 / E ^ 2)) as [|N]; [assumption|exfalso]. set (w := Rabs (sH b - PI / 2 / E ^ 2)). assert (W : 0 < w) by (apply Rabs_pos_lt; lra).
  assert (C0 : continuous sq 0) by (apply (ex_derive_continuous (K := R_AbsRing) (V := R_NormedModule)); eexists; apply sq_der).
  assert (C1 : locally 0 (fun y => ball (sq 0) (w / 2) (sq y))) by (apply C0; exists (mkposreal (w / 2) ltac:(lra)); auto). destruct C1 as [s Hs].
  destruct (lp_limit E g HE Hg (E ^ 2 * (w / 2))) as (M0 & K); [apply Rmult_lt_0_compat; lra|].
  set (y := Rmin (s / 2) (E ^ 2 / (Rabs M0 + 1))). assert (A0 := Rabs_pos M0). assert (A1 := Rle_abs M0). assert (S0 := cond_pos s).
  assert (Y0 : 0 < y) by (apply Rmin_glb_lt; [lra|apply Rdiv_lt_0_compat; lra]).
  assert (Y1 : y < s) by (assert (Q := Rmin_l (s / 2) (E ^ 2 / (Rabs M0 + 1))); fold y in Q; lra).
  assert (Y2 : M0 < E ^ 2 / y).
  { assert (Q := Rmin_r (s / 2) (E ^ 2 / (Rabs M0 + 1))). fold y in Q. apply (Rmult_lt_reg_r y); [exact Y0|]. unfold Rdiv at 1. rewrite Rmult_assoc, Rinv_l by lra.
    apply (Rmult_le_compat_r (Rabs M0 + 1)) in Q; [|lra]. unfold Rdiv in Q. rewrite Rmult_assoc, Rinv_l in Q by lra. nra. }
  specialize (Hs y). specialize (K _ Y2). assert (B : Rabs (sq y - sq 0) < w / 2) by (apply Hs; change (Rabs (y - 0) < s); rewrite Rminus_0_r, Rabs_pos_eq; lra).
  rewrite sq_0, Rminus_0_r in B. assert (X : w < w).
  { unfold w at 1. rewrite (sH_const y b Y0 Hb). unfold sH.
    replace (sq y + / E ^ 2 * lp E g (E ^ 2 / y) - PI / 2 / E ^ 2) with (sq y + / E ^ 2 * (lp E g (E ^ 2 / y) - PI / 2)) by (field; lra).
    eapply Rle_lt_trans; [apply Rabs_triang|]. assert (I := Rinv_0_lt_compat _ E2). rewrite Rabs_mult, (Rabs_pos_eq (/ E ^ 2)) by lra.
    apply (Rmult_lt_compat_l (/ E ^ 2)) in K; [|exact I]. rewrite <- Rmult_assoc, Rinv_l, Rmult_1_l in K by lra. lra. }
  lra.
Qed.
Lemma sq_limit eps : 0 < eps -> exists M0, forall M, M0 < M -> Rabs (sq M - PI / 2 / E ^ 2) < eps.
Proof.
  set (H := fun y => PI / 2 / E ^ 2 - / E ^ 2 * lp E g (E ^ 2 * y)).
  assert (H0 : H 0 = PI / 2 / E ^ 2) by (unfold H; rewrite Rmult_0_r, lp_0; ring).
  rewrite <- H0. revert eps. apply (at_infinity sq H 1).
  - apply (ex_derive_continuous (K := R_AbsRing) (V := R_NormedModule)). unfold H. eexists. apply der_minus; [apply (is_derive_const (V := R_NormedModule))|]. apply der_scal.
    apply (is_derive_comp (V := R_NormedModule) (lp E g) (fun y => E ^ 2 * y) 0); [now apply lp_der|]. auto_derive; [trivial|reflexivity].
  - intros M HM. assert (Q := sH_value M ltac:(lra)). unfold sH in Q. unfold H. change (E ^ 2 * / M) with (E ^ 2 / M). lra.
Qed.
End Static.

Lemma sum_static A E g : 0 < E -> 0 < g -> sum_rule (fun x => lo_im A E g x / x ^ 2) (PI / 2 * (A / E ^ 2)).
Proof.
  intros HE Hg. assert (E2 : 0 < E ^ 2) by now apply pow_lt. replace (PI / 2 * (A / E ^ 2)) with (A * (PI / 2 / E ^ 2) - A * sq E g 0) by (rewrite sq_0; field; lra).
  apply (sum_primitive _ (fun x => A * sf E g x) (fun x => A * sq E g x) 0 (A * (PI / 2 / E ^ 2))); [lra|intros x Hx; lra| | | |].
  - intros x Hx. unfold lo_im, sf. assert (L := l_den E g HE Hg x). field. lra.
  - intros x _. apply (continuous_mult (K := R_AbsRing) (fun _ => A) (sf E g)); [apply continuous_const|now apply sf_cont].
  - intros x _. apply der_scal. now apply sq_der.
  - intros eps He. destruct (sq_limit E g HE Hg (eps / (Rabs A + 1))) as (M0 & K); [apply Rdiv_lt_0_compat; [exact He|]; assert (Q := Rabs_pos A); lra|]. exists M0. intros M HM. specialize (K M HM).
    replace (A * sq E g M - A * (PI / 2 / E ^ 2)) with (A * (sq E g M - PI / 2 / E ^ 2)) by ring. rewrite Rabs_mult. assert (Q := Rabs_pos A). set (y := Rabs (sq E g M - PI / 2 / E ^ 2)) in *.
    assert (Y : 0 <= y) by apply Rabs_pos. apply (Rmult_lt_compat_l (Rabs A + 1)) in K; [|lra]. replace ((Rabs A + 1) * (eps / (Rabs A + 1))) with eps in K by (field; lra). nra.
Qed.

(** The sum over the oscillators *)
Definition good (rep : list (R * R * R)) := forall t, In t rep -> let '(A, E, g) := t in 0 < E /\ 0 < g.
Lemma lor_total rep x : good rep -> 0 < x -> exists z, osum (fun t => lor_term t x) rep = Some z /\
  fst z = total (fun '(A, E, g) => lo_re A E g x) rep /\ snd z = total (fun '(A, E, g) => lo_im A E g x) rep.
Proof.
  intros F Hx. induction rep as [|[[A E] g] rep IH]; [exists (RtoC 0); repeat split|].
  destruct IH as (z & Z & Z1 & Z2); [intros t Ht; apply F; now right|]. destruct (F (A, E, g) (or_introl eq_refl)) as [H1 H2].
  rewrite osum_cons. destruct (lor_term (A, E, g) x) as [w|] eqn:W; [|exfalso; now apply (lor_defined A E g x H2 Hx)]. rewrite Z. cbn [obind].
  exists (w + z)%C. split; [reflexivity|]. apply lor_parts in W. destruct W as [W1 W2]. cbn [total]. rewrite <- Z1, <- Z2, <- W1, <- W2. split; reflexivity.
Qed.
Lemma sum_static_total rep : good rep -> sum_rule (fun x => total (fun '(A, E, g) => lo_im A E g x) rep / x ^ 2) (PI / 2 * total (fun '(A, E, g) => A / E ^ 2) rep).
Proof.
  intros F. induction rep as [|[[A E] g] rep IH]; cbn [total].
  - rewrite Rmult_0_r. apply (sum_ext (fun _ => 0) _ 0); [intros x Hx _; field; lra|apply sum_zero].
  - destruct (F (A, E, g) (or_introl eq_refl)) as [H1 H2]. rewrite Rmult_plus_distr_l.
    eapply (sum_ext _ _ 0); [|apply sum_plus; [apply (sum_static A E g H1 H2)|apply IH; intros t Ht; apply F; now right]]. intros x Hx _. cbv beta. field. lra.
Qed.
Lemma static_of_sum e2 e2' S : (forall x, 0 < x -> e2 x = e2' x) -> sum_rule (fun x => e2' x / x ^ 2) (PI / 2 * S) -> static_rule e2 S.
Proof.
  intros X H eps He. assert (P := PI_RGT_0). destruct (H (PI / 2 * eps)) as (M0 & K); [apply Rmult_lt_0_compat; lra|]. exists (Rmax M0 0). intros M HM.
  assert (M0 < M) by (eapply Rle_lt_trans; [apply Rmax_l|exact HM]). assert (0 < M) by (eapply Rle_lt_trans; [apply Rmax_r|exact HM]).
  destruct (K M) as (u & I & B); [assumption|]. exists u. split.
  - eapply (is_RInt_ext (V := R_NormedModule)); [|exact I]. intros x Hx. rewrite Rmin_left in Hx by lra. rewrite X by lra. change (x * (e2' x / x ^ 2) = e2' x / x). field. lra.
  - apply (Rmult_lt_reg_l (PI / 2)); [lra|]. rewrite <- (Rabs_pos_eq (PI / 2)) at 1 by lra. rewrite <- Rabs_mult. replace (PI / 2 * (2 / PI * u - S)) with (u - PI / 2 * S) by (field; lra). exact B.
Qed.

(** The limit of long wavelengths *)
Lemma static_limit rep : good rep -> forall eta, 0 < eta -> exists s, 0 < s /\ forall x, 0 < x < s ->
  Rabs (total (fun '(A, E, g) => lo_re A E g x) rep - total (fun '(A, E, g) => A / E ^ 2) rep) < eta /\ Rabs (total (fun '(A, E, g) => lo_im A E g x) rep) < eta.
Proof.
  intros F. induction rep as [|[[A E] g] rep IH]; intros eta He; cbn [total].
  - exists 1. split; [lra|]. intros x _. rewrite Rminus_0_r, Rabs_R0. lra.
  - destruct (F (A, E, g) (or_introl eq_refl)) as [H1 H2]. destruct (IH ltac:(intros t Ht; apply F; now right) (eta / 2) ltac:(lra)) as (s & S0 & K).
    assert (N := l_den E g H1 H2 0). assert (E2 : 0 < E ^ 2) by now apply pow_lt.
    assert (C1 : continuous (lo_re A E g) 0) by (apply (ex_derive_continuous (K := R_AbsRing) (V := R_NormedModule)); unfold lo_re; auto_derive; cbn in N |- *; lra).
    assert (C2 : continuous (lo_im A E g) 0) by (apply (ex_derive_continuous (K := R_AbsRing) (V := R_NormedModule)); unfold lo_im; auto_derive; cbn in N |- *; lra).
    assert (L1 : locally 0 (fun y => ball (lo_re A E g 0) (eta / 2) (lo_re A E g y))) by (apply C1; exists (mkposreal (eta / 2) ltac:(lra)); auto). destruct L1 as [s1 L1].
    assert (L2 : locally 0 (fun y => ball (lo_im A E g 0) (eta / 2) (lo_im A E g y))) by (apply C2; exists (mkposreal (eta / 2) ltac:(lra)); auto). destruct L2 as [s2 L2].
    replace (lo_re A E g 0) with (A / E ^ 2) in L1 by (unfold lo_re; field; lra). replace (lo_im A E g 0) with 0 in L2 by (unfold lo_im; field; cbn in N |- *; lra).
    exists (Rmin s (Rmin s1 s2)). split; [repeat apply Rmin_glb_lt; try apply cond_pos; exact S0|]. intros x [X0 X].
    assert (X1 : x < s) by (eapply Rlt_le_trans; [exact X|apply Rmin_l]). assert (X2 : x < s1) by (eapply Rlt_le_trans; [exact X|eapply Rle_trans; [apply Rmin_r|apply Rmin_l]]).
    assert (X3 : x < s2) by (eapply Rlt_le_trans; [exact X|eapply Rle_trans; [apply Rmin_r|apply Rmin_r]]).
    destruct (K x ltac:(lra)) as [K1 K2]. 
    assert (B1 : Rabs (lo_re A E g x - A / E ^ 2) < eta / 2) by (apply L1; change (Rabs (x - 0) < s1); rewrite Rminus_0_r, Rabs_pos_eq; lra).
    assert (B2 : Rabs (lo_im A E g x - 0) < eta / 2) by (apply L2; change (Rabs (x - 0) < s2); rewrite Rminus_0_r, Rabs_pos_eq; lra). rewrite Rminus_0_r in B2.
    split.
    + match goal with |- Rabs (?a + ?b - (?c + ?d)) < _ => replace (a + b - (c + d)) with ((a - c) + (b - d)) by ring end. eapply Rle_lt_trans; [apply Rabs_triang|]. lra.
    + eapply Rle_lt_trans; [apply Rabs_triang|]. lra.
Qed.
