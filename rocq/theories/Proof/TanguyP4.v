(** Weak binding, for C101. *)
From Coq Require Import Reals ZArith Lra Lia Psatz.
From Coquelicot Require Import Coquelicot.
From Verif.Base Require Import Py Cx Special.
From Verif.Model Require Import Units Dispersions Tanguy.
From Verif.Spec Require Import Exciton.
From Verif.Proof Require Import DispersionsP SpecialP TanguyP TanguyP3.
Open Scope R_scope.

Definition psi_L : R := Series (fun k => / (INR k + 1 / 4) ^ 2).
Lemma psi_L_conv : ex_series (fun k => / (INR k + 1 / 4) ^ 2).
Proof.
  apply (quadratic_series _ 4 1). intros k Hk. assert (K : 1 <= INR k) by (change 1 with (INR 1); apply le_INR; exact Hk).
  rewrite Rabs_pos_eq by (left; apply Rinv_0_lt_compat, pow_lt; lra).
  replace (4 * / ((INR k + 1) * (INR k + 1))) with (/ (((INR k + 1) / 2) * ((INR k + 1) / 2))) by (field; lra). apply Rinv_le_contravar; nra.
Qed.
Lemma psi_lip x y : 1 / 4 <= x -> x <= y -> 0 <= rpsi y - rpsi x <= psi_L * (y - x).
Proof.
  intros X Y. split; [assert (M := rpsi_mono x y ltac:(lra) Y); lra|].
  assert (CX := rpsi_conv x (pos_no_pole x ltac:(lra))). assert (CY := rpsi_conv y (pos_no_pole y ltac:(lra))). unfold rpsi, psi_L.
  rewrite Rmult_comm, <- Series_scal_l.
  replace (Series (fun k => / (INR k + 1) - / (INR k + y)) - euler_gamma - (Series (fun k => / (INR k + 1) - / (INR k + x)) - euler_gamma)) with
    (Series (fun k => (/ (INR k + 1) - / (INR k + y)) - (/ (INR k + 1) - / (INR k + x)))) by (rewrite Series_minus by assumption; ring).
  apply Series_le.
  - intros k. assert (K := pos_INR k). replace (/ (INR k + 1) - / (INR k + y) - (/ (INR k + 1) - / (INR k + x))) with ((y - x) * / ((INR k + x) * (INR k + y))) by (field; lra).
    assert (P : 0 < / ((INR k + x) * (INR k + y))) by (apply Rinv_0_lt_compat; nra). split; [nra|]. apply Rmult_le_compat_l; [lra|]. apply Rinv_le_contravar; [nra|nra].
  - exact (ex_series_scal_l (y - x) _ psi_L_conv).
Qed.
Lemma psi_lip_abs x y : 1 / 4 <= x -> 1 / 4 <= y -> Rabs (rpsi x - rpsi y) <= psi_L * Rabs (x - y).
Proof.
  intros X Y. destruct (Rle_dec x y) as [L|L].
  - destruct (psi_lip x y X L) as [A B]. rewrite !Rabs_minus_sym with (x := rpsi x), Rabs_minus_sym with (x := x), !Rabs_pos_eq by lra. exact B.
  - destruct (psi_lip y x Y ltac:(lra)) as [A B]. rewrite !Rabs_pos_eq by lra. exact B.
Qed.
Lemma psi_L_pos : 0 <= psi_L.
Proof. destruct (psi_lip 1 2) as [A B]; [lra..|]. lra. Qed.

Section Weak.
Variables (A d Eg E : R).
Hypothesis D : d = 2 \/ d = 3.
Hypothesis HE : 0 < E < Eg.
Definition weak_L : R := Rabs A / E ^ 2 * (Rabs (ln (Eg ^ 2 / (Eg ^ 2 - E ^ 2))) + 8 * psi_L * / sqrt (Eg - E) + 8 * psi_L).

Lemma ln_xsi Rb e : 0 < Rb -> e < Eg -> 2 * ln (rxsi Rb Eg e) = ln Rb - ln (Eg - e).
Proof.
  intros HR H. assert (P : 0 < Rb / (Eg - e)) by (apply Rdiv_lt_0_compat; lra). assert (S : 0 < sqrt (Rb / (Eg - e))) by now apply sqrt_lt_R0.
  unfold rxsi. rewrite <- ln_div by lra. rewrite <- (sqrt_sqrt (Rb / (Eg - e))) at 2 by lra. rewrite ln_mult by assumption. ring.
Qed.
Lemma ln_sum Rb : 0 < Rb -> 2 * ln (rxsi Rb Eg E) + 2 * ln (rxsi Rb Eg (- E)) - 2 * (2 * ln (rxsi Rb Eg 0)) = ln (Eg ^ 2 / (Eg ^ 2 - E ^ 2)).
Proof.
  intros HR. rewrite !ln_xsi by lra. rewrite ln_div by nra. replace (Eg ^ 2 - E ^ 2) with ((Eg - E) * (Eg - - E)) by ring. rewrite ln_mult by lra. replace (Eg ^ 2) with (Eg * Eg) by ring. rewrite ln_mult by lra. rewrite Rminus_0_r. ring.
Qed.
Lemma inv_xsi Rb e : 0 < Rb -> e < Eg -> sqrt Rb * / rxsi Rb Eg e = sqrt (Eg - e).
Proof.
  intros HR H. unfold rxsi. assert (S : 0 < sqrt Rb) by now apply sqrt_lt_R0. assert (S2 : 0 < sqrt (Eg - e)) by (apply sqrt_lt_R0; lra).
  rewrite sqrt_div by lra. field. lra.
Qed.
Lemma weak_bound a b Rb : 0 < Rb -> Rb < (Eg - E) / 16 -> Rb < 1 ->
  Rabs (rtanguy A d Rb Eg a b E - (1 + a / (b - E ^ 2) + free_pairs A d Eg E)) <= weak_L * sqrt Rb.
Proof.
  intros HR H16 H1. assert (S : 0 < sqrt Rb) by now apply sqrt_lt_R0.
  assert (S1 : sqrt Rb <= 1) by (rewrite <- sqrt_1; apply sqrt_le_1_alt; lra).
  assert (SE : 0 < sqrt (Eg - E)) by (apply sqrt_lt_R0; lra).
  assert (X1 : 0 < rxsi Rb Eg E <= 1 / 4).
  { split; [apply sqrt_lt_R0, Rdiv_lt_0_compat; lra|]. unfold rxsi. replace (1 / 4) with (sqrt ((1 / 4) * (1 / 4))) by (apply sqrt_square; lra). apply sqrt_le_1_alt.
    apply Rmult_le_reg_r with (Eg - E); [lra|]. replace (Rb / (Eg - E) * (Eg - E)) with Rb by (field; lra). lra. }
  assert (MON : forall e, e <= E -> 0 < rxsi Rb Eg e <= rxsi Rb Eg E).
  { intros e He. split; [apply sqrt_lt_R0, Rdiv_lt_0_compat; lra|]. apply sqrt_le_1_alt. apply Rmult_le_compat_l; [lra|]. apply Rinv_le_contravar; lra. }
  assert (X2 := MON (- E) ltac:(lra)). assert (X0 := MON 0 ltac:(lra)).
  assert (C4 : 1 / 2 <= (d - 1) / 2) by (destruct D; lra).
  set (c := (d - 1) / 2) in *.
  assert (LP := psi_L_pos).
  assert (PS : Rabs (rpsi (c - rxsi Rb Eg E) + rpsi (c - rxsi Rb Eg (- E)) - 2 * rpsi (c - rxsi Rb Eg 0)) <= 2 * psi_L * rxsi Rb Eg E).
  { assert (P1 := psi_lip_abs (c - rxsi Rb Eg E) (c - rxsi Rb Eg 0) ltac:(lra) ltac:(lra)). assert (P2 := psi_lip_abs (c - rxsi Rb Eg (- E)) (c - rxsi Rb Eg 0) ltac:(lra) ltac:(lra)).
    replace (rpsi (c - rxsi Rb Eg E) + rpsi (c - rxsi Rb Eg (- E)) - 2 * rpsi (c - rxsi Rb Eg 0)) with ((rpsi (c - rxsi Rb Eg E) - rpsi (c - rxsi Rb Eg 0)) + (rpsi (c - rxsi Rb Eg (- E)) - rpsi (c - rxsi Rb Eg 0))) by ring.
    eapply Rle_trans; [apply Rabs_triang|].
    assert (Q1 : Rabs (c - rxsi Rb Eg E - (c - rxsi Rb Eg 0)) <= rxsi Rb Eg E) by (apply Rabs_le; lra).
    assert (Q2 : Rabs (c - rxsi Rb Eg (- E) - (c - rxsi Rb Eg 0)) <= rxsi Rb Eg E) by (apply Rabs_le; lra).
    apply Rmult_le_compat_l with (r := psi_L) in Q1; [|exact LP]. apply Rmult_le_compat_l with (r := psi_L) in Q2; [|exact LP]. lra. }
  assert (XS : rxsi Rb Eg E = sqrt Rb * / sqrt (Eg - E)) by (unfold rxsi; rewrite sqrt_div by lra; reflexivity).
  set (ps := rpsi (c - rxsi Rb Eg E) + rpsi (c - rxsi Rb Eg (- E)) - 2 * rpsi (c - rxsi Rb Eg 0)) in *.
  assert (LS := ln_sum Rb HR). set (lg := ln (Eg ^ 2 / (Eg ^ 2 - E ^ 2))) in *.
  assert (IE : 0 < / sqrt (Eg - E)) by now apply Rinv_0_lt_compat.
  assert (AE : 0 <= Rabs A / E ^ 2) by (apply Rmult_le_pos; [apply Rabs_pos|left; apply Rinv_0_lt_compat, pow_lt; lra]).
  assert (AbsA : Rabs (A / E ^ 2) = Rabs A / E ^ 2) by (unfold Rdiv; rewrite Rabs_mult, (Rabs_pos_eq (/ E ^ 2)) by (left; apply Rinv_0_lt_compat, pow_lt; lra); reflexivity).
  destruct D as [D2|D3].
  - assert (W : Rpower Rb (d / 2 - 1) = 1) by (rewrite D2; replace (2 / 2 - 1) with 0 by field; apply Rpower_O; exact HR).
    assert (EQ : rtanguy A d Rb Eg a b E - (1 + a / (b - E ^ 2) + free_pairs A d Eg E) = A / E ^ 2 * (- 2 * ps)).
    { unfold rtanguy, free_pairs. destruct (Req_EM_T d 3) as [K|_]; [lra|]. rewrite W. fold lg. rewrite <- LS. unfold rg. fold c. unfold ps. replace (d - 2) with 0 by lra.
      set (s := a / (b - E ^ 2)). field. lra. }
    rewrite EQ, Rabs_mult, AbsA. unfold weak_L. fold lg. rewrite Rmult_assoc. apply Rmult_le_compat_l; [exact AE|].
    replace (-2 * ps) with (- (2 * ps)) by ring. rewrite Rabs_Ropp, Rabs_mult, (Rabs_pos_eq 2) by lra. rewrite XS in PS.
    assert (P0 := Rabs_pos lg). assert (M1 : 0 <= psi_L * / sqrt (Eg - E)) by (apply Rmult_le_pos; lra). nra.
  - assert (W : Rpower Rb (d / 2 - 1) = sqrt Rb) by (rewrite D3; replace (3 / 2 - 1) with (/ 2) by field; apply Rpower_sqrt; exact HR).
    assert (I1 := inv_xsi Rb E HR ltac:(lra)). assert (I2 := inv_xsi Rb (- E) HR ltac:(lra)). assert (I0 := inv_xsi Rb 0 HR ltac:(lra)).
    replace (Eg - - E) with (Eg + E) in I2 by ring. rewrite Rminus_0_r in I0.
    assert (EQ : rtanguy A d Rb Eg a b E - (1 + a / (b - E ^ 2) + free_pairs A d Eg E) = A / E ^ 2 * (sqrt Rb * (lg - 2 * ps))).
    { unfold rtanguy, free_pairs. destruct (Req_EM_T d 3) as [_|K]; [|lra]. rewrite W. rewrite <- LS, <- I0, <- I1, <- I2. unfold rg. fold c. unfold ps. replace (d - 2) with 1 by lra.
      set (s := a / (b - E ^ 2)). field. lra. }
    rewrite EQ, Rabs_mult, AbsA. unfold weak_L. fold lg. rewrite Rmult_assoc. apply Rmult_le_compat_l; [exact AE|].
    rewrite Rabs_mult, (Rabs_pos_eq (sqrt Rb)) by lra. rewrite (Rmult_comm (_ + _)). apply Rmult_le_compat_l; [lra|].
    unfold Rminus. eapply Rle_trans; [apply Rabs_triang|]. rewrite Rabs_Ropp, Rabs_mult, (Rabs_pos_eq 2) by lra.
    assert (M1 : 0 <= psi_L * / sqrt (Eg - E)) by (apply Rmult_le_pos; lra).
    assert (M2 : psi_L * rxsi Rb Eg E <= psi_L * (1 / 4)) by (apply Rmult_le_compat_l; lra). fold (Eg - E). lra.
Qed.
End Weak.
