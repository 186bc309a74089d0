(** Integrals for Spec/Causal.v *)
From Coq Require Import Reals Lra Psatz.
From Coquelicot Require Import Coquelicot.
From Verif.Spec Require Import Causal.
Open Scope R_scope.

Lemma is_RInt_zero u v : is_RInt (fun _ : R => 0) u v 0.
Proof. assert (H := is_RInt_const (V := R_NormedModule) u v 0). exact (eq_ind _ (fun y => is_RInt (fun _ : R => 0) u v y) H 0 (Rmult_0_r (v - u))). Qed.

(** From a primitive S + k ln (x - E)^2 of the integrand above the threshold a *)
Lemma kk_primitive (e2 f S : R -> R) (k E a L : R) : 0 < E -> 0 <= a -> a <> E ->
  (forall x, 0 < x < a -> e2 x = 0) ->
  (forall x, a < x -> x <> E -> x * e2 x / (x ^ 2 - E ^ 2) = f x) ->
  (forall x, a <= x -> x <> E -> continuous f x) ->
  (forall x, a <= x -> x <> E -> is_derive (fun x => S x + k * ln ((x - E) ^ 2)) x (f x)) ->
  continuous S E ->
  (forall eps, 0 < eps -> exists M0, forall M, M0 < M -> Rabs (S M + k * ln ((M - E) ^ 2) - L) < eps) ->
  kk_transform e2 E (2 / PI * (L - (S a + k * ln ((a - E) ^ 2)))).
Proof.
  intros HE Ha Hne Z Hf Cf D CS LS. set (F := fun x => S x + k * ln ((x - E) ^ 2)) in *.
  assert (Fz : forall u v, 0 <= u -> u <= v -> v <= a -> is_RInt (fun x => x * e2 x / (x ^ 2 - E ^ 2)) u v 0).
  { intros u v Hu Huv Hv. apply (is_RInt_ext (fun _ => 0)). { intros x Hx. rewrite Rmin_left, Rmax_right in Hx by exact Huv. rewrite Z by lra. change (@eq R 0 (x * 0 / (x ^ 2 - E ^ 2))). unfold Rdiv. ring. } apply is_RInt_zero. }
  assert (Ff : forall u v, a <= u -> u <= v -> (v < E \/ E < u) -> is_RInt (fun x => x * e2 x / (x ^ 2 - E ^ 2)) u v (F v - F u)).
  { intros u v Hu Huv Hs. apply (is_RInt_ext f). { intros x Hx. rewrite Rmin_left, Rmax_right in Hx by exact Huv. symmetry. apply Hf; lra. }
    apply (is_RInt_derive (V := R_CompleteNormedModule) F f); intros x Hx; rewrite Rmin_left, Rmax_right in Hx by exact Huv; [apply D|apply Cf]; lra. }
  assert (J : forall eps, 0 < eps -> exists s, 0 < s /\ forall d, 0 < d < s -> Rabs (F (E - d) - F (E + d)) < eps).
  { intros eps He. assert (C1 : locally E (fun y => ball (S E) (eps / 2) (S y))) by (apply CS; exists (mkposreal (eps / 2) ltac:(lra)); auto). destruct C1 as [s Hs]. exists s. split; [apply cond_pos|]. intros d Hd.
    assert (B1 := Hs (E - d)). assert (B2 := Hs (E + d)). unfold ball in B1, B2. cbn in B1, B2. unfold AbsRing_ball, abs, minus, plus, opp in B1, B2. cbn in B1, B2.
    replace (E - d + - E) with (- d) in B1 by ring. replace (E + d + - E) with d in B2 by ring. rewrite Rabs_Ropp in B1. rewrite (Rabs_pos_eq d) in B1, B2 by lra. specialize (B1 (proj2 Hd)). specialize (B2 (proj2 Hd)).
    unfold F. replace ((E - d - E) ^ 2) with ((E + d - E) ^ 2) by ring. replace (S (E - d) + k * ln ((E + d - E) ^ 2) - (S (E + d) + k * ln ((E + d - E) ^ 2))) with ((S (E - d) + - S E) - (S (E + d) + - S E)) by ring.
    eapply Rle_lt_trans; [apply Rabs_triang|]. rewrite Rabs_Ropp. lra. }
  assert (P := PI_RGT_0).
  intros eps He. set (e' := eps * PI / 4). assert (He' : 0 < e') by (unfold e'; apply Rmult_lt_0_compat; [apply Rmult_lt_0_compat|]; lra).
  destruct (LS e' He') as [M1 HM1]. destruct (J e' He') as [s1 [Hs1 HJ]].
  assert (Fin : forall t V W, Rabs t < 2 * e' -> 2 / PI * V = W + 2 / PI * t -> Rabs (2 / PI * V - W) < eps).
  { intros t V W Ht HV. replace (2 / PI * V - W) with (2 / PI * t) by lra. rewrite Rabs_mult, Rabs_pos_eq by (apply Rlt_le, Rdiv_lt_0_compat; lra). replace eps with (2 / PI * (2 * e')) by (unfold e'; field; lra). apply Rmult_lt_compat_l; [apply Rdiv_lt_0_compat; lra|exact Ht]. }
  destruct (Rlt_dec a E) as [HaE|HaE].
  - exists (Rmin s1 (E - a)), (Rmax M1 (2 * E)). split; [apply Rmin_glb_lt; lra|]. intros d M [Hd0 Hd] HM. assert (Hd1 : d < s1) by (eapply Rlt_le_trans; [exact Hd|apply Rmin_l]). assert (Hd2 : d < E - a) by (eapply Rlt_le_trans; [exact Hd|apply Rmin_r]). assert (M1 < M) by (eapply Rle_lt_trans; [apply Rmax_l|exact HM]). assert (2 * E < M) by (eapply Rle_lt_trans; [apply Rmax_r|exact HM]).
    exists (F (E - d) - F a), (F M - F (E + d)). split; [|split].
    + rewrite <- (Rplus_0_l (F (E - d) - F a)). apply (is_RInt_Chasles (V := R_NormedModule) _ 0 a); [apply Fz; lra|apply Ff; lra].
    + apply Ff; lra.
    + apply (Fin ((F (E - d) - F (E + d)) + (F M - L))).
      * eapply Rle_lt_trans; [apply Rabs_triang|]. specialize (HM1 M ltac:(assumption)). specialize (HJ d ltac:(lra)). fold (F M) in HM1. lra.
      * fold (F a). ring.
  - exists (Rmin E (a - E)), (Rmax M1 (2 * a)). split; [apply Rmin_glb_lt; lra|]. intros d M [Hd0 Hd] HM. assert (Hd1 : d < E) by (eapply Rlt_le_trans; [exact Hd|apply Rmin_l]). assert (Hd2 : d < a - E) by (eapply Rlt_le_trans; [exact Hd|apply Rmin_r]). assert (M1 < M) by (eapply Rle_lt_trans; [apply Rmax_l|exact HM]). assert (2 * a < M) by (eapply Rle_lt_trans; [apply Rmax_r|exact HM]).
    exists 0, (F M - F a). split; [|split].
    + apply Fz; lra.
    + rewrite <- (Rplus_0_l (F M - F a)). apply (is_RInt_Chasles (V := R_NormedModule) _ (E + d) a); [apply Fz; lra|apply Ff; lra].
    + apply (Fin (F M - L)); [|fold (F a); ring]. specialize (HM1 M ltac:(assumption)). fold (F M) in HM1. lra.
Qed.

Lemma kk_plus (e e' : R -> R) E V V' : kk_transform e E V -> kk_transform e' E V' ->
  kk_transform (fun x => e x + e' x) E (V + V').
Proof.
  intros H H' eps He. destruct (H (eps / 2) ltac:(lra)) as (s & M & Hs & K). destruct (H' (eps / 2) ltac:(lra)) as (s' & M' & Hs' & K').
  exists (Rmin s s'), (Rmax M M'). split; [apply Rmin_glb_lt; assumption|]. intros d N [Hd0 Hd] HN.
  destruct (K d N) as (u & v & Hu & Hv & B); [split; [lra|eapply Rlt_le_trans; [exact Hd|apply Rmin_l]]|eapply Rle_lt_trans; [apply Rmax_l|exact HN]|].
  destruct (K' d N) as (u' & v' & Hu' & Hv' & B'); [split; [lra|eapply Rlt_le_trans; [exact Hd|apply Rmin_r]]|eapply Rle_lt_trans; [apply Rmax_r|exact HN]|].
  exists (u + u'), (v + v'). split; [|split].
  - apply (is_RInt_ext (fun x => plus (x * e x / (x ^ 2 - E ^ 2)) (x * e' x / (x ^ 2 - E ^ 2)))); [intros x _; change (@eq R (x * e x / (x ^ 2 - E ^ 2) + x * e' x / (x ^ 2 - E ^ 2)) (x * (e x + e' x) / (x ^ 2 - E ^ 2))); unfold Rdiv; ring|]. apply (is_RInt_plus (V := R_NormedModule)); assumption.
  - apply (is_RInt_ext (fun x => plus (x * e x / (x ^ 2 - E ^ 2)) (x * e' x / (x ^ 2 - E ^ 2)))); [intros x _; change (@eq R (x * e x / (x ^ 2 - E ^ 2) + x * e' x / (x ^ 2 - E ^ 2)) (x * (e x + e' x) / (x ^ 2 - E ^ 2))); unfold Rdiv; ring|]. apply (is_RInt_plus (V := R_NormedModule)); assumption.
  - replace (2 / PI * (u + u' + (v + v')) - (V + V')) with ((2 / PI * (u + v) - V) + (2 / PI * (u' + v') - V')) by ring. eapply Rle_lt_trans; [apply Rabs_triang|]. lra.
Qed.
Lemma kk_zero E : 0 < E -> kk_transform (fun _ => 0) E 0.
Proof.
  intros HE eps He. exists E, 0. split; [exact HE|]. intros d M Hd HM. exists 0, 0. assert (Z : forall u v, is_RInt (fun x => x * 0 / (x ^ 2 - E ^ 2)) u v 0).
  { intros u v. apply (is_RInt_ext (fun _ => 0)); [intros x _; change (@eq R 0 (x * 0 / (x ^ 2 - E ^ 2))); unfold Rdiv; ring|]. apply is_RInt_zero. }
  split; [apply Z|]. split; [apply Z|]. replace (2 / PI * (0 + 0) - 0) with 0 by ring. now rewrite Rabs_R0.
Qed.
(** Single points do not matter *)
Lemma kk_ext (e e' : R -> R) E p V : 0 < E -> (forall x, 0 < x -> x <> p -> e x = e' x) -> kk_transform e E V -> kk_transform e' E V.
Proof.
  intros HE X H. 
  assert (Piece : forall a b u, 0 <= a -> a <= b -> is_RInt (fun x => x * e x / (x ^ 2 - E ^ 2)) a b u -> is_RInt (fun x => x * e' x / (x ^ 2 - E ^ 2)) a b u).
  { intros a b u Ha Hab I. destruct (Rlt_dec a p) as [Hp|Hp]; [destruct (Rlt_dec p b) as [Hq|Hq]|].
    - destruct (ex_RInt_Chasles_1 (V := R_CompleteNormedModule) (fun x => x * e x / (x ^ 2 - E ^ 2)) a p b) as [w Hw]; [lra|exists u; exact I|]. destruct (ex_RInt_Chasles_2 (V := R_CompleteNormedModule) (fun x => x * e x / (x ^ 2 - E ^ 2)) a p b) as [w' Hw']; [lra|exists u; exact I|].
      assert (U : u = plus w w') by (rewrite <- (is_RInt_unique (V := R_CompleteNormedModule) _ a b _ I); apply is_RInt_unique; exact (is_RInt_Chasles (V := R_NormedModule) _ a p b _ _ Hw Hw')). rewrite U. apply (is_RInt_Chasles (V := R_NormedModule) _ a p b).
      + apply (is_RInt_ext (fun x => x * e x / (x ^ 2 - E ^ 2))); [|exact Hw]. intros x Hx. rewrite Rmin_left, Rmax_right in Hx by lra. rewrite X by lra. reflexivity.
      + apply (is_RInt_ext (fun x => x * e x / (x ^ 2 - E ^ 2))); [|exact Hw']. intros x Hx. rewrite Rmin_left, Rmax_right in Hx by lra. rewrite X by lra. reflexivity.
    - apply (is_RInt_ext (fun x => x * e x / (x ^ 2 - E ^ 2))); [|exact I]. intros x Hx. rewrite Rmin_left, Rmax_right in Hx by lra. rewrite X by lra. reflexivity.
    - apply (is_RInt_ext (fun x => x * e x / (x ^ 2 - E ^ 2))); [|exact I]. intros x Hx. rewrite Rmin_left, Rmax_right in Hx by lra. rewrite X by lra. reflexivity. }
  intros eps He. destruct (H eps He) as (s & M & Hs & K). exists (Rmin s E), (Rmax M (2 * E)). split; [apply Rmin_glb_lt; assumption|]. intros d N [Hd0 Hd] HN. assert (d < s) by (eapply Rlt_le_trans; [exact Hd|apply Rmin_l]). assert (d < E) by (eapply Rlt_le_trans; [exact Hd|apply Rmin_r]). assert (M < N) by (eapply Rle_lt_trans; [apply Rmax_l|exact HN]). assert (2 * E < N) by (eapply Rle_lt_trans; [apply Rmax_r|exact HN]).
  destruct (K d N) as (u & v & Hu & Hv & B); [lra|assumption|]. exists u, v. split; [apply Piece; [lra|lra|exact Hu]|]. split; [apply Piece; [lra|lra|exact Hv]|exact B].
Qed.

Lemma der_plus (f g : R -> R) x f' g' : is_derive f x f' -> is_derive g x g' -> is_derive (fun x => f x + g x) x (f' + g').
Proof. exact (is_derive_plus f g x f' g'). Qed.
Lemma der_minus (f g : R -> R) x f' g' : is_derive f x f' -> is_derive g x g' -> is_derive (fun x => f x - g x) x (f' - g').
Proof. exact (is_derive_minus f g x f' g'). Qed.
Lemma der_scal k (f : R -> R) x f' : is_derive f x f' -> is_derive (fun x => k * f x) x (k * f').
Proof. exact (is_derive_scal f x k f'). Qed.
Lemma der_half (f : R -> R) x f' : is_derive f x f' -> is_derive (fun x => f x / 2) x (f' / 2).
Proof. intros A. unfold Rdiv. rewrite (Rmult_comm f'). apply (is_derive_ext (fun x => / 2 * f x)); [intros t; apply Rmult_comm|]. now apply der_scal. Qed.

(** The integrals of rational functions with the denominator q+ q- (x^2 - E^2) *)
Section Under.
Variables al Cc E ka kb kc kd ke : R.
Hypothesis HC : 0 < Cc.
Hypothesis Hal : 0 < al.
Hypothesis HE : 0 < E.
Definition wq := (al ^ 2 + Cc ^ 2) / 4.
Definition qp x := x ^ 2 + al * x + wq.
Definition qm x := x ^ 2 - al * x + wq.
Definition g2 := (al ^ 2 - Cc ^ 2) / 4.
Lemma qp_pos x : 0 < qp x.
Proof. unfold qp, wq. assert (0 < Cc ^ 2) by (apply pow_lt; exact HC). assert (0 <= (x + al / 2) ^ 2) by apply pow2_ge_0. lra. Qed.
Lemma qm_pos x : 0 < qm x.
Proof. unfold qm, wq. assert (0 < Cc ^ 2) by (apply pow_lt; exact HC). assert (0 <= (x - al / 2) ^ 2) by apply pow2_ge_0. lra. Qed.

Definition Su x := ka * (ln (qp x) - ln (qm x)) + kb * (atan ((2 * x + al) / Cc) + atan ((2 * x - al) / Cc))
  + kc * atan (2 * (x ^ 2 - g2) / (al * Cc)) - kd * ln (x + E) + ke * (ln (x + E) - ln (qp x) / 2 - ln (qm x) / 2).
Definition Fu x := Su x + (kd + ke) / 2 * ln ((x - E) ^ 2).
Definition su x := ka * ((2 * x + al) / qp x - (2 * x - al) / qm x) + kb * (Cc / 2 / qp x + Cc / 2 / qm x)
  + kc * (al * Cc * x / (qp x * qm x)) - kd / (x + E) + ke * (1 / (x + E) - (2 * x + al) / qp x / 2 - (2 * x - al) / qm x / 2).
Definition fu x := su x + (kd + ke) / (x - E).

Lemma qq x : qp x * qm x = (x ^ 2 - g2) ^ 2 + al ^ 2 * Cc ^ 2 / 4.
Proof. unfold qp, qm, wq, g2. field. Qed.
Lemma Su_derive x : 0 < x + E -> is_derive Su x (su x).
Proof.
  intros Hx. assert (P := qp_pos x). assert (M := qm_pos x). assert (Q := qq x).
  assert (D1 : is_derive (fun x => ln (qp x)) x ((2 * x + al) / qp x)). { unfold qp in *. auto_derive; [replace (x * (x * 1)) with (x ^ 2) by ring; lra|]. unfold qp. field. replace (x * (x * 1)) with (x ^ 2) by ring. lra. }
  assert (D2 : is_derive (fun x => ln (qm x)) x ((2 * x - al) / qm x)). { unfold qm in *. auto_derive; [replace (x * (x * 1)) with (x ^ 2) by ring; lra|]. field. replace (x * (x * 1)) with (x ^ 2) by ring. lra. }
  assert (D3 : is_derive (fun x => atan ((2 * x + al) / Cc)) x (Cc / 2 / qp x)). { auto_derive; [lra|]. unfold qp, wq in *. field. split; lra. }
  assert (D4 : is_derive (fun x => atan ((2 * x - al) / Cc)) x (Cc / 2 / qm x)). { auto_derive; [lra|]. unfold qm, wq in *. field. split; lra. }
  assert (D5 : is_derive (fun x => atan (2 * (x ^ 2 - g2) / (al * Cc))) x (al * Cc * x / (qp x * qm x))).
  { assert (0 < al * Cc) by (apply Rmult_lt_0_compat; assumption). auto_derive; [lra|]. rewrite Q. assert (0 < al ^ 2 * Cc ^ 2) by (apply Rmult_lt_0_compat; apply pow_lt; assumption). assert (0 <= (x ^ 2 - g2) ^ 2) by apply pow2_ge_0. field. split; [rewrite Rpow_mult_distr; lra|split; lra]. }
  assert (D6 : is_derive (fun x => ln (x + E)) x (1 / (x + E))). { auto_derive; [exact Hx|]. field. lra. }
  unfold Su, su.
  replace (kd / (x + E)) with (kd * (1 / (x + E))) by (field; lra).
  apply der_plus; [apply der_minus; [apply der_plus; [apply der_plus|]|]|].
  - apply der_scal, der_minus; assumption.
  - apply der_scal, der_plus; assumption.
  - apply der_scal; assumption.
  - apply der_scal; assumption.
  - apply der_scal. apply der_minus; [apply der_minus|]; [assumption|apply der_half; assumption|apply der_half; assumption].
Qed.
Lemma Fu_derive x : 0 < x + E -> x <> E -> is_derive Fu x (fu x).
Proof.
  intros Hx Hn. unfold Fu, fu. assert (0 < (x - E) ^ 2) by (apply pow2_gt_0; lra).
  assert (D : is_derive (fun x => (kd + ke) / 2 * ln ((x - E) ^ 2)) x ((kd + ke) / (x - E))) by (auto_derive; [nra|field; lra]).
  exact (is_derive_plus Su _ x _ _ (Su_derive x Hx) D).
Qed.
Lemma Su_cont x : 0 < x + E -> continuous Su x.
Proof. intros H. apply (ex_derive_continuous (K := R_AbsRing) (V := R_NormedModule)). exists (su x). now apply Su_derive. Qed.
Lemma fu_cont x : 0 < x + E -> x <> E -> continuous fu x.
Proof.
  intros Hx Hn. assert (P := qp_pos x). assert (M := qm_pos x). apply (ex_derive_continuous (K := R_AbsRing) (V := R_NormedModule)). unfold fu, su. assert (0 < qp x * qm x) by (apply Rmult_lt_0_compat; assumption). unfold qp, qm in *. auto_derive. repeat split; lra.
Qed.

Definition Hu y := ka * (ln (1 + al * y + wq * y ^ 2) - ln (1 - al * y + wq * y ^ 2))
  + kb * (PI - atan (Cc * y / (2 + al * y)) - atan (Cc * y / (2 - al * y)))
  + kc * (PI / 2 - atan (al * Cc * y ^ 2 / (2 * (1 - g2 * y ^ 2)))) - kd * ln (1 + E * y)
  + ke * (ln (1 + E * y) - ln (1 + al * y + wq * y ^ 2) / 2 - ln (1 - al * y + wq * y ^ 2) / 2)
  + (kd + ke) / 2 * ln ((1 - E * y) ^ 2).
Lemma Hu_0 : Hu 0 = kb * PI + kc * (PI / 2).
Proof.
  unfold Hu. replace (1 + al * 0 + wq * 0 ^ 2) with 1 by ring. replace (1 - al * 0 + wq * 0 ^ 2) with 1 by ring. replace (1 + E * 0) with 1 by ring. replace ((1 - E * 0) ^ 2) with 1 by ring. rewrite ln_1.
  replace (Cc * 0 / (2 + al * 0)) with 0 by (unfold Rdiv; ring). replace (Cc * 0 / (2 - al * 0)) with 0 by (unfold Rdiv; ring). replace (al * Cc * 0 ^ 2 / (2 * (1 - g2 * 0 ^ 2))) with 0 by (unfold Rdiv; ring). rewrite atan_0. unfold Rdiv. ring.
Qed.
Lemma Hu_cont : continuous Hu 0.
Proof. apply (ex_derive_continuous (K := R_AbsRing) (V := R_NormedModule)). unfold Hu. auto_derive. repeat split; lra. Qed.
Lemma Fu_far M : E < M -> al < M -> g2 < M -> 1 < M -> Fu M = Hu (/ M).
Proof.
  intros H1 H2 H3 H4. assert (HM : 0 < M) by lra. assert (P := qp_pos M). assert (N := qm_pos M).
  assert (EP : qp M = M ^ 2 * (1 + al * / M + wq * (/ M) ^ 2)) by (unfold qp; field; lra). assert (EN : qm M = M ^ 2 * (1 - al * / M + wq * (/ M) ^ 2)) by (unfold qm; field; lra).
  assert (M2 : 0 < M ^ 2) by (apply pow_lt; exact HM).
  assert (LP : 0 < 1 + al * / M + wq * (/ M) ^ 2) by (apply (Rmult_lt_reg_l (M ^ 2)); [exact M2|rewrite Rmult_0_r, <- EP; exact P]). assert (LN : 0 < 1 - al * / M + wq * (/ M) ^ 2) by (apply (Rmult_lt_reg_l (M ^ 2)); [exact M2|rewrite Rmult_0_r, <- EN; exact N]).
  assert (iM : 0 < / M) by now apply Rinv_0_lt_compat. assert (HEi : 0 < E * / M) by (apply Rmult_lt_0_compat; assumption). assert (HEl : E * / M < 1) by (apply (Rmult_lt_reg_r M); [exact HM|]; rewrite Rmult_assoc, Rinv_l by lra; lra).
  assert (L2 : ln (M ^ 2) = 2 * ln M) by (replace (M ^ 2) with (M * M) by ring; rewrite ln_mult by assumption; ring).
  assert (E1 : ln (qp M) = 2 * ln M + ln (1 + al * / M + wq * (/ M) ^ 2)) by (rewrite EP, ln_mult by assumption; rewrite L2; reflexivity). assert (E2 : ln (qm M) = 2 * ln M + ln (1 - al * / M + wq * (/ M) ^ 2)) by (rewrite EN, ln_mult by assumption; rewrite L2; reflexivity).
  assert (E3 : ln (M + E) = ln M + ln (1 + E * / M)) by (rewrite <- ln_mult by lra; f_equal; field; lra). assert (E4 : ln ((M - E) ^ 2) = 2 * ln M + ln ((1 - E * / M) ^ 2)) by (rewrite <- L2, <- ln_mult; [f_equal; field; lra|exact M2|apply pow_lt; lra]).
  assert (A : forall z, 0 < z -> atan z = PI / 2 - atan (/ z)) by (intros z Hz; rewrite (atan_inv z Hz); ring).
  assert (M3 : g2 < M ^ 2) by nra. assert (AC : 0 < al * Cc) by (apply Rmult_lt_0_compat; assumption).
  unfold Fu, Su, Hu. rewrite E1, E2, E3, E4.
  rewrite (A ((2 * M + al) / Cc)) by (apply Rdiv_lt_0_compat; lra). rewrite (A ((2 * M - al) / Cc)) by (apply Rdiv_lt_0_compat; lra). rewrite (A (2 * (M ^ 2 - g2) / (al * Cc))) by (apply Rdiv_lt_0_compat; lra).
  replace (/ ((2 * M + al) / Cc)) with (Cc * / M / (2 + al * / M)) by (field; lra). replace (/ ((2 * M - al) / Cc)) with (Cc * / M / (2 - al * / M)) by (field; lra). replace (/ (2 * (M ^ 2 - g2) / (al * Cc))) with (al * Cc * (/ M) ^ 2 / (2 * (1 - g2 * (/ M) ^ 2))) by (field; lra).
  field.
Qed.
Lemma at_infinity (F H : R -> R) B : continuous H 0 -> (forall M, B < M -> F M = H (/ M)) ->
  forall eps, 0 < eps -> exists M0, forall M, M0 < M -> Rabs (F M - H 0) < eps.
Proof.
  intros C X eps He. assert (C1 : locally 0 (fun y => ball (H 0) eps (H y))) by (apply C; exists (mkposreal eps He); auto). destruct C1 as [s Hs]. exists (Rmax (Rmax B 1) (/ s)). intros M HM.
  assert (B < M) by (eapply Rle_lt_trans; [eapply Rle_trans; [apply Rmax_l|apply Rmax_l]|exact HM]). assert (1 < M) by (eapply Rle_lt_trans; [eapply Rle_trans; [apply Rmax_r|apply Rmax_l]|exact HM]). assert (HS : / s < M) by (eapply Rle_lt_trans; [apply Rmax_r|exact HM]).
  rewrite X by assumption. apply Hs. change (Rabs (/ M - 0) < s). rewrite Rminus_0_r, Rabs_pos_eq by (apply Rlt_le, Rinv_0_lt_compat; lra). rewrite <- (Rinv_inv s). apply Rinv_lt_contravar; [|exact HS]. apply Rmult_lt_0_compat; [apply Rinv_0_lt_compat, cond_pos|lra].
Qed.
Lemma kk_under (e2 : R -> R) a : 0 <= a -> a <> E -> (forall x, 0 < x < a -> e2 x = 0) ->
  (forall x, a < x -> x <> E -> x * e2 x / (x ^ 2 - E ^ 2) = fu x) ->
  kk_transform e2 E (2 / PI * (kb * PI + kc * (PI / 2) - Fu a)).
Proof.
  intros Ha Hn Z X. rewrite <- Hu_0. apply (kk_primitive e2 fu Su ((kd + ke) / 2) E a (Hu 0) HE Ha Hn Z X).
  - intros x Hx Hne. apply fu_cont; lra.
  - intros x Hx Hne. apply Fu_derive; lra.
  - apply Su_cont. lra.
  - apply (at_infinity Fu Hu (Rmax (Rmax E al) (Rmax g2 1)) Hu_cont). intros M HM. assert (Rmax E al < M) by (eapply Rle_lt_trans; [apply Rmax_l|exact HM]). assert (Rmax g2 1 < M) by (eapply Rle_lt_trans; [apply Rmax_r|exact HM]).
    assert (X1 := Rmax_l E al). assert (X2 := Rmax_r E al). assert (X3 := Rmax_l g2 1). assert (X4 := Rmax_r g2 1). apply Fu_far; lra.
Qed.
End Under.
