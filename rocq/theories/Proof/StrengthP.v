From Coq Require Import Reals Lra Psatz.
From Coquelicot Require Import Coquelicot.
From Coq Require Import List.
From Verif.Base Require Import Py Cx.
From Verif.Model Require Import Units Dispersions.
From Verif.Spec Require Import Causal Strength.
From Verif.Proof Require Import UnitsP DispersionsP DispersionsP2 CausalP CausalP2 GaussP GaussP2.
Import ListNotations.
Open Scope R_scope.

(** ** Integrals *)
(** From a primitive above the threshold a *)
Lemma sum_primitive (e2 f F : R -> R) (a L : R) : 0 <= a ->
  (forall x, 0 < x < a -> e2 x = 0) -> (forall x, a < x -> x * e2 x = f x) ->
  (forall x : R, a <= x -> continuous f x) -> (forall x, a <= x -> is_derive F x (f x)) ->
  (forall eps, 0 < eps -> exists M0, forall M, M0 < M -> Rabs (F M - L) < eps) -> sum_rule e2 (L - F a).
Proof.
  intros Ha Z X Cf D Lim eps He. destruct (Lim eps He) as (M0 & K). exists (Rmax M0 a). intros M HM.
  assert (M0 < M) by (eapply Rle_lt_trans; [apply Rmax_l|exact HM]). assert (a < M) by (eapply Rle_lt_trans; [apply Rmax_r|exact HM]).
  exists (F M - F a). split.
  - assert (I1 : is_RInt (fun x => x * e2 x) 0 a 0).
    { apply (is_RInt_ext (fun _ => 0)); [|apply is_RInt_zero]. intros x Hx. rewrite Rmin_left, Rmax_right in Hx by lra. change (@eq R 0 (x * e2 x)). rewrite Z by lra. ring. }
    assert (I2 : is_RInt (fun x => x * e2 x) a M (F M - F a)).
    { apply (is_RInt_ext f); [intros x Hx; rewrite Rmin_left, Rmax_right in Hx by lra; change (@eq R (f x) (x * e2 x)); rewrite X by lra; reflexivity|].
      apply (is_RInt_derive (V := R_CompleteNormedModule) F f); intros x Hx; rewrite Rmin_left, Rmax_right in Hx by lra; [apply D; lra|apply Cf; lra]. }
    assert (I := is_RInt_Chasles (V := R_NormedModule) _ _ _ _ _ _ I1 I2). exact (eq_ind _ (fun y => is_RInt (fun x => x * e2 x) 0 M y) I _ (Rplus_0_l (F M - F a))).
  - replace (F M - F a - (L - F a)) with (F M - L) by ring. now apply K.
Qed.
Lemma sum_plus (e e' : R -> R) V V' : sum_rule e V -> sum_rule e' V' -> sum_rule (fun x => e x + e' x) (V + V').
Proof.
  intros H H' eps He. destruct (H (eps / 2) ltac:(lra)) as (M & K). destruct (H' (eps / 2) ltac:(lra)) as (M' & K').
  exists (Rmax M M'). intros N HN. destruct (K N) as (u & Hu & B); [eapply Rle_lt_trans; [apply Rmax_l|exact HN]|]. destruct (K' N) as (u' & Hu' & B'); [eapply Rle_lt_trans; [apply Rmax_r|exact HN]|].
  exists (u + u'). split.
  - apply (is_RInt_ext (fun x => plus (x * e x) (x * e' x))); [intros x _; change (@eq R (x * e x + x * e' x) (x * (e x + e' x))); ring|]. apply (is_RInt_plus (V := R_NormedModule)); assumption.
  - replace (u + u' - (V + V')) with ((u - V) + (u' - V')) by ring. eapply Rle_lt_trans; [apply Rabs_triang|]. lra.
Qed.
Lemma sum_zero : sum_rule (fun _ => 0) 0.
Proof.
  intros eps He. exists 0. intros M _. exists 0. split; [|replace (0 - 0) with 0 by ring; now rewrite Rabs_R0].
  apply (is_RInt_ext (fun _ => 0)); [intros x _; change (@eq R 0 (x * 0)); ring|]. apply is_RInt_zero.
Qed.
Lemma sum_ext (e e' : R -> R) p V : (forall x, 0 < x -> x <> p -> e x = e' x) -> sum_rule e V -> sum_rule e' V.
Proof.
  intros X H eps He. destruct (H eps He) as (M & K). exists (Rmax M 0). intros N HN.
  assert (M < N) by (eapply Rle_lt_trans; [apply Rmax_l|exact HN]). assert (0 < N) by (eapply Rle_lt_trans; [apply Rmax_r|exact HN]).
  destruct (K N) as (u & I & B); [assumption|]. exists u. split; [|exact B].
  assert (J : forall a b w, 0 <= a -> a <= b -> ~ (a < p < b) -> is_RInt (fun x => x * e x) a b w -> is_RInt (fun x => x * e' x) a b w).
  { intros a b w Ha Hab Np Q. apply (is_RInt_ext (fun x => x * e x)); [|exact Q]. intros x Hx. rewrite Rmin_left, Rmax_right in Hx by lra. rewrite X; [reflexivity|lra|]. intros ->. apply Np. lra. }
  destruct (Rlt_dec 0 p) as [Hp|Hp]; [destruct (Rlt_dec p N) as [Hq|Hq]|]; [|apply J; (lra || exact I)..].
  destruct (ex_RInt_Chasles_1 (V := R_CompleteNormedModule) (fun x => x * e x) 0 p N) as [w Hw]; [lra|exists u; exact I|]. destruct (ex_RInt_Chasles_2 (V := R_CompleteNormedModule) (fun x => x * e x) 0 p N) as [w' Hw']; [lra|exists u; exact I|].
  assert (U : u = plus w w') by (rewrite <- (is_RInt_unique (V := R_CompleteNormedModule) _ 0 N _ I); apply is_RInt_unique; exact (is_RInt_Chasles (V := R_NormedModule) _ 0 p N _ _ Hw Hw')). rewrite U. apply (is_RInt_Chasles (V := R_NormedModule) _ 0 p N); apply J; (lra || assumption).
Qed.
Lemma sum_unique e2 V V' : sum_rule e2 V -> sum_rule e2 V' -> V = V'.
Proof.
  intros H H'. destruct (Req_dec V V') as [|N]; [assumption|exfalso]. assert (P : 0 < Rabs (V - V') / 2) by (apply Rdiv_lt_0_compat; [apply Rabs_pos_lt; lra|lra]).
  destruct (H _ P) as (M & K). destruct (H' _ P) as (M' & K'). set (N' := Rmax M M' + 1). assert (R1 := Rmax_l M M'). assert (R2 := Rmax_r M M').
  destruct (K N') as (u & Hu & B); [unfold N'; lra|]. destruct (K' N') as (u' & Hu' & B'); [unfold N'; lra|].
  assert (u = u') by (rewrite <- (is_RInt_unique (V := R_CompleteNormedModule) _ _ _ _ Hu); exact (is_RInt_unique (V := R_CompleteNormedModule) _ _ _ _ Hu')). subst u'.
  assert (Rabs (V - V') < Rabs (V - V')); [|lra]. replace (V - V') with ((u - V') - (u - V)) at 1 by ring. eapply Rle_lt_trans; [apply Rabs_triang|]. rewrite Rabs_Ropp. lra.
Qed.

(** Sums over the oscillators *)
Lemma strength_osum {T} (f : T -> R -> option C) (im : T -> R -> R) (S : T -> R) rep p e2 :
  (forall t x z, In t rep -> 0 < x -> f t x = Some z -> snd z = im t x) -> (forall t, In t rep -> sum_rule (im t) (S t)) ->
  (forall t x, In t rep -> 0 < x -> x <> p -> f t x <> None) ->
  (forall x z, 0 < x -> osum (fun t => f t x) rep = Some z -> e2 x = snd z) -> sum_rule e2 (total S rep).
Proof.
  intros I H D X. assert (Q : sum_rule (fun x => total (fun t => im t x) rep) (total S rep)).
  { clear I D X. induction rep as [|t rep IH]; cbn [total]; [apply sum_zero|]. apply sum_plus; [apply H; now left|]. apply IH. intros u Hu. apply H. now right. }
  apply (sum_ext _ e2 p _) in Q; [exact Q|]. intros x Hx Hn.
  destruct (osum (fun t => f t x) rep) as [z|] eqn:Z.
  - rewrite (X x z Hx Z). clear X H D Q. revert z Z. induction rep as [|t rep IH]; intros z Z; [injection Z as <-; reflexivity|].
    rewrite osum_cons in Z. destruct (f t x) as [a|] eqn:Ea; [|discriminate]. cbn [obind] in Z. destruct (osum (fun t => f t x) rep) as [b|] eqn:Eb; [|discriminate]. cbn [obind] in Z. apply Some_eq in Z. subst z.
    cbn [total]. rewrite (IH (fun u y w Hu => I u y w (or_intror Hu)) b eq_refl), <- (I t x a (or_introl eq_refl) Hx Ea). reflexivity.
  - exfalso. apply (proj1 (osum_defined (fun t => f t x) rep)); [|exact Z]. intros t Ht. now apply D.
Qed.

(** ** Lorentz: the integrand is the same at x and E^2 / x *)
Section Lorentz.
Variables E g : R.
Hypothesis HE : 0 < E.
Hypothesis Hg : 0 < g.
Definition lf x := g * x ^ 2 / ((E ^ 2 - x ^ 2) ^ 2 + (g * x) ^ 2).
Lemma l_den x : 0 < (E ^ 2 - x ^ 2) ^ 2 + (g * x) ^ 2.
Proof.
  assert (P := pow2_ge_0 (E ^ 2 - x ^ 2)). assert (Q := pow2_ge_0 (g * x)). destruct (Req_dec x 0) as [->|N].
  - assert (0 < (E ^ 2 - 0 ^ 2) ^ 2); [|lra]. apply pow_lt. assert (0 < E ^ 2) by now apply pow_lt. lra.
  - assert (0 < (g * x) ^ 2); [|lra]. apply pow2_gt_0. apply Rmult_integral_contrapositive_currified; lra.
Qed.
Lemma lf_cont (x : R) : continuous lf x.
Proof. apply (ex_derive_continuous (K := R_AbsRing) (V := R_NormedModule)). assert (L := l_den x). unfold lf. auto_derive. repeat split; trivial. cbn in L. lra. Qed.
Definition lp (x : R) : R := RInt (V := R_CompleteNormedModule) lf 0 x.
Lemma lf_ex a b : ex_RInt lf a b.
Proof. apply (ex_RInt_continuous (V := R_CompleteNormedModule)). intros; apply lf_cont. Qed.
Lemma lp_der x : is_derive lp x (lf x).
Proof. apply (is_derive_RInt (V := R_NormedModule) lf lp 0 x); [|apply lf_cont]. exists (mkposreal 1 Rlt_0_1). intros y _. apply (RInt_correct (V := R_CompleteNormedModule)), lf_ex. Qed.
Lemma lp_0 : lp 0 = 0.
Proof. unfold lp. now rewrite RInt_point. Qed.
Lemma lf_sym x : 0 < x -> lf (E ^ 2 / x) = lf x.
Proof.
  intros Hx. assert (L1 := l_den x). assert (L2 := l_den (E ^ 2 / x)). unfold lf. 
  assert (P : (E ^ 2 - (E ^ 2 / x) ^ 2) ^ 2 + (g * (E ^ 2 / x)) ^ 2 = (E ^ 2 / x ^ 2) ^ 2 * ((E ^ 2 - x ^ 2) ^ 2 + (g * x) ^ 2)) by (field; lra).
  rewrite P in *. set (d := (E ^ 2 - x ^ 2) ^ 2 + (g * x) ^ 2) in *. clearbody d. field. repeat split; lra.
Qed.
Definition lu x := (x - E ^ 2 / x) / g.
Lemma lu_der x : 0 < x -> is_derive (fun x => atan (lu x)) x ((1 + E ^ 2 / x ^ 2) * lf x).
Proof.
  intros Hx. assert (L := l_den x). unfold lu. auto_derive; [lra|]. unfold lf.
  assert (P : 1 + (x + - (E ^ 2 / x)) / g * ((x + - (E ^ 2 / x)) / g) = ((E ^ 2 - x ^ 2) ^ 2 + (g * x) ^ 2) / (g * x) ^ 2) by (field; lra).
  assert (0 < g * x) by (apply Rmult_lt_0_compat; assumption). 
  assert (N : 1 + (x + - (E ^ 2 / x)) / g * ((x + - (E ^ 2 / x)) / g) <> 0).
  { rewrite P. assert (0 < ((E ^ 2 - x ^ 2) ^ 2 + (g * x) ^ 2) / (g * x) ^ 2) by (apply Rdiv_lt_0_compat; [exact L|now apply pow_lt]). lra. }
  unfold Rsqr. set (d := (E ^ 2 - x ^ 2) ^ 2 + (g * x) ^ 2) in *.
  match goal with |- context [/ (1 + ?a)] => replace (1 + a) with (d / (g * x) ^ 2) by (rewrite <- P; unfold Rdiv; ring) end.
  clearbody d. field. repeat split; lra.
Qed.
Lemma lp_value b : 0 < b -> lp b = atan (lu b) + lp (E ^ 2 / b).
Proof.
  intros Hb. set (H := fun x => lp x - lp (E ^ 2 / x) - atan (lu x)).
  assert (D : forall x, 0 < x -> is_derive H x 0).
  { intros x Hx. assert (D1 := lp_der x). assert (D2 : is_derive (fun x => lp (E ^ 2 / x)) x (- (E ^ 2 / x ^ 2) * lf x)).
    { rewrite <- (lf_sym x Hx). apply (is_derive_comp (V := R_NormedModule) lp (fun x => E ^ 2 / x) x); [apply lp_der|]. auto_derive; [lra|field; lra]. }
    assert (D3 := lu_der x Hx). assert (Q := der_minus _ _ _ _ _ (der_minus _ _ _ _ _ D1 D2) D3). replace 0 with (lf x - - (E ^ 2 / x ^ 2) * lf x - (1 + E ^ 2 / x ^ 2) * lf x) by ring. exact Q. }
  assert (HE2 : H E = 0).
  { unfold H, lu. replace (E ^ 2 / E) with E by (field; lra). replace ((E - E) / g) with 0 by (field; lra). rewrite atan_0. ring. }
  assert (HB : H b = H E).
  { destruct (MVT_gen H E b (fun _ => 0)) as (c & Hc & Eq).
    - intros x Hx. apply D. assert (Q := Rmin_glb_lt E b 0 HE Hb). lra.
    - intros x Hx. apply derivable_continuous_pt. exists 0. apply is_derive_Reals, D. assert (Q := Rmin_glb_lt E b 0 HE Hb). lra.
    - lra. }
  rewrite HE2 in HB. unfold H in HB. lra.
Qed.
Definition lh y := PI / 2 - atan (g * y / (1 - E ^ 2 * y ^ 2)) + lp (E ^ 2 * y).
Lemma lh_0 : lh 0 = PI / 2.
Proof. unfold lh. replace (g * 0 / (1 - E ^ 2 * 0 ^ 2)) with 0 by (field; lra). rewrite Rmult_0_r, lp_0, atan_0. ring. Qed.
Lemma lh_cont : continuous lh 0.
Proof.
  apply (ex_derive_continuous (K := R_AbsRing) (V := R_NormedModule)). unfold lh. eexists.
  apply der_plus.
  - apply der_minus; [apply (is_derive_const (V := R_NormedModule))|]. auto_derive; [lra|reflexivity].
  - apply (is_derive_comp (V := R_NormedModule) lp (fun y => E ^ 2 * y) 0); [apply lp_der|]. auto_derive; [trivial|reflexivity].
Qed.
Lemma lp_limit eps : 0 < eps -> exists M0, forall M, M0 < M -> Rabs (lp M - PI / 2) < eps.
Proof.
  rewrite <- lh_0. revert eps. apply (at_infinity lp lh E lh_cont). intros M HM. assert (M0 : 0 < M) by lra.
  rewrite lp_value by exact M0. unfold lh. assert (E2 : 0 < E ^ 2) by now apply pow_lt. assert (S : E ^ 2 < M ^ 2) by (cbn; nra).
  assert (U : 0 < lu M) by (unfold lu; apply Rdiv_lt_0_compat; [|exact Hg]; replace (M - E ^ 2 / M) with ((M ^ 2 - E ^ 2) / M) by (field; lra); apply Rdiv_lt_0_compat; lra).
  assert (A := atan_inv (lu M) U). replace (g * / M / (1 - E ^ 2 * (/ M) ^ 2)) with (/ lu M) by (unfold lu; field; repeat split; lra). replace (E ^ 2 * / M) with (E ^ 2 / M) by reflexivity. lra.
Qed.
End Lorentz.
Lemma sum_lorentz A E g : 0 < E -> 0 < g -> sum_rule (lo_im A E g) (PI / 2 * A).
Proof.
  intros HE Hg. replace (PI / 2 * A) with (A * (PI / 2) - A * lp E g 0) by (rewrite lp_0; ring).
  apply (sum_primitive (lo_im A E g) (fun x => A * lf E g x) (fun x => A * lp E g x) 0 (A * (PI / 2))); [lra|intros x Hx; lra| | | |].
  - intros x Hx. unfold lo_im, lf. assert (L := l_den E g HE Hg x). field. lra.
  - intros x _. apply (continuous_mult (K := R_AbsRing) (fun _ => A) (lf E g)); [apply continuous_const|now apply lf_cont].
  - intros x _. apply der_scal. now apply lp_der.
  - intros eps He. destruct (lp_limit E g HE Hg (eps / (Rabs A + 1))) as (M0 & K); [apply Rdiv_lt_0_compat; [exact He|]; assert (Q := Rabs_pos A); lra|]. exists M0. intros M HM. specialize (K M HM).
    replace (A * lp E g M - A * (PI / 2)) with (A * (lp E g M - PI / 2)) by ring. rewrite Rabs_mult. assert (Q := Rabs_pos A).
    apply (Rle_lt_trans _ (Rabs A * (eps / (Rabs A + 1)))); [apply Rmult_le_compat_l; lra|]. apply (Rmult_lt_reg_r (Rabs A + 1)); [lra|]. replace (Rabs A * (eps / (Rabs A + 1)) * (Rabs A + 1)) with (Rabs A * eps) by (field; lra). nra.
Qed.

(** ** Drude *)
Lemma sum_drude A g : 0 < g -> sum_rule (fun x => A * (g * x) / (x ^ 2 * x ^ 2 + (g * x) ^ 2)) (PI / 2 * A).
Proof.
  intros Hg. replace (PI / 2 * A) with (A * (PI / 2) - A * atan (0 / g)) by (replace (0 / g) with 0 by (field; lra); rewrite atan_0; ring).
  assert (D : forall x, 0 < x ^ 2 + g ^ 2) by (intros x; assert (P := pow2_ge_0 x); assert (0 < g ^ 2) by (now apply pow_lt); lra).
  apply (sum_primitive _ (fun x => A * (g / (x ^ 2 + g ^ 2))) (fun x => A * atan (x / g)) 0 (A * (PI / 2))); [lra|intros x Hx; lra| | | |].
  - intros x Hx. assert (P := D x). replace (x ^ 2 * x ^ 2 + (g * x) ^ 2) with (x ^ 2 * (x ^ 2 + g ^ 2)) by ring. field. split; lra.
  - intros x _. apply (ex_derive_continuous (K := R_AbsRing) (V := R_NormedModule)). assert (P := D x). auto_derive. cbn in P. lra.
  - intros x _. assert (P := D x). auto_derive; [lra|]. field. split; lra.
  - assert (Q : A * (PI / 2) = A * (PI / 2 - atan (g * 0))) by (rewrite Rmult_0_r, atan_0; ring). rewrite Q.
    apply (at_infinity (fun x => A * atan (x / g)) (fun y => A * (PI / 2 - atan (g * y))) 0).
    + apply (ex_derive_continuous (K := R_AbsRing) (V := R_NormedModule)). auto_derive. trivial.
    + intros M HM. assert (U : 0 < M / g) by (apply Rdiv_lt_0_compat; assumption). assert (I := atan_inv (M / g) U). replace (g * / M) with (/ (M / g)) by (field; lra). rewrite I. ring.
Qed.

(** ** Gauss *)
Section Gauss.
Variables a b : R.
Hypothesis Ha : 0 < a.
Definition gf x := x * (gs (a * (x - b)) - gs (a * (x + b))).
Definition gp x := (gs (a * (x + b)) - gs (a * (x - b))) / (2 * a ^ 2) + b / a * (gi (a * (x - b)) + gi (a * (x + b))).
Lemma gs_lin_der d x : is_derive (fun x => gs (a * (x + d))) x (- (2 * a ^ 2 * (x + d)) * gs (a * (x + d))).
Proof. unfold gs. auto_derive; [trivial|]. ring. Qed.
Lemma gi_lin_der d x : is_derive (fun x => gi (a * (x + d))) x (a * gs (a * (x + d))).
Proof. apply (is_derive_comp (V := R_NormedModule) gi (fun x => a * (x + d)) x); [apply gi_der|]. auto_derive; [trivial|ring]. Qed.
Lemma gp_der x : is_derive gp x (gf x).
Proof.
  unfold gp. assert (D1 := gs_lin_der b x). assert (D2 := gs_lin_der (- b) x). assert (D3 := gi_lin_der b x). assert (D4 := gi_lin_der (- b) x).
  assert (Q := der_plus _ _ _ _ _ (der_scal (/ (2 * a ^ 2)) _ _ _ (der_minus _ _ _ _ _ D1 D2)) (der_scal (b / a) _ _ _ (der_plus _ _ _ _ _ D4 D3))).
  unfold gf. replace (x * (gs (a * (x - b)) - gs (a * (x + b)))) with
    (/ (2 * a ^ 2) * (- (2 * a ^ 2 * (x + b)) * gs (a * (x + b)) - - (2 * a ^ 2 * (x + - b)) * gs (a * (x + - b))) + b / a * (a * gs (a * (x + - b)) + a * gs (a * (x + b)))) by (unfold Rminus; field; lra).
  apply (is_derive_ext (fun x => / (2 * a ^ 2) * (gs (a * (x + b)) - gs (a * (x + - b))) + b / a * (gi (a * (x + - b)) + gi (a * (x + b))))); [|exact Q].
  intros t. unfold Rdiv, Rminus. change (@eq R (/ (2 * a ^ 2) * (gs (a * (t + b)) + - gs (a * (t + - b))) + b * / a * (gi (a * (t + - b)) + gi (a * (t + b)))) ((gs (a * (t + b)) + - gs (a * (t + - b))) * / (2 * a ^ 2) + b * / a * (gi (a * (t + - b)) + gi (a * (t + b))))). ring.
Qed.
Lemma gf_cont (x : R) : continuous gf x.
Proof. apply (ex_derive_continuous (K := R_AbsRing) (V := R_NormedModule)). unfold gf, gs. auto_derive. trivial. Qed.
Lemma gp_0 : gp 0 = 0.
Proof. unfold gp. replace (a * (0 - b)) with (- (a * b)) by ring. replace (a * (0 + b)) with (a * b) by ring. rewrite gi_odd. replace (gs (- (a * b))) with (gs (a * b)) by (unfold gs; f_equal; ring). field. lra. Qed.
Lemma lin_far d X : exists M0, forall M, M0 < M -> X < a * (M + d).
Proof. exists (X / a - d). intros M HM. apply (Rmult_lt_compat_l a) in HM; [|exact Ha]. replace (a * (X / a - d)) with (X - a * d) in HM by (field; lra). lra. Qed.
Lemma gs_far d eps : 0 < eps -> exists M0, forall M, M0 < M -> Rabs (gs (a * (M + d))) < eps.
Proof.
  intros He. destruct (lin_far d (1 + / eps)) as (M0 & K). exists M0. intros M HM. specialize (K M HM). assert (I : 0 < / eps) by now apply Rinv_0_lt_compat.
  set (x := a * (M + d)) in *. assert (Hx : 0 < x) by lra. rewrite Rabs_pos_eq by (apply Rlt_le, gs_pos). eapply Rlt_trans; [apply gs_small; exact Hx|].
  rewrite <- (Rinv_inv eps). apply Rinv_lt_contravar; [apply Rmult_lt_0_compat; [exact I|nra]|nra].
Qed.
Lemma gi_far d eps : 0 < eps -> exists M0, forall M, M0 < M -> Rabs (gi (a * (M + d)) - sqrt PI / 2) < eps.
Proof. intros He. destruct (gi_limit eps He) as (X & _ & K). destruct (lin_far d X) as (M0 & L). exists M0. intros M HM. apply K, L, HM. Qed.
Lemma gp_limit eps : 0 < eps -> exists M0, forall M, M0 < M -> Rabs (gp M - sqrt PI * b / a) < eps.
Proof.
  intros He. set (k := / (2 * a ^ 2)). assert (Hk : 0 < k) by (apply Rinv_0_lt_compat; assert (0 < a ^ 2) by (now apply pow_lt); lra).
  set (m := Rabs (b / a)). assert (Hm : 0 <= m) by apply Rabs_pos. set (e := eps / (2 * (k + m + 1))). assert (He' : 0 < e) by (apply Rdiv_lt_0_compat; lra).
  destruct (gs_far b e He') as (M1 & K1). destruct (gs_far (- b) e He') as (M2 & K2). destruct (gi_far b e He') as (M3 & K3). destruct (gi_far (- b) e He') as (M4 & K4).
  exists (Rmax (Rmax M1 M2) (Rmax M3 M4)). intros M HM. assert (Rmax M1 M2 < M) by (eapply Rle_lt_trans; [apply Rmax_l|exact HM]). assert (Rmax M3 M4 < M) by (eapply Rle_lt_trans; [apply Rmax_r|exact HM]).
  assert (X1 := Rmax_l M1 M2). assert (X2 := Rmax_r M1 M2). assert (X3 := Rmax_l M3 M4). assert (X4 := Rmax_r M3 M4).
  specialize (K1 M ltac:(lra)). specialize (K2 M ltac:(lra)). specialize (K3 M ltac:(lra)). specialize (K4 M ltac:(lra)).
  assert (Eq : gp M - sqrt PI * b / a = k * (gs (a * (M + b)) - gs (a * (M + - b))) + b / a * ((gi (a * (M + - b)) - sqrt PI / 2) + (gi (a * (M + b)) - sqrt PI / 2))).
  { unfold gp, k, Rminus. field. lra. }
  rewrite Eq. set (s1 := gs (a * (M + b))) in *. set (s2 := gs (a * (M + - b))) in *. set (i1 := gi (a * (M + b)) - sqrt PI / 2) in *. set (i2 := gi (a * (M + - b)) - sqrt PI / 2) in *. clearbody s1 s2 i1 i2.
  assert (B1 : Rabs (k * (s1 - s2)) <= k * (2 * e)).
  { rewrite Rabs_mult, (Rabs_pos_eq k) by lra. apply Rmult_le_compat_l; [lra|]. unfold Rminus. eapply Rle_trans; [apply Rabs_triang|]. rewrite Rabs_Ropp. lra. }
  assert (B2 : Rabs (b / a * (i2 + i1)) <= m * (2 * e)).
  { rewrite Rabs_mult. fold m. apply Rmult_le_compat_l; [exact Hm|]. eapply Rle_trans; [apply Rabs_triang|]. lra. }
  eapply Rle_lt_trans; [apply Rabs_triang|]. assert (E2 : eps = 2 * e * (k + m + 1)) by (unfold e; field; lra). rewrite E2. nra.
Qed.
End Gauss.
Lemma scale_limit (A L : R) (F : R -> R) : (forall eps, 0 < eps -> exists M0, forall M, M0 < M -> Rabs (F M - L) < eps) ->
  forall eps, 0 < eps -> exists M0, forall M, M0 < M -> Rabs (A * F M - A * L) < eps.
Proof.
  intros H eps He. assert (Q := Rabs_pos A). destruct (H (eps / (Rabs A + 1))) as (M0 & K); [apply Rdiv_lt_0_compat; lra|]. exists M0. intros M HM. specialize (K M HM).
  replace (A * F M - A * L) with (A * (F M - L)) by ring. rewrite Rabs_mult.
  apply (Rle_lt_trans _ (Rabs A * (eps / (Rabs A + 1)))); [apply Rmult_le_compat_l; lra|]. apply (Rmult_lt_reg_r (Rabs A + 1)); [lra|]. replace (Rabs A * (eps / (Rabs A + 1)) * (Rabs A + 1)) with (Rabs A * eps) by (field; lra). nra.
Qed.
Lemma sum_gauss A a b : 0 < a -> sum_rule (fun x => A * (gs (a * (x - b)) - gs (a * (x + b)))) (A * (sqrt PI * b / a)).
Proof.
  intros Ha. replace (A * (sqrt PI * b / a)) with (A * (sqrt PI * b / a) - A * gp a b 0) by (rewrite gp_0 by exact Ha; ring).
  apply (sum_primitive _ (fun x => A * gf a b x) (fun x => A * gp a b x) 0 (A * (sqrt PI * b / a))); [lra|intros x Hx; lra| | | |].
  - intros x _. unfold gf. ring.
  - intros x _. apply (continuous_mult (K := R_AbsRing) (fun _ => A) (gf a b)); [apply continuous_const|apply gf_cont].
  - intros x _. apply der_scal. now apply gp_der.
  - apply scale_limit. intros eps He. now apply gp_limit.
Qed.

(** ** Tauc-Lorentz *)
Lemma sum_tauc g A E C : 0 < g -> 0 < E -> 0 < C -> C ^ 2 < 4 * E ^ 2 -> sum_rule (tl_im g A E C) (tauc_strength g A E C).
Proof.
  intros Hg HE HC U. set (al := sqrt (4 * E ^ 2 - C ^ 2)). assert (Hal : 0 < al) by (apply sqrt_lt_R0; lra). assert (Al2 : al ^ 2 = 4 * E ^ 2 - C ^ 2) by (unfold al; rewrite pow2_sqrt; lra).
  assert (W : wq al C = E ^ 2) by (unfold wq; rewrite Al2; field). assert (E2 : 0 < E ^ 2) by now apply pow_lt.
  set (ka := (g ^ 2 / E ^ 2 - 1) / (4 * al)). set (kb := (1 + g ^ 2 / E ^ 2) / (2 * C)). set (kc := - (2 * g / (al * C))).
  set (F := Su al C 1 ka kb kc 0 0). set (f := su al C 1 ka kb kc 0 0).
  assert (V : forall x, f x = (x - g) ^ 2 / ((x ^ 2 - E ^ 2) ^ 2 + C ^ 2 * x ^ 2) \/ x + 1 <= 0).
  { intros x. destruct (Rle_dec (x + 1) 0) as [N|N]; [right; exact N|left]. unfold f, su. assert (P := qp_pos al C HC x). assert (M := qm_pos al C HC x). assert (Q : qp al C x * qm al C x = (x ^ 2 - E ^ 2) ^ 2 + C ^ 2 * x ^ 2) by (unfold qp, qm; rewrite W; replace (C ^ 2) with (4 * E ^ 2 - al ^ 2) by lra; ring). rewrite <- Q.
    assert (Q1 : (2 * x + al) / qp al C x - (2 * x - al) / qm al C x = 2 * al * (E ^ 2 - x ^ 2) / (qp al C x * qm al C x)).
    { replace (2 * al * (E ^ 2 - x ^ 2)) with ((2 * x + al) * qm al C x - (2 * x - al) * qp al C x) by (unfold qp, qm; rewrite W; ring). field. split; lra. }
    assert (Q2 : C / 2 / qp al C x + C / 2 / qm al C x = C * (x ^ 2 + E ^ 2) / (qp al C x * qm al C x)).
    { replace (C * (x ^ 2 + E ^ 2)) with (C / 2 * (qp al C x + qm al C x)) by (unfold qp, qm; rewrite W; field). field. split; lra. }
    rewrite Q1, Q2. unfold ka, kb, kc. set (D := qp al C x * qm al C x) in *. assert (HD : 0 < D) by (apply Rmult_lt_0_compat; assumption). clearbody D.
    replace (0 / (x + 1)) with 0 by (field; lra). field. repeat split; lra. }
  assert (St : tauc_strength g A E C = A * E * C * (kb * PI + kc * (PI / 2)) - A * E * C * F g).
  { unfold tauc_strength. cbv zeta. fold al. unfold F, Su. unfold kb, kc, ka, qp, qm. rewrite W. replace (2 * (g ^ 2 - g2 al C)) with (2 * g ^ 2 - 2 * E ^ 2 + C ^ 2) by (unfold g2; rewrite Al2; field).
    set (t1 := atan ((2 * g + al) / C)). set (t2 := atan ((2 * g - al) / C)). set (t3 := atan ((2 * g ^ 2 - 2 * E ^ 2 + C ^ 2) / (al * C))). set (l1 := ln (g ^ 2 + al * g + E ^ 2)). set (l2 := ln (g ^ 2 - al * g + E ^ 2)). clearbody t1 t2 t3 l1 l2. field. repeat split; lra. }
  rewrite St. apply (sum_primitive (tl_im g A E C) (fun x => A * E * C * f x) (fun x => A * E * C * F x) g (A * E * C * (kb * PI + kc * (PI / 2)))); [lra| | | | |].
  - intros x Hx. unfold tl_im, heaviside. destruct (Rlt_dec (x - g) 0); [ring|lra].
  - intros x Hx. destruct (V x) as [-> |N]; [|lra]. unfold tl_im, heaviside. destruct (Rlt_dec (x - g) 0); [lra|]. destruct (Rlt_dec 0 (x - g)); [|lra].
    assert (0 < (x ^ 2 - E ^ 2) ^ 2 + C ^ 2 * x ^ 2) by (assert (0 < C ^ 2 * x ^ 2) by (apply Rmult_lt_0_compat; apply pow_lt; lra); assert (Q := pow2_ge_0 (x ^ 2 - E ^ 2)); lra). field. split; lra.
  - intros x Hx. apply (continuous_mult (K := R_AbsRing) (fun _ => A * E * C) f); [apply continuous_const|]. apply (ex_derive_continuous (K := R_AbsRing) (V := R_NormedModule)). unfold f, su. assert (P := qp_pos al C HC x). assert (M := qm_pos al C HC x). assert (0 < qp al C x * qm al C x) by (apply Rmult_lt_0_compat; assumption). unfold qp, qm in *. auto_derive. repeat split; lra.
  - intros x Hx. apply der_scal. apply Su_derive; try assumption; lra.
  - apply scale_limit. rewrite <- (Hu_0 al C 1 ka kb kc 0 0). apply (at_infinity F (Hu al C 1 ka kb kc 0 0) (Rmax (Rmax 1 al) (Rmax (g2 al C) 1))); [apply Hu_cont; try assumption; lra|].
    intros M HM. assert (Rmax 1 al < M) by (eapply Rle_lt_trans; [apply Rmax_l|exact HM]). assert (Rmax (g2 al C) 1 < M) by (eapply Rle_lt_trans; [apply Rmax_r|exact HM]).
    assert (X1 := Rmax_l 1 al). assert (X2 := Rmax_r 1 al). assert (X3 := Rmax_l (g2 al C) 1). rewrite <- Fu_far by (assumption || lra). unfold Fu, F. field.
Qed.
