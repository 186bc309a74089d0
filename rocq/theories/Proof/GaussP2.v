From Coq Require Import Reals Lra Psatz.
From Coquelicot Require Import Coquelicot.
From Verif.Spec Require Import Causal.
From Verif.Proof Require Import CausalP GaussP.
Open Scope R_scope.

Lemma gi_lip a b : Rabs (gi b - gi a) <= Rabs (b - a).
Proof.
  destruct (MVT_gen gi a b gs) as (z & _ & E).
  - intros y _. apply gi_der.
  - intros y _. apply derivable_continuous_pt. apply ex_derive_Reals_0. eexists. apply gi_der.
  - rewrite E, Rabs_mult. rewrite (Rabs_pos_eq (gs z)) by apply Rlt_le, gs_pos. rewrite <- (Rmult_1_l (Rabs (b - a))) at 2. apply Rmult_le_compat_r; [apply Rabs_pos|]. unfold gs. rewrite <- exp_0. apply exp_mono. assert (H := Rle_0_sqr z). unfold Rsqr in H. lra.
Qed.

Definition q (x : R) : R := RInt (V := R_CompleteNormedModule) (fun t => exp (t * t)) 0 x.
Lemma q_cont (x : R) : continuous (fun t => exp (t * t)) x.
Proof. apply (ex_derive_continuous (V := R_NormedModule)). auto_derive. trivial. Qed.
Lemma q_der x : is_derive q x (exp (x * x)).
Proof. apply (is_derive_RInt (V := R_NormedModule) (fun t => exp (t * t)) q 0 x); [|apply q_cont]. exists (mkposreal 1 Rlt_0_1). intros y _. apply (RInt_correct (V := R_CompleteNormedModule)). apply (ex_RInt_continuous (V := R_CompleteNormedModule)). intros; apply q_cont. Qed.
Lemma q_0 : q 0 = 0.
Proof. unfold q. now rewrite RInt_point. Qed.

Lemma hg_limit t eps : 0 < eps -> exists s X, 0 < s /\ 0 < X /\ forall d M, 0 < d < s -> X < M -> d < M -> Rabs (hg d M t - 2 * sqrt PI * q t) < eps.
Proof.
  intros He. set (K := 2 * exp (t * t)). assert (HK : 0 < K) by (unfold K; assert (X := exp_pos (t * t)); lra). assert (Ht := Rabs_pos t).
  set (e1 := eps / (8 * K * (Rabs t + 1))). assert (He1 : 0 < e1) by (unfold e1; apply Rdiv_lt_0_compat; [lra|apply Rmult_lt_0_compat; lra]).
  destruct (gi_limit e1 He1) as (X & HX & L). exists e1, (X + Rabs t). split; [exact He1|]. split; [lra|]. intros d M Hd HM HdM.
  assert (D : forall y, is_derive (fun y => hg d M y - 2 * sqrt PI * q y) y (2 * exp (y * y) * (width d M y - sqrt PI))).
  { intros y. replace (2 * exp (y * y) * (width d M y - sqrt PI)) with (2 * exp (y * y) * width d M y - 2 * sqrt PI * exp (y * y)) by ring.
    apply (is_derive_minus (V := R_NormedModule) (hg d M) (fun y => 2 * sqrt PI * q y)); [rewrite <- hg_val by lra; apply hg_der; lra|]. apply (is_derive_scal q y (2 * sqrt PI)), q_der. }
  destruct (MVT_gen (fun y => hg d M y - 2 * sqrt PI * q y) 0 t (fun y => 2 * exp (y * y) * (width d M y - sqrt PI))) as (z & Hz & E).
  - intros y _. apply D.
  - intros y _. apply derivable_continuous_pt. apply ex_derive_Reals_0. eexists. apply D.
  - rewrite hg_0, q_0 in E by lra. replace (hg d M t - 2 * sqrt PI * q t) with (2 * exp (z * z) * (width d M z - sqrt PI) * (t - 0)) by lra.
    assert (Az : Rabs z <= Rabs t). { unfold Rmin, Rmax in Hz. destruct (Rle_dec 0 t); [rewrite !Rabs_pos_eq by lra; lra|]. rewrite !Rabs_left1 by lra. lra. }
    assert (Zt : z * z <= t * t). { assert (Z := Rabs_pos z). replace (z * z) with (Rabs z * Rabs z) by (rewrite <- Rabs_mult; apply Rabs_pos_eq, Rle_0_sqr). replace (t * t) with (Rabs t * Rabs t) by (rewrite <- Rabs_mult; apply Rabs_pos_eq, Rle_0_sqr). apply Rmult_le_compat; assumption. }
    assert (A1 := L (M - z)). assert (A2 := L (M + z)). assert (Z1 := Rle_abs z). assert (Z2 := Rabs_maj2 z). specialize (A1 ltac:(lra)). specialize (A2 ltac:(lra)).
    assert (A3 : Rabs (gi (d + z) - gi (z - d)) <= 2 * d). { eapply Rle_trans; [apply gi_lip|]. rewrite Rabs_pos_eq by lra. lra. }
    assert (W : Rabs (width d M z - sqrt PI) < 4 * e1).
    { unfold width. replace (d - z) with (- (z - d)) by ring. rewrite gi_odd. replace (gi (M - z) - - gi (z - d) + (gi (M + z) - gi (d + z)) - sqrt PI) with ((gi (M - z) - sqrt PI / 2) + (gi (M + z) - sqrt PI / 2) - (gi (d + z) - gi (z - d))) by lra.
      apply Rabs_def2 in A1. apply Rabs_def2 in A2. apply Rabs_le_between in A3. apply Rabs_def1; lra. }
    rewrite !Rabs_mult, Rminus_0_r. rewrite (Rabs_pos_eq 2) by lra. rewrite (Rabs_pos_eq (exp (z * z))) by apply Rlt_le, exp_pos. assert (Q : exp (z * z) <= exp (t * t)) by now apply exp_mono.
    apply Rle_lt_trans with (K * (4 * e1) * Rabs t).
    + apply Rmult_le_compat_r; [exact Ht|]. apply Rmult_le_compat; [assert (X0 := exp_pos (z * z)); lra|apply Rabs_pos|unfold K; lra|lra].
    + replace eps with (8 * K * (Rabs t + 1) * e1) by (unfold e1; field; lra). assert (0 < K * e1) by now apply Rmult_lt_0_compat. assert (0 <= K * e1 * Rabs t) by (apply Rmult_le_pos; lra). lra.
Qed.

(** ** One Gaussian *)
Section One.
Variables a b E : R.
Hypothesis Ha : 0 < a.
Definition psi (y : R) : R := gs (a * (y - b)) / (y - E).
Lemma psi_cont (y : R) : y <> E -> continuous psi y.
Proof. intros H. apply (ex_derive_continuous (V := R_NormedModule)). unfold psi, gs. auto_derive. lra. Qed.
Lemma psi_ex u v : u <= v -> (v < E \/ E < u) -> ex_RInt psi u v.
Proof. intros H1 H2. apply (ex_RInt_continuous (V := R_CompleteNormedModule)). intros y Hy. rewrite Rmin_left, Rmax_right in Hy by exact H1. apply psi_cont. lra. Qed.
Lemma psi_sym d N : 0 < d -> d < N -> RInt psi (E - N) (E - d) + RInt psi (E + d) (E + N) = - gs (a * (E - b)) * hg (a * d) (a * N) (a * (E - b)).
Proof.
  intros Hd HN. set (t := a * (E - b)). assert (Hd' : 0 < a * d) by now apply Rmult_lt_0_compat. assert (HN' : a * d < a * N) by now apply Rmult_lt_compat_l.
  assert (X1 := RInt_correct (V := R_CompleteNormedModule) _ _ _ (psi_ex (E + d) (E + N) ltac:(lra) ltac:(lra))). assert (X2 := RInt_correct (V := R_CompleteNormedModule) _ _ _ (psi_ex (E - N) (E - d) ltac:(lra) ltac:(lra))).
  assert (X3 := RInt_correct (V := R_CompleteNormedModule) _ _ _ (hi_ex (a * d) (a * N) Hd' HN' t)). fold (hg (a * d) (a * N) t) in X3.
  set (I1 := RInt (V := R_CompleteNormedModule) psi (E + d) (E + N)) in *. set (I2 := RInt (V := R_CompleteNormedModule) psi (E - N) (E - d)) in *. change (I2 + I1 = - gs t * hg (a * d) (a * N) t).
  replace (E + d) with (1 * d + E) in X1 by ring. replace (E + N) with (1 * N + E) in X1 by ring. apply (is_RInt_comp_lin (V := R_NormedModule)) in X1.
  apply is_RInt_swap in X2. replace (E - d) with (-1 * d + E) in X2 by ring. replace (E - N) with (-1 * N + E) in X2 by ring. apply (is_RInt_comp_lin (V := R_NormedModule)) in X2. apply (is_RInt_opp (V := R_NormedModule)) in X2.
  replace (a * d) with (a * d + 0) in X3 at 2 by ring. replace (a * N) with (a * N + 0) in X3 at 2 by ring. apply (is_RInt_comp_lin (V := R_NormedModule)) in X3. apply (is_RInt_scal (V := R_NormedModule) _ _ _ (- gs t)) in X3.
  assert (X := is_RInt_plus (V := R_NormedModule) _ _ _ _ _ _ X2 X1).
  assert (Y : is_RInt (fun y => scal (- gs t) (scal a (hi (a * d) (a * N) t (a * y + 0)))) d N (plus (opp (opp I2)) I1)).
  { revert X. apply is_RInt_ext. intros y Hy. rewrite Rmin_left, Rmax_right in Hy by lra. change (- (-1 * psi (-1 * y + E)) + 1 * psi (1 * y + E) = - gs t * (a * hi (a * d) (a * N) t (a * y + 0))). unfold psi, hi.
    replace (a * (-1 * y + E - b)) with (t - a * y) by (unfold t; ring). replace (a * (1 * y + E - b)) with (t + a * y) by (unfold t; ring). rewrite Rplus_0_r. replace (-1 * y + E - E) with (- y) by ring. replace (1 * y + E - E) with y by ring.
    replace (- gs t * (a * (exp (- (a * y * (a * y))) * (exp (2 * t * (a * y)) - exp (- (2 * t * (a * y)))) / (a * y)))) with ((gs t * exp (- (a * y * (a * y))) * exp (- (2 * t * (a * y))) - gs t * exp (- (a * y * (a * y))) * exp (2 * t * (a * y))) / y) by (field; lra).
    unfold gs. rewrite <- !exp_plus. replace (- (t * t) + - (a * y * (a * y)) + - (2 * t * (a * y))) with (- ((t + a * y) * (t + a * y))) by ring. replace (- (t * t) + - (a * y * (a * y)) + 2 * t * (a * y)) with (- ((t - a * y) * (t - a * y))) by ring. field. lra. }
  apply (is_RInt_unique (V := R_CompleteNormedModule)) in Y. apply (is_RInt_unique (V := R_CompleteNormedModule)) in X3. apply (eq_trans (eq_sym X3)) in Y. change (- gs t * hg (a * d) (a * N) t = - - I2 + I1) in Y. lra.
Qed.
Hypothesis HE : 0 < E.
Lemma psi_limit eps : 0 < eps -> exists s M0, 0 < s /\ 0 < M0 /\ forall d M, 0 < d < s -> M0 < M -> d < E /\ E + d < M /\
  Rabs (RInt psi (- M) (E - d) + RInt psi (E + d) M + 2 * sqrt PI * (gs (a * (E - b)) * q (a * (E - b)))) < eps.
Proof.
  intros He. set (t := a * (E - b)). assert (G := gs_pos t). destruct (hg_limit t (eps / 2 / gs t)) as (s & X & Hs & HX & L); [repeat apply Rdiv_lt_0_compat; lra|].
  exists (Rmin E (s / a)), (X / a + 3 * E + 4 * E / eps). assert (P1 : 0 < s / a) by now apply Rdiv_lt_0_compat. assert (P2 : 0 < X / a) by now apply Rdiv_lt_0_compat. assert (P3 : 0 < 4 * E / eps) by (apply Rdiv_lt_0_compat; lra). split; [apply Rmin_glb_lt; assumption|]. split; [lra|].
  intros d M [Hd0 Hd] HM. assert (Hd1 : d < E) by (eapply Rlt_le_trans; [exact Hd|apply Rmin_l]). assert (Hd2 : d < s / a) by (eapply Rlt_le_trans; [exact Hd|apply Rmin_r]). split; [exact Hd1|]. split; [lra|].
  assert (Y := psi_sym d (M - E) Hd0 ltac:(lra)). fold t in Y. replace (E + (M - E)) with M in Y by ring. replace (E - (M - E)) with (2 * E - M) in Y by ring.
  assert (S : RInt psi (- M) (E - d) = RInt psi (- M) (2 * E - M) + RInt psi (2 * E - M) (E - d)).
  { symmetry. apply (RInt_Chasles (V := R_CompleteNormedModule) psi (- M) (2 * E - M) (E - d)); apply psi_ex; lra. }
  assert (Tl : Rabs (RInt psi (- M) (2 * E - M)) <= (2 * E - M - - M) * / (M - E)).
  { apply abs_RInt_le_const; [lra|apply psi_ex; lra|]. intros y Hy. unfold psi. rewrite Rabs_div by lra. rewrite Rabs_pos_eq by apply Rlt_le, gs_pos. rewrite Rabs_left by lra. replace (/ (M - E)) with (1 * / (M - E)) by ring.
    apply Rmult_le_compat; [apply Rlt_le, gs_pos|apply Rlt_le, Rinv_0_lt_compat; lra| |apply Rinv_le_contravar; lra]. unfold gs. rewrite <- exp_0. apply exp_mono. assert (Z := Rle_0_sqr (a * (y - b))). unfold Rsqr in Z. lra. }
  assert (Tl' : (2 * E - M - - M) * / (M - E) < eps / 2).
  { replace (2 * E - M - - M) with (2 * E) by ring. apply Rmult_lt_reg_r with (M - E); [lra|]. rewrite Rmult_assoc, Rinv_l, Rmult_1_r by lra. assert (0 < eps / 2 * (M - E - 4 * E / eps)) by (apply Rmult_lt_0_compat; lra). replace (eps / 2 * (M - E - 4 * E / eps)) with (eps / 2 * (M - E) - 2 * E) in H by (field; lra). lra. }
  assert (H1 : 0 < a * d < s). { split; [now apply Rmult_lt_0_compat|]. apply Rmult_lt_reg_r with (/ a); [now apply Rinv_0_lt_compat|]. replace (a * d * / a) with d by (field; lra). exact Hd2. }
  assert (H2 : X < a * (M - E)). { replace X with (a * (X / a)) by (field; lra). apply Rmult_lt_compat_l; lra. }
  assert (H3 : a * d < a * (M - E)) by (apply Rmult_lt_compat_l; lra). specialize (L _ _ H1 H2 H3).
  rewrite S. replace (RInt psi (- M) (2 * E - M) + RInt psi (2 * E - M) (E - d) + RInt psi (E + d) M + 2 * sqrt PI * (gs t * q t)) with (RInt psi (- M) (2 * E - M) - gs t * (hg (a * d) (a * (M - E)) t - 2 * sqrt PI * q t)) by (rewrite Rmult_minus_distr_l; lra).
  eapply Rle_lt_trans; [apply Rabs_triang|]. rewrite Rabs_Ropp, Rabs_mult, (Rabs_pos_eq (gs t)) by lra.
  assert (gs t * Rabs (hg (a * d) (a * (M - E)) t - 2 * sqrt PI * q t) < eps / 2); [|lra]. replace (eps / 2) with (gs t * (eps / 2 / gs t)) by (field; lra). now apply Rmult_lt_compat_l.
Qed.
End One.

(** The transform of an odd function from the integral over both signs *)
Lemma kk_odd (e2 : R -> R) E W K : 0 < E -> (forall x, e2 (- x) = - e2 x) -> (forall x : R, continuous e2 x) -> (forall x, Rabs (e2 x) <= K) ->
  (forall eps, 0 < eps -> exists s M0, 0 < s /\ forall d M, 0 < d < s -> M0 < M ->
    Rabs (RInt (fun y => e2 y / (y - E)) (- M) (E - d) + RInt (fun y => e2 y / (y - E)) (E + d) M - W) < eps) ->
  kk_transform e2 E (W / PI).
Proof.
  intros HE Od Ce Bd L. set (ps := fun y => e2 y / (y - E)) in *. assert (P := PI_RGT_0). assert (K0 : 0 <= K) by (eapply Rle_trans; [apply Rabs_pos|apply (Bd 0)]).
  assert (Cp : forall y : R, y <> E -> continuous ps y). { intros y Hy. unfold ps, Rdiv. apply (continuous_mult (K := R_AbsRing) e2 (fun y => / (y - E))); [apply Ce|]. apply (ex_derive_continuous (V := R_NormedModule)). auto_derive. lra. }
  assert (Ex : forall u v, u <= v -> (v < E \/ E < u) -> ex_RInt ps u v). { intros u v H1 H2. apply (ex_RInt_continuous (V := R_CompleteNormedModule)). intros y Hy. rewrite Rmin_left, Rmax_right in Hy by exact H1. apply Cp. lra. }
  assert (Half : forall u v, 0 <= u -> u <= v -> (v < E \/ E < u) -> is_RInt (fun x => x * e2 x / (x ^ 2 - E ^ 2)) u v (/ 2 * (RInt ps u v + RInt ps (- v) (- u)))).
  { intros u v Hu H1 H2. assert (X1 := RInt_correct (V := R_CompleteNormedModule) _ _ _ (Ex u v H1 H2)). assert (X2 := RInt_correct (V := R_CompleteNormedModule) _ _ _ (Ex (- v) (- u) ltac:(lra) ltac:(lra))).
    set (I1 := RInt (V := R_CompleteNormedModule) ps u v) in *. set (I2 := RInt (V := R_CompleteNormedModule) ps (- v) (- u)) in *. apply is_RInt_swap in X2. replace (- u) with (-1 * u + 0) in X2 by ring. replace (- v) with (-1 * v + 0) in X2 by ring. apply (is_RInt_comp_lin (V := R_NormedModule)) in X2. apply (is_RInt_opp (V := R_NormedModule)) in X2.
    assert (X := is_RInt_scal (V := R_NormedModule) _ _ _ (/ 2) _ (is_RInt_plus (V := R_NormedModule) _ _ _ _ _ _ X1 X2)).
    replace (/ 2 * (I1 + I2)) with (scal (/ 2) (plus I1 (opp (opp I2)))) by (change (/ 2 * (I1 + - - I2) = / 2 * (I1 + I2)); ring).
    revert X. apply is_RInt_ext. intros x Hx. rewrite Rmin_left, Rmax_right in Hx by exact H1. change (/ 2 * (ps x + - (-1 * ps (-1 * x + 0))) = x * e2 x / (x ^ 2 - E ^ 2)). unfold ps. replace (-1 * x + 0) with (- x) by ring. rewrite Od. replace (x ^ 2 - E ^ 2) with ((x - E) * (x + E)) by ring. field. lra. }
  intros eps He. destruct (L (eps * PI / 2)) as (s & M0 & Hs & HL); [apply Rdiv_lt_0_compat; [apply Rmult_lt_0_compat|]; lra|].
  set (c := eps * PI * E / (4 * (K + 1))). assert (Hc : 0 < c) by (unfold c; apply Rdiv_lt_0_compat; [apply Rmult_lt_0_compat; [apply Rmult_lt_0_compat|]|]; lra).
  exists (Rmin s (Rmin E c)), (Rmax M0 (2 * E)). split; [repeat apply Rmin_glb_lt; assumption|]. intros d M [Hd0 Hd] HM.
  assert (D1 : d < s) by (eapply Rlt_le_trans; [exact Hd|apply Rmin_l]). assert (D2 : d < E) by (eapply Rlt_le_trans; [exact Hd|eapply Rle_trans; [apply Rmin_r|apply Rmin_l]]). assert (D3 : d < c) by (eapply Rlt_le_trans; [exact Hd|eapply Rle_trans; [apply Rmin_r|apply Rmin_r]]).
  assert (M1 : M0 < M) by (eapply Rle_lt_trans; [apply Rmax_l|exact HM]). assert (M2 : 2 * E < M) by (eapply Rle_lt_trans; [apply Rmax_r|exact HM]).
  exists (/ 2 * (RInt ps 0 (E - d) + RInt ps (- (E - d)) (- 0))), (/ 2 * (RInt ps (E + d) M + RInt ps (- M) (- (E + d)))). split; [apply Half; lra|]. split; [apply Half; lra|].
  specialize (HL d M ltac:(lra) M1). rewrite Ropp_0.
  assert (S1 : RInt ps (- (E - d)) 0 + RInt ps 0 (E - d) = RInt ps (- (E - d)) (E - d)) by (apply (RInt_Chasles (V := R_CompleteNormedModule)); apply Ex; lra).
  assert (S2 : RInt ps (- M) (- (E + d)) + RInt ps (- (E + d)) (- (E - d)) = RInt ps (- M) (- (E - d))) by (apply (RInt_Chasles (V := R_CompleteNormedModule)); apply Ex; lra).
  assert (S3 : RInt ps (- M) (- (E - d)) + RInt ps (- (E - d)) (E - d) = RInt ps (- M) (E - d)) by (apply (RInt_Chasles (V := R_CompleteNormedModule)); apply Ex; lra).
  assert (Tl : Rabs (RInt ps (- (E + d)) (- (E - d))) <= (- (E - d) - - (E + d)) * (K * / E)).
  { apply abs_RInt_le_const; [lra|apply Ex; lra|]. intros y Hy. unfold ps. rewrite Rabs_div by lra. rewrite (Rabs_left (y - E)) by lra. apply Rmult_le_compat; [apply Rabs_pos|apply Rlt_le, Rinv_0_lt_compat; lra|apply Bd|apply Rinv_le_contravar; lra]. }
  set (G := RInt ps (- (E + d)) (- (E - d))) in *. assert (Tl' : (- (E - d) - - (E + d)) * (K * / E) < eps * PI / 2).
  { replace (- (E - d) - - (E + d)) with (2 * d) by ring. apply Rle_lt_trans with (2 * d * ((K + 1) * / E)); [apply Rmult_le_compat_l; [lra|apply Rmult_le_compat_r; [apply Rlt_le, Rinv_0_lt_compat; exact HE|lra]]|].
    replace (eps * PI / 2) with (2 * c * ((K + 1) * / E)) by (unfold c; field; lra). apply Rmult_lt_compat_r; [apply Rmult_lt_0_compat; [lra|now apply Rinv_0_lt_compat]|lra]. }
  replace (2 / PI * (/ 2 * (RInt ps 0 (E - d) + RInt ps (- (E - d)) 0) + / 2 * (RInt ps (E + d) M + RInt ps (- M) (- (E + d)))) - W / PI)
    with (/ PI * ((RInt ps (- M) (E - d) + RInt ps (E + d) M - W) - G)).
  - rewrite Rabs_mult, (Rabs_pos_eq (/ PI)) by (apply Rlt_le, Rinv_0_lt_compat; exact P). apply Rmult_lt_reg_l with PI; [exact P|]. rewrite <- Rmult_assoc, Rinv_r, Rmult_1_l by lra. eapply Rle_lt_trans; [apply Rabs_triang|]. rewrite Rabs_Ropp. lra.
  - rewrite <- S3, <- S2, <- S1. fold G. field. lra.
Qed.

Lemma gs_even x : gs (- x) = gs x.
Proof. unfold gs. f_equal. ring. Qed.
Lemma gs_le1 x : gs x <= 1.
Proof. unfold gs. rewrite <- exp_0. apply exp_mono. assert (Z := Rle_0_sqr x). unfold Rsqr in Z. lra. Qed.

Lemma kk_gauss A a E0 E : 0 < a -> 0 < E ->
  kk_transform (fun x => A * (gs (a * (x - E0)) - gs (a * (x + E0)))) E
    (2 * A / sqrt PI * (gs (a * (E + E0)) * q (a * (E + E0)) - gs (a * (E - E0)) * q (a * (E - E0)))).
Proof.
  intros Ha HE. destruct sqrt_pi as [S1 S2]. set (D1 := gs (a * (E - E0)) * q (a * (E - E0))). set (D2 := gs (a * (E + E0)) * q (a * (E + E0))).
  replace (2 * A / sqrt PI * (D2 - D1)) with (A * (2 * sqrt PI * D2 - 2 * sqrt PI * D1) / PI) by (rewrite <- S2 at 3; field; lra).
  apply (kk_odd _ E _ (2 * Rabs A) HE).
  - intros x. replace (a * (- x - E0)) with (- (a * (x + E0))) by ring. replace (a * (- x + E0)) with (- (a * (x - E0))) by ring. rewrite !gs_even. ring.
  - intros x. apply (ex_derive_continuous (V := R_NormedModule)). unfold gs. auto_derive. trivial.
  - intros x. rewrite Rabs_mult. rewrite (Rmult_comm 2). apply Rmult_le_compat_l; [apply Rabs_pos|]. assert (G1 := gs_pos (a * (x - E0))). assert (G2 := gs_pos (a * (x + E0))). assert (G3 := gs_le1 (a * (x - E0))). assert (G4 := gs_le1 (a * (x + E0))). apply Rabs_le. lra.
  - intros eps He. assert (HA := Rabs_pos A). set (e := eps / (2 * (Rabs A + 1))). assert (He' : 0 < e) by (unfold e; apply Rdiv_lt_0_compat; lra).
    destruct (psi_limit a E0 E Ha HE e He') as (s1 & N1 & Hs1 & _ & L1). destruct (psi_limit a (- E0) E Ha HE e He') as (s2 & N2 & Hs2 & _ & L2).
    exists (Rmin s1 s2), (Rmax N1 N2). split; [now apply Rmin_glb_lt|]. intros d M [Hd0 Hd] HM.
    destruct (L1 d M) as (X1 & X2 & X3); [split; [lra|eapply Rlt_le_trans; [exact Hd|apply Rmin_l]]|eapply Rle_lt_trans; [apply Rmax_l|exact HM]|]. destruct (L2 d M) as (_ & _ & Y3); [split; [lra|eapply Rlt_le_trans; [exact Hd|apply Rmin_r]]|eapply Rle_lt_trans; [apply Rmax_r|exact HM]|].
    replace (E - - E0) with (E + E0) in Y3 by ring. fold D1 in X3. fold D2 in Y3.
    assert (Sp : forall u v, u <= v -> (v < E \/ E < u) -> RInt (fun y => A * (gs (a * (y - E0)) - gs (a * (y + E0))) / (y - E)) u v = A * (RInt (psi a E0 E) u v - RInt (psi a (- E0) E) u v)).
    { intros u v H1 H2. apply is_RInt_unique. assert (Z1 := RInt_correct (V := R_CompleteNormedModule) _ _ _ (psi_ex a E0 E u v H1 H2)). assert (Z2 := RInt_correct (V := R_CompleteNormedModule) _ _ _ (psi_ex a (- E0) E u v H1 H2)).
      assert (Z := is_RInt_scal (V := R_NormedModule) _ _ _ A _ (is_RInt_minus (V := R_NormedModule) _ _ _ _ _ _ Z1 Z2)). revert Z. apply is_RInt_ext. intros y Hy. change (A * (psi a E0 E y + - psi a (- E0) E y) = A * (gs (a * (y - E0)) - gs (a * (y + E0))) / (y - E)). unfold psi. replace (y - - E0) with (y + E0) by ring. unfold Rdiv. ring. }
    rewrite !Sp by lra. set (a1 := RInt (psi a E0 E) (- M) (E - d)) in *. set (a2 := RInt (psi a E0 E) (E + d) M) in *. set (b1 := RInt (psi a (- E0) E) (- M) (E - d)) in *. set (b2 := RInt (psi a (- E0) E) (E + d) M) in *.
    replace (A * (a1 - b1) + A * (a2 - b2) - A * (2 * sqrt PI * D2 - 2 * sqrt PI * D1)) with (A * ((a1 + a2 + 2 * sqrt PI * D1) - (b1 + b2 + 2 * sqrt PI * D2))) by ring. rewrite Rabs_mult.
    assert (T : Rabs (a1 + a2 + 2 * sqrt PI * D1 - (b1 + b2 + 2 * sqrt PI * D2)) <= 2 * e) by (eapply Rle_trans; [apply Rabs_triang|]; rewrite Rabs_Ropp; lra).
    apply Rle_lt_trans with (Rabs A * (2 * e)); [now apply Rmult_le_compat_l|]. replace eps with ((Rabs A + 1) * (2 * e)) by (unfold e; field; lra). apply Rmult_lt_compat_r; lra.
Qed.
