(** The integral of the Gaussian and its Hilbert transform *)
From Coq Require Import Reals Lra Psatz.
From Coquelicot Require Import Coquelicot.
Open Scope R_scope.

Lemma exp_mono x y : x <= y -> exp x <= exp y.
Proof. intros [H| ->]; [left; now apply exp_increasing|right; reflexivity]. Qed.

Definition gs (t : R) : R := exp (- (t * t)).
Definition gi (x : R) : R := RInt (V := R_CompleteNormedModule) gs 0 x.

Lemma gs_der x : is_derive gs x (- (2 * x) * gs x).
Proof. unfold gs. auto_derive; [trivial|]. ring. Qed.
Lemma gs_cont (x : R) : continuous gs x.
Proof. apply (ex_derive_continuous (V := R_NormedModule)). eexists. apply gs_der. Qed.
Lemma gs_pos x : 0 < gs x. Proof. apply exp_pos. Qed.
Lemma gs_ex a b : ex_RInt gs a b.
Proof. apply (ex_RInt_continuous (V := R_CompleteNormedModule)). intros; apply gs_cont. Qed.
Lemma gi_int a b : is_RInt gs a b (gi b - gi a).
Proof.
  assert (H1 := RInt_correct (V := R_CompleteNormedModule) _ _ _ (gs_ex 0 a)). assert (H2 := RInt_correct (V := R_CompleteNormedModule) _ _ _ (gs_ex 0 b)).
  apply is_RInt_swap in H1. assert (H := is_RInt_Chasles (V := R_NormedModule) _ _ _ _ _ _ H1 H2). replace (gi b - gi a) with (plus (opp (gi a)) (gi b)); [exact H|]. change (- gi a + gi b = gi b - gi a). ring.
Qed.
Lemma gi_der x : is_derive gi x (gs x).
Proof. apply (is_derive_RInt (V := R_NormedModule) gs gi 0 x); [|apply gs_cont]. exists (mkposreal 1 Rlt_0_1). intros y _. apply (RInt_correct (V := R_CompleteNormedModule)), gs_ex. Qed.
Lemma gi_0 : gi 0 = 0.
Proof. unfold gi. now rewrite RInt_point. Qed.

(** gi x ^ 2 plus an integral over the angle is constant *)
Definition ang (x t : R) : R := exp (- (x * x * (1 + t * t))) / (1 + t * t).
Definition angle_integral (x : R) : R := RInt (V := R_CompleteNormedModule) (fun t => ang x t) 0 1.
Lemma one_t t : 0 < 1 + t * t. Proof. assert (H := Rle_0_sqr t). unfold Rsqr in H. lra. Qed.
Lemma ang_der x t : is_derive (fun x => ang x t) x (- (2 * x) * exp (- (x * x * (1 + t * t)))).
Proof. assert (H := one_t t). unfold ang. auto_derive; [lra|]. field. lra. Qed.
Lemma ang_cont (x t : R) : continuous (ang x) t.
Proof. assert (H := one_t t). apply (ex_derive_continuous (V := R_NormedModule)). unfold ang. auto_derive. lra. Qed.
Lemma ang_ex x : ex_RInt (ang x) 0 1.
Proof. apply (ex_RInt_continuous (V := R_CompleteNormedModule)). intros; apply ang_cont. Qed.
Lemma ang_int_der x : is_derive angle_integral x (RInt (fun t => - (2 * x) * exp (- (x * x * (1 + t * t)))) 0 1).
Proof.
  assert (E : RInt (fun t => - (2 * x) * exp (- (x * x * (1 + t * t)))) 0 1 = RInt (fun t => Derive (fun u => ang u t) x) 0 1). { apply RInt_ext. intros t _. symmetry. apply is_derive_unique, ang_der. }
  rewrite E. apply is_derive_RInt_param.
  - exists (mkposreal 1 Rlt_0_1). intros y _ t _. eexists. apply ang_der.
  - intros t _. apply (continuity_2d_pt_ext (fun u v => - (2 * u) * exp (- (u * u * (1 + v * v))))). { intros u v. symmetry. apply is_derive_unique, ang_der. }
    apply continuity_2d_pt_mult.
    + apply (continuity_1d_2d_pt_comp (fun z => - (2 * z))); [|apply continuity_2d_pt_id1]. apply derivable_continuous_pt. apply ex_derive_Reals_0. auto_derive. trivial.
    + apply (continuity_1d_2d_pt_comp (fun z => exp (- z)) (fun u v => u * u * (1 + v * v))). { apply derivable_continuous_pt. apply ex_derive_Reals_0. auto_derive. trivial. }
      apply continuity_2d_pt_mult; [apply continuity_2d_pt_mult; apply continuity_2d_pt_id1|]. apply continuity_2d_pt_plus; [apply continuity_2d_pt_const|]. apply continuity_2d_pt_mult; apply continuity_2d_pt_id2.
  - exists (mkposreal 1 Rlt_0_1). intros y _. apply ang_ex.
Qed.
Lemma ang_int_val x : RInt (fun t => - (2 * x) * exp (- (x * x * (1 + t * t)))) 0 1 = - (2 * gi x * gs x).
Proof.
  apply is_RInt_unique. assert (H := gi_int (x * 0 + 0) (x * 1 + 0)). apply (is_RInt_comp_lin (V := R_NormedModule)) in H. apply (is_RInt_scal (V := R_NormedModule) _ _ _ (- (2) * gs x)) in H.
  replace (- (2 * gi x * gs x)) with (scal (- (2) * gs x) (gi (x * 1 + 0) - gi (x * 0 + 0))).
  - revert H. apply is_RInt_ext. intros t _. change (- (2) * gs x * (x * gs (x * t + 0)) = - (2 * x) * exp (- (x * x * (1 + t * t)))). replace (- (2) * gs x * (x * gs (x * t + 0))) with (- (2 * x) * (gs x * gs (x * t + 0))) by ring. f_equal. unfold gs. rewrite <- exp_plus. f_equal. ring.
  - change (- (2) * gs x * (gi (x * 1 + 0) - gi (x * 0 + 0)) = - (2 * gi x * gs x)). rewrite Rmult_1_r, Rmult_0_r, !Rplus_0_r, gi_0. ring.
Qed.
Lemma ang_0 : angle_integral 0 = PI / 4.
Proof.
  unfold angle_integral. apply is_RInt_unique. replace (PI / 4) with (minus (atan 1) (atan 0)) by (rewrite atan_1, atan_0; change (PI / 4 + - 0 = PI / 4); ring).
  apply (is_RInt_derive (V := R_CompleteNormedModule)).
  - intros t _. assert (H := one_t t). replace (ang 0 t) with (/ (1 + t ^ 2)); [apply is_derive_Reals, derivable_pt_lim_atan|]. unfold ang. replace (- (0 * 0 * (1 + t * t))) with 0 by ring. rewrite exp_0. replace (1 + t ^ 2) with (1 + t * t) by ring. unfold Rdiv. ring.
  - intros t _. apply ang_cont.
Qed.
Lemma gi_ang x : gi x ^ 2 + angle_integral x = PI / 4.
Proof.
  rewrite <- ang_0. replace (angle_integral 0) with (gi 0 ^ 2 + angle_integral 0) by (rewrite gi_0; ring).
  assert (D : forall y, is_derive (fun y => gi y ^ 2 + angle_integral y) y 0).
  { intros y. replace 0 with (INR 2 * gs y * gi y ^ 1 + - (2 * gi y * gs y)) by (cbn; ring). apply (is_derive_plus (V := R_NormedModule)); [apply is_derive_pow, gi_der|]. rewrite <- ang_int_val. apply ang_int_der. }
  destruct (MVT_gen (fun y => gi y ^ 2 + angle_integral y) 0 x (fun _ => 0)) as (z & _ & E).
  - intros y _. apply D.
  - intros y _. apply derivable_continuous_pt. apply ex_derive_Reals_0. eexists. apply D.
  - lra.
Qed.
Lemma ang_bound x : 0 <= angle_integral x <= gs x.
Proof.
  unfold angle_integral. split.
  - apply RInt_ge_0; [lra|apply ang_ex|]. intros t _. apply Rlt_le, Rdiv_lt_0_compat; [apply exp_pos|apply one_t].
  - replace (gs x) with (RInt (V := R_CompleteNormedModule) (fun _ => gs x) 0 1) by (rewrite RInt_const; change ((1 - 0) * gs x = gs x); ring).
    apply RInt_le; [lra|apply ang_ex|apply ex_RInt_const|]. intros t _. assert (H := one_t t). unfold ang. assert (T := Rle_0_sqr t). unfold Rsqr in T. apply Rmult_le_reg_r with (1 + t * t); [exact H|]. unfold Rdiv. rewrite Rmult_assoc, Rinv_l, Rmult_1_r by lra.
    apply Rle_trans with (gs x * 1); [|apply Rmult_le_compat_l; [apply Rlt_le, gs_pos|lra]]. rewrite Rmult_1_r. unfold gs. apply exp_mono. assert (0 <= x * x * (t * t)) by (apply Rmult_le_pos; [apply Rle_0_sqr|exact T]). lra.
Qed.

Lemma gs_small x : 0 < x -> gs x < / (x * x).
Proof.
  intros H. assert (X : 0 < x * x) by now apply Rmult_lt_0_compat. unfold gs. rewrite exp_Ropp. apply Rinv_lt_contravar; [apply Rmult_lt_0_compat; [exact X|apply exp_pos]|]. assert (E := exp_ineq1 (x * x) ltac:(lra)). lra.
Qed.
Lemma gi_nonneg x : 0 <= x -> 0 <= gi x.
Proof. intros H. apply RInt_ge_0; [exact H|apply gs_ex|]. intros t _. apply Rlt_le, gs_pos. Qed.
Lemma gi_odd x : gi (- x) = - gi x.
Proof.
  assert (H := gi_int (-1 * 0 + 0) (-1 * x + 0)). apply (is_RInt_comp_lin (V := R_NormedModule)) in H. assert (G := gi_int 0 x). apply (is_RInt_scal (V := R_NormedModule) _ _ _ (-1)) in G.
  assert (G' : is_RInt (fun y => scal (-1) (gs (-1 * y + 0))) 0 x (scal (-1) (gi x - gi 0))). { revert G. apply is_RInt_ext. intros t _. f_equal. unfold gs. f_equal. ring. }
  apply (is_RInt_unique (V := R_CompleteNormedModule)) in H. apply (is_RInt_unique (V := R_CompleteNormedModule)) in G'. apply (eq_trans (eq_sym H)) in G'. change (gi (-1 * x + 0) - gi (-1 * 0 + 0) = -1 * (gi x - gi 0)) in G'. replace (-1 * x + 0) with (- x) in G' by ring. replace (-1 * 0 + 0) with 0 in G' by ring. rewrite gi_0 in G'. lra.
Qed.
Lemma sqrt_pi : 1 < sqrt PI /\ sqrt PI * sqrt PI = PI.
Proof. assert (P := PI2_1). split; [rewrite <- sqrt_1; apply sqrt_lt_1; lra|apply sqrt_sqrt; lra]. Qed.
Lemma gi_close x : 0 <= x -> Rabs (gi x - sqrt PI / 2) <= 2 * gs x.
Proof.
  intros H. destruct sqrt_pi as [S1 S2]. assert (A := gi_ang x). assert (B := ang_bound x). assert (N := gi_nonneg x H). set (p := sqrt PI) in *. rewrite <- S2 in A.
  assert (E : (sqrt PI / 2 - gi x) * (gi x + p / 2) = angle_integral x) by (fold p; lra). fold p in E.
  assert (L : 0 <= p / 2 - gi x) by (apply Rmult_le_reg_r with (gi x + p / 2); lra).
  rewrite Rabs_minus_sym, Rabs_pos_eq by exact L. assert (0 <= (p / 2 - gi x) * (gi x + p / 2 - 1 / 2)) by (apply Rmult_le_pos; lra). lra.
Qed.
Lemma gi_limit eps : 0 < eps -> exists X, 0 < X /\ forall x, X < x -> Rabs (gi x - sqrt PI / 2) < eps.
Proof.
  intros He. exists (1 + 2 / eps). assert (Q : 0 < 2 / eps) by (apply Rdiv_lt_0_compat; lra). split; [lra|]. intros x Hx. eapply Rle_lt_trans; [apply gi_close; lra|]. assert (S := gs_small x ltac:(lra)).
  assert (/ (x * x) < eps / 2); [|lra]. replace (eps / 2) with (/ (2 / eps)) by (field; lra). apply Rinv_lt_contravar; [repeat apply Rmult_lt_0_compat; lra|]. assert (0 < (x - 1) * x) by (apply Rmult_lt_0_compat; lra). lra.
Qed.

(** ** The Hilbert transform with cut-offs *)
Definition hi (d M t u : R) : R := exp (- (u * u)) * (exp (2 * t * u) - exp (- (2 * t * u))) / u.
Definition hg (d M t : R) : R := RInt (V := R_CompleteNormedModule) (fun u => hi d M t u) d M.
Section Cut.
Variables d M : R.
Hypothesis Hd : 0 < d.
Hypothesis HM : d < M.
Lemma hi_der t u : d <= u -> is_derive (fun t => hi d M t u) t (2 * exp (- (u * u)) * (exp (2 * t * u) + exp (- (2 * t * u)))).
Proof. intros H. unfold hi. auto_derive; [lra|]. field. lra. Qed.
Lemma hi_cont t u : d <= u -> continuous (hi d M t) u.
Proof. intros H. apply (ex_derive_continuous (V := R_NormedModule)). unfold hi. auto_derive. lra. Qed.
Lemma hi_ex t : ex_RInt (hi d M t) d M.
Proof. apply (ex_RInt_continuous (V := R_CompleteNormedModule)). intros u Hu. rewrite Rmin_left in Hu by lra. now apply hi_cont. Qed.
Lemma hg_der t : is_derive (hg d M) t (RInt (fun u => 2 * exp (- (u * u)) * (exp (2 * t * u) + exp (- (2 * t * u)))) d M).
Proof.
  assert (E : RInt (fun u => 2 * exp (- (u * u)) * (exp (2 * t * u) + exp (- (2 * t * u)))) d M = RInt (fun u => Derive (fun t => hi d M t u) t) d M). { apply RInt_ext. intros u Hu. rewrite Rmin_left, Rmax_right in Hu by lra. symmetry. apply is_derive_unique, hi_der. lra. }
  rewrite E. apply is_derive_RInt_param.
  - exists (mkposreal 1 Rlt_0_1). intros y _ u Hu. rewrite Rmin_left in Hu by lra. eexists. apply hi_der. lra.
  - intros u Hu. rewrite Rmin_left, Rmax_right in Hu by lra. apply (continuity_2d_pt_ext_loc (fun t u => 2 * exp (- (u * u)) * (exp (2 * t * u) + exp (- (2 * t * u))))).
    { exists (mkposreal (d / 2) ltac:(lra)). intros x y _ Hy. cbn in Hy. symmetry. apply is_derive_unique. apply Rabs_def2 in Hy. unfold hi. auto_derive; [lra|]. field. lra. }
    assert (CE : forall f : R -> R -> R, continuity_2d_pt f t u -> continuity_2d_pt (fun x y => exp (f x y)) t u). { intros f Hf. apply (continuity_1d_2d_pt_comp exp f); [|exact Hf]. apply derivable_continuous_pt, derivable_pt_exp. }
    assert (C1 : continuity_2d_pt (fun x y => 2 * x * y) t u). { apply continuity_2d_pt_mult; [|apply continuity_2d_pt_id2]. apply continuity_2d_pt_mult; [apply continuity_2d_pt_const|apply continuity_2d_pt_id1]. }
    apply continuity_2d_pt_mult.
    + apply continuity_2d_pt_mult; [apply continuity_2d_pt_const|]. apply CE, continuity_2d_pt_opp, continuity_2d_pt_mult; apply continuity_2d_pt_id2.
    + apply continuity_2d_pt_plus; [apply CE, C1|apply CE, continuity_2d_pt_opp, C1].
  - exists (mkposreal 1 Rlt_0_1). intros y _. apply hi_ex.
Qed.
Definition width (t : R) : R := (gi (M - t) - gi (d - t)) + (gi (M + t) - gi (d + t)).
Lemma hg_val t : RInt (fun u => 2 * exp (- (u * u)) * (exp (2 * t * u) + exp (- (2 * t * u)))) d M = 2 * exp (t * t) * width t.
Proof.
  apply is_RInt_unique. assert (H1 := gi_int (1 * d + - t) (1 * M + - t)). assert (H2 := gi_int (1 * d + t) (1 * M + t)). apply (is_RInt_comp_lin (V := R_NormedModule)) in H1. apply (is_RInt_comp_lin (V := R_NormedModule)) in H2.
  assert (H := is_RInt_scal (V := R_NormedModule) _ _ _ (2 * exp (t * t)) _ (is_RInt_plus (V := R_NormedModule) _ _ _ _ _ _ H1 H2)).
  replace (2 * exp (t * t) * width t) with (scal (2 * exp (t * t)) (plus (gi (1 * M + - t) - gi (1 * d + - t)) (gi (1 * M + t) - gi (1 * d + t)))).
  - revert H. apply is_RInt_ext. intros u _. change (2 * exp (t * t) * (1 * gs (1 * u + - t) + 1 * gs (1 * u + t)) = 2 * exp (- (u * u)) * (exp (2 * t * u) + exp (- (2 * t * u)))). unfold gs. replace (2 * exp (t * t) * (1 * exp (- ((1 * u + - t) * (1 * u + - t))) + 1 * exp (- ((1 * u + t) * (1 * u + t))))) with (2 * (exp (t * t) * exp (- ((1 * u + - t) * (1 * u + - t))) + exp (t * t) * exp (- ((1 * u + t) * (1 * u + t))))) by ring.
    replace (2 * exp (- (u * u)) * (exp (2 * t * u) + exp (- (2 * t * u)))) with (2 * (exp (- (u * u)) * exp (2 * t * u) + exp (- (u * u)) * exp (- (2 * t * u)))) by ring. rewrite <- !exp_plus. f_equal. f_equal; f_equal; ring.
  - change (2 * exp (t * t) * ((gi (1 * M + - t) - gi (1 * d + - t)) + (gi (1 * M + t) - gi (1 * d + t))) = 2 * exp (t * t) * width t). unfold width. rewrite !Rmult_1_l. reflexivity.
Qed.
Lemma hg_0 : hg d M 0 = 0.
Proof.
  unfold hg. apply is_RInt_unique. apply (is_RInt_ext (fun _ => 0)). { intros u Hu. change (0 = hi d M 0 u). unfold hi. replace (2 * 0 * u) with 0 by ring. rewrite Ropp_0. unfold Rdiv. ring. }
  assert (H := is_RInt_const (V := R_NormedModule) d M 0). exact (eq_ind _ (fun y => is_RInt (fun _ : R => 0) d M y) H 0 (Rmult_0_r (M - d))).
Qed.
End Cut.
