(** Complex numbers: Coquelicot's [C] with ring/field for integer constants,
    and the principal branches that numpy uses. *)
From Coq Require Import Reals Psatz ZArith Lra.
From Coquelicot Require Import Complex.
Open Scope R_scope.
Open Scope C_scope.
Bind Scope C_scope with C.

Definition ZtoC (z : Z) : C := RtoC (IZR z).

Lemma ZtoC_morph :
  ring_morph (RtoC 0) (RtoC 1) Cplus Cmult Cminus Copp (@eq C)
    0%Z 1%Z Z.add Z.mul Z.sub Z.opp Z.eqb ZtoC.
Proof.
  constructor; unfold ZtoC; intros; auto.
  - now rewrite plus_IZR, RtoC_plus.
  - now rewrite minus_IZR, RtoC_minus.
  - now rewrite mult_IZR, RtoC_mult.
  - now rewrite opp_IZR, RtoC_opp.
  - apply Z.eqb_eq in H. now subst.
Qed.

Ltac Ccst t :=
  match t with
  | RtoC (IZR ?z) =>
      match isZcst z with
      | true => constr:(z)
      | _ => constr:(InitialRing.NotConstant)
      end
  | _ => constr:(InitialRing.NotConstant)
  end.

Add Ring C_ring_Z : C_ring_theory (morphism ZtoC_morph, constants [Ccst]).
Add Field C_field_Z : C_field_theory (morphism ZtoC_morph, constants [Ccst]).

(** Componentwise equality. *)
Lemma C_ext (z w : C) : fst z = fst w -> snd z = snd w -> z = w.
Proof. destruct z, w; simpl; congruence. Qed.

Ltac Ccomp := apply C_ext; simpl.

(** Non-zeroness of integer constants, for [field] side conditions. *)
Lemma C_of_R_neq (x : R) : x <> 0%R -> RtoC x <> RtoC 0.
Proof. intros H E. apply H. now apply RtoC_inj in E. Qed.

Lemma Ci_sqr : Ci * Ci = - (1).
Proof. unfold Ci. Ccomp; ring. Qed.

Lemma Ci_neq0 : Ci <> 0.
Proof. unfold Ci. intros H. injection H. lra. Qed.

Lemma C_neq0_Re_Im (z : C) : z <> 0 -> (fst z <> 0 \/ snd z <> 0)%R.
Proof.
  intros H. destruct (Req_dec (fst z) 0); auto.
  right. intros E. apply H. Ccomp; auto.
Qed.

Lemma C_integral (z w : C) : z * w = 0 -> z = 0 \/ w = 0.
Proof.
  intros H. destruct (Ceq_dec z 0) as [|n]; auto.
  destruct (Ceq_dec w 0) as [|m]; auto.
  exfalso. revert H. now apply Cmult_neq_0.
Qed.

Lemma Copp_neq0 (z : C) : z <> 0 -> - z <> 0.
Proof.
  intros H E. apply H. replace z with (- - z) by ring. rewrite E. ring.
Qed.

Lemma Cinv_neq0 (z : C) : z <> 0 -> / z <> 0.
Proof.
  intros H E. assert (K : z * / z = 1) by now apply Cinv_r.
  rewrite E, Cmult_0_r in K. injection K. lra.
Qed.

Lemma Cdiv_neq0 (z w : C) : z <> 0 -> w <> 0 -> z / w <> 0.
Proof. intros. apply Cmult_neq_0; auto. now apply Cinv_neq0. Qed.

Lemma Cmult_cancel (z a b : C) : z <> 0 -> z * a = z * b -> a = b.
Proof.
  intros H E. replace a with (/ z * (z * a)) by (field; auto).
  rewrite E. field; auto.
Qed.

Lemma Csqr_eq (a b : C) : a * a = b * b -> a = b \/ a = - b.
Proof.
  intros H. assert (E : (a - b) * (a + b) = 0).
  { replace ((a - b) * (a + b)) with (a * a - b * b) by ring. rewrite H. ring. }
  apply C_integral in E. destruct E as [E|E]; [left|right].
  - replace a with (a - b + b) by ring. rewrite E. ring.
  - replace a with (a + b - b) by ring. rewrite E. ring.
Qed.

(** Side conditions of [field]. *)
Ltac Cnz :=
  repeat match goal with |- _ /\ _ => split end;
  auto using Ci_neq0;
  try (apply C_of_R_neq; lra).
Ltac Cfield := field; Cnz.

(** Squared modulus. *)
Definition Cnorm2 (z : C) : R := (fst z * fst z + snd z * snd z)%R.

Lemma Cnorm2_ge0 (z : C) : (0 <= Cnorm2 z)%R.
Proof. unfold Cnorm2. nra. Qed.

Lemma Cnorm2_eq0 (z : C) : Cnorm2 z = 0%R -> z = 0.
Proof. unfold Cnorm2. intros. Ccomp; nra. Qed.

Lemma Cnorm2_gt0 (z : C) : z <> 0 -> (0 < Cnorm2 z)%R.
Proof.
  intros H. destruct (Cnorm2_ge0 z) as [K|K]; auto.
  exfalso. apply H. apply Cnorm2_eq0. auto.
Qed.

Lemma Cnorm2_mult (z w : C) : Cnorm2 (z * w) = (Cnorm2 z * Cnorm2 w)%R.
Proof. unfold Cnorm2; simpl; ring. Qed.

Lemma Cnorm2_conj (z : C) : RtoC (Cnorm2 z) = z * Cconj z.
Proof. unfold Cnorm2, Cconj. Ccomp; ring. Qed.

Lemma Cnorm2_opp (z : C) : Cnorm2 (- z) = Cnorm2 z.
Proof. unfold Cnorm2; simpl; ring. Qed.

Lemma Cmod_sqr (z : C) : (Cmod z * Cmod z = Cnorm2 z)%R.
Proof.
  unfold Cmod, Cnorm2. rewrite sqrt_sqrt; [ring|nra].
Qed.

Lemma Cmod_sqrt (z : C) : Cmod z = sqrt (Cnorm2 z).
Proof. unfold Cmod, Cnorm2. f_equal. ring. Qed.

Lemma Cnorm2_inv (z : C) : z <> 0 -> Cnorm2 (/ z) = (/ Cnorm2 z)%R.
Proof.
  intros H. pose proof (Cnorm2_gt0 z H).
  assert (E : (Cnorm2 z * Cnorm2 (/ z) = 1)%R).
  { rewrite <- Cnorm2_mult, Cinv_r by auto. unfold Cnorm2; simpl; ring. }
  apply Rmult_eq_reg_l with (Cnorm2 z); [rewrite E; field|]; lra.
Qed.

Lemma Cnorm2_div (z w : C) : w <> 0 -> Cnorm2 (z / w) = (Cnorm2 z / Cnorm2 w)%R.
Proof. intros. unfold Cdiv. now rewrite Cnorm2_mult, Cnorm2_inv. Qed.

(** Conjugation. *)
Lemma Cconj_mult (z w : C) : Cconj (z * w) = Cconj z * Cconj w.
Proof. unfold Cconj. Ccomp; ring. Qed.
Lemma Cconj_plus (z w : C) : Cconj (z + w) = Cconj z + Cconj w.
Proof. unfold Cconj. Ccomp; ring. Qed.
Lemma Cconj_minus (z w : C) : Cconj (z - w) = Cconj z - Cconj w.
Proof. unfold Cconj. Ccomp; ring. Qed.
Lemma Cconj_opp (z : C) : Cconj (- z) = - Cconj z.
Proof. unfold Cconj. Ccomp; ring. Qed.
Lemma Cconj_conj (z : C) : Cconj (Cconj z) = z.
Proof. unfold Cconj. Ccomp; ring. Qed.
Lemma Cconj_R (x : R) : Cconj (RtoC x) = RtoC x.
Proof. unfold Cconj. Ccomp; ring. Qed.
Lemma Cconj_Ci : Cconj Ci = - Ci.
Proof. unfold Cconj, Ci. Ccomp; ring. Qed.
Lemma Cconj_neq0 (z : C) : z <> 0 -> Cconj z <> 0.
Proof.
  intros H E. apply H. rewrite <- (Cconj_conj z), E. apply Cconj_R.
Qed.
Lemma Cconj_inv (z : C) : z <> 0 -> Cconj (/ z) = / Cconj z.
Proof.
  intros H. apply Cmult_cancel with (Cconj z). now apply Cconj_neq0.
  rewrite <- Cconj_mult, !Cinv_r; auto using Cconj_neq0. apply Cconj_R.
Qed.
Lemma Cconj_div (z w : C) : w <> 0 -> Cconj (z / w) = Cconj z / Cconj w.
Proof. intros. unfold Cdiv. now rewrite Cconj_mult, Cconj_inv. Qed.

(** ** Principal square root (numpy.lib.scimath.sqrt). *)
Definition sgn_im (y : R) : R := if Rlt_dec y 0 then (-1)%R else 1%R.

Definition Csqrt (z : C) : C :=
  (sqrt ((Cmod z + fst z) / 2), (sgn_im (snd z) * sqrt ((Cmod z - fst z) / 2))%R).

Lemma Cmod_ge_Re (z : C) : (Rabs (fst z) <= Cmod z)%R.
Proof.
  unfold Cmod. rewrite <- sqrt_Rsqr_abs. apply sqrt_le_1_alt.
  unfold Rsqr. nra.
Qed.

Lemma Cmod_bounds (z : C) : (- Cmod z <= fst z <= Cmod z)%R.
Proof.
  pose proof (Cmod_ge_Re z). revert H. unfold Rabs. destruct Rcase_abs; lra.
Qed.

Lemma Csqrt_sqr (z : C) : Csqrt z * Csqrt z = z.
Proof.
  pose proof (Cmod_bounds z) as B. pose proof (Cmod_sqr z) as S.
  unfold Cnorm2 in S.
  set (a := sqrt ((Cmod z + fst z) / 2)).
  set (b := sqrt ((Cmod z - fst z) / 2)).
  assert (A : (a * a = (Cmod z + fst z) / 2)%R) by (apply sqrt_sqrt; lra).
  assert (D : (b * b = (Cmod z - fst z) / 2)%R) by (apply sqrt_sqrt; lra).
  assert (P : (a * b = Rabs (snd z) / 2)%R).
  { unfold a, b. rewrite <- sqrt_mult_alt by lra.
    replace ((Cmod z + fst z) / 2 * ((Cmod z - fst z) / 2))%R
      with (Rsqr (snd z / 2)) by (unfold Rsqr; lra).
    rewrite sqrt_Rsqr_abs. unfold Rdiv. rewrite Rabs_mult.
    rewrite (Rabs_right (/ 2)); lra. }
  unfold Csqrt. fold a b. Ccomp.
  - unfold sgn_im. destruct Rlt_dec; nra.
  - unfold sgn_im. revert P. unfold Rabs. destruct Rcase_abs, Rlt_dec; nra.
Qed.

Lemma Csqrt_Re_ge0 (z : C) : (0 <= fst (Csqrt z))%R.
Proof. apply sqrt_pos. Qed.

Lemma Csqrt_Im_ge0 (z : C) : (0 <= snd z)%R -> (0 <= snd (Csqrt z))%R.
Proof.
  intros H. unfold Csqrt; simpl. unfold sgn_im.
  destruct Rlt_dec; [lra|]. pose proof (sqrt_pos ((Cmod z - fst z) / 2)). lra.
Qed.

Lemma Csqrt_Im_le0 (z : C) : (snd z < 0)%R -> (snd (Csqrt z) <= 0)%R.
Proof.
  intros H. unfold Csqrt; simpl. unfold sgn_im.
  destruct Rlt_dec; [|lra]. pose proof (sqrt_pos ((Cmod z - fst z) / 2)). lra.
Qed.

(** The right half plane with the positive imaginary axis: the range of the
    principal square root. *)
Definition principal (w : C) : Prop :=
  (0 < fst w \/ (fst w = 0 /\ 0 <= snd w))%R.

Lemma Csqrt_principal (z : C) : principal (Csqrt z).
Proof.
  destruct (Csqrt_Re_ge0 z) as [H|H]; [left; auto|right; split; auto].
  destruct (Rle_dec 0 (snd z)) as [K|K].
  - now apply Csqrt_Im_ge0.
  - exfalso. assert (E : (fst (Csqrt z) * snd (Csqrt z) + snd (Csqrt z) * fst (Csqrt z) = snd z)%R)
      by exact (f_equal snd (Csqrt_sqr z)).
    rewrite <- H in E. lra.
Qed.

Lemma principal_unique (a b : C) : principal a -> principal b -> a * a = b * b -> a = b.
Proof.
  intros A B E. apply Csqr_eq in E. destruct E as [|E]; auto.
  subst a. unfold principal in *. simpl in *.
  assert (fst b = 0%R /\ snd b = 0%R) as [? ?] by (split; lra).
  Ccomp; lra.
Qed.

Lemma Csqrt_unique (w z : C) : principal w -> w * w = z -> w = Csqrt z.
Proof.
  intros P E. apply principal_unique; auto using Csqrt_principal.
  now rewrite Csqrt_sqr.
Qed.

Lemma Csqrt_0 : Csqrt 0 = 0.
Proof.
  symmetry. apply Csqrt_unique; [|ring]. right; simpl; lra.
Qed.

Lemma Csqrt_neq0 (z : C) : z <> 0 -> Csqrt z <> 0.
Proof. intros H E. apply H. rewrite <- (Csqrt_sqr z), E. ring. Qed.

Lemma Csqrt_pos (x : R) : (0 <= x)%R -> Csqrt (RtoC x) = RtoC (sqrt x).
Proof.
  intros H. symmetry. apply Csqrt_unique.
  - pose proof (sqrt_pos x). unfold principal; simpl. lra.
  - Ccomp; rewrite ?sqrt_sqrt by auto; ring.
Qed.

Lemma Csqrt_neg (x : R) : (0 <= x)%R -> Csqrt (RtoC (- x)) = (0%R, sqrt x).
Proof.
  intros H. symmetry. apply Csqrt_unique.
  - pose proof (sqrt_pos x). right; simpl. lra.
  - Ccomp; rewrite ?sqrt_sqrt by auto; ring.
Qed.

(** ** Exponential, sine, cosine. *)
Definition Cexp (z : C) : C := (exp (fst z) * cos (snd z), exp (fst z) * sin (snd z))%R.

Lemma Cexp_0 : Cexp 0 = 1.
Proof. unfold Cexp; Ccomp; rewrite exp_0, ?cos_0, ?sin_0; ring. Qed.

Lemma Cexp_plus (z w : C) : Cexp (z + w) = Cexp z * Cexp w.
Proof.
  unfold Cexp; Ccomp; rewrite exp_plus, ?cos_plus, ?sin_plus; ring.
Qed.

Lemma Cexp_neq0 (z : C) : Cexp z <> 0.
Proof.
  intros H. assert (E : Cexp z * Cexp (- z) = 1).
  { rewrite <- Cexp_plus. replace (z + - z) with (RtoC 0) by ring. apply Cexp_0. }
  rewrite H, Cmult_0_l in E. injection E. lra.
Qed.

Lemma Cexp_opp (z : C) : Cexp (- z) = / Cexp z.
Proof.
  apply Cmult_cancel with (Cexp z). apply Cexp_neq0.
  rewrite <- Cexp_plus, Cinv_r by apply Cexp_neq0.
  replace (z + - z) with (RtoC 0) by ring. apply Cexp_0.
Qed.

Lemma Cexp_conj (z : C) : Cconj (Cexp z) = Cexp (Cconj z).
Proof.
  unfold Cexp, Cconj; Ccomp; rewrite ?cos_neg, ?sin_neg; ring.
Qed.

Lemma Cmod_Cexp (z : C) : Cmod (Cexp z) = exp (fst z).
Proof.
  rewrite Cmod_sqrt. unfold Cnorm2, Cexp; simpl.
  replace (exp (fst z) * cos (snd z) * (exp (fst z) * cos (snd z)) +
   exp (fst z) * sin (snd z) * (exp (fst z) * sin (snd z)))%R
   with (Rsqr (exp (fst z)) * (Rsqr (sin (snd z)) + Rsqr (cos (snd z))))%R
   by (unfold Rsqr; ring).
  rewrite sin2_cos2, Rmult_1_r. apply sqrt_Rsqr. left. apply exp_pos.
Qed.

(** exp(i t) for real t *)
Definition cis (t : R) : C := (cos t, sin t).

Lemma cis_Cexp t : cis t = Cexp (Ci * RtoC t).
Proof.
  unfold cis, Cexp, Ci; Ccomp;
    replace (0 * t - 1 * 0)%R with 0%R by ring;
    replace (0 * 0 + 1 * t)%R with t by ring; rewrite exp_0; ring.
Qed.

Lemma cis_plus (a b : R) : cis (a + b) = cis a * cis b.
Proof. unfold cis; Ccomp; rewrite ?cos_plus, ?sin_plus; ring. Qed.

Lemma cis_norm t : Cnorm2 (cis t) = 1%R.
Proof.
  unfold Cnorm2, cis; simpl. pose proof (sin2_cos2 t). unfold Rsqr in *. lra.
Qed.

Lemma cis_neq0 t : cis t <> 0.
Proof. intros H. pose proof (cis_norm t). rewrite H in H0. unfold Cnorm2 in H0; simpl in H0. lra. Qed.

Definition Ccos (z : C) : C := (Cexp (Ci * z) + Cexp (- (Ci * z))) / 2.
Definition Csin (z : C) : C := (Cexp (Ci * z) - Cexp (- (Ci * z))) / (2 * Ci).

Lemma C2_neq0 : RtoC 2 <> 0.
Proof. apply C_of_R_neq; lra. Qed.

Lemma Ccos_sin_sqr (z : C) : Ccos z * Ccos z + Csin z * Csin z = 1.
Proof.
  unfold Ccos, Csin. rewrite Cexp_opp. pose proof (Cexp_neq0 (Ci * z)) as H.
  set (e := Cexp (Ci * z)) in *.
  replace ((e + / e) / 2 * ((e + / e) / 2) + (e - / e) / (2 * Ci) * ((e - / e) / (2 * Ci)))
    with (((e + / e) * (e + / e) * (Ci * Ci) + (e - / e) * (e - / e)) / (4 * (Ci * Ci)))
    by Cfield.
  rewrite Ci_sqr. Cfield.
Qed.

Lemma Cexp_Euler (z : C) : Cexp (Ci * z) = Ccos z + Ci * Csin z.
Proof. unfold Ccos, Csin. field. split; auto using Ci_neq0, C2_neq0. Qed.

Lemma Cexp_Euler_opp (z : C) : Cexp (- (Ci * z)) = Ccos z - Ci * Csin z.
Proof. unfold Ccos, Csin. field. split; auto using Ci_neq0, C2_neq0. Qed.

Lemma Ccos_R (t : R) : Ccos (RtoC t) = RtoC (cos t).
Proof.
  unfold Ccos, Cexp, Ci. Ccomp;
  replace (0 * t - 1 * 0)%R with 0%R by ring;
  replace (0 * 0 + 1 * t)%R with t by ring;
  rewrite ?Ropp_0, exp_0, ?cos_neg, ?sin_neg; field.
Qed.

Lemma Csin_R (t : R) : Csin (RtoC t) = RtoC (sin t).
Proof.
  unfold Csin, Cexp, Ci. Ccomp;
  replace (0 * t - 1 * 0)%R with 0%R by ring;
  replace (0 * 0 + 1 * t)%R with t by ring;
  rewrite ?Ropp_0, exp_0, ?cos_neg, ?sin_neg; field.
Qed.

Lemma Ccos_opp (z : C) : Ccos (- z) = Ccos z.
Proof.
  unfold Ccos. replace (Ci * - z) with (- (Ci * z)) by ring.
  replace (- - (Ci * z)) with (Ci * z) by ring. f_equal. ring.
Qed.

Lemma Csin_opp (z : C) : Csin (- z) = - Csin z.
Proof.
  unfold Csin. replace (Ci * - z) with (- (Ci * z)) by ring.
  replace (- - (Ci * z)) with (Ci * z) by ring. field. split; auto using Ci_neq0, C2_neq0.
Qed.

Lemma Ccos_0 : Ccos 0 = 1.
Proof. rewrite (Ccos_R 0), cos_0. reflexivity. Qed.
Lemma Csin_0 : Csin 0 = 0.
Proof. rewrite (Csin_R 0), sin_0. reflexivity. Qed.

Lemma Csin_PI_minus (z : C) : Csin (RtoC PI - z) = Csin z.
Proof.
  unfold Csin.
  replace (Ci * (RtoC PI - z)) with (Ci * RtoC PI + - (Ci * z)) by ring.
  replace (- (Ci * RtoC PI + - (Ci * z))) with (- (Ci * RtoC PI) + Ci * z) by ring.
  rewrite !Cexp_plus, (Cexp_opp (Ci * RtoC PI)).
  rewrite <- cis_Cexp. unfold cis. rewrite cos_PI, sin_PI.
  replace ((-1)%R, 0%R) with (RtoC (-1)) by reflexivity.
  field. split; [apply Ci_neq0|]. split; apply C_of_R_neq; lra.
Qed.

Lemma Ccos_PI_minus (z : C) : Ccos (RtoC PI - z) = - Ccos z.
Proof.
  unfold Ccos.
  replace (Ci * (RtoC PI - z)) with (Ci * RtoC PI + - (Ci * z)) by ring.
  replace (- (Ci * RtoC PI + - (Ci * z))) with (- (Ci * RtoC PI) + Ci * z) by ring.
  rewrite !Cexp_plus, (Cexp_opp (Ci * RtoC PI)).
  rewrite <- cis_Cexp. unfold cis. rewrite cos_PI, sin_PI.
  replace ((-1)%R, 0%R) with (RtoC (-1)) by reflexivity.
  field. split; apply C_of_R_neq; lra.
Qed.

(** ** Argument (numpy.angle), logarithm, arcsine. *)
Definition Carg (z : C) : R :=
  let x := fst z in let y := snd z in
  if Rlt_dec 0 x then atan (y / x)
  else if Rlt_dec x 0 then
    (if Rlt_dec y 0 then atan (y / x) - PI else atan (y / x) + PI)%R
  else if Rlt_dec 0 y then (PI / 2)%R
  else if Rlt_dec y 0 then (- (PI / 2))%R
  else 0%R.

Lemma cos_atan_pos x : (0 < cos (atan x))%R.
Proof. apply cos_gt_0; pose proof (atan_bound x); lra. Qed.

Lemma atan_polar x y : (0 < x)%R ->
  (sqrt (x * x + y * y) * cos (atan (y / x)) = x /\
   sqrt (x * x + y * y) * sin (atan (y / x)) = y)%R.
Proof.
  intros H. set (t := atan (y / x)).
  assert (T : (tan t = y / x)%R) by apply tan_atan.
  assert (Cp : (0 < cos t)%R) by apply cos_atan_pos.
  assert (S : (sin t = y / x * cos t)%R).
  { rewrite <- T. unfold tan. field. lra. }
  assert (E : (cos t * cos t * (x * x + y * y) = x * x)%R).
  { pose proof (sin2_cos2 t) as Q. unfold Rsqr in Q. rewrite S in Q.
    transitivity (x * x * (y / x * cos t * (y / x * cos t) + cos t * cos t))%R;
      [field; lra|rewrite Q; ring]. }
  assert (N : (0 <= x * x + y * y)%R) by nra.
  assert (M : (sqrt (x * x + y * y) * cos t = x)%R).
  { apply Rsqr_inj; try nra.
    - apply Rmult_le_pos; [apply sqrt_pos|lra].
    - unfold Rsqr.
      replace (sqrt (x * x + y * y) * cos t * (sqrt (x * x + y * y) * cos t))%R
        with (sqrt (x * x + y * y) * sqrt (x * x + y * y) * (cos t * cos t))%R by ring.
      rewrite sqrt_sqrt by auto. lra. }
  split; auto.
  rewrite S. replace (sqrt (x * x + y * y) * (y / x * cos t))%R
    with (sqrt (x * x + y * y) * cos t * (y / x))%R by ring.
  rewrite M. field. lra.
Qed.

Lemma Carg_polar (z : C) : (Cmod z * cos (Carg z) = fst z /\ Cmod z * sin (Carg z) = snd z)%R.
Proof.
  rewrite Cmod_sqrt. unfold Cnorm2, Carg. destruct z as [x y]; simpl.
  destruct (Rlt_dec 0 x) as [H|H]; [now apply atan_polar|].
  destruct (Rlt_dec x 0) as [K|K].
  - destruct (atan_polar (- x) (- y)) as [P Q]; [lra|].
    replace (- x * - x + - y * - y)%R with (x * x + y * y)%R in P, Q by ring.
    replace (- y / - x)%R with (y / x)%R in P, Q by (field; lra).
    destruct (Rlt_dec y 0).
    + rewrite cos_minus, sin_minus, cos_PI, sin_PI. split; lra.
    + rewrite cos_plus, sin_plus, cos_PI, sin_PI. split; lra.
  - assert (x = 0%R) by lra; subst x.
    replace (0 * 0 + y * y)%R with (Rsqr y) by (unfold Rsqr; ring).
    rewrite sqrt_Rsqr_abs. unfold Rabs.
    destruct (Rlt_dec 0 y); [|destruct (Rlt_dec y 0)];
      destruct Rcase_abs; try lra;
      rewrite ?cos_neg, ?sin_neg, ?cos_PI2, ?sin_PI2, ?cos_0, ?sin_0; split; lra.
Qed.

Lemma Carg_bound (z : C) : (- PI < Carg z <= PI)%R.
Proof.
  unfold Carg. pose proof PI_RGT_0. pose proof (atan_bound (snd z / fst z)) as B.
  destruct (Rlt_dec 0 (fst z)); [lra|].
  destruct (Rlt_dec (fst z) 0) as [K|K].
  - destruct (Rlt_dec (snd z) 0).
    + assert (0 < atan (snd z / fst z))%R.
      { rewrite <- atan_0. apply atan_increasing.
        replace (snd z / fst z)%R with (- snd z / - fst z)%R by (field; lra).
        apply Rdiv_lt_0_compat; lra. }
      lra.
    + assert (atan (snd z / fst z) <= 0)%R.
      { rewrite <- atan_0.
        assert (snd z / fst z <= 0)%R as [L|E].
        { replace (snd z / fst z)%R with (- (snd z * / - fst z))%R by (field; lra).
          assert (0 <= snd z * / - fst z)%R; [|lra].
          apply Rmult_le_pos; [lra|]. left. apply Rinv_0_lt_compat. lra. }
        - left. now apply atan_increasing.
        - rewrite E. lra. }
      lra.
  - repeat destruct Rlt_dec; lra.
Qed.

Lemma C_polar (z : C) : z = RtoC (Cmod z) * cis (Carg z).
Proof.
  destruct (Carg_polar z) as [P Q]. unfold cis. Ccomp; lra.
Qed.

Lemma Cmod_pos (z : C) : z <> 0 -> (0 < Cmod z)%R.
Proof. apply Cmod_gt_0. Qed.

Definition Clog (z : C) : C := (ln (Cmod z), Carg z).

Lemma Cexp_Clog (z : C) : z <> 0 -> Cexp (Clog z) = z.
Proof.
  intros H. rewrite (C_polar z) at 2. unfold Cexp, Clog, cis.
  simpl fst; simpl snd. rewrite exp_ln by now apply Cmod_pos.
  Ccomp; ring.
Qed.

(** arcsin z = -i log(i z + sqrt(1 - z^2)), the principal branch of numpy. *)
Definition Casin (z : C) : C := - Ci * Clog (Ci * z + Csqrt (1 - z * z)).

Lemma Casin_arg_neq0 (z : C) : Ci * z + Csqrt (1 - z * z) <> 0.
Proof.
  intros H. set (s := Csqrt (1 - z * z)) in *.
  assert (S : s * s = 1 - z * z) by apply Csqrt_sqr.
  assert (E : s = - (Ci * z)).
  { replace s with (Ci * z + s - Ci * z) by ring. rewrite H. ring. }
  rewrite E in S.
  replace (- (Ci * z) * - (Ci * z)) with (Ci * Ci * (z * z)) in S by ring.
  rewrite Ci_sqr in S.
  assert (K : RtoC 1 = 0).
  { replace (RtoC 1) with (1 - z * z + z * z) by ring. rewrite <- S. ring. }
  injection K. lra.
Qed.

Lemma Cexp_Casin (z : C) : Cexp (Ci * Casin z) = Ci * z + Csqrt (1 - z * z).
Proof.
  unfold Casin.
  replace (Ci * (- Ci * Clog (Ci * z + Csqrt (1 - z * z))))
    with (- (Ci * Ci) * Clog (Ci * z + Csqrt (1 - z * z))) by ring.
  rewrite Ci_sqr.
  replace (- - (1) * Clog (Ci * z + Csqrt (1 - z * z)))
    with (Clog (Ci * z + Csqrt (1 - z * z))) by ring.
  apply Cexp_Clog. apply Casin_arg_neq0.
Qed.

Lemma Cexp_Casin_opp (z : C) : Cexp (- (Ci * Casin z)) = - (Ci * z) + Csqrt (1 - z * z).
Proof.
  rewrite Cexp_opp, Cexp_Casin.
  pose proof (Casin_arg_neq0 z) as H. set (s := Csqrt (1 - z * z)) in *.
  apply Cmult_cancel with (Ci * z + s); auto.
  rewrite Cinv_r by auto.
  replace ((Ci * z + s) * (- (Ci * z) + s)) with (s * s - Ci * Ci * (z * z)) by ring.
  unfold s. rewrite Csqrt_sqr, Ci_sqr. ring.
Qed.

Lemma Csin_Casin (z : C) : Csin (Casin z) = z.
Proof.
  unfold Csin. rewrite Cexp_Casin, Cexp_Casin_opp.
  field. split; auto using Ci_neq0, C2_neq0.
Qed.

Lemma Ccos_Casin (z : C) : Ccos (Casin z) = Csqrt (1 - z * z).
Proof.
  unfold Ccos. rewrite Cexp_Casin, Cexp_Casin_opp.
  field. apply C2_neq0.
Qed.

(** Principal power with a real exponent (numpy.power on complex input). *)
Definition Cpowr (z : C) (a : R) : C :=
  if Ceq_dec z 0 then (if Req_EM_T a 0 then 1 else 0) else Cexp (RtoC a * Clog z).

(** Integer power. *)
Fixpoint Cpow (z : C) (n : nat) : C :=
  match n with O => 1 | S m => z * Cpow z m end.

Lemma Cpow_mult z w n : Cpow (z * w) n = Cpow z n * Cpow w n.
Proof. induction n; simpl; [ring|]. rewrite IHn. ring. Qed.

Lemma Cpow_add z n m : Cpow z (n + m) = Cpow z n * Cpow z m.
Proof. induction n; simpl; [ring|]. rewrite IHn. ring. Qed.

Lemma Cpow_Cexp z n : Cpow (Cexp z) n = Cexp (RtoC (INR n) * z).
Proof.
  induction n.
  - simpl. replace (0 * z) with (RtoC 0) by ring. now rewrite Cexp_0.
  - simpl Cpow. rewrite IHn, <- Cexp_plus. f_equal. rewrite S_INR, RtoC_plus. ring.
Qed.

(** Guarded division: [None] is a result that is not finite. *)
Definition cdiv (x y : C) : option C := if Ceq_dec y 0 then None else Some (x / y).

Lemma cdiv_some (x y : C) : y <> 0 -> cdiv x y = Some (x / y).
Proof. intros. unfold cdiv. destruct Ceq_dec; tauto. Qed.
