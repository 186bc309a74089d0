(** The definitions of digamma and gamma: the series converge, recurrence and values at 1. *)
From Coq Require Import Reals ZArith Lra Lia Psatz.
From Coquelicot Require Import Coquelicot.
From Verif.Base Require Import Py Cx Special.
From Verif.Proof Require Import DispersionsP.
Open Scope R_scope.

(** sum 1 / ((k + 1) (k + 2)) = 1 *)
Lemma telescope (a : nat -> R) (l : R) : is_lim_seq a l -> is_series (fun k => a k - a (S k)) (a 0%nat - l).
Proof.
  intros H. change (is_lim_seq (sum_n (fun k => a k - a (S k))) (Finite (a 0%nat - l))).
  assert (E : forall n, sum_n (fun k => a k - a (S k)) n = a 0%nat - a (S n)).
  { induction n as [|n IH]; [now rewrite sum_O|]. rewrite sum_Sn, IH. unfold plus. simpl. ring. }
  apply (is_lim_seq_ext (fun n => a 0%nat - a (S n))); [intros n; symmetry; apply E|].
  apply is_lim_seq_minus'; [apply is_lim_seq_const|]. apply is_lim_seq_incr_1 in H. exact H.
Qed.

Lemma inv_INR_lim c : is_lim_seq (fun k => / (INR k + c)) 0.
Proof.
  replace (Finite 0) with (Rbar_inv p_infty) by reflexivity. apply is_lim_seq_inv; [|discriminate].
  apply (is_lim_seq_plus INR (fun _ => c) p_infty c); [apply is_lim_seq_INR|apply is_lim_seq_const|reflexivity].
Qed.

Lemma sum_squares : ex_series (fun k => / ((INR k + 1) * (INR k + 1))).
Proof.
  apply (ex_series_incr_1 (V := R_NormedModule)).
  apply (ex_series_le (V := R_CompleteNormedModule)) with (b := fun k => / (INR k + 1) - / (INR (S k) + 1)).
  - intros k. unfold norm. simpl norm. unfold abs. simpl abs. assert (P := pos_INR k). rewrite !S_INR.
    assert (Q : 0 < / ((INR k + 1 + 1) * (INR k + 1 + 1))) by (apply Rinv_0_lt_compat; nra). rewrite Rabs_pos_eq by lra.
    replace (/ (INR k + 1) - / (INR k + 1 + 1)) with (/ ((INR k + 1) * (INR k + 1 + 1))) by (field; lra).
    apply Rinv_le_contravar; nra.
  - eexists. apply (telescope (fun k => / (INR k + 1)) 0). apply inv_INR_lim.
Qed.

(** A series whose terms are O(1 / k^2) from some index on converges *)
Lemma quadratic_series (f : nat -> R) (B : R) (N : nat) :
  (forall k, (N <= k)%nat -> Rabs (f k) <= B * / ((INR k + 1) * (INR k + 1))) -> ex_series f.
Proof.
  intros H. destruct N as [|N].
  - apply (ex_series_le (V := R_CompleteNormedModule)) with (b := fun k => B * / ((INR k + 1) * (INR k + 1))).
    + intros k. apply H. lia.
    + apply (ex_series_scal (V := R_NormedModule) B). apply sum_squares.
  - apply (ex_series_incr_n (V := R_NormedModule) f (S N)).
    apply (ex_series_le (V := R_CompleteNormedModule)) with (b := fun k => B * / ((INR (S N + k) + 1) * (INR (S N + k) + 1))).
    + intros k. apply H. lia.
    + apply (ex_series_incr_n (V := R_NormedModule) (fun k => B * / ((INR k + 1) * (INR k + 1))) (S N)).
      apply (ex_series_scal (V := R_NormedModule) B). apply sum_squares.
Qed.

Lemma archimed_nat (x : R) : exists n : nat, x <= INR n.
Proof.
  destruct (archimed x) as [A _]. exists (Z.to_nat (up x)). destruct (Z_le_dec 0 (up x)) as [P|P].
  - rewrite INR_IZR_INZ, Z2Nat.id by exact P. lra.
  - assert (Q : IZR (up x) <= 0) by (apply IZR_le; lia). assert (0 <= INR (Z.to_nat (up x))) by apply pos_INR. lra.
Qed.

Lemma C_comp_le (z : C) : Rabs (fst z) <= Cmod z /\ Rabs (snd z) <= Cmod z.
Proof.
  split; [apply Cmod_ge_Re|]. unfold Cmod. rewrite <- sqrt_Rsqr_abs. apply sqrt_le_1_alt. unfold Rsqr. nra.
Qed.

Lemma RtoC_nz x : x <> 0 -> RtoC x <> RtoC 0.
Proof. apply C_of_R_neq. Qed.

Lemma digamma_term_bound (z : C) : ~ pole z -> exists B N, forall k, (N <= k)%nat -> Cmod (digamma_term z k) <= B * / ((INR k + 1) * (INR k + 1)).
Proof.
  intros NP. destruct (archimed_nat (2 * Cmod z + 2)) as [N HN]. exists (4 * Cmod (z - RtoC 1))%R, N. intros k Hk.
  assert (P := pos_INR k). assert (Kz : 2 * Cmod z + 2 <= INR k) by (apply (Rle_trans _ _ _ HN), le_INR, Hk).
  assert (A : RtoC (INR k + 1) <> RtoC 0) by (apply RtoC_nz; lra).
  assert (Bz : (RtoC (INR k) + z)%C <> RtoC 0).
  { intros E. apply NP. exists k. rewrite RtoC_opp. replace z with ((RtoC (INR k) + z) - RtoC (INR k))%C by ring. rewrite E. ring. }
  unfold digamma_term. replace (/ RtoC (INR k + 1) - / (RtoC (INR k) + z))%C with ((z - RtoC 1) * / (RtoC (INR k + 1) * (RtoC (INR k) + z)))%C.
  2:{ rewrite RtoC_plus in *. field. split; assumption. }
  rewrite Cmod_mult, Cmod_inv by (intros E; apply C_integral in E; tauto). rewrite Cmod_mult, Cmod_R, (Rabs_pos_eq (INR k + 1)) by lra.
  assert (L : (INR k + 1) / 4 <= Cmod (RtoC (INR k) + z)%C).
  { assert (T := Cmod_triangle (RtoC (INR k) + z) (- z)). replace (RtoC (INR k) + z + - z)%C with (RtoC (INR k)) in T by ring. rewrite Cmod_R, Cmod_opp, Rabs_pos_eq in T by lra. lra. }
  assert (M0 := Cmod_ge_0 (z - RtoC 1)). rewrite (Rmult_comm 4), Rmult_assoc. apply Rmult_le_compat_l; [exact M0|].
  replace (4 * / ((INR k + 1) * (INR k + 1))) with (/ ((INR k + 1) * ((INR k + 1) / 4))) by (field; lra).
  apply Rinv_le_contravar; [nra|]. apply Rmult_le_compat_l; lra.
Qed.

Lemma digamma_converges (z : C) : ~ pole z -> ex_series (fun k => fst (digamma_term z k)) /\ ex_series (fun k => snd (digamma_term z k)).
Proof.
  intros NP. destruct (digamma_term_bound z NP) as (B & N & H).
  split; apply (quadratic_series _ B N); intros k Hk; (eapply Rle_trans; [|apply H; exact Hk]); apply C_comp_le.
Qed.

(** psi(1) = - gamma *)
Lemma not_pole_pos (z : C) : 0 < fst z -> ~ pole z.
Proof. intros H [n E]. rewrite E in H. simpl in H. assert (P := pos_INR n). lra. Qed.

Lemma digamma_1 : digamma (RtoC 1) = Some (RtoC (- euler_gamma)).
Proof.
  unfold digamma. destruct (pole_dec (RtoC 1)) as [P|_]; [exfalso; revert P; apply not_pole_pos; simpl; lra|]. f_equal.
  assert (Z : forall k, digamma_term (RtoC 1) k = RtoC 0).
  { intros k. unfold digamma_term. rewrite <- RtoC_plus. ring. }
  unfold CSeries. rewrite (Series_ext _ (fun _ => 0 * 0)), (Series_ext (fun k => snd _) (fun _ => 0 * 0)) by (intros k; rewrite Z; simpl; ring).
  rewrite Series_scal_l. apply injective_projections; simpl; ring.
Qed.

(** psi(z + 1) = psi(z) + 1 / z *)
Lemma CSeries_fst f : fst (CSeries f) = Series (fun k => fst (f k)). Proof. reflexivity. Qed.
Lemma digamma_step (z w : C) : digamma z = Some w -> digamma (z + RtoC 1)%C = Some (w + / z)%C.
Proof.
  unfold digamma. destruct (pole_dec z) as [|NP]; [discriminate|]. intros H. injection H as <-.
  assert (NP1 : ~ pole (z + RtoC 1)%C).
  { intros [n E]. apply NP. exists (S n). replace z with (z + RtoC 1 - RtoC 1)%C by ring. rewrite E, S_INR, <- RtoC_minus. f_equal. ring. }
  destruct (pole_dec (z + RtoC 1)%C) as [P|_]; [contradiction|]. f_equal.
  destruct (digamma_converges z NP) as [C1 C2]. destruct (digamma_converges _ NP1) as [D1 D2].
  assert (T : forall k, (digamma_term (z + RtoC 1) k - digamma_term z k = / (RtoC (INR k) + z) - / (RtoC (INR (S k)) + z))%C).
  { intros k. unfold digamma_term. rewrite S_INR, RtoC_plus. replace (RtoC (INR k) + (z + RtoC 1))%C with (RtoC (INR k) + RtoC 1 + z)%C by ring. ring. }
  assert (Lim : is_lim_seq (fun k => Cmod (/ (RtoC (INR k) + z))%C) 0).
  { destruct (archimed_nat (Cmod z + 1)) as [N HN].
    apply (is_lim_seq_le_le_loc (fun _ => 0) _ (fun k => / (INR k + - Cmod z))); [|apply is_lim_seq_const|apply inv_INR_lim].
    exists N. intros k Hk. assert (Kz : Cmod z + 1 <= INR k) by (apply (Rle_trans _ _ _ HN), le_INR, Hk). split; [apply Cmod_ge_0|].
    assert (Bz : (RtoC (INR k) + z)%C <> RtoC 0).
    { intros E. apply NP. exists k. rewrite RtoC_opp. replace z with ((RtoC (INR k) + z) - RtoC (INR k))%C by ring. rewrite E. ring. }
    rewrite Cmod_inv by exact Bz. assert (L : INR k + - Cmod z <= Cmod (RtoC (INR k) + z)%C).
    { assert (T' := Cmod_triangle (RtoC (INR k) + z) (- z)). replace (RtoC (INR k) + z + - z)%C with (RtoC (INR k)) in T' by ring.
      rewrite Cmod_R, Cmod_opp, Rabs_pos_eq in T' by apply pos_INR. lra. }
    apply Rinv_le_contravar; lra. }
  assert (Lc : is_lim_seq (fun k => fst (/ (RtoC (INR k) + z))%C) 0 /\ is_lim_seq (fun k => snd (/ (RtoC (INR k) + z))%C) 0).
  { split; apply is_lim_seq_abs_0; apply (is_lim_seq_le_le (fun _ => 0) _ (fun k => Cmod (/ (RtoC (INR k) + z))%C)); try apply is_lim_seq_const; try exact Lim;
      intros k; (split; [apply Rabs_pos|apply C_comp_le]). }
  destruct Lc as [L1 L2]. apply telescope in L1, L2.
  assert (E1 : Series (fun k => fst (digamma_term (z + RtoC 1) k)) = (Series (fun k => fst (digamma_term z k)) + fst (/ z)%C)).
  { apply is_series_unique in L1. replace (RtoC (INR 0) + z)%C with z in L1 by (simpl; ring).
    rewrite (Series_ext _ (fun k => fst (digamma_term (z + RtoC 1) k) - fst (digamma_term z k))) in L1 by (intros k; rewrite <- !(fun a b : C => eq_refl : fst (a - b)%C = fst a - fst b); now rewrite T).
    rewrite Series_minus in L1 by assumption. lra. }
  assert (E2 : Series (fun k => snd (digamma_term (z + RtoC 1) k)) = (Series (fun k => snd (digamma_term z k)) + snd (/ z)%C)).
  { apply is_series_unique in L2. replace (RtoC (INR 0) + z)%C with z in L2 by (simpl; ring).
    rewrite (Series_ext _ (fun k => snd (digamma_term (z + RtoC 1) k) - snd (digamma_term z k))) in L2 by (intros k; rewrite <- !(fun a b : C => eq_refl : snd (a - b)%C = snd a - snd b); now rewrite T).
    rewrite Series_minus in L2 by assumption. lra. }
  unfold CSeries. rewrite E1, E2. apply injective_projections; unfold Cminus, Cplus, Copp; cbn [fst snd]; ring.
Qed.

(** The gamma function of a positive number *)
Definition rterm (x : R) (k : nat) : R := x * ln (1 + / (INR k + 1)) - ln (1 + x / (INR k + 1)).
Lemma gamma_term_real x k : 0 < x -> gamma_term (RtoC x) k = RtoC (rterm x k).
Proof.
  intros H. assert (P := pos_INR k). unfold gamma_term, rterm. rewrite <- RtoC_div by lra. rewrite <- RtoC_plus, Clog_real.
  - rewrite <- RtoC_mult, <- RtoC_minus. reflexivity.
  - assert (0 < x / (INR k + 1)) by (apply Rdiv_lt_0_compat; lra). lra.
Qed.

(** y - y^2 / 2 <= ln (1 + y) <= y *)
Lemma ln_upper y : 0 <= y -> ln (1 + y) <= y.
Proof. intros H. destruct (Req_dec y 0) as [->|N]; [rewrite Rplus_0_r, ln_1; lra|]. left. rewrite <- (ln_exp y) at 2. apply ln_increasing; [lra|]. apply exp_ineq1. lra. Qed.
Lemma ln_lower y : 0 <= y -> y - y * y / 2 <= ln (1 + y).
Proof.
  intros H. destruct (MVT_gen (fun t => ln (1 + t) - (t - t * t / 2)) 0 y (fun t => / (1 + t) - (1 - t))) as (c & [Hc1 Hc2] & E).
  - intros t [Ht _]. rewrite Rmin_left in Ht by exact H. auto_derive; [lra|]. field. lra.
  - intros t [Ht _]. rewrite Rmin_left in Ht by exact H. apply continuity_pt_filterlim. apply (ex_derive_continuous (fun t => ln (1 + t) - (t - t * t / 2))). auto_derive. lra.
  - rewrite Rmin_left in Hc1 by exact H. replace (1 + 0) with 1 in E by ring. rewrite ln_1 in E.
    assert (Q : 0 <= (/ (1 + c) - (1 - c)) * (y - 0)).
    { apply Rmult_le_pos; [|lra]. replace (/ (1 + c) - (1 - c)) with (c * c / (1 + c)) by (field; lra). apply Rmult_le_pos; [nra|]. left. apply Rinv_0_lt_compat. lra. }
    lra.
Qed.
Lemma gamma_converges x : 0 < x -> ex_series (rterm x).
Proof.
  intros H. apply (quadratic_series _ (x + x * x) 0). intros k _. assert (P := pos_INR k). unfold rterm.
  set (u := / (INR k + 1)). assert (U : 0 < u) by (apply Rinv_0_lt_compat; lra).
  replace (x / (INR k + 1)) with (x * u) by reflexivity. rewrite Rinv_mult. fold u.
  assert (A := ln_upper u ltac:(lra)). assert (B := ln_lower u ltac:(lra)). assert (A' := ln_upper (x * u) ltac:(nra)). assert (B' := ln_lower (x * u) ltac:(nra)).
  apply Rabs_le. split; nra.
Qed.
Lemma gamma_series x : 0 < x -> Cgamma (RtoC x) = Some (RtoC (exp (Series (rterm x)) / x)).
Proof.
  intros H. unfold Cgamma. destruct (pole_dec (RtoC x)) as [P|_]; [exfalso; revert P; apply not_pole_pos; exact H|]. f_equal.
  assert (E : CSeries (gamma_term (RtoC x)) = RtoC (Series (rterm x))).
  { apply injective_projections; [apply Series_ext; intros k; now rewrite gamma_term_real|]. change (Series (fun k => snd (gamma_term (RtoC x) k)) = 0).
    rewrite (Series_ext _ (fun _ => 0 * 0)) by (intros k; rewrite gamma_term_real by exact H; simpl; ring). rewrite Series_scal_l. ring. }
  rewrite E, RtoC_div by lra. f_equal. unfold Cexp, RtoC. cbn [fst snd]. rewrite cos_0, sin_0. f_equal; ring.
Qed.
Lemma gamma_1 : Cgamma (RtoC 1) = Some (RtoC 1).
Proof.
  rewrite gamma_series by lra. rewrite (Series_ext _ (fun _ => 0 * 0)).
  - rewrite Series_scal_l, Rmult_0_l, exp_0. do 2 f_equal. field.
  - intros k. unfold rterm, Rdiv. rewrite !Rmult_1_l. ring.
Qed.
Lemma gamma_step x v : 0 < x -> Cgamma (RtoC x) = Some (RtoC v) -> Cgamma (RtoC (x + 1)) = Some (RtoC (x * v)).
Proof.
  intros H E. rewrite gamma_series in E by exact H. injection E as E. rewrite gamma_series by lra. do 2 f_equal. rewrite <- E.
  assert (S : Series (rterm (x + 1)) = Series (rterm x) + ln (1 + x)).
  { assert (T : forall k, rterm (x + 1) k - rterm x k = ln (1 + x / (INR k + 1)) - ln (1 + x / (INR (S k) + 1))).
    { intros k. unfold rterm. assert (P := pos_INR k). rewrite S_INR.
      replace (1 + / (INR k + 1)) with ((INR k + 1 + 1) / (INR k + 1)) by (field; lra).
      replace (1 + (x + 1) / (INR k + 1)) with ((INR k + 1 + 1 + x) / (INR k + 1)) by (field; lra).
      replace (1 + x / (INR k + 1)) with ((INR k + 1 + x) / (INR k + 1)) by (field; lra).
      replace (1 + x / (INR k + 1 + 1)) with ((INR k + 1 + 1 + x) / (INR k + 1 + 1)) by (field; lra).
      rewrite !ln_div by lra. ring. }
    assert (L : is_lim_seq (fun k => ln (1 + x / (INR k + 1))) (ln (1 + x * 0))).
    { apply (is_lim_seq_continuous (fun t => ln (1 + x * t)) (fun k => / (INR k + 1)) 0); [|apply inv_INR_lim].
      apply continuity_pt_filterlim. apply (ex_derive_continuous (fun t => ln (1 + x * t))). auto_derive. lra. }
    apply telescope in L. apply is_series_unique in L. rewrite (Series_ext _ (fun k => rterm (x + 1) k - rterm x k)) in L by (intros k; now rewrite T).
    rewrite Series_minus in L by (apply gamma_converges; lra). replace (1 + x * 0) with 1 in L by ring. rewrite ln_1 in L.
    replace (x / (INR 0 + 1)) with x in L by (simpl; field). lra. }
  rewrite S, exp_plus, exp_ln by lra. field. lra.
Qed.
