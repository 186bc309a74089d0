(** The poles between one and three dimensions, for C101. *)
From Coq Require Import Reals ZArith Lra Lia Psatz.
From Coquelicot Require Import Coquelicot.
From Verif.Base Require Import Py Cx Special.
From Verif.Model Require Import Units Dispersions Tanguy.
From Verif.Spec Require Import Exciton.
From Verif.Proof Require Import DispersionsP SpecialP TanguyP TanguyP3 TanguyP5.
Open Scope R_scope.

(** Gauss's limit is the gamma function of the model *)
Lemma rising_pos x m : 0 < x -> 0 < rising x m.
Proof. intros H. induction m as [|m IH]; simpl; [lra|]. apply Rmult_lt_0_compat; [exact IH|]. assert (P := pos_INR m). lra. Qed.
Definition gaussm (x : R) (m : nat) : R := Rpower (INR m + 1) x * INR (fact m) / rising x (S m).
Lemma gauss_step x m : 0 < x -> gaussm x (S m) = gaussm x m * exp (rterm x m).
Proof.
  intros X. assert (P := pos_INR m). assert (RP := rising_pos x m X). unfold gaussm, rterm, Rpower. unfold Rminus. rewrite exp_plus, exp_Ropp, exp_ln by (assert (0 < x / (INR m + 1)) by (apply Rdiv_lt_0_compat; lra); lra).
  replace (fact (S m)) with (S m * fact m)%nat by reflexivity. rewrite mult_INR, S_INR. cbn [rising]. rewrite S_INR.
  replace (ln (INR m + 1 + 1)) with (ln (INR m + 1) + ln (1 + / (INR m + 1))).
  - rewrite Rmult_plus_distr_l, exp_plus. assert (0 < x + INR m) by lra. field. repeat split; lra.
  - rewrite <- ln_mult; [f_equal; field; lra|lra|]. assert (0 < / (INR m + 1)) by (apply Rinv_0_lt_compat; lra). lra.
Qed.
Lemma gauss_sum x m : 0 < x -> gaussm x (S m) = exp (sum_n (rterm x) m) / x.
Proof.
  intros X. induction m as [|m IH].
  - rewrite gauss_step by exact X. rewrite sum_O. unfold gaussm. simpl. rewrite Rplus_0_l. unfold Rpower. rewrite ln_1, Rmult_0_r, exp_0. field. lra.
  - rewrite gauss_step by exact X. rewrite IH, sum_Sn. unfold plus; simpl. rewrite exp_plus. field. lra.
Qed.
Lemma gauss_lim x : 0 < x -> is_lim_seq (gaussm x) (exp (lnG x)).
Proof.
  intros X. apply is_lim_seq_incr_1. apply (is_lim_seq_ext (fun m => exp (sum_n (rterm x) m) / x)); [intros m; symmetry; now apply gauss_sum|].
  assert (S := Series_correct _ (gamma_converges x X)). change (is_lim_seq (sum_n (rterm x)) (Finite (Series (rterm x)))) in S.
  unfold lnG, Rminus. rewrite exp_plus, exp_Ropp, exp_ln by exact X. apply (is_lim_seq_scal_r _ (/ x) (Finite (exp (Series (rterm x))))).
  apply (is_lim_seq_continuous exp); [|exact S]. apply derivable_continuous_pt, derivable_pt_exp.
Qed.
Lemma gauss_lnG x : 0 < x -> gauss x (exp (lnG x)).
Proof.
  intros X eps He. assert (L := gauss_lim x X). apply is_lim_seq_spec in L. destruct (L (mkposreal eps He)) as [M HM]. exists M. exact HM.
Qed.
Lemma gauss_unique x G : 0 < x -> gauss x G -> G = exp (lnG x).
Proof.
  intros X H. assert (L := gauss_lim x X). assert (L2 : is_lim_seq (gaussm x) G).
  { apply is_lim_seq_spec. intros eps. destruct (H eps (cond_pos eps)) as [M HM]. exists M. exact HM. }
  apply is_lim_seq_unique in L, L2. rewrite L in L2. injection L2 as ->. reflexivity.
Qed.
Lemma lnG_fact n : exp (lnG (INR n + 1)) = INR (fact n).
Proof.
  assert (H : forall n, Cgamma (RtoC (INR n + 1)) = Some (RtoC (INR (fact n)))).
  { intros m. induction m as [|m IH].
    - simpl. rewrite Rplus_0_l. apply gamma_1.
    - rewrite S_INR. assert (P : 0 < INR m + 1) by (assert (P := pos_INR m); lra). rewrite (gamma_step _ _ P IH). replace (fact (S m)) with (S m * fact m)%nat by reflexivity. rewrite mult_INR, S_INR. reflexivity. }
  assert (P := pos_INR n). assert (K := H n). rewrite gamma_lnG in K by lra. injection K as K. exact K.
Qed.

(** sin (PI t) / t *)
Lemma fill_cont (f : R -> R) (x l : R) : is_lim f x l -> continuous (fun y => if Req_EM_T y x then l else f y) x.
Proof.
  intros H P HP. unfold filtermap. destruct (Req_EM_T x x) as [_|N] in HP; [|now elim N].
  destruct (H P HP) as [e He]. exists e. intros y By. destruct (Req_EM_T y x) as [E|N]; [exact (locally_singleton _ _ HP)|]. now apply He.
Qed.
Definition sinq (t : R) : R := if Req_EM_T t 0 then PI else sin (PI * t) / t.
Lemma sinq_cont : continuous sinq 0.
Proof.
  apply (fill_cont (fun t => sin (PI * t) / t)). apply is_lim_spec. intros eps.
  assert (D : is_derive (fun t => sin (PI * t)) 0 PI) by (auto_derive; [exact I|rewrite Rmult_0_r, cos_0; ring]).
  apply is_derive_Reals in D. destruct (D eps (cond_pos eps)) as [e He]. exists e. intros y By Ny.
  specialize (He y Ny). rewrite Rplus_0_l, Rmult_0_r, sin_0, Rminus_0_r in He. apply He. change (Rabs (y - 0) < e) in By. now rewrite Rminus_0_r in By.
Qed.
Lemma rcot_periods n t : rcot (t + INR n * PI) = rcot t.
Proof.
  induction n as [|n IH]; [simpl; f_equal; ring|]. rewrite S_INR. replace (t + (INR n + 1) * PI) with (t + INR n * PI + PI) by ring. now rewrite rcot_period.
Qed.

Definition hh (dl x : R) : R := pref dl * exp (expo dl x).
Lemma hh_cont dl x : Rabs dl < 1 -> 0 < x -> continuous (hh dl) x.
Proof.
  intros D X. apply Rabs_def2 in D. unfold hh. apply (continuous_mult (K := R_AbsRing)); [apply continuous_const|].
  apply (continuous_comp (expo dl) exp); [|apply exp_cont]. unfold expo.
  apply (continuous_minus (V := R_NormedModule)); [apply (continuous_minus (V := R_NormedModule))|].
  - apply (continuous_comp (fun x => 1 / 2 + dl / 2 + x) lnG); [|apply lnG_cont; lra]. apply (ext_cont _ (fun x => (1 / 2 + dl / 2) + 1 * x)); [intros y; ring|apply lin_cont].
  - apply (continuous_comp (fun x => 1 / 2 - dl / 2 + x) lnG); [|apply lnG_cont; lra]. apply (ext_cont _ (fun x => (1 / 2 - dl / 2) + 1 * x)); [intros y; ring|apply lin_cont].
  - apply (continuous_mult (K := R_AbsRing)); [apply continuous_const|]. apply (ex_derive_continuous ln). auto_derive. exact X.
Qed.
Lemma rgd_cont_x dl x : Rabs dl < 1 -> 0 < x -> sin (PI * (1 / 2 + dl / 2 - x)) <> 0 -> continuous (rgd dl) x.
Proof.
  intros D X S. unfold rgd. apply (continuous_mult (K := R_AbsRing)); [exact (hh_cont dl x D X)|]. apply (continuous_minus (V := R_NormedModule)); [|apply continuous_const].
  apply (continuous_comp (fun x => PI * (1 / 2 + dl / 2 - x)) rcot); [|apply rcot_cont; exact S]. apply (ext_cont _ (fun x => PI * (1 / 2 + dl / 2) + - PI * x)); [intros y; ring|apply lin_cont].
Qed.

Lemma exp_three u v w : exp (u - v - w) = exp u * / exp v * / exp w.
Proof. unfold Rminus. now rewrite !exp_plus, !exp_Ropp. Qed.

Section PoleD.
Variables (A d Rb Eg a b : R) (n : nat).
Hypothesis D : 1 < d < 3.
Hypothesis HR : 0 < Rb.
Let q := INR n + (d - 1) / 2.
Let En := Eg - Rb / q ^ 2.
Hypothesis E0 : 0 < Eg - Rb / ((d - 1) / 2) ^ 2.
Hypothesis B : b <> En ^ 2.
Local Lemma dl1 : Rabs (d - 2) < 1. Proof. apply Rabs_def1; lra. Qed.
Local Lemma q_pos : (d - 1) / 2 <= q.
Proof. unfold q. assert (K := pos_INR n). lra. Qed.
Local Lemma En_lt : En < Eg.
Proof. assert (P := q_pos). unfold En. assert (0 < Rb / q ^ 2) by (apply Rdiv_lt_0_compat; [exact HR|apply pow_lt; lra]). lra. Qed.
Local Lemma En_pos : 0 < En.
Proof.
  assert (P := q_pos). unfold En. assert (Rb / q ^ 2 <= Rb / ((d - 1) / 2) ^ 2); [|lra].
  apply Rmult_le_compat_l; [lra|]. apply Rinv_le_contravar; [apply pow_lt; lra|]. apply pow_incr. lra.
Qed.
Local Lemma gap : Eg - En = Rb / q ^ 2.
Proof. unfold En. ring. Qed.
Local Lemma xsi_En : rxsi Rb Eg En = q.
Proof.
  assert (P := q_pos). unfold rxsi. rewrite gap. replace (Rb / (Rb / q ^ 2)) with (q * q) by (field; split; lra). apply sqrt_square. lra.
Qed.
Local Lemma ratio_pos E : E < Eg -> 0 < Rb / (Eg - E).
Proof. intros H. apply Rdiv_lt_0_compat; lra. Qed.
Local Lemma xsi_cont E : E < Eg -> continuous (rxsi Rb Eg) E.
Proof.
  intros H. apply (ex_derive_continuous (rxsi Rb Eg)). unfold rxsi. auto_derive. assert (R0 := ratio_pos E H). unfold Rdiv, Rminus in R0. repeat split; try assumption; lra.
Qed.
Local Lemma xsi_pos E : E < Eg -> 0 < rxsi Rb Eg E.
Proof. intros H. apply sqrt_lt_R0. now apply ratio_pos. Qed.
Local Lemma xsi_0 : rxsi Rb Eg 0 < (d - 1) / 2.
Proof.
  assert (P := q_pos). assert (G0 : 0 < Eg) by (assert (X := En_lt); assert (Y := En_pos); lra).
  unfold rxsi. rewrite <- (sqrt_square ((d - 1) / 2)) by lra. apply sqrt_lt_1_alt. split; [left; apply ratio_pos; lra|].
  rewrite Rminus_0_r. apply Rmult_lt_reg_r with Eg; [exact G0|]. replace (Rb / Eg * Eg) with Rb by (field; lra).
  assert (E1 := E0). apply Rmult_lt_compat_r with (r := ((d - 1) / 2) ^ 2) in E1; [|apply pow_lt; lra]. replace ((Eg - Rb / ((d - 1) / 2) ^ 2) * ((d - 1) / 2) ^ 2) with (Eg * ((d - 1) / 2) ^ 2 - Rb) in E1 by (field; lra). nra.
Qed.
Local Lemma xsi_neg E : 0 < E -> rxsi Rb Eg (- E) < rxsi Rb Eg 0.
Proof.
  intros H. assert (X := En_lt). assert (Y := En_pos). unfold rxsi. apply sqrt_lt_1_alt. split; [left; apply ratio_pos; lra|].
  apply Rmult_lt_compat_l; [exact HR|]. apply Rinv_lt_contravar; [|lra]. apply Rmult_lt_0_compat; lra.
Qed.
Lemma near_state_d : locally En (fun E => 0 < E < Eg /\ q - 1 / 2 < rxsi Rb Eg E < q + 1 / 2 /\ b <> E ^ 2).
Proof.
  assert (X := En_lt). assert (Y := En_pos). apply filter_and; [|apply filter_and].
  - apply (near_cont (fun E => E)); [apply continuous_id|lra].
  - apply near_cont; [now apply xsi_cont|]. rewrite xsi_En. lra.
  - assert (CC : continuous (fun E => E ^ 2) En) by (apply (ex_derive_continuous (fun E => E ^ 2)); auto_derive; exact I).
    assert (W := near_neq _ _ b CC ltac:(intros K; apply B; symmetry; exact K)). revert W. apply filter_imp. intros E W K. apply W. symmetry. exact K.
Qed.
Lemma state_only_d E k : E < Eg -> E <> En -> q - 1 / 2 < rxsi Rb Eg E < q + 1 / 2 -> rxsi Rb Eg E <> INR k + (d - 1) / 2.
Proof.
  intros H N [L U] K. unfold q in L, U. rewrite K in L, U.
  assert (E1 : (k < n + 1)%nat) by (apply INR_lt; rewrite plus_INR; simpl; lra).
  assert (E2 : (n < k + 1)%nat) by (apply INR_lt; rewrite plus_INR; simpl; lra).
  assert (k = n) by lia. subst k. apply bound_xsi in K; [|lra|exact HR|exact H]. apply N. exact K.
Qed.
Local Definition F (E : R) : R := A * Rpower Rb (d / 2 - 1) * / (E * E).
Local Definition restd (E : R) : R :=
  1 + a * / (b - E ^ 2) + F E * (- rcot (PI * (1 + (d - 2))) * hh (d - 2) (rxsi Rb Eg E) + rgd (d - 2) (rxsi Rb Eg (- E)) - 2 * rgd (d - 2) (rxsi Rb Eg 0)).
Local Definition maind (E : R) : R :=
  F E * hh (d - 2) (rxsi Rb Eg E) * (Rb * (rxsi Rb Eg E + q) * / (rxsi Rb Eg E * rxsi Rb Eg E) * / (q * q)) * (cos (PI * (rxsi Rb Eg E - q)) * / sinq (rxsi Rb Eg E - q)).
Local Lemma inv_comp (f : R -> R) : continuous f En -> f En <> 0 -> continuous (fun E => / f E) En.
Proof. intros H P. apply (continuous_comp f Rinv); [exact H|]. now apply continuous_Rinv. Qed.
Local Lemma F_cont : continuous F En.
Proof.
  assert (Y := En_pos). unfold F. apply (continuous_mult (K := R_AbsRing)); [apply continuous_const|].
  apply (inv_comp (fun E => E * E)); [|nra]. apply (ex_derive_continuous (fun E => E * E)). auto_derive. exact I.
Qed.
Local Lemma restd_cont : continuous restd En.
Proof.
  assert (X := En_lt). assert (Y := En_pos). assert (XC := xsi_cont En X). assert (XP := xsi_pos En X). assert (NP := xsi_pos (- En) ltac:(lra)). assert (XN := xsi_neg En Y). assert (X00 := xsi_0).
  unfold restd. apply (continuous_plus (V := R_NormedModule)); [apply (continuous_plus (V := R_NormedModule)); [apply continuous_const|]|].
  - apply (continuous_mult (K := R_AbsRing)); [apply continuous_const|]. apply (inv_comp (fun E => b - E ^ 2)); [|lra]. apply (ex_derive_continuous (fun E => b - E ^ 2)). auto_derive. exact I.
  - apply (continuous_mult (K := R_AbsRing)); [apply F_cont|]. apply (continuous_minus (V := R_NormedModule)); [|apply continuous_const]. apply (continuous_plus (V := R_NormedModule)).
    + apply (continuous_mult (K := R_AbsRing)); [apply continuous_const|]. apply (continuous_comp (rxsi Rb Eg) (hh (d - 2))); [exact XC|]. apply hh_cont; [apply dl1|exact XP].
    + apply (continuous_comp (fun E => rxsi Rb Eg (- E)) (rgd (d - 2))).
      * apply (continuous_comp Ropp (rxsi Rb Eg)); [apply (continuous_opp (V := R_NormedModule)), continuous_id|apply xsi_cont; lra].
      * apply rgd_cont_x; [apply dl1|exact NP|]. apply Rgt_not_eq. assert (PP := PI_RGT_0). apply sin_gt_0; [apply Rmult_lt_0_compat; lra|]. rewrite <- (Rmult_1_r PI) at 2. apply Rmult_lt_compat_l; lra.
Qed.
Local Lemma maind_cont : continuous maind En.
Proof.
  assert (X := En_lt). assert (Y := En_pos). assert (XC := xsi_cont En X). assert (XP := xsi_pos En X).
  unfold maind. assert (DC : continuous (fun E => rxsi Rb Eg E - q) En) by (apply (continuous_minus (V := R_NormedModule)); [exact XC|apply continuous_const]).
  apply (continuous_mult (K := R_AbsRing)); [apply (continuous_mult (K := R_AbsRing)); [apply (continuous_mult (K := R_AbsRing))|]|].
  - apply F_cont.
  - apply (continuous_comp (rxsi Rb Eg) (hh (d - 2))); [exact XC|]. apply hh_cont; [apply dl1|exact XP].
  - apply (continuous_mult (K := R_AbsRing)); [|apply continuous_const]. apply (continuous_mult (K := R_AbsRing)).
    + apply (continuous_mult (K := R_AbsRing)); [apply continuous_const|]. apply (continuous_plus (V := R_NormedModule)); [exact XC|apply continuous_const].
    + apply (inv_comp (fun E => rxsi Rb Eg E * rxsi Rb Eg E)); [|nra]. apply (continuous_mult (K := R_AbsRing)); exact XC.
  - apply (continuous_mult (K := R_AbsRing)).
    + apply (continuous_comp (fun E => rxsi Rb Eg E - q) (fun t => cos (PI * t))); [exact DC|]. apply (ex_derive_continuous (fun t => cos (PI * t))). auto_derive. exact I.
    + apply (inv_comp (fun E => sinq (rxsi Rb Eg E - q))).
      * apply (continuous_comp (fun E => rxsi Rb Eg E - q) sinq); [exact DC|]. rewrite xsi_En, Rminus_diag_eq by reflexivity. apply sinq_cont.
      * rewrite xsi_En, Rminus_diag_eq by reflexivity. unfold sinq. destruct (Req_EM_T 0 0) as [_|N]; [|now elim N]. apply PI_neq0.
Qed.
Local Lemma split_d E : 0 < E < Eg -> E <> En -> q - 1 / 2 < rxsi Rb Eg E < q + 1 / 2 -> b <> E ^ 2 ->
  (En - E) * rtanguy_d A d Rb Eg a b E = (En - E) * restd E + maind E.
Proof.
  intros [P H] N I NB. assert (SO := state_only_d E n H N I). fold q in SO. assert (XP := xsi_pos E H). assert (QP := q_pos).
  assert (SQ : rxsi Rb Eg E * rxsi Rb Eg E = Rb / (Eg - E)) by (unfold rxsi; apply sqrt_sqrt; left; now apply ratio_pos).
  unfold rtanguy_d, restd, maind, F. unfold rgd at 1. fold (hh (d - 2) (rxsi Rb Eg E)). set (x := rxsi Rb Eg E) in *. set (y := rxsi Rb Eg (- E)).
  replace (rcot (PI * (1 / 2 + (d - 2) / 2 - x))) with (- rcot (PI * (x - q))).
  2:{ replace (PI * (1 / 2 + (d - 2) / 2 - x)) with (- (PI * (x - q) + INR n * PI)) by (unfold q; field). rewrite !rcot_opp, rcot_periods. reflexivity. }
  assert (NZ : x - q <> 0) by lra.
  assert (SN : sin (PI * (x - q)) <> 0).
  { intros K. assert (PP := PI_RGT_0). destruct (Rtotal_order (x - q) 0) as [L|[L|L]]; [|lra|].
    - assert (0 < sin (PI * (q - x))) by (apply sin_gt_0; [apply Rmult_lt_0_compat; lra|rewrite <- (Rmult_1_r PI) at 2; apply Rmult_lt_compat_l; lra]).
      replace (PI * (x - q)) with (- (PI * (q - x))) in K by ring. rewrite sin_neg in K. lra.
    - assert (0 < sin (PI * (x - q))) by (apply sin_gt_0; [apply Rmult_lt_0_compat; lra|rewrite <- (Rmult_1_r PI) at 2; apply Rmult_lt_compat_l; lra]). lra. }
  unfold sinq. destruct (Req_EM_T (x - q) 0) as [K|_]; [contradiction|].
  assert (KEY : En - E = - (Rb * (x - q) * (x + q)) / (x * x) / (q * q)).
  { rewrite SQ at 1. unfold En. replace (- (Rb * (x - q) * (x + q))) with (- (Rb * (x * x - q * q))) by ring. rewrite SQ. field. repeat split; lra. }
  set (H0 := hh (d - 2) x). set (ct := rcot (PI * (1 + (d - 2)))). set (W := A * Rpower Rb (d / 2 - 1)). set (g2 := rgd (d - 2) y). set (g0 := rgd (d - 2) (rxsi Rb Eg 0)).
  transitivity ((En - E) * (1 + a * / (b - E ^ 2) + W * / (E * E) * (- ct * H0 + g2 - 2 * g0)) + W * / (E * E) * H0 * ((En - E) * - rcot (PI * (x - q)))).
  - field. repeat split; lra.
  - f_equal. unfold rcot. rewrite KEY. field. repeat split; try lra. 
Qed.
Lemma pole_lim_d : is_lim (fun E => (En - E) * rtanguy_d A d Rb Eg a b E) En
  (strength_d A d Rb Eg n (exp (lnG ((d - 1) / 2))) (exp (lnG (INR n + d - 1)))).
Proof.
  assert (QP := q_pos). assert (Y := En_pos).
  apply (is_lim_ext_loc (fun E => (En - E) * restd E + maind E)).
  - unfold Rbar_locally', locally', within. generalize near_state_d. apply filter_imp. intros E (P & I & NB) N. symmetry. now apply split_d.
  - replace (strength_d A d Rb Eg n (exp (lnG ((d - 1) / 2))) (exp (lnG (INR n + d - 1)))) with (0 + maind En).
    + apply is_lim_plus'; [apply bdd_lim, bdd_cont, restd_cont|apply cont_lim, maind_cont].
    + unfold maind. rewrite xsi_En. replace (q - q) with 0 by ring. rewrite Rmult_0_r, cos_0. unfold sinq. destruct (Req_EM_T 0 0) as [_|N]; [|now elim N].
      unfold F, hh, pref, expo. replace (1 / 2 + (d - 2) / 2 + q) with (INR n + d - 1) by (unfold q; field). replace (1 / 2 - (d - 2) / 2 + q) with (INR n + 1) by (unfold q; field).
      replace (1 / 2 + (d - 2) / 2) with ((d - 1) / 2) by field. rewrite exp_three, exp_Ropp, lnG_fact.
      replace (exp (2 * lnG ((d - 1) / 2))) with (exp (lnG ((d - 1) / 2)) ^ 2) by (simpl; rewrite Rmult_1_r, <- exp_plus; f_equal; ring).
      unfold strength_d, strength. fold q. fold En. change (exp ((d - 2) * ln q)) with (Rpower q (d - 2)).
      replace (Rpower Rb (d / 2)) with (Rpower Rb (d / 2 - 1) * Rb).
      * assert (X1 := exp_pos (lnG ((d - 1) / 2))). assert (X2 := INR_fact_neq_0 n). assert (X3 := exp_pos ((d - 2) * ln q)). change (exp ((d - 2) * ln q)) with (Rpower q (d - 2)) in X3. assert (PP := PI_RGT_0). field. repeat split; lra.
      * rewrite <- (Rpower_1 Rb HR) at 2. rewrite <- Rpower_plus. f_equal. ring.
Qed.
End PoleD.
