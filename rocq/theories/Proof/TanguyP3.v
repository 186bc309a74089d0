(** The poles at the bound states, for C101. *)
From Coq Require Import Reals ZArith Lra Lia Psatz.
From Coquelicot Require Import Coquelicot.
From Verif.Base Require Import Py Cx Special.
From Verif.Model Require Import Units Dispersions Tanguy.
From Verif.Proof Require Import DispersionsP SpecialP TanguyP.
Open Scope R_scope.

(** Real digamma *)
Definition rpsi (x : R) : R := Series (fun k => / (INR k + 1) - / (INR k + x)) - euler_gamma.
Lemma digamma_term_R x k : INR k + x <> 0 -> digamma_term (RtoC x) k = RtoC (/ (INR k + 1) - / (INR k + x)).
Proof.
  intros N. assert (K := pos_INR k). unfold digamma_term. rewrite <- RtoC_plus, <- !RtoC_inv, <- RtoC_minus by (try exact N; lra). reflexivity.
Qed.
Lemma no_pole x k : ~ pole (RtoC x) -> INR k + x <> 0.
Proof. intros H E. apply H. exists k. f_equal. lra. Qed.
Lemma digamma_rpsi x : ~ pole (RtoC x) -> digamma (RtoC x) = Some (RtoC (rpsi x)).
Proof.
  intros H. unfold digamma. destruct (pole_dec _) as [|_]; [contradiction|]. f_equal. unfold rpsi. rewrite RtoC_minus. f_equal. unfold CSeries. apply injective_projections; cbn [fst snd RtoC].
  - apply Series_ext. intros k. rewrite digamma_term_R by now apply no_pole. reflexivity.
  - apply Series_zero. intros k. rewrite digamma_term_R by now apply no_pole. reflexivity.
Qed.
Lemma rpsi_conv x : ~ pole (RtoC x) -> ex_series (fun k => / (INR k + 1) - / (INR k + x)).
Proof.
  intros H. destruct (digamma_converges (RtoC x) H) as [C1 _]. eapply ex_series_ext; [|exact C1]. intros k. cbn beta. rewrite digamma_term_R by now apply no_pole. reflexivity.
Qed.
Lemma pos_no_pole x : 0 < x -> ~ pole (RtoC x).
Proof. intros H. apply not_pole_pos. exact H. Qed.
Lemma rpsi_mono x y : 0 < x -> x <= y -> rpsi x <= rpsi y.
Proof.
  intros X Y. assert (CX := rpsi_conv x (pos_no_pole x X)). assert (CY := rpsi_conv y (pos_no_pole y ltac:(lra))). unfold rpsi.
  assert (D : 0 <= Series (fun k => (/ (INR k + 1) - / (INR k + y)) - (/ (INR k + 1) - / (INR k + x)))).
  { rewrite <- (Series_zero (fun _ => 0)) by reflexivity. apply Series_le.
    - intros k. split; [lra|]. assert (K := pos_INR k). assert (/ (INR k + y) <= / (INR k + x)) by (apply Rinv_le_contravar; lra). lra.
    - apply (ex_series_minus (V := R_NormedModule)) with (1 := CY) (2 := CX). }
  rewrite Series_minus in D by assumption. lra.
Qed.
Lemma rpsi_step x : ~ pole (RtoC x) -> rpsi (x + 1) = rpsi x + / x.
Proof.
  intros H. assert (N := no_pole x 0 H). simpl in N. assert (D := digamma_step (RtoC x) _ (digamma_rpsi x H)).
  assert (H1 : ~ pole (RtoC (x + 1))). { intros [n E]. apply RtoC_inj in E. apply H. exists (S n). f_equal. rewrite S_INR. lra. }
  rewrite <- RtoC_plus, (digamma_rpsi _ H1) in D. rewrite <- RtoC_inv, <- RtoC_plus in D by lra. apply (f_equal (fun o => match o with Some v => fst v | None => 0 end)) in D. exact D.
Qed.
Fixpoint psum (m : nat) (x : R) : R := match m with O => 0 | S m' => psum m' x + / (x + INR m') end.
Lemma pole_shift x m : ~ pole (RtoC x) -> ~ pole (RtoC (x + INR m)).
Proof. intros H [n E]. apply RtoC_inj in E. apply H. exists (n + m)%nat. f_equal. rewrite plus_INR. lra. Qed.
Lemma rpsi_shift m x : ~ pole (RtoC x) -> rpsi x = rpsi (x + INR m) - psum m x.
Proof.
  intros H. induction m as [|m IH].
  - simpl. rewrite Rplus_0_r. ring.
  - rewrite IH. cbn [psum]. rewrite S_INR. replace (x + (INR m + 1)) with (x + INR m + 1) by ring. rewrite rpsi_step by now apply pole_shift. ring.
Qed.

(** Bounded near a point *)
Definition bdd (f : R -> R) (x : R) : Prop := exists M, locally' x (fun E => Rabs (f E) <= M).
Lemma bdd_plus f h x : bdd f x -> bdd h x -> bdd (fun E => f E + h E) x.
Proof.
  intros [M1 H1] [M2 H2]. exists (M1 + M2). generalize (filter_and _ _ H1 H2). apply filter_imp. intros E [A B]. eapply Rle_trans; [apply Rabs_triang|]. lra.
Qed.
Lemma bdd_mult f h x : bdd f x -> bdd h x -> bdd (fun E => f E * h E) x.
Proof.
  intros [M1 H1] [M2 H2]. exists (M1 * M2). generalize (filter_and _ _ H1 H2). apply filter_imp. intros E [A B]. rewrite Rabs_mult. apply Rmult_le_compat; try assumption; apply Rabs_pos.
Qed.
Lemma bdd_cont (f : R -> R) (x : R) : continuous f x -> bdd f x.
Proof.
  intros H. exists (Rabs (f x) + 1). apply filter_le_within. assert (P : locally (f x) (fun y => Rabs (y - f x) < 1)).
  { exists (mkposreal 1 Rlt_0_1). intros y Hy. exact Hy. }
  assert (Q : locally x (fun E => Rabs (f E - f x) < 1)) by exact (H _ P).
  revert Q. apply filter_imp. intros E HE. replace (f E) with (f x + (f E - f x)) by ring. eapply Rle_trans; [apply Rabs_triang|]. lra.
Qed.
Lemma bdd_lim f x : bdd f x -> is_lim (fun E => (x - E) * f E) x 0.
Proof.
  intros [M H]. apply is_lim_spec. intros eps. assert (M0 : 0 < Rabs M + 1) by (assert (Q := Rabs_pos M); lra).
  assert (P : locally' x (fun E => Rabs (x - E) < eps / (Rabs M + 1))).
  { apply filter_le_within. assert (D : 0 < eps / (Rabs M + 1)) by (apply Rdiv_lt_0_compat; [apply cond_pos|exact M0]). exists (mkposreal _ D). intros y Hy. rewrite Rabs_minus_sym. exact Hy. }
  generalize (filter_and _ _ H P). apply filter_imp. intros E [A B]. rewrite Rminus_0_r, Rabs_mult.
  assert (A' : Rabs (f E) < Rabs M + 1) by (assert (Q := Rle_abs M); lra). assert (F0 := Rabs_pos (f E)). assert (X0 := Rabs_pos (x - E)).
  apply Rle_lt_trans with (Rabs (x - E) * (Rabs M + 1)); [apply Rmult_le_compat_l; lra|].
  apply Rmult_lt_compat_r with (r := Rabs M + 1) in B; [|exact M0]. replace (eps / (Rabs M + 1) * (Rabs M + 1)) with (pos eps) in B by (field; lra). exact B.
Qed.
Lemma cont_lim (f : R -> R) (x : R) : continuous f x -> is_lim f x (f x).
Proof. intros H. apply is_lim_continuity. now apply continuity_pt_filterlim. Qed.
Lemma near_cont (f : R -> R) (x lo hi : R) : continuous f x -> lo < f x < hi -> locally x (fun E => lo < f E < hi).
Proof.
  intros H [L U]. assert (P : locally (f x) (fun y => lo < y < hi)).
  { apply locally_interval with (a := Finite lo) (b := Finite hi); [exact L|exact U|]. intros y A B. split; [exact A|exact B]. }
  exact (H _ P).
Qed.

(** The model below the gap in real numbers, for two and three dimensions *)
Definition rxsi (Rb Eg E : R) : R := sqrt (Rb / (Eg - E)).
Definition rg (d x : R) : R := 2 * ln x - 2 * rpsi ((d - 1) / 2 - x) - (d - 2) / x.
Lemma g_rg d x : d = 2 \/ d = 3 -> 0 < x -> (forall n, x <> INR n + (d - 1) / 2) -> g (RtoC x) d = Some (RtoC (rg d x)).
Proof.
  intros D X NB. assert (X0 : RtoC x <> RtoC 0) by (apply C_of_R_neq; lra). unfold g, rg. destruct D as [-> | ->].
  - destruct (Req_EM_T 2 2) as [_|N]; [|lra]. rewrite clog_ok, Clog_real by (try exact X; exact X0). cbn [obind]. rewrite <- RtoC_minus.
    rewrite digamma_rpsi. 2:{ intros [n E]. apply RtoC_inj in E. apply (NB n). lra. }
    cbn [obind]. f_equal. rewrite <- !RtoC_mult, <- RtoC_minus. f_equal. replace ((2 - 1) / 2 - x) with (0.5 - x) by lra. unfold Rdiv. ring.
  - destruct (Req_EM_T 3 2) as [E|_]; [lra|]. destruct (Req_EM_T 3 3) as [_|N]; [|lra]. rewrite clog_ok, Clog_real by (try exact X; exact X0). cbn [obind]. rewrite <- RtoC_minus.
    rewrite digamma_rpsi. 2:{ intros [n E]. apply RtoC_inj in E. apply (NB n). lra. }
    cbn [obind]. rewrite cdiv_real by lra. cbn [obind]. f_equal. rewrite <- !RtoC_mult, <- !RtoC_minus. f_equal. replace ((3 - 1) / 2 - x) with (1 - x) by lra. field. lra.
Qed.
Definition rtanguy (A d Rb Eg a b E : R) : R :=
  1 + a / (b - E ^ 2) + A * Rpower Rb (d / 2 - 1) / (E * E) * (rg d (rxsi Rb Eg E) + rg d (rxsi Rb Eg (- E)) - 2 * rg d (rxsi Rb Eg 0)).

Section Pole.
Variables (A d Rb Eg a b : R) (n : nat).
Hypothesis D : d = 2 \/ d = 3.
Hypothesis HR : 0 < Rb.
Let q := INR n + (d - 1) / 2.
Let En := Eg - Rb / q ^ 2.
Hypothesis E0 : 0 < Eg - Rb / ((d - 1) / 2) ^ 2.
Hypothesis B : b <> En ^ 2.
Local Lemma q_pos : (d - 1) / 2 <= q.
Proof. unfold q. assert (K := pos_INR n). lra. Qed.
Local Lemma d_pos : 1 / 2 <= (d - 1) / 2.
Proof. destruct D; lra. Qed.
Local Lemma En_lt : En < Eg.
Proof. assert (P := q_pos). assert (P2 := d_pos). unfold En. assert (0 < Rb / q ^ 2) by (apply Rdiv_lt_0_compat; [exact HR|apply pow_lt; lra]). lra. Qed.
Local Lemma En_pos : 0 < En.
Proof.
  assert (P := q_pos). assert (P2 := d_pos). unfold En. assert (Rb / q ^ 2 <= Rb / ((d - 1) / 2) ^ 2); [|lra].
  apply Rmult_le_compat_l; [lra|]. apply Rinv_le_contravar; [apply pow_lt; lra|]. apply pow_incr. lra.
Qed.
Local Lemma gap : Eg - En = Rb / q ^ 2.
Proof. unfold En. ring. Qed.
Local Lemma xsi_En : rxsi Rb Eg En = q.
Proof.
  assert (P := q_pos). assert (P2 := d_pos). unfold rxsi. rewrite gap. replace (Rb / (Rb / q ^ 2)) with (q * q) by (field; split; lra). apply sqrt_square. lra.
Qed.
Local Lemma ratio_pos E : E < Eg -> 0 < Rb / (Eg - E).
Proof. intros H. apply Rdiv_lt_0_compat; lra. Qed.
Local Lemma xsi_cont E : E < Eg -> continuous (rxsi Rb Eg) E.
Proof.
  intros H. apply (ex_derive_continuous (rxsi Rb Eg)). unfold rxsi. auto_derive. assert (R0 := ratio_pos E H). unfold Rdiv, Rminus in R0. repeat split; try assumption; lra.
Qed.
Local Lemma xsi_pos E : E < Eg -> 0 < rxsi Rb Eg E.
Proof. intros H. apply sqrt_lt_R0. now apply ratio_pos. Qed.
Local Lemma xsi_0 : rxsi Rb Eg 0 < (d - 1) / 2.
Proof.
  assert (P := q_pos). assert (P2 := d_pos). assert (G0 : 0 < Eg) by (assert (X := En_lt); assert (Y := En_pos); lra).
  unfold rxsi. rewrite <- (sqrt_square ((d - 1) / 2)) by lra. apply sqrt_lt_1_alt. split; [left; apply ratio_pos; lra|].
  rewrite Rminus_0_r. apply Rmult_lt_reg_r with Eg; [exact G0|]. replace (Rb / Eg * Eg) with Rb by (field; lra).
  assert (E1 := E0). apply Rmult_lt_compat_r with (r := ((d - 1) / 2) ^ 2) in E1; [|apply pow_lt; lra]. replace ((Eg - Rb / ((d - 1) / 2) ^ 2) * ((d - 1) / 2) ^ 2) with (Eg * ((d - 1) / 2) ^ 2 - Rb) in E1 by (field; lra). nra.
Qed.
Local Lemma xsi_neg E : 0 < E -> rxsi Rb Eg (- E) < rxsi Rb Eg 0.
Proof.
  intros H. assert (X := En_lt). assert (Y := En_pos). unfold rxsi. apply sqrt_lt_1_alt. split; [left; apply ratio_pos; lra|].
  apply Rmult_lt_compat_l; [exact HR|]. apply Rinv_lt_contravar; [|lra]. apply Rmult_lt_0_compat; lra.
Qed.

(** near the bound state *)
Lemma near_state : locally En (fun E => 0 < E < Eg /\ q - 1 / 2 < rxsi Rb Eg E < q + 1 / 2 /\ E ^ 2 <> b).
Proof.
  assert (X := En_lt). assert (Y := En_pos). apply filter_and; [|apply filter_and].
  - apply (near_cont (fun E => E)); [apply continuous_id|lra].
  - apply near_cont; [now apply xsi_cont|]. rewrite xsi_En. lra.
  - assert (CC : continuous (fun E => (E ^ 2 - b) ^ 2) En) by (apply (ex_derive_continuous (fun E => (E ^ 2 - b) ^ 2)); auto_derive; exact I).
    assert (V : 0 < (En ^ 2 - b) ^ 2) by (apply pow2_gt_0; lra).
    assert (W := near_cont _ _ 0 ((En ^ 2 - b) ^ 2 + 1) CC ltac:(lra)). revert W. apply filter_imp. intros E [W _] K. rewrite K in W. replace (b - b) with 0 in W by ring. simpl in W. lra.
Qed.
Lemma state_only E k : E < Eg -> E <> En -> q - 1 / 2 < rxsi Rb Eg E < q + 1 / 2 -> rxsi Rb Eg E <> INR k + (d - 1) / 2.
Proof.
  intros H N [L U] K. unfold q in L, U. rewrite K in L, U.
  assert (E1 : (k < n + 1)%nat) by (apply INR_lt; rewrite plus_INR; simpl; lra).
  assert (E2 : (n < k + 1)%nat) by (apply INR_lt; rewrite plus_INR; simpl; lra).
  assert (k = n) by lia. subst k. apply bound_xsi in K; [|assert (P2 := d_pos); lra|exact HR|exact H]. apply N. exact K.
Qed.

Local Lemma psum_cont m : (m <= n)%nat -> continuous (fun E => psum m ((d - 1) / 2 - rxsi Rb Eg E)) En.
Proof.
  induction m as [|m IH]; intros M.
  - apply continuous_const.
  - cbn [psum]. apply (continuous_plus (V := R_NormedModule)); [apply IH; lia|].
    apply (continuous_comp (fun E => (d - 1) / 2 - rxsi Rb Eg E + INR m) Rinv).
    + apply (continuous_plus (V := R_NormedModule)); [|apply continuous_const]. apply (continuous_minus (V := R_NormedModule)); [apply continuous_const|]. apply xsi_cont. apply En_lt.
    + rewrite xsi_En. apply continuous_Rinv. unfold q. assert (Q : INR m < INR n) by (apply lt_INR; lia). lra.
Qed.
Local Lemma xsi_neg_cont : continuous (fun E => rxsi Rb Eg (- E)) En.
Proof.
  assert (X := En_lt). assert (Y := En_pos). apply (continuous_comp Ropp (rxsi Rb Eg)); [apply (continuous_opp (V := R_NormedModule)), continuous_id|apply xsi_cont; lra].
Qed.
Local Lemma ln_comp (f : R -> R) : continuous f En -> 0 < f En -> continuous (fun E => ln (f E)) En.
Proof. intros H P. apply (continuous_comp f ln); [exact H|]. apply (ex_derive_continuous ln). auto_derive. exact P. Qed.
Local Lemma inv_comp (f : R -> R) : continuous f En -> f En <> 0 -> continuous (fun E => / f E) En.
Proof. intros H P. apply (continuous_comp f Rinv); [exact H|]. now apply continuous_Rinv. Qed.
Local Lemma bdd_const v : bdd (fun _ => v) En.
Proof. apply bdd_cont, continuous_const. Qed.

Local Lemma between lo hi x : lo <= x <= hi -> Rabs x <= Rabs lo + Rabs hi.
Proof. intros [L U]. unfold Rabs. repeat destruct Rcase_abs; lra. Qed.
Local Lemma bdd_psi_neg : bdd (fun E => rpsi ((d - 1) / 2 - rxsi Rb Eg (- E))) En.
Proof.
  exists (Rabs (rpsi ((d - 1) / 2 - rxsi Rb Eg 0)) + Rabs (rpsi ((d - 1) / 2))). apply filter_le_within. generalize near_state. apply filter_imp. intros E ([P _] & _).
  assert (N := xsi_neg E P). assert (Z := xsi_0). assert (X := En_lt). assert (Y := En_pos). assert (XP := xsi_pos (- E) ltac:(lra)).
  apply between. split; apply rpsi_mono; lra.
Qed.
Local Lemma bdd_psi : bdd (fun E => rpsi ((d - 1) / 2 - rxsi Rb Eg E + INR (S n))) En.
Proof.
  exists (Rabs (rpsi (1 / 2)) + Rabs (rpsi (3 / 2))). apply filter_le_within. generalize near_state. apply filter_imp. intros E (_ & [L U] & _).
  apply between. unfold q in L, U. rewrite S_INR. split; apply rpsi_mono; lra.
Qed.

Local Definition rest (E : R) : R :=
  1 + a * / (b - E ^ 2) + A * Rpower Rb (d / 2 - 1) * / (E * E) *
   (2 * ln (rxsi Rb Eg E) + - (d - 2) * / rxsi Rb Eg E + -2 * rpsi ((d - 1) / 2 - rxsi Rb Eg E + INR (S n)) + 2 * psum n ((d - 1) / 2 - rxsi Rb Eg E)
    + (2 * ln (rxsi Rb Eg (- E)) + -2 * rpsi ((d - 1) / 2 - rxsi Rb Eg (- E)) + - (d - 2) * / rxsi Rb Eg (- E)) + -2 * rg d (rxsi Rb Eg 0)).
Local Lemma rest_bdd : bdd rest En.
Proof.
  assert (X := En_lt). assert (Y := En_pos). assert (XC := xsi_cont En X). assert (NC := xsi_neg_cont).
  assert (XP := xsi_pos En X). assert (NP := xsi_pos (- En) ltac:(lra)).
  unfold rest. apply bdd_plus; [apply bdd_plus; [apply bdd_const|apply bdd_mult; [apply bdd_const|]]|].
  - apply bdd_cont. apply (inv_comp (fun E => b - E ^ 2)); [|lra]. apply (ex_derive_continuous (fun E => b - E ^ 2)). auto_derive. exact I.
  - apply bdd_mult; [apply bdd_mult; [apply bdd_const|]|].
    + apply bdd_cont. apply (inv_comp (fun E => E * E)); [|nra]. apply (ex_derive_continuous (fun E => E * E)). auto_derive. exact I.
    + repeat apply bdd_plus; try apply bdd_const; apply bdd_mult; try apply bdd_const.
      * apply bdd_cont. now apply (ln_comp (rxsi Rb Eg)).
      * apply bdd_cont. apply (inv_comp (rxsi Rb Eg)); [exact XC|lra].
      * apply bdd_psi.
      * apply bdd_cont. apply psum_cont. lia.
      * apply bdd_cont. now apply (ln_comp (fun E => rxsi Rb Eg (- E))).
      * apply bdd_psi_neg.
      * apply bdd_cont. apply (inv_comp (fun E => rxsi Rb Eg (- E))); [exact NC|lra].
Qed.
Local Definition main (E : R) : R := A * Rpower Rb (d / 2 - 1) * 2 * (q + rxsi Rb Eg E) * (Eg - E) * / (E * E) * / q ^ 2.
Local Lemma main_cont : continuous main En.
Proof.
  assert (X := En_lt). assert (Y := En_pos). assert (XC := xsi_cont En X).
  unfold main. apply (continuous_mult (K := R_AbsRing)); [|apply continuous_const]. apply (continuous_mult (K := R_AbsRing)).
  - apply (continuous_mult (K := R_AbsRing)).
    + apply (continuous_mult (K := R_AbsRing)); [apply continuous_const|]. apply (continuous_plus (V := R_NormedModule)); [apply continuous_const|exact XC].
    + apply (continuous_minus (V := R_NormedModule)); [apply continuous_const|apply continuous_id].
  - apply (inv_comp (fun E => E * E)); [|nra]. apply (ex_derive_continuous (fun E => E * E)). auto_derive. exact I.
Qed.
Local Lemma split E : 0 < E < Eg -> E <> En -> q - 1 / 2 < rxsi Rb Eg E < q + 1 / 2 -> E ^ 2 <> b ->
  (En - E) * rtanguy A d Rb Eg a b E = (En - E) * rest E + main E.
Proof.
  intros [P H] N I NB. assert (SO := fun k => state_only E k H N I). assert (XP := xsi_pos E H).
  assert (X := En_lt). assert (Y := En_pos). assert (NP := xsi_pos (- E) ltac:(lra)). assert (QP := q_pos). assert (P2 := d_pos).
  assert (NPole : ~ pole (RtoC ((d - 1) / 2 - rxsi Rb Eg E))).
  { intros [k K]. apply RtoC_inj in K. apply (SO k). lra. }
  unfold rtanguy, rest, main. unfold rg at 1 2. rewrite (rpsi_shift (S n) _ NPole). cbn [psum].
  replace ((d - 1) / 2 - rxsi Rb Eg E + INR n) with (q - rxsi Rb Eg E) by (unfold q; ring).
  assert (SQ : rxsi Rb Eg E * rxsi Rb Eg E = Rb / (Eg - E)) by (unfold rxsi; apply sqrt_sqrt; left; now apply ratio_pos).
  set (x := rxsi Rb Eg E) in *.
  assert (NZ : q - x <> 0) by (intros K; apply (SO n); unfold q in K; lra).
  assert (KEY : (En - E) * / (q - x) = (q + x) * (Eg - E) / q ^ 2).
  { apply Rmult_eq_reg_r with (q - x); [|exact NZ]. replace ((En - E) * / (q - x) * (q - x)) with (En - E) by (field; exact NZ).
    replace ((q + x) * (Eg - E) / q ^ 2 * (q - x)) with ((q * q - x * x) * (Eg - E) / q ^ 2) by (field; lra). rewrite SQ. unfold En. field. split; lra. }
  set (W := A * Rpower Rb (d / 2 - 1)). set (p1 := rpsi _). set (p2 := rpsi _). set (ps := psum _ _). set (y := rxsi Rb Eg (- E)) in *. set (g0 := rg _ _).
  transitivity ((En - E) * (1 + a * / (b - E ^ 2) + W * / (E * E) * (2 * ln x + - (d - 2) * / x + -2 * p1 + 2 * ps + (2 * ln y + -2 * p2 + - (d - 2) * / y) + -2 * g0)) + W * 2 * / (E * E) * ((En - E) * / (q - x))).
  - field. repeat split; try lra; try exact NZ.
  - rewrite KEY. field. repeat split; try lra.
Qed.
Lemma pole_lim : is_lim (fun E => (En - E) * rtanguy A d Rb Eg a b E) En (4 * A * Rpower Rb (d / 2) / q ^ 3 / En ^ 2).
Proof.
  assert (QP := q_pos). assert (P2 := d_pos). assert (Y := En_pos).
  apply (is_lim_ext_loc (fun E => (En - E) * rest E + main E)).
  - assert (W := near_state). apply filter_le_within in W || idtac. unfold Rbar_locally'. unfold locally'. unfold within. revert W. 
    intros W. generalize near_state. apply filter_imp. intros E (P & I & NB) N. symmetry. now apply split.
  - replace (4 * A * Rpower Rb (d / 2) / q ^ 3 / En ^ 2) with (0 + main En).
    + apply is_lim_plus'; [apply bdd_lim, rest_bdd|apply cont_lim, main_cont].
    + unfold main. rewrite xsi_En, gap. replace (Rpower Rb (d / 2)) with (Rpower Rb (d / 2 - 1) * Rb).
      * field. split; lra.
      * rewrite <- (Rpower_1 Rb HR) at 2. rewrite <- Rpower_plus. f_equal. ring.
Qed.
End Pole.
