(** Conjugation, for C101. *)
From Coq Require Import Reals ZArith Lra Lia Psatz.
From Coquelicot Require Import Coquelicot.
From Verif.Base Require Import Py Cx Special.
From Verif.Model Require Import Units Dispersions Tanguy.
From Verif.Proof Require Import DispersionsP SpecialP TanguyP.
Open Scope R_scope.
Open Scope C_scope.
Open Scope py_scope.

Notation oconj := (option_map Cconj).
Lemma snd_conj (z : C) : snd (Cconj z) = (- snd z)%R.
Proof. reflexivity. Qed.
Lemma cdiv_conj (a b : C) : cdiv (Cconj a) (Cconj b) = oconj (cdiv a b).
Proof.
  destruct (Ceq_dec b 0) as [->|N].
  - rewrite Cconj_R, !cdiv_0. reflexivity.
  - rewrite !cdiv_ok by (try apply Cconj_neq0; exact N). simpl. now rewrite Cconj_div by exact N.
Qed.
Lemma Clog_conj' (z : C) : snd z <> 0%R -> Clog (Cconj z) = Cconj (Clog z).
Proof.
  intros H. destruct (Rlt_dec 0 (fst z)) as [P|N]; [now apply Clog_conj|]. destruct z as [x y]. cbn [fst snd] in *.
  unfold Clog, Carg, Cmod, Cconj. cbn [fst snd]. f_equal; [f_equal; f_equal; ring|].
  destruct (Rlt_dec 0 x); [contradiction|]. destruct (Rlt_dec x 0) as [X|X].
  - replace (- y / x)%R with (- (y / x))%R by (field; lra). rewrite atan_opp. destruct (Rlt_dec y 0), (Rlt_dec (- y) 0); lra.
  - destruct (Rlt_dec 0 y), (Rlt_dec y 0), (Rlt_dec 0 (- y)), (Rlt_dec (- y) 0); lra.
Qed.
Lemma clog_conj (z : C) : snd z <> 0%R -> clog (Cconj z) = oconj (clog z).
Proof. intros H. assert (Z := nonreal z H). rewrite !clog_ok by (try apply Cconj_neq0; exact Z). simpl. now rewrite Clog_conj'. Qed.
Lemma cpower_conj (z : C) p : snd z <> 0%R -> cpower (Cconj z) p = oconj (cpower z p).
Proof.
  intros H. assert (Z := nonreal z H). assert (Z' := Cconj_neq0 _ Z). unfold cpower, Cpowr. destruct (Ceq_dec z 0); [contradiction|]. destruct (Ceq_dec (Cconj z) 0); [contradiction|].
  simpl. now rewrite Clog_conj', Cexp_conj, Cconj_mult, Cconj_R by exact H.
Qed.
Lemma CSeries_conj (f h : nat -> C) : (forall k, f k = Cconj (h k)) -> CSeries f = Cconj (CSeries h).
Proof.
  intros H. unfold CSeries, Cconj. cbn [fst snd]. f_equal.
  - apply Series_ext. intros k. now rewrite H.
  - rewrite <- Series_opp. apply Series_ext. intros k. now rewrite H.
Qed.
Lemma pole_conj z : pole (Cconj z) <-> pole z.
Proof.
  split; intros [n E]; exists n.
  - rewrite <- (Cconj_conj z), E. apply Cconj_R.
  - rewrite E. apply Cconj_R.
Qed.
Lemma digamma_conj (z : C) : digamma (Cconj z) = oconj (digamma z).
Proof.
  unfold digamma. destruct (pole_dec (Cconj z)) as [P|P], (pole_dec z) as [Q|Q]; try reflexivity; try (exfalso; rewrite pole_conj in P; contradiction).
  simpl. f_equal. rewrite Cconj_minus, Cconj_R. f_equal. apply CSeries_conj. intros k. unfold digamma_term.
  assert (K := pos_INR k). rewrite Cconj_minus, !Cconj_inv, Cconj_plus, !Cconj_R; [reflexivity| |apply C_of_R_neq; lra].
  intros E. apply Q. exists k. rewrite RtoC_opp. rewrite <- (Cplus_0_l (- RtoC (INR k))), <- E. ring.
Qed.
Lemma gamma_conj (z : C) : snd z <> 0%R -> Cgamma (Cconj z) = oconj (Cgamma z).
Proof.
  intros H. assert (NP := nonreal_pole z H). unfold Cgamma. destruct (pole_dec (Cconj z)) as [P|P]; [rewrite pole_conj in P; contradiction|]. destruct (pole_dec z) as [Q|Q]; [contradiction|].
  simpl. f_equal. rewrite Cconj_div, Cexp_conj by (apply nonreal; exact H). f_equal. f_equal. apply CSeries_conj. intros k. unfold gamma_term. assert (K := pos_INR k).
  assert (N : RtoC (INR k + 1) <> 0) by (apply C_of_R_neq; lra).
  rewrite Cconj_minus, Cconj_mult, Cconj_R. f_equal. rewrite <- Clog_conj'.
  - f_equal. rewrite Cconj_plus, Cconj_div, !Cconj_R by exact N. reflexivity.
  - unfold Cdiv. rewrite <- RtoC_inv by lra. assert (0 < / (INR k + 1))%R by (apply Rinv_0_lt_compat; lra). destruct z as [x y]. simpl in *. intros E. assert (E' : (y * / (INR k + 1) = 0)%R) by lra. apply Rmult_integral in E'. destruct E'; [contradiction|lra].
Qed.
Lemma gamma_conj_R x : (0 < x)%R -> oconj (Cgamma (RtoC x)) = Cgamma (RtoC x).
Proof. intros H. destruct (gamma_real x H) as (v & -> & _). simpl. now rewrite Cconj_R. Qed.
Lemma Ccos_conj w : Ccos (Cconj w) = Cconj (Ccos w).
Proof.
  unfold Ccos. rewrite Cconj_div, Cconj_plus, !Cexp_conj, Cconj_R by (apply C_of_R_neq; lra). rewrite Cplus_comm. 
  f_equal. f_equal; f_equal; rewrite ?Cconj_opp, ?Cconj_mult, ?Cconj_Ci; ring.
Qed.
Lemma Csin_conj w : Csin (Cconj w) = Cconj (Csin w).
Proof.
  unfold Csin. rewrite Cconj_div, Cconj_minus, !Cexp_conj.
  2:{ intros E. apply C_integral in E. destruct E as [E|E]; [apply RtoC_inj in E; lra|]. apply (f_equal snd) in E. simpl in E. lra. }
  replace (Cconj (Ci * w)) with (- (Ci * Cconj w)) by (rewrite Cconj_mult, Cconj_Ci; ring).
  replace (Cconj (- (Ci * w))) with (Ci * Cconj w) by (rewrite Cconj_opp, Cconj_mult, Cconj_Ci; ring).
  rewrite (Cconj_mult 2 Ci), Cconj_R, Cconj_Ci. field. repeat split; intros E; [apply (f_equal snd) in E|apply RtoC_inj in E|apply (f_equal snd) in E]; simpl in E; lra.
Qed.
Lemma cot_conj w : cot (Cconj w) = oconj (cot w).
Proof. unfold cot. now rewrite Ccos_conj, Csin_conj, cdiv_conj. Qed.
Lemma two_conj : Cconj 2 = 2.
Proof. apply Cconj_R. Qed.

Lemma g_conj (x : C) d : snd x <> 0%R -> (1 < d <= 3)%R -> g (Cconj x) d = oconj (g x d).
Proof.
  intros H [D1 D2]. unfold g. destruct (Req_EM_T d 2) as [_|N2]; [|destruct (Req_EM_T d 3) as [_|N3]].
  - rewrite clog_conj by exact H. destruct (clog x) as [l|]; [|reflexivity]. cbn [obind option_map].
    replace (RtoC 0.5 - Cconj x) with (Cconj (RtoC 0.5 - x)) by now rewrite Cconj_minus, Cconj_R. rewrite digamma_conj. destruct (digamma _) as [p|]; [|reflexivity]. cbn [obind option_map].
    now rewrite Cconj_minus, !Cconj_mult, two_conj.
  - rewrite clog_conj by exact H. destruct (clog x) as [l|]; [|reflexivity]. cbn [obind option_map].
    replace (1 - Cconj x) with (Cconj (1 - x)) by now rewrite Cconj_minus, Cconj_R. rewrite digamma_conj. destruct (digamma _) as [p|]; [|reflexivity]. cbn [obind option_map].
    replace (cdiv 1 (Cconj x)) with (oconj (cdiv 1 x)) by now rewrite <- cdiv_conj, Cconj_R. destruct (cdiv 1 x) as [i|]; [|reflexivity]. cbn [obind option_map].
    now rewrite !Cconj_minus, !Cconj_mult, two_conj.
  - cbv zeta. set (D := ((d - 1) / 2)%R).
    replace (RtoC D + Cconj x) with (Cconj (RtoC D + x)) by now rewrite Cconj_plus, Cconj_R. rewrite gamma_conj by (simpl; lra). destruct (Cgamma (RtoC D + x)) as [a|]; [|reflexivity]. cbn [obind option_map].
    destruct (gamma_real D) as (b & -> & Hb); [unfold D; lra|]. cbn [obind option_map].
    replace (1 - RtoC D + Cconj x) with (Cconj (1 - RtoC D + x)) by now rewrite Cconj_plus, Cconj_minus, !Cconj_R. rewrite gamma_conj by (simpl; lra). destruct (Cgamma (1 - RtoC D + x)) as [e|]; [|reflexivity]. cbn [obind option_map].
    rewrite cpower_conj by exact H. destruct (cpower x (d - 2)) as [p|]; [|reflexivity]. cbn [obind option_map].
    replace (cdiv (2 * RtoC PI * Cconj a) (RtoC b * RtoC b)) with (oconj (cdiv (2 * RtoC PI * a) (RtoC b * RtoC b))) by (rewrite <- cdiv_conj, !Cconj_mult, !Cconj_R; reflexivity).
    destruct (cdiv (2 * RtoC PI * a) (RtoC b * RtoC b)) as [q|]; [|reflexivity]. cbn [obind option_map].
    rewrite cdiv_conj. destruct (cdiv q e) as [q1|]; [|reflexivity]. cbn [obind option_map].
    rewrite cdiv_conj. destruct (cdiv q1 p) as [q2|]; [|reflexivity]. cbn [obind option_map].
    replace (RtoC PI * (RtoC D - Cconj x)) with (Cconj (RtoC PI * (RtoC D - x))) by now rewrite Cconj_mult, Cconj_minus, !Cconj_R.
    rewrite cot_conj. destruct (cot (RtoC PI * (RtoC D - x))) as [u|]; [|reflexivity]. cbn [obind option_map].
    destruct (cot_real (PI * (d - 1))) as [v ->]; [now apply sin_PI_D|]. cbn [obind option_map].
    now rewrite Cconj_mult, Cconj_minus, Cconj_R.
Qed.

Lemma Csqrt_conj (q : C) : snd q <> 0%R -> Csqrt (Cconj q) = Cconj (Csqrt q).
Proof.
  intros H. symmetry. apply Csqrt_unique.
  - left. rewrite <- (Csqrt_sqr q) in H. assert (RE := Csqrt_Re_ge0 q). destruct (Csqrt q) as [u v]. cbn [fst snd Cconj] in *. simpl in H. destruct RE as [RE|RE]; [exact RE|]. subst u. elim H. ring.
  - now rewrite <- Cconj_mult, Csqrt_sqr.
Qed.
Lemma xsi_conj (z : C) Rb Eg : snd z <> 0%R -> (0 < Rb)%R -> xsi (Cconj z) Rb Eg = oconj (xsi z Rb Eg).
Proof.
  intros H HR. unfold xsi. assert (N : RtoC Eg - z <> 0) by (apply nonreal; simpl; lra).
  replace (RtoC Eg - Cconj z) with (Cconj (RtoC Eg - z)) by now rewrite Cconj_minus, Cconj_R. rewrite <- (Cconj_R Rb) at 1. rewrite cdiv_conj, cdiv_ok by exact N. cbn [obind option_map]. f_equal. apply Csqrt_conj.
  assert (P := norm_pos _ N). unfold Cdiv. replace (snd (RtoC Rb * / (RtoC Eg - z))) with (Rb * snd (/ (RtoC Eg - z))%C)%R by (generalize (/ (RtoC Eg - z))%C; intros w; simpl; ring). rewrite inv_im by exact N.
  apply Rmult_integral_contrapositive_currified; [lra|]. apply Rmult_integral_contrapositive_currified; [simpl; lra|]. apply Rinv_neq_0_compat. lra.
Qed.
