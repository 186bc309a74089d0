(** The reflection formula of the digamma function (Herglotz's argument). *)
From Coq Require Import Reals ZArith Lra Lia Psatz.
From Coquelicot Require Import Coquelicot.
From Verif.Base Require Import Py Cx Special.
From Verif.Proof Require Import SpecialP TanguyP TanguyP3 TanguyP4 TanguyP5.
Open Scope R_scope.

Definition ut (x : R) (k : nat) : R := / (INR k + x) - / (INR k + (1 - x)).
Lemma ut_series x : 0 < x < 1 -> is_series (ut x) (rpsi (1 - x) - rpsi x).
Proof.
  intros H. assert (A := Series_correct _ (rpsi_conv x (pos_no_pole x ltac:(lra)))). assert (B := Series_correct _ (rpsi_conv (1 - x) (pos_no_pole (1 - x) ltac:(lra)))).
  unfold rpsi. replace (Series _ - euler_gamma - (Series _ - euler_gamma)) with (Series (fun k => / (INR k + 1) - / (INR k + (1 - x))) - Series (fun k => / (INR k + 1) - / (INR k + x))) by ring.
  apply (is_series_ext (fun k => minus (/ (INR k + 1) - / (INR k + (1 - x))) (/ (INR k + 1) - / (INR k + x)))); [intros k; unfold minus, plus, opp, ut; simpl; ring|].
  apply (is_series_minus (V := R_NormedModule)); assumption.
Qed.
Lemma ut_double x N : 0 < x < 1 -> sum_n (ut (x / 2)) N + sum_n (ut ((x + 1) / 2)) N = 2 * sum_n (ut x) (S (2 * N)).
Proof.
  intros H. assert (T : forall k, ut (x / 2) k + ut ((x + 1) / 2) k = 2 * (ut x (2 * k) + ut x (S (2 * k)))).
  { intros k. unfold ut. rewrite S_INR, mult_INR. simpl (INR 2). assert (P := pos_INR k). field. repeat split; lra. }
  induction N as [|N IH].
  - rewrite sum_Sn, !sum_O. unfold plus; simpl. assert (K := T 0%nat). simpl in K. lra.
  - replace (2 * S N)%nat with (S (S (2 * N))) by lia. rewrite !sum_Sn with (n := N). rewrite (sum_Sn _ (S (S (2 * N)))), (sum_Sn _ (S (2 * N))). unfold plus; simpl.
    assert (K := T (S N)). replace (2 * S N)%nat with (S (S (2 * N))) in K by lia. simpl in K, IH. lra.
Qed.
Definition hr (x : R) : R := rpsi (1 - x) - rpsi x - PI * rcot (PI * x).
Lemma psi_double x : 0 < x < 1 -> rpsi (1 - x / 2) - rpsi (x / 2) + (rpsi (1 - (x + 1) / 2) - rpsi ((x + 1) / 2)) = 2 * (rpsi (1 - x) - rpsi x).
Proof.
  intros H. assert (A := ut_series (x / 2) ltac:(lra)). assert (B := ut_series ((x + 1) / 2) ltac:(lra)). assert (C := ut_series x H).
  set (l1 := rpsi (1 - x / 2) - rpsi (x / 2)) in *. set (l2 := rpsi (1 - (x + 1) / 2) - rpsi ((x + 1) / 2)) in *. set (l := rpsi (1 - x) - rpsi x) in *.
  change (is_lim_seq (sum_n (ut (x / 2))) l1) in A. change (is_lim_seq (sum_n (ut ((x + 1) / 2))) l2) in B. change (is_lim_seq (sum_n (ut x)) l) in C.
  assert (S1 := is_lim_seq_plus' _ _ _ _ A B).
  assert (S2 : is_lim_seq (fun N => 2 * sum_n (ut x) (S (2 * N))) (2 * l)).
  { apply (is_lim_seq_scal_l _ 2 l). apply (is_lim_seq_subseq _ _ (fun N => S (2 * N))); [|exact C].
    intros P [M HM]. exists M. intros n Hn. apply HM. lia. }
  apply (is_lim_seq_ext _ _ _ (fun N => ut_double x N H)) in S1. apply is_lim_seq_unique in S1, S2. rewrite S1 in S2. now injection S2.
Qed.
Lemma sinp x : 0 < x < 1 -> 0 < sin (PI * x).
Proof. intros H. assert (P := PI_RGT_0). apply sin_gt_0; [apply Rmult_lt_0_compat; lra|]. rewrite <- (Rmult_1_r PI) at 2. apply Rmult_lt_compat_l; lra. Qed.
Lemma hr_double x : 0 < x < 1 -> hr (x / 2) + hr ((x + 1) / 2) = 2 * hr x.
Proof.
  intros H. unfold hr. assert (P := psi_double x H). assert (K : rcot (PI * (x / 2)) + rcot (PI * ((x + 1) / 2)) = 2 * rcot (PI * x)).
  { assert (S1 := sinp (x / 2) ltac:(lra)). assert (S2 := sinp ((x + 1) / 2) ltac:(lra)). assert (S3 := sinp x H).
    replace (PI * ((x + 1) / 2)) with (PI / 2 + PI * (x / 2)) in * by field. unfold rcot. rewrite <- cos_sin in *. 
    replace (cos (PI / 2 + PI * (x / 2))) with (- sin (PI * (x / 2))) by (rewrite sin_cos; ring).
    replace (PI * x) with (2 * (PI * (x / 2))) in * by field. rewrite sin_2a in *. rewrite cos_2a. field. split; lra. }
  assert (Q : PI * rcot (PI * (x / 2)) + PI * rcot (PI * ((x + 1) / 2)) = 2 * (PI * rcot (PI * x))) by (rewrite <- Rmult_plus_distr_l, K; ring). lra.
Qed.
Lemma hr_odd x : hr (1 - x) = - hr x.
Proof.
  unfold hr. replace (1 - (1 - x)) with x by ring. replace (rcot (PI * (1 - x))) with (- rcot (PI * x)); [ring|].
  rewrite <- rcot_opp. rewrite <- (rcot_period (- _)). f_equal. ring.
Qed.
Lemma rpsi_cont x : 0 < x -> continuous rpsi x.
Proof.
  intros X. apply (continuous_ext_loc _ (fun y => rpsi (y + 1) - / y)).
  - generalize (near_cont (fun y => y) x 0 (x + 1) (continuous_id x) ltac:(lra)). apply filter_imp. intros y Y. rewrite rpsi_step by (apply pos_no_pole; lra). change (rpsi y + / y - / y = rpsi y :> R). ring.
  - apply (continuous_minus (V := R_NormedModule)); [|apply continuous_Rinv; lra]. apply (continuous_comp (fun y => y + 1) rpsi); [apply (continuous_plus (V := R_NormedModule)); [apply continuous_id|apply continuous_const]|].
    apply (lip_continuous _ _ psi_L (1 / 2)); [lra|]. intros y Y. apply Rabs_def2 in Y. apply psi_lip_abs; lra.
Qed.
Lemma hr_cont x : 0 < x < 1 -> continuous hr x.
Proof.
  intros H. assert (S := sinp x H). unfold hr. apply (continuous_minus (V := R_NormedModule)); [apply (continuous_minus (V := R_NormedModule))|].
  - apply (continuous_comp (fun x => 1 - x) rpsi); [|apply rpsi_cont; lra]. apply (continuous_minus (V := R_NormedModule)); [apply continuous_const|apply continuous_id].
  - apply rpsi_cont; lra.
  - apply (continuous_mult (K := R_AbsRing)); [apply continuous_const|]. apply (continuous_comp (fun x => PI * x) rcot); [|apply rcot_cont; lra]. apply (ext_cont _ (fun x => 0 + PI * x)); [intros y; ring|apply lin_cont].
Qed.
Definition hC : R := 2 * psi_L + 2 * (PI * PI).
Lemma hr_small x : 0 < x <= 1 / 4 -> Rabs (hr x) <= hC * x.
Proof.
  intros H. assert (S := sinp x ltac:(lra)). assert (PP := PI_RGT_0). assert (P4 := PI_4). set (y := PI * x) in *. assert (Y : 0 < y <= 1) by (unfold y; split; [apply Rmult_lt_0_compat; lra|nra]).
  assert (Y2 : y <= PI / 4) by (unfold y; nra).
  assert (C2 : cos y = 1 - 2 * (sin (y / 2) * sin (y / 2))) by (replace y with (2 * (y / 2)) at 1 by field; rewrite cos_2a_sin; ring).
  assert (SH : 0 <= sin (y / 2) <= y / 2) by (split; [apply sin_ge_0; lra|left; apply sin_lt_x; lra]).
  assert (CL : 1 - y * y / 2 <= cos y) by (rewrite C2; nra). assert (SU := sin_lt_x y ltac:(lra)). assert (XC := x_cos_sin y ltac:(lra) ltac:(lra)).
  assert (SL : y / 2 <= sin y) by nra.
  assert (K : Rabs (/ x - PI * rcot y) <= 2 * (PI * PI) * x).
  { replace (/ x - PI * rcot y) with ((sin y - y * cos y) / (x * sin y)) by (unfold rcot, y; field; split; [exact (Rgt_not_eq _ _ S)|lra]).
    rewrite Rabs_pos_eq by (apply Rmult_le_pos; [lra|left; apply Rinv_0_lt_compat, Rmult_lt_0_compat; lra]).
    apply Rmult_le_reg_r with (x * sin y); [apply Rmult_lt_0_compat; lra|]. unfold Rdiv. rewrite Rmult_assoc, Rinv_l by (apply Rgt_not_eq, Rmult_lt_0_compat; lra). rewrite Rmult_1_r.
    replace (2 * (PI * PI) * x * (x * sin y)) with (2 * (y * y) * sin y) by (unfold y; ring). 
    assert (sin y - y * cos y <= y * y * y / 2) by nra. assert (y * y * y / 2 <= 2 * (y * y) * sin y) by nra. lra. }
  unfold hr. fold y. replace (rpsi x) with (rpsi (x + 1) - / x) by (rewrite rpsi_step by (apply pos_no_pole; lra); ring).
  replace (rpsi (1 - x) - (rpsi (x + 1) - / x) - PI * rcot y) with ((rpsi (1 - x) - rpsi (x + 1)) + (/ x - PI * rcot y)) by ring.
  eapply Rle_trans; [apply Rabs_triang|]. assert (L := psi_lip_abs (1 - x) (x + 1) ltac:(lra) ltac:(lra)). replace (1 - x - (x + 1)) with (- (2 * x)) in L by ring. rewrite Rabs_Ropp, (Rabs_pos_eq (2 * x)) in L by lra. unfold hC. lra.
Qed.
Definition hf (x : R) : R := if Rlt_dec 0 x then (if Rlt_dec x 1 then hr x else 0) else 0.
Lemma hf_in x : 0 < x < 1 -> hf x = hr x.
Proof. intros H. unfold hf. destruct (Rlt_dec 0 x); [|lra]. destruct (Rlt_dec x 1); [reflexivity|lra]. Qed.
Lemma hf_out x : x <= 0 \/ 1 <= x -> hf x = 0.
Proof. intros H. unfold hf. destruct (Rlt_dec 0 x); [|reflexivity]. destruct (Rlt_dec x 1); [lra|reflexivity]. Qed.
Lemma hC_pos : 0 <= hC.
Proof. assert (H := hr_small (1 / 4) ltac:(lra)). assert (P := Rabs_pos (hr (1 / 4))). lra. Qed.
Lemma hf_odd x : hf (1 - x) = - hf x.
Proof.
  destruct (Rlt_dec 0 x) as [L|L]; [destruct (Rlt_dec x 1) as [U|U]|].
  - rewrite !hf_in by lra. apply hr_odd.
  - rewrite !hf_out by lra. ring.
  - rewrite !hf_out by lra. ring.
Qed.
Lemma hf_near x : x <= 1 / 4 -> Rabs (hf x) <= hC * Rabs x.
Proof.
  intros H. destruct (Rlt_dec 0 x) as [L|L].
  - rewrite hf_in, (Rabs_pos_eq x) by lra. apply hr_small. lra.
  - rewrite hf_out, Rabs_R0 by lra. apply Rmult_le_pos; [apply hC_pos|apply Rabs_pos].
Qed.
Lemma hf_cont x : 0 <= x <= 1 -> continuous hf x.
Proof.
  intros H. destruct (Req_dec x 0) as [->|N0]; [|destruct (Req_dec x 1) as [->|N1]].
  - apply (lip_continuous _ _ hC (1 / 4)); [lra|]. intros y Y. rewrite (hf_out 0), !Rminus_0_r in * by lra. apply Rabs_def2 in Y. apply hf_near. lra.
  - apply (lip_continuous _ _ hC (1 / 4)); [lra|]. intros y Y. rewrite (hf_out 1), Rminus_0_r by lra. replace y with (1 - (1 - y)) at 1 by ring. rewrite hf_odd, Rabs_Ropp. rewrite (Rabs_minus_sym y 1).
    rewrite Rabs_minus_sym in Y. apply Rabs_def2 in Y. apply hf_near. lra.
  - apply (continuous_ext_loc _ hr); [|apply hr_cont; lra].
    generalize (near_cont (fun y => y) x 0 1 (continuous_id x) ltac:(lra)). apply filter_imp. intros y Y. symmetry. now apply hf_in.
Qed.
Lemma hf_le x : 0 <= x <= 1 -> hf x <= 0.
Proof.
  destruct (continuity_ab_maj hf 0 1 ltac:(lra)) as (m & HM & Hm). { intros c Hc. apply continuity_pt_filterlim. now apply hf_cont. }
  assert (Z : hf m <= 0); [|intros H; eapply Rle_trans; [apply HM; exact H|exact Z]].
  destruct (Rle_dec (hf m) 0) as [L|L]; [exact L|]. exfalso. assert (M : 0 < hf m) by lra.
  assert (I : 0 < m < 1). { destruct (Req_dec m 0) as [E|N0]; [rewrite E, hf_out in M; lra|]. destruct (Req_dec m 1) as [E|N1]; [rewrite E, hf_out in M; lra|]. lra. }
  assert (IT : forall n, 0 < m / 2 ^ n < 1 /\ hf (m / 2 ^ n) = hf m).
  { induction n as [|n [[A1 A2] B]]; [simpl; rewrite Rdiv_1; split; [exact I|reflexivity]|].
    replace (m / 2 ^ S n) with (m / 2 ^ n / 2) by (simpl; field; apply pow_nonzero; lra). set (w := m / 2 ^ n) in *. clearbody w. split; [lra|].
    assert (D := hr_double w ltac:(lra)). rewrite <- !hf_in in D by lra. assert (Q1 := HM (w / 2) ltac:(lra)). assert (Q2 := HM ((w + 1) / 2) ltac:(lra)). lra. }
  destruct (archimed_nat (hC / hf m + 1 + 2)) as [n Hn]. destruct (IT n) as [[A1 A2] B]. assert (PN : INR n < 2 ^ n).
  { clear. induction n as [|n IH]; [simpl; lra|]. rewrite S_INR. simpl. assert (1 <= 2 ^ n) by (apply pow_R1_Rle; lra). lra. }
  assert (HC := hC_pos). assert (DP : 0 <= hC / hf m) by (apply Rmult_le_pos; [exact HC|left; apply Rinv_0_lt_compat; exact M]).
  assert (XS : m / 2 ^ n <= 1 / 2 ^ n) by (apply Rmult_le_compat_r; [left; apply Rinv_0_lt_compat, pow_lt; lra|lra]).
  assert (XN : 1 / 2 ^ n < 1 / INR n) by (unfold Rdiv; rewrite !Rmult_1_l; apply Rinv_lt_contravar; [apply Rmult_lt_0_compat; [lra|apply pow_lt; lra]|exact PN]).
  destruct (Rle_dec (m / 2 ^ n) (1 / 4)) as [S|S].
  - assert (N := hf_near _ S). rewrite B, !Rabs_pos_eq in N by lra. assert (hC * (m / 2 ^ n) <= hC * (1 / INR n)) by (apply Rmult_le_compat_l; lra).
    assert (hf m * INR n <= hC) by (apply Rmult_le_reg_r with (1 / INR n); [apply Rdiv_lt_0_compat; lra|]; replace (hf m * INR n * (1 / INR n)) with (hf m) by (field; lra); lra).
    assert (hf m * (hC / hf m + 1 + 2) <= hf m * INR n) by (apply Rmult_le_compat_l; lra). replace (hf m * (hC / hf m + 1 + 2)) with (hC + 3 * hf m) in * by (field; lra). lra.
  - (* then take one more: the values repeat *) destruct (IT (n + 2)%nat) as [[C1 C2] C3].
    replace (m / 2 ^ (n + 2)) with (m / 2 ^ n / 4) in * by (rewrite pow_add; simpl; field; apply pow_nonzero; lra).
    assert (N := hf_near (m / 2 ^ n / 4) ltac:(lra)). rewrite C3, !Rabs_pos_eq in N by lra.
    assert (hC * (m / 2 ^ n / 4) <= hC * (1 / INR n)) by (apply Rmult_le_compat_l; lra).
    assert (hf m * INR n <= hC) by (apply Rmult_le_reg_r with (1 / INR n); [apply Rdiv_lt_0_compat; lra|]; replace (hf m * INR n * (1 / INR n)) with (hf m) by (field; lra); lra).
    assert (hf m * (hC / hf m + 1 + 2) <= hf m * INR n) by (apply Rmult_le_compat_l; lra). replace (hf m * (hC / hf m + 1 + 2)) with (hC + 3 * hf m) in * by (field; lra). lra.
Qed.
Lemma reflection01 x : 0 < x < 1 -> rpsi (1 - x) - rpsi x = PI * rcot (PI * x).
Proof.
  intros H. assert (A := hf_le x ltac:(lra)). assert (B := hf_le (1 - x) ltac:(lra)). rewrite hf_odd in B. rewrite hf_in in A, B by exact H. unfold hr in A, B. lra.
Qed.
Lemma reflection x n : 0 < x < 1 -> rpsi (1 - (x + INR n)) - rpsi (x + INR n) = PI * rcot (PI * (x + INR n)).
Proof.
  intros H. replace (PI * (x + INR n)) with (PI * x + INR n * PI) by ring.
  assert (RP : rcot (PI * x + INR n * PI) = rcot (PI * x)).
  { induction n as [|n IH]; [simpl; f_equal; ring|]. rewrite S_INR. replace (PI * x + (INR n + 1) * PI) with (PI * x + INR n * PI + PI) by ring. now rewrite rcot_period. }
  rewrite RP. clear RP. rewrite <- reflection01 by exact H. induction n as [|n IH]; [simpl; now rewrite Rplus_0_r|].
  rewrite <- IH. rewrite S_INR. assert (P := pos_INR n).
  assert (NP : ~ pole (RtoC (1 - (x + (INR n + 1))))).
  { intros [k K]. apply RtoC_inj in K. assert (E : x = INR k - INR n) by lra. rewrite !INR_IZR_INZ, <- minus_IZR in E. rewrite E in H. destruct H as [H1 H2]. apply lt_IZR in H1, H2. lia. }
  assert (S1 := rpsi_step _ NP). replace (1 - (x + (INR n + 1)) + 1) with (1 - (x + INR n)) in S1 by ring.
  replace (x + (INR n + 1)) with (x + INR n + 1) by ring. rewrite (rpsi_step (x + INR n)) by (apply pos_no_pole; lra).
  replace (1 - (x + INR n + 1)) with (1 - (x + (INR n + 1))) by ring. rewrite S1.
  replace (1 - (x + (INR n + 1))) with (- (x + INR n)) by ring. rewrite <- Rinv_opp || idtac. replace (/ - (x + INR n)) with (- / (x + INR n)) by (field; lra). ring.
Qed.
