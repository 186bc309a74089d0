(** The mean of Airy's formula over equally spaced phases. *)
From Coq Require Import Reals Lra Psatz Lia Arith.
From Coquelicot Require Import Complex.
From Coq Require Import List.
From Verif.Base Require Import Py Cx Mat.
From Verif.Spec Require Import Etalon.
From Verif.Proof Require Import FluxP SplitP2.
Import ListNotations.
Open Scope R_scope.
Open Scope C_scope.

Definition phase (x : R) : C := Cexp (Ci * RtoC x).
Lemma phase_parts x : phase x = (cos x, sin x).
Proof. unfold phase, Cexp. apply C_ext; simpl; replace (0 * x - 1 * 0)%R with 0%R by ring; replace (0 * 0 + 1 * x)%R with x by ring; rewrite exp_0; ring. Qed.
Lemma phase_add x y : phase (x + y) = phase x * phase y.
Proof. unfold phase. rewrite <- Cexp_plus. f_equal. rewrite RtoC_plus. ring. Qed.
Lemma phase_pow x n : Cpow (phase x) n = phase (INR n * x).
Proof. unfold phase. rewrite Cpow_Cexp. f_equal. rewrite RtoC_mult. ring. Qed.
Lemma phase_2PI (n : nat) : phase (INR n * (2 * PI)) = 1.
Proof.
  rewrite phase_parts. replace (INR n * (2 * PI))%R with (0 + 2 * INR n * PI)%R by ring.
  rewrite cos_period, sin_period, cos_0, sin_0. reflexivity.
Qed.
Lemma phase_neq1 x : (0 < x < 2 * PI)%R -> 1 - phase x <> 0.
Proof.
  intros H E. rewrite phase_parts in E. apply (f_equal fst) in E. simpl in E.
  assert (S : (0 < sin (x / 2))%R) by (apply sin_gt_0; lra).
  assert (D := cos_2a_sin (x / 2)). replace (2 * (x / 2))%R with x in D by field. nra.
Qed.

Lemma total_ext (f g : nat -> C) n : (forall k, (k < n)%nat -> f k = g k) -> total f n = total g n.
Proof. induction n as [|n IH]; intros H; cbn [total]; [reflexivity|]. rewrite IH by (intros; apply H; lia). now rewrite (H n) by lia. Qed.
Lemma total_scal (c : C) f n : total (fun k => c * f k) n = c * total f n.
Proof. induction n as [|n IH]; cbn [total]; [ring|]. rewrite IH. ring. Qed.
Lemma total_add f g n : total (fun k => f k + g k) n = total f n + total g n.
Proof. induction n as [|n IH]; cbn [total]; [ring|]. rewrite IH. ring. Qed.
Lemma total_zero n : total (fun _ => 0) n = 0.
Proof. induction n as [|n IH]; cbn [total]; [reflexivity|]. rewrite IH. ring. Qed.
Lemma total_swap (f : nat -> nat -> C) n m : total (fun k => total (f k) m) n = total (fun j => total (fun k => f k j) n) m.
Proof.
  induction n as [|n IH]; cbn [total]; [now rewrite total_zero|]. rewrite IH, <- total_add. apply total_ext. reflexivity.
Qed.
Lemma total_one n : total (fun _ => 1) n = RtoC (INR n).
Proof. induction n as [|n IH]; cbn [total]; [reflexivity|]. rewrite IH, S_INR, RtoC_plus. reflexivity. Qed.
Lemma total_first (f : nat -> C) n : (forall k, (0 < k <= n)%nat -> f k = 0) -> total f (S n) = f 0%nat.
Proof.
  induction n as [|n IH]; intros H; [cbn [total]; ring|]. change (total f (S n) + f (S n) = f 0%nat).
  rewrite IH by (intros; apply H; lia). rewrite (H (S n)) by lia. ring.
Qed.

Lemma total_first' (f : nat -> C) n : (0 < n)%nat -> (forall k, (0 < k < n)%nat -> f k = 0) -> total f n = f 0%nat.
Proof. destruct n as [|n]; [lia|]. intros _ H. apply total_first. intros k K. apply H. lia. Qed.

Lemma mod_lt1 (z : C) : (Cmod z < 1)%R -> 1 - z <> 0.
Proof. intros H E. assert (F : z = 1) by (transitivity (1 - (1 - z)); [ring|rewrite E; ring]). rewrite F, Cmod_1 in H. lra. Qed.
Lemma pow_lt1 (x : R) m : (0 <= x < 1)%R -> (0 < m)%nat -> (0 <= x ^ m < 1)%R.
Proof.
  intros H M. split; [now apply pow_le|]. destruct m as [|m]; [lia|]. clear M. induction m as [|m IH]; [simpl; lra|].
  change (x * x ^ S m < 1)%R. assert (0 <= x ^ S m)%R by now apply pow_le. nra.
Qed.

Section Roots.
Variable n : nat.
Hypothesis n0 : (0 < n)%nat.
Definition w (k : nat) : C := phase (INR k * (2 * PI / INR n)).

Lemma nR : (0 < INR n)%R.
Proof. apply lt_0_INR. exact n0. Qed.
Lemma w_turn m : Cpow (w m) n = 1.
Proof. unfold w. rewrite phase_pow. rewrite <- (phase_2PI m). f_equal. assert (N := nR). field. lra. Qed.
Lemma w_pow k m : Cpow (w k) m = Cpow (w m) k.
Proof. unfold w. rewrite !phase_pow. f_equal. ring. Qed.

Lemma roots_zero m : (0 < m < n)%nat -> total (fun k => Cpow (w k) m) n = 0.
Proof.
  intros H. rewrite (total_ext _ (fun k => 1 * Cpow (w m) k)) by (intros; rewrite w_pow; ring).
  assert (G := total_geometric 1 (w m) n). rewrite w_turn in G. assert (N := nR).
  assert (D : 1 - w m <> 0).
  { apply phase_neq1. assert (Pi := PI_RGT_0). assert (M : (0 < INR m < INR n)%R) by (split; [apply lt_0_INR; lia|apply lt_INR; lia]).
    split; [apply Rmult_lt_0_compat; [lra|apply Rdiv_lt_0_compat; lra]|].
    replace (INR m * (2 * PI / INR n))%R with (2 * PI * (INR m / INR n))%R by (field; lra).
    assert (INR m / INR n < 1)%R by (apply (Rmult_lt_reg_r (INR n)); [lra|]; unfold Rdiv; rewrite Rmult_assoc, Rinv_l by lra; lra). nra. }
  apply (Cmult_cancel (1 - w m)); [exact D|]. rewrite Cmult_comm, G. ring.
Qed.

(** The mean of 1 / (1 - a w) over all roots of unity w *)
Lemma roots_mean (a : C) : (Cmod a < 1)%R -> total (fun k => 1 / (1 - a * w k)) n = RtoC (INR n) / (1 - Cpow a n).
Proof.
  intros H. assert (D : 1 - Cpow a n <> 0).
  { apply mod_lt1. rewrite Cmod_Cpow. apply pow_lt1; [split; [apply Cmod_ge_0|exact H]|exact n0]. }
  rewrite (total_ext _ (fun k => 1 / (1 - Cpow a n) * total (fun m => Cpow a m * Cpow (w k) m) n)).
  - assert (T : total (fun k => total (fun m => Cpow a m * Cpow (w k) m) n) n = RtoC (INR n)).
    { rewrite total_swap. transitivity (total (fun m => Cpow a m * total (fun k => Cpow (w k) m) n) n); [apply total_ext; intros; apply total_scal|].
      rewrite (total_first' (fun m => Cpow a m * total (fun k => Cpow (w k) m) n) n n0).
      - cbn [Cpow]. rewrite total_one. ring.
      - intros k K. rewrite roots_zero by exact K. ring. }
    transitivity (1 / (1 - Cpow a n) * total (fun k => total (fun m => Cpow a m * Cpow (w k) m) n) n); [apply total_scal|]. rewrite T. field. exact D.
  - intros k _. assert (M : (Cmod (a * w k)%C < 1)%R) by (rewrite Cmod_mult; unfold w, phase; rewrite Cmod_phase; lra).
    assert (N := mod_lt1 _ M). assert (G := total_geometric 1 (a * w k) n). rewrite Cpow_mult, w_turn in G.
    rewrite (total_ext _ (fun m => 1 * Cpow (a * w k) m)) by (intros; rewrite Cpow_mult; ring).
    apply (Cmult_cancel (1 - a * w k)); [exact N|]. transitivity (RtoC 1); [field; exact N|].
    transitivity (total (fun m => 1 * Cpow (a * w k) m) n * (1 - a * w k) / (1 - Cpow a n)); [rewrite G; field; exact D|field; exact D].
Qed.
End Roots.

(** One phase *)
Lemma airy_re (a : C) : (Cmod a < 1)%R ->
  (1 / (Cmod (1 - a)%C * Cmod (1 - a)%C) = (2 * Re (1 / (1 - a))%C - 1) / (1 - Cmod a * Cmod a))%R.
Proof.
  intros H. assert (N := mod_lt1 a H). assert (G := Cmod_ge_0 a). rewrite <- !norm_mod.
  assert (N2 : (0 < Cnorm2 (1 - a)%C)%R) by (rewrite norm_mod; assert (Z := proj1 (Cmod_gt_0 _) N); nra).
  assert (A2 : (Cnorm2 a < 1)%R) by (rewrite norm_mod; nra).
  assert (E : (Re (1 / (1 - a))%C = (1 - Re a) / Cnorm2 (1 - a)%C)%R).
  { unfold Cnorm2, Re, Im in *. destruct a as [x y]. simpl in *. field. nra. }
  rewrite E. assert (Q : (Cnorm2 (1 - a)%C = 1 - 2 * Re a + Cnorm2 a)%R) by (unfold Cnorm2, Re, Im; simpl; ring).
  rewrite Q in *. set (q := Cnorm2 a) in *. set (x := Re a) in *. clearbody q x. field. lra.
Qed.

Fixpoint rtotal (f : nat -> R) (n : nat) : R := match n with O => 0%R | S n => (rtotal f n + f n)%R end.
Lemma Re_rtotal f n : Re (total f n) = rtotal (fun k => Re (f k)) n.
Proof. induction n as [|n IH]; cbn [total rtotal]; [reflexivity|]. rewrite <- IH. reflexivity. Qed.
Lemma rtotal_ext f g n : (forall k, (k < n)%nat -> f k = g k) -> rtotal f n = rtotal g n.
Proof. induction n as [|n IH]; intros H; cbn [rtotal]; [reflexivity|]. rewrite IH by (intros; apply H; lia). now rewrite (H n) by lia. Qed.
Lemma rtotal_affine (c e : R) f n : rtotal (fun k => c * (2 * f k - 1) / e)%R n = (c * (2 * rtotal f n - INR n) / e)%R.
Proof. induction n as [|n IH]; cbn [rtotal]; [unfold Rdiv; simpl; ring|]. rewrite IH, S_INR. unfold Rdiv. ring. Qed.

Definition airy (r phi : R) : R := (1 / (1 + 4 * r / ((1 - r) * (1 - r)) * (sin phi * sin phi)))%R.
Lemma airy_norm (r phi : R) : (0 <= r < 1)%R ->
  airy r phi = ((1 - r) * (1 - r) * (1 / (Cmod (1 - RtoC r * phase (2 * phi))%C * Cmod (1 - RtoC r * phase (2 * phi))%C)))%R.
Proof.
  intros H. rewrite <- norm_mod, phase_parts. unfold airy.
  assert (E : Cnorm2 (1 - RtoC r * (cos (2 * phi), sin (2 * phi)))%C = ((1 - r) * (1 - r) + 4 * r * (sin phi * sin phi))%R).
  { unfold Cnorm2, Re, Im. simpl. assert (S := sin2_cos2 (2 * phi)). unfold Rsqr in S. assert (D := cos_2a_sin phi).
    replace ((1 + - (r * cos (2 * phi) - 0 * sin (2 * phi))) * (1 + - (r * cos (2 * phi) - 0 * sin (2 * phi))) + (0 + - (r * sin (2 * phi) + 0 * cos (2 * phi))) * (0 + - (r * sin (2 * phi) + 0 * cos (2 * phi))))%R
      with (1 - 2 * r * cos (2 * phi) + r * r * (sin (2 * phi) * sin (2 * phi) + cos (2 * phi) * cos (2 * phi)))%R by ring. rewrite S, D. ring. }
  rewrite E. assert (P : (0 < (1 - r) * (1 - r) + 4 * r * (sin phi * sin phi))%R).
  { assert (0 < (1 - r) * (1 - r))%R by (apply Rmult_lt_0_compat; lra). assert (0 <= r * (sin phi * sin phi))%R by (apply Rmult_le_pos; [lra|nra]). lra. }
  clear E. set (s := (sin phi * sin phi)%R) in *. clearbody s. 
  replace (1 + 4 * r / ((1 - r) * (1 - r)) * s)%R with (((1 - r) * (1 - r) + 4 * r * s) / ((1 - r) * (1 - r)))%R by (field; lra).
  field. repeat split; lra.
Qed.

Lemma airy_mean (r phi : R) n : (0 <= r < 1)%R -> (0 < n)%nat ->
  let m := (rtotal (fun k => airy r (phi + INR k * (PI / INR n))) n / INR n)%R in
  ((1 - r) / (1 + r) * ((1 - r ^ n) / (1 + r ^ n)) <= m <= (1 - r) / (1 + r) * ((1 + r ^ n) / (1 - r ^ n)))%R.
Proof.
  intros H n0 m. assert (N := nR n n0). set (a := RtoC r * phase (2 * phi)).
  assert (Ma : Cmod a = r) by (unfold a, phase; rewrite Cmod_mult, Cmod_phase, Cmod_R, Rabs_pos_eq by lra; ring).
  assert (La : (Cmod a < 1)%R) by (rewrite Ma; lra).
  assert (E : m = ((1 - r) * (1 - r) * (1 / (Cmod (1 - Cpow a n)%C * Cmod (1 - Cpow a n)%C)) * ((1 - r ^ n * r ^ n) / (1 - r * r)))%R).
  { unfold m. rewrite (rtotal_ext _ (fun k : nat => ((1 - r) * (1 - r) * (2 * Re (1 / (1 - a * w n k))%C - 1) / (1 - r * r))%R)).
    - rewrite rtotal_affine, <- Re_rtotal, roots_mean by assumption.
      assert (P := pow_lt1 r n H n0). assert (Mw : Cmod (Cpow a n) = (r ^ n)%R) by (rewrite Cmod_Cpow, Ma; reflexivity).
      rewrite (airy_re (Cpow a n)) by (rewrite Mw; lra). rewrite Mw.
      assert (Dn : 1 - Cpow a n <> 0) by (apply mod_lt1; rewrite Mw; lra).
      replace (Re (RtoC (INR n) / (1 - Cpow a n))%C) with (INR n * Re (1 / (1 - Cpow a n))%C)%R.
      2:{ replace (RtoC (INR n) / (1 - Cpow a n)) with (RtoC (INR n) * (1 / (1 - Cpow a n))) by (field; exact Dn). unfold Re. generalize (1 / (1 - Cpow a n)). intros [u v]. simpl. ring. }
      set (rn := (r ^ n)%R) in *. set (z := Re _). clearbody rn z. field. repeat split; nra.
    - intros k _. rewrite airy_norm by exact H.
      replace (RtoC r * phase (2 * (phi + INR k * (PI / INR n)))) with (a * w n k).
      2:{ unfold a, w. rewrite <- Cmult_assoc, <- phase_add. do 2 f_equal. field. lra. }
      rewrite airy_re by (rewrite Cmod_mult, Ma; unfold w, phase; rewrite Cmod_phase; lra).
      replace (Cmod (a * w n k)%C) with r by (rewrite Cmod_mult, Ma; unfold w, phase; rewrite Cmod_phase; ring). unfold Rdiv. ring. }
  assert (P := pow_lt1 r n H n0). assert (Mw : Cmod (Cpow a n) = (r ^ n)%R) by (rewrite Cmod_Cpow, Ma; reflexivity).
  set (c := Cmod (1 - Cpow a n)%C) in *.
  assert (U : (c <= 1 + r ^ n)%R).
  { unfold c. rewrite <- Mw. eapply Rle_trans; [apply Cmod_triangle|]. rewrite Cmod_opp, Cmod_1. lra. }
  assert (L : (1 - r ^ n <= c)%R).
  { unfold c. rewrite <- Mw. assert (T := Cmod_triangle (1 - Cpow a n)%C (Cpow a n)). replace (1 - Cpow a n + Cpow a n)%C with (RtoC 1) in T by ring. rewrite Cmod_1 in T. lra. }
  set (rn := (r ^ n)%R) in *. clearbody c rn. 
  assert (F : m = ((1 - r) / (1 + r) * ((1 - rn) * (1 + rn) / (c * c)))%R) by (rewrite E; field; repeat split; nra).
  clear E. rewrite F. assert (K : (0 < (1 - r) / (1 + r))%R) by (apply Rdiv_lt_0_compat; lra).
  assert (cc : (0 < c * c)%R) by nra.
  split; apply Rmult_le_compat_l; try lra.
  - apply (Rmult_le_reg_r (c * c * (1 + rn))); [apply Rmult_lt_0_compat; lra|].
    replace ((1 - rn) / (1 + rn) * (c * c * (1 + rn)))%R with ((1 - rn) * (c * c))%R by (field; lra).
    replace ((1 - rn) * (1 + rn) / (c * c) * (c * c * (1 + rn)))%R with ((1 - rn) * ((1 + rn) * (1 + rn)))%R by (field; nra).
    apply Rmult_le_compat_l; [lra|nra].
  - apply (Rmult_le_reg_r (c * c * (1 - rn))); [apply Rmult_lt_0_compat; lra|].
    replace ((1 + rn) / (1 - rn) * (c * c * (1 - rn)))%R with ((1 + rn) * (c * c))%R by (field; lra).
    replace ((1 - rn) * (1 + rn) / (c * c) * (c * c * (1 - rn)))%R with ((1 + rn) * ((1 - rn) * (1 - rn)))%R by (field; nra).
    apply Rmult_le_compat_l; [lra|nra].
Qed.
