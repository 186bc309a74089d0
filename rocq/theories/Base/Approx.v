(** Two small calculi: quantities that approach a limit like K / n, and functions of bounded rate of change. *)
From Coq Require Import Reals Psatz ZArith Lra Lia Arith.
From Coquelicot Require Import Coquelicot.
From Coq Require Import List.
From Verif.Base Require Import Cx Mat Mexp Det Ode.
Import ListNotations.
Open Scope R_scope.
Open Scope C_scope.

(** ** Approximation with an error of order 1 / n; [Ix n a] says that a is an approximation of the order n *)
Section Appr.
Variables (T : Type) (Ix : nat -> T -> Prop).
Definition appr (f : T -> C) (c : C) : Prop := exists K N, (0 <= K)%R /\ (0 < N)%nat /\ forall n a, (N <= n)%nat -> Ix n a -> (Cmod (f a - c)%C <= K / INR n)%R.
Lemma n_pos N n : (0 < N)%nat -> (N <= n)%nat -> (1 <= INR n)%R.
Proof. intros H1 H2. apply (le_INR 1). lia. Qed.
Lemma over_n_1 K n : (0 <= K)%R -> (1 <= INR n)%R -> (0 <= K / INR n <= K)%R.
Proof.
  intros H1 H2. assert (I : (0 < / INR n)%R) by (apply Rinv_0_lt_compat; lra). assert (J : (/ INR n <= 1)%R) by (rewrite <- Rinv_1; apply Rinv_le_contravar; lra).
  unfold Rdiv. split; nra.
Qed.
Lemma appr_const c : appr (fun _ => c) c.
Proof. exists 0%R, 1%nat. split; [lra|]. split; [lia|]. intros n a Hn _. replace (c - c) with (RtoC 0) by ring. rewrite Cmod_0. apply (over_n_1 0 n); [lra|apply (n_pos 1); [lia|exact Hn]]. Qed.
Lemma appr_ext f g c : (forall a, f a = g a) -> appr f c -> appr g c.
Proof. intros E (K & N & H1 & H2 & H3). exists K, N. split; [exact H1|]. split; [exact H2|]. intros n a Hn Ha. rewrite <- E. now apply H3. Qed.
Lemma appr_plus f g c d : appr f c -> appr g d -> appr (fun a => f a + g a) (c + d).
Proof.
  intros (K & N & K0 & N0 & H) (K' & N' & K0' & N0' & H'). exists (K + K')%R, (N + N')%nat. split; [lra|]. split; [lia|]. intros n a Hn Ha.
  replace (f a + g a - (c + d)) with ((f a - c) + (g a - d)) by ring. eapply Rle_trans; [apply Cmod_triangle|]. assert (A := H n a ltac:(lia) Ha). assert (B := H' n a ltac:(lia) Ha).
  unfold Rdiv in *. lra.
Qed.
Lemma appr_mult f g c d : appr f c -> appr g d -> appr (fun a => f a * g a) (c * d).
Proof.
  intros (K & N & K0 & N0 & H) (K' & N' & K0' & N0' & H'). exists (K * (K' + Cmod d) + Cmod c * K')%R, (N + N')%nat. assert (C0 := Cmod_ge_0 c). assert (D0 := Cmod_ge_0 d).
  split; [nra|]. split; [lia|]. intros n a Hn Ha. assert (P := n_pos N n N0 ltac:(lia)). assert (A := H n a ltac:(lia) Ha). assert (B := H' n a ltac:(lia) Ha).
  replace (f a * g a - c * d) with ((f a - c) * ((g a - d) + d) + c * (g a - d)) by ring. eapply Rle_trans; [apply Cmod_triangle|]. rewrite !Cmod_mult.
  assert (G : (Cmod (g a - d + d)%C <= K' + Cmod d)%R) by (eapply Rle_trans; [apply Cmod_triangle|]; assert (Q := over_n_1 K' n K0' P); lra).
  replace ((K * (K' + Cmod d) + Cmod c * K') / INR n)%R with (K / INR n * (K' + Cmod d) + Cmod c * (K' / INR n))%R by (field; lra).
  apply Rplus_le_compat; apply Rmult_le_compat; auto using Cmod_ge_0. lra.
Qed.
Lemma appr_opp f c : appr f c -> appr (fun a => - f a) (- c).
Proof.
  intros H. replace (- c) with (RtoC (-1) * c) by (apply C_ext; cbn; ring). apply (appr_ext (fun a => RtoC (-1) * f a)); [intros a; apply C_ext; cbn; ring|].
  apply appr_mult; [apply appr_const|exact H].
Qed.
Lemma appr_minus f g c d : appr f c -> appr g d -> appr (fun a => f a - g a) (c - d).
Proof. intros F G. apply appr_plus; [exact F|now apply appr_opp]. Qed.
Lemma appr_csum m (f : nat -> T -> C) (c : nat -> C) : (forall i, (i < m)%nat -> appr (f i) (c i)) -> appr (fun a => csum m (fun i => f i a)) (csum m c).
Proof. induction m as [|m IH]; intros H; cbn; [apply appr_const|]. apply appr_plus; [apply IH; intros; apply H; lia|apply H; lia]. Qed.
Lemma appr_far f c : appr f c -> c <> 0 -> exists N, (0 < N)%nat /\ forall n a, (N <= n)%nat -> Ix n a -> (Cmod c / 2 <= Cmod (f a))%R.
Proof.
  intros (K & N & K0 & N0 & H) Hc. assert (P : (0 < Cmod c)%R) by now apply Cmod_gt_0. destruct (nfloor_ex (2 * K / Cmod c)) as [M [_ HM]]; [apply Rdiv_le_0_compat; lra|].
  exists (N + S M)%nat. split; [lia|]. intros n a Hn Ha. assert (A := H n a ltac:(lia) Ha). assert (Q : (1 <= INR n)%R) by (apply (n_pos N n N0); lia).
  assert (B : (K / INR n <= Cmod c / 2)%R).
  { assert (X : (2 * K / Cmod c <= INR n)%R) by (apply Rlt_le, (Rlt_le_trans _ _ _ HM); rewrite <- S_INR; apply le_INR; lia).
    apply (Rmult_le_compat_r (Cmod c)) in X; [|lra]. replace (2 * K / Cmod c * Cmod c)%R with (2 * K)%R in X by (field; lra). apply (Rmult_le_reg_r (INR n)); [lra|]. replace (K / INR n * INR n)%R with K by (field; lra). lra. }
  assert (T1 := Cmod_triangle (c - f a) (f a)). replace (c - f a + f a) with c in T1 by ring. rewrite Cmod_minus_sym in T1. lra.
Qed.
Lemma appr_inv f c : appr f c -> c <> 0 -> appr (fun a => / f a) (/ c).
Proof.
  intros F Hc. destruct (appr_far f c F Hc) as (M & M0 & HM). destruct F as (K & N & K0 & N0 & H). assert (P : (0 < Cmod c)%R) by now apply Cmod_gt_0.
  exists (2 * K / (Cmod c * Cmod c))%R, (N + M)%nat. split; [apply Rdiv_le_0_compat; nra|]. split; [lia|]. intros n a Hn Ha.
  assert (A := H n a ltac:(lia) Ha). assert (B := HM n a ltac:(lia) Ha). assert (Q := n_pos N n N0 ltac:(lia)).
  assert (Fa : f a <> 0) by (apply Cmod_gt_0; lra). replace (/ f a - / c) with ((c - f a) * (/ f a * / c)) by (field; now split).
  rewrite !Cmod_mult, !Cmod_inv, Cmod_minus_sym by assumption.
  assert (I : (/ Cmod (f a) <= 2 / Cmod c)%R) by (replace (2 / Cmod c)%R with (/ (Cmod c / 2))%R by (field; lra); apply Rinv_le_contravar; lra).
  assert (I0 : (0 < / Cmod (f a))%R) by (apply Rinv_0_lt_compat; lra). assert (I1 : (0 < / Cmod c)%R) by now apply Rinv_0_lt_compat.
  apply Rle_trans with (K / INR n * (2 / Cmod c * / Cmod c))%R; [|apply Req_le; field; lra].
  apply Rmult_le_compat; [apply Cmod_ge_0|nra|exact A|]. apply Rmult_le_compat_r; lra.
Qed.
(** Matrices *)
Definition mappr (m : nat) (F : T -> mat) (L : mat) : Prop := forall i j, (i < m)%nat -> (j < m)%nat -> appr (fun a => F a i j) (L i j).
Lemma mappr_mul m F G L M : mappr m F L -> mappr m G M -> mappr m (fun a => mmul m (F a) (G a)) (mmul m L M).
Proof. intros A B i j Hi Hj. unfold mmul. apply (appr_csum m (fun k a => F a i k * G a k j) (fun k => L i k * M k j)). intros k Hk. apply appr_mult; auto. Qed.
Lemma mappr_const m L : mappr m (fun _ => L) L.
Proof. intros i j _ _. apply appr_const. Qed.
Lemma mappr_meq m F G L : (forall n a, Ix n a -> meq m (F a) (G a)) -> mappr m F L -> mappr m G L.
Proof.
  intros E H i j Hi Hj. destruct (H i j Hi Hj) as (K & N & H1 & H2 & H3). exists K, N. split; [exact H1|]. split; [exact H2|]. intros n a Hn Ha. rewrite <- (E n a Ha i j Hi Hj). now apply (H3 n).
Qed.
Lemma mappr_bound m F L : (exists K, (0 <= K)%R /\ forall n a, (0 < n)%nat -> Ix n a -> bounded_by m (msub (F a) L) (K / INR n)) -> mappr m F L.
Proof. intros (K & K0 & H) i j Hi Hj. exists K, 1%nat. split; [exact K0|]. split; [lia|]. intros n a Hn Ha. apply (H n a ltac:(lia) Ha i j Hi Hj). Qed.
Definition inv2 (A : mat) : mat := let d := / det 2 A in mat_of [[d * A 1%nat 1%nat; - (d * A 0%nat 1%nat)]; [- (d * A 1%nat 0%nat); d * A 0%nat 0%nat]].
Lemma inv2_inverse A : det 2 A <> 0 -> is_inverse 2 A (inv2 A).
Proof.
  intros D. assert (E : / det 2 A * (A 0%nat 0%nat * A 1%nat 1%nat - A 0%nat 1%nat * A 1%nat 0%nat) = 1) by (rewrite <- det2; now apply Cinv_l).
  split; intros i j Hi Hj; unfold mmul, csum, inv2, mat_of, mid; destruct i as [|[|i]]; try lia; destruct j as [|[|j]]; try lia; cbn [nth Nat.eqb]; (ring || (rewrite <- E; ring)).
Qed.
Lemma mappr_inv2 F L : mappr 2 F L -> det 2 L <> 0 -> (exists N, (0 < N)%nat /\ forall n a, (N <= n)%nat -> Ix n a -> det 2 (F a) <> 0) /\ mappr 2 (fun a => inv2 (F a)) (inv2 L).
Proof.
  intros H D. assert (AD : appr (fun a => det 2 (F a)) (det 2 L)).
  { rewrite det2. apply (appr_ext (fun a => F a 0%nat 0%nat * F a 1%nat 1%nat - F a 0%nat 1%nat * F a 1%nat 0%nat)); [intros a; now rewrite det2|].
    apply appr_minus; apply appr_mult; apply H; lia. }
  split.
  - destruct (appr_far _ _ AD D) as (N & N0 & HN). exists N. split; [exact N0|]. intros n a Hn Ha. assert (X := HN n a Hn Ha). apply Cmod_gt_0. assert (P : (0 < Cmod (det 2 L))%R) by now apply Cmod_gt_0. lra.
  - assert (AI := appr_inv _ _ AD D). intros i j Hi Hj. destruct i as [|[|i]]; try lia; destruct j as [|[|j]]; try lia; unfold inv2, mat_of; cbn [nth].
    + apply appr_mult; [exact AI|apply H; lia].
    + apply appr_opp, appr_mult; [exact AI|apply H; lia].
    + apply appr_opp, appr_mult; [exact AI|apply H; lia].
    + apply appr_mult; [exact AI|apply H; lia].
Qed.
End Appr.

(** ** Bounded functions of bounded rate of change on [0, D] *)
Definition lipb (D : R) (f : R -> C) : Prop := exists B L, (0 <= B)%R /\ (0 <= L)%R /\ (forall z, (0 <= z <= D)%R -> (Cmod (f z) <= B)%R) /\
  forall z z', (0 <= z <= D)%R -> (0 <= z' <= D)%R -> (Cmod (f z - f z')%C <= L * Rabs (z - z'))%R.
Lemma lipb_const D c : lipb D (fun _ => c).
Proof. exists (Cmod c), 0%R. split; [apply Cmod_ge_0|]. split; [lra|]. split; [intros; lra|]. intros. replace (c - c) with (RtoC 0) by ring. rewrite Cmod_0. lra. Qed.
Lemma lipb_plus D f g : lipb D f -> lipb D g -> lipb D (fun z => f z + g z).
Proof.
  intros (B & L & B0 & L0 & H & H') (B1 & L1 & B10 & L10 & H1 & H1'). exists (B + B1)%R, (L + L1)%R. split; [lra|]. split; [lra|]. split.
  - intros z Hz. eapply Rle_trans; [apply Cmod_triangle|]. specialize (H z Hz). specialize (H1 z Hz). lra.
  - intros z z' Hz Hz'. replace (f z + g z - (f z' + g z')) with ((f z - f z') + (g z - g z')) by ring. eapply Rle_trans; [apply Cmod_triangle|]. specialize (H' z z' Hz Hz'). specialize (H1' z z' Hz Hz'). lra.
Qed.
Lemma lipb_mult D f g : lipb D f -> lipb D g -> lipb D (fun z => f z * g z).
Proof.
  intros (B & L & B0 & L0 & H & H') (B1 & L1 & B10 & L10 & H1 & H1'). exists (B * B1)%R, (L * B1 + B * L1)%R. split; [nra|]. split; [nra|]. split.
  - intros z Hz. rewrite Cmod_mult. apply Rmult_le_compat; auto using Cmod_ge_0.
  - intros z z' Hz Hz'. replace (f z * g z - f z' * g z') with ((f z - f z') * g z + f z' * (g z - g z')) by ring. eapply Rle_trans; [apply Cmod_triangle|]. rewrite !Cmod_mult.
    replace ((L * B1 + B * L1) * Rabs (z - z'))%R with (L * Rabs (z - z') * B1 + B * (L1 * Rabs (z - z')))%R by ring. apply Rplus_le_compat; apply Rmult_le_compat; auto using Cmod_ge_0.
Qed.
Lemma lipb_ext D f g : (forall z, (0 <= z <= D)%R -> f z = g z) -> lipb D f -> lipb D g.
Proof.
  intros E (B & L & B0 & L0 & H & H'). exists B, L. split; [exact B0|]. split; [exact L0|]. split; [intros z Hz; rewrite <- E by exact Hz; now apply H|].
  intros z z' Hz Hz'. rewrite <- !E by assumption. now apply H'.
Qed.
Lemma lipb_opp D f : lipb D f -> lipb D (fun z => - f z).
Proof. intros H. apply (lipb_ext D (fun z => RtoC (-1) * f z)); [intros z _; apply C_ext; cbn; ring|]. apply lipb_mult; [apply lipb_const|exact H]. Qed.
Lemma lipb_minus D f g : lipb D f -> lipb D g -> lipb D (fun z => f z - g z).
Proof. intros F G. apply lipb_plus; [exact F|now apply lipb_opp]. Qed.
Lemma lipb_inv D f m : (0 < m)%R -> (forall z, (0 <= z <= D)%R -> (m <= Cmod (f z))%R) -> lipb D f -> lipb D (fun z => / f z).
Proof.
  intros M Hm (B & L & B0 & L0 & H & H'). assert (NZ : forall z, (0 <= z <= D)%R -> f z <> 0) by (intros z Hz; apply Cmod_gt_0; specialize (Hm z Hz); lra).
  assert (IB : forall z, (0 <= z <= D)%R -> (0 < / Cmod (f z) <= / m)%R).
  { intros z Hz. specialize (Hm z Hz). split; [apply Rinv_0_lt_compat; lra|apply Rinv_le_contravar; lra]. }
  assert (I := Rinv_0_lt_compat m M). exists (/ m)%R, (L * (/ m * / m))%R. split; [lra|]. split; [nra|]. split.
  - intros z Hz. rewrite Cmod_inv by now apply NZ. now apply IB.
  - intros z z' Hz Hz'. replace (/ f z - / f z') with ((f z' - f z) * (/ f z * / f z')) by (field; split; now apply NZ). rewrite !Cmod_mult, !Cmod_inv, Cmod_minus_sym by (now apply NZ).
    destruct (IB z Hz), (IB z' Hz'). replace (L * (/ m * / m) * Rabs (z - z'))%R with (L * Rabs (z - z') * (/ m * / m))%R by ring.
    apply Rmult_le_compat; [apply Cmod_ge_0|nra|now apply H'|]. apply Rmult_le_compat; lra.
Qed.
Lemma lipb_csum D m (f : nat -> R -> C) : (forall i, (i < m)%nat -> lipb D (f i)) -> lipb D (fun z => csum m (fun i => f i z)).
Proof. induction m as [|m IH]; intros H; cbn; [apply lipb_const|]. apply (lipb_plus D (fun z => csum m (fun i => f i z))); [apply IH; intros; apply H; lia|apply H; lia]. Qed.
Definition mlipb (n : nat) (D : R) (A : R -> mat) : Prop := forall i j, (i < n)%nat -> (j < n)%nat -> lipb D (fun z => A z i j).
Lemma mlipb_mul n D A B : mlipb n D A -> mlipb n D B -> mlipb n D (fun z => mmul n (A z) (B z)).
Proof. intros H K i j Hi Hj. unfold mmul. apply (lipb_csum D n (fun k z => A z i k * B z k j)). intros k Hk. apply lipb_mult; auto. Qed.
Lemma mlipb_uniform n D A : mlipb n D A -> exists K L, (0 < K)%R /\ (0 <= L)%R /\ (forall z, (0 <= z <= D)%R -> bounded_by n (A z) K) /\
  forall z z', (0 <= z <= D)%R -> (0 <= z' <= D)%R -> bounded_by n (msub (A z) (A z')) (L * Rabs (z - z')).
Proof.
  intros H.
  assert (G : forall p, (p <= n)%nat -> forall q, (q <= n)%nat -> exists K L, (0 < K)%R /\ (0 <= L)%R /\ forall i j, (i < p)%nat -> (j < q)%nat ->
    (forall z, (0 <= z <= D)%R -> (Cmod (A z i j) <= K)%R) /\ forall z z', (0 <= z <= D)%R -> (0 <= z' <= D)%R -> (Cmod (A z i j - A z' i j)%C <= L * Rabs (z - z'))%R).
  { induction p as [|p IHp]; intros Hp q Hq; [exists 1%R, 0%R; split; [lra|]; split; [lra|]; intros; lia|].
    induction q as [|q IHq]; [exists 1%R, 0%R; split; [lra|]; split; [lra|]; intros; lia|].
    destruct (IHp ltac:(lia) (S q) Hq) as (K1 & L1 & K10 & L10 & H1). destruct (IHq ltac:(lia)) as (K2 & L2 & K20 & L20 & H2). destruct (H p q ltac:(lia) ltac:(lia)) as (B & L & B0 & L0 & HB & HL).
    exists (K1 + K2 + B)%R, (L1 + L2 + L)%R. split; [lra|]. split; [lra|].
    assert (W : forall x y : R, forall z z' : R, (0 <= x <= y)%R -> (x * Rabs (z - z') <= y * Rabs (z - z'))%R) by (intros x y z z' Hxy; apply Rmult_le_compat_r; [apply Rabs_pos|lra]).
    intros i j Hi Hj. destruct (Nat.eq_dec i p) as [->|Ni].
    - destruct (Nat.eq_dec j q) as [->|Nj].
      + split; [intros z Hz; specialize (HB z Hz); lra|]. intros z z' Hz Hz'. eapply Rle_trans; [now apply HL|apply W; lra].
      + destruct (H2 p j ltac:(lia) ltac:(lia)) as [X Y]. split; [intros z Hz; specialize (X z Hz); lra|]. intros z z' Hz Hz'. eapply Rle_trans; [now apply Y|apply W; lra].
    - destruct (H1 i j ltac:(lia) ltac:(lia)) as [X Y]. split; [intros z Hz; specialize (X z Hz); lra|]. intros z z' Hz Hz'. eapply Rle_trans; [now apply Y|apply W; lra]. }
  destruct (G n (le_n n) n (le_n n)) as (K & L & K0 & L0 & X). exists K, L. split; [exact K0|]. split; [exact L0|]. split.
  - intros z Hz i j Hi Hj. now apply (proj1 (X i j Hi Hj)).
  - intros z z' Hz Hz' i j Hi Hj. now apply (proj2 (X i j Hi Hj)).
Qed.
