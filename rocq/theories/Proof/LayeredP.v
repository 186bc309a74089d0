(** Lemmas for Props/LayeredT.v: finely layered media. *)
From Coq Require Import Reals Lra Psatz Lia ZArith.
From Coquelicot Require Import Coquelicot.
From Coq Require Import List.
From Verif.Base Require Import Py Cx Mat Mexp Det Ode Approx.
From Verif.Model Require Import Units Ellips Rotation Structure Solver4.
From Verif.Spec Require Import Maxwell Tensor Turned Graded Layered.
From Verif.Proof Require Import UnitsP DispersionsP StructureP PoyntingP Solver4P Solver4P2 Solver4P3 Solver4P5 Solver4P6 GradedP GradedP2.
Import ListNotations.
Open Scope R_scope.
Open Scope C_scope.
Open Scope py_scope.

(** ** Means *)
Lemma mean_plus p f g : mean p (fun q => f q + g q) = mean p f + mean p g.
Proof. induction p as [|q p IH]; cbn; [ring|]. unfold mean in IH. rewrite IH. ring. Qed.
Lemma mean_scal c p f : mean p (fun q => c * f q) = c * mean p f.
Proof. induction p as [|q p IH]; cbn; [ring|]. unfold mean in IH. rewrite IH. ring. Qed.
Lemma mean_ext p f g : (forall q, In q p -> f q = g q) -> mean p f = mean p g.
Proof. induction p as [|q p IH]; intros H; cbn; [reflexivity|]. rewrite (H q (or_introl eq_refl)). f_equal. apply IH. intros r Hr. apply H. now right. Qed.
Lemma mean_const p c : shares p -> mean p (fun _ => c) = c.
Proof.
  intros [_ S]. assert (E : mean p (fun _ => c) = RtoC (fold_right (fun q s => fst q + s) 0 p)%R * c).
  { clear S. induction p as [|q p IH]; cbn; [ring|]. unfold mean in IH. rewrite IH, RtoC_plus. ring. }
  rewrite E, S. ring.
Qed.
Lemma mean_conj p f : Cconj (mean p f) = mean p (fun q => Cconj (f q)).
Proof. induction p as [|q p IH]; cbn; [apply Cconj_R|]. unfold mean in IH. rewrite Cconj_plus, Cconj_mult, Cconj_R, IH. reflexivity. Qed.
Lemma mean_Im p f : shares p -> (forall q, In q p -> (0 <= Im (f q))%R) -> (0 <= Im (mean p f))%R.
Proof.
  intros [P _]. induction P as [|q p W P IH]; intros H; cbn [mean fold_right]; [cbn; lra|].
  assert (A := H q (or_introl eq_refl)). assert (B := IH (fun r Hr => H r (or_intror Hr))). fold (mean p f).
  replace (Im (RtoC (fst q) * f q + mean p f)) with (fst q * Im (f q) + Im (mean p f))%R by (destruct (f q), (mean p f); cbn; ring). apply Rplus_le_le_0_compat; [now apply Rmult_le_pos|exact B].
Qed.

(** ** The components of the mean tensor *)
Section Mean.
Variables (p : period) (e : mat).
Hypothesis SH : shares p.
Hypothesis ZZ : Forall (fun q : R * mat => snd q 2%nat 2%nat <> RtoC 0) p.
Let zz q (Hq : In q p) : snd q 2%nat 2%nat <> RtoC 0 := proj1 (Forall_forall _ p) ZZ q Hq.
Let z (q : R * mat) : C := / snd q 2%nat 2%nat.
Definition layer_field (Ex Ey Dz : C) (q : R * mat) : nat -> C :=
  fun i => match i with O => Ex | 1%nat => Ey | _ => (Dz - snd q 2%nat 0%nat * Ex - snd q 2%nat 1%nat * Ey) / snd q 2%nat 2%nat end.
Lemma layer_field_ok Ex Ey Dz q : In q p -> layer_field Ex Ey Dz q 0%nat = Ex /\ layer_field Ex Ey Dz q 1%nat = Ey /\ mvec 3 (snd q) (layer_field Ex Ey Dz q) 2%nat = Dz.
Proof. intros Hq. split; [reflexivity|]. split; [reflexivity|]. unfold mvec, csum, layer_field. field. now apply zz. Qed.
Lemma mean_field Ex Ey Dz : mean p (fun q => layer_field Ex Ey Dz q 2%nat) =
  Dz * mean p z - Ex * mean p (fun q => snd q 2%nat 0%nat * z q) - Ey * mean p (fun q => snd q 2%nat 1%nat * z q).
Proof.
  rewrite (mean_ext p _ (fun q => Dz * z q + (- Ex * (snd q 2%nat 0%nat * z q) + - Ey * (snd q 2%nat 1%nat * z q)))) by (intros q Hq; unfold layer_field, z; field; now apply zz).
  rewrite !mean_plus, !mean_scal. ring.
Qed.
Lemma mean_D Ex Ey Dz i : mean p (fun q => mvec 3 (snd q) (layer_field Ex Ey Dz q) i) =
  Dz * mean p (fun q => snd q i 2%nat * z q) + Ex * mean p (fun q => snd q i 0%nat - snd q i 2%nat * snd q 2%nat 0%nat * z q)
  + Ey * mean p (fun q => snd q i 1%nat - snd q i 2%nat * snd q 2%nat 1%nat * z q).
Proof.
  rewrite <- !mean_scal, <- !mean_plus. apply mean_ext. intros q Hq. unfold mvec, csum, layer_field, z. field. now apply zz.
Qed.
Record components : Prop := {
  co_zz : e 2%nat 2%nat * mean p z = 1;
  co_row : forall j, (j < 2)%nat -> e 2%nat j = e 2%nat 2%nat * mean p (fun q => snd q 2%nat j * z q);
  co_col : forall i, (i < 2)%nat -> e i 2%nat * mean p z = mean p (fun q => snd q i 2%nat * z q);
  co_block : forall i j, (i < 2)%nat -> (j < 2)%nat ->
    e i j - e i 2%nat * mean p (fun q => snd q 2%nat j * z q) = mean p (fun q => snd q i j - snd q i 2%nat * snd q 2%nat j * z q) }.
Lemma averages_components : averages p e -> components.
Proof.
  intros A. assert (H : forall Ex Ey Dz i, (i < 3)%nat -> mean p (fun q => mvec 3 (snd q) (layer_field Ex Ey Dz q) i) = e i 0%nat * Ex + e i 1%nat * Ey + e i 2%nat * mean p (fun q => layer_field Ex Ey Dz q 2%nat)).
  { intros Ex Ey Dz i Hi. rewrite (A (layer_field Ex Ey Dz) Ex Ey Dz (layer_field_ok Ex Ey Dz) i Hi). unfold mvec, csum. cbn [layer_field]. rewrite !(mean_const p _ SH). ring. }
  assert (Z2 : forall Ex Ey Dz, mean p (fun q => mvec 3 (snd q) (layer_field Ex Ey Dz q) 2%nat) = Dz).
  { intros. rewrite (mean_ext p _ (fun _ => Dz)) by (intros q Hq; now apply layer_field_ok). now apply mean_const. }
  constructor.
  - assert (X := H 0 0 1 2%nat ltac:(lia)). rewrite Z2, mean_field in X. rewrite X. ring.
  - intros j Hj. idx j.
    + assert (X := H 1 0 0 2%nat ltac:(lia)). rewrite Z2, mean_field in X. apply (f_equal (fun w => w + e 2%nat 2%nat * mean p (fun q => snd q 2%nat 0%nat * z q))) in X. transitivity (e 2%nat 0%nat * 1 + e 2%nat 1%nat * 0 + e 2%nat 2%nat * (0 * mean p z - 1 * mean p (fun q => snd q 2%nat 0%nat * z q) - 0 * mean p (fun q => snd q 2%nat 1%nat * z q)) + e 2%nat 2%nat * mean p (fun q => snd q 2%nat 0%nat * z q)); [ring|]. rewrite <- X. ring.
    + assert (X := H 0 1 0 2%nat ltac:(lia)). rewrite Z2, mean_field in X. apply (f_equal (fun w => w + e 2%nat 2%nat * mean p (fun q => snd q 2%nat 1%nat * z q))) in X. transitivity (e 2%nat 0%nat * 0 + e 2%nat 1%nat * 1 + e 2%nat 2%nat * (0 * mean p z - 0 * mean p (fun q => snd q 2%nat 0%nat * z q) - 1 * mean p (fun q => snd q 2%nat 1%nat * z q)) + e 2%nat 2%nat * mean p (fun q => snd q 2%nat 1%nat * z q)); [ring|]. rewrite <- X. ring.
  - intros i Hi. assert (X := H 0 0 1 i ltac:(lia)). rewrite mean_D, mean_field in X.
    transitivity (e i 0%nat * 0 + e i 1%nat * 0 + e i 2%nat * (1 * mean p z - 0 * mean p (fun q => snd q 2%nat 0%nat * z q) - 0 * mean p (fun q => snd q 2%nat 1%nat * z q))); [ring|]. rewrite <- X. ring.
  - intros i j Hi Hj. idx j.
    + assert (X := H 1 0 0 i ltac:(lia)). rewrite mean_D, mean_field in X.
      transitivity (e i 0%nat * 1 + e i 1%nat * 0 + e i 2%nat * (0 * mean p z - 1 * mean p (fun q => snd q 2%nat 0%nat * z q) - 0 * mean p (fun q => snd q 2%nat 1%nat * z q))); [ring|]. rewrite <- X. ring.
    + assert (X := H 0 1 0 i ltac:(lia)). rewrite mean_D, mean_field in X.
      transitivity (e i 0%nat * 0 + e i 1%nat * 1 + e i 2%nat * (0 * mean p z - 0 * mean p (fun q => snd q 2%nat 0%nat * z q) - 1 * mean p (fun q => snd q 2%nat 1%nat * z q))); [ring|]. rewrite <- X. ring.
Qed.
Lemma components_averages : components -> averages p e.
Proof.
  intros [Hz Hr Hc Hb] F Ex Ey Dz HF i Hi.
  assert (Q : forall q, In q p -> forall j, (j < 3)%nat -> F q j = layer_field Ex Ey Dz q j).
  { intros q Hq j Hj. destruct (HF q Hq) as (H0 & H1 & H2). idx j; cbn [layer_field]; [exact H0|exact H1|]. rewrite <- H2, <- H0, <- H1. unfold mvec, csum. field. now apply zz. }
  rewrite (mean_ext p _ (fun q => mvec 3 (snd q) (layer_field Ex Ey Dz q) i)) by (intros q Hq; unfold mvec, csum; rewrite !(Q q Hq) by lia; reflexivity).
  unfold mvec at 2. unfold csum. rewrite (mean_ext p (fun q => F q 0%nat) (fun _ => Ex)), (mean_ext p (fun q => F q 1%nat) (fun _ => Ey)), (mean_ext p (fun q => F q 2%nat) (fun q => layer_field Ex Ey Dz q 2%nat)) by (intros q Hq; rewrite (Q q Hq) by lia; reflexivity).
  rewrite !(mean_const p _ SH), mean_field. idx i.
  - rewrite mean_D, <- (Hc 0%nat), <- (Hb 0%nat 0%nat), <- (Hb 0%nat 1%nat) by lia. ring.
  - rewrite mean_D, <- (Hc 1%nat), <- (Hb 1%nat 0%nat), <- (Hb 1%nat 1%nat) by lia. ring.
  - rewrite (mean_ext p _ (fun _ => Dz)) by (intros q Hq; now apply layer_field_ok). rewrite (mean_const p _ SH). rewrite (Hr 0%nat), (Hr 1%nat) by lia.
    transitivity (Dz * (e 2%nat 2%nat * mean p z)); [rewrite Hz; ring|ring].
Qed.
Hypothesis AV : averages p e.
Let CO := averages_components AV.
Lemma av_zz : e 2%nat 2%nat <> 0.
Proof. intros E. assert (H := co_zz CO). rewrite E in H. replace (0 * mean p z) with (RtoC 0) in H by ring. apply (f_equal fst) in H. cbn in H. lra. Qed.
Lemma av_inv : / e 2%nat 2%nat = mean p z.
Proof. assert (H := co_zz CO). assert (N := av_zz). transitivity (/ e 2%nat 2%nat * (e 2%nat 2%nat * mean p z)); [rewrite H; ring|field; exact N]. Qed.
Lemma av_row j : (j < 2)%nat -> e 2%nat j / e 2%nat 2%nat = mean p (fun q => snd q 2%nat j * z q).
Proof. intros Hj. rewrite (co_row CO j Hj) at 1. field. exact av_zz. Qed.
Lemma av_col i : (i < 2)%nat -> e i 2%nat / e 2%nat 2%nat = mean p (fun q => snd q i 2%nat * z q).
Proof. intros Hi. rewrite <- (co_col CO i Hi), <- av_inv. reflexivity. Qed.
Lemma av_block i j : (i < 2)%nat -> (j < 2)%nat -> e i j - e i 2%nat * e 2%nat j / e 2%nat 2%nat = mean p (fun q => snd q i j - snd q i 2%nat * snd q 2%nat j * z q).
Proof. intros Hi Hj. rewrite <- (co_block CO i j Hi Hj), <- (av_row j Hj). field. exact av_zz. Qed.

(** The matrices of the differential equation are averaged. *)
Lemma delta_mean kx : meq 4 (fun i j => mean p (fun q => delta_of kx (snd q) i j)) (delta_of kx e).
Proof.
  assert (N := av_zz). assert (D : forall eps : mat, eps 2%nat 2%nat <> 0 -> delta_of kx eps = mat_of
    [[- kx * eps 2%nat 0%nat / eps 2%nat 2%nat; - kx * eps 2%nat 1%nat / eps 2%nat 2%nat; RtoC 0; 1 - kx * kx / eps 2%nat 2%nat];
     [RtoC 0; RtoC 0; - (1); RtoC 0];
     [eps 1%nat 2%nat * eps 2%nat 0%nat / eps 2%nat 2%nat - eps 1%nat 0%nat; kx * kx - eps 1%nat 1%nat + eps 1%nat 2%nat * eps 2%nat 1%nat / eps 2%nat 2%nat; RtoC 0; kx * eps 1%nat 2%nat / eps 2%nat 2%nat];
     [eps 0%nat 0%nat - eps 0%nat 2%nat * eps 2%nat 0%nat / eps 2%nat 2%nat; eps 0%nat 1%nat - eps 0%nat 2%nat * eps 2%nat 1%nat / eps 2%nat 2%nat; RtoC 0; - kx * eps 0%nat 2%nat / eps 2%nat 2%nat]]).
  { intros eps Z. unfold delta_of, build_delta_matrix. destruct (Ceq_dec (eps 2%nat 2%nat) 0); [contradiction|reflexivity]. }
  intros i j Hi Hj. rewrite (mean_ext p _ (fun q => mat_of
    [[- kx * (snd q 2%nat 0%nat * z q); - kx * (snd q 2%nat 1%nat * z q); RtoC 0; 1 + - (kx * kx) * z q];
     [RtoC 0; RtoC 0; - (1); RtoC 0];
     [- (1) * (snd q 1%nat 0%nat - snd q 1%nat 2%nat * snd q 2%nat 0%nat * z q); kx * kx + - (1) * (snd q 1%nat 1%nat - snd q 1%nat 2%nat * snd q 2%nat 1%nat * z q); RtoC 0; kx * (snd q 1%nat 2%nat * z q)];
     [snd q 0%nat 0%nat - snd q 0%nat 2%nat * snd q 2%nat 0%nat * z q; snd q 0%nat 1%nat - snd q 0%nat 2%nat * snd q 2%nat 1%nat * z q; RtoC 0; - kx * (snd q 0%nat 2%nat * z q)]] i j)).
  2:{ intros q Hq. assert (Z := zz q Hq). rewrite (D _ Z). unfold z. unfold mat_of. idx i; idx j; cbn [nth]; field; exact Z. }
  rewrite (D e N). unfold mat_of. idx i; idx j; cbn [nth]; rewrite ?mean_plus, ?mean_scal, ?(mean_const p _ SH), <- ?av_row, <- ?av_col, <- ?av_block, <- ?av_inv by lia; field; exact N.
Qed.

(** The mean tensor of media without gain has no gain. *)
Lemma mean_passive : Forall (fun q => passive (snd q)) p -> passive e.
Proof.
  intros P E. rewrite Forall_forall in P. set (F := layer_field (E 0%nat) (E 1%nat) (mvec 3 e E 2%nat)).
  assert (HF : forall q, In q p -> F q 0%nat = E 0%nat /\ F q 1%nat = E 1%nat /\ mvec 3 (snd q) (F q) 2%nat = mvec 3 e E 2%nat) by (intros q Hq; now apply layer_field_ok).
  assert (E2 : mean p (fun q => F q 2%nat) = E 2%nat).
  { unfold F. rewrite mean_field. assert (Hz := co_zz CO). unfold mvec, csum. rewrite (co_row CO 0%nat), (co_row CO 1%nat) by lia.
    transitivity (E 2%nat * (e 2%nat 2%nat * mean p z) + (E 0%nat * mean p (fun q => snd q 2%nat 0%nat * z q) + E 1%nat * mean p (fun q => snd q 2%nat 1%nat * z q)) * (e 2%nat 2%nat * mean p z - 1)); [ring|]. rewrite Hz. ring. }
  assert (ME : veq 3 (fun j => mean p (fun q => F q j)) E).
  { intros j Hj. idx j; [|  |exact E2]; (rewrite (mean_ext p _ (fun _ => E _)) by (intros q Hq; now apply HF)); now apply mean_const. }
  assert (MD : veq 3 (fun i => mean p (fun q => mvec 3 (snd q) (F q) i)) (mvec 3 e E)).
  { intros i Hi. rewrite (AV F _ _ _ HF i Hi). unfold mvec, csum. rewrite !ME by lia. reflexivity. }
  unfold dissipation. replace (csum 3 (fun i => Cconj (E i) * mvec 3 e E i)) with (mean p (fun q => csum 3 (fun i => Cconj (F q i) * mvec 3 (snd q) (F q) i))).
  - apply (mean_Im p _ SH). intros q Hq. exact (P q Hq (F q)).
  - rewrite (mean_ext p _ (fun q => Cconj (E 0%nat) * mvec 3 (snd q) (F q) 0%nat + (Cconj (E 1%nat) * mvec 3 (snd q) (F q) 1%nat + mvec 3 e E 2%nat * Cconj (F q 2%nat)))).
    + rewrite !mean_plus, !mean_scal, <- mean_conj, E2, !MD by lia. unfold csum. ring.
    + intros q Hq. destruct (HF q Hq) as (H0 & H1 & H2). unfold csum. rewrite H0, H1, H2. ring.
Qed.
End Mean.

(** ** One period *)
Lemma mmul_le A B a b : (0 <= a)%R -> bounded_by 4 A a -> bounded_by 4 B b -> bounded_by 4 (mmul 4 A B) (4 * (a * b)).
Proof.
  intros a0 HA HB i j Hi Hj. unfold mmul. replace 4%R with (INR 4) by (cbn; ring). apply csum_bound. intros q Hq. rewrite Cmod_mult.
  apply Rmult_le_compat; try apply Cmod_ge_0; [now apply HA|now apply HB].
Qed.
Lemma mid_le : bounded_by 4 mid 1.
Proof. intros i j _ _. unfold mid. destruct (i =? j)%nat; [rewrite Cmod_1|rewrite Cmod_0]; lra. Qed.
Lemma madd_le A B a b : bounded_by 4 A a -> bounded_by 4 B b -> bounded_by 4 (madd A B) (a + b).
Proof. intros HA HB i j Hi Hj. unfold madd. eapply Rle_trans; [apply Cmod_triangle|]. apply Rplus_le_compat; [now apply HA|now apply HB]. Qed.
Lemma mscal_le (x : R) A a y : (Rabs x <= y)%R -> bounded_by 4 A a -> bounded_by 4 (mscal (RtoC x) A) (y * a).
Proof. intros Hx HA i j Hi Hj. unfold mscal. rewrite Cmod_mult, Cmod_R. apply Rmult_le_compat; [apply Rabs_pos|apply Cmod_ge_0|exact Hx|now apply HA]. Qed.
Lemma bounded_le A a b : (a <= b)%R -> bounded_by 4 A a -> bounded_by 4 A b.
Proof. intros H HA i j Hi Hj. eapply Rle_trans; [now apply HA|exact H]. Qed.
Lemma bounded_eq A B a : meq 4 A B -> bounded_by 4 A a -> bounded_by 4 B a.
Proof. intros E H i j Hi Hj. rewrite <- (E i j Hi Hj). now apply H. Qed.
Lemma step_product (P Q A B : mat) (w h : R) :
  let S := madd mid (mscal (RtoC (- (w * h))) A) in let T := madd mid (mscal (RtoC (- h)) B) in
  meq 4 (madd (mscal (RtoC (w * (h * h))) (mmul 4 A B)) (madd (mmul 4 S (msub Q T)) (mmul 4 (msub P S) Q)))
        (msub (mmul 4 P Q) (madd mid (mscal (RtoC (- h)) (madd (mscal (RtoC w) A) B)))).
Proof.
  cbv zeta. intros i j Hi Hj. unfold madd, msub, mscal, mmul, csum, mid. rewrite !RtoC_opp, !RtoC_mult. idx i; idx j; cbn [Nat.eqb]; ring.
Qed.
Section Period.
Variables (k : R) (kx : C) (pmat : R * mat -> mat).
Hypothesis STEP : forall K D, (0 < K)%R -> (0 <= D)%R -> exists R0, (0 <= R0)%R /\ forall d eps, (0 <= d <= D)%R ->
  bounded_by 4 (mscal (Ci * RtoC k) (delta_of kx eps)) K -> bounded_by 4 (msub (pmat (d, eps)) (step_matrix k kx d eps)) (R0 * (d * d)).
Definition mean_step (p : period) : mat := fun i j => mean p (fun q => mscal (Ci * RtoC k) (delta_of kx (snd q)) i j).
Definition period_layers (h : R) (p : period) : list (R * mat) := map (fun q => ((fst q * h)%R, snd q)) p.
Lemma period_step p D : (0 <= D)%R -> Forall (fun q => (0 <= fst q)%R) p -> exists R0, (0 <= R0)%R /\ forall h, (0 <= h <= D)%R ->
  bounded_by 4 (msub (mprod 4 (map pmat (period_layers h p))) (madd mid (mscal (RtoC (- h)) (mean_step p)))) (R0 * (h * h)).
Proof.
  intros D0 W. induction W as [|[w e] p W _ (R2 & R20 & IH)]; cbn [fst] in *.
  - exists 0%R. split; [lra|]. intros h _ i j Hi Hj. cbn [period_layers map mprod]. unfold msub, madd, mscal, mean_step, mean. cbn [fold_right].
    replace (mid i j - (mid i j + RtoC (- h) * 0)) with (RtoC 0) by ring. rewrite Cmod_0. lra.
  - set (A := mscal (Ci * RtoC k) (delta_of kx e)). destruct (mat_bound 4 A) as (a & a0 & HA). destruct (mat_bound 4 (mean_step p)) as (b & b0 & HB).
    assert (WD : (0 <= w * D)%R) by now apply Rmult_le_pos. destruct (STEP a (w * D)%R a0 WD) as (R1 & R10 & HR).
    set (s := (1 + w * D * a)%R). set (t := (R2 * (D * D) + (1 + D * b))%R).
    assert (s0 : (0 <= s)%R) by (unfold s; assert (0 <= w * D * a)%R by (apply Rmult_le_pos; lra); lra).
    assert (t0 : (0 <= t)%R) by (unfold t; assert (0 <= R2 * (D * D))%R by (repeat apply Rmult_le_pos; lra); assert (0 <= D * b)%R by (apply Rmult_le_pos; lra); lra).
    exists (w * (4 * (a * b)) + (4 * (s * R2) + 4 * ((R1 * (w * w)) * t)))%R. split.
    { assert (0 <= w * (4 * (a * b)))%R by (repeat apply Rmult_le_pos; lra). assert (0 <= 4 * (s * R2))%R by (repeat apply Rmult_le_pos; lra). assert (0 <= 4 * (R1 * (w * w) * t))%R by (repeat apply Rmult_le_pos; lra). lra. }
    intros h Hh. specialize (IH h Hh). assert (wh : (0 <= w * h <= w * D)%R) by (split; [apply Rmult_le_pos; lra|apply Rmult_le_compat_l; lra]).
    specialize (HR (w * h)%R e wh HA). unfold step_matrix in HR. fold A in HR.
    set (P := pmat ((w * h)%R, e)) in *. set (Q := mprod 4 (map pmat (period_layers h p))) in *.
    set (S := madd mid (mscal (RtoC (- (w * h))) A)) in *. set (T := madd mid (mscal (RtoC (- h)) (mean_step p))) in *.
    assert (hh : (0 <= h * h <= D * D)%R) by (split; [apply Rmult_le_pos; lra|apply Rmult_le_compat; lra]).
    assert (HS : bounded_by 4 S s).
    { apply madd_le; [apply mid_le|]. apply mscal_le; [|exact HA]. rewrite Rabs_Ropp, Rabs_pos_eq; lra. }
    assert (HT : bounded_by 4 T (1 + D * b)%R).
    { apply madd_le; [apply mid_le|]. apply mscal_le; [|exact HB]. rewrite Rabs_Ropp, Rabs_pos_eq; lra. }
    assert (HQ : bounded_by 4 Q t).
    { apply (bounded_eq (madd (msub Q T) T)); [intros i j _ _; unfold madd, msub; ring|]. unfold t. apply madd_le; [|exact HT]. apply (bounded_le _ (R2 * (h * h))); [|exact IH]. apply Rmult_le_compat_l; lra. }
    apply (bounded_eq (madd (mscal (RtoC (w * (h * h))) (mmul 4 A (mean_step p))) (madd (mmul 4 S (msub Q T)) (mmul 4 (msub P S) Q)))).
    + cbn [period_layers map mprod fst snd]. fold P. fold (period_layers h p). fold Q. unfold S, T. rewrite (step_product P Q A (mean_step p) w h). intros i j _ _. reflexivity.
    + apply (bounded_le _ (w * (h * h) * (4 * (a * b)) + (4 * (s * (R2 * (h * h))) + 4 * ((R1 * (w * h * (w * h))) * t)))); [right; ring|].
      apply madd_le; [|apply madd_le].
      * apply mscal_le; [rewrite Rabs_pos_eq; [lra|apply Rmult_le_pos; lra]|]. apply mmul_le; [lra|exact HA|exact HB].
      * apply mmul_le; [exact s0|exact HS|exact IH].
      * apply mmul_le; [|exact HR|exact HQ]. apply Rmult_le_pos; [exact R10|]. apply Rmult_le_pos; lra.
Qed.
Lemma mprod_times ls N s : meq 4 (mprod 4 (map pmat (times N ls))) (mprod 4 (map (fun _ => mprod 4 (map pmat ls)) (seq s N))).
Proof.
  revert s. induction N as [|N IH]; intros s; cbn [times seq map mprod]; [reflexivity|]. rewrite map_app, mprod_app, (IH (S s)). reflexivity.
Qed.
Lemma smooth_uniform d (e : mat) : (0 <= d)%R -> e 2%nat 2%nat <> 0 -> smooth (Uniform d e).
Proof.
  intros D Z. split; [exact D|]. exists (Cmod (e 2%nat 2%nat)), 0%R. split; [apply Cmod_gt_0; exact Z|]. split; intros; cbn [permittivity]; [lra|].
  replace (e i j - e i j) with (RtoC 0) by ring. rewrite Cmod_0. lra.
Qed.
Lemma sound_smooth a : sound a -> smooth (smeared a).
Proof. destruct a as [s|d p e]; cbn [sound smeared]; [easy|]. intros (D & S & Z & A). apply smooth_uniform; [exact D|]. exact (av_zz p e S Z A). Qed.

Inductive stacked (n : nat) : part -> layer mat -> Prop :=
| stacked_whole s l : sliced n s l -> stacked n (Whole s) l
| stacked_periods d p e N : (n <= N)%nat -> stacked n (Periods d p e) (Repeated (map (fun q => Homogeneous (fst q * (d / INR N))%R (snd q)) p) N 0 0).
Lemma period_profiles (h : R) p : profiles (map (fun q : R * mat => Homogeneous (fst q * h)%R (snd q)) p) = period_layers h p.
Proof. induction p as [|q p IH]; cbn; [reflexivity|]. now rewrite IH. Qed.
Lemma periods_profile h p N : profile (Repeated (map (fun q : R * mat => Homogeneous (fst q * h)%R (snd q)) p) N 0 0) = times N (period_layers h p).
Proof. rewrite profile_repeated, period_profiles. cbn [firstn app]. now rewrite app_nil_r. Qed.
Definition exact_part (a : part) : Prop := match a with Whole s => exact_uniform k kx pmat s | Periods _ _ _ => True end.
Lemma part_stack a : sound a -> exact_part a -> exists E, (0 <= E)%R /\ forall n l, (0 < n)%nat -> stacked n a l ->
  bounded_by 4 (msub (mprod 4 (map pmat (profile l))) (smat k kx (smeared a))) (E / INR n).
Proof.
  intros S U. destruct a as [s|d p e].
  - destruct (slab_slices k kx pmat STEP s S U) as (E & E0 & HE). exists E. split; [exact E0|]. intros n l Hn H. inversion H; subst. now apply HE.
  - assert (SM := sound_smooth _ S). cbn [smeared] in *. destruct S as (D & SH & Z & AV). destruct (mlipb_uniform 4 _ _ (amat_lipb k kx _ SM)) as (B & L & B0 & L0 & HB & HL). cbn [depth] in *.
    destruct (period_step p d D (proj1 SH)) as (R0 & R00 & HR). destruct (tm_converges 4 (amat k kx (Uniform d e)) d B L ltac:(lia) D B0 L0 HB HL R0 R00) as (E & E0 & HE).
    exists E. split; [exact E0|]. intros n l Hn H. inversion H; subst. match goal with X : (n <= ?q)%nat |- _ => rename q into N; rename X into HN end.
    assert (NP : (0 < N)%nat) by lia. rewrite periods_profile.
    assert (I1 : (1 <= INR n)%R) by (apply (le_INR 1); lia). assert (I2 : (INR n <= INR N)%R) by now apply le_INR.
    assert (h0 : (0 <= d / INR N <= d)%R) by (apply over_n_1; lra).
    apply (bounded_meq 4 (mprod 4 (map (fun _ => mprod 4 (map pmat (period_layers (d / INR N) p))) (seq 0 N)))); [symmetry; apply mprod_times|].
    assert (X := HE N (fun _ => mprod 4 (map pmat (period_layers (d / INR N) p))) (fun q => INR q * (d / INR N))%R NP). cbv zeta in X.
    intros i j Hi Hj. eapply Rle_trans; [apply X; [| |exact Hi|exact Hj]|].
    + intros q Hq. lra.
    + intros q Hq. apply (bounded_eq (msub (mprod 4 (map pmat (period_layers (d / INR N) p))) (madd mid (mscal (RtoC (- (d / INR N))) (mean_step p))))); [|now apply HR].
      assert (HM : meq 4 (mean_step p) (amat k kx (Uniform d e) (INR q * (d / INR N)))) by (intros i' j' Hi' Hj'; unfold mean_step, amat; cbn [permittivity]; unfold mscal; rewrite mean_scal; f_equal; now apply (delta_mean p e SH Z AV)).
      intros i' j' Hi' Hj'. unfold msub, madd, mscal. now rewrite (HM i' j' Hi' Hj').
    + unfold Rdiv. apply Rmult_le_compat_l; [exact E0|]. apply Rinv_le_contravar; lra.
Qed.
Definition in_order (ps : list part) (n : nat) (ls : list (layer mat)) : Prop := Forall2 (stacked n) ps ls.
Lemma parts_stack ps : Forall sound ps -> Forall exact_part ps -> mappr _ (in_order ps) 4 (pprod pmat) (gmat k kx (map smeared ps)).
Proof.
  intros S U. induction ps as [|s ss IH].
  - apply (mappr_meq _ (in_order []) 4 (fun _ => mid)); [|apply mappr_const]. intros n a H. inversion H; subst. reflexivity.
  - inversion S; subst. inversion U; subst. specialize (IH ltac:(assumption) ltac:(assumption)).
    apply (mappr_meq _ (in_order (s :: ss)) 4 (fun ls => mmul 4 (mprod 4 (map pmat (profile (hd (Homogeneous 0 mzero) ls)))) (pprod pmat (tl ls)))).
    + intros n a H. inversion H; subst. cbn [hd tl]. unfold pprod. cbn [profiles]. rewrite map_app. symmetry. apply mprod_app.
    + unfold gmat. cbn [map mprod]. fold (gmat k kx (map smeared ss)). apply mappr_mul.
      * destruct (part_stack s ltac:(assumption) ltac:(assumption)) as (E & E0 & HE). apply mappr_bound. exists E. split; [exact E0|]. intros n a Hn H. inversion H; subst. cbn [hd]. now apply HE.
      * intros i j Hi Hj. destruct (IH i j Hi Hj) as (E & N & E0 & N0 & HE). exists E, N. split; [exact E0|]. split; [exact N0|]. intros n a Hn H. inversion H; subst. cbn [tl]. now apply (HE n).
Qed.
End Period.
Lemma times_forall {A} (P : A -> Prop) N l : Forall P l -> Forall P (times N l).
Proof. intros H. induction N; cbn [times]; [constructor|]. now apply Forall_app. Qed.
Lemma parts_eps n ps ls : (0 < n)%nat -> Forall sound ps -> in_order ps n ls -> eps_ok (profiles ls).
Proof.
  intros Hn S H. induction H as [|a l ps ls H _ IH]; [constructor|]. inversion S; subst. cbn [profiles]. apply Forall_app. split; [|now apply IH].
  inversion H; subst.
  - match goal with X : sound (Whole ?s), Y : sliced n ?s l |- _ => assert (Q := order_eps n [s] [l] Hn ltac:(constructor; [exact X|constructor]) ltac:(constructor; [exact Y|constructor])) end.
    cbn [profiles] in Q. now rewrite app_nil_r in Q.
  - rewrite periods_profile. apply times_forall. match goal with X : sound (Periods _ _ _) |- _ => destruct X as (_ & _ & Z & _) end. unfold period_layers. apply Forall_map. exact Z.
Qed.

Section Converge.
Variables (th lb : R) (eps_f eps_b : mat) (ps : list part) (pmat : R * mat -> mat).
Let kx := reduced_k_x th eps_f.
Let k := (2 * PI / lb)%R.
Hypothesis STEP : forall K D, (0 < K)%R -> (0 <= D)%R -> exists R0, (0 <= R0)%R /\ forall d eps, (0 <= d <= D)%R ->
  bounded_by 4 (mscal (Ci * RtoC k) (delta_of kx eps)) K -> bounded_by 4 (msub (pmat (d, eps)) (step_matrix k kx d eps)) (R0 * (d * d)).
Hypothesis SM : Forall sound ps.
Hypothesis EU : Forall (exact_part k kx pmat) ps.
Hypothesis Nf : iso_n eps_f <> 0.
Hypothesis Cf : iso_cos kx eps_f <> 0.
Hypothesis Nb : iso_n eps_b <> 0.
Let LK := limit_k k kx (iso_n eps_f) (iso_cos kx eps_f) (iso_n eps_b) (iso_cos kx eps_b) (map smeared ps).
Hypothesis DK : det 2 (t_it LK) <> 0.
Lemma parts_converge : exists E N, (0 <= E)%R /\ (0 < N)%nat /\ forall n prop ls, (N <= n)%nat -> in_order ps n ls -> Forall (gives prop kx lb pmat) (profiles ls) ->
  exists res, solver4 prop th lb eps_f (profiles ls) eps_b = Some res /\
    bounded_by 2 (msub (jones_t4 res) (inv2 (t_it LK))) (E / INR n) /\ bounded_by 2 (msub (jones_r4 res) (mmul 2 (t_rt LK) (inv2 (t_it LK)))) (E / INR n).
Proof.
  set (F := fun ls => kgen (iso_n eps_f) (iso_cos kx eps_f) (pprod pmat ls) (isoL (iso_n eps_b) (iso_cos kx eps_b))).
  assert (A4 : mappr _ (in_order ps) 4 F LK).
  { unfold F, LK, limit_k, kgen. apply mappr_mul; [apply mappr_const|]. apply mappr_mul; [|apply mappr_const]. now apply parts_stack. }
  assert (A2 : mappr _ (in_order ps) 2 (fun ls => t_it (F ls)) (t_it LK)) by (intros i j Hi Hj; unfold t_it, mat_of; idx i; idx j; cbn [nth]; apply A4; lia).
  assert (R2 : mappr _ (in_order ps) 2 (fun ls => t_rt (F ls)) (t_rt LK)) by (intros i j Hi Hj; unfold t_rt, mat_of; idx i; idx j; cbn [nth]; apply A4; lia).
  destruct (mappr_inv2 _ _ _ _ A2 DK) as [(N0 & N00 & HD) AI]. assert (RI := mappr_mul _ _ _ _ _ _ _ R2 AI).
  destruct (mappr2 _ _ _ _ AI) as (E1 & N1 & E10 & N10 & H1). destruct (mappr2 _ _ _ _ RI) as (E2 & N2 & E20 & N20 & H2).
  exists (E1 + E2)%R, (N0 + N1 + N2)%nat. split; [lra|]. split; [lia|]. intros n prop ls Hn Ho G.
  destruct (solver4_gives prop th lb eps_f eps_b (profiles ls) pmat G Nf Cf Nb (HD n ls ltac:(lia) Ho)) as (res & HR & HT & HJ). fold kx in HT, HJ. exists res. split; [exact HR|].
  assert (I : (0 < / INR n)%R) by (apply Rinv_0_lt_compat, lt_0_INR; lia). assert (0 <= E1 * / INR n)%R by (apply Rmult_le_pos; lra). assert (0 <= E2 * / INR n)%R by (apply Rmult_le_pos; lra). split.
  - apply (bounded_meq 2 (inv2 (t_it (F ls)))); [symmetry; exact HT|]. intros i j Hi Hj. assert (X := H1 n ls ltac:(lia) Ho i j Hi Hj). unfold Rdiv in *. rewrite Rmult_plus_distr_r. lra.
  - apply (bounded_meq 2 (mmul 2 (t_rt (F ls)) (inv2 (t_it (F ls))))); [symmetry; exact HJ|]. intros i j Hi Hj. assert (X := H2 n ls ltac:(lia) Ho i j Hi Hj). unfold Rdiv in *. rewrite Rmult_plus_distr_r. lra.
Qed.
End Converge.
