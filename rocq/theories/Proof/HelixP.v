(** Lemmas for Props/HelixT.v: light along the axis of a twisted layer. *)
From Coq Require Import Reals Lra Psatz Lia ZArith.
From Coquelicot Require Import Coquelicot.
From Coq Require Import List.
From Verif.Base Require Import Py Cx Mat Mexp Det Ode Approx.
From Verif.Model Require Import Units Ellips Rotation Structure Solver4.
From Verif.Spec Require Import Maxwell Tensor Turned Graded Helix.
From Verif.Proof Require Import UnitsP DispersionsP StructureP PoyntingP Solver4P Solver4P2 Solver4P3 Solver4P5 Solver4P6 GradedP GradedP2.
Import ListNotations.
Open Scope R_scope.
Open Scope C_scope.
Open Scope py_scope.

Lemma cder_cos (q z : R) : cder (fun x => RtoC (cos (q * x))) z (- RtoC q * RtoC (sin (q * z))).
Proof.
  split; cbn.
  - auto_derive; [trivial|]. ring.
  - auto_derive; [trivial|]. ring.
Qed.
Lemma cder_sin (q z : R) : cder (fun x => RtoC (sin (q * x))) z (RtoC q * RtoC (cos (q * z))).
Proof.
  split; cbn.
  - auto_derive; [trivial|]. ring.
  - auto_derive; [trivial|]. ring.
Qed.
Lemma cos2_sin2 (x : R) : RtoC (cos x) * RtoC (cos x) = 1 - RtoC (sin x) * RtoC (sin x).
Proof. rewrite <- !RtoC_mult, <- RtoC_minus. f_equal. assert (H := sin2_cos2 x). unfold Rsqr in H. lra. Qed.
Definition diag3 (e1 e2 e3 : C) : mat := mat_of [[e1; RtoC 0; RtoC 0]; [RtoC 0; e2; RtoC 0]; [RtoC 0; RtoC 0; e3]].
(** f (c A - s B) and f (s A + c B) *)
Lemma cder_first (q : R) (m A B : C) z : cder (fun z => Cexp (RtoC z * (Ci * m)) * (RtoC (cos (q * z)) * A - RtoC (sin (q * z)) * B)) z
  (Cexp (RtoC z * (Ci * m)) * (RtoC (cos (q * z)) * (Ci * m * A - RtoC q * B) - RtoC (sin (q * z)) * (Ci * m * B + RtoC q * A))).
Proof.
  eapply cder_eq.
  - apply cder_mult; [apply cder_Cexp|]. apply cder_minus; [apply cder_mult; [apply cder_cos|apply cder_const]|apply cder_mult; [apply cder_sin|apply cder_const]].
  - cbv beta. ring.
Qed.
Lemma cder_second (q : R) (m A B : C) z : cder (fun z => Cexp (RtoC z * (Ci * m)) * (RtoC (sin (q * z)) * A + RtoC (cos (q * z)) * B)) z
  (Cexp (RtoC z * (Ci * m)) * (RtoC (sin (q * z)) * (Ci * m * A - RtoC q * B) + RtoC (cos (q * z)) * (Ci * m * B + RtoC q * A))).
Proof.
  eapply cder_eq.
  - apply cder_mult; [apply cder_Cexp|]. apply cder_plus; [apply cder_mult; [apply cder_sin|apply cder_const]|apply cder_mult; [apply cder_cos|apply cder_const]].
  - cbv beta. ring.
Qed.
Section Wave.
Variables (k q : R) (e1 e2 e3 : C).
Hypothesis K : (k <> 0)%R.
Let Kc : RtoC k <> 0. Proof. now apply C_of_R_neq. Qed.
Lemma Ci2 : Ci * Ci = - (1).
Proof. apply C_ext; cbn; ring. Qed.
Lemma wave_maxwell m A B z : helix_wave k q e1 e2 m A B -> maxwell_at k 0 (helix (diag3 e1 e2 e3) q z) (helix_field k q m A B) z.
Proof.
  intros [W1 W2]. set (a := (m * A + Ci * RtoC q * B) / RtoC k). set (b := (m * B - Ci * RtoC q * A) / RtoC k).
  assert (Fa : Ci * RtoC k * a = Ci * m * A - RtoC q * B) by (unfold a; transitivity (Ci * m * A + (Ci * Ci) * RtoC q * B); [field; exact Kc|rewrite Ci2; ring]).
  assert (Fb : Ci * RtoC k * b = Ci * m * B + RtoC q * A) by (unfold b; transitivity (Ci * m * B - (Ci * Ci) * RtoC q * A); [field; exact Kc|rewrite Ci2; ring]).
  assert (Ea : Ci * m * a - RtoC q * b = Ci * RtoC k * (e1 * A)).
  { unfold a, b. transitivity (Ci / RtoC k * (((m * m + RtoC q * RtoC q - RtoC k * RtoC k * e1) * A + 2 * Ci * RtoC q * m * B) + RtoC k * RtoC k * e1 * A) + (1 + Ci * Ci) * (RtoC q * (- m * B) / RtoC k)); [field; exact Kc|]. rewrite W1, Ci2. field. exact Kc. }
  assert (Eb : Ci * m * b + RtoC q * a = Ci * RtoC k * (e2 * B)).
  { unfold a, b. transitivity (Ci / RtoC k * (((m * m + RtoC q * RtoC q - RtoC k * RtoC k * e2) * B - 2 * Ci * RtoC q * m * A) + RtoC k * RtoC k * e2 * B) + (1 + Ci * Ci) * (RtoC q * (m * A) / RtoC k)); [field; exact Kc|]. rewrite W2, Ci2. field. exact Kc. }
  assert (CS := cos2_sin2 (q * z)). unfold maxwell_at, helix_field, displacement, helix, mmul, mtr, z_turn, diag3, mat_of, csum. cbn [Ex Ey Ez Hx Hy Hz nth]. fold a b. rewrite !RtoC_opp.
  set (c := RtoC (cos (q * z))) in *. set (s := RtoC (sin (q * z))) in *. set (f := Cexp (RtoC z * (Ci * m))).
  assert (SS : s * s = 1 - c * c) by (rewrite CS; ring).
  split; [|split; [|split; [|split; [|split]]]].
  - eapply cder_eq; [apply cder_second|]. fold c s f. rewrite <- Fa, <- Fb. ring.
  - eapply cder_eq; [apply cder_first|]. fold c s f. rewrite <- Fa, <- Fb. ring.
  - ring.
  - eapply cder_eq; [apply cder_first|]. fold c s f. rewrite Ea, Eb. transitivity (f * (Ci * RtoC k) * (c * e1 * A * (c * c + s * s) - s * e2 * B * (c * c + s * s))); [|ring]. rewrite SS. ring.
  - eapply cder_eq; [apply cder_opp; apply cder_second|]. fold c s f. rewrite Ea, Eb. transitivity (- (f * (Ci * RtoC k) * (s * e1 * A * (c * c + s * s) + c * e2 * B * (c * c + s * s)))); [|ring]. rewrite SS. ring.
  - ring.
Qed.

(** ** Every solution is a sum of four waves *)
(** The operator whose eigenvectors are the waves, on (A, B, a, b) *)
Definition turn_step (v : nat -> C) : nat -> C := vec_of
  [RtoC k * v 2%nat - Ci * RtoC q * v 1%nat; RtoC k * v 3%nat + Ci * RtoC q * v 0%nat;
   RtoC k * e1 * v 0%nat - Ci * RtoC q * v 3%nat; RtoC k * e2 * v 1%nat + Ci * RtoC q * v 2%nat].
Lemma eigen_wave m v : veq 4 (turn_step v) (fun i => m * v i) -> helix_wave k q e1 e2 m (v 0%nat) (v 1%nat) /\
  v 2%nat = (m * v 0%nat + Ci * RtoC q * v 1%nat) / RtoC k /\ v 3%nat = (m * v 1%nat - Ci * RtoC q * v 0%nat) / RtoC k.
Proof.
  intros H. assert (H0 := H 0%nat ltac:(lia)). assert (H1 := H 1%nat ltac:(lia)). assert (H2 := H 2%nat ltac:(lia)). assert (H3 := H 3%nat ltac:(lia)).
  unfold turn_step, vec_of in *. cbn [nth] in *. set (A := v 0%nat) in *. set (B := v 1%nat) in *. set (a := v 2%nat) in *. set (b := v 3%nat) in *.
  assert (Ha : RtoC k * a = m * A + Ci * RtoC q * B) by (rewrite <- H0; ring). assert (Hb : RtoC k * b = m * B - Ci * RtoC q * A) by (rewrite <- H1; ring).
  split; [split|split].
  - transitivity (m * (m * A + Ci * RtoC q * B) + Ci * RtoC q * (m * B - Ci * RtoC q * A) - RtoC k * RtoC k * e1 * A + (1 + Ci * Ci) * (RtoC q * RtoC q * A)); [ring|].
    rewrite <- Ha, <- Hb, Ci2. transitivity (RtoC k * (m * a + Ci * RtoC q * b - RtoC k * e1 * A)); [ring|]. rewrite <- H2. ring.
  - transitivity (m * (m * B - Ci * RtoC q * A) - Ci * RtoC q * (m * A + Ci * RtoC q * B) - RtoC k * RtoC k * e2 * B + (1 + Ci * Ci) * (RtoC q * RtoC q * B)); [ring|].
    rewrite <- Ha, <- Hb, Ci2. transitivity (RtoC k * (m * b - Ci * RtoC q * a - RtoC k * e2 * B)); [ring|]. rewrite <- H3. ring.
  - rewrite <- Ha. field. exact Kc.
  - rewrite <- Hb. field. exact Kc.
Qed.
Lemma turn_step_lin (x y : C) v w : veq 4 (turn_step (fun i => x * v i + y * w i)) (fun i => x * turn_step v i + y * turn_step w i).
Proof. intros i Hi. unfold turn_step, vec_of. idx i; cbn [nth]; ring. Qed.
Lemma turn_step_ext v w : veq 4 v w -> veq 4 (turn_step v) (turn_step w).
Proof. intros E i Hi. unfold turn_step, vec_of. rewrite (E 0%nat), (E 1%nat), (E 2%nat), (E 3%nat) by lia. reflexivity. Qed.
(** Its characteristic polynomial *)
Lemma turn_step_4 v : veq 4 (turn_step (turn_step (turn_step (turn_step v))))
  (fun i => (2 * RtoC q * RtoC q + RtoC k * RtoC k * (e1 + e2)) * turn_step (turn_step v) i
    - (RtoC q * RtoC q - RtoC k * RtoC k * e1) * (RtoC q * RtoC q - RtoC k * RtoC k * e2) * v i).
Proof.
  assert (II := Ci2). intros i Hi. unfold turn_step, vec_of. cbn [nth]. set (I := Ci) in *. clearbody I.
  idx i; cbn [nth]; ring [II].
Qed.
End Wave.
Section Sum.
Variables (k q : R) (e1 e2 e3 m1 m2 : C).
Hypothesis K : (k <> 0)%R.
Hypothesis M : helix_modes k q e1 e2 m1 m2.
Notation T := (turn_step k q e1 e2).
(** The part of a vector that belongs to one of the four constants *)
Definition mode_part (m m' : C) (v : nat -> C) : nat -> C :=
  fun i => / (2 * m * (m * m - m' * m')) * (T (T (T v)) i + m * T (T v) i - m' * m' * T v i - m' * m' * m * v i).
Lemma mode_part_eigen (m m' : C) v : m <> RtoC 0 -> m * m - m' * m' <> RtoC 0 -> m * m + m' * m' = 2 * RtoC q * RtoC q + RtoC k * RtoC k * (e1 + e2) ->
  m * m * (m' * m') = (RtoC q * RtoC q - RtoC k * RtoC k * e1) * (RtoC q * RtoC q - RtoC k * RtoC k * e2) ->
  veq 4 (T (mode_part m m' v)) (fun i => m * mode_part m m' v i).
Proof.
  intros N D H1 H2 i Hi. unfold mode_part. set (s := / (2 * m * (m * m - m' * m'))).
  assert (X : veq 4 (fun i => s * (T (T (T v)) i + m * T (T v) i - m' * m' * T v i - m' * m' * m * v i))
    (fun i => s * (1 * T (T (T v)) i + m * T (T v) i) + s * (- (m' * m')) * (1 * T v i + m * v i))) by (intros j Hj; ring).
  rewrite (turn_step_ext k q e1 e2 _ _ X i Hi).
  rewrite (turn_step_lin k q e1 e2 s (s * - (m' * m')) _ _ i Hi), (turn_step_lin k q e1 e2 1 m _ _ i Hi), (turn_step_lin k q e1 e2 1 m _ _ i Hi), (turn_step_4 k q e1 e2 v i Hi), <- H1, <- H2. ring.
Qed.
Lemma four_modes j : (j < 4)%nat -> exists m', four m1 m2 j <> 0 /\ four m1 m2 j * four m1 m2 j - m' * m' <> 0 /\
  four m1 m2 j * four m1 m2 j + m' * m' = 2 * RtoC q * RtoC q + RtoC k * RtoC k * (e1 + e2) /\
  four m1 m2 j * four m1 m2 j * (m' * m') = (RtoC q * RtoC q - RtoC k * RtoC k * e1) * (RtoC q * RtoC q - RtoC k * RtoC k * e2) /\
  m' = match j with O | 1%nat => m2 | _ => m1 end.
Proof.
  intros Hj. destruct M as (H1 & H2 & N1 & N2 & D). assert (D' : m1 * m1 - m2 * m2 <> 0) by (intros E; apply D; transitivity (m1 * m1 - m2 * m2 + m2 * m2); [ring|rewrite E; ring]).
  assert (ON : forall c : C, c <> 0 -> - c <> 0) by (intros c Hc E; apply Hc; transitivity (- - c); [ring|rewrite E; ring]).
  idx j; eexists; cbn [four]; (split; [auto|]); (split; [|split; [|split; [|reflexivity]]]).
  all: try exact D'; try exact H1; try exact H2.
  - intros E. apply D'. rewrite <- E. ring.
  - rewrite <- H1. ring.
  - rewrite <- H2. ring.
  - intros E. apply (ON _ D'). rewrite <- E. ring.
  - rewrite <- H1. ring.
  - rewrite <- H2. ring.
  - intros E. apply (ON _ D'). rewrite <- E. ring.
  - rewrite <- H1. ring.
  - rewrite <- H2. ring.
Qed.
Definition other (j : nat) : C := match j with O | 1%nat => m2 | _ => m1 end.
Lemma parts_sum v : veq 4 v (fun i => csum 4 (fun j => mode_part (four m1 m2 j) (other j) v i)).
Proof.
  destruct M as (_ & _ & N1 & N2 & D). assert (D' : m1 * m1 - m2 * m2 <> 0) by (intros E; apply D; transitivity (m1 * m1 - m2 * m2 + m2 * m2); [ring|rewrite E; ring]).
  intros i Hi. unfold mode_part, csum, four, other. set (t3 := T (T (T v)) i). set (t2 := T (T v) i). set (t1 := T v i). clearbody t1 t2 t3.
  field.
  repeat split; try assumption.
  all: try (intros E; apply D'; rewrite <- E; ring).
  all: try (intros E; apply D'; transitivity (- - (m1 * m1 - m2 * m2)); [ring|]; transitivity (- (0 : C)); [rewrite <- E; ring|ring]).
  all: try (apply C_of_R_neq; lra).
  all: try (intros E; first [apply N1; transitivity (- - m1); [ring|rewrite E; ring]|apply N2; transitivity (- - m2); [ring|rewrite E; ring]]).
Qed.
(** Ex, Ey, Hx, Hy from A, B, a, b in front *)
Definition frame (u : nat -> C) : nat -> C := vec_of [u 0%nat; u 1%nat; u 3%nat; - u 2%nat].
Lemma wave_front m A B i : (i < 4)%nat -> tangential (helix_field k q m A B) 0 i =
  vec_of [A; B; - ((m * B - Ci * RtoC q * A) / RtoC k); (m * A + Ci * RtoC q * B) / RtoC k] i.
Proof.
  intros Hi. unfold tangential, helix_field. cbn [Ex Ey Hx Hy]. rewrite Rmult_0_r, cos_0, sin_0. replace (RtoC 0 * (Ci * m)) with (RtoC 0) by ring. rewrite Cexp_0. unfold vec_of. idx i; cbn [nth]; ring.
Qed.
Definition wave_sum (A B : nat -> C) : field :=
  let F j := helix_field k q (four m1 m2 j) (A j) (B j) in
  Field (fun z => csum 4 (fun j => Ex (F j) z)) (fun z => csum 4 (fun j => Ey (F j) z)) (fun z => RtoC 0)
        (fun z => csum 4 (fun j => Hx (F j) z)) (fun z => csum 4 (fun j => Hy (F j) z)) (fun z => RtoC 0).
Lemma wave_sum_tangential A B z : veq 4 (tangential (wave_sum A B) z) (fun i => csum 4 (fun j => tangential (helix_field k q (four m1 m2 j) (A j) (B j)) z i)).
Proof. intros i Hi. unfold tangential, vec_of, wave_sum. cbn [Ex Ey Hx Hy]. idx i; reflexivity. Qed.
Lemma wave_sum_maxwell A B z : (forall j, (j < 4)%nat -> helix_wave k q e1 e2 (four m1 m2 j) (A j) (B j)) ->
  maxwell_at k 0 (helix (diag3 e1 e2 e3) q z) (wave_sum A B) z.
Proof.
  intros W. assert (X : forall j, (j < 4)%nat -> maxwell_at k 0 (helix (diag3 e1 e2 e3) q z) (helix_field k q (four m1 m2 j) (A j) (B j)) z) by (intros j Hj; apply wave_maxwell; [exact K|now apply W]).
  set (F := fun j => helix_field k q (four m1 m2 j) (A j) (B j)) in *. change (forall j, (j < 4)%nat -> maxwell_at k 0 (helix (diag3 e1 e2 e3) q z) (F j) z) in X.
  assert (Z : forall j, Ez (F j) z = 0) by reflexivity. assert (Z' : forall j, Hz (F j) z = 0) by reflexivity.
  change (wave_sum A B) with (Field (fun z => csum 4 (fun j => Ex (F j) z)) (fun z => csum 4 (fun j => Ey (F j) z)) (fun z => RtoC 0) (fun z => csum 4 (fun j => Hx (F j) z)) (fun z => csum 4 (fun j => Hy (F j) z)) (fun z => RtoC 0)).
  clearbody F. set (eps := helix (diag3 e1 e2 e3) q z) in *. clearbody eps. unfold maxwell_at, displacement in *. cbn [Ex Ey Ez Hx Hy Hz].
  assert (S : forall (g : nat -> R -> C) (l : nat -> C), (forall j, (j < 4)%nat -> cder (g j) z (l j)) -> cder (fun z => csum 4 (fun j => g j z)) z (csum 4 l)) by (intros g l H; apply cder_csum; exact H).
  split; [|split; [|split; [|split; [|split]]]].
  - eapply cder_eq; [apply S; intros j Hj; apply (X j Hj)|]. unfold csum. ring.
  - eapply cder_eq; [apply S; intros j Hj; apply (X j Hj)|]. unfold csum. ring.
  - ring.
  - eapply cder_eq; [apply S; intros j Hj; apply (X j Hj)|]. unfold csum. rewrite !Z. ring.
  - eapply cder_eq; [apply S; intros j Hj; apply (X j Hj)|]. unfold csum. rewrite !Z. ring.
  - assert (Y : forall j, (j < 4)%nat -> Ci * RtoC k * (eps 2%nat 0%nat * Ex (F j) z + eps 2%nat 1%nat * Ey (F j) z) = 0).
    { intros j Hj. destruct (X j Hj) as (_ & _ & _ & _ & _ & Q). rewrite Z in Q. transitivity (- (- (Ci * RtoC k * (eps 2%nat 0%nat * Ex (F j) z + eps 2%nat 1%nat * Ey (F j) z + eps 2%nat 2%nat * 0)))); [ring|]. rewrite <- Q. ring. }
    unfold csum. transitivity (- (Ci * RtoC k * (eps 2%nat 0%nat * Ex (F 0%nat) z + eps 2%nat 1%nat * Ey (F 0%nat) z) + Ci * RtoC k * (eps 2%nat 0%nat * Ex (F 1%nat) z + eps 2%nat 1%nat * Ey (F 1%nat) z) + Ci * RtoC k * (eps 2%nat 0%nat * Ex (F 2%nat) z + eps 2%nat 1%nat * Ey (F 2%nat) z) + Ci * RtoC k * (eps 2%nat 0%nat * Ex (F 3%nat) z + eps 2%nat 1%nat * Ey (F 3%nat) z))); [rewrite !Y by lia; ring|ring].
Qed.
Lemma wave_sum_from u : exists A B, (forall j, (j < 4)%nat -> helix_wave k q e1 e2 (four m1 m2 j) (A j) (B j)) /\ veq 4 (tangential (wave_sum A B) 0) u.
Proof.
  set (v := vec_of [u 0%nat; u 1%nat; u 3%nat; - u 2%nat]).
  set (w := fun j => mode_part (four m1 m2 j) (other j) v). exists (fun j => w j 0%nat), (fun j => w j 1%nat).
  assert (E : forall j, (j < 4)%nat -> helix_wave k q e1 e2 (four m1 m2 j) (w j 0%nat) (w j 1%nat) /\
    w j 2%nat = (four m1 m2 j * w j 0%nat + Ci * RtoC q * w j 1%nat) / RtoC k /\ w j 3%nat = (four m1 m2 j * w j 1%nat - Ci * RtoC q * w j 0%nat) / RtoC k).
  { intros j Hj. apply eigen_wave; [exact K|]. destruct (four_modes j Hj) as (m' & H1 & H2 & H3 & H4 & H5). unfold w, other. rewrite <- H5. now apply mode_part_eigen. }
  split; [intros j Hj; now apply E|]. intros i Hi. rewrite (wave_sum_tangential _ _ 0 i Hi).
  rewrite (csum_ext 4 _ (fun j => vec_of [w j 0%nat; w j 1%nat; - w j 3%nat; w j 2%nat] i)).
  2:{ intros j Hj. rewrite wave_front by exact Hi. destruct (E j Hj) as (_ & -> & ->). reflexivity. }
  assert (P := parts_sum v). assert (P0 := P 0%nat ltac:(lia)). assert (P1 := P 1%nat ltac:(lia)). assert (P2 := P 2%nat ltac:(lia)). assert (P3 := P 3%nat ltac:(lia)).
  change (u 0%nat = csum 4 (fun j => w j 0%nat)) in P0. change (u 1%nat = csum 4 (fun j => w j 1%nat)) in P1.
  change (u 3%nat = csum 4 (fun j => w j 2%nat)) in P2. change (- u 2%nat = csum 4 (fun j => w j 3%nat)) in P3. clearbody w. unfold vec_of. idx i; cbn [nth].
  - rewrite P0. reflexivity.
  - rewrite P1. reflexivity.
  - transitivity (- csum 4 (fun j => w j 3%nat)); [unfold csum; ring|]. rewrite <- P3. ring.
  - rewrite P2. reflexivity.
Qed.
Lemma helix_diag_zz z : helix (diag3 e1 e2 e3) q z 2%nat 2%nat = e3.
Proof. rewrite helix_zz. reflexivity. Qed.
Lemma in_helix_slab d eps u v : (0 < d)%R -> (forall z, meq 3 (eps z) (helix (diag3 e1 e2 e3) q z)) -> smooth (Graded d eps) ->
  in_slabs k 0 [Graded d eps] u v <-> in_helix k q e1 e2 m1 m2 d u v.
Proof.
  intros D E S.
  assert (MQ : forall F z, maxwell_at k 0 (helix (diag3 e1 e2 e3) q z) F z -> maxwell_at k 0 (eps z) F z).
  { intros F z H. unfold maxwell_at, displacement in *. rewrite !(E z) by lia. exact H. }
  assert (SA : Forall smooth [Graded d eps]) by (constructor; [exact S|constructor]).
  assert (TO : forall A B, (forall j, (j < 4)%nat -> helix_wave k q e1 e2 (four m1 m2 j) (A j) (B j)) -> in_slabs k 0 [Graded d eps] (tangential (wave_sum A B) 0) (tangential (wave_sum A B) d)).
  { intros A B W. exists (wave_sum A B). split; [intros z _; apply MQ, wave_sum_maxwell, W|]. split; [apply veq_refl|]. cbn [in_slabs depth]. apply veq_refl. }
  assert (EXT : forall u u' v v', veq 4 u u' -> veq 4 v v' -> in_slabs k 0 [Graded d eps] u v -> in_slabs k 0 [Graded d eps] u' v').
  { intros u1 u2 v1 v2 HU HV (F & H1 & H2 & H3). exists F. split; [exact H1|]. split; [eapply veq_trans; [exact H2|exact HU]|]. cbn [in_slabs] in *. eapply veq_trans; [exact H3|exact HV]. }
  split.
  - intros H. destruct (wave_sum_from u) as (A & B & W & U). exists A, B. split; [exact W|]. split.
    + eapply veq_trans; [apply veq_sym, U|]. apply wave_sum_tangential.
    + eapply veq_trans; [|apply wave_sum_tangential]. assert (H' := TO A B W). apply (EXT _ u _ (tangential (wave_sum A B) d) U (veq_refl 4 _)) in H'.
      rewrite (in_slabs_iff k 0 [Graded d eps] K SA) in H, H'. 
      assert (X : in_slabs k 0 [Graded d eps] (fun i => u i - u i) (fun i => v i - tangential (wave_sum A B) d i)).
      { rewrite (in_slabs_iff k 0 [Graded d eps] K SA). intros i Hi. rewrite (H i Hi) at 1. rewrite (H' i Hi). unfold mvec, csum. ring. }
      assert (Y := slabs_zero k 0 [Graded d eps] K SA _ _ X ltac:(intros i Hi; ring)). intros i Hi. transitivity (v i - tangential (wave_sum A B) d i + tangential (wave_sum A B) d i); [ring|]. rewrite (Y i Hi). ring.
  - intros (A & B & W & U & V). apply (EXT (tangential (wave_sum A B) 0) u (tangential (wave_sum A B) d) v); [| |now apply TO].
    + eapply veq_trans; [apply wave_sum_tangential|apply veq_sym, U].
    + eapply veq_trans; [apply wave_sum_tangential|apply veq_sym, V].
Qed.
End Sum.
