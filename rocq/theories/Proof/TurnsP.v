(** Lemmas for Props/TurnsT.v: repeated twisted layers. *)
From Coq Require Import Reals Lra Psatz Lia ZArith.
From Coquelicot Require Import Complex.
From Coq Require Import List.
From Verif.Base Require Import Py Cx Mat Mexp Det Approx.
From Verif.Model Require Import Units Ellips Rotation Structure Solver4.
From Verif.Spec Require Import Maxwell Tensor Turned Turns.
From Verif.Proof Require Import UnitsP DispersionsP StructureP Solver4P Solver4P2 Solver4P3 Solver4P5 Solver4P6 GradedP GradedP2.
Import ListNotations.
Open Scope R_scope.
Open Scope C_scope.
Open Scope py_scope.

Lemma z_turn_plus x y : meq 3 (z_turn (x + y)) (mmul 3 (z_turn x) (z_turn y)).
Proof.
  intros i j Hi Hj. unfold z_turn, mat_of, mmul, csum. rewrite cos_plus, sin_plus.
  idx i; idx j; cbn [nth]; apply C_ext; cbn; ring.
Qed.
Lemma mtr_meq n A B : meq n A B -> meq n (mtr A) (mtr B).
Proof. intros H i j Hi Hj. now apply H. Qed.
Lemma helix_turn e q z t : moved (z_turn (q * t)) e e -> meq 3 (helix e q (z + t)) (helix e q z).
Proof.
  intros M. unfold helix. replace (q * (z + t))%R with (q * z + q * t)%R by ring. unfold moved in M.
  assert (T := mtr_meq 3 _ _ (z_turn_plus (q * z) (q * t))). rewrite T, (z_turn_plus (q * z) (q * t)), mtr_mul.
  transitivity (mmul 3 (mmul 3 (z_turn (q * z)) (mmul 3 (mmul 3 (z_turn (q * t)) e) (mtr (z_turn (q * t))))) (mtr (z_turn (q * z)))); [|rewrite <- M; reflexivity].
  rewrite !mmul_assoc. reflexivity.
Qed.
Lemma helix_turns e q z t a : moved (z_turn (q * t)) e e -> meq 3 (helix e q (z + INR a * t)) (helix e q z).
Proof.
  intros M. induction a as [|a IH]; [change (INR 0) with 0%R; replace (z + 0 * t)%R with z by ring; reflexivity|].
  rewrite S_INR. replace (z + (INR a + 1) * t)%R with (z + INR a * t + t)%R by ring. rewrite helix_turn by exact M. exact IH.
Qed.
Lemma seq_shift_map a n : seq a n = map (fun k => (a + k)%nat) (seq 0 n).
Proof. revert a. induction n as [|n IH]; intros a; [reflexivity|]. cbn [seq map]. rewrite Nat.add_0_r. f_equal. rewrite (IH (S a)), (IH 1%nat), map_map. apply map_ext. intros; lia. Qed.
Lemma times_blocks {A B} (P : A -> B -> Prop) (f : nat -> A) (g : nat -> B) D n :
  (forall a k, (k < D)%nat -> P (f k) (g (a * D + k)%nat)) ->
  forall a, Forall2 P (times n (map f (seq 0 D))) (map g (seq (a * D) (n * D))).
Proof.
  intros H. induction n as [|n IH]; intros a; [constructor|]. cbn [times]. change (S n * D)%nat with (D + n * D)%nat. rewrite seq_app, map_app. apply Forall2_app.
  - rewrite (seq_shift_map (a * D)), map_map. assert (X : forall l, Forall (fun k => (k < D)%nat) l -> Forall2 P (map f l) (map (fun k => g (a * D + k)%nat) l)) by (intros l Hl; induction Hl; constructor; auto).
    apply X, Forall_forall. intros k Hk. apply in_seq in Hk. lia.
  - replace (a * D + D)%nat with (S a * D)%nat by (cbn; lia). apply IH.
Qed.
Lemma same_layers_refl ls : same_layers ls ls.
Proof. induction ls; constructor; [split; reflexivity|assumption]. Qed.
Lemma delta_of_meq kx e e' : meq 3 e e' -> meq 4 (delta_of kx e) (delta_of kx e').
Proof. intros M. unfold delta_of, build_delta_matrix. rewrite !M by lia. reflexivity. Qed.
Lemma same_layers_ok ls ls' : same_layers ls ls' -> eps_ok ls -> eps_ok ls'.
Proof.
  intros H. unfold eps_ok. induction H as [|l l' ls ls' [_ M] _ IH]; intros O; [constructor|]. inversion O as [|? ? N O']. constructor; [|auto]. intros Z. apply N. exact (eq_trans (M 2%nat 2%nat ltac:(lia) ltac:(lia)) Z).
Qed.
Lemma same_layers_sym ls ls' : same_layers ls ls' -> same_layers ls' ls.
Proof. intros H. induction H as [|l l' ls ls' [E M] _ IH]; constructor; [|exact IH]. split; [now symmetry|now symmetry]. Qed.
Lemma same_layers_tmat kx lb ls ls' : same_layers ls ls' -> meq 4 (tmat kx lb ls) (tmat kx lb ls').
Proof.
  intros H. induction H as [|l l' ls ls' [E M] _ IH]; [reflexivity|]. cbn [tmat]. rewrite IH. unfold layer_mat. rewrite E, (mexp_meq 4 _ (mscal (phase lb (- fst l')) (delta_of kx (snd l')))); [reflexivity|].
  now rewrite (delta_of_meq kx _ _ M).
Qed.
