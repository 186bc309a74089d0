(** Determinant and inverse, for the sizes 2 and 4 that occur. *)
From Coq Require Import Reals Lra Lia Arith.
From Coquelicot Require Import Complex.
From Verif.Base Require Import Cx Mat.
Open Scope R_scope.
Open Scope C_scope.

Definition minor (A : mat) (i j : nat) : mat :=
  fun a b => A (if Nat.ltb a i then a else S a) (if Nat.ltb b j then b else S b).
Definition sgn (k : nat) : C := if Nat.even k then RtoC 1 else RtoC (-1).
Fixpoint det (n : nat) (A : mat) : C :=
  match n with
  | O => RtoC 1
  | S m => csum n (fun j => sgn j * A 0%nat j * det m (minor A 0 j))
  end.
Definition adjugate (n : nat) (A : mat) : mat :=
  fun i j => sgn (i + j) * det (pred n) (minor A j i).
(** np.linalg.inv: [None] is LinAlgError *)
Definition minv (n : nat) (A : mat) : option mat :=
  if Ceq_dec (det n A) 0 then None else Some (fun i j => adjugate n A i j / det n A).

Ltac dexpl := unfold adjugate, det, minor, mmul, csum, sgn; cbn [Nat.ltb Nat.leb Nat.even Nat.add pred].
Ltac ent A := repeat match goal with |- context [A ?i ?j] => let x := fresh "x" in set (x := A i j) in *; clearbody x end.

Lemma det2 A : det 2 A = A 0%nat 0%nat * A 1%nat 1%nat - A 0%nat 1%nat * A 1%nat 0%nat.
Proof. dexpl. ring. Qed.
Lemma adj2 A : meq 2 (mmul 2 A (adjugate 2 A)) (mscal (det 2 A) mid) /\ meq 2 (mmul 2 (adjugate 2 A) A) (mscal (det 2 A) mid).
Proof. split; mexpl; unfold mscal, mid; dexpl; cbn [Nat.eqb]; ring. Qed.
Lemma adj4 A : meq 4 (mmul 4 A (adjugate 4 A)) (mscal (det 4 A) mid) /\ meq 4 (mmul 4 (adjugate 4 A) A) (mscal (det 4 A) mid).
Proof. split; mexpl; unfold mscal, mid; dexpl; cbn [Nat.eqb]; ent A; ring. Qed.

Lemma det_mul2 A B : det 2 (mmul 2 A B) = det 2 A * det 2 B.
Proof. dexpl. ring. Qed.

Lemma det_mul4 A B : det 4 (mmul 4 A B) = det 4 A * det 4 B.
Proof. dexpl. ent A. ent B. ring. Qed.

Lemma det_meq (n : nat) : forall A B, meq n A B -> det n A = det n B.
Proof.
  induction n as [|n IH]; intros A B E; [reflexivity|]. cbn [det]. apply csum_ext. intros j Hj.
  rewrite (E 0%nat j) by lia. f_equal. apply IH. intros a b Ha Hb. unfold minor.
  apply E; destruct (Nat.ltb _ _); lia.
Qed.

Definition good_size (n : nat) : Prop := n = 2%nat \/ n = 4%nat.
Lemma adj_size n A : good_size n ->
  meq n (mmul n A (adjugate n A)) (mscal (det n A) mid) /\ meq n (mmul n (adjugate n A) A) (mscal (det n A) mid).
Proof. intros [-> | ->]; [apply adj2|apply adj4]. Qed.
Lemma det_mul n A B : good_size n -> det n (mmul n A B) = det n A * det n B.
Proof. intros [-> | ->]; [apply det_mul2|apply det_mul4]. Qed.
Lemma det_mid n : good_size n -> det n mid = 1.
Proof. intros [-> | ->]; dexpl; unfold mid; cbn [Nat.eqb]; ring. Qed.

Lemma minv_inverse n A B : good_size n -> minv n A = Some B -> is_inverse n A B.
Proof.
  intros G H. unfold minv in H. destruct (Ceq_dec (det n A) 0) as [|D]; [discriminate|]. injection H as <-.
  destruct (adj_size n A G) as [E1 E2].
  assert (S : meq n (fun i j => adjugate n A i j / det n A) (mscal (/ det n A) (adjugate n A))).
  { intros i j _ _. unfold mscal, Cdiv. ring. }
  split.
  - rewrite S, mmul_scal_r, E1, mscal_mscal. rewrite Cinv_l by exact D. apply mscal_1.
  - rewrite S, mmul_scal_l, E2, mscal_mscal. rewrite Cinv_l by exact D. apply mscal_1.
Qed.
Lemma inverse_det n A B : good_size n -> is_inverse n A B -> det n A <> 0.
Proof.
  intros G [H _] E. assert (K := det_mul n A B G). rewrite (det_meq n _ _ H), E, (det_mid n G) in K.
  replace (0 * det n B) with (RtoC 0) in K by ring. apply RtoC_inj in K. lra.
Qed.
Lemma minv_some n A B : good_size n -> is_inverse n A B -> exists B', minv n A = Some B' /\ meq n B' B.
Proof.
  intros G I. assert (D := inverse_det n A B G I). unfold minv. destruct (Ceq_dec (det n A) 0); [contradiction|].
  eexists. split; [reflexivity|]. assert (I' : minv n A = Some (fun i j => adjugate n A i j / det n A)).
  { unfold minv. destruct (Ceq_dec (det n A) 0); [contradiction|reflexivity]. }
  apply (minv_inverse n A _ G) in I'. apply (inverse_unique n A); [apply I'|apply I].
Qed.
Lemma minv_none n A : minv n A = None <-> det n A = 0.
Proof. unfold minv. destruct (Ceq_dec (det n A) 0); split; intros; try congruence; discriminate. Qed.
Lemma minv_meq n A A' B : good_size n -> meq n A A' -> minv n A = Some B -> exists B', minv n A' = Some B' /\ meq n B' B.
Proof.
  intros G E H. apply (minv_inverse n A B G) in H. apply minv_some; [exact G|]. destruct H as [H1 H2].
  split; [rewrite <- E|rewrite <- E]; assumption.
Qed.
