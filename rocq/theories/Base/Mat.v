(** Square complex matrices of any size, as functions of two indices.
    Two matrices of size [n] are equal when they agree on indices below [n]. *)
From Coq Require Import Reals Psatz ZArith Lra Lia List Arith Setoid Morphisms.
From Coquelicot Require Import Complex.
From Verif.Base Require Import Cx.
Import ListNotations.
Open Scope R_scope.
Open Scope C_scope.

Definition mat := nat -> nat -> C.

Fixpoint csum (n : nat) (f : nat -> C) : C :=
  match n with
  | O => 0
  | S m => csum m f + f m
  end.

Definition meq (n : nat) (A B : mat) : Prop :=
  forall i j, (i < n)%nat -> (j < n)%nat -> A i j = B i j.

Definition mid : mat := fun i j => if Nat.eqb i j then 1 else 0.
Definition mzero : mat := fun _ _ => 0.
Definition mmul (n : nat) (A B : mat) : mat :=
  fun i k => csum n (fun j => A i j * B j k).
Definition madd (A B : mat) : mat := fun i j => A i j + B i j.
Definition msub (A B : mat) : mat := fun i j => A i j - B i j.
Definition mscal (c : C) (A : mat) : mat := fun i j => c * A i j.
Definition mtr (A : mat) : mat := fun i j => A j i.
Definition mconj (A : mat) : mat := fun i j => Cconj (A i j).
Definition madj (A : mat) : mat := fun i j => Cconj (A j i).
Definition mdiag (d : nat -> C) : mat := fun i j => if Nat.eqb i j then d i else 0.

Fixpoint mpow (n : nat) (A : mat) (k : nat) : mat :=
  match k with O => mid | S m => mmul n A (mpow n A m) end.

(** A matrix written out row by row. *)
Definition mat_of (l : list (list C)) : mat := fun i j => nth j (nth i l nil) 0.

(** Kronecker product of two 2x2 matrices. *)
Definition kron2 (A B : mat) : mat :=
  fun i j => A (Nat.div i 2) (Nat.div j 2) * B (Nat.modulo i 2) (Nat.modulo j 2).

Definition is_inverse (n : nat) (A B : mat) : Prop :=
  meq n (mmul n A B) mid /\ meq n (mmul n B A) mid.

(** Matrix times vector. *)
Definition mvec (n : nat) (A : mat) (v : nat -> C) : nat -> C :=
  fun i => csum n (fun j => A i j * v j).
Definition veq (n : nat) (u v : nat -> C) : Prop := forall i, (i < n)%nat -> u i = v i.
Definition vec_of (l : list C) : nat -> C := fun i => nth i l 0.

(** ** Sums *)
Lemma csum_ext n (f g : nat -> C) : (forall i, (i < n)%nat -> f i = g i) -> csum n f = csum n g.
Proof.
  induction n; simpl; intros H; auto.
  rewrite IHn by (intros; apply H; lia). rewrite H by lia. auto.
Qed.

Lemma csum_0 n (f : nat -> C) : (forall i, (i < n)%nat -> f i = 0) -> csum n f = 0.
Proof.
  induction n; simpl; intros H; auto.
  rewrite IHn by (intros; apply H; lia). rewrite H by lia. ring.
Qed.

Lemma csum_plus n (f g : nat -> C) : csum n (fun i => f i + g i) = csum n f + csum n g.
Proof. induction n; simpl; [ring|]. rewrite IHn. ring. Qed.

Lemma csum_opp n (f : nat -> C) : csum n (fun i => - f i) = - csum n f.
Proof. induction n; simpl; [ring|]. rewrite IHn. ring. Qed.

Lemma csum_minus n (f g : nat -> C) : csum n (fun i => f i - g i) = csum n f - csum n g.
Proof. induction n; simpl; [ring|]. rewrite IHn. ring. Qed.

Lemma csum_mult_l n (c : C) (f : nat -> C) : csum n (fun i => c * f i) = c * csum n f.
Proof. induction n; simpl; [ring|]. rewrite IHn. ring. Qed.

Lemma csum_mult_r n (c : C) (f : nat -> C) : csum n (fun i => f i * c) = csum n f * c.
Proof. induction n; simpl; [ring|]. rewrite IHn. ring. Qed.

Lemma csum_swap n m (f : nat -> nat -> C) :
  csum n (fun i => csum m (fun j => f i j)) = csum m (fun j => csum n (fun i => f i j)).
Proof.
  induction n; simpl.
  - symmetry. now apply csum_0.
  - rewrite IHn, <- csum_plus. auto.
Qed.

Lemma csum_single n (f : nat -> C) k :
  (k < n)%nat -> (forall i, (i < n)%nat -> i <> k -> f i = 0) -> csum n f = f k.
Proof.
  induction n; intros Hk H; [lia|]. simpl.
  destruct (Nat.eq_dec k n) as [->|D].
  - rewrite csum_0. ring. intros; apply H; lia.
  - rewrite IHn by (try lia; intros; apply H; lia). rewrite (H n) by lia. ring.
Qed.

Lemma csum_conj n (f : nat -> C) : Cconj (csum n f) = csum n (fun i => Cconj (f i)).
Proof.
  induction n; simpl. apply Cconj_R. now rewrite Cconj_plus, IHn.
Qed.

(** ** Equality of matrices *)
Global Instance meq_equiv n : Equivalence (meq n).
Proof.
  split.
  - intros A i j _ _. auto.
  - intros A B H i j Hi Hj. symmetry. auto.
  - intros A B D H K i j Hi Hj. rewrite H by auto. auto.
Qed.

Global Instance mmul_proper n : Proper (meq n ==> meq n ==> meq n) (mmul n).
Proof.
  intros A A' HA B B' HB i j Hi Hj. unfold mmul. apply csum_ext.
  intros k Hk. rewrite HA, HB; auto.
Qed.

Global Instance madd_proper n : Proper (meq n ==> meq n ==> meq n) madd.
Proof. intros A A' HA B B' HB i j Hi Hj. unfold madd. rewrite HA, HB; auto. Qed.

Global Instance msub_proper n : Proper (meq n ==> meq n ==> meq n) msub.
Proof. intros A A' HA B B' HB i j Hi Hj. unfold msub. rewrite HA, HB; auto. Qed.

Global Instance mscal_proper n : Proper (eq ==> meq n ==> meq n) mscal.
Proof. intros c c' -> A A' HA i j Hi Hj. unfold mscal. rewrite HA; auto. Qed.

Global Instance mtr_proper n : Proper (meq n ==> meq n) mtr.
Proof. intros A A' HA i j Hi Hj. unfold mtr. rewrite HA; auto. Qed.

Global Instance madj_proper n : Proper (meq n ==> meq n) madj.
Proof. intros A A' HA i j Hi Hj. unfold madj. rewrite HA; auto. Qed.

Lemma mmul_assoc n A B D : meq n (mmul n A (mmul n B D)) (mmul n (mmul n A B) D).
Proof.
  intros i j Hi Hj. unfold mmul.
  transitivity (csum n (fun k => csum n (fun l => A i k * B k l * D l j))).
  - apply csum_ext. intros k Hk. rewrite <- csum_mult_l. apply csum_ext. intros; ring.
  - rewrite csum_swap. apply csum_ext. intros l Hl. now rewrite <- csum_mult_r.
Qed.

Lemma mmul_1_l n A : meq n (mmul n mid A) A.
Proof.
  intros i j Hi Hj. unfold mmul, mid. rewrite (csum_single n _ i); auto.
  - rewrite Nat.eqb_refl. ring.
  - intros k Hk D. destruct (Nat.eqb_spec i k); [lia|ring].
Qed.

Lemma mmul_1_r n A : meq n (mmul n A mid) A.
Proof.
  intros i j Hi Hj. unfold mmul, mid. rewrite (csum_single n _ j); auto.
  - rewrite Nat.eqb_refl. ring.
  - intros k Hk D. destruct (Nat.eqb_spec k j); [lia|ring].
Qed.

Lemma mmul_0_l n A : meq n (mmul n mzero A) mzero.
Proof. intros i j Hi Hj. unfold mmul, mzero. apply csum_0. intros; ring. Qed.

Lemma mmul_0_r n A : meq n (mmul n A mzero) mzero.
Proof. intros i j Hi Hj. unfold mmul, mzero. apply csum_0. intros; ring. Qed.

Lemma mmul_add_l n A B D : meq n (mmul n (madd A B) D) (madd (mmul n A D) (mmul n B D)).
Proof.
  intros i j Hi Hj. unfold mmul, madd. rewrite <- csum_plus. apply csum_ext. intros; ring.
Qed.

Lemma mmul_add_r n A B D : meq n (mmul n A (madd B D)) (madd (mmul n A B) (mmul n A D)).
Proof.
  intros i j Hi Hj. unfold mmul, madd. rewrite <- csum_plus. apply csum_ext. intros; ring.
Qed.

Lemma mmul_scal_l n (c : C) A B : meq n (mmul n (mscal c A) B) (mscal c (mmul n A B)).
Proof.
  intros i j Hi Hj. unfold mmul, mscal. rewrite <- csum_mult_l. apply csum_ext. intros; ring.
Qed.

Lemma mmul_scal_r n (c : C) A B : meq n (mmul n A (mscal c B)) (mscal c (mmul n A B)).
Proof.
  intros i j Hi Hj. unfold mmul, mscal. rewrite <- csum_mult_l. apply csum_ext. intros; ring.
Qed.

Lemma mscal_mscal n c d A : meq n (mscal c (mscal d A)) (mscal (c * d) A).
Proof. intros i j Hi Hj. unfold mscal. ring. Qed.

Lemma mscal_1 n A : meq n (mscal 1 A) A.
Proof. intros i j Hi Hj. unfold mscal. ring. Qed.

Lemma mtr_mul n A B : meq n (mtr (mmul n A B)) (mmul n (mtr B) (mtr A)).
Proof. intros i j Hi Hj. unfold mtr, mmul. apply csum_ext. intros; ring. Qed.

Lemma mtr_mtr n A : meq n (mtr (mtr A)) A.
Proof. intros i j Hi Hj. reflexivity. Qed.

Lemma mtr_mid n : meq n (mtr mid) mid.
Proof.
  intros i j Hi Hj. unfold mtr, mid.
  destruct (Nat.eqb_spec j i), (Nat.eqb_spec i j); auto; lia.
Qed.

Lemma madj_mul n A B : meq n (madj (mmul n A B)) (mmul n (madj B) (madj A)).
Proof.
  intros i j Hi Hj. unfold madj, mmul. rewrite csum_conj. apply csum_ext.
  intros k Hk. rewrite Cconj_mult. ring.
Qed.

Lemma madj_mid n : meq n (madj mid) mid.
Proof.
  intros i j Hi Hj. unfold madj, mid.
  destruct (Nat.eqb_spec j i), (Nat.eqb_spec i j); try lia; apply Cconj_R.
Qed.

Lemma mdiag_mul n d e : meq n (mmul n (mdiag d) (mdiag e)) (mdiag (fun i => d i * e i)).
Proof.
  intros i j Hi Hj. unfold mmul, mdiag. rewrite (csum_single n _ i); auto.
  - rewrite Nat.eqb_refl. destruct (Nat.eqb i j); ring.
  - intros k Hk D. destruct (Nat.eqb_spec i k); [lia|ring].
Qed.

Lemma mdiag_1 n (d : nat -> C) : (forall i, (i < n)%nat -> d i = 1) -> meq n (mdiag d) mid.
Proof.
  intros H i j Hi Hj. unfold mdiag, mid. destruct (Nat.eqb i j); auto.
Qed.

Lemma is_inverse_sym n A B : is_inverse n A B -> is_inverse n B A.
Proof. intros [H K]. split; auto. Qed.

(** A left inverse and a right inverse coincide. *)
Lemma inverse_unique n A B D :
  meq n (mmul n B A) mid -> meq n (mmul n A D) mid -> meq n B D.
Proof.
  intros H K.
  transitivity (mmul n B mid). symmetry; apply mmul_1_r.
  rewrite <- K, mmul_assoc, H. apply mmul_1_l.
Qed.

Lemma mpow_1 n A : meq n (mpow n A 1) A.
Proof. simpl. apply mmul_1_r. Qed.

Lemma mpow_comm n A k : meq n (mmul n A (mpow n A k)) (mmul n (mpow n A k) A).
Proof.
  induction k; simpl.
  - rewrite mmul_1_l, mmul_1_r. reflexivity.
  - rewrite <- mmul_assoc. rewrite <- IHk. reflexivity.
Qed.

(** Vectors *)
Lemma mvec_mul n A B v : veq n (mvec n (mmul n A B) v) (mvec n A (mvec n B v)).
Proof.
  intros i Hi. unfold mvec, mmul.
  transitivity (csum n (fun k => csum n (fun l => A i l * B l k * v k))).
  - apply csum_ext. intros k Hk. now rewrite <- csum_mult_r.
  - rewrite csum_swap. apply csum_ext. intros l Hl. rewrite <- csum_mult_l.
    apply csum_ext. intros; ring.
Qed.

(** ** Explicit entries: split an index below a literal bound into its values *)
Ltac idx i :=
  match goal with
  | H : (i < O)%nat |- _ => exfalso; lia
  | H : (i < S _)%nat |- _ =>
      destruct i as [|i]; [clear H|apply Nat.succ_lt_mono in H; idx i]
  end.
Ltac mexpl :=
  let i := fresh "i" in let j := fresh "j" in
  let Hi := fresh "Hi" in let Hj := fresh "Hj" in
  intros i j Hi Hj; idx i; idx j.
Ltac vexpl := let i := fresh "i" in let Hi := fresh "Hi" in intros i Hi; idx i.
