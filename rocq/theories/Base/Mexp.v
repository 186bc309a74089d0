(** The matrix exponential of complex matrices of any size, defined by its power series, and
    its characterisation by the differential equation X' = A X, X(0) = 1. *)
From Coq Require Import Reals Psatz ZArith Lra Lia List Arith Setoid Morphisms.
From Coquelicot Require Import Coquelicot.
From Verif.Base Require Import Cx Mat.
Import ListNotations.
Open Scope R_scope.
Open Scope C_scope.

(** The k-th coefficient, and exp(t A) for a real factor t. *)
Definition mcoef (n : nat) (A : mat) (i j k : nat) : C := mpow n A k i j / RtoC (INR (fact k)).
Definition mexpt (n : nat) (A : mat) (t : R) : mat := fun i j =>
  (PSeries (fun k => fst (mcoef n A i j k)) t, PSeries (fun k => snd (mcoef n A i j k)) t).
Definition mexp (n : nat) (A : mat) : mat := mexpt n A 1.

(** ** Convergence *)
Definition bounded_by (n : nat) (A : mat) (B : R) : Prop :=
  forall i j, (i < n)%nat -> (j < n)%nat -> (Cmod (A i j) <= B)%R.

Lemma csum_bound n (f : nat -> C) (B : R) : (forall i, (i < n)%nat -> (Cmod (f i) <= B)%R) ->
  (Cmod (csum n f) <= INR n * B)%R.
Proof.
  induction n as [|n IH]; intros H.
  - simpl. rewrite Cmod_0. lra.
  - cbn [csum]. rewrite S_INR. eapply Rle_trans; [apply Cmod_triangle|].
    pose proof (IH (fun i Hi => H i (Nat.lt_lt_succ_r _ _ Hi))). pose proof (H n (Nat.lt_succ_diag_r n)).
    lra.
Qed.

Lemma row_bound n (f : nat -> C) : exists B, (0 <= B)%R /\ forall j, (j < n)%nat -> (Cmod (f j) <= B)%R.
Proof.
  induction n as [|n (B & P & H)].
  - exists 0%R. split; [lra|]. intros; lia.
  - exists (Rmax B (Cmod (f n))). split; [eapply Rle_trans; [exact P|apply Rmax_l]|].
    intros j Hj. destruct (Nat.eq_dec j n) as [->|N]; [apply Rmax_r|].
    eapply Rle_trans; [apply H; lia|apply Rmax_l].
Qed.

Lemma mat_bound n (A : mat) : exists B, (0 < B)%R /\ bounded_by n A B.
Proof.
  assert (Q : forall m, exists B, (0 <= B)%R /\ forall i j, (i < m)%nat -> (j < n)%nat -> (Cmod (A i j) <= B)%R).
  { induction m as [|m (B & P & H)].
    - exists 0%R. split; [lra|]. intros; lia.
    - destruct (row_bound n (A m)) as (B' & P' & H'). exists (Rmax B B').
      split; [eapply Rle_trans; [exact P|apply Rmax_l]|]. intros i j Hi Hj.
      destruct (Nat.eq_dec i m) as [->|N].
      + eapply Rle_trans; [now apply H'|apply Rmax_r].
      + eapply Rle_trans; [apply H; [lia|auto]|apply Rmax_l]. }
  destruct (Q n) as (B & P & H). exists (B + 1)%R. split; [lra|]. intros i j Hi Hj.
  specialize (H i j Hi Hj). lra.
Qed.

Lemma mpow_bound n (A : mat) B k : (0 < B)%R -> bounded_by n A B ->
  bounded_by n (mpow n A k) ((INR n * B) ^ k).
Proof.
  intros P H. assert (N0 : (0 <= INR n)%R) by apply pos_INR.
  induction k as [|k IH]; intros i j Hi Hj.
  - cbn [mpow pow]. unfold mid. destruct (Nat.eqb i j); [rewrite Cmod_1|rewrite Cmod_0]; lra.
  - cbn [mpow pow]. unfold mmul. rewrite Rmult_assoc. apply csum_bound. intros l Hl. rewrite Cmod_mult.
    apply Rmult_le_compat; auto using Cmod_ge_0.
Qed.

Lemma fst_le_Cmod (z : C) : (Rabs (fst z) <= Cmod z)%R.
Proof. eapply Rle_trans; [apply Rmax_l|apply Rmax_Cmod]. Qed.
Lemma snd_le_Cmod (z : C) : (Rabs (snd z) <= Cmod z)%R.
Proof. eapply Rle_trans; [apply Rmax_r|apply Rmax_Cmod]. Qed.

Lemma pow_fact_bounded (y : R) : exists L, forall k, (Rabs (y ^ k / INR (fact k)) <= L)%R.
Proof.
  destruct (maj_by_pos (fun k => (y ^ k / INR (fact k))%R)) as (L & _ & H).
  - exists 0%R. apply cv_speed_pow_fact.
  - exists L. exact H.
Qed.

Lemma CV_entire (a : nat -> R) (M : R) : (0 <= M)%R ->
  (forall k, (Rabs (a k) <= M ^ k / INR (fact k))%R) -> CV_radius a = p_infty.
Proof.
  intros M0 H. destruct (CV_radius_bounded a) as [ub _].
  assert (Q : forall r : R, Rbar_le r (CV_radius a)).
  { intros r. apply ub. destruct (pow_fact_bounded (M * Rabs r)) as (L & HL). exists L. intros k.
    eapply Rle_trans; [|apply (HL k)]. rewrite Rabs_mult.
    unfold Rdiv. rewrite Rpow_mult_distr, !Rabs_mult.
    rewrite <- !RPow_abs, Rabs_Rabsolu.
    pose proof (INR_fact_lt_0 k) as F.
    rewrite (Rabs_pos_eq (/ INR (fact k))) by (left; now apply Rinv_0_lt_compat).
    rewrite (Rabs_pos_eq M) by auto.
    replace (M ^ k * Rabs r ^ k * / INR (fact k))%R with (M ^ k / INR (fact k) * Rabs r ^ k)%R
      by (unfold Rdiv; ring).
    apply Rmult_le_compat_r; auto. apply pow_le, Rabs_pos. }
  destruct (CV_radius a) as [l| |]; auto.
  - specialize (Q (l + 1)%R). simpl in Q. lra.
  - specialize (Q 0%R). destruct Q.
Qed.

Lemma coef_bound n (A : mat) i j : (i < n)%nat -> (j < n)%nat ->
  exists M, (0 <= M)%R /\ forall k, (Cmod (mcoef n A i j k) <= M ^ k / INR (fact k))%R.
Proof.
  intros Hi Hj. destruct (mat_bound n A) as (B & P & H). exists (INR n * B)%R.
  split; [apply Rmult_le_pos; [apply pos_INR|lra]|]. intros k. unfold mcoef.
  pose proof (INR_fact_lt_0 k) as F.
  rewrite Cmod_div by (apply C_of_R_neq; lra). rewrite Cmod_R, Rabs_pos_eq by lra.
  apply Rmult_le_compat_r; [left; now apply Rinv_0_lt_compat|]. now apply mpow_bound.
Qed.

Lemma CV_coef_fst n (A : mat) i j : (i < n)%nat -> (j < n)%nat ->
  CV_radius (fun k => fst (mcoef n A i j k)) = p_infty.
Proof.
  intros Hi Hj. destruct (coef_bound n A i j Hi Hj) as (M & P & H). apply CV_entire with M; auto.
  intros k. eapply Rle_trans; [apply fst_le_Cmod|auto].
Qed.
Lemma CV_coef_snd n (A : mat) i j : (i < n)%nat -> (j < n)%nat ->
  CV_radius (fun k => snd (mcoef n A i j k)) = p_infty.
Proof.
  intros Hi Hj. destruct (coef_bound n A i j Hi Hj) as (M & P & H). apply CV_entire with M; auto.
  intros k. eapply Rle_trans; [apply snd_le_Cmod|auto].
Qed.

(** ** Derivatives of complex functions of a real variable *)
Definition cder (f : R -> C) (t : R) (l : C) : Prop :=
  is_derive (fun x => fst (f x)) t (fst l) /\ is_derive (fun x => snd (f x)) t (snd l).

Lemma cder_eq f t (l l' : C) : cder f t l -> l = l' -> cder f t l'.
Proof. now intros H <-. Qed.
Lemma cder_ext (f g : R -> C) t (l : C) : (forall x, f x = g x) -> cder f t l -> cder g t l.
Proof.
  intros E [A B]. split.
  - eapply is_derive_ext; [|exact A]. intros x. simpl. f_equal. apply E.
  - eapply is_derive_ext; [|exact B]. intros x. simpl. f_equal. apply E.
Qed.
Lemma cder_const (c : C) t : cder (fun _ => c) t 0.
Proof. split; apply @is_derive_const. Qed.
Lemma cder_id t : cder (fun x => RtoC x) t 1.
Proof. split; simpl; [apply @is_derive_id|apply @is_derive_const]. Qed.
Lemma cder_plus f g t (a b : C) : cder f t a -> cder g t b -> cder (fun x => f x + g x) t (a + b).
Proof. intros [A B] [A' B']. split; simpl; now apply @is_derive_plus. Qed.
Lemma cder_opp f t (a : C) : cder f t a -> cder (fun x => - f x) t (- a).
Proof. intros [A B]. split; simpl; now apply @is_derive_opp. Qed.
Lemma cder_minus f g t (a b : C) : cder f t a -> cder g t b -> cder (fun x => f x - g x) t (a - b).
Proof. intros A B. apply cder_plus; auto. now apply cder_opp. Qed.
Lemma dmult (f g : R -> R) (t a b : R) : is_derive f t a -> is_derive g t b ->
  is_derive (fun x => f x * g x)%R t (a * g t + f t * b)%R.
Proof. intros A B. apply (is_derive_mult f g t a b A B). intros; apply Rmult_comm. Qed.
Lemma cder_mult f g t (a b : C) : cder f t a -> cder g t b ->
  cder (fun x => f x * g x) t (a * g t + f t * b).
Proof.
  intros [A B] [A' B']. split; simpl.
  - pose proof (@is_derive_minus R_AbsRing R_NormedModule _ _ t _ _ (dmult _ _ t _ _ A A') (dmult _ _ t _ _ B B')) as D.
    eapply is_derive_ext in D; [|reflexivity]. replace (fst a * fst (g t) - snd a * snd (g t) + (fst (f t) * fst b - snd (f t) * snd b))%R
      with (minus (fst a * fst (g t) + fst (f t) * fst b)%R (snd a * snd (g t) + snd (f t) * snd b)%R); [exact D|].
    unfold minus, plus, opp; simpl. ring.
  - pose proof (@is_derive_plus R_AbsRing R_NormedModule _ _ t _ _ (dmult _ _ t _ _ A B') (dmult _ _ t _ _ B A')) as D.
    replace (fst a * snd (g t) + snd a * fst (g t) + (fst (f t) * snd b + snd (f t) * fst b))%R
      with (plus (fst a * snd (g t) + fst (f t) * snd b)%R (snd a * fst (g t) + snd (f t) * fst b)%R); [exact D|].
    unfold plus; simpl. ring.
Qed.
Lemma cder_scal (c : C) f t (a : C) : cder f t a -> cder (fun x => c * f x) t (c * a).
Proof.
  intros A. eapply cder_eq; [apply cder_mult; [apply cder_const|exact A]|]. cbv beta. ring.
Qed.
Lemma cder_conj f t (a : C) : cder f t a -> cder (fun x => Cconj (f x)) t (Cconj a).
Proof. intros [A B]. split; simpl; auto. now apply @is_derive_opp. Qed.
Lemma cder_csum m (f : nat -> R -> C) t (a : nat -> C) :
  (forall i, (i < m)%nat -> cder (f i) t (a i)) -> cder (fun x => csum m (fun i => f i x)) t (csum m a).
Proof.
  induction m as [|m IH]; intros H; cbn [csum].
  - apply cder_const.
  - apply cder_plus; [apply IH; intros; apply H; lia|apply H; lia].
Qed.
(** Reversed time *)
Lemma cder_rev f t (a : C) : cder f (- t) a -> cder (fun x => f (- x)%R) t (- a).
Proof.
  intros [A B]. split; simpl.
  - pose proof (is_derive_comp (fun x => fst (f x)) (fun x => (- x)%R) t (fst a) (-1)%R A) as D.
    replace (- fst a)%R with (scal (-1)%R (fst a)) by (unfold scal; simpl; unfold mult; simpl; ring).
    apply D. replace (-1)%R with (opp (1:R)) by (unfold opp; simpl; ring). apply @is_derive_opp. apply @is_derive_id.
  - pose proof (is_derive_comp (fun x => snd (f x)) (fun x => (- x)%R) t (snd a) (-1)%R B) as D.
    replace (- snd a)%R with (scal (-1)%R (snd a)) by (unfold scal; simpl; unfold mult; simpl; ring).
    apply D. replace (-1)%R with (opp (1:R)) by (unfold opp; simpl; ring). apply @is_derive_opp. apply @is_derive_id.
Qed.

Lemma is_derive_0_const (f : R -> R) : (forall t, is_derive f t 0%R) -> forall s t, f s = f t.
Proof.
  intros H s t. destruct (MVT_gen f s t (fun _ => 0%R)) as (c & _ & E).
  - intros; apply H.
  - intros x _. apply continuity_pt_filterlim, (ex_derive_continuous f x). now exists 0%R.
  - lra.
Qed.
Lemma cder_0_const f : (forall t, cder f t 0) -> forall s t, f s = f t.
Proof.
  intros H s t. apply C_ext.
  - apply (is_derive_0_const (fun x => fst (f x))). apply H.
  - apply (is_derive_0_const (fun x => snd (f x))). apply H.
Qed.

Lemma cder_Cexp (a : C) t : cder (fun x => Cexp (RtoC x * a)) t (a * Cexp (RtoC t * a)).
Proof.
  split; simpl.
  - apply is_derive_ext with (fun x => exp (x * fst a) * cos (x * snd a))%R.
    + intros x. unfold Cexp; simpl. f_equal; f_equal; ring.
    + auto_derive; auto. unfold Cexp; simpl.
      replace (t * fst a - 0 * snd a)%R with (t * fst a)%R by ring.
      replace (t * snd a + 0 * fst a)%R with (t * snd a)%R by ring. ring.
  - apply is_derive_ext with (fun x => exp (x * fst a) * sin (x * snd a))%R.
    + intros x. unfold Cexp; simpl. f_equal; f_equal; ring.
    + auto_derive; auto. unfold Cexp; simpl.
      replace (t * fst a - 0 * snd a)%R with (t * fst a)%R by ring.
      replace (t * snd a + 0 * fst a)%R with (t * snd a)%R by ring. ring.
Qed.

(** Matrices *)
Definition mder (n : nat) (X : R -> mat) (t : R) (D : mat) : Prop :=
  forall i j, (i < n)%nat -> (j < n)%nat -> cder (fun x => X x i j) t (D i j).

Lemma mder_meq n X t D D' : mder n X t D -> meq n D D' -> mder n X t D'.
Proof. intros H E i j Hi Hj. rewrite <- E by auto. now apply H. Qed.
Lemma mder_ext n X Y t D : (forall x, meq n (X x) (Y x)) -> mder n X t D -> mder n Y t D.
Proof. intros E H i j Hi Hj. eapply cder_ext; [|apply H; auto]. intros x. apply E; auto. Qed.
Lemma mder_mul n X Y t A B : mder n X t A -> mder n Y t B ->
  mder n (fun x => mmul n (X x) (Y x)) t (madd (mmul n A (Y t)) (mmul n (X t) B)).
Proof.
  intros HX HY i j Hi Hj. unfold madd, mmul. rewrite <- csum_plus.
  apply (cder_csum n (fun k x => X x i k * Y x k j) t). intros k Hk. apply cder_mult; auto.
Qed.
Lemma mder_const n A t : mder n (fun _ => A) t mzero.
Proof. intros i j Hi Hj. apply cder_const. Qed.
Lemma mder_rev n X t A : mder n X (- t) A -> mder n (fun x => X (- x)%R) t (mscal (RtoC (-1)) A).
Proof.
  intros H i j Hi Hj. eapply cder_eq; [apply (cder_rev (fun x => X x i j) t (A i j)), H; auto|]. unfold mscal.
  apply C_ext; simpl; ring.
Qed.
Lemma mder_adj n X t A : mder n X t A -> mder n (fun x => madj (X x)) t (madj A).
Proof. intros H i j Hi Hj. unfold madj. now apply cder_conj, H. Qed.

Lemma mder_0_const n X : (forall t, mder n X t mzero) -> forall s t, meq n (X s) (X t).
Proof. intros H s t i j Hi Hj. apply (cder_0_const (fun x => X x i j)). intros x. now apply H. Qed.

(** ** X' = A X = X A *)
Lemma coef_S n (A : mat) i j k : (i < n)%nat -> (j < n)%nat ->
  RtoC (INR (S k)) * mcoef n A i j (S k) = csum n (fun l => A i l * mcoef n A l j k).
Proof.
  intros Hi Hj. unfold mcoef. cbn [mpow]. unfold mmul.
  assert (F : RtoC (INR (fact k)) <> 0) by (apply C_of_R_neq; apply INR_fact_neq_0).
  assert (S0 : RtoC (INR (S k)) <> 0) by (apply C_of_R_neq; apply not_0_INR; lia).
  rewrite (csum_ext n (fun l => A i l * (mpow n A k l j / RtoC (INR (fact k))))
      (fun l => A i l * mpow n A k l j * / RtoC (INR (fact k)))).
  2: { intros l _. field. auto. }
  rewrite csum_mult_r. rewrite fact_simpl, mult_INR, RtoC_mult. field. auto.
Qed.

Lemma ex_ps (a : nat -> R) t : CV_radius a = p_infty -> ex_pseries a t.
Proof. intros H. apply CV_radius_inside. now rewrite H. Qed.

(** A power series with complex coefficients. *)
Definition cps (a : nat -> C) (t : R) : C := (PSeries (fun k => fst (a k)) t, PSeries (fun k => snd (a k)) t).
Definition entire (a : nat -> C) : Prop :=
  (forall t, ex_pseries (fun k => fst (a k)) t) /\ (forall t, ex_pseries (fun k => snd (a k)) t).

Lemma ex_pseries_eq (a b : nat -> R) t : (forall k, a k = b k) -> ex_pseries a t -> ex_pseries b t.
Proof. intros E [l H]. exists l. eapply is_pseries_ext; eauto. Qed.

Lemma cps_ext a b t : (forall k, a k = b k) -> cps a t = cps b t.
Proof. intros E. unfold cps. f_equal; apply PSeries_ext; intros k; now rewrite E. Qed.
Lemma entire_ext a b : (forall k, a k = b k) -> entire a -> entire b.
Proof.
  intros E [H K]. split; intros t; [eapply ex_pseries_eq; [|apply H]|eapply ex_pseries_eq; [|apply K]];
    intros k; simpl; now rewrite E.
Qed.

Lemma cps_plus a b t : entire a -> entire b -> cps (fun k => a k + b k) t = cps a t + cps b t.
Proof.
  intros [A A'] [B B']. unfold cps. apply C_ext; simpl.
  - rewrite <- PSeries_plus by auto. now apply PSeries_ext.
  - rewrite <- PSeries_plus by auto. now apply PSeries_ext.
Qed.
Lemma entire_plus a b : entire a -> entire b -> entire (fun k => a k + b k).
Proof.
  intros [A A'] [B B']. split; intros t.
  - apply (ex_pseries_plus (fun k => fst (a k)) (fun k => fst (b k)) t); auto.
  - apply (ex_pseries_plus (fun k => snd (a k)) (fun k => snd (b k)) t); auto.
Qed.

Lemma ex_ps_scal (c : R) a t : ex_pseries a t -> ex_pseries (fun k => (c * a k)%R) t.
Proof.
  intros H. eapply ex_pseries_eq; [|apply (ex_pseries_scal c a t); [apply Rmult_comm|exact H]].
  reflexivity.
Qed.
Lemma PS_lin2 (c d : R) a b t : ex_pseries a t -> ex_pseries b t ->
  PSeries (fun k => (c * a k + d * b k)%R) t = (c * PSeries a t + d * PSeries b t)%R.
Proof.
  intros A B. rewrite <- !PSeries_scal. rewrite <- PSeries_plus.
  - now apply PSeries_ext.
  - now apply ex_ps_scal.
  - now apply ex_ps_scal.
Qed.

Lemma cps_scal (c : C) a t : entire a -> cps (fun k => c * a k) t = c * cps a t.
Proof.
  intros [A A']. unfold cps. apply C_ext; simpl.
  - rewrite (PSeries_ext _ (fun k => (fst c * fst (a k) + (- snd c) * snd (a k))%R)) by (intros; ring).
    rewrite PS_lin2 by auto. ring.
  - rewrite PS_lin2 by auto. ring.
Qed.
Lemma entire_scal (c : C) a : entire a -> entire (fun k => c * a k).
Proof.
  intros [A A']. split; intros t.
  - eapply ex_pseries_eq; [|apply (ex_pseries_plus _ _ t (ex_ps_scal (fst c) _ t (A t)) (ex_ps_scal (- snd c) _ t (A' t)))].
    intros k. unfold PS_plus, plus; simpl. ring.
  - eapply ex_pseries_eq; [|apply (ex_pseries_plus _ _ t (ex_ps_scal (fst c) _ t (A' t)) (ex_ps_scal (snd c) _ t (A t)))].
    intros k. unfold PS_plus, plus; simpl. ring.
Qed.

Lemma PSeries_zero t : PSeries (fun _ => 0%R) t = 0%R.
Proof.
  rewrite (PSeries_ext _ (PS_scal 0%R (fun _ => 1%R))).
  - rewrite PSeries_scal. ring.
  - intros k. unfold PS_scal, scal; simpl. unfold mult; simpl. ring.
Qed.
Lemma ex_ps_zero t : ex_pseries (fun _ => 0%R) t.
Proof. apply ex_ps. apply CV_radius_const_0. Qed.

Lemma cps_csum m (a : nat -> nat -> C) t : (forall l, (l < m)%nat -> entire (a l)) ->
  cps (fun k => csum m (fun l => a l k)) t = csum m (fun l => cps (a l) t) /\
  entire (fun k => csum m (fun l => a l k)).
Proof.
  induction m as [|m IH]; intros H; cbn [csum].
  - split.
    + unfold cps. apply C_ext; simpl; apply PSeries_zero.
    + split; intros x; simpl; apply ex_ps_zero.
  - destruct IH as [E F]; [intros; apply H; lia|]. split.
    + rewrite cps_plus, E; auto.
    + apply entire_plus; auto.
Qed.

Lemma entire_coef n (A : mat) i j : (i < n)%nat -> (j < n)%nat -> entire (mcoef n A i j).
Proof.
  intros Hi Hj. split; intros t; apply ex_ps; [now apply CV_coef_fst|now apply CV_coef_snd].
Qed.

Lemma mexpt_cps n A t i j : mexpt n A t i j = cps (mcoef n A i j) t.
Proof. reflexivity. Qed.

Lemma mexpt_der n A t : mder n (mexpt n A) t (mmul n A (mexpt n A t)).
Proof.
  intros i j Hi Hj.
  assert (E : mmul n A (mexpt n A t) i j = cps (fun k => RtoC (INR (S k)) * mcoef n A i j (S k)) t).
  { rewrite (cps_ext _ (fun k => csum n (fun l => A i l * mcoef n A l j k)))
      by (intros k; now apply coef_S).
    destruct (cps_csum n (fun l k => A i l * mcoef n A l j k) t) as [-> _].
    - intros l Hl. apply entire_scal. now apply entire_coef.
    - unfold mmul. apply csum_ext. intros l Hl. rewrite cps_scal by now apply entire_coef.
      reflexivity. }
  rewrite E. unfold cps. split; cbn [fst snd].
  - eapply is_derive_ext; [reflexivity|].
    rewrite (PSeries_ext _ (PS_derive (fun k => fst (mcoef n A i j k)))).
    + apply is_derive_PSeries. now rewrite CV_coef_fst.
    + intros k. unfold PS_derive. generalize (INR (S k)) (mcoef n A i j (S k)). intros x z. simpl. ring.
  - eapply is_derive_ext; [reflexivity|].
    rewrite (PSeries_ext _ (PS_derive (fun k => snd (mcoef n A i j k)))).
    + apply is_derive_PSeries. now rewrite CV_coef_snd.
    + intros k. unfold PS_derive. generalize (INR (S k)) (mcoef n A i j (S k)). intros x z. simpl. ring.
Qed.

Lemma mexpt_0 n A : meq n (mexpt n A 0) mid.
Proof.
  intros i j Hi Hj. unfold mexpt. rewrite !PSeries_0. unfold mcoef. cbn [mpow fact INR].
  apply C_ext; simpl; field.
Qed.

Lemma mexpt_comm n A t : meq n (mmul n A (mexpt n A t)) (mmul n (mexpt n A t) A).
Proof.
  intros i j Hi Hj. unfold mmul.
  transitivity (cps (fun k => csum n (fun l => A i l * mcoef n A l j k)) t).
  - destruct (cps_csum n (fun l k => A i l * mcoef n A l j k) t) as [-> _].
    + intros l Hl. apply entire_scal. now apply entire_coef.
    + apply csum_ext. intros l Hl. rewrite cps_scal by now apply entire_coef. reflexivity.
  - rewrite (cps_ext _ (fun k => csum n (fun l => A l j * mcoef n A i l k))).
    + destruct (cps_csum n (fun l k => A l j * mcoef n A i l k) t) as [-> _].
      * intros l Hl. apply entire_scal. now apply entire_coef.
      * apply csum_ext. intros l Hl. rewrite cps_scal by now apply entire_coef.
        rewrite Cmult_comm. reflexivity.
    + intros k. unfold mcoef. pose proof (mpow_comm n A k i j Hi Hj) as M. unfold mmul in M.
      transitivity (csum n (fun l => A i l * mpow n A k l j) * / RtoC (INR (fact k))).
      * rewrite <- csum_mult_r. apply csum_ext. intros l _. unfold Cdiv. ring.
      * rewrite M, <- csum_mult_r. apply csum_ext. intros l _. unfold Cdiv. ring.
Qed.

(** ** Uniqueness *)
Lemma mscal_opp n A B : meq n (madd (mmul n (mscal (RtoC (-1)) A) B) (mmul n A B)) mzero.
Proof.
  intros i j Hi Hj. unfold madd. rewrite (mmul_scal_l n _ A B i j Hi Hj). unfold mscal, mzero.
  apply C_ext; simpl; ring.
Qed.

Lemma ode_left n A (Y : R -> mat) : (forall t, mder n Y t (mmul n A (Y t))) -> meq n (Y 0%R) mid ->
  forall t, meq n (mmul n (mexpt n A (- t)) (Y t)) mid.
Proof.
  intros D0 Y0 t.
  transitivity (mmul n (mexpt n A (- 0)) (Y 0%R)).
  - apply (mder_0_const n (fun x => mmul n (mexpt n A (- x)) (Y x))). intros x.
    eapply mder_meq; [apply mder_mul; [apply mder_rev; apply mexpt_der|apply D0]|].
    transitivity (madd (mmul n (mscal (RtoC (-1)) (mmul n (mexpt n A (- x)) A)) (Y x))
        (mmul n (mmul n (mexpt n A (- x)) A) (Y x))).
    + apply madd_proper; [|apply mmul_assoc]. apply mmul_proper; [|reflexivity].
      apply mscal_proper; [reflexivity|]. apply mexpt_comm.
    + apply mscal_opp.
  - replace (- 0)%R with 0%R by ring. rewrite mexpt_0, Y0. apply mmul_1_l.
Qed.

Lemma mexpt_inv n A t : is_inverse n (mexpt n A t) (mexpt n A (- t)).
Proof.
  assert (Q : forall t, meq n (mmul n (mexpt n A (- t)) (mexpt n A t)) mid).
  { apply ode_left; [intros; apply mexpt_der|apply mexpt_0]. }
  split; [|apply Q]. pose proof (Q (- t)%R) as H. now rewrite Ropp_involutive in H.
Qed.

Theorem ode_unique n A (Y : R -> mat) : (forall t, mder n Y t (mmul n A (Y t))) -> meq n (Y 0%R) mid ->
  forall t, meq n (Y t) (mexpt n A t).
Proof.
  intros D0 Y0 t. pose proof (ode_left n A Y D0 Y0 t) as L.
  destruct (mexpt_inv n A t) as [I1 I2].
  transitivity (mmul n (mmul n (mexpt n A t) (mexpt n A (- t))) (Y t)).
  - rewrite I1. symmetry. apply mmul_1_l.
  - rewrite <- mmul_assoc, L. apply mmul_1_r.
Qed.

(** ** Consequences *)
Lemma cder_shift f s t (a : C) : cder f (t + s) a -> cder (fun x => f (x + s)%R) t a.
Proof.
  intros [A B]. split; simpl.
  - pose proof (is_derive_comp (fun x => fst (f x)) (fun x => (x + s)%R) t (fst a) 1%R A) as D.
    replace (fst a) with (scal 1%R (fst a)) by (unfold scal; simpl; unfold mult; simpl; ring).
    apply D. auto_derive; auto.
  - pose proof (is_derive_comp (fun x => snd (f x)) (fun x => (x + s)%R) t (snd a) 1%R B) as D.
    replace (snd a) with (scal 1%R (snd a)) by (unfold scal; simpl; unfold mult; simpl; ring).
    apply D. auto_derive; auto.
Qed.

Lemma madd_0_r n A : meq n (madd A mzero) A.
Proof. intros i j Hi Hj. unfold madd, mzero. ring. Qed.
Lemma madd_0_l n A : meq n (madd mzero A) A.
Proof. intros i j Hi Hj. unfold madd, mzero. ring. Qed.

Lemma mder_mul_r n X t A B : mder n X t A -> mder n (fun x => mmul n (X x) B) t (mmul n A B).
Proof.
  intros H. eapply mder_meq; [apply mder_mul; [exact H|apply mder_const]|].
  rewrite mmul_0_r. apply madd_0_r.
Qed.
Lemma mder_mul_l n X t A B : mder n X t A -> mder n (fun x => mmul n B (X x)) t (mmul n B A).
Proof.
  intros H. eapply mder_meq; [apply mder_mul; [apply mder_const|exact H]|].
  rewrite mmul_0_l. apply madd_0_l.
Qed.

Lemma mexpt_plus n A s t : meq n (mexpt n A (s + t)) (mmul n (mexpt n A s) (mexpt n A t)).
Proof.
  assert (Q : forall x, meq n (mmul n (mexpt n A (x + t)) (mexpt n A (- t))) (mexpt n A x)).
  { apply (ode_unique n A (fun x => mmul n (mexpt n A (x + t)) (mexpt n A (- t)))).
    - intros x. eapply mder_meq; [apply mder_mul_r|symmetry; apply mmul_assoc].
      intros i j Hi Hj. apply (cder_shift (fun y => mexpt n A y i j)). now apply mexpt_der.
    - rewrite Rplus_0_l. apply mexpt_inv. }
  rewrite <- (Q s). rewrite <- mmul_assoc. destruct (mexpt_inv n A t) as [_ I2]. rewrite I2.
  symmetry. apply mmul_1_r.
Qed.

Lemma mpow_meq n A B k : meq n A B -> meq n (mpow n A k) (mpow n B k).
Proof. intros E. induction k; simpl; [reflexivity|]. now apply mmul_proper. Qed.
Lemma mexpt_meq n A B t : meq n A B -> meq n (mexpt n A t) (mexpt n B t).
Proof.
  intros E i j Hi Hj. rewrite !mexpt_cps. apply cps_ext. intros k. unfold mcoef.
  now rewrite (mpow_meq n A B k E i j Hi Hj).
Qed.
Lemma mexp_meq n A B : meq n A B -> meq n (mexp n A) (mexp n B).
Proof. apply mexpt_meq. Qed.

Lemma mexp_inv n A : is_inverse n (mexp n A) (mexpt n A (-1)).
Proof. apply mexpt_inv. Qed.

(** exp(t A) as defined is the exponential of the matrix t A. *)
Lemma mexpt_scal n A s t : meq n (mexpt n (mscal (RtoC s) A) t) (mexpt n A (s * t)).
Proof.
  symmetry. revert t. apply (ode_unique n (mscal (RtoC s) A) (fun t => mexpt n A (s * t))).
  - intros t i j Hi Hj. rewrite (mmul_scal_l n _ _ _ i j Hi Hj). unfold mscal.
    pose proof (mexpt_der n A (s * t) i j Hi Hj) as [D1 D2].
    assert (L : is_derive (fun x : R => (s * x)%R) t s) by (auto_derive; auto; ring).
    split; simpl.
    + replace (s * fst (mmul n A (mexpt n A (s * t)) i j) - 0 * snd (mmul n A (mexpt n A (s * t)) i j))%R
        with (scal s (fst (mmul n A (mexpt n A (s * t)) i j))) by (unfold scal; simpl; unfold mult; simpl; ring).
      exact (is_derive_comp (fun x => fst (mexpt n A x i j)) (fun x => (s * x)%R) t _ s D1 L).
    + replace (s * snd (mmul n A (mexpt n A (s * t)) i j) + 0 * fst (mmul n A (mexpt n A (s * t)) i j))%R
        with (scal s (snd (mmul n A (mexpt n A (s * t)) i j))) by (unfold scal; simpl; unfold mult; simpl; ring).
      exact (is_derive_comp (fun x => snd (mexpt n A x i j)) (fun x => (s * x)%R) t _ s D2 L).
  - rewrite Rmult_0_r. apply mexpt_0.
Qed.

Lemma mexp_scal n A s : meq n (mexp n (mscal (RtoC s) A)) (mexpt n A s).
Proof. unfold mexp. rewrite mexpt_scal. now rewrite Rmult_1_r. Qed.

Lemma mexpt_similar n A W V t : is_inverse n W V ->
  meq n (mexpt n (mmul n (mmul n W A) V) t) (mmul n (mmul n W (mexpt n A t)) V).
Proof.
  intros [I1 I2]. symmetry. revert t.
  apply (ode_unique n (mmul n (mmul n W A) V) (fun t => mmul n (mmul n W (mexpt n A t)) V)).
  - intros t. eapply mder_meq; [apply mder_mul_r, mder_mul_l, mexpt_der|].
    set (X := mexpt n A t). rewrite <- !mmul_assoc.
    rewrite (mmul_assoc n V W), I2, mmul_1_l. reflexivity.
  - rewrite mexpt_0, mmul_1_r. exact I1.
Qed.

Lemma mexpt_diag n (d : nat -> C) t : meq n (mexpt n (mdiag d) t) (mdiag (fun i => Cexp (RtoC t * d i))).
Proof.
  symmetry. revert t. apply (ode_unique n (mdiag d) (fun t => mdiag (fun i => Cexp (RtoC t * d i)))).
  - intros t i j Hi Hj. rewrite (mdiag_mul n d _ i j Hi Hj). unfold mdiag.
    destruct (Nat.eqb i j); [apply cder_Cexp|apply cder_const].
  - apply mdiag_1. intros i Hi. replace (RtoC 0 * d i) with (RtoC 0) by (apply C_ext; simpl; ring).
    apply Cexp_0.
Qed.

(** Adjoint and transpose *)
Lemma mexpt_adj n A t : meq n (madj (mexpt n A t)) (mexpt n (madj A) t).
Proof.
  revert t. apply (ode_unique n (madj A) (fun t => madj (mexpt n A t))).
  - intros t. eapply mder_meq; [apply mder_adj; eapply mder_meq; [apply mexpt_der|apply mexpt_comm]|].
    apply madj_mul.
  - rewrite mexpt_0. apply madj_mid.
Qed.
Lemma mder_tr n X t A : mder n X t A -> mder n (fun x => mtr (X x)) t (mtr A).
Proof. intros H i j Hi Hj. unfold mtr. now apply H. Qed.
Lemma mexpt_tr n A t : meq n (mtr (mexpt n A t)) (mexpt n (mtr A) t).
Proof.
  revert t. apply (ode_unique n (mtr A) (fun t => mtr (mexpt n A t))).
  - intros t. eapply mder_meq; [apply mder_tr; eapply mder_meq; [apply mexpt_der|apply mexpt_comm]|].
    apply mtr_mul.
  - rewrite mexpt_0. apply mtr_mid.
Qed.
