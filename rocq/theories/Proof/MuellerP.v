From Coq Require Import Reals ZArith List Lra Lia Psatz.
From Coquelicot Require Import Complex.
From Verif.Base Require Import Py Cx Mat.
From Verif.Model Require Import DeltaRange Ellips.
From Verif.Spec Require Import Angle Light.
From Verif.Proof Require Import DeltaRangeP EllipsP.
Import ListNotations.
Open Scope R_scope.
Open Scope C_scope.

(** ** Mueller matrix *)
Lemma mm_a_inv_ok : is_inverse 4 mm_a mm_a_inv.
Proof.
  split; mexpl; unfold mmul, mm_a, mm_a_inv, mscal, mat_of, mid; simpl;
    unfold Ci; Ccomp; field.
Qed.

Lemma Cconj_Re z : (z + Cconj z) / 2 = RtoC (fst z).
Proof. unfold Cconj. Ccomp; field. Qed.

(** the Mueller matrix as real expressions *)
Lemma mueller_complex_real (m : mat) i j : (i < 4)%nat -> (j < 4)%nat ->
  snd (mueller_complex m i j) = 0%R.
Proof.
  intros Hi Hj; idx i; idx j;
  unfold mueller_complex, mmul, mm_a, mm_a_inv, mscal, mat_of, kron2, mconj; simpl;
  destruct (m 0%nat 0%nat) as [a a'], (m 0%nat 1%nat) as [b b'],
  (m 1%nat 0%nat) as [c c'], (m 1%nat 1%nat) as [d d']; simpl;
  field.
Qed.

Definition mueller_table (m : mat) (i j : nat) : R :=
  let a := m 0%nat 0%nat in let b := m 0%nat 1%nat in
  let c := m 1%nat 0%nat in let d := m 1%nat 1%nat in
  let A := Cnorm2 a in let B := Cnorm2 b in let C_ := Cnorm2 c in let D := Cnorm2 d in
  let re (x y : C) := (fst x * fst y + snd x * snd y)%R in
  let im (x y : C) := (snd x * fst y - fst x * snd y)%R in
  nth j (nth i
   [[(A+B+C_+D)/2; (A-B+C_-D)/2; re a b + re c d; im a b + im c d];
    [(A+B-C_-D)/2; (A-B-C_+D)/2; re a b - re c d; im a b - im c d];
    [re a c + re b d; re a c - re b d; re a d + re b c; im a d - im b c];
    [- (im a c + im b d); - (im a c - im b d); - (im a d + im b c); re a d - re b c]] nil)%R 0%R.

Lemma mueller_complex_table (m : mat) i j : (i < 4)%nat -> (j < 4)%nat ->
  fst (mueller_complex m i j) = mueller_table m i j.
Proof.
  intros Hi Hj; idx i; idx j;
  unfold mueller_table, mueller_complex, mmul, mm_a, mm_a_inv, mscal, mat_of, kron2, mconj, Cnorm2; simpl;
  destruct (m 0%nat 0%nat) as [a a'], (m 0%nat 1%nat) as [b b'],
  (m 1%nat 0%nat) as [c c'], (m 1%nat 1%nat) as [d d']; simpl;
  field.
Qed.

Definition power2 (J : mat) : R :=
  ((Cnorm2 (J 0 0)%nat + Cnorm2 (J 0 1)%nat + Cnorm2 (J 1 0)%nat + Cnorm2 (J 1 1)%nat) / 2)%R.

Lemma mueller_11 (m : mat) : fst (mueller_complex m 0%nat 0%nat) = power2 m.
Proof.
  rewrite mueller_complex_table by lia. reflexivity.
Qed.

Lemma power2_pos (J : mat) : J 1%nat 1%nat <> 0 -> (0 < power2 J)%R.
Proof.
  intros H. apply Cnorm2_gt0 in H. unfold power2.
  pose proof (Cnorm2_ge0 (J 0 0)%nat). pose proof (Cnorm2_ge0 (J 0 1)%nat).
  pose proof (Cnorm2_ge0 (J 1 0)%nat). lra.
Qed.

Lemma rho_matrix_some (J : mat) : J 1%nat 1%nat <> 0 ->
  rho_matrix J = Some (fun i j => J i j / J 1%nat 1%nat).
Proof. intros. unfold rho_matrix. destruct Ceq_dec; tauto. Qed.

Definition mdivc (J : mat) (c : C) : mat := fun i j => J i j / c.

Lemma mueller_some (J : mat) : J 1%nat 1%nat <> 0 ->
  mueller_matrix J = Some (fun i j =>
    fst (mueller_complex (mdivc J (J 1 1)%nat) i j) / power2 (mdivc J (J 1 1)%nat))%R.
Proof.
  intros H. unfold mueller_matrix, obind. rewrite rho_matrix_some by auto.
  rewrite mueller_11. destruct Req_EM_T as [E|_]; auto.
  exfalso. assert (K : (0 < power2 (mdivc J (J 1%nat 1%nat)))%R).
  { apply power2_pos. apply Cdiv_neq0; auto. }
  unfold mdivc in K. lra.
Qed.

Lemma mueller_M11 (J : mat) M : mueller_matrix J = Some M -> M 0%nat 0%nat = 1%R.
Proof.
  unfold mueller_matrix, obind. destruct (rho_matrix J); [|discriminate].
  destruct Req_EM_T; [discriminate|]. intros H. inversion H. unfold Rdiv. apply Rinv_r. auto.
Qed.

Lemma mueller_total (J : mat) : J 1%nat 1%nat <> 0 <-> exists M, mueller_matrix J = Some M.
Proof.
  split.
  - intros H. rewrite mueller_some by auto. eauto.
  - intros [M H] E. unfold mueller_matrix, rho_matrix in H.
    destruct Ceq_dec; [discriminate|tauto].
Qed.

Lemma mueller_val (J : mat) M : mueller_matrix J = Some M ->
  forall i j, M i j =
    (fst (mueller_complex (mdivc J (J 1 1)%nat) i j) / power2 (mdivc J (J 1 1)%nat))%R.
Proof.
  intros H i j. assert (N : J 1%nat 1%nat <> 0) by (apply mueller_total; eauto).
  rewrite mueller_some in H by auto.
  exact (eq_sym (f_equal (fun o => match o with Some f => f i j | None => 0%R end) H)).
Qed.

Definition sum44 (f : nat -> nat -> R) : R :=
  (f 0%nat 0%nat + f 0%nat 1%nat + f 0%nat 2%nat + f 0%nat 3%nat
    + f 1%nat 0%nat + f 1%nat 1%nat + f 1%nat 2%nat + f 1%nat 3%nat
    + f 2%nat 0%nat + f 2%nat 1%nat + f 2%nat 2%nat + f 2%nat 3%nat
    + f 3%nat 0%nat + f 3%nat 1%nat + f 3%nat 2%nat + f 3%nat 3%nat)%R.

Lemma mueller_sumsq (m : mat) :
  sum44 (fun i j => fst (mueller_complex m i j) * fst (mueller_complex m i j))%R =
  (4 * (power2 m * power2 m))%R.
Proof.
  unfold sum44. rewrite !mueller_complex_table by lia.
  unfold mueller_table, power2, Cnorm2; simpl.
  destruct (m 0%nat 0%nat) as [a a']. destruct (m 0%nat 1%nat) as [b b'].
  destruct (m 1%nat 0%nat) as [c c']. destruct (m 1%nat 1%nat) as [d d']. simpl.
  field.
Qed.

Lemma mueller_stokes (m : mat) x y i : (i < 4)%nat ->
  (fst (mueller_complex m i 0%nat) * stokes x y 0 + fst (mueller_complex m i 1%nat) * stokes x y 1 +
   fst (mueller_complex m i 2%nat) * stokes x y 2 + fst (mueller_complex m i 3%nat) * stokes x y 3)%R
  = stokes (m 0%nat 0%nat * x + m 0%nat 1%nat * y) (m 1%nat 0%nat * x + m 1%nat 1%nat * y) i.
Proof.
  intros Hi; rewrite !mueller_complex_table by lia; idx i;
  unfold stokes, mueller_table, Cnorm2, Re, Im;
  simpl;
  destruct (m 0%nat 0%nat) as [a a'], (m 0%nat 1%nat) as [b b'],
  (m 1%nat 0%nat) as [c c'], (m 1%nat 1%nat) as [d d'], x as [x x'], y as [y y']; simpl; field.
Qed.

Lemma stokes_scale c x y i : stokes (c * x) (c * y) i = (Cnorm2 c * stokes x y i)%R.
Proof.
  unfold stokes, Cnorm2, Re, Im. destruct i as [|[|[|[|i]]]]; simpl; ring.
Qed.

Lemma power2_scale (J : mat) (c : C) : c <> 0 -> power2 (mdivc J c) = (power2 J / Cnorm2 c)%R.
Proof.
  intros H. unfold power2, mdivc. rewrite !Cnorm2_div by auto.
  pose proof (Cnorm2_gt0 c H). field. lra.
Qed.

(** The Mueller matrix maps the Stokes vector of any light to that of the reflected light,
    divided by the reflectance for unpolarised light. *)
Lemma mueller_action (J : mat) M x y i : mueller_matrix J = Some M -> (i < 4)%nat ->
  (M i 0%nat * stokes x y 0 + M i 1%nat * stokes x y 1 + M i 2%nat * stokes x y 2 +
   M i 3%nat * stokes x y 3)%R
  = (stokes (J 0%nat 0%nat * x + J 0%nat 1%nat * y)%C
            (J 1%nat 0%nat * x + J 1%nat 1%nat * y)%C i / power2 J)%R.
Proof.
  intros H Hi.
  assert (N : J 1%nat 1%nat <> 0) by (apply mueller_total; eauto).
  pose proof (mueller_val J M H) as V. clear H.
  set (c := J 1%nat 1%nat) in *. set (m := mdivc J c).
  pose proof (mueller_stokes m x y i Hi) as S.
  pose proof (power2_pos J N) as P. pose proof (Cnorm2_gt0 c N) as Q.
  assert (Pm : (0 < power2 m)%R).
  { unfold m. rewrite power2_scale by auto. apply Rdiv_lt_0_compat; auto. }
  transitivity (stokes (m 0%nat 0%nat * x + m 0%nat 1%nat * y)%C
     (m 1%nat 0%nat * x + m 1%nat 1%nat * y)%C i / power2 m)%R.
  { rewrite <- S. rewrite !V. fold c. fold m. field. lra. }
  unfold m at 1 2 3 4. unfold mdivc.
  replace (J 0%nat 0%nat / c * x + J 0%nat 1%nat / c * y)
    with (/ c * (J 0%nat 0%nat * x + J 0%nat 1%nat * y)) by (field; auto).
  replace (J 1%nat 0%nat / c * x + J 1%nat 1%nat / c * y)
    with (/ c * (J 1%nat 0%nat * x + J 1%nat 1%nat * y)) by (field; auto).
  rewrite stokes_scale, Cnorm2_inv by auto. unfold m. rewrite power2_scale by auto.
  fold c. field. lra.
Qed.

Lemma mueller_nondepolarising (J : mat) M : mueller_matrix J = Some M ->
  sum44 (fun i j => M i j * M i j)%R = 4%R.
Proof.
  intros H. assert (N : J 1%nat 1%nat <> 0) by (apply mueller_total; eauto).
  pose proof (mueller_val J M H) as V. clear H.
  set (m := mdivc J (J 1 1)%nat).
  assert (P : (0 < power2 m)%R) by (apply power2_pos; apply Cdiv_neq0; auto).
  pose proof (mueller_sumsq m) as S. revert S. unfold sum44. intros S.
  set (p := power2 m) in *.
  transitivity (4 * (p * p) / (p * p))%R; [|field; lra].
  rewrite <- S. rewrite !V. fold m. fold p. field. lra.
Qed.

