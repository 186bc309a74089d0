From Coq Require Import Reals Lra Psatz Lia.
From Coquelicot Require Import Complex.
From Coq Require Import List Permutation.
From Verif.Base Require Import Py Cx Mat Mexp Det.
From Verif.Model Require Import Units Ellips Structure Solver4.
From Verif.Spec Require Import Tensor.
From Verif.Proof Require Import UnitsP DispersionsP.
Import ListNotations.
Open Scope R_scope.
Open Scope C_scope.
Open Scope py_scope.

(** Exponentials from a decomposition *)
Lemma mexp_decomp n (A W V : mat) (d : nat -> C) : is_inverse n W V ->
  meq n (mmul n A W) (mmul n W (mdiag d)) ->
  meq n (mexp n A) (mmul n (mmul n W (mdiag (fun i => Cexp (d i)))) V).
Proof.
  intros I H.
  assert (E : meq n A (mmul n (mmul n W (mdiag d)) V)).
  { rewrite <- H, <- mmul_assoc, (proj1 I), mmul_1_r. reflexivity. }
  unfold mexp. rewrite (mexpt_meq n _ _ 1 E), (mexpt_similar n (mdiag d) W V 1 I), mexpt_diag.
  apply mmul_proper; [|reflexivity]. apply mmul_proper; [reflexivity|].
  intros i j _ _. unfold mdiag. destruct (Nat.eqb i j); [|reflexivity]. f_equal. ring.
Qed.

Lemma mdiag_scal n (c : C) (d : nat -> C) : meq n (mscal c (mdiag d)) (mdiag (fun i => c * d i)).
Proof. intros i j _ _. unfold mscal, mdiag. destruct (Nat.eqb i j); ring. Qed.

Lemma mexp_decomp_scal n (c : C) (A W V : mat) (d : nat -> C) : is_inverse n W V ->
  meq n (mmul n A W) (mmul n W (mdiag d)) ->
  meq n (mexp n (mscal c A)) (mmul n (mmul n W (mdiag (fun i => Cexp (c * d i)))) V).
Proof.
  intros I H. apply mexp_decomp with (d := fun i => c * d i); [exact I|].
  rewrite mmul_scal_l, H, <- mmul_scal_r, mdiag_scal. reflexivity.
Qed.

(** Permutations of the columns *)
Definition lsum (l : list nat) (f : nat -> C) : C := fold_right (fun k acc => f k + acc) 0 l.
Lemma lsum_perm l l' f : Permutation l l' -> lsum l f = lsum l' f.
Proof. induction 1; cbn [lsum fold_right]; try congruence; [unfold lsum in *; now rewrite IHPermutation|ring]. Qed.
Lemma csum4_lsum f : csum 4 f = lsum (seq 0 4) f.
Proof. unfold lsum. cbn [csum seq fold_right]. ring. Qed.
Lemma csum4_idx idx f : length idx = 4%nat -> csum 4 (fun a => f (nth a idx 0%nat)) = lsum idx f.
Proof.
  intros H. destruct idx as [|a [|b [|c [|d [|]]]]]; try discriminate. unfold lsum. cbn [csum nth fold_right]. ring.
Qed.
Lemma csum4_perm idx f : Permutation idx (seq 0 4) -> csum 4 (fun a => f (nth a idx 0%nat)) = csum 4 f.
Proof.
  intros P. rewrite (csum4_lsum f). rewrite <- (lsum_perm _ _ f P). apply csum4_idx. rewrite (Permutation_length P). reflexivity.
Qed.
Lemma perm_lt idx a : Permutation idx (seq 0 4) -> (a < 4)%nat -> (nth a idx 0 < 4)%nat.
Proof.
  intros P H. assert (K : In (nth a idx 0%nat) (seq 0 4)).
  { apply (Permutation_in _ P), nth_In. rewrite (Permutation_length P). exact H. }
  apply in_seq in K. lia.
Qed.
Lemma perm_inj idx a b : Permutation idx (seq 0 4) -> (a < 4)%nat -> (b < 4)%nat -> nth a idx 0%nat = nth b idx 0%nat -> a = b.
Proof.
  intros P Ha Hb E. assert (L := Permutation_length P). change (length (seq 0 4)) with 4%nat in L.
  assert (N : NoDup idx) by (apply (Permutation_NoDup (Permutation_sym P)), seq_NoDup).
  apply (proj1 (NoDup_nth idx 0%nat) N); lia || exact E.
Qed.

Lemma insert_perm q j l : Permutation (insert_idx q j l) (j :: l).
Proof.
  induction l as [|k l IH]; cbn [insert_idx]; [reflexivity|]. destruct (sorts_before (q k) (q j)); [|reflexivity].
  rewrite IH. apply perm_swap.
Qed.
Lemma lexsort_perm q : Permutation (lexsort q) (seq 0 4).
Proof.
  unfold lexsort. generalize (seq 0 4). induction l as [|j l IH]; [reflexivity|]. cbn [fold_right].
  rewrite insert_perm, IH. reflexivity.
Qed.

Lemma take_cols_inverse w v idx : Permutation idx (seq 0 4) -> is_inverse 4 w v ->
  is_inverse 4 (take_cols w idx) (fun a j => v (nth a idx 0%nat) j).
Proof.
  intros P [I1 I2]. split.
  - intros i j Hi Hj. unfold mmul, take_cols. rewrite (csum4_perm idx (fun k => w i k * v k j) P). apply I1; assumption.
  - intros a b Ha Hb. unfold mmul, take_cols.
    transitivity (mmul 4 v w (nth a idx 0%nat) (nth b idx 0%nat)); [reflexivity|].
    rewrite I2 by (apply perm_lt; assumption). unfold mid.
    destruct (Nat.eqb_spec (nth a idx 0%nat) (nth b idx 0%nat)) as [E|E].
    + apply perm_inj in E; [|assumption|assumption|assumption]. subst. now rewrite Nat.eqb_refl.
    + destruct (Nat.eqb_spec a b) as [->|]; [contradiction|reflexivity].
Qed.

Lemma take_cols_eig A w q idx : Permutation idx (seq 0 4) -> meq 4 (mmul 4 A w) (mmul 4 w (mdiag q)) ->
  meq 4 (mmul 4 A (take_cols w idx)) (mmul 4 (take_cols w idx) (mdiag (take_vec q idx))).
Proof.
  intros P H i a Hi Ha. assert (L := perm_lt idx a P Ha).
  assert (E := H i (nth a idx 0%nat) Hi L). unfold mmul, take_cols, mdiag, take_vec in *.
  rewrite E. rewrite (csum_single 4 (fun k => w i k * _) (nth a idx 0%nat) L).
  - rewrite (csum_single 4 (fun k => w i (nth k idx 0%nat) * _) a Ha).
    + cbv beta. now rewrite !Nat.eqb_refl.
    + intros k Hk D. destruct (Nat.eqb_spec k a); [contradiction|ring].
  - intros k Hk D. destruct (Nat.eqb_spec k (nth a idx 0%nat)); [contradiction|ring].
Qed.

(** Any propagator from a complete eigenvector matrix *)
Lemma rdiv_some (a b : R) : b <> 0%R -> rdiv a b = Some (a / b)%R.
Proof. apply rdiv_nz. Qed.

Definition phase (lbda thickness : R) : C := Ci * RtoC thickness * RtoC (2 * PI / lbda).

Lemma expm_some delta d lbda : (lbda <> 0)%R ->
  exists P, propagator_expm delta d lbda = Some P /\ meq 4 P (mexp 4 (mscal (phase lbda d) delta)).
Proof.
  intros L. unfold propagator_expm, wave_number. rewrite rdiv_some by exact L. cbn [obind]. eexists. split; [reflexivity|].
  apply mexp_meq. rewrite mscal_mscal. reflexivity.
Qed.
Lemma expm_inv delta d lbda P : propagator_expm delta d lbda = Some P ->
  (lbda <> 0)%R /\ meq 4 P (mexp 4 (mscal (phase lbda d) delta)).
Proof.
  intros H. destruct (Req_EM_T lbda 0) as [->|L].
  - unfold propagator_expm, wave_number in H. rewrite (proj2 (rdiv_None _ 0) eq_refl) in H. discriminate.
  - split; [exact L|]. destruct (expm_some delta d lbda L) as (Q & E & M). rewrite H in E. apply Some_eq in E. now subst Q.
Qed.

Lemma eig_expm (delta : mat) (q : nat -> C) (w : mat) d lbda :
  meq 4 (mmul 4 delta w) (mmul 4 w (mdiag q)) ->
  (forall P, propagator_eig (q, w) d lbda = Some P -> (lbda <> 0)%R /\ meq 4 P (mexp 4 (mscal (phase lbda d) delta))) /\
  ((lbda <> 0)%R -> (exists v, is_inverse 4 w v) -> exists P, propagator_eig (q, w) d lbda = Some P).
Proof.
  intros E. assert (Pm := lexsort_perm q). assert (E' := take_cols_eig delta w q (lexsort q) Pm E).
  assert (G4 : good_size 4) by (right; reflexivity). split.
  - intros P H. unfold propagator_eig in H. destruct (minv 4 (take_cols w (lexsort q))) as [v|] eqn:I; [|discriminate].
    cbn [obind] in H. destruct (Req_EM_T lbda 0) as [->|L].
    { rewrite (proj2 (rdiv_None 1 0) eq_refl) in H. discriminate. }
    split; [exact L|]. rewrite rdiv_some in H by exact L. cbn [obind] in H. apply Some_eq in H. subst P.
    apply minv_inverse in I; [|exact G4].
    rewrite (mexp_decomp_scal 4 (phase lbda d) delta _ v _ I E').
    apply mmul_proper; [|reflexivity]. apply mmul_proper; [reflexivity|].
    intros i j _ _. unfold mdiag. destruct (Nat.eqb i j); [|reflexivity]. f_equal. unfold phase.
    replace (2 * PI / lbda)%R with (2 * PI * (1 / lbda))%R by (field; exact L). rewrite !RtoC_mult. ring.
  - intros L (v & I). apply (take_cols_inverse w v (lexsort q) Pm) in I. destruct (minv_some 4 _ _ G4 I) as (v' & M & _).
    unfold propagator_eig. rewrite M, rdiv_some by exact L. cbn [obind]. eauto.
Qed.

Lemma phase_plus lbda a b : phase lbda (a + b) = phase lbda a + phase lbda b.
Proof. unfold phase. rewrite RtoC_plus. ring. Qed.
Lemma phase_0 lbda : phase lbda 0 = 0.
Proof. unfold phase. ring. Qed.

Lemma mexp_phase n lbda d delta : meq n (mexp n (mscal (phase lbda d) delta)) (mexpt n (mscal (Ci * RtoC (2 * PI / lbda)) delta) d).
Proof.
  rewrite <- mexp_scal. apply mexp_meq. rewrite mscal_mscal. unfold phase.
  replace (RtoC d * (Ci * RtoC (2 * PI / lbda))) with (Ci * RtoC d * RtoC (2 * PI / lbda)) by ring. reflexivity.
Qed.
Lemma mexp_phase_plus n lbda a b delta :
  meq n (mexp n (mscal (phase lbda (a + b)) delta))
        (mmul n (mexp n (mscal (phase lbda a) delta)) (mexp n (mscal (phase lbda b) delta))).
Proof. rewrite !mexp_phase. apply mexpt_plus. Qed.
Lemma mexp_phase_0 n lbda delta : meq n (mexp n (mscal (phase lbda 0) delta)) mid.
Proof. rewrite mexp_phase. apply mexpt_0. Qed.

(** Isotropic half spaces *)
Definition isoL (n c : C) : mat := mat_of
  [[RtoC 0; RtoC 0; c; - c]; [RtoC 1; RtoC 1; RtoC 0; RtoC 0]; [- n * c; n * c; RtoC 0; RtoC 0]; [RtoC 0; RtoC 0; n; n]].
Definition isoLi (n c : C) : mat := mscal (RtoC (1 / 2)) (mat_of
  [[RtoC 0; RtoC 1; - (1) / c / n; RtoC 0]; [RtoC 0; RtoC 1; 1 / c / n; RtoC 0];
   [1 / c; RtoC 0; RtoC 0; 1 / n]; [- (1) / c; RtoC 0; RtoC 0; 1 / n]]).

Lemma half_C : RtoC (1 / 2) = 1 / 2.
Proof. rewrite RtoC_div by lra. reflexivity. Qed.

Lemma iso_inverse (n c : C) : n <> 0 -> c <> 0 -> is_inverse 4 (isoL n c) (isoLi n c).
Proof.
  intros N K. split; mexpl; unfold mmul, isoL, isoLi, mscal, mid, mat_of, csum; cbn [nth Nat.eqb]; rewrite half_C; Cfield.
Qed.

Lemma iso_L_some k_x eps inv L : transition_matrix_iso_halfspace k_x eps inv = Some L ->
  iso_n eps <> 0 /\ (inv = true -> iso_cos k_x eps <> 0) /\
  L = if inv then isoLi (iso_n eps) (iso_cos k_x eps) else isoL (iso_n eps) (iso_cos k_x eps).
Proof.
  unfold transition_matrix_iso_halfspace. destruct (Ceq_dec (iso_n eps) 0) as [|N]; [discriminate|]. destruct inv.
  - destruct (Ceq_dec (iso_cos k_x eps) 0) as [|K]; [discriminate|]. intros H. apply Some_eq in H. auto.
  - intros H. apply Some_eq in H. split; [exact N|]. split; [discriminate|auto].
Qed.
Lemma iso_L_eq k_x eps : iso_n eps <> 0 -> transition_matrix_iso_halfspace k_x eps false = Some (isoL (iso_n eps) (iso_cos k_x eps)).
Proof. intros N. unfold transition_matrix_iso_halfspace. destruct (Ceq_dec (iso_n eps) 0); [contradiction|reflexivity]. Qed.
Lemma iso_Li_eq k_x eps : iso_n eps <> 0 -> iso_cos k_x eps <> 0 ->
  transition_matrix_iso_halfspace k_x eps true = Some (isoLi (iso_n eps) (iso_cos k_x eps)).
Proof.
  intros N K. unfold transition_matrix_iso_halfspace. destruct (Ceq_dec (iso_n eps) 0); [contradiction|].
  destruct (Ceq_dec (iso_cos k_x eps) 0); [contradiction|reflexivity].
Qed.

(** Isotropic layers *)
Definition iso_delta (k_x e : C) : mat := mat_of
  [[RtoC 0; RtoC 0; RtoC 0; 1 - k_x * k_x / e]; [RtoC 0; RtoC 0; - (1); RtoC 0];
   [RtoC 0; k_x * k_x - e; RtoC 0; RtoC 0]; [e; RtoC 0; RtoC 0; RtoC 0]].
Lemma delta_iso k_x eps (e : C) : e <> 0 -> isotropic eps e ->
  exists D, build_delta_matrix k_x eps = Some D /\ meq 4 D (iso_delta k_x e).
Proof.
  intros N I. unfold isotropic, meq, mscal, mid in I. unfold build_delta_matrix.
  rewrite !I by lia. cbn [Nat.eqb].
  destruct (Ceq_dec (e * 1) 0) as [E|_]; [exfalso; apply N; rewrite <- E; ring|].
  eexists. split; [reflexivity|]. mexpl; unfold mat_of; cbn [nth]; unfold iso_delta, mat_of; cbn [nth]; Cfield.
Qed.

Lemma iso_eigen (k_x n c : C) : n <> 0 -> n * n * (c * c) = n * n - k_x * k_x ->
  let q := n * c in
  meq 4 (mmul 4 (iso_delta k_x (n * n)) (isoL n c)) (mmul 4 (isoL n c) (mdiag (vec_of [q; - q; q; - q]))).
Proof.
  intros N E q.
  assert (K : k_x * k_x = n * n - n * n * (c * c)) by (rewrite E; ring).
  assert (K2 : 1 - k_x * k_x / (n * n) = c * c) by (rewrite K; Cfield).
  mexpl; unfold mmul, iso_delta, isoL, mdiag, vec_of, mat_of, csum, q; cbn [nth Nat.eqb]; rewrite ?K2, ?K; ring.
Qed.
