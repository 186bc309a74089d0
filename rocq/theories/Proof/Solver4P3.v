From Coq Require Import Reals Lra Psatz Lia.
From Coquelicot Require Import Complex.
From Coq Require Import List.
From Verif.Base Require Import Py Cx Mat Mexp Det.
From Verif.Model Require Import Units Ellips Structure Solver4.
From Verif.Spec Require Import Maxwell.
From Verif.Proof Require Import UnitsP DispersionsP Solver4P Solver4P2.
Import ListNotations.
Open Scope R_scope.
Open Scope C_scope.
Open Scope py_scope.

(** Linear differential equations for vectors *)
Lemma ode_vec n A (y : R -> nat -> C) : (0 < n)%nat ->
  (forall t i, (i < n)%nat -> cder (fun x => y x i) t (mvec n A (y t) i)) ->
  forall t, veq n (y t) (mvec n (mexpt n A t) (y 0%R)).
Proof.
  intros Hn D t. set (Y := fun x => (fun i _ => y x i) : mat).
  assert (DY : forall x, mder n Y x (mmul n A (Y x))) by (intros x i j Hi Hj; apply (D x i Hi)).
  assert (K : meq n (mmul n (mexpt n A (- t)) (Y t)) (Y 0%R)).
  { transitivity (mmul n (mexpt n A (- 0)) (Y 0%R)).
    - apply (mder_0_const n (fun x => mmul n (mexpt n A (- x)) (Y x))). intros x.
      eapply mder_meq; [apply mder_mul; [apply mder_rev; apply mexpt_der|apply DY]|].
      transitivity (madd (mmul n (mscal (RtoC (-1)) (mmul n (mexpt n A (- x)) A)) (Y x)) (mmul n (mmul n (mexpt n A (- x)) A) (Y x))).
      + apply madd_proper; [|apply mmul_assoc]. apply mmul_proper; [|reflexivity]. apply mscal_proper; [reflexivity|]. apply mexpt_comm.
      + apply mscal_opp.
    - rewrite Ropp_0, mexpt_0. apply mmul_1_l. }
  assert (E : meq n (Y t) (mmul n (mexpt n A t) (Y 0%R))).
  { rewrite <- K, mmul_assoc, (proj1 (mexpt_inv n A t)). symmetry. apply mmul_1_l. }
  intros i Hi. exact (E i 0%nat Hi Hn).
Qed.
Lemma ode_vec_sol n A (v : nat -> C) t i : (i < n)%nat ->
  cder (fun x => mvec n (mexpt n A x) v i) t (mvec n A (mvec n (mexpt n A t) v) i).
Proof.
  intros Hi. assert (M := mexpt_der n A t). eapply cder_eq.
  - unfold mvec at 1. apply (cder_csum n (fun j x => mexpt n A x i j * v j) t (fun j => mmul n A (mexpt n A t) i j * v j)).
    intros j Hj. eapply cder_eq; [apply cder_mult; [apply (M i j Hi Hj)|apply cder_const]|]. cbv beta. ring.
  - symmetry. apply (veq_sym n _ _ (mvec_mul n A (mexpt n A t) v) i Hi).
Qed.

(** Elimination of the normal components *)
Lemma Cmult_reg (a b c : C) : a <> 0 -> a * b = a * c -> b = c.
Proof. intros N H. exact (Cmult_cancel a b c N H). Qed.

Lemma maxwell_ode_at k kx (eps : mat) F z : (k <> 0)%R -> eps 2%nat 2%nat <> 0 -> maxwell_at k kx eps F z ->
  (forall i, (i < 4)%nat -> cder (fun x => tangential F x i) z (mvec 4 (mscal (Ci * RtoC k) (delta_of kx eps)) (tangential F z) i)) /\
  (Ez F z = (- kx * Hy F z - eps 2%nat 0%nat * Ex F z - eps 2%nat 1%nat * Ey F z) / eps 2%nat 2%nat /\ Hz F z = kx * Ey F z).
Proof.
  intros K N M. assert (IK : Ci * RtoC k <> 0).
  { intros E. apply C_integral in E. destruct E as [E|E]; [now apply Ci_neq0 in E|apply RtoC_inj in E; contradiction]. }
  assert (Z : Ez F z = (- kx * Hy F z - eps 2%nat 0%nat * Ex F z - eps 2%nat 1%nat * Ey F z) / eps 2%nat 2%nat /\ Hz F z = kx * Ey F z).
  { destruct M as (_ & _ & H3 & _ & _ & H6). unfold displacement in H6. split.
    - assert (E : kx * Hy F z = - (eps 2%nat 0%nat * Ex F z + eps 2%nat 1%nat * Ey F z + eps 2%nat 2%nat * Ez F z)).
      { apply (Cmult_reg (Ci * RtoC k)); [exact IK|]. transitivity (Ci * RtoC k * kx * Hy F z); [ring|]. rewrite H6. ring. }
      replace (- kx * Hy F z) with (- (kx * Hy F z)) by ring. rewrite E. field. exact N.
    - apply (Cmult_reg (Ci * RtoC k)); [exact IK|]. rewrite <- H3. ring. }
  split; [|exact Z]. intros i Hi. destruct M as (H1 & H2 & _ & H4 & H5 & _). destruct Z as [Z1 Z2]. unfold displacement in *.
  rewrite Z1 in H2, H4, H5. rewrite Z2 in H5.
  assert (D : delta_of kx eps = mat_of
    [[- kx * eps 2%nat 0%nat / eps 2%nat 2%nat; - kx * eps 2%nat 1%nat / eps 2%nat 2%nat; RtoC 0; 1 - kx * kx / eps 2%nat 2%nat];
     [RtoC 0; RtoC 0; - (1); RtoC 0];
     [eps 1%nat 2%nat * eps 2%nat 0%nat / eps 2%nat 2%nat - eps 1%nat 0%nat; kx * kx - eps 1%nat 1%nat + eps 1%nat 2%nat * eps 2%nat 1%nat / eps 2%nat 2%nat; RtoC 0; kx * eps 1%nat 2%nat / eps 2%nat 2%nat];
     [eps 0%nat 0%nat - eps 0%nat 2%nat * eps 2%nat 0%nat / eps 2%nat 2%nat; eps 0%nat 1%nat - eps 0%nat 2%nat * eps 2%nat 1%nat / eps 2%nat 2%nat; RtoC 0; - kx * eps 0%nat 2%nat / eps 2%nat 2%nat]]).
  { unfold delta_of, build_delta_matrix. destruct (Ceq_dec (eps 2%nat 2%nat) 0); [contradiction|reflexivity]. }
  rewrite D. unfold mvec, mscal, tangential, vec_of, mat_of, csum.
  idx i; cbn [nth].
  - eapply cder_eq; [exact H2|]. field. exact N.
  - eapply cder_eq; [exact H1|]. ring.
  - eapply cder_eq; [exact H5|]. field. exact N.
  - eapply cder_eq; [exact H4|]. field. exact N.
Qed.

Lemma maxwell_ode k kx (eps : mat) F : (k <> 0)%R -> eps 2%nat 2%nat <> 0 -> maxwell k kx eps F ->
  (forall z i, (i < 4)%nat -> cder (fun x => tangential F x i) z (mvec 4 (mscal (Ci * RtoC k) (delta_of kx eps)) (tangential F z) i)) /\
  (forall z, Ez F z = (- kx * Hy F z - eps 2%nat 0%nat * Ex F z - eps 2%nat 1%nat * Ey F z) / eps 2%nat 2%nat /\ Hz F z = kx * Ey F z).
Proof. intros K N M. split; [intros z|intros z]; apply (maxwell_ode_at k kx eps F z K N (M z)). Qed.

Definition field_of (kx : C) (eps : R -> mat) (y : R -> nat -> C) : field :=
  Field (fun z => y z 0%nat) (fun z => y z 1%nat)
    (fun z => (- kx * y z 3%nat - eps z 2%nat 0%nat * y z 0%nat - eps z 2%nat 1%nat * y z 1%nat) / eps z 2%nat 2%nat)
    (fun z => y z 2%nat) (fun z => y z 3%nat) (fun z => kx * y z 1%nat).
Lemma field_of_tangential kx eps y z : veq 4 (tangential (field_of kx eps y) z) (y z).
Proof. intros i Hi. unfold tangential, vec_of. cbn [Ex Ey Hx Hy field_of]. idx i; reflexivity. Qed.
Lemma ode_maxwell_at k kx (eps : R -> mat) (y : R -> nat -> C) z : eps z 2%nat 2%nat <> 0 ->
  (forall i, (i < 4)%nat -> cder (fun x => y x i) z (mvec 4 (mscal (Ci * RtoC k) (delta_of kx (eps z))) (y z) i)) ->
  maxwell_at k kx (eps z) (field_of kx eps y) z.
Proof.
  intros N D.
  assert (D0 := D 0%nat ltac:(lia)). assert (D1 := D 1%nat ltac:(lia)). assert (D2 := D 2%nat ltac:(lia)). assert (D3 := D 3%nat ltac:(lia)). clear D.
  unfold maxwell_at, displacement. unfold field_of. cbn [Ex Ey Ez Hx Hy Hz].
  assert (DD : delta_of kx (eps z) = mat_of
  [[- kx * (eps z) 2%nat 0%nat / (eps z) 2%nat 2%nat; - kx * (eps z) 2%nat 1%nat / (eps z) 2%nat 2%nat; RtoC 0; 1 - kx * kx / (eps z) 2%nat 2%nat];
   [RtoC 0; RtoC 0; - (1); RtoC 0];
   [(eps z) 1%nat 2%nat * (eps z) 2%nat 0%nat / (eps z) 2%nat 2%nat - (eps z) 1%nat 0%nat; kx * kx - (eps z) 1%nat 1%nat + (eps z) 1%nat 2%nat * (eps z) 2%nat 1%nat / (eps z) 2%nat 2%nat; RtoC 0; kx * (eps z) 1%nat 2%nat / (eps z) 2%nat 2%nat];
   [(eps z) 0%nat 0%nat - (eps z) 0%nat 2%nat * (eps z) 2%nat 0%nat / (eps z) 2%nat 2%nat; (eps z) 0%nat 1%nat - (eps z) 0%nat 2%nat * (eps z) 2%nat 1%nat / (eps z) 2%nat 2%nat; RtoC 0; - kx * (eps z) 0%nat 2%nat / (eps z) 2%nat 2%nat]]).
  { unfold delta_of, build_delta_matrix. destruct (Ceq_dec ((eps z) 2%nat 2%nat) 0); [contradiction|reflexivity]. }
  rewrite DD in D0, D1, D2, D3. unfold mvec, mscal, mat_of, csum in D0, D1, D2, D3. cbn [nth] in D0, D1, D2, D3.
  revert D0 D1 D2 D3. generalize (y z 0%nat) (y z 1%nat) (y z 2%nat) (y z 3%nat). intros y0 y1 y2 y3 D0 D1 D2 D3.
  split; [eapply cder_eq; [exact D1|]; ring|].
  split; [eapply cder_eq; [exact D0|]; field; exact N|].
  split; [ring|].
  split; [eapply cder_eq; [exact D3|]; field; exact N|].
  split; [eapply cder_eq; [exact D2|]; field; exact N|].
  field. exact N.
Qed.
Lemma ode_maxwell k kx (eps : mat) (v : nat -> C) : eps 2%nat 2%nat <> 0 ->
  exists F, maxwell k kx eps F /\ forall z, veq 4 (tangential F z) (mvec 4 (mexpt 4 (mscal (Ci * RtoC k) (delta_of kx eps)) z) v).
Proof.
  intros N. set (A := mscal (Ci * RtoC k) (delta_of kx eps)). set (y := fun z i => mvec 4 (mexpt 4 A z) v i).
  exists (field_of kx (fun _ => eps) y). split; [|intros z; apply field_of_tangential].
  intros z. apply (ode_maxwell_at k kx (fun _ => eps) y z N). intros i Hi. apply (ode_vec_sol 4 A v z i Hi).
Qed.

(** One layer, and all of them *)
Lemma k_neq0 lb : (lb <> 0)%R -> (2 * PI / lb <> 0)%R.
Proof. intros L. assert (P := PI_RGT_0). unfold Rdiv. apply Rmult_integral_contrapositive. split; [lra|now apply Rinv_neq_0_compat]. Qed.
Lemma layer_mat_t kx lb d (eps : mat) : meq 4 (layer_mat kx lb (d, eps)) (mexpt 4 (mscal (Ci * RtoC (2 * PI / lb)) (delta_of kx eps)) (- d)).
Proof. unfold layer_mat. cbn [fst snd]. apply mexp_phase. Qed.

Lemma in_stack_iff kx lb ls : (lb <> 0)%R -> eps_ok ls ->
  forall u v, in_stack (2 * PI / lb) kx ls u v <-> veq 4 u (mvec 4 (tmat kx lb ls) v).
Proof.
  intros L O. assert (K := k_neq0 lb L). induction O as [|[d eps] ls N _ IH]; intros u v; cbn [in_stack tmat].
  - split; intros H; eapply veq_trans; [exact H|apply veq_sym, mvec_mid|exact H|apply mvec_mid].
  - cbn [snd] in N. set (A := mscal (Ci * RtoC (2 * PI / lb)) (delta_of kx eps)). split.
    + intros (F & M & U & S). apply IH in S. destruct (maxwell_ode _ _ _ _ K N M) as [D _].
      assert (Y := ode_vec 4 A (tangential F) ltac:(lia) D d).
      eapply veq_trans; [apply veq_sym, U|]. eapply veq_trans; [|apply veq_sym, mvec_mul].
      eapply veq_trans; [|apply mvec_meq; [symmetry; apply layer_mat_t|apply veq_refl]].
      fold A. apply (mvec_inv 4 _ _ _ _ (mexpt_inv 4 A d)). eapply veq_trans; [apply veq_sym, Y|exact S].
    + intros U. destruct (ode_maxwell (2 * PI / lb) kx eps (mvec 4 (mexpt 4 A (- d)) (mvec 4 (tmat kx lb ls) v)) N) as (F & M & T).
      exists F. split; [exact M|]. split.
      * eapply veq_trans; [apply T|]. fold A. eapply veq_trans; [apply mvec_meq; [apply mexpt_0|apply veq_refl]|].
        eapply veq_trans; [apply mvec_mid|]. apply veq_sym. eapply veq_trans; [exact U|]. eapply veq_trans; [apply mvec_mul|].
        apply mvec_meq; [apply layer_mat_t|apply veq_refl].
      * apply IH. eapply veq_trans; [apply T|]. fold A. apply (mvec_inv 4 _ _ _ _ (mexpt_inv 4 A d)). apply veq_refl.
Qed.

(** Half spaces *)
Lemma half_space_tangential k kx (n c ap as_ bp bs : C) :
  veq 4 (tangential (half_space k kx n c ap as_ bp bs) 0) (mvec 4 (isoL n c) (waves ap as_ bp bs)).
Proof.
  intros i Hi. unfold tangential, half_space, mvec, isoL, waves, vec_of, mat_of, csum. cbn [Ex Ey Hx Hy].
  assert (E : forall w, Cexp (RtoC 0 * w) = 1) by (intros w; rewrite <- Cexp_0; f_equal; ring). rewrite !E.
  idx i; cbn [nth]; ring.
Qed.
Lemma half_space_maxwell k kx (n c ap as_ bp bs : C) : n <> 0 -> n * n * (c * c) = n * n - kx * kx ->
  maxwell k kx (mscal (n * n) mid) (half_space k kx n c ap as_ bp bs).
Proof.
  intros N E z. unfold maxwell_at, displacement, half_space, mscal, mid. cbn [Ex Ey Ez Hx Hy Hz Nat.eqb].
  set (a := Ci * RtoC k * (n * c)). assert (Df := cder_Cexp a z). assert (Db := cder_Cexp (- a) z). cbv beta in Df, Db.
  set (f := Cexp (RtoC z * a)) in *. set (b := Cexp (RtoC z * - a)) in *.
  assert (K : kx * kx = n * n - n * n * (c * c)) by (rewrite E; ring).
  split.
  { eapply cder_eq; [apply cder_plus; apply cder_scal; [exact Df|exact Db]|]. unfold a. ring. }
  split.
  { eapply cder_eq; [apply cder_scal, cder_minus; apply cder_scal; [exact Df|exact Db]|]. cbv beta. unfold a.
    transitivity (Ci * RtoC k * (n * c * c) * (ap * f + bp * b)); [ring|].
    transitivity (Ci * RtoC k * (n - kx * kx / n) * (ap * f + bp * b)); [|field; exact N]. rewrite K. field. exact N. }
  split; [ring|]. split.
  { eapply cder_eq; [apply cder_scal, cder_plus; apply cder_scal; [exact Df|exact Db]|]. cbv beta. unfold a. ring. }
  split.
  { eapply cder_eq; [apply cder_scal, cder_minus; apply cder_scal; [exact Df|exact Db]|]. cbv beta. unfold a.
    transitivity (Ci * RtoC k * (as_ * f + bs * b) * (- (n * n * (c * c)))); [ring|].
    transitivity (Ci * RtoC k * (as_ * f + bs * b) * (kx * kx - n * n)); [|ring]. rewrite K. ring. }
  field. exact N.
Qed.

Lemma iso_cos_sqr kx (eps : mat) : iso_n eps <> 0 ->
  iso_n eps * iso_n eps * (iso_cos kx eps * iso_cos kx eps) = iso_n eps * iso_n eps - kx * kx.
Proof. intros N. unfold iso_cos. rewrite Csqrt_sqr. field. exact N. Qed.
