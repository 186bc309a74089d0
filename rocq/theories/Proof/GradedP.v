From Coq Require Import Reals Lra Psatz Lia.
From Coquelicot Require Import Coquelicot.
From Coq Require Import List.
From Verif.Base Require Import Py Cx Mat Mexp Det Ode Approx.
From Verif.Model Require Import Units Ellips Structure Solver4.
From Verif.Spec Require Import Maxwell Tensor Graded.
From Verif.Proof Require Import UnitsP DispersionsP StructureP PoyntingP Solver4P Solver4P2 Solver4P3 Solver4P5 Solver4P6.
Import ListNotations.
Open Scope R_scope.
Open Scope C_scope.
Open Scope py_scope.

Ltac lip := repeat lazymatch goal with
  | |- lipb ?D (fun z => @?f z + @?g z) => apply (lipb_plus D f g)
  | |- lipb ?D (fun z => @?f z - @?g z) => apply (lipb_minus D f g)
  | |- lipb ?D (fun z => @?f z * @?g z) => apply (lipb_mult D f g)
  | |- lipb ?D (fun z => - @?f z) => apply (lipb_opp D f)
  | |- lipb ?D (fun z => ?c) => apply (lipb_const D c)
  end.

(** The coefficients of the differential equation in a slab *)
Definition amat (k : R) (kx : C) (s : slab) (z : R) : mat := mscal (Ci * RtoC k) (delta_of kx (permittivity s z)).
Lemma smooth_zz s z : smooth s -> (0 <= z <= depth s)%R -> permittivity s z 2%nat 2%nat <> 0.
Proof. intros (_ & m & L & M & H & _) Hz. apply Cmod_gt_0. specialize (H z Hz). lra. Qed.
Lemma smooth_lipb s i j : smooth s -> (i < 3)%nat -> (j < 3)%nat -> lipb (depth s) (fun z => permittivity s z i j).
Proof.
  intros (D & m & L & _ & _ & H) Hi Hj. assert (HL : forall z z', (0 <= z <= depth s)%R -> (0 <= z' <= depth s)%R -> (Cmod (permittivity s z i j - permittivity s z' i j)%C <= Rabs L * Rabs (z - z'))%R).
  { intros z z' Hz Hz'. eapply Rle_trans; [now apply H|]. apply Rmult_le_compat_r; [apply Rabs_pos|apply Rle_abs]. }
  assert (L0 := Rabs_pos L). assert (C0 := Cmod_ge_0 (permittivity s 0 i j)). exists (Cmod (permittivity s 0 i j) + Rabs L * depth s)%R, (Rabs L). split; [nra|]. split; [exact L0|]. split; [|exact HL].
  intros z Hz. replace (permittivity s z i j) with (permittivity s 0 i j + (permittivity s z i j - permittivity s 0 i j)) by ring. eapply Rle_trans; [apply Cmod_triangle|].
  apply Rplus_le_compat_l. eapply Rle_trans; [apply HL; lra|]. apply Rmult_le_compat_l; [exact L0|]. rewrite Rminus_0_r, Rabs_pos_eq; lra.
Qed.
Lemma amat_lipb k kx s : smooth s -> mlipb 4 (depth s) (amat k kx s).
Proof.
  intros S. assert (E : forall i j, (i < 3)%nat -> (j < 3)%nat -> lipb (depth s) (fun z => permittivity s z i j)) by (intros; now apply smooth_lipb).
  assert (I : lipb (depth s) (fun z => / permittivity s z 2%nat 2%nat)) by (destruct S as (_ & m & L & M & H & _); apply (lipb_inv _ _ m M H), E; lia).
  intros i j Hi Hj. set (eps := permittivity s) in *.
  apply (lipb_ext _ (fun z => Ci * RtoC k * nth j (nth i
    [[- kx * eps z 2%nat 0%nat / eps z 2%nat 2%nat; - kx * eps z 2%nat 1%nat / eps z 2%nat 2%nat; RtoC 0; 1 - kx * kx / eps z 2%nat 2%nat];
     [RtoC 0; RtoC 0; - (1); RtoC 0];
     [eps z 1%nat 2%nat * eps z 2%nat 0%nat / eps z 2%nat 2%nat - eps z 1%nat 0%nat; kx * kx - eps z 1%nat 1%nat + eps z 1%nat 2%nat * eps z 2%nat 1%nat / eps z 2%nat 2%nat; RtoC 0; kx * eps z 1%nat 2%nat / eps z 2%nat 2%nat];
     [eps z 0%nat 0%nat - eps z 0%nat 2%nat * eps z 2%nat 0%nat / eps z 2%nat 2%nat; eps z 0%nat 1%nat - eps z 0%nat 2%nat * eps z 2%nat 1%nat / eps z 2%nat 2%nat; RtoC 0; - kx * eps z 0%nat 2%nat / eps z 2%nat 2%nat]] []) 0)).
  - intros z Hz. unfold amat, mscal, delta_of, build_delta_matrix. fold eps. destruct (Ceq_dec (eps z 2%nat 2%nat) 0) as [Z|_]; [now apply (smooth_zz s z S Hz) in Z|]. reflexivity.
  - unfold Cdiv. idx i; idx j; cbn [nth]; lip; try exact I; apply E; lia.
Qed.
Lemma smooth_depth s : smooth s -> (0 <= depth s)%R.
Proof. now intros [H _]. Qed.

(** The transfer matrix of a slab *)
Definition smat (k : R) (kx : C) (s : slab) : mat := tm 4 (amat k kx s) (depth s).
Definition gmat (k : R) (kx : C) (ss : list slab) : mat := mprod 4 (map (smat k kx) ss).
Lemma slab_solves k kx s F : (k <> 0)%R -> smooth s -> (forall z, (0 <= z <= depth s)%R -> maxwell_at k kx (permittivity s z) F z) -> solves 4 (amat k kx s) (depth s) (tangential F).
Proof. intros K S M z i Hz Hi. apply (proj1 (maxwell_ode_at k kx (permittivity s z) F z K (smooth_zz s z S Hz) (M z Hz)) i Hi). Qed.
Lemma slab_to k kx s F : (k <> 0)%R -> smooth s -> (forall z, (0 <= z <= depth s)%R -> maxwell_at k kx (permittivity s z) F z) ->
  veq 4 (tangential F 0) (mvec 4 (smat k kx s) (tangential F (depth s))).
Proof.
  intros K S M. destruct (mlipb_uniform 4 _ _ (amat_lipb k kx s S)) as (B & L & B0 & L0 & HB & HL).
  apply (tm_solves 4 (amat k kx s) (depth s) B L ltac:(lia) (smooth_depth s S) B0 L0 HB HL). now apply slab_solves.
Qed.
Lemma slab_from k kx s v : smooth s -> exists F, (forall z, (0 <= z <= depth s)%R -> maxwell_at k kx (permittivity s z) F z) /\
  veq 4 (tangential F 0) (mvec 4 (smat k kx s) v) /\ veq 4 (tangential F (depth s)) v.
Proof.
  intros S. destruct (mlipb_uniform 4 _ _ (amat_lipb k kx s S)) as (B & L & B0 & L0 & HB & HL).
  destruct (solves_from 4 (amat k kx s) (depth s) B L ltac:(lia) (smooth_depth s S) B0 L0 HB HL v) as (y & Y & E).
  exists (field_of kx (permittivity s) y). split; [|split].
  - intros z Hz. apply (ode_maxwell_at k kx (permittivity s) y z (smooth_zz s z S Hz)). intros i Hi. now apply Y.
  - eapply veq_trans; [apply field_of_tangential|]. eapply veq_trans; [apply (tm_solves 4 (amat k kx s) (depth s) B L ltac:(lia) (smooth_depth s S) B0 L0 HB HL y Y)|]. apply mvec_meq; [reflexivity|exact E].
  - eapply veq_trans; [apply field_of_tangential|exact E].
Qed.
Lemma in_slabs_iff k kx ss : (k <> 0)%R -> Forall smooth ss -> forall u v, in_slabs k kx ss u v <-> veq 4 u (mvec 4 (gmat k kx ss) v).
Proof.
  intros K S. induction S as [|s ss S _ IH]; intros u v; cbn [in_slabs gmat map mprod].
  - split; intros H; eapply veq_trans; [exact H|apply veq_sym, mvec_mid|exact H|apply mvec_mid].
  - fold (gmat k kx ss). split.
    + intros (F & M & U & I). apply IH in I. eapply veq_trans; [apply veq_sym, U|]. eapply veq_trans; [apply (slab_to k kx s F K S M)|].
      eapply veq_trans; [apply mvec_meq; [reflexivity|exact I]|]. apply veq_sym, mvec_mul.
    + intros U. destruct (slab_from k kx s (mvec 4 (gmat k kx ss) v) S) as (F & M & F0 & FD). exists F. split; [exact M|]. split.
      * eapply veq_trans; [exact F0|]. apply veq_sym. eapply veq_trans; [exact U|]. apply mvec_mul.
      * now apply IH.
Qed.
(** A uniform slab *)
Lemma mvec_unit n (A : mat) i j : (i < n)%nat -> (j < n)%nat -> mvec n A (unit_vec j) i = A i j.
Proof.
  intros Hi Hj. unfold mvec. rewrite (csum_single n _ j Hj); [unfold unit_vec; rewrite Nat.eqb_refl; ring|]. intros q Hq Ne. unfold unit_vec. destruct (Nat.eqb_spec q j); [congruence|ring].
Qed.
Lemma smat_uniform lb kx d eps : smooth (Uniform d eps) -> meq 4 (smat (2 * PI / lb) kx (Uniform d eps)) (layer_mat kx lb (d, eps)).
Proof.
  intros S. set (s := Uniform d eps) in *. set (A := mscal (Ci * RtoC (2 * PI / lb)) (delta_of kx eps)).
  destruct (mlipb_uniform 4 _ _ (amat_lipb (2 * PI / lb) kx s S)) as (B & L & B0 & L0 & HB & HL).
  intros i j Hi Hj. rewrite layer_mat_t by assumption. fold A.
  set (v := mvec 4 (mexpt 4 A (- d)) (unit_vec j)).
  assert (T := tm_solves 4 (amat (2 * PI / lb) kx s) (depth s) B L ltac:(lia) (smooth_depth s S) B0 L0 HB HL (fun z => mvec 4 (mexpt 4 A z) v) (fun z k _ Hk => ode_vec_sol 4 A v z k Hk) i Hi).
  cbv beta in T. assert (E1 : veq 4 (mvec 4 (mexpt 4 A 0) v) v) by (eapply veq_trans; [apply mvec_meq; [apply mexpt_0|apply veq_refl]|apply mvec_mid]).
  assert (E2 : veq 4 (mvec 4 (mexpt 4 A (depth s)) v) (unit_vec j)) by (apply (mvec_inv 4 _ _ _ _ (mexpt_inv 4 A d)); apply veq_refl).
  fold (smat (2 * PI / lb) kx s) in T. rewrite E1 in T by exact Hi. rewrite (mvec_meq 4 _ (smat (2 * PI / lb) kx s) _ (unit_vec j) ltac:(reflexivity) E2 i Hi) in T.
  rewrite mvec_unit in T by assumption. rewrite <- T. unfold v. now rewrite mvec_unit.
Qed.

(** ** The sliced layers *)
Inductive sliced (n : nat) : slab -> layer mat -> Prop :=
| sliced_uniform d eps : sliced n (Uniform d eps) (Homogeneous d eps)
| sliced_graded d eps div : (n <= div)%nat -> sliced n (Graded d eps) (Inhomogeneous d div eps).

Section Slices.
Variables (k : R) (kx : C) (pmat : R * mat -> mat).
Definition step_matrix (d : R) (eps : mat) : mat := madd mid (mscal (RtoC (- d)) (mscal (Ci * RtoC k) (delta_of kx eps))).
Hypothesis STEP : forall K D, (0 < K)%R -> (0 <= D)%R -> exists R0, (0 <= R0)%R /\ forall d eps, (0 <= d <= D)%R ->
  bounded_by 4 (mscal (Ci * RtoC k) (delta_of kx eps)) K -> bounded_by 4 (msub (pmat (d, eps)) (step_matrix d eps)) (R0 * (d * d)).
Definition exact_uniform (s : slab) : Prop := match s with Uniform d eps => meq 4 (pmat (d, eps)) (smat k kx s) | Graded _ _ => True end.
Lemma slab_slices s : smooth s -> exact_uniform s -> exists E, (0 <= E)%R /\ forall n l, (0 < n)%nat -> sliced n s l ->
  bounded_by 4 (msub (mprod 4 (map pmat (profile l))) (smat k kx s)) (E / INR n).
Proof.
  intros S U. destruct s as [d eps|d eps].
  - exists 0%R. split; [lra|]. intros n l Hn H. inversion H; subst. cbn [profile map mprod]. intros i j Hi Hj. unfold msub. rewrite (mmul_1_r 4 _ i j Hi Hj), (U i j Hi Hj).
    replace (smat k kx (Uniform d eps) i j - smat k kx (Uniform d eps) i j) with (RtoC 0) by ring. rewrite Cmod_0. unfold Rdiv. lra.
  - destruct (mlipb_uniform 4 _ _ (amat_lipb k kx _ S)) as (B & L & B0 & L0 & HB & HL). assert (D := smooth_depth _ S). cbn [depth] in *.
    destruct (STEP B d B0 D) as (R0 & R00 & HR). destruct (tm_converges 4 (amat k kx (Graded d eps)) d B L ltac:(lia) D B0 L0 HB HL R0 R00) as (E & E0 & HE).
    exists E. split; [exact E0|]. intros n l Hn H. inversion H; subst. match goal with X : (n <= ?q)%nat |- _ => rename q into N; rename X into HN end.
    assert (NP : (0 < N)%nat) by lia. rewrite inhom_profile by exact NP. rewrite map_map.
    assert (I1 : (1 <= INR n)%R) by (apply (le_INR 1); lia). assert (I2 : (INR n <= INR N)%R) by now apply le_INR.
    assert (h0 : (0 <= d / INR N <= d)%R) by (apply over_n_1; lra).
    assert (X := HE N (fun q => pmat (d / INR N, eps ((INR q + 1 / 2) * (d / INR N))))%R (fun q => (INR q + 1 / 2) * (d / INR N))%R NP). cbv zeta in X.
    assert (MIDS : forall q, (q < N)%nat -> (INR q * (d / INR N) <= (INR q + 1 / 2) * (d / INR N) <= (INR q + 1) * (d / INR N))%R) by (intros q Hq; split; apply Rmult_le_compat_r; lra).
    specialize (X MIDS). intros i j Hi Hj. eapply Rle_trans; [apply X; [|exact Hi|exact Hj]|].
    + intros q Hq. apply (HR (d / INR N)%R); [exact h0|]. apply (HB ((INR q + 1 / 2) * (d / INR N))%R). assert (Q0 := pos_INR q).
      split; [apply Rmult_le_pos; lra|]. eapply Rle_trans; [apply (MIDS q Hq)|]. replace d with (INR N * (d / INR N))%R at 2 by (field; lra). apply Rmult_le_compat_r; [lra|]. rewrite <- S_INR. apply le_INR. lia.
    + unfold Rdiv. apply Rmult_le_compat_l; [exact E0|]. apply Rinv_le_contravar; lra.
Qed.
Lemma mprod_app n a b : meq n (mprod n (a ++ b)) (mmul n (mprod n a) (mprod n b)).
Proof. induction a as [|P a IH]; cbn [app mprod]; [symmetry; apply mmul_1_l|]. rewrite IH. apply mmul_assoc. Qed.
Definition of_order (ss : list slab) (n : nat) (ls : list (layer mat)) : Prop := Forall2 (sliced n) ss ls.
Definition pprod (ls : list (layer mat)) : mat := mprod 4 (map pmat (profiles ls)).
Lemma stack_slices ss : Forall smooth ss -> Forall exact_uniform ss -> mappr _ (of_order ss) 4 pprod (gmat k kx ss).
Proof.
  intros S U. induction ss as [|s ss IH].
  - apply (mappr_meq _ (of_order []) 4 (fun _ => mid)); [|apply mappr_const]. intros n a H. inversion H; subst. reflexivity.
  - inversion S; subst. inversion U; subst. specialize (IH ltac:(assumption) ltac:(assumption)).
    apply (mappr_meq _ (of_order (s :: ss)) 4 (fun ls => mmul 4 (mprod 4 (map pmat (profile (hd (Homogeneous 0 mzero) ls)))) (pprod (tl ls)))).
    + intros n a H. inversion H; subst. cbn [hd tl]. unfold pprod. cbn [profiles]. rewrite map_app. symmetry. apply mprod_app.
    + unfold gmat. cbn [map mprod]. fold (gmat k kx ss). apply mappr_mul.
      * destruct (slab_slices s ltac:(assumption) ltac:(assumption)) as (E & E0 & HE). apply mappr_bound. exists E. split; [exact E0|]. intros n a Hn H. inversion H; subst. cbn [hd]. now apply HE.
      * intros i j Hi Hj. destruct (IH i j Hi Hj) as (E & N & E0 & N0 & HE). exists E, N. split; [exact E0|]. split; [exact N0|]. intros n a Hn H. inversion H; subst. cbn [tl]. now apply (HE n).
Qed.
End Slices.

(** ** The propagators *)
Definition lin_mat (k : R) (kx : C) (l : R * mat) : mat := step_matrix k kx (fst l) (snd l).
Lemma lin_step k kx K D : (0 < K)%R -> (0 <= D)%R -> exists R0, (0 <= R0)%R /\ forall d eps, (0 <= d <= D)%R ->
  bounded_by 4 (mscal (Ci * RtoC k) (delta_of kx eps)) K -> bounded_by 4 (msub (lin_mat k kx (d, eps)) (step_matrix k kx d eps)) (R0 * (d * d)).
Proof.
  intros _ _. exists 0%R. split; [lra|]. intros d eps _ _ i j Hi Hj. unfold msub, lin_mat. cbn [fst snd]. match goal with |- (Cmod (?a - ?a)%C <= _)%R => replace (a - a) with (RtoC 0) by ring end. rewrite Cmod_0. lra.
Qed.
Lemma exp_step lb kx K D : (0 < K)%R -> (0 <= D)%R -> exists R0, (0 <= R0)%R /\ forall d eps, (0 <= d <= D)%R ->
  bounded_by 4 (mscal (Ci * RtoC (2 * PI / lb)) (delta_of kx eps)) K -> bounded_by 4 (msub (layer_mat kx lb (d, eps)) (step_matrix (2 * PI / lb) kx d eps)) (R0 * (d * d)).
Proof.
  intros K0 D0. exists (rem_const 4 K D). split.
  - unfold rem_const. assert (N4 := pos_INR 4). assert (0 <= exp_bound 4 K D)%R by apply sqrt_pos. repeat apply Rmult_le_pos; lra.
  - intros d eps Hd HB. set (A := mscal (Ci * RtoC (2 * PI / lb)) (delta_of kx eps)) in *.
    assert (HB' : bounded_by 4 (mscal (RtoC (-1)) A) K).
    { intros i j Hi Hj. unfold mscal at 1. rewrite Cmod_mult, Cmod_R. replace (Rabs (-1)) with 1%R by (rewrite Rabs_left; lra). rewrite Rmult_1_l. now apply HB. }
    assert (X := mexpt_rem 4 (mscal (RtoC (-1)) A) K D d ltac:(lia) ltac:(lra) HB' Hd). intros i j Hi Hj. specialize (X i j Hi Hj). unfold msub in *.
    rewrite (layer_mat_t kx lb d eps i j Hi Hj). fold A. rewrite (mexpt_scal 4 A (-1) d i j Hi Hj) in X. replace (-1 * d)%R with (- d)%R in X by ring.
    replace (step_matrix (2 * PI / lb) kx d eps i j) with (madd mid (mscal (RtoC d) (mscal (RtoC (-1)) A)) i j); [exact X|].
    unfold step_matrix, madd. fold A. f_equal. unfold mscal. rewrite RtoC_opp. apply C_ext; cbn; ring.
Qed.

(** ** The solver with any propagator *)
Definition gives (prop : mat -> R -> R -> option mat) (kx : C) (lb : R) (pmat : R * mat -> mat) (l : R * mat) : Prop :=
  snd l 2%nat 2%nat <> 0 /\ exists P, prop (delta_of kx (snd l)) (- fst l)%R lb = Some P /\ meq 4 P (pmat l).
Lemma lp_gives prop kx lb pmat ls m : Forall (gives prop kx lb pmat) ls -> exists X, layer_product prop kx lb ls m = Some X /\ meq 4 X (mmul 4 (mprod 4 (map pmat ls)) m).
Proof.
  induction 1 as [|l ls (Z & P & HP & EP) _ (X & HX & EX)]; cbn [layer_product fold_right map mprod].
  - exists m. split; [reflexivity|]. symmetry. apply mmul_1_l.
  - fold (layer_product prop kx lb ls m). rewrite HX. cbn [obind]. rewrite delta_some by exact Z. cbn [obind]. rewrite HP. cbn [obind]. eexists. split; [reflexivity|].
    rewrite EP, EX. apply mmul_assoc.
Qed.
Definition kgen (n_f c_f : C) (T m_exit : mat) : mat := mmul 4 (isoLi n_f c_f) (mmul 4 T m_exit).
Lemma solver4_gives prop th lb (eps_f eps_b : mat) ls pmat : let kx := reduced_k_x th eps_f in
  Forall (gives prop kx lb pmat) ls -> iso_n eps_f <> 0 -> iso_cos kx eps_f <> 0 -> iso_n eps_b <> 0 ->
  let K := kgen (iso_n eps_f) (iso_cos kx eps_f) (mprod 4 (map pmat ls)) (isoL (iso_n eps_b) (iso_cos kx eps_b)) in
  det 2 (t_it K) <> 0 -> exists res, solver4 prop th lb eps_f ls eps_b = Some res /\ meq 2 (jones_t4 res) (inv2 (t_it K)) /\ meq 2 (jones_r4 res) (mmul 2 (t_rt K) (inv2 (t_it K))).
Proof.
  intros kx G Nf Cf Nb K DK. destruct (lp_gives prop kx lb pmat ls (isoL (iso_n eps_b) (iso_cos kx eps_b)) G) as (X & HX & EX).
  set (K' := mmul 4 (isoLi (iso_n eps_f) (iso_cos kx eps_f)) X). assert (EK : meq 4 K' K) by (unfold K', K, kgen; rewrite EX; reflexivity).
  assert (I := inv2_inverse _ DK). assert (I' : is_inverse 2 (t_it K') (inv2 (t_it K))) by (destruct I as [I1 I2]; split; rewrite (t_it_meq _ _ EK); assumption).
  destruct (minv_some 2 _ _ good2 I') as (V & HV & EV).
  eexists. split.
  - unfold solver4. fold kx. rewrite iso_L_eq by exact Nb. cbn [obind]. unfold jones4. fold kx. rewrite HX. cbn [obind]. rewrite iso_Li_eq by assumption. cbn [obind]. fold K'. fold (t_it K'). fold (t_rt K').
    rewrite HV. cbn [obind]. reflexivity.
  - cbn [jones_t4 jones_r4]. split; [exact EV|]. rewrite (t_rt_meq _ _ EK), EV. reflexivity.
Qed.
Lemma kgen_fields (n_f c_f : C) T m_exit ap as_ bp bs tp ts : n_f <> 0 -> c_f <> 0 ->
  (veq 4 (mvec 4 (isoL n_f c_f) (waves ap as_ bp bs)) (mvec 4 T (mvec 4 m_exit (waves tp ts 0 0))) <-> veq 4 (mvec 4 (kgen n_f c_f T m_exit) (waves tp ts 0 0)) (waves ap as_ bp bs)).
Proof.
  intros N K. rewrite (mvec_inv 4 _ _ _ _ (iso_inverse _ _ N K)). unfold kgen.
  assert (Q : veq 4 (mvec 4 (mmul 4 (isoLi n_f c_f) (mmul 4 T m_exit)) (waves tp ts 0 0)) (mvec 4 (isoLi n_f c_f) (mvec 4 T (mvec 4 m_exit (waves tp ts 0 0))))).
  { eapply veq_trans; [apply mvec_mul|]. apply mvec_meq; [reflexivity|apply mvec_mul]. }
  split; intros H.
  - eapply veq_trans; [exact Q|]. apply veq_sym, H.
  - eapply veq_trans; [apply veq_sym, H|exact Q].
Qed.
(** ** The limit *)
Section Limit.
Variables (k : R) (kx n_f c_f n_b c_b : C) (ss : list slab).
Hypothesis K0 : (k <> 0)%R.
Hypothesis SM : Forall smooth ss.
Hypothesis Nf : n_f <> 0.
Hypothesis Cf : c_f <> 0.
Definition limit_k : mat := kgen n_f c_f (gmat k kx ss) (isoL n_b c_b).
Lemma slabs_fields ap as_ bp bs tp ts :
  in_slabs k kx ss (tangential (half_space k kx n_f c_f ap as_ bp bs) 0) (tangential (half_space k kx n_b c_b tp ts 0 0) 0) <->
  veq 4 (mvec 4 limit_k (waves tp ts 0 0)) (waves ap as_ bp bs).
Proof.
  rewrite (in_slabs_iff k kx ss K0 SM). unfold limit_k. rewrite <- (kgen_fields n_f c_f _ _ ap as_ bp bs tp ts Nf Cf).
  assert (A := half_space_tangential k kx n_f c_f ap as_ bp bs). assert (B := half_space_tangential k kx n_b c_b tp ts 0 0). assert (B' := mvec_meq 4 (gmat k kx ss) _ _ _ ltac:(reflexivity) B).
  split; intros Q.
  - eapply veq_trans; [apply veq_sym, A|]. eapply veq_trans; [exact Q|exact B'].
  - eapply veq_trans; [exact A|]. eapply veq_trans; [exact Q|apply veq_sym, B'].
Qed.
Lemma resonance_det : no_resonance k kx n_f c_f n_b c_b ss -> det 2 (t_it limit_k) <> 0.
Proof.
  intros NR. destruct (ker2 (t_it limit_k)) as [V I]; [|exact (inverse_det 2 _ V good2 I)]. intros tp ts H. set (K := limit_k) in *.
  set (bp := mvec 2 (t_rt K) (vec2 tp ts) 0%nat). set (bs := mvec 2 (t_rt K) (vec2 tp ts) 1%nat).
  apply (NR bp bs tp ts). apply slabs_fields. fold K.
  assert (H0 := H 0%nat ltac:(lia)). assert (H1 := H 1%nat ltac:(lia)). unfold mvec, vec2, vec_of, t_it, mat_of, csum in H0, H1. cbn [nth] in H0, H1.
  unfold bp, bs. intros i Hi. unfold mvec, waves, vec2, vec_of, t_rt, mat_of, csum. idx i; cbn [nth].
  - transitivity (K 0%nat 2%nat * tp + K 0%nat 0%nat * ts); [ring|]. rewrite <- H1. ring.
  - ring.
  - transitivity (K 2%nat 2%nat * tp + K 2%nat 0%nat * ts); [ring|]. rewrite <- H0. ring.
  - ring.
Qed.
Lemma limit_scattering : det 2 (t_it limit_k) <> 0 -> scattering k kx n_f c_f n_b c_b ss (mmul 2 (t_rt limit_k) (inv2 (t_it limit_k))) (inv2 (t_it limit_k)).
Proof.
  intros D ap as_ bp bs tp ts. rewrite slabs_fields, (kmat_fields limit_k _ ap as_ bp bs tp ts (inv2_inverse _ D)).
  set (Jt := inv2 (t_it limit_k)). set (Jr := mmul 2 (t_rt limit_k) Jt). clearbody Jt Jr. split.
  - intros [Q1 Q2]. assert (A0 := Q1 0%nat ltac:(lia)). assert (A1 := Q1 1%nat ltac:(lia)). assert (B0 := Q2 0%nat ltac:(lia)). assert (B1 := Q2 1%nat ltac:(lia)).
    unfold mvec, vec2, vec_of, csum in A0, A1, B0, B1. cbn [nth] in *. rewrite A0, A1, B0, B1. repeat split; ring.
  - intros (B0 & B1 & A0 & A1). split; intros i Hi; unfold mvec, vec2, vec_of, csum; idx i; cbn [nth]; [rewrite A0|rewrite A1|rewrite B0|rewrite B1]; ring.
Qed.
End Limit.
