(** C68: the 4x4 solver solves Maxwell's equations. *)
From Coq Require Import Reals Lra Psatz Lia ZArith.
From Coquelicot Require Import Complex.
From Coq Require Import List.
From Verif.Base Require Import Py Cx Mat Mexp Det.
From Verif.Model Require Import Units Ellips Structure Solver4.
From Verif.Spec Require Import Maxwell Tensor.
From Verif.Proof Require Import UnitsP DispersionsP Solver4P Solver4P2 Solver4P3 Solver4P5 Solver4P6.
From Verif.Props Require Import Solver4T Energy4T.
Import ListNotations.
Open Scope R_scope.
Open Scope C_scope.
Open Scope py_scope.

Lemma maxwell_meq k kx eps eps' F : meq 3 eps eps' -> maxwell k kx eps F -> maxwell k kx eps' F.
Proof. intros E M z. specialize (M z). unfold maxwell_at, displacement in *. rewrite !E in M by lia. exact M. Qed.

Lemma half_ok k kx (eps : mat) (e : C) : isotropic eps e -> e <> 0 -> forall ap as_ bp bs,
  maxwell k kx eps (half_space k kx (iso_n eps) (iso_cos kx eps) ap as_ bp bs).
Proof.
  intros I N ap as_ bp bs. assert (Nn : iso_n eps <> 0) by (rewrite (iso_n_eq eps e I); now apply Csqrt_neq0).
  apply (maxwell_meq k kx (mscal (iso_n eps * iso_n eps) mid)).
  - rewrite (iso_n_eq eps e I), Csqrt_sqr. symmetry. exact I.
  - apply half_space_maxwell; [exact Nn|now apply iso_cos_sqr].
Qed.

(** C68: for every stack of anisotropic layers between isotropic half spaces, the reflected and
    transmitted amplitudes given by the two Jones matrices are the only ones that belong to a
    solution of Maxwell's equations with the given incident wave. *)
Theorem C68_maxwell : forall prop theta_i lbda eps_f ls eps_b (e_f e_b : C) res,
  (lbda <> 0)%R -> isotropic eps_f e_f -> isotropic eps_b e_b ->
  exact_propagator prop (reduced_k_x theta_i eps_f) ls ->
  solver4 prop theta_i lbda eps_f ls eps_b = Some res ->
  let k := (2 * PI / lbda)%R in
  let kx := Csqrt e_f * RtoC (sin (theta_i * PI / 180)) in
  exists n_f c_f n_b c_b,
    n_f * n_f = e_f /\ principal n_f /\ principal c_f /\
    n_b * n_b = e_b /\ principal n_b /\ principal c_b /\
    (forall ap as_ bp bs, maxwell k kx eps_f (half_space k kx n_f c_f ap as_ bp bs)) /\
    (forall ap as_ bp bs, maxwell k kx eps_b (half_space k kx n_b c_b ap as_ bp bs)) /\
    forall ap as_ bp bs tp ts,
      in_stack k kx ls (tangential (half_space k kx n_f c_f ap as_ bp bs) 0)
                       (tangential (half_space k kx n_b c_b tp ts 0 0) 0) <->
      (bp = jones_r4 res 0%nat 0%nat * ap + jones_r4 res 0%nat 1%nat * as_ /\
       bs = jones_r4 res 1%nat 0%nat * ap + jones_r4 res 1%nat 1%nat * as_ /\
       tp = jones_t4 res 0%nat 0%nat * ap + jones_t4 res 0%nat 1%nat * as_ /\
       ts = jones_t4 res 1%nat 0%nat * ap + jones_t4 res 1%nat 1%nat * as_).
Proof.
  intros prop th lb ef ls eb e e' res L If Ib P H k kx.
  assert (KX : reduced_k_x th ef = kx) by (rewrite (kx_eq th ef e If); reflexivity).
  assert (O : eps_ok ls) by (destruct (eps_dec ls); [assumption|rewrite solver4_eps in H by assumption; discriminate]).
  assert (G := exact_good prop _ lb ls P O).
  destruct (solver4_fields prop th lb ef eb ls res (proj1 G) H) as (_ & _ & Nf & Cf & Nb & _ & F). rewrite KX in *.
  assert (Ne : e <> 0) by (intros Z; apply Nf; rewrite (iso_n_eq ef e If), Z; apply Csqrt_0).
  assert (Ne' : e' <> 0) by (intros Z; apply Nb; rewrite (iso_n_eq eb e' Ib), Z; apply Csqrt_0).
  exists (iso_n ef), (iso_cos kx ef), (iso_n eb), (iso_cos kx eb).
  split; [rewrite (iso_n_eq ef e If); apply Csqrt_sqr|]. split; [apply Csqrt_principal|]. split; [apply Csqrt_principal|].
  split; [rewrite (iso_n_eq eb e' Ib); apply Csqrt_sqr|]. split; [apply Csqrt_principal|]. split; [apply Csqrt_principal|].
  split; [now apply (half_ok k kx ef e)|]. split; [now apply (half_ok k kx eb e')|].
  intros ap as_ bp bs tp ts. unfold k. rewrite (in_stack_iff kx lb ls L O). fold k.
  transitivity (veq 4 (mvec 4 (isoL (iso_n ef) (iso_cos kx ef)) (waves ap as_ bp bs))
    (mvec 4 (tmat kx lb ls) (mvec 4 (isoL (iso_n eb) (iso_cos kx eb)) (waves tp ts 0 0)))).
  { assert (A := half_space_tangential k kx (iso_n ef) (iso_cos kx ef) ap as_ bp bs).
    assert (B := half_space_tangential k kx (iso_n eb) (iso_cos kx eb) tp ts 0 0).
    assert (B' := mvec_meq 4 (tmat kx lb ls) _ _ _ ltac:(reflexivity) B).
    split; intros Q.
    - eapply veq_trans; [apply veq_sym, A|]. eapply veq_trans; [exact Q|exact B'].
    - eapply veq_trans; [exact A|]. eapply veq_trans; [exact Q|apply veq_sym, B']. }
  rewrite F. unfold jones_rel. tauto.
Qed.
Print Assumptions C68_maxwell.

(** A birefringent absorbing layer on a metal, see C69_example *)
Example C68_example : exists eps_f ls eps_b (e_f e_b : C) res, isotropic eps_f e_f /\ isotropic eps_b e_b /\ e_f <> e_b /\
  length ls = 1%nat /\ exact_propagator propagator_expm (reduced_k_x 45 eps_f) ls /\
  solver4 propagator_expm 45 500 eps_f ls eps_b = Some res.
Proof.
  destruct C69_example as [res H]. do 3 eexists. exists (RtoC 1), (-2, 3)%R, res.
  split; [|split; [|split; [|split; [|split; [|exact H]]]]].
  - unfold isotropic, vacuum. reflexivity.
  - unfold isotropic. reflexivity.
  - intros K. apply (f_equal snd) in K. simpl in K. lra.
  - reflexivity.
  - now left.
Qed.
