(** C31 (response), C38, C39, C40, C68: the 4x4 solver. *)
From Coq Require Import Reals Lra Psatz Lia ZArith.
From Coquelicot Require Import Complex.
From Coq Require Import List.
From Verif.Base Require Import Py Cx Mat Mexp Det.
From Verif.Model Require Import Units Ellips Structure Solver2 Solver4.
From Verif.Spec Require Import Stack Maxwell Tensor.
From Verif.Proof Require Import UnitsP DispersionsP StructureP StackP Solver2P Solver2P2 Solver2P3 Solver2P4
  Solver4P Solver4P2 Solver4P3 Solver4P4 Solver4P5.
Import ListNotations.
Open Scope R_scope.
Open Scope C_scope.
Open Scope py_scope.

(** C39: over a + b the propagator is the product, over zero the identity; it exists for every
    wavelength but zero. *)
Theorem C39_expm : forall delta a b lbda, (lbda <> 0)%R ->
  exists P_a P_b P_ab P_0,
    propagator_expm delta a lbda = Some P_a /\ propagator_expm delta b lbda = Some P_b /\
    propagator_expm delta (a + b) lbda = Some P_ab /\ propagator_expm delta 0 lbda = Some P_0 /\
    meq 4 P_ab (mmul 4 P_a P_b) /\ meq 4 P_0 mid.
Proof.
  intros delta a b lb L.
  destruct (expm_some delta a lb L) as (Pa & Ea & Ma). destruct (expm_some delta b lb L) as (Pb & Eb & Mb).
  destruct (expm_some delta (a + b) lb L) as (Pab & Eab & Mab). destruct (expm_some delta 0 lb L) as (P0 & E0 & M0).
  exists Pa, Pb, Pab, P0. do 4 (split; [assumption|]). split.
  - rewrite Mab, Ma, Mb. apply mexp_phase_plus.
  - rewrite M0. apply mexp_phase_0.
Qed.
Print Assumptions C39_expm.

(** C39: with any complete set of eigenvectors, in any order and of any length, the eigenvalue
    propagator is the exponential one. *)
Theorem C39_eig : forall delta e d lbda, (lbda <> 0)%R -> eigen_decomposition 4 delta e ->
  exists P P', propagator_eig e d lbda = Some P /\ propagator_expm delta d lbda = Some P' /\ meq 4 P P'.
Proof.
  intros delta [q w] d lb L H. apply eig_meq in H. cbn [fst snd] in H. destruct H as [H V].
  destruct (eig_expm delta q w d lb H) as [A B]. destruct (B L V) as [P E]. destruct (expm_some delta d lb L) as (P' & E' & M').
  exists P, P'. split; [exact E|]. split; [exact E'|]. rewrite M'. now apply A.
Qed.
Print Assumptions C39_eig.

(** C39: so eigenvectors of another order or length make no difference, and the eigenvalue
    propagator composes as well. *)
Theorem C39_eig_laws : forall delta e e' a b lbda, (lbda <> 0)%R ->
  eigen_decomposition 4 delta e -> eigen_decomposition 4 delta e' ->
  exists P_a P_a' P_b P_ab P_0,
    propagator_eig e a lbda = Some P_a /\ propagator_eig e' a lbda = Some P_a' /\
    propagator_eig e b lbda = Some P_b /\ propagator_eig e (a + b) lbda = Some P_ab /\
    propagator_eig e 0 lbda = Some P_0 /\
    meq 4 P_a P_a' /\ meq 4 P_ab (mmul 4 P_a P_b) /\ meq 4 P_0 mid.
Proof.
  intros delta e e' a b lb L V V'.
  destruct (C39_expm delta a b lb L) as (Xa & Xb & Xab & X0 & Ea & Eb & Eab & E0 & M1 & M2).
  destruct (C39_eig delta e a lb L V) as (Pa & Ya & A1 & A2 & A3). destruct (C39_eig delta e' a lb L V') as (Pa' & Ya' & B1 & B2 & B3).
  destruct (C39_eig delta e b lb L V) as (Pb & Yb & C1 & C2 & C3). destruct (C39_eig delta e (a + b) lb L V) as (Pab & Yab & D1 & D2 & D3).
  destruct (C39_eig delta e 0 lb L V) as (P0 & Y0 & F1 & F2 & F3).
  rewrite Ea in A2, B2. rewrite Eb in C2. rewrite Eab in D2. rewrite E0 in F2.
  apply Some_eq in A2, B2, C2, D2, F2. subst Ya Ya' Yb Yab Y0.
  exists Pa, Pa', Pb, Pab, P0. do 5 (split; [assumption|]). split; [now rewrite A3, B3|]. split; [now rewrite D3, A3, C3|]. now rewrite F3.
Qed.
Print Assumptions C39_eig_laws.

(** C39: without a complete set of eigenvectors PropagatorEig raises. *)
Theorem C39_defective : forall q w d lbda, ~ (exists v, is_inverse 4 w v) -> propagator_eig (q, w) d lbda = None.
Proof.
  intros q w d lb N. unfold propagator_eig. destruct (minv 4 (take_cols w (lexsort q))) as [v|] eqn:E; [|reflexivity].
  exfalso. apply N. apply minv_inverse in E; [|exact good4].
  (* put the rows of v back: the inverse permutation *)
  assert (P := lexsort_perm q).
  assert (Dt : det 4 w <> 0).
  { intros Z. set (Q := fun i a => if Nat.eqb i (nth a (lexsort q) 0%nat) then RtoC 1 else RtoC 0).
    assert (E2 : meq 4 (take_cols w (lexsort q)) (mmul 4 w Q)).
    { intros i a Hi Ha. unfold take_cols, mmul, Q. rewrite (csum_single 4 (fun k => w i k * _) (nth a (lexsort q) 0%nat) (perm_lt _ _ P Ha)).
      - cbv beta. rewrite Nat.eqb_refl. ring.
      - intros k Hk D. destruct (Nat.eqb_spec k (nth a (lexsort q) 0%nat)); [contradiction|ring]. }
    apply (inverse_det 4 _ v good4 E). rewrite (det_meq 4 _ _ E2), (det_mul 4 _ _ good4), Z. ring. }
  destruct (minv 4 w) as [v'|] eqn:E'; [exists v'; now apply minv_inverse in E'; [|exact good4]|].
  apply minv_none in E'. contradiction.
Qed.
Print Assumptions C39_defective.

(** C39: PropagatorLinear is the identity for zero thickness but does not compose. *)
Theorem C39_linear_zero : forall delta lbda P, propagator_linear delta 0 lbda = Some P -> meq 4 P mid.
Proof.
  intros delta lb P H. unfold propagator_linear in H. destruct (wave_number lb) as [k|]; [|discriminate]. apply Some_eq in H. subst P.
  intros i j _ _. unfold madd, mscal. ring.
Qed.
Print Assumptions C39_linear_zero.
(** C39: the linear propagator is the affine function of the thickness that has the value and the
    slope of the exponential one at thickness zero. *)
Theorem C39_linear_tangent : forall delta lbda, (lbda <> 0)%R -> exists L X : R -> mat,
  (forall d, propagator_linear delta d lbda = Some (L d)) /\
  (forall d, propagator_expm delta d lbda = Some (X d)) /\
  meq 4 (L 0%R) (X 0%R) /\ mder 4 (fun d => madd (L d) (mscal (RtoC (-1)) (X d))) 0 mzero /\
  (forall a b, meq 4 (madd (L a) (L b)) (madd (L (a + b)%R) (L 0%R))).
Proof.
  intros delta lb Lb. assert (W : exists k, wave_number lb = Some k) by (unfold wave_number; rewrite rdiv_nz by exact Lb; eauto).
  destruct W as [k W].
  exists (fun d => madd mid (mscal (Ci * RtoC d) (mscal (RtoC k) delta))), (fun d => mexp 4 (mscal (Ci * RtoC d) (mscal (RtoC k) delta))).
  unfold propagator_linear, propagator_expm. rewrite W. cbn [obind].
  split; [reflexivity|]. split; [reflexivity|].
  set (B := mscal Ci (mscal (RtoC k) delta)).
  assert (E : forall d, meq 4 (mexp 4 (mscal (Ci * RtoC d) (mscal (RtoC k) delta))) (mexpt 4 B d)).
  { intros d. rewrite <- mexp_scal. apply mexp_meq. intros i j _ _. unfold B, mscal. ring. }
  split; [|split].
  - rewrite E, mexpt_0. intros i j _ _. unfold madd, mscal. ring.
  - apply (mder_ext 4 (fun d => madd (madd mid (mscal (RtoC d) B)) (mscal (RtoC (-1)) (mexpt 4 B d)))).
    { intros d. specialize (E d). cbv beta. set (X := mexp 4 _) in *. clearbody X. intros i j Hi Hj. specialize (E i j Hi Hj). unfold madd, mscal. rewrite E. unfold B, mscal. ring. }
    apply (mder_meq _ _ _ (madd B (mscal (RtoC (-1)) (mmul 4 B (mexpt 4 B 0))))).
    + intros i j Hi Hj. unfold madd, mscal. eapply cder_eq.
      * apply cder_plus; [apply cder_plus; [apply cder_const|]|apply cder_scal, (mexpt_der 4 B 0 i j Hi Hj)].
        apply (cder_mult (fun x => RtoC x) (fun _ => B i j) 0 1 0); [apply cder_id|apply cder_const].
      * ring.
    + rewrite mexpt_0. rewrite mmul_1_r. intros i j _ _. unfold madd, mscal, mzero. ring.
  - intros a b i j _ _. unfold madd, mscal. rewrite RtoC_plus. ring.
Qed.
Print Assumptions C39_linear_tangent.
Theorem C39_linear_refuted : exists delta a b lbda P_a P_b P_ab,
  propagator_linear delta a lbda = Some P_a /\ propagator_linear delta b lbda = Some P_b /\
  propagator_linear delta (a + b) lbda = Some P_ab /\ ~ meq 4 P_ab (mmul 4 P_a P_b).
Proof.
  assert (P := PI_RGT_0). exists mid, 1%R, 1%R, (2 * PI)%R. unfold propagator_linear, wave_number. rewrite rdiv_nz by lra. cbn [obind].
  do 3 eexists. do 3 (split; [reflexivity|]). intros M. assert (K := M 0%nat 0%nat ltac:(lia) ltac:(lia)).
  replace (2 * PI / (2 * PI))%R with 1%R in K by (field; lra).
  unfold mmul, madd, mscal, mid, csum in K. cbn [Nat.eqb] in K. apply (f_equal fst) in K. simpl in K. lra.
Qed.
Print Assumptions C39_linear_refuted.

(** The eigenvectors of an isotropic medium, listed backwards and doubled *)
Example C39_example : exists delta e, build_delta_matrix (RtoC 1) (mscal (RtoC 4) mid) = Some delta /\ eigen_decomposition 4 delta e /\
  fst e 0%nat <> fst e 1%nat.
Proof.
  assert (N4 : RtoC 4 <> 0) by (apply C_of_R_neq; lra).
  destruct (delta_iso (RtoC 1) (mscal (RtoC 4) mid) (RtoC 4) N4 ltac:(intros i j _ _; reflexivity)) as (D & E & M).
  set (c := RtoC (sqrt (3 / 4))). assert (S : (sqrt (3 / 4) * sqrt (3 / 4) = 3 / 4)%R) by (apply sqrt_sqrt; lra).
  assert (Sp : (0 < sqrt (3 / 4))%R) by (apply sqrt_lt_R0; lra).
  assert (N2 : RtoC 2 <> 0) by (apply C_of_R_neq; lra). assert (Nc : c <> 0) by (apply C_of_R_neq; lra).
  assert (cc : c * c = RtoC (3 / 4)) by (unfold c; rewrite <- RtoC_mult, S; reflexivity).
  assert (EG := iso_eigen (RtoC 1) (RtoC 2) c N2). rewrite cc in EG.
  specialize (EG ltac:(apply C_ext; simpl; lra)). cbv zeta in EG.
  replace (RtoC 2 * RtoC 2) with (RtoC 4) in EG by (apply C_ext; simpl; lra).
  set (q := RtoC 2 * c) in *. destruct (iso_inverse (RtoC 2) c N2 Nc) as [I1 I2].
  exists D, (fun a => vec_of [- q; q; - q; q] a, fun i a => 2 * isoL (RtoC 2) c i (3 - a)%nat). split; [exact E|]. split.
  - split; cbn [fst snd].
    + intros i j Hi Hj. assert (Hj' : (3 - j < 4)%nat) by lia. assert (K := EG i (3 - j)%nat Hi Hj').
      transitivity (2 * mmul 4 (iso_delta (RtoC 1) (RtoC 4)) (isoL (RtoC 2) c) i (3 - j)%nat).
      { unfold mmul. rewrite <- csum_mult_l. apply csum_ext. intros k Hk. rewrite M by assumption. ring. }
      rewrite K. unfold mmul, mdiag. rewrite (csum_single 4 (fun k => isoL (RtoC 2) c i k * _) (3 - j)%nat Hj').
      * cbv beta. rewrite Nat.eqb_refl. unfold vec_of. idx j; cbn [Nat.sub nth]; ring.
      * intros k Hk D'. destruct (Nat.eqb_spec k (3 - j)); [contradiction|ring].
    + exists (fun a j => isoLi (RtoC 2) c (3 - a)%nat j / 2). split.
      * intros i j Hi Hj. rewrite <- (I1 i j Hi Hj). unfold mmul, csum. cbn [Nat.sub]. Cfield.
      * intros i j Hi Hj. transitivity (mid (3 - i)%nat (3 - j)%nat).
        { rewrite <- (I2 (3 - i)%nat (3 - j)%nat ltac:(lia) ltac:(lia)). unfold mmul, csum. Cfield. }
        unfold mid. idx i; idx j; reflexivity.
  - cbn. intros K. apply (f_equal fst) in K. simpl in K. nra.
Qed.

(** C40: the two transition matrices of an isotropic half space are inverse to each other. *)
Theorem C40_inverse : forall k_x eps L L_inv,
  transition_matrix_iso_halfspace k_x eps false = Some L ->
  transition_matrix_iso_halfspace k_x eps true = Some L_inv ->
  is_inverse 4 L L_inv.
Proof.
  intros k_x eps L Li H H'. apply iso_L_some in H, H'. destruct H as (N & _ & ->). destruct H' as (_ & K & ->).
  apply iso_inverse; auto.
Qed.
Print Assumptions C40_inverse.
(** They exist unless the permittivity vanishes, for inv=True also unless the wave is grazing. *)
Theorem C40_defined : forall k_x (eps : mat),
  (transition_matrix_iso_halfspace k_x eps false <> None <-> eps 0%nat 0%nat <> 0) /\
  (transition_matrix_iso_halfspace k_x eps true <> None <-> eps 0%nat 0%nat <> 0 /\ eps 0%nat 0%nat <> k_x * k_x).
Proof.
  intros k_x eps.
  assert (A : iso_n eps <> 0 <-> eps 0%nat 0%nat <> 0).
  { unfold iso_n. split; intros H E; apply H; [rewrite E; apply Csqrt_0|]. rewrite <- (Csqrt_sqr (eps 0%nat 0%nat)), E. ring. }
  assert (B : iso_n eps <> 0 -> (iso_cos k_x eps <> 0 <-> eps 0%nat 0%nat <> k_x * k_x)).
  { intros N. assert (S := iso_cos_sqr k_x eps N). assert (Q : iso_n eps * iso_n eps = eps 0%nat 0%nat) by apply Csqrt_sqr. rewrite Q in S.
    split; intros H E; apply H.
    - rewrite E in S. assert (Z : k_x * k_x * (iso_cos k_x eps * iso_cos k_x eps) = 0) by (rewrite S; ring).
      rewrite <- E in Z. apply C_integral in Z. destruct Z as [Z|Z]; [now apply A in N|]. apply C_integral in Z. tauto.
    - rewrite E in S. transitivity (eps 0%nat 0%nat - k_x * k_x + k_x * k_x); [ring|]. rewrite <- S. ring. }
  unfold transition_matrix_iso_halfspace. destruct (Ceq_dec (iso_n eps) 0) as [Z|Z].
  - split; split; intros H; try congruence; exfalso.
    + now apply A in H.
    + destruct H as [H _]. now apply A in H.
  - split; [split; [intros _; now apply A|discriminate]|]. destruct (Ceq_dec (iso_cos k_x eps) 0) as [K|K].
    + split; [congruence|]. intros [_ H]. apply (B Z) in H. contradiction.
    + split; [|discriminate]. intros _. split; [now apply A|now apply (B Z)].
Qed.
Print Assumptions C40_defined.
Example C40_example : exists L L_inv, transition_matrix_iso_halfspace (RtoC 1) (mscal (RtoC 4) mid) false = Some L /\
  transition_matrix_iso_halfspace (RtoC 1) (mscal (RtoC 4) mid) true = Some L_inv.
Proof.
  assert (E : mscal (RtoC 4) mid 0%nat 0%nat = RtoC 4) by (unfold mscal, mid; cbn [Nat.eqb]; ring).
  destruct (C40_defined (RtoC 1) (mscal (RtoC 4) mid)) as [A B]. rewrite E in A, B.
  destruct (transition_matrix_iso_halfspace (RtoC 1) (mscal (RtoC 4) mid) false) as [L|].
  2:{ exfalso. apply (proj2 A); [apply C_of_R_neq; lra|reflexivity]. }
  destruct (transition_matrix_iso_halfspace (RtoC 1) (mscal (RtoC 4) mid) true) as [L'|]; [eauto|].
  exfalso. apply (proj2 B); [|reflexivity]. split; [apply C_of_R_neq; lra|]. intros K. apply (f_equal fst) in K. simpl in K. lra.
Qed.

(** C39, C38: which propagators the agreement is claimed for: the exponential one, or the eigenvalue
    one with any complete eigenvectors of the delta matrices of the layers. *)
Definition exact_propagator prop (k_x : C) (ls : list (R * mat)) : Prop :=
  prop = propagator_expm \/
  exists eig, prop = (fun delta => propagator_eig (eig delta)) /\
    forall l delta, In l ls -> build_delta_matrix k_x (snd l) = Some delta -> eigen_decomposition 4 delta (eig delta).
Lemma exact_good prop k_x lb ls : exact_propagator prop k_x ls -> eps_ok ls -> good_prop prop k_x lb ls.
Proof. intros [->|(eig & -> & H)] O; [apply expm_good|now apply eig_good]. Qed.

(** C39: the choice of the propagator and of the eigenvectors does not change any result. *)
Theorem C39_solver : forall prop prop' theta_i lbda eps_f ls eps_b,
  exact_propagator prop (reduced_k_x theta_i eps_f) ls -> exact_propagator prop' (reduced_k_x theta_i eps_f) ls ->
  same_result4 (solver4 prop theta_i lbda eps_f ls eps_b) (solver4 prop' theta_i lbda eps_f ls eps_b).
Proof.
  intros prop prop' th lb ef ls eb H H'. destruct (eps_dec ls) as [O|O]; [|now rewrite !solver4_eps].
  apply solver4_congr; [now apply exact_good|now apply exact_good|tauto|reflexivity].
Qed.
Print Assumptions C39_solver.

(** C38: on isotropic structures the two solvers agree. *)
Theorem C38_agree : forall prop theta_i lbda eps_f eps_b ls (e_f e_b : C) ls' J_r J_t front layers back,
  isotropic eps_f e_f -> isotropic eps_b e_b ->
  Forall2 (fun l l' => fst l = fst l' /\ isotropic (snd l) (snd l')) ls ls' ->
  exact_propagator prop (reduced_k_x theta_i eps_f) ls ->
  solver2_media theta_i lbda e_f ls' e_b = Some (front, layers, back) -> forward front -> forward back ->
  jones2_r (solver2 theta_i lbda e_f ls' e_b) = Some J_r -> jones2_t (solver2 theta_i lbda e_f ls' e_b) = Some J_t ->
  exists r, solver4 prop theta_i lbda eps_f ls eps_b = Some r /\
    meq 2 (jones_r4 r) J_r /\ meq 2 (jones_t4 r) J_t /\
    power_correction4 r = power_correction (solver2 theta_i lbda e_f ls' e_b).
Proof.
  intros prop th lb ef eb ls e e' ls' Jr Jt f l b If Ib Il P M Ff Fb Hr Ht.
  unfold jones2_r, jones2_t, jones2 in Hr, Ht. destruct (rt_p (solver2 th lb e ls' e')) as [p|] eqn:Ep; [|discriminate].
  destruct (rt_s (solver2 th lb e ls' e')) as [s|] eqn:Es; [|discriminate]. cbn [obind] in Hr, Ht. apply Some_eq in Hr, Ht. subst Jr Jt.
  apply media_inv in M. cbv zeta in M. destruct M as (L & N0 & N1 & Fl & Ef & Eb & _).
  assert (KX := kx_eq th ef e If). apply agree; try assumption.
  - apply exact_good; [exact P|]. now apply (iso_eps_ok ls ls').
  - rewrite KX. unfold half_of. rewrite Ef in Ff. exact Ff.
  - rewrite KX. rewrite Eb in Fb. exact Fb.
Qed.
Print Assumptions C38_agree.

(** C38: with a lossless front medium, a passive back medium and light that is not grazing the
    waves are forward, outside the band in which Solver2x2 takes the growing wave (C35). *)
Theorem C38_passive : forall prop theta_i lbda eps_f eps_b ls (x : R) (e_b : C) ls' J_r J_t,
  isotropic eps_f (RtoC x) -> (0 < x)%R -> cos (deg2rad theta_i) <> 0%R ->
  isotropic eps_b e_b -> e_b <> 0 -> (0 <= Im e_b)%R ->
  Forall2 (fun l l' => fst l = fst l' /\ isotropic (snd l) (snd l')) ls ls' ->
  exact_propagator prop (reduced_k_x theta_i eps_f) ls ->
  ~ (Re (get_k_z eps_b (reduced_k_x theta_i eps_f)) = 0%R /\
     (0 < Im (get_k_z eps_b (reduced_k_x theta_i eps_f)) <= 1 / 10 ^ 10)%R) ->
  jones2_r (solver2 theta_i lbda (RtoC x) ls' e_b) = Some J_r ->
  jones2_t (solver2 theta_i lbda (RtoC x) ls' e_b) = Some J_t ->
  exists r, solver4 prop theta_i lbda eps_f ls eps_b = Some r /\
    meq 2 (jones_r4 r) J_r /\ meq 2 (jones_t4 r) J_t /\
    power_correction4 r = power_correction (solver2 theta_i lbda (RtoC x) ls' e_b).
Proof.
  intros prop th lb ef eb ls x e ls' Jr Jt If Hx Hc Ib Nb Pb Il P B Hr Ht.
  assert (M : input_ok lb (RtoC x) ls' e).
  { unfold jones2_r, jones2 in Hr. destruct (rt_p (solver2 th lb (RtoC x) ls' e)) as [p|] eqn:Ep; [|discriminate].
    apply (rt_some false) in Ep. tauto. }
  destruct M as (L & N0 & N1 & Fl). assert (S := media_some th lb (RtoC x) ls' e L N0 N1 Fl). cbv zeta in S.
  assert (KX := kx_eq th ef (RtoC x) If).
  eapply (C38_agree prop th lb ef eb ls (RtoC x) e ls' Jr Jt); try eassumption; [now apply forward_front|].
  rewrite KX in B. unfold get_k_z in B. rewrite (isotropic_00 eb e Ib), Csqrt_sqr in B. rewrite (kx_real th x) in * by lra.
  now apply forward_passive.
Qed.
Print Assumptions C38_passive.

(** C31: for the 4x4 solver, with any tensor. *)
Lemma solver4_structure_eq prop th lb f ls b : solver4_structure prop th lb (Structure f ls b) =
  solver4 prop th lb f (profiles ls) b.
Proof.
  unfold solver4_structure. rewrite structure_profile_eq, removelast_last, last_last. cbn [snd].
  replace (fold_right _ (Some []) (map (fun p => (Some (fst p), snd p)) (profiles ls))) with (Some (profiles ls)); [reflexivity|].
  induction (profiles ls) as [|[d e] p IH]; [reflexivity|]. cbn [map fold_right fst snd]. rewrite <- IH. reflexivity.
Qed.
Theorem C31_response4 : forall theta_i lbda f pre (eps : mat) d div post b l,
  make_inhomogeneous (fun _ => eps) d div = Ok l ->
  same_result4 (solver4_structure propagator_expm theta_i lbda (Structure f (pre ++ l :: post) b))
               (solver4_structure propagator_expm theta_i lbda (Structure f (pre ++ Homogeneous d eps :: post) b)).
Proof.
  intros th lb f pre eps d div post b l H. unfold make_inhomogeneous in H.
  destruct (Rlt_dec d 0) as [|D]; [discriminate|]. destruct (div <? 1)%Z eqn:E; [discriminate|]. apply Z.ltb_ge in E.
  injection H as <-. rewrite !solver4_structure_eq, !profiles_app. cbn [profiles].
  set (n := Z.to_nat div). assert (Hn : (0 < n)%nat) by lia.
  rewrite inhom_profile by exact Hn. cbn [profile].
  replace (map (fun k : nat => ((d / INR n)%R, eps)) (seq 0 n)) with (map (fun x => (x, eps)) (map (fun _ : nat => (d / INR n)%R) (seq 0 n)))
    by (rewrite map_map; reflexivity).
  set (ds := map (fun _ : nat => (d / INR n)%R) (seq 0 n)).
  assert (Sd : Rsum ds = d).
  { unfold ds. rewrite Rsum_const, seq_length. field. apply not_0_INR; lia. }
  assert (Nd : ds <> []) by (unfold ds; destruct n; [lia|discriminate]).
  clearbody ds.
  apply solver4_congr; [apply expm_good|apply expm_good| |].
  - assert (A : eps_ok (map (fun x => (x, eps)) ds) <-> eps_ok [(d, eps)]).
    { unfold eps_ok. split; intros F.
      - constructor; [|constructor]. destruct ds as [|x ds]; [contradiction|]. cbn [map] in F. inversion F; subst. assumption.
      - apply Forall_forall. intros y Hy. apply in_map_iff in Hy. destruct Hy as (x & <- & _). inversion F; subst. assumption. }
    unfold eps_ok, lb_ok in *. rewrite !Forall_app.
    assert (Z1 : profiles pre ++ map (fun x => (x, eps)) ds ++ profiles post <> []) by (intros K; apply app_eq_nil in K; destruct K as [_ K]; apply app_eq_nil in K; destruct K as [K _]; destruct ds; [contradiction|discriminate]).
    assert (Z2 : profiles pre ++ [(d, eps)] ++ profiles post <> []) by (destruct (profiles pre); discriminate).
    tauto.
  - intros _ _. rewrite !tmat_app, tmat_slices, Sd. cbn [tmat]. rewrite mmul_1_r. reflexivity.
Qed.
Print Assumptions C31_response4.
