(** C105: the slices of inhomogeneous layers converge to the continuous medium. *)
From Coq Require Import Reals Lra Psatz Lia ZArith.
From Coquelicot Require Import Complex.
From Coq Require Import List.
From Verif.Base Require Import Py Cx Mat Mexp Det Approx.
From Verif.Model Require Import Units Ellips Rotation Structure Solver4.
From Verif.Model Require Mixture.
From Verif.Spec Require Import Maxwell Tensor Turned Graded.
From Verif.Proof Require Import UnitsP DispersionsP StructureP Solver4P Solver4P2 Solver4P3 Solver4P5 Solver4P6 GradedP GradedP2.
From Verif.Props Require Import Solver4T.
Import ListNotations.
Open Scope R_scope.
Open Scope C_scope.
Open Scope py_scope.

(** The layer object for a slab: a layer, or an inhomogeneous layer with at least n divisions *)
Definition divided (n : nat) (s : slab) (l : layer mat) : Prop :=
  match s with
  | Uniform d eps => make_layer eps d = Ok l
  | Graded d eps => exists div, (Z.of_nat n <= div)%Z /\ make_inhomogeneous eps d div = Ok l
  end.
(** The waves of a half space with the permittivity e *)
Definition half_wave (kx e n c : C) : Prop :=
  n * n = e /\ principal n /\ e * (c * c) = e - kx * kx /\ principal c.
(** The propagators for which this is claimed: the exact ones, and the linear one if every layer is
    inhomogeneous *)
Definition any_propagator prop (kx : C) (slabs : list slab) (ls : list (layer mat)) : Prop :=
  exact_propagator prop kx (concat (map profile ls)) \/
  prop = propagator_linear /\ Forall (fun s => exists d eps, s = Graded d eps) slabs.
(** The Jones matrices of the solver come within K / n of the given ones. *)
Definition approaches (theta_i lbda : R) (eps_f eps_b : mat) (slabs : list slab) (J_r J_t : mat) : Prop :=
  exists K N, forall n prop ls, (N <= n)%nat -> Forall2 (divided n) slabs ls ->
    any_propagator prop (reduced_k_x theta_i eps_f) slabs ls ->
    exists res, solver4_structure prop theta_i lbda (Structure eps_f ls eps_b) = Some res /\
      forall i j, (i < 2)%nat -> (j < 2)%nat ->
        (Cmod (jones_r4 res i j - J_r i j)%C <= K / INR n /\ Cmod (jones_t4 res i j - J_t i j)%C <= K / INR n)%R.

Lemma divided_sliced n slabs ls : Forall2 (divided n) slabs ls -> of_order slabs n ls.
Proof.
  intros H. induction H as [|s l ss ls H _ IH]; constructor; [|exact IH]. destruct s as [d eps|d eps]; cbn [divided] in H.
  - unfold make_layer in H. destruct (Rlt_dec d 0); [discriminate|]. injection H as <-. constructor.
  - destruct H as (div & Hd & H). unfold make_inhomogeneous in H. destruct (Rlt_dec d 0); [discriminate|]. destruct (div <? 1)%Z; [discriminate|]. injection H as <-. constructor. lia.
Qed.
Lemma profiles_concat (ls : list (layer mat)) : profiles ls = concat (map profile ls).
Proof. induction ls; cbn; [reflexivity|]. now rewrite IHls. Qed.
Lemma half_wave_eq kx (eps : mat) (e n c : C) : e <> 0 -> isotropic eps e -> half_wave kx e n c -> n = iso_n eps /\ c = iso_cos kx eps.
Proof.
  intros E I (N & Pn & Hc & Pc). assert (Hn : n = iso_n eps) by (rewrite (iso_n_eq eps e I); now apply Csqrt_unique). split; [exact Hn|]. assert (Nn : n <> 0) by (intros ->; apply E; rewrite <- N; ring).
  unfold iso_cos. apply Csqrt_unique; [exact Pc|]. rewrite <- Hn. transitivity ((e - kx * kx) / e); [rewrite <- Hc; field; exact E|]. rewrite <- N. field. exact Nn.
Qed.

(** C105: if no wave leaves the structure unaided, the continuous medium has Jones matrices, and the
    ones of the sliced structure come within K / n of them. *)
Theorem C105_converges : forall theta_i lbda eps_f eps_b (e_f e_b n_f c_f n_b c_b : C) slabs,
  (lbda <> 0)%R -> isotropic eps_f e_f -> isotropic eps_b e_b -> e_f <> 0 -> e_b <> 0 -> Forall smooth slabs ->
  let k := (2 * PI / lbda)%R in
  let kx := Csqrt e_f * RtoC (sin (theta_i * PI / 180)) in
  half_wave kx e_f n_f c_f -> half_wave kx e_b n_b c_b -> c_f <> 0 -> no_resonance k kx n_f c_f n_b c_b slabs ->
  exists J_r J_t, scattering k kx n_f c_f n_b c_b slabs J_r J_t /\
    approaches theta_i lbda eps_f eps_b slabs J_r J_t.
Proof.
  intros th lb ef eb e e' nf cf nb cb ss L If Ib E E' S k kx Hf Hb Cf NR.
  assert (KX : reduced_k_x th ef = kx) by (rewrite (kx_eq th ef e If); reflexivity).
  destruct (half_wave_eq kx ef e nf cf E If Hf) as [-> ->]. destruct (half_wave_eq kx eb e' nb cb E' Ib Hb) as [-> ->].
  assert (Nf : iso_n ef <> 0) by (rewrite (iso_n_eq ef e If); now apply Csqrt_neq0). assert (Nb : iso_n eb <> 0) by (rewrite (iso_n_eq eb e' Ib); now apply Csqrt_neq0).
  assert (P0 := PI_RGT_0). assert (K0 : (k <> 0)%R) by (apply Rmult_integral_contrapositive_currified; [lra|now apply Rinv_neq_0_compat]).
  assert (D := resonance_det k kx _ _ _ _ ss K0 S Nf Cf NR). exists (mmul 2 (t_rt (limit_k k kx (iso_n ef) (iso_cos kx ef) (iso_n eb) (iso_cos kx eb) ss)) (inv2 (t_it (limit_k k kx (iso_n ef) (iso_cos kx ef) (iso_n eb) (iso_cos kx eb) ss)))), (inv2 (t_it (limit_k k kx (iso_n ef) (iso_cos kx ef) (iso_n eb) (iso_cos kx eb) ss))).
  split; [now apply limit_scattering|]. rewrite <- KX in *.
  destruct (slices_converge th lb ef eb ss (layer_mat (reduced_k_x th ef) lb) (exp_step lb _) S) as (K1 & N1 & K10 & N10 & H1); try assumption.
  { rewrite Forall_forall in S |- *. intros s Hs. destruct s as [d eps|d eps]; [|exact I]. cbn [exact_uniform]. symmetry. apply smat_uniform. now apply S. }
  assert (H2 : exists K2 N2, (0 <= K2)%R /\ (0 < N2)%nat /\ (Forall (fun s => exists d eps, s = Graded d eps) ss -> forall n ls, (N2 <= n)%nat -> of_order ss n ls ->
    exists res, solver4 propagator_linear th lb ef (profiles ls) eb = Some res /\
      bounded_by 2 (msub (jones_t4 res) (inv2 (t_it (limit_k k (reduced_k_x th ef) (iso_n ef) (iso_cos (reduced_k_x th ef) ef) (iso_n eb) (iso_cos (reduced_k_x th ef) eb) ss)))) (K2 / INR n) /\
      bounded_by 2 (msub (jones_r4 res) (mmul 2 (t_rt (limit_k k (reduced_k_x th ef) (iso_n ef) (iso_cos (reduced_k_x th ef) ef) (iso_n eb) (iso_cos (reduced_k_x th ef) eb) ss)) (inv2 (t_it (limit_k k (reduced_k_x th ef) (iso_n ef) (iso_cos (reduced_k_x th ef) ef) (iso_n eb) (iso_cos (reduced_k_x th ef) eb) ss))))) (K2 / INR n))).
  { assert (DEC : Forall (fun s => exists d eps, s = Graded d eps) ss \/ ~ Forall (fun s => exists d eps, s = Graded d eps) ss).
    { clear. induction ss as [|s ss [IH|IH]]; [left; constructor| |right; intros H; inversion H; contradiction]. destruct s as [d eps|d eps]; [right; intros H; inversion H as [|? ? (d' & e' & F)]; discriminate|]. left. constructor; eauto. }
    destruct DEC as [G|G]; [|exists 0%R, 1%nat; split; [lra|]; split; [lia|]; contradiction].
    destruct (slices_converge th lb ef eb ss (lin_mat k (reduced_k_x th ef)) (lin_step _ _) S) as (K2 & N2 & K20 & N20 & H2); try assumption.
    { rewrite Forall_forall in G |- *. intros s Hs. destruct (G s Hs) as (d & eps & ->). exact I. }
    exists K2, N2. split; [exact K20|]. split; [exact N20|]. intros _ n ls Hn Ho. apply (H2 n propagator_linear ls Hn Ho). apply linear_gives; [exact L|]. apply (order_eps n ss ls ltac:(lia) S Ho). }
  destruct H2 as (K2 & N2 & K20 & N20 & H2). exists (K1 + K2)%R, (N1 + N2)%nat. intros n prop ls Hn Hd HP. assert (Ho := divided_sliced n ss ls Hd).
  assert (IP : (0 < / INR n)%R) by (apply Rinv_0_lt_compat, lt_0_INR; lia). assert (0 <= K1 * / INR n)%R by (apply Rmult_le_pos; lra). assert (0 <= K2 * / INR n)%R by (apply Rmult_le_pos; lra).
  assert (EO := order_eps n ss ls ltac:(lia) S Ho). rewrite solver4_structure_eq. unfold any_propagator in HP. rewrite <- profiles_concat in HP. destruct HP as [HP|[-> HP]].
  - destruct (H1 n prop ls ltac:(lia) Ho) as (res & HR & HT & HJ); [apply good_gives; [exact L|now apply exact_good|exact EO]|]. exists res. split; [exact HR|]. intros i j Hi Hj. specialize (HT i j Hi Hj). specialize (HJ i j Hi Hj).
    unfold msub in HT, HJ. unfold Rdiv in *. rewrite Rmult_plus_distr_r. split; [eapply Rle_trans; [exact HJ|lra]|eapply Rle_trans; [exact HT|lra]].
  - destruct (H2 HP n ls ltac:(lia) Ho) as (res & HR & HT & HJ). exists res. split; [exact HR|]. intros i j Hi Hj. specialize (HT i j Hi Hj). specialize (HJ i j Hi Hj).
    unfold msub in HT, HJ. unfold Rdiv in *. rewrite Rmult_plus_distr_r. split; [eapply Rle_trans; [exact HJ|lra]|eapply Rle_trans; [exact HT|lra]].
Qed.
Print Assumptions C105_converges.

(** C105: for light from a transparent medium, not grazing, on media without gain there is no such wave. *)
Theorem C105_passive : forall theta_i lbda eps_f eps_b (x : R) (e_b n_f c_f n_b c_b : C) slabs,
  (0 < lbda)%R -> isotropic eps_f (RtoC x) -> (0 < x)%R -> cos (theta_i * PI / 180) <> 0%R ->
  isotropic eps_b e_b -> e_b <> 0 -> (0 <= Im e_b)%R -> Forall smooth slabs ->
  Forall (fun s => forall z, (0 <= z <= depth s)%R -> passive (permittivity s z)) slabs ->
  let k := (2 * PI / lbda)%R in
  let kx := Csqrt (RtoC x) * RtoC (sin (theta_i * PI / 180)) in
  half_wave kx (RtoC x) n_f c_f -> half_wave kx e_b n_b c_b ->
  exists J_r J_t, scattering k kx n_f c_f n_b c_b slabs J_r J_t /\
    approaches theta_i lbda eps_f eps_b slabs J_r J_t.
Proof.
  intros th lb ef eb x e' nf cf nb cb ss L If X Cz Ib E' Pe S P k kx Hf Hb.
  assert (KX : reduced_k_x th ef = kx) by (rewrite (kx_eq th ef _ If); reflexivity). assert (E : RtoC x <> 0) by (apply C_of_R_neq; lra).
  assert (Q := passive_no_resonance th lb ef eb ss x e' L If X Cz Ib E' Pe S P). cbv zeta in Q. rewrite KX in Q. destruct Q as (_ & Cf & NR).
  apply (C105_converges th lb ef eb (RtoC x) e'); try assumption; [lra| |].
  - destruct (half_wave_eq kx ef _ nf cf E If Hf) as [_ ->]. exact Cf.
  - destruct (half_wave_eq kx ef _ nf cf E If Hf) as [-> ->]. destruct (half_wave_eq kx eb e' nb cb E' Ib Hb) as [-> ->]. exact NR.
Qed.
Print Assumptions C105_passive.

(** C105: a twisted layer is such a medium: a tensor that turns evenly about the normal. *)
Theorem C105_twisted : forall (e : mat) d angle, (0 < d)%R -> e 2%nat 2%nat <> 0 ->
  exists eps, (forall z, twisted_tensor e d angle z = Some (eps z)) /\ smooth (Graded d eps) /\
    (passive e -> forall z, passive (eps z)) /\
    forall z, let turn := z_turn (angle * PI / 180 * (z / d)) in meq 3 (eps z) (mmul 3 (mmul 3 turn e) (mtr turn)).
Proof.
  intros e d angle D E. assert (D' : (d <> 0)%R) by lra.
  set (eps := fun z => mmul 3 (mmul 3 (rotation_v_theta E_Z (angle * z / d)) e) (mtr (rotation_v_theta E_Z (angle * z / d)))).
  assert (T : forall z, twisted_tensor e d angle z = Some (eps z)) by (intros z; unfold twisted_tensor; rewrite rdiv_nz by exact D'; reflexivity).
  assert (H : forall z, meq 3 (eps z) (helix e (angle * PI / 180 / d) z)) by (intros z; apply (twisted_helix e d angle z (eps z) (T z))).
  exists eps. split; [exact T|]. split; [|split].
  - apply (mlipb_smooth d eps (Cmod (e 2%nat 2%nat))); [lra| |now apply Cmod_gt_0|].
    + apply (mlipb_meq 3 d (helix e (angle * PI / 180 / d))); [intros z _; symmetry; apply H|apply helix_mlipb].
    + intros z _. rewrite (H z 2%nat 2%nat) by lia. rewrite helix_zz. lra.
  - intros P z. apply (passive_meq (helix e (angle * PI / 180 / d) z)); [symmetry; apply H|now apply helix_passive].
  - intros z turn. unfold turn. replace (angle * PI / 180 * (z / d))%R with (angle * PI / 180 / d * z)%R by (field; lra). apply H.
Qed.
Print Assumptions C105_twisted.

(** C105: so is a layer in which the share of a guest in a host varies smoothly with the depth. *)
Theorem C105_varying : forall (h g : mat) d (modulation : R -> R) (m L : R), (0 < d)%R -> (0 < m)%R ->
  (forall q, (0 <= q <= 1)%R -> (m <= Cmod (h 2%nat 2%nat * (1 - RtoC (modulation q)) + g 2%nat 2%nat * RtoC (modulation q))%C)%R) ->
  (forall q q', (0 <= q <= 1)%R -> (0 <= q' <= 1)%R -> (Rabs (modulation q - modulation q') <= L * Rabs (q - q'))%R) ->
  exists eps, (forall z, varying_tensor (fun f => Mixture.mix Mixture.vca f h g) modulation d z = Some (eps z)) /\
    smooth (Graded d eps) /\
    forall z i j, eps z i j = h i j * (1 - RtoC (modulation (z / d)%R)) + g i j * RtoC (modulation (z / d)%R).
Proof.
  intros h g d f m L D M Z HL. assert (D' : (d <> 0)%R) by lra. exists (fun z => Mixture.mix Mixture.vca (f (z / d)%R) h g). split; [intros z; unfold varying_tensor; rewrite rdiv_nz by exact D'; reflexivity|].
  assert (Q : forall z, (0 <= z <= d)%R -> (0 <= z / d <= 1)%R).
  { intros z Hz. assert (I : (0 < / d)%R) by now apply Rinv_0_lt_compat. split; [apply Rmult_le_pos; lra|]. apply (Rmult_le_reg_r d); [exact D|]. unfold Rdiv. rewrite Rmult_assoc, Rinv_l by exact D'. lra. }
  split; [|reflexivity]. apply (mlipb_smooth d _ m); [lra| |exact M|intros z Hz; apply Z, Q, Hz].
  assert (F : lipb d (fun z => RtoC (f (z / d)%R))).
  { assert (L0 := Rabs_pos L). assert (I : (0 < / d)%R) by now apply Rinv_0_lt_compat.
    assert (HL' : forall q q', (0 <= q <= 1)%R -> (0 <= q' <= 1)%R -> (Rabs (f q - f q') <= Rabs L * Rabs (q - q'))%R) by (intros q q' H H'; eapply Rle_trans; [now apply HL|]; apply Rmult_le_compat_r; [apply Rabs_pos|apply Rle_abs]).
    apply (lipb_real d (fun z => f (z / d)%R) (Rabs (f 0) + Rabs L)%R (Rabs L * / d)%R).
    - assert (X := Rabs_pos (f 0%R)). lra.
    - apply Rmult_le_pos; lra.
    - intros z Hz. replace (f (z / d)%R) with (f 0 + (f (z / d) - f 0))%R by ring. eapply Rle_trans; [apply Rabs_triang|]. apply Rplus_le_compat_l. eapply Rle_trans; [apply HL'; [now apply Q|lra]|].
      rewrite <- (Rmult_1_r (Rabs L)) at 2. apply Rmult_le_compat_l; [exact L0|]. rewrite Rminus_0_r, Rabs_pos_eq; apply Q, Hz.
    - intros z z' Hz Hz'. eapply Rle_trans; [apply HL'; now apply Q|]. replace (z / d - z' / d)%R with (/ d * (z - z'))%R by (field; exact D'). rewrite Rabs_mult, (Rabs_pos_eq (/ d)%R) by lra. lra. }
  intros i j _ _. unfold Mixture.mix, Mixture.vca. lip; exact F.
Qed.
Print Assumptions C105_varying.

(** A cell of a twisted birefringent medium (90 degrees over 5 lengths) on a metal at an incidence
    of 60 degrees: it has Jones matrices, and the solver approaches them with the linear propagator. *)
Lemma half_wave_exists kx (e : C) : e <> 0 -> exists n c, half_wave kx e n c.
Proof.
  intros E. exists (Csqrt e), (Csqrt ((e - kx * kx) / e)). unfold half_wave. rewrite !Csqrt_sqr. split; [reflexivity|]. split; [apply Csqrt_principal|]. split; [field; exact E|apply Csqrt_principal].
Qed.
Definition rod : mat := mat_of [[RtoC 3; RtoC 0; RtoC 0]; [RtoC 0; RtoC 2; RtoC 0]; [RtoC 0; RtoC 0; RtoC 2]].
Example C105_example : exists eps n_f c_f n_b c_b J_r J_t,
  (forall z, twisted_tensor rod 5 90 z = Some (eps z)) /\ ~ meq 3 (eps 0%R) (eps 5%R) /\
  scattering (2 * PI / 1) (Csqrt (RtoC 1) * RtoC (sin (60 * PI / 180))) n_f c_f n_b c_b [Graded 5 eps] J_r J_t /\
  exists K N, forall div, (Z.of_nat N <= div)%Z -> exists l res, make_inhomogeneous eps 5 div = Ok l /\
    solver4_structure propagator_linear 60 1 (Structure mid [l] (mscal (- (9), 1)%R mid)) = Some res /\
    forall i j, (i < 2)%nat -> (j < 2)%nat -> (Cmod (jones_r4 res i j - J_r i j)%C <= K / IZR div)%R.
Proof.
  destruct (C105_twisted rod 5 90 ltac:(lra)) as (eps & T & S & P & H); [unfold rod, mat_of; cbn [nth]; apply C_of_R_neq; lra|].
  assert (E1 : RtoC 1 <> 0) by (apply C_of_R_neq; lra). assert (E2 : (- (9), 1)%R <> RtoC 0) by (intros X; apply (f_equal snd) in X; cbn in X; lra).
  destruct (half_wave_exists (Csqrt (RtoC 1) * RtoC (sin (60 * PI / 180))) (RtoC 1) E1) as (nf & cf & Hf). destruct (half_wave_exists (Csqrt (RtoC 1) * RtoC (sin (60 * PI / 180))) (- (9), 1)%R E2) as (nb & cb & Hb).
  assert (Pr : passive rod).
  { intros E. unfold dissipation, mvec, rod, mat_of, csum. cbn [nth]. destruct (E 0%nat) as [a b], (E 1%nat) as [a' b'], (E 2%nat) as [a2 b2]. right. cbn. ring. }
  assert (A : cos (60 * PI / 180) <> 0%R) by (replace (60 * PI / 180)%R with (PI / 3)%R by field; rewrite cos_PI3; lra).
  destruct (C105_passive 60 1 mid (mscal (- (9), 1)%R mid) 1 (- (9), 1)%R nf cf nb cb [Graded 5 eps]) as (Jr & Jt & SC & K & N & AP); try assumption; try lra.
  - intros i j Hi Hj. unfold mscal. ring.
  - intros i j Hi Hj; reflexivity.
  - cbn. lra.
  - constructor; [exact S|constructor].
  - constructor; [|constructor]. intros z _. cbn [permittivity]. now apply P.
  - exists eps, nf, cf, nb, cb, Jr, Jt. split; [exact T|]. split; [|split; [exact SC|]].
    + intros M. specialize (M 0%nat 0%nat ltac:(lia) ltac:(lia)). rewrite (H 0%R 0%nat 0%nat), (H 5%R 0%nat 0%nat) in M by lia.
      replace (90 * PI / 180 * (0 / 5))%R with 0%R in M by field. replace (90 * PI / 180 * (5 / 5))%R with (PI / 2)%R in M by field. unfold mmul, mtr, z_turn, rod, mat_of, csum in M. cbn [nth] in M.
      rewrite cos_0, sin_0, cos_PI2, sin_PI2 in M. apply (f_equal fst) in M. cbn in M. lra.
    + exists K, (N + 1)%nat. intros div Hd. assert (X : exists l, make_inhomogeneous eps 5 div = Ok l).
      { unfold make_inhomogeneous. destruct (Rlt_dec 5 0); [lra|]. destruct (div <? 1)%Z eqn:Q; [apply Z.ltb_lt in Q; lia|]. eauto. }
      destruct X as [l Hl]. destruct (AP (Z.to_nat div) propagator_linear [l]) as (res & HR & HB); [lia| | |].
      * constructor; [|constructor]. exists div. split; [lia|exact Hl].
      * right. split; [reflexivity|]. constructor; [eauto|constructor].
      * exists l, res. split; [exact Hl|]. split; [exact HR|]. intros i j Hi Hj. destruct (HB i j Hi Hj) as [B _]. rewrite INR_IZR_INZ, Z2Nat.id in B by lia. exact B.
Qed.
