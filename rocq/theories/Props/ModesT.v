(** C42, C71: the modes of an exit medium that is not an IsotropicMaterial. *)
From Coq Require Import Reals Lra Psatz Lia ZArith.
From Coquelicot Require Import Complex.
From Coq Require Import List.
From Verif.Base Require Import Py Cx Mat Mexp Det.
From Verif.Model Require Import Units Ellips Structure Solver2 Solver4.
From Verif.Spec Require Import Tensor.
From Verif.Proof Require Import UnitsP DispersionsP Solver2P3 Solver4P Solver4P2 Solver4P3 Solver4P5 Solver4P6 ModesP.
From Verif.Props Require Import Solver4T.
Import ListNotations.
Open Scope R_scope.
Open Scope C_scope.
Open Scope py_scope.

(** C42: any two complete sets of eigenvectors of the exit medium, of any length, phase and order,
    also within a degenerate pair, give the same reflection. *)
Theorem C42_reflection : forall prop theta_i lbda eps_f ls eps_b delta eig eig' r r',
  exact_propagator prop (reduced_k_x theta_i eps_f) ls ->
  build_delta_matrix (reduced_k_x theta_i eps_f) eps_b = Some delta ->
  eigen_decomposition 4 delta eig -> eigen_decomposition 4 delta eig' ->
  two_forward (fst eig) -> two_forward (fst eig') ->
  solver4_aniso prop theta_i lbda eps_f ls eps_b eig = Some r ->
  solver4_aniso prop theta_i lbda eps_f ls eps_b eig' = Some r' ->
  meq 2 (jones_r4 r) (jones_r4 r').
Proof.
  intros prop th lb ef ls eb delta eig eig' r r' P D E E' T T' H H'.
  assert (O : eps_ok ls).
  { destruct (eps_dec ls) as [|O]; [assumption|]. exfalso. unfold solver4_aniso in H. rewrite D in H. cbn [obind] in H.
    destruct (transition_matrix_halfspace eig) as [M|]; [|discriminate]. cbn [obind] in H. rewrite jones4_eps in H by exact O. discriminate. }
  assert (G := proj1 (exact_good prop _ lb ls P O)).
  unfold solver4_aniso in H, H'. rewrite D in H, H'. cbn [obind] in H, H'.
  destruct (transition_matrix_halfspace eig) as [M|] eqn:EM; [|discriminate]. destruct (transition_matrix_halfspace eig') as [M'|] eqn:EM'; [|discriminate].
  cbn [obind] in H, H'. destruct (jones4 prop th lb ef ls M) as [[a b]|] eqn:J; [|discriminate]. destruct (jones4 prop th lb ef ls M') as [[a' b']|] eqn:J'; [|discriminate].
  cbn [obind] in H, H'. apply Some_eq in H, H'. subst r r'. cbn [jones_r4].
  symmetry. refine (jones_spans prop prop th lb ef ls M M' a b a' b' G G _ J J'). exact (modes_spans delta eig eig' M M' E E' T T' EM EM').
Qed.
Print Assumptions C42_reflection.

(** C71: an exit medium with an isotropic tensor gives the same reflection, whether it is an
    IsotropicMaterial or not. *)
Theorem C71_reflection : forall prop theta_i lbda eps_f ls eps_b (x : R) (e_b : C) delta eig r r',
  isotropic eps_f (RtoC x) -> (0 < x)%R -> cos (theta_i * PI / 180) <> 0%R ->
  isotropic eps_b e_b -> e_b <> 0 -> (0 <= Im e_b)%R ->
  e_b <> RtoC (x * (sin (theta_i * PI / 180) * sin (theta_i * PI / 180))) ->
  exact_propagator prop (reduced_k_x theta_i eps_f) ls ->
  build_delta_matrix (reduced_k_x theta_i eps_f) eps_b = Some delta -> eigen_decomposition 4 delta eig ->
  solver4 prop theta_i lbda eps_f ls eps_b = Some r ->
  solver4_aniso prop theta_i lbda eps_f ls eps_b eig = Some r' ->
  meq 2 (jones_r4 r) (jones_r4 r').
Proof.
  intros prop th lb ef ls eb x e delta eig r r' If X Cz Ib N Pe NK P D E H H'.
  assert (O : eps_ok ls) by (destruct (eps_dec ls); [assumption|rewrite solver4_eps in H by assumption; discriminate]).
  assert (G := proj1 (exact_good prop _ lb ls P O)).
  destruct (front_real th ef x If X Cz) as (_ & Kx & _). set (kx := (sqrt x * sin (deg2rad th))%R) in *.
  destruct (back_passive kx eb e Ib N Pe) as (_ & In & Ic & Rz & _).
  assert (Nb : iso_n eb <> 0) by (rewrite (iso_n_eq eb e Ib); now apply Csqrt_neq0).
  assert (EN : iso_n eb * iso_n eb = e) by (rewrite (iso_n_eq eb e Ib); apply Csqrt_sqr).
  unfold solver4 in H. unfold solver4_aniso in H'. rewrite D in H'. rewrite Kx in *.
  rewrite iso_L_eq in H by exact Nb. cbn [obind] in H, H'.
  set (n := iso_n eb) in *. set (c := iso_cos (RtoC kx) eb) in *.
  assert (SQ : n * n * (c * c) = n * n - RtoC kx * RtoC kx) by (now apply iso_cos_sqr).
  assert (K2 : (kx * kx = x * (sin (deg2rad th) * sin (deg2rad th)))%R).
  { unfold kx. transitivity (sqrt x * sqrt x * (sin (deg2rad th) * sin (deg2rad th)))%R; [ring|]. now rewrite sqrt_sqrt by lra. }
  assert (Q0 : n * c <> 0).
  { intros Z. apply NK. fold (deg2rad th). rewrite <- K2, RtoC_mult, <- EN. transitivity (n * n * (c * c) + RtoC kx * RtoC kx); [rewrite SQ; ring|].
    transitivity ((n * c) * (n * c) + RtoC kx * RtoC kx); [ring|rewrite Z; ring]. }
  assert (Nc : c <> 0) by (intros Z; apply Q0; rewrite Z; ring).
  assert (FW : forward_value (n * c)).
  { assert (I2 : (0 <= Im (n * c)%C)%R).
    { assert (Q := kz_layer_quad e kx N Pe). assert (EE : n * c = kz_layer (RtoC kx) e).
      { unfold kz_layer. unfold n, c, iso_cos. rewrite (iso_n_eq eb e Ib), <- Ccos_Casin. reflexivity. }
      rewrite EE. apply Q. }
    unfold forward_value. destruct (Rle_lt_or_eq_dec _ _ I2) as [I3|I3]; [now left|right]. split; [now symmetry|].
    destruct (Rle_lt_or_eq_dec _ _ Rz) as [R3|R3]; [exact R3|]. exfalso. apply Q0. apply C_ext; [now symmetry|now symmetry]. }
  assert (EG : meq 4 (mmul 4 delta (isoL n c)) (mmul 4 (isoL n c) (mdiag (vec_of [n * c; - (n * c); n * c; - (n * c)])))).
  { destruct (delta_iso (RtoC kx) eb e N Ib) as (D' & ED & M). rewrite D in ED. apply Some_eq in ED. subst D'. rewrite M, <- EN. now apply iso_eigen. }
  assert (TF := iso_two_forward delta eig n c Nb Nc FW EG E).
  destruct (transition_matrix_halfspace eig) as [M|] eqn:EM; [|discriminate]. cbn [obind] in H'.
  destruct (jones4 prop th lb ef ls (isoL n c)) as [[a b]|] eqn:J; [|discriminate]. destruct (jones4 prop th lb ef ls M) as [[a' b']|] eqn:J'; [|discriminate].
  cbn [obind] in H, H'. apply Some_eq in H, H'. subst r r'. cbn [jones_r4].
  refine (jones_spans prop prop th lb ef ls M (isoL n c) a' b' a b _ _ _ J' J).
  - rewrite Kx. exact G.
  - rewrite Kx. exact G.
  - exact (halfspace_spans delta eig (isoL n c) _ M E TF EM EG FW FW).
Qed.
Print Assumptions C71_reflection.

(** Eigenvectors of an isotropic medium with index n at the angle with cosine c, where the column
    a is multiplied by f a *)
Definition scaled (f : nat -> C) (n c : C) : (nat -> C) * mat :=
  (vec_of [n * c; - (n * c); n * c; - (n * c)], fun i a => isoL n c i a * f a).
Lemma scaled_decomposition (k n c e : C) (f : nat -> C) eps : isotropic eps e -> n <> 0 -> c <> 0 -> n * n = e ->
  n * n * (c * c) = n * n - k * k -> (forall a, (a < 4)%nat -> f a <> 0) ->
  exists delta, build_delta_matrix k eps = Some delta /\ eigen_decomposition 4 delta (scaled f n c).
Proof.
  intros I N Cz E S F. assert (Ne : e <> 0) by (rewrite <- E; now apply Cmult_neq_0).
  destruct (delta_iso k eps e Ne I) as (D & ED & M). exists D. split; [exact ED|].
  assert (EG := iso_eigen k n c N S). cbv zeta in EG. rewrite E in EG. rewrite <- M in EG.
  destruct (iso_inverse n c N Cz) as [I1 I2]. split; unfold scaled; cbn [fst snd].
  - intros i j Hi Hj. assert (K := EG i j Hi Hj).
    transitivity (mmul 4 D (isoL n c) i j * f j).
    { unfold mmul. rewrite <- csum_mult_r. apply csum_ext. intros k' _. ring. }
    rewrite K. unfold mmul, mdiag. rewrite (csum_single 4 (fun k => isoL n c i k * _) j Hj).
    + cbv beta. rewrite Nat.eqb_refl. ring.
    + intros k' Hk D'. destruct (Nat.eqb_spec k' j); [contradiction|ring].
  - exists (fun a j => isoLi n c a j / f a). split.
    + intros i j Hi Hj. rewrite <- (I1 i j Hi Hj). unfold mmul. apply csum_ext. intros k' Hk. field. now apply F.
    + intros i j Hi Hj. transitivity (mmul 4 (isoLi n c) (isoL n c) i j * (f j / f i)).
      { unfold mmul. rewrite <- csum_mult_r. apply csum_ext. intros k' Hk. field. now apply F. }
      rewrite (I2 i j Hi Hj). unfold mid. destruct (Nat.eqb_spec i j) as [->|]; [field; now apply F|ring].
Qed.
Lemma scaled_halfspace (f : nat -> C) (n c : C) : forward_value (n * c) ->
  transition_matrix_halfspace (scaled f n c) =
  let p := halfspace_phases (fun i a => match a with 0%nat | 1%nat | 2%nat | 3%nat => isoL n c i a * f a | _ => isoL n c i 0%nat * f 0%nat end) in
  let s := p 1%nat 0%nat + p 1%nat 1%nat in
  if Ceq_dec s 0 then None else Some (fun i a => 2 * p i a / s).
Proof.
  intros F. unfold transition_matrix_halfspace, scaled. cbn [fst snd].
  rewrite (order_std (n * c)); [|exact F| |]; [|unfold isoL, mat_of; cbn [nth]; ring|unfold isoL, mat_of; cbn [nth]; ring].
  assert (E : take_cols (fun i a => isoL n c i a * f a) [0; 1; 2; 3]%nat =
    fun i a => match a with 0%nat | 1%nat | 2%nat | 3%nat => isoL n c i a * f a | _ => isoL n c i 0%nat * f 0%nat end).
  { apply FunctionalExtensionality.functional_extensionality. intros i. apply FunctionalExtensionality.functional_extensionality. intros a.
    unfold take_cols. destruct a as [|[|[|[|[|a]]]]]; reflexivity. }
  rewrite E. reflexivity.
Qed.

Lemma unit_phase_pos (x : R) : (0 < x)%R -> unit_phase (RtoC x) = 1.
Proof.
  intros H. unfold unit_phase. assert (N : RtoC x <> 0) by (apply C_of_R_neq; lra). destruct (Ceq_dec (RtoC x) 0); [contradiction|].
  rewrite Cmod_R, Rabs_pos_eq by lra. field. exact N.
Qed.
Definition one_each (a : nat) : C := RtoC 1.
Definition turned (a : nat) : C := match a with 0%nat => Ci | _ => RtoC 1 end.
Lemma vacuum_modes (f : nat -> C) eps : isotropic eps (RtoC 1) -> (forall a, (a < 4)%nat -> f a <> 0) ->
  exists delta, build_delta_matrix 0 eps = Some delta /\ eigen_decomposition 4 delta (scaled f 1 1).
Proof.
  intros I F. assert (N1 : RtoC 1 <> 0) by (apply C_of_R_neq; lra). apply (scaled_decomposition 0 1 1 1 f eps I N1 N1); [ring|ring|exact F].
Qed.
Lemma forward_one : forward_value (1 * 1).
Proof. right. simpl. lra. Qed.
Lemma std_two_forward (z : C) : forward_value z -> two_forward (vec_of [z; - z; z; - z]).
Proof.
  intros F. assert (NF : ~ forward_value (- z)).
  { unfold forward_value in *. unfold Re, Im in *. destruct z as [z1 z2]. cbn [fst snd Copp] in *. destruct F as [F|[F F']]; intros [A|[A A']]; lra. }
  exists 0%nat, 2%nat. do 3 (split; [lia|]). intros k Hk. unfold vec_of. idx k; cbn [nth]; split; intros Y; auto; try contradiction; lia.
Qed.

(** C42 for eigenvectors of different lengths *)
Definition stretched (a : nat) : C := match a with 0%nat => RtoC 3 | _ => RtoC 1 end.
Example C42_example : exists delta r r',
  build_delta_matrix (reduced_k_x 0 (mscal (RtoC 1) mid)) (mscal (RtoC 1) mid) = Some delta /\
  eigen_decomposition 4 delta (scaled one_each 1 1) /\ eigen_decomposition 4 delta (scaled stretched 1 1) /\
  two_forward (fst (scaled one_each 1 1)) /\
  solver4_aniso propagator_expm 0 1 (mscal (RtoC 1) mid) [] (mscal (RtoC 1) mid) (scaled one_each 1 1) = Some r /\
  solver4_aniso propagator_expm 0 1 (mscal (RtoC 1) mid) [] (mscal (RtoC 1) mid) (scaled stretched 1 1) = Some r' /\
  jones_t4 r 1%nat 1%nat <> jones_t4 r' 1%nat 1%nat.
Proof.
  set (vac := mscal (RtoC 1) mid). assert (I : isotropic vac (RtoC 1)) by (unfold isotropic, vac; reflexivity).
  assert (Cz : cos (deg2rad 0) <> 0%R) by (unfold deg2rad; replace (0 * PI / 180)%R with 0%R by field; rewrite cos_0; lra).
  destruct (front_real 0 vac 1 I ltac:(lra) Cz) as (Nf & Kx & Cf & _).
  assert (Z : (0 * PI / 180 = 0)%R) by field. unfold deg2rad in Kx, Cf. rewrite Z, sin_0, Rmult_0_r in Kx. rewrite Kx, Z, cos_0, Rabs_R1 in Cf. rewrite sqrt_1 in Nf.
  assert (N1 : RtoC 1 <> 0) by (apply C_of_R_neq; lra).
  destruct (vacuum_modes one_each vac I ltac:(intros; exact N1)) as (D & ED & E1).
  destruct (vacuum_modes stretched vac I ltac:(intros a Ha; unfold stretched; destruct a; [apply C_of_R_neq; lra|exact N1])) as (D' & ED' & E2). rewrite ED in ED'. apply Some_eq in ED'. subst D'.
  assert (HM : forall g : R, (0 < g)%R -> forall f : nat -> C, f 0%nat = RtoC g -> f 1%nat = 1 -> f 2%nat = 1 -> f 3%nat = 1 ->
    exists M, transition_matrix_halfspace (scaled f 1 1) = Some M /\ forall i, M i 0%nat = RtoC (2 * g / (g + 1)) * isoL 1 1 i 0%nat /\ M i 2%nat = RtoC (2 / (g + 1)) * isoL 1 1 i 2%nat).
  { intros g Hg f F0 F1 F2 F3. rewrite scaled_halfspace by exact forward_one. cbv zeta. unfold halfspace_phases. rewrite F0, F1.
    assert (P0 : isoL 1 1 1%nat 0%nat * RtoC g = RtoC g) by (unfold isoL, mat_of; cbn [nth]; ring).
    assert (P1 : isoL 1 1 1%nat 1%nat * 1 = RtoC 1) by (unfold isoL, mat_of; cbn [nth]; ring).
    assert (P2 : isoL 1 1 0%nat 2%nat * 1 = RtoC 1) by (unfold isoL, mat_of; cbn [nth]; ring).
    rewrite P0, P1, (unit_phase_pos 1), (unit_phase_pos g) by lra.
    assert (SS : RtoC g * 1 + 1 * 1 = RtoC (g + 1)) by (apply C_ext; simpl; ring). rewrite SS. assert (NS : RtoC (g + 1) <> 0) by (apply C_of_R_neq; lra).
    destruct (Ceq_dec (RtoC (g + 1)) 0) as [K|K]; [contradiction|].
    eexists. split; [reflexivity|]. intros i. cbv beta iota. rewrite F0, F2, P0, P2, (unit_phase_pos 1), (unit_phase_pos g) by lra.
    split; rewrite ?F0, RtoC_div by lra; rewrite ?RtoC_mult; field; exact NS. }
  assert (U : forall M' (x y : R), (x <> 0)%R -> (y <> 0)%R -> (forall i, M' i 0%nat = RtoC x * isoL 1 1 i 0%nat /\ M' i 2%nat = RtoC y * isoL 1 1 i 2%nat) ->
    exists Jr Jt, jones4 propagator_expm 0 1 vac [] M' = Some (Jr, Jt) /\ Jt 1%nat 1%nat = RtoC (/ x)).
  { intros M' x y Nx Ny Cl'. destruct (jones4_some propagator_expm 0 1 vac [] M' (mat_of [[RtoC (/ y); RtoC 0]; [RtoC 0; RtoC (/ x)]])) as (Jr & Jt & J & V & _).
    - apply expm_exact.
    - apply expm_total.
    - constructor.
    - now left.
    - rewrite Nf. exact N1.
    - rewrite Kx, Cf. exact N1.
    - rewrite Kx. unfold kmat. cbn [tmat]. rewrite Nf, Cf.
      assert (T : meq 2 (t_it (mmul 4 (isoLi 1 1) (mmul 4 mid M'))) (mat_of [[RtoC y; RtoC 0]; [RtoC 0; RtoC x]])).
      { rewrite (t_it_meq _ (mmul 4 (isoLi 1 1) M')) by (rewrite mmul_1_l; reflexivity).
        destruct (iso_inverse 1 1 N1 N1) as [_ I2].
        assert (Q0 : forall i, (i < 4)%nat -> mmul 4 (isoLi 1 1) M' i 0%nat = RtoC x * mid i 0%nat).
        { intros i Hi. rewrite <- (I2 i 0%nat Hi ltac:(lia)). unfold mmul. rewrite <- csum_mult_l. apply csum_ext. intros k Hk. rewrite (proj1 (Cl' k)). ring. }
        assert (Q2 : forall i, (i < 4)%nat -> mmul 4 (isoLi 1 1) M' i 2%nat = RtoC y * mid i 2%nat).
        { intros i Hi. rewrite <- (I2 i 2%nat Hi ltac:(lia)). unfold mmul. rewrite <- csum_mult_l. apply csum_ext. intros k Hk. rewrite (proj2 (Cl' k)). ring. }
        mexpl; unfold t_it, mat_of; cbn [nth]; rewrite ?Q0, ?Q2 by lia; unfold mid; cbn [Nat.eqb]; ring. }
      split; rewrite T; mexpl; unfold mmul, mid, mat_of, csum; cbn [nth Nat.eqb]; rewrite ?RtoC_inv by assumption; (ring || (field; now apply C_of_R_neq)).
    - exists Jr, Jt. split; [exact J|]. rewrite V by lia. reflexivity. }
  destruct (HM 1%R ltac:(lra) one_each eq_refl eq_refl eq_refl eq_refl) as (M & HM1 & Cl1).
  destruct (HM 3%R ltac:(lra) stretched eq_refl eq_refl eq_refl eq_refl) as (M' & HM2 & Cl2).
  destruct (U M (2 * 1 / (1 + 1))%R (2 / (1 + 1))%R ltac:(lra) ltac:(lra) Cl1) as (Jr & Jt & J & V).
  destruct (U M' (2 * 3 / (3 + 1))%R (2 / (3 + 1))%R ltac:(lra) ltac:(lra) Cl2) as (Jr' & Jt' & J' & V').
  exists D, (Result4 Jr Jt (Some 1%R)), (Result4 Jr' Jt' (Some 1%R)). rewrite Kx. split; [exact ED|]. split; [exact E1|]. split; [exact E2|].
  split; [apply std_two_forward, forward_one|].
  unfold solver4_aniso. rewrite Kx, ED. cbn [obind]. rewrite HM1, HM2. cbn [obind]. rewrite J, J'. split; [reflexivity|]. split; [reflexivity|].
  cbn [jones_t4]. rewrite V, V'. intros K. apply RtoC_inj in K. lra.
Qed.

(** C42: the phase of an eigenvector can decide whether there is a result at all: light from vacuum
    to vacuum; the second set of eigenvectors has one of them multiplied by i. *)
Theorem C42_phase_refuted : exists prop theta_i lbda eps_f eps_b delta eig eig' r,
  exact_propagator prop (reduced_k_x theta_i eps_f) [] /\
  build_delta_matrix (reduced_k_x theta_i eps_f) eps_b = Some delta /\
  eigen_decomposition 4 delta eig /\ eigen_decomposition 4 delta eig' /\
  two_forward (fst eig) /\ two_forward (fst eig') /\
  (forall i a, (a <> 0)%nat -> snd eig' i a = snd eig i a) /\ (forall i, snd eig' i 0%nat = Ci * snd eig i 0%nat) /\
  solver4_aniso prop theta_i lbda eps_f [] eps_b eig = Some r /\
  solver4_aniso prop theta_i lbda eps_f [] eps_b eig' = None.
Proof.
  set (vac := mscal (RtoC 1) mid). assert (I : isotropic vac (RtoC 1)) by (unfold isotropic, vac; reflexivity).
  assert (Cz : cos (deg2rad 0) <> 0%R) by (unfold deg2rad; replace (0 * PI / 180)%R with 0%R by field; rewrite cos_0; lra).
  destruct (front_real 0 vac 1 I ltac:(lra) Cz) as (Nf & Kx & Cf & _).
  assert (Z : (0 * PI / 180 = 0)%R) by field. unfold deg2rad in Kx, Cf. rewrite Z, sin_0, Rmult_0_r in Kx. rewrite Kx, Z, cos_0, Rabs_R1 in Cf. rewrite sqrt_1 in Nf.
  assert (N1 : RtoC 1 <> 0) by (apply C_of_R_neq; lra).
  destruct (vacuum_modes one_each vac I ltac:(intros; exact N1)) as (D & ED & E1).
  destruct (vacuum_modes turned vac I ltac:(intros a Ha; unfold turned; destruct a; [exact Ci_neq0|exact N1])) as (D' & ED' & E2). rewrite ED in ED'. apply Some_eq in ED'. subst D'.
  assert (H1 : exists M, transition_matrix_halfspace (scaled one_each 1 1) = Some M /\ forall i, M i 0%nat = isoL 1 1 i 0%nat /\ M i 2%nat = isoL 1 1 i 2%nat).
  { rewrite scaled_halfspace by exact forward_one. cbv zeta. unfold halfspace_phases.
    assert (P0 : isoL 1 1 1%nat 0%nat * one_each 0 = RtoC 1) by (unfold isoL, mat_of, one_each; cbn [nth]; ring).
    assert (P1 : isoL 1 1 1%nat 1%nat * one_each 1 = RtoC 1) by (unfold isoL, mat_of, one_each; cbn [nth]; ring).
    assert (P2 : isoL 1 1 0%nat 2%nat * one_each 2 = RtoC 1) by (unfold isoL, mat_of, one_each; cbn [nth]; ring).
    rewrite P0, P1. rewrite (unit_phase_pos 1) by lra.
    destruct (Ceq_dec (1 * 1 + 1 * 1) 0) as [K|K]; [exfalso; apply (f_equal fst) in K; simpl in K; lra|].
    eexists. split; [reflexivity|]. intros i. cbv beta iota. rewrite ?P0, ?P2, (unit_phase_pos 1) by lra. unfold one_each. split; Cfield. }
  destruct H1 as (M & HM & Cl).
  assert (H2 : transition_matrix_halfspace (scaled turned 1 1) = None).
  { rewrite scaled_halfspace by exact forward_one. cbv zeta. unfold halfspace_phases.
    assert (P0 : isoL 1 1 1%nat 0%nat * turned 0 = Ci) by (unfold isoL, mat_of, turned; cbn [nth]; ring).
    assert (P1 : isoL 1 1 1%nat 1%nat * turned 1 = RtoC 1) by (unfold isoL, mat_of, turned; cbn [nth]; ring).
    rewrite P0, P1. rewrite (unit_phase_pos 1) by lra.
    assert (UI : unit_phase Ci = Ci).
    { unfold unit_phase. destruct (Ceq_dec Ci 0) as [K|K]; [now apply Ci_neq0 in K|].
      assert (MC : Cmod Ci = 1%R) by (unfold Cmod, Ci; simpl; replace (0 * (0 * 1) + 1 * (1 * 1))%R with 1%R by ring; apply sqrt_1). rewrite MC. field. exact N1. }
    rewrite UI. destruct (Ceq_dec (Ci * Ci + 1 * 1) 0) as [K|K]; [reflexivity|]. exfalso. apply K. apply C_ext; simpl; ring. }
  assert (J : exists Jr Jt, jones4 propagator_expm 0 1 vac [] M = Some (Jr, Jt)).
  { destruct (jones4_some propagator_expm 0 1 vac [] M mid) as (Jr & Jt & J & _).
    - apply expm_exact.
    - apply expm_total.
    - constructor.
    - now left.
    - rewrite Nf. exact N1.
    - rewrite Kx, Cf. exact N1.
    - rewrite Kx. unfold kmat. cbn [tmat]. rewrite Nf, Cf.
      assert (T : meq 2 (t_it (mmul 4 (isoLi 1 1) (mmul 4 mid M))) mid).
      { rewrite (t_it_meq _ (mmul 4 (isoLi 1 1) M)) by (rewrite mmul_1_l; reflexivity).
        assert (Q0 : forall i, M i 0%nat = isoL 1 1 i 0%nat) by (intros i; apply Cl). assert (Q2 : forall i, M i 2%nat = isoL 1 1 i 2%nat) by (intros i; apply Cl).
        mexpl; unfold t_it, mmul, mat_of, csum; cbn [nth]; rewrite ?Q0, ?Q2; unfold isoL, isoLi, mscal, mid, mat_of; cbn [nth Nat.eqb]; apply C_ext; simpl; field. }
      split; rewrite T; apply mmul_1_l.
    - eauto. }
  destruct J as (Jr & Jt & J).
  exists propagator_expm, 0%R, 1%R, vac, vac, D, (scaled one_each 1 1), (scaled turned 1 1). eexists.
  split; [now left|]. rewrite Kx. split; [exact ED|]. split; [exact E1|]. split; [exact E2|].
  split; [apply std_two_forward, forward_one|]. split; [apply std_two_forward, forward_one|].
  split; [intros i a Ha; unfold scaled, one_each, turned; cbn [snd]; destruct a; [contradiction|reflexivity]|].
  split; [intros i; unfold scaled, one_each, turned; cbn [snd]; ring|].
  unfold solver4_aniso. rewrite Kx, ED. cbn [obind]. rewrite HM, H2. cbn [obind]. rewrite J. split; reflexivity.
Qed.
Print Assumptions C42_phase_refuted.

(** C42: the step that should make Ey of the s modes real and positive does not: a medium with the
    permittivity 2i at normal incidence.  As LAPACK does, the eigenvectors have a real and positive
    largest component. *)
Theorem C42_positive_refuted : exists eps_b delta eig,
  isotropic eps_b (2 * Ci) /\ build_delta_matrix (reduced_k_x 0 (mscal (RtoC 1) mid)) eps_b = Some delta /\
  eigen_decomposition 4 delta eig /\ two_forward (fst eig) /\
  (forall a, (a < 4)%nat -> exists i, snd eig i a = 1 /\ forall k, (k < 4)%nat -> (Cmod (snd eig k a) <= 1)%R) /\
  let p := halfspace_phases (take_cols (snd eig) (halfspace_order eig)) in
  p 1%nat 0%nat <> 0 /\ Re (p 1%nat 0%nat) = 0%R.
Proof.
  set (eb := mscal (2 * Ci) mid). assert (I : isotropic eb (2 * Ci)) by (unfold isotropic, eb; reflexivity).
  assert (Kx : reduced_k_x 0 (mscal (RtoC 1) mid) = 0).
  { unfold reduced_k_x, deg2rad. replace (0 * PI / 180)%R with 0%R by field. rewrite sin_0. ring. }
  set (n := (1, 1)%R : C).
  assert (N : n <> 0) by (intros K; apply (f_equal fst) in K; simpl in K; lra). assert (N1 : RtoC 1 <> 0) by (apply C_of_R_neq; lra).
  assert (NN : n * n = 2 * Ci) by (apply C_ext; simpl; ring).
  set (f := fun a : nat => match a with 0%nat => - / n | _ => / n end).
  assert (F : forall a, f a <> 0) by (intros a; unfold f; destruct a; [apply Copp_neq0|]; now apply Cinv_neq0).
  destruct (scaled_decomposition 0 n 1 (2 * Ci) f eb I N N1 NN) as (D & ED & E); [ring|intros; apply F|].
  assert (FW : forward_value (n * 1)) by (left; simpl; lra).
  assert (CN : (Cmod (/ n)%C <= 1)%R).
  { rewrite Cmod_inv by exact N. rewrite <- Rinv_1. apply Rinv_le_contravar; [lra|].
    unfold Cmod, n. simpl. rewrite <- sqrt_1 at 1. apply sqrt_le_1; lra. }
  assert (C1 : (Cmod (RtoC 1) <= 1)%R) by (rewrite Cmod_1; lra). assert (C0 : (Cmod (RtoC 0) <= 1)%R) by (rewrite Cmod_0; lra).
  exists eb, D, (scaled f n 1). split; [exact I|]. rewrite Kx. split; [exact ED|]. split; [exact E|]. split; [now apply std_two_forward|]. split.
  - assert (V : forall i a, (i < 4)%nat -> (a < 4)%nat -> snd (scaled f n 1) i a = mat_of [[RtoC 0; RtoC 0; / n; - / n]; [- / n; / n; RtoC 0; RtoC 0]; [RtoC 1; RtoC 1; RtoC 0; RtoC 0]; [RtoC 0; RtoC 0; RtoC 1; RtoC 1]] i a).
    { intros i a Hi Ha. unfold scaled, f, isoL, mat_of. cbn [snd]. idx i; idx a; cbn [nth]; field; exact N. }
    assert (CO : (Cmod (- / n)%C <= 1)%R) by (rewrite Cmod_opp; exact CN).
    intros a Ha. exists (if Nat.ltb a 2 then 2%nat else 3%nat). split.
    + rewrite V; [|destruct (Nat.ltb a 2); lia|exact Ha]. idx a; reflexivity.
    + intros k Hk. rewrite V by assumption. unfold mat_of. idx k; idx a; cbn [nth]; assumption.
  - cbv zeta. assert (OS : halfspace_order (scaled f n 1) = [0; 1; 2; 3]%nat) by (apply order_std; [exact FW| |]; unfold isoL, mat_of; cbn [nth]; ring).
    rewrite OS.
    assert (P : halfspace_phases (take_cols (snd (scaled f n 1)) [0; 1; 2; 3]%nat) 1%nat 0%nat = - / n * unit_phase (- / n)).
    { unfold halfspace_phases, take_cols, scaled, f. cbn [snd nth]. unfold isoL, mat_of. cbn [nth]. rewrite Cmult_1_l. reflexivity. }
    rewrite P. assert (NI : - / n <> 0) by (apply Copp_neq0; now apply Cinv_neq0).
    assert (NM : Cmod (- / n) <> 0%R) by (intros K; apply Cmod_eq_0 in K; contradiction).
    unfold unit_phase. destruct (Ceq_dec (- / n) 0); [contradiction|].
    split; [apply Cmult_neq_0; [exact NI|apply Cdiv_neq0; [exact NI|now apply C_of_R_neq]]|].
    assert (SQ : - / n * - / n = (0, - (1 / 2))%R).
    { transitivity (/ (n * n)); [field; exact N|]. rewrite NN. apply C_ext; simpl; field. }
    set (m := Cmod (- / n)%C) in *. clearbody m.
    transitivity (Re ((- / n * - / n) * RtoC (/ m))%C); [f_equal; rewrite RtoC_inv by exact NM; unfold Cdiv; ring|].
    rewrite SQ. simpl. ring.
Qed.
Print Assumptions C42_positive_refuted.

(** C71: the transmission differs, although the comment in the code says that the matrices are the
    same: within a medium of index 2, at 30 degrees, with eigenvectors of length one, a quarter of
    19/4 of the p polarised power arrives behind an interface that does not exist. *)
Definition unit_length (a : nat) : C := match a with 0%nat | 1%nat => RtoC (1 / 2) | _ => RtoC (2 / sqrt 19) end.
Theorem C71_transmission_refuted : exists prop theta_i lbda eps delta eig r r',
  isotropic eps (RtoC 4) /\ exact_propagator prop (reduced_k_x theta_i eps) [] /\ cos (theta_i * PI / 180) <> 0%R /\
  build_delta_matrix (reduced_k_x theta_i eps) eps = Some delta /\ eigen_decomposition 4 delta eig /\
  (forall a, (a < 4)%nat -> (Cmod (snd eig 0%nat a) ^ 2 + Cmod (snd eig 1%nat a) ^ 2 + Cmod (snd eig 2%nat a) ^ 2 + Cmod (snd eig 3%nat a) ^ 2 = 1)%R) /\
  solver4 prop theta_i lbda eps [] eps = Some r /\
  solver4_aniso prop theta_i lbda eps [] eps eig = Some r' /\
  power_correction4 r = Some 1%R /\ power_correction4 r' = Some 1%R /\
  (T_matrix 1 (jones_t4 r) 0 0 = 1)%R /\ (T_matrix 1 (jones_t4 r') 0 0 = 19 / 16)%R.
Proof.
  set (eb := mscal (RtoC 4) mid). assert (I : isotropic eb (RtoC 4)) by (unfold isotropic, eb; reflexivity).
  assert (C30 : cos (30 * PI / 180) = (sqrt 3 / 2)%R) by (replace (30 * PI / 180)%R with (PI / 6)%R by field; apply cos_PI6).
  assert (S30 : sin (30 * PI / 180) = (1 / 2)%R) by (replace (30 * PI / 180)%R with (PI / 6)%R by field; apply sin_PI6).
  assert (s3 : (0 < sqrt 3)%R) by (apply sqrt_lt_R0; lra). assert (q3 : (sqrt 3 * sqrt 3 = 3)%R) by (apply sqrt_sqrt; lra).
  assert (s19 : (0 < sqrt 19)%R) by (apply sqrt_lt_R0; lra). assert (q19 : (sqrt 19 * sqrt 19 = 19)%R) by (apply sqrt_sqrt; lra).
  assert (s4 : sqrt 4 = 2%R) by (replace 4%R with (2 * 2)%R by ring; apply sqrt_square; lra).
  assert (Cz : cos (deg2rad 30) <> 0%R) by (unfold deg2rad; rewrite C30; lra).
  destruct (front_real 30 eb 4 I ltac:(lra) Cz) as (Nf & Kx & Cf & Kz & _). unfold deg2rad in Kx, Cf, Kz. rewrite s4 in *. rewrite S30 in Kx. rewrite C30 in Cf, Kz.
  replace (2 * (1 / 2))%R with 1%R in Kx by field. rewrite Kx in Cf, Kz. rewrite Rabs_pos_eq in Cf, Kz by lra.
  set (c := RtoC (sqrt 3 / 2)) in *. assert (N2 : RtoC 2 <> 0) by (apply C_of_R_neq; lra). assert (Nc : c <> 0) by (apply C_of_R_neq; lra).
  assert (FU : forall a, (a < 4)%nat -> unit_length a <> 0).
  { assert (H2 : (0 < 2 / sqrt 19)%R) by (apply Rdiv_lt_0_compat; lra). intros a Ha. unfold unit_length. idx a; apply C_of_R_neq; lra. }
  destruct (scaled_decomposition (RtoC 1) (RtoC 2) c (RtoC 4) unit_length eb I N2 Nc) as (D & ED & E).
  { apply C_ext; simpl; ring. }
  { apply C_ext; simpl; nra. }
  { exact FU. }
  assert (FW : forward_value (RtoC 2 * c)) by (right; simpl; lra).
  assert (HM : exists M, transition_matrix_halfspace (scaled unit_length (RtoC 2) c) = Some M /\
    forall i, M i 0%nat = isoL (RtoC 2) c i 0%nat /\ M i 2%nat = RtoC (4 / sqrt 19) * isoL (RtoC 2) c i 2%nat).
  { rewrite scaled_halfspace by exact FW. cbv zeta. unfold halfspace_phases.
    assert (P0 : isoL (RtoC 2) c 1%nat 0%nat * unit_length 0 = RtoC (1 / 2)) by (unfold isoL, mat_of, unit_length; cbn [nth]; ring).
    assert (P1 : isoL (RtoC 2) c 1%nat 1%nat * unit_length 1 = RtoC (1 / 2)) by (unfold isoL, mat_of, unit_length; cbn [nth]; ring).
    assert (P2 : isoL (RtoC 2) c 0%nat 2%nat * unit_length 2 = RtoC (sqrt 3 / 2 * (2 / sqrt 19))) by (unfold isoL, mat_of, unit_length; cbn [nth]; now rewrite RtoC_mult).
    rewrite P0, P1. rewrite (unit_phase_pos (1 / 2)) by lra.
    assert (SS : RtoC (1 / 2) * 1 + RtoC (1 / 2) * 1 = 1) by (apply C_ext; simpl; field). rewrite SS.
    destruct (Ceq_dec 1 0) as [K|K]; [exfalso; apply RtoC_inj in K; lra|].
    eexists. split; [reflexivity|]. intros i. cbv beta iota. rewrite ?P0, ?P2.
    rewrite (unit_phase_pos (1 / 2)) by lra. rewrite (unit_phase_pos (sqrt 3 / 2 * (2 / sqrt 19))) by (apply Rmult_lt_0_compat; [lra|apply Rdiv_lt_0_compat; lra]).
    unfold unit_length. split.
    - replace (RtoC (1 / 2)) with (/ RtoC 2) by (rewrite <- RtoC_inv by lra; f_equal; lra). Cfield.
    - replace (RtoC (4 / sqrt 19)) with (2 * RtoC (2 / sqrt 19)) by (rewrite <- RtoC_mult; f_equal; field; lra). unfold Cdiv. replace (/ 1) with (RtoC 1) by (rewrite <- RtoC_inv by lra; f_equal; lra). ring. }
  destruct HM as (M & HM & Cl).
  assert (U : forall M' (y : R), (y <> 0)%R -> (forall i, M' i 0%nat = isoL (RtoC 2) c i 0%nat /\ M' i 2%nat = RtoC y * isoL (RtoC 2) c i 2%nat) ->
    exists Jr Jt, jones4 propagator_expm 30 1 eb [] M' = Some (Jr, Jt) /\ Jt 0%nat 0%nat = RtoC (/ y)).
  { intros M' y Ny Cl'. destruct (jones4_some propagator_expm 30 1 eb [] M' (mat_of [[RtoC (/ y); RtoC 0]; [RtoC 0; RtoC 1]])) as (Jr & Jt & J & V & _).
    - apply expm_exact.
    - apply expm_total.
    - constructor.
    - now left.
    - rewrite Nf. exact N2.
    - rewrite Kx, Cf. exact Nc.
    - rewrite Kx. unfold kmat. cbn [tmat]. rewrite Nf, Cf.
      assert (T : meq 2 (t_it (mmul 4 (isoLi (RtoC 2) c) (mmul 4 mid M'))) (mat_of [[RtoC y; RtoC 0]; [RtoC 0; RtoC 1]])).
      { rewrite (t_it_meq _ (mmul 4 (isoLi (RtoC 2) c) M')) by (rewrite mmul_1_l; reflexivity).
        destruct (iso_inverse (RtoC 2) c N2 Nc) as [_ I2].
        assert (Q0 : forall i, (i < 4)%nat -> mmul 4 (isoLi (RtoC 2) c) M' i 0%nat = mid i 0%nat).
        { intros i Hi. rewrite <- (I2 i 0%nat Hi ltac:(lia)). apply csum_ext. intros k Hk. now rewrite (proj1 (Cl' k)). }
        assert (Q2 : forall i, (i < 4)%nat -> mmul 4 (isoLi (RtoC 2) c) M' i 2%nat = RtoC y * mid i 2%nat).
        { intros i Hi. rewrite <- (I2 i 2%nat Hi ltac:(lia)). unfold mmul. rewrite <- csum_mult_l. apply csum_ext. intros k Hk. rewrite (proj2 (Cl' k)). ring. }
        mexpl; unfold t_it, mat_of; cbn [nth]; rewrite ?Q0, ?Q2 by lia; unfold mid; cbn [Nat.eqb]; ring. }
      split; rewrite T; mexpl; unfold mmul, mid, mat_of, csum; cbn [nth Nat.eqb]; rewrite ?RtoC_inv by exact Ny; (ring || (field; now apply C_of_R_neq)).
    - exists Jr, Jt. split; [exact J|]. rewrite V by lia. reflexivity. }
  destruct (U (isoL (RtoC 2) c) 1%R ltac:(lra)) as (Jr & Jt & J & V); [intros i; split; ring|].
  assert (Y0 : (4 / sqrt 19 <> 0)%R) by (apply Rgt_not_eq, Rdiv_lt_0_compat; lra).
  destruct (U M (4 / sqrt 19)%R Y0 Cl) as (Jr' & Jt' & J' & V').
  exists propagator_expm, 30%R, 1%R, eb, D, (scaled unit_length (RtoC 2) c), (Result4 Jr Jt (Some 1%R)), (Result4 Jr' Jt' (Some 1%R)).
  split; [exact I|]. split; [now left|]. split; [rewrite C30; lra|]. rewrite Kx. split; [exact ED|]. split; [exact E|].
  split.
  { assert (Q : forall z : C, (Cmod z ^ 2 = Cnorm2 z)%R) by (intros z; rewrite <- Cmod_sqr; ring).
    assert (I19 : (/ sqrt 19 * / sqrt 19 = / 19)%R) by (rewrite <- Rinv_mult, q19; reflexivity).
    intros a Ha. rewrite !Q. unfold scaled, unit_length, isoL, mat_of, Cnorm2, c. cbn [snd]. idx a; cbn [nth]; simpl; try nra;
    match goal with |- ?g = _ => transitivity ((sqrt 3 * sqrt 3 + 16) * (/ sqrt 19 * / sqrt 19))%R; [field; lra|rewrite q3, I19; field] end. }
  split.
  { unfold solver4. rewrite Kx, iso_L_eq by (rewrite Nf; exact N2). cbn [obind]. rewrite Nf, Cf, J. cbn [obind]. rewrite Kz, rdiv_some by (simpl; lra). do 2 f_equal. f_equal. simpl. field. lra. }
  split.
  { unfold solver4_aniso. rewrite Kx, ED. cbn [obind]. rewrite HM. cbn [obind]. rewrite J'. reflexivity. }
  split; [reflexivity|]. split; [reflexivity|]. cbn [jones_t4]. unfold T_matrix. rewrite V, V', Rinv_1, Cmod_1. split; [ring|].
  rewrite Cmod_sqr. unfold Cnorm2. simpl. transitivity ((sqrt 19 * sqrt 19) / 16)%R; [field; lra|]. rewrite q19. reflexivity.
Qed.
Print Assumptions C71_transmission_refuted.
