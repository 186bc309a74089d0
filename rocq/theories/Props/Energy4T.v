(** C41, C69, C70: energy balance of the 4x4 solver. *)
From Coq Require Import Reals Lra Psatz Lia ZArith.
From Coquelicot Require Import Complex.
From Coq Require Import List.
From Verif.Base Require Import Py Cx Mat Mexp Det.
From Verif.Model Require Import Units Ellips Structure Solver2 Solver4.
From Verif.Spec Require Import Maxwell Tensor.
From Verif.Proof Require Import UnitsP DispersionsP Solver2P3 PoyntingP Solver4P Solver4P2 Solver4P3 Solver4P5 Solver4P6.
From Verif.Props Require Import EnergyT Solver4T.
Import ListNotations.
Open Scope R_scope.
Open Scope C_scope.
Open Scope py_scope.

(** What the solver needs of the layers: a wavelength and a non-zero eps_zz *)
Definition regular (lbda : R) (ls : list (R * mat)) : Prop := lbda <> 0%R /\ Forall (fun l => snd l 2%nat 2%nat <> RtoC 0) ls.

(** C69: a lossless front medium that is not grazed, passive layers and a passive back medium
    always have a result. *)
Theorem C69_defined : forall prop theta_i lbda eps_f ls eps_b (x : R) (e_b : C),
  isotropic eps_f (RtoC x) -> (0 < x)%R -> cos (theta_i * PI / 180) <> 0%R ->
  isotropic eps_b e_b -> e_b <> 0 -> (0 <= Im e_b)%R ->
  exact_propagator prop (reduced_k_x theta_i eps_f) ls -> regular lbda ls ->
  (0 < lbda)%R /\ Forall (fun l => (0 <= fst l)%R /\ passive (snd l)) ls \/ Forall (fun l => hermitian (snd l)) ls ->
  exists res, solver4 prop theta_i lbda eps_f ls eps_b = Some res.
Proof.
  intros prop th lb ef ls eb x e If X Cz Ib N Pe P [L O] D.
  assert (G := exact_good prop _ lb ls P O). now apply (solver4_def prop th lb ef eb ls x e).
Qed.
Print Assumptions C69_defined.

(** C69: no light comes out that was not put in, for any incident polarisation. *)
Theorem C69_passive : forall prop theta_i lbda eps_f ls eps_b (x : R) (e_b : C) res,
  isotropic eps_f (RtoC x) -> (0 < x)%R -> cos (theta_i * PI / 180) <> 0%R ->
  isotropic eps_b e_b -> e_b <> 0 -> (0 <= Im e_b)%R ->
  exact_propagator prop (reduced_k_x theta_i eps_f) ls ->
  (0 < lbda)%R -> Forall (fun l => (0 <= fst l)%R /\ passive (snd l)) ls ->
  solver4 prop theta_i lbda eps_f ls eps_b = Some res ->
  exists pc, power_correction4 res = Some pc /\
  (forall i j, (0 <= T_matrix pc (jones_t4 res) i j)%R) /\
  (forall j, (j < 2)%nat -> (R_matrix (jones_r4 res) 0 j + R_matrix (jones_r4 res) 1 j +
    T_matrix pc (jones_t4 res) 0 j + T_matrix pc (jones_t4 res) 1 j <= 1)%R) /\
  forall a : nat -> C, let power J := (Cmod (mvec 2 J a 0%nat) ^ 2 + Cmod (mvec 2 J a 1%nat) ^ 2)%R in
    (power (jones_r4 res) + pc * power (jones_t4 res) <= Cmod (a 0%nat) ^ 2 + Cmod (a 1%nat) ^ 2)%R.
Proof.
  intros prop th lb ef ls eb x e res If X Cz Ib N Pe P L D H.
  assert (O : eps_ok ls) by (destruct (eps_dec ls); [assumption|rewrite solver4_eps in H by assumption; discriminate]).
  destruct (solver4_energy prop th lb ef eb ls x e res (proj1 (exact_good prop _ lb ls P O)) If X Cz Ib N Pe ltac:(lra) H) as (pc & PC & Pp & F).
  exists pc. split; [exact PC|].
  assert (Tp : forall i j, (0 <= T_matrix pc (jones_t4 res) i j)%R).
  { intros i j. unfold T_matrix. rewrite Cmod_sqr. apply Rmult_le_pos; [apply Cnorm2_ge0|exact Pp]. }
  assert (G : forall a : nat -> C, let power J := (Cmod (mvec 2 J a 0%nat) ^ 2 + Cmod (mvec 2 J a 1%nat) ^ 2)%R in
    (power (jones_r4 res) + pc * power (jones_t4 res) <= Cmod (a 0%nat) ^ 2 + Cmod (a 1%nat) ^ 2)%R).
  { intros a power. destruct (F (a 0%nat) (a 1%nat)) as [G _]. specialize (G L D). unfold power, mvec, csum.
    replace (Cmod (a 0%nat) ^ 2)%R with (Cnorm2 (a 0%nat)) by (rewrite <- Cmod_sqr; ring).
    replace (Cmod (a 1%nat) ^ 2)%R with (Cnorm2 (a 1%nat)) by (rewrite <- Cmod_sqr; ring).
    assert (Q : forall z : C, (Cmod z ^ 2 = Cnorm2 z)%R) by (intros z; rewrite <- Cmod_sqr; ring).
    rewrite !Q. rewrite !Cplus_0_l. lra. }
  split; [exact Tp|]. split; [|exact G].
  intros j Hj. specialize (G (mid j)). unfold mvec, csum, mid in G. unfold R_matrix, T_matrix.
  idx j; cbn [Nat.eqb] in G; rewrite Cmod_1, Cmod_0, ?Cmult_1_r, ?Cmult_0_r, ?Cplus_0_l, ?Cplus_0_r in G; lra.
Qed.
Print Assumptions C69_passive.

(** C41: without loss nothing is missing. *)
Theorem C41_energy : forall prop theta_i lbda eps_f ls eps_b (x y : R) res,
  isotropic eps_f (RtoC x) -> (0 < x)%R -> cos (theta_i * PI / 180) <> 0%R ->
  isotropic eps_b (RtoC y) -> (y <> 0)%R ->
  exact_propagator prop (reduced_k_x theta_i eps_f) ls ->
  (lbda <> 0)%R -> Forall (fun l => hermitian (snd l)) ls ->
  solver4 prop theta_i lbda eps_f ls eps_b = Some res ->
  exists pc, power_correction4 res = Some pc /\ (0 <= pc)%R /\
  (forall j, (j < 2)%nat -> (R_matrix (jones_r4 res) 0 j + R_matrix (jones_r4 res) 1 j +
    T_matrix pc (jones_t4 res) 0 j + T_matrix pc (jones_t4 res) 1 j = 1)%R) /\
  forall a : nat -> C, let power J := (Cmod (mvec 2 J a 0%nat) ^ 2 + Cmod (mvec 2 J a 1%nat) ^ 2)%R in
    (power (jones_r4 res) + pc * power (jones_t4 res) = Cmod (a 0%nat) ^ 2 + Cmod (a 1%nat) ^ 2)%R.
Proof.
  intros prop th lb ef ls eb x y res If X Cz Ib N P L D H.
  assert (O : eps_ok ls) by (destruct (eps_dec ls); [assumption|rewrite solver4_eps in H by assumption; discriminate]).
  assert (Ny : RtoC y <> 0) by now apply C_of_R_neq.
  destruct (solver4_energy prop th lb ef eb ls x (RtoC y) res (proj1 (exact_good prop _ lb ls P O)) If X Cz Ib Ny ltac:(simpl; lra) L H) as (pc & PC & Pp & F).
  exists pc. split; [exact PC|]. split; [exact Pp|].
  assert (G : forall a : nat -> C, let power J := (Cmod (mvec 2 J a 0%nat) ^ 2 + Cmod (mvec 2 J a 1%nat) ^ 2)%R in
    (power (jones_r4 res) + pc * power (jones_t4 res) = Cmod (a 0%nat) ^ 2 + Cmod (a 1%nat) ^ 2)%R).
  { intros a power. destruct (F (a 0%nat) (a 1%nat)) as [_ G]. specialize (G D y eq_refl). unfold power, mvec, csum.
    assert (Q : forall z : C, (Cmod z ^ 2 = Cnorm2 z)%R) by (intros z; rewrite <- Cmod_sqr; ring).
    rewrite !Q. rewrite !Cplus_0_l. lra. }
  split; [|exact G].
  intros j Hj. specialize (G (mid j)). unfold mvec, csum, mid in G. unfold R_matrix, T_matrix.
  idx j; cbn [Nat.eqb] in G; rewrite Cmod_1, Cmod_0, ?Cmult_1_r, ?Cmult_0_r, ?Cplus_0_l, ?Cplus_0_r in G; lra.
Qed.
Print Assumptions C41_energy.

(** A half-wave plate in vacuum: indices 1 and 2 along the diagonals, half a wavelength thick,
    normal incidence.  It turns p into s and s into p. *)
Definition plate : mat := mat_of [[RtoC (5 / 2); RtoC (3 / 2); RtoC 0]; [RtoC (3 / 2); RtoC (5 / 2); RtoC 0]; [RtoC 0; RtoC 0; RtoC 1]].
Definition vacuum : mat := mscal (RtoC 1) mid.
Lemma plate_hermitian : hermitian plate.
Proof. unfold hermitian, plate. mexpl; unfold madj, mtr, mconj, mat_of; cbn [nth]; apply C_ext; simpl; lra. Qed.

Definition plate_W : mat := mat_of [[RtoC 1; RtoC 1; RtoC 1; RtoC 1]; [RtoC 1; RtoC 1; RtoC (-1); RtoC (-1)];
  [RtoC (-2); RtoC 2; RtoC 1; RtoC (-1)]; [RtoC 2; RtoC (-2); RtoC 1; RtoC (-1)]].
Definition plate_V : mat := mscal (RtoC (1 / 8)) (mat_of [[RtoC 2; RtoC 2; RtoC (-1); RtoC 1]; [RtoC 2; RtoC 2; RtoC 1; RtoC (-1)];
  [RtoC 2; RtoC (-2); RtoC 2; RtoC 2]; [RtoC 2; RtoC (-2); RtoC (-2); RtoC (-2)]]).
Definition plate_P : mat := mat_of [[RtoC 0; RtoC 1; RtoC 0; RtoC 0]; [RtoC 1; RtoC 0; RtoC 0; RtoC 0];
  [RtoC 0; RtoC 0; RtoC 0; RtoC (-1)]; [RtoC 0; RtoC 0; RtoC (-1); RtoC 0]].
Lemma cis_mPI : Cexp (- Ci * RtoC PI) = - (1).
Proof. unfold Cexp, cis, Ci. simpl. replace (- (0) * PI - - (1) * 0)%R with 0%R by ring. replace (- (0) * 0 + - (1) * PI)%R with (- PI)%R by ring.
  rewrite exp_0, cos_neg, sin_neg, cos_PI, sin_PI. apply C_ext; simpl; ring. Qed.
Lemma plate_mat : meq 4 (layer_mat 0 1 ((1 / 2)%R, plate)) plate_P.
Proof.
  assert (D : meq 4 (mmul 4 (delta_of 0 plate) plate_W) (mmul 4 plate_W (mdiag (vec_of [RtoC 2; RtoC (-2); RtoC 1; RtoC (-1)])))).
  { assert (N : plate 2%nat 2%nat <> 0) by (unfold plate, mat_of; cbn [nth]; apply C_of_R_neq; lra).
    unfold delta_of, build_delta_matrix. destruct (Ceq_dec (plate 2%nat 2%nat) 0); [contradiction|].
    unfold plate, plate_W. mexpl; unfold mmul, mdiag, vec_of, mat_of, csum; cbn [nth Nat.eqb]; apply C_ext; simpl; field. }
  assert (I : is_inverse 4 plate_W plate_V).
  { unfold plate_W, plate_V. split; mexpl; unfold mmul, mid, mscal, mat_of, csum; cbn [nth Nat.eqb]; apply C_ext; simpl; field. }
  unfold layer_mat. cbn [fst snd]. rewrite (mexp_decomp_scal 4 _ _ _ _ _ I D).
  assert (E1 : Cexp (phase 1 (- (1 / 2)) * RtoC 1) = - (1)).
  { rewrite <- cis_mPI. f_equal. unfold phase. apply C_ext; simpl; field. }
  assert (E0 : Cexp (phase 1 (- (1 / 2)) * RtoC 2) = 1).
  { transitivity (Cexp (phase 1 (- (1 / 2)) * RtoC 1) * Cexp (phase 1 (- (1 / 2)) * RtoC 1)); [rewrite <- Cexp_plus; f_equal; apply C_ext; simpl; ring|].
    rewrite E1. ring. }
  assert (E2 : Cexp (phase 1 (- (1 / 2)) * RtoC (-2)) = 1).
  { replace (phase 1 (- (1 / 2)) * RtoC (-2)) with (- (phase 1 (- (1 / 2)) * RtoC 2)) by (apply C_ext; simpl; ring). rewrite Cexp_opp, E0. apply C_ext; simpl; field. }
  assert (E3 : Cexp (phase 1 (- (1 / 2)) * RtoC (-1)) = - (1)).
  { replace (phase 1 (- (1 / 2)) * RtoC (-1)) with (- (phase 1 (- (1 / 2)) * RtoC 1)) by (apply C_ext; simpl; ring). rewrite Cexp_opp, E1. apply C_ext; simpl; field. }
  assert (M : meq 4 (mdiag (fun i => Cexp (phase 1 (- (1 / 2)) * vec_of [RtoC 2; RtoC (-2); RtoC 1; RtoC (-1)] i))) (mdiag (vec_of [RtoC 1; RtoC 1; RtoC (-1); RtoC (-1)]))).
  { intros i j Hi Hj. unfold mdiag, vec_of. destruct (Nat.eqb i j); [|reflexivity]. idx i; cbn [nth].
    - exact E0.
    - exact E2.
    - rewrite E1. apply C_ext; simpl; ring.
    - rewrite E3. apply C_ext; simpl; ring. }
  rewrite M. unfold plate_P. mexpl; unfold mmul, mdiag, plate_W, plate_V, mscal, vec_of, mat_of, csum; cbn [nth Nat.eqb]; apply C_ext; simpl; field.
Qed.
Lemma plate_result : exists res, solver4 propagator_expm 0 1 vacuum [((1 / 2)%R, plate)] vacuum = Some res /\
  power_correction4 res = Some 1%R /\
  jones_r4 res 0%nat 0%nat = 0 /\ jones_r4 res 0%nat 1%nat = 0 /\ jones_r4 res 1%nat 0%nat = 0 /\ jones_r4 res 1%nat 1%nat = 0 /\
  jones_t4 res 0%nat 0%nat = 0 /\ jones_t4 res 0%nat 1%nat = 1 /\ jones_t4 res 1%nat 0%nat = 1 /\ jones_t4 res 1%nat 1%nat = 0.
Proof.
  assert (I : isotropic vacuum (RtoC 1)) by (unfold isotropic, vacuum; reflexivity).
  assert (Cz : cos (deg2rad 0) <> 0%R) by (unfold deg2rad; replace (0 * PI / 180)%R with 0%R by field; rewrite cos_0; lra).
  assert (KX : reduced_k_x 0 vacuum = 0).
  { rewrite (kx_eq 0 vacuum _ I). rewrite kx_real by lra. unfold deg2rad. replace (0 * PI / 180)%R with 0%R by field. rewrite sin_0, Rmult_0_r. reflexivity. }
  assert (O : eps_ok [((1 / 2)%R, plate)]) by (constructor; [cbn [snd]; unfold plate, mat_of; cbn [nth]; apply C_of_R_neq; lra|constructor]).
  assert (G : good_prop propagator_expm (reduced_k_x 0 vacuum) 1 [((1 / 2)%R, plate)]) by apply expm_good.
  destruct (solver4_def propagator_expm 0 1 vacuum vacuum [((1 / 2)%R, plate)] 1 (RtoC 1) G I ltac:(lra) Cz I ltac:(apply C_of_R_neq; lra) ltac:(simpl; lra) O ltac:(lra)
    ltac:(right; constructor; [exact plate_hermitian|constructor])) as [res H].
  exists res. split; [exact H|].
  destruct (solver4_fields _ _ _ _ _ _ _ (proj1 G) H) as (_ & _ & _ & _ & _ & PC & F).
  destruct (front_real 0 vacuum 1 I ltac:(lra) Cz) as (Nf & _ & Cf & Kf & _).
  rewrite KX in *. rewrite Nf, Cf, sqrt_1 in F. rewrite Kf in PC.
  assert (E1 : Rabs (cos (deg2rad 0)) = 1%R) by (unfold deg2rad; replace (0 * PI / 180)%R with 0%R by field; rewrite cos_0; apply Rabs_R1).
  rewrite E1 in F, PC. rewrite sqrt_1 in PC. split; [rewrite PC, rdiv_some; [f_equal; simpl; field|simpl; lra]|].
  assert (T : meq 4 (tmat 0 1 [((1 / 2)%R, plate)]) plate_P) by (cbn [tmat]; rewrite mmul_1_r; exact plate_mat).
  assert (W : forall u v w, veq 4 u (mvec 4 plate_P (mvec 4 v w)) -> veq 4 u (mvec 4 (tmat 0 1 [((1 / 2)%R, plate)]) (mvec 4 v w))).
  { intros u v w Q. eapply veq_trans; [exact Q|]. apply mvec_meq; [now symmetry|apply veq_refl]. }
  assert (F1 := proj1 (F 1 0 0 0 0 1)). assert (F2 := proj1 (F 0 1 0 0 1 0)).
  assert (A1 : veq 4 (mvec 4 (isoL (RtoC 1) (RtoC 1)) (waves 1 0 0 0)) (mvec 4 plate_P (mvec 4 (isoL (RtoC 1) (RtoC 1)) (waves 0 1 0 0)))).
  { intros i Hi. unfold mvec, isoL, waves, plate_P, vec_of, mat_of, csum. idx i; cbn [nth]; apply C_ext; simpl; ring. }
  assert (A2 : veq 4 (mvec 4 (isoL (RtoC 1) (RtoC 1)) (waves 0 1 0 0)) (mvec 4 plate_P (mvec 4 (isoL (RtoC 1) (RtoC 1)) (waves 1 0 0 0)))).
  { intros i Hi. unfold mvec, isoL, waves, plate_P, vec_of, mat_of, csum. idx i; cbn [nth]; apply C_ext; simpl; ring. }
  specialize (F1 (W _ _ _ A1)). specialize (F2 (W _ _ _ A2)). destruct F1 as ((B1 & B2) & B3 & B4), F2 as ((D1 & D2) & D3 & D4).
  rewrite !Cmult_1_r, !Cmult_0_r, ?Cplus_0_l, ?Cplus_0_r in *. repeat split; symmetry; assumption.
Qed.

Example C41_example : exists res, solver4 propagator_expm 0 1 vacuum [((1 / 2)%R, plate)] vacuum = Some res /\
  power_correction4 res = Some 1%R /\ (T_matrix 1 (jones_t4 res) 1 0 = 1)%R.
Proof.
  destruct plate_result as (res & H & P & _ & _ & _ & _ & _ & _ & T & _). exists res. split; [exact H|]. split; [exact P|].
  unfold T_matrix. rewrite T, Cmod_1. ring.
Qed.
Example C69_example : exists res, solver4 propagator_expm 45 500 vacuum
  [(100%R, mat_of [[(2, 1)%R : C; RtoC 0; RtoC 0]; [RtoC 0; RtoC 3; Ci]; [RtoC 0; - Ci; RtoC 4]])] (mscal (-2, 3)%R mid) = Some res.
Proof.
  apply (C69_defined _ _ _ _ _ _ 1 (-2, 3)%R).
  - unfold isotropic, vacuum. reflexivity.
  - lra.
  - replace (45 * PI / 180)%R with (PI / 4)%R by field. rewrite cos_PI4. apply Rgt_not_eq, Rdiv_lt_0_compat; [lra|apply Rlt_sqrt2_0].
  - unfold isotropic, vacuum. reflexivity.
  - intros K. apply (f_equal snd) in K. simpl in K. lra.
  - simpl. lra.
  - now left.
  - split; [lra|]. constructor; [|constructor]. cbn [snd]. unfold mat_of. cbn [nth]. apply C_of_R_neq. lra.
  - left. split; [lra|]. constructor; [|constructor]. cbn [fst snd]. split; [lra|]. intros E. unfold dissipation, csum, mvec, csum, mat_of. cbn [nth].
    destruct (E 0%nat) as [a a'], (E 1%nat) as [b b'], (E 2%nat) as [c c']. simpl. nra.
Qed.

(** C70: result.R + result.T, "the absolute reflectance (transmittance) for unpolarized light", is
    less than one by half of the power that changed its polarisation. *)
Theorem C70_deficit : forall prop theta_i lbda eps_f ls eps_b (x y : R) res pc,
  isotropic eps_f (RtoC x) -> (0 < x)%R -> cos (theta_i * PI / 180) <> 0%R ->
  isotropic eps_b (RtoC y) -> (y <> 0)%R ->
  exact_propagator prop (reduced_k_x theta_i eps_f) ls ->
  (lbda <> 0)%R -> Forall (fun l => hermitian (snd l)) ls ->
  solver4 prop theta_i lbda eps_f ls eps_b = Some res -> power_correction4 res = Some pc ->
  let cross := ((Cmod (jones_r4 res 0%nat 1%nat)) ^ 2 + (Cmod (jones_r4 res 1%nat 0%nat)) ^ 2 +
    pc * ((Cmod (jones_t4 res 0%nat 1%nat)) ^ 2 + (Cmod (jones_t4 res 1%nat 0%nat)) ^ 2))%R in
  (Rtot (jones_r4 res) + Ttot pc (jones_t4 res) = 1 - cross / 2 /\ 0 <= cross)%R.
Proof.
  intros prop th lb ef ls eb x y res pc If X Cz Ib N P L D H PC cross.
  destruct (C41_energy prop th lb ef ls eb x y res If X Cz Ib N P L D H) as (pc' & PC' & Pp & E & _).
  rewrite PC in PC'. injection PC' as <-. assert (E0 := E 0%nat ltac:(lia)). assert (E1 := E 1%nat ltac:(lia)).
  unfold Rtot, Ttot, cross. unfold R_matrix, T_matrix in *. split; [lra|].
  assert (Q : forall z : C, (Cmod z ^ 2 = Cnorm2 z)%R) by (intros z; rewrite <- Cmod_sqr; ring). rewrite !Q.
  apply Rplus_le_le_0_compat; [|apply Rmult_le_pos; [exact Pp|]]; apply Rplus_le_le_0_compat; apply Cnorm2_ge0.
Qed.
Print Assumptions C70_deficit.
Theorem C70_unpolarized_refuted : exists prop theta_i lbda eps_f ls eps_b res pc,
  isotropic eps_f (RtoC 1) /\ isotropic eps_b (RtoC 1) /\ cos (theta_i * PI / 180) <> 0%R /\ (0 < lbda)%R /\
  exact_propagator prop (reduced_k_x theta_i eps_f) ls /\ Forall (fun l => (0 < fst l)%R /\ hermitian (snd l)) ls /\
  solver4 prop theta_i lbda eps_f ls eps_b = Some res /\ power_correction4 res = Some pc /\
  (Rtot (jones_r4 res) + Ttot pc (jones_t4 res) = 0)%R.
Proof.
  destruct plate_result as (res & H & P & R0 & _ & _ & R3 & T0 & _ & _ & T3).
  exists propagator_expm, 0%R, 1%R, vacuum, [((1 / 2)%R, plate)], vacuum, res, 1%R.
  split; [unfold isotropic, vacuum; reflexivity|]. split; [unfold isotropic, vacuum; reflexivity|]. split; [replace (0 * PI / 180)%R with 0%R by field; rewrite cos_0; lra|]. split; [lra|].
  split; [now left|]. split; [constructor; [cbn [fst snd]; split; [lra|exact plate_hermitian]|constructor]|]. split; [exact H|]. split; [exact P|].
  unfold Rtot, Ttot, R_matrix, T_matrix. rewrite R0, R3, T0, T3, Cmod_0. field.
Qed.
Print Assumptions C70_unpolarized_refuted.

(** C38 for glass coated with a layer of index 3, at 45 degrees *)
Example C38_example : exists J_r J_t r,
  jones2_r (solver2 45 1 (RtoC 1) [((1 / 12)%R, RtoC 9)] (RtoC 2)) = Some J_r /\
  jones2_t (solver2 45 1 (RtoC 1) [((1 / 12)%R, RtoC 9)] (RtoC 2)) = Some J_t /\
  solver4 propagator_expm 45 1 vacuum [((1 / 12)%R, mscal (RtoC 9) mid)] (mscal (RtoC 2) mid) = Some r /\
  meq 2 (jones_r4 r) J_r /\ meq 2 (jones_t4 r) J_t.
Proof.
  assert (s2 : (0 < sqrt 2)%R) by (apply sqrt_lt_R0; lra). assert (ss : (sqrt 2 * sqrt 2 = 2)%R) by (apply sqrt_sqrt; lra).
  assert (C4 : (cos (45 * PI / 180) = 1 / sqrt 2)%R) by (replace (45 * PI / 180)%R with (PI / 4)%R by field; apply cos_PI4).
  assert (S4 : (sin (45 * PI / 180) = 1 / sqrt 2)%R) by (replace (45 * PI / 180)%R with (PI / 4)%R by field; apply sin_PI4).
  assert (c0 : (0 < 1 / sqrt 2)%R) by (apply Rdiv_lt_0_compat; lra).
  assert (S2 : (1 * (sin (45 * PI / 180) * sin (45 * PI / 180)) = 1 / 2)%R).
  { rewrite S4. replace (1 * (1 / sqrt 2 * (1 / sqrt 2)))%R with (1 / (sqrt 2 * sqrt 2))%R by (field; lra). rewrite ss. reflexivity. }
  destruct (C37_defined 45 1 1 2 [(1 / 12, 9)%R]) as ((rs & ts & Hs) & Hp & K); try (rewrite ?S2, ?C4; lra).
  { rewrite S2. constructor; [|constructor]. cbn [fst snd]. lra. }
  destruct Hp as (rp & tp & Hp); [constructor; [cbn [snd]; lra|constructor]|]. cbn [map fst snd] in Hs, Hp.
  set (res := solver2 45 1 (RtoC 1) [((1 / 12)%R, RtoC 9)] (RtoC 2)) in *.
  assert (Jr : exists J, jones2_r res = Some J) by (unfold jones2_r, jones2; rewrite Hp, Hs; cbn [obind]; eauto).
  assert (Jt : exists J, jones2_t res = Some J) by (unfold jones2_t, jones2; rewrite Hp, Hs; cbn [obind]; eauto).
  destruct Jr as [Jr Er], Jt as [Jt Et].
  assert (If : isotropic vacuum (RtoC 1)) by (unfold isotropic, vacuum; reflexivity).
  assert (Ib : isotropic (mscal (RtoC 2) mid) (RtoC 2)) by (unfold isotropic; reflexivity).
  assert (Z : cos (deg2rad 45) <> 0%R) by (unfold deg2rad; rewrite C4; lra).
  destruct (front_real 45 vacuum 1 If ltac:(lra) Z) as (_ & Kx & _).
  destruct (back_passive (sqrt 1 * sin (deg2rad 45)) (mscal (RtoC 2) mid) (RtoC 2) Ib ltac:(apply C_of_R_neq; lra) ltac:(simpl; lra)) as (_ & _).
  destruct (C38_passive propagator_expm 45 1 vacuum (mscal (RtoC 2) mid) [((1 / 12)%R, mscal (RtoC 9) mid)] 1 (RtoC 2) [((1 / 12)%R, RtoC 9)] Jr Jt) as (r & H & A & B & _); try assumption; try lra.
  - apply C_of_R_neq. lra.
  - simpl. lra.
  - constructor; [|constructor]. cbn [fst snd]. split; [reflexivity|unfold isotropic; reflexivity].
  - now left.
  - rewrite Kx. unfold get_k_z. intros [K0 K1]. assert (Q : principal (Csqrt (Csqrt (mscal (RtoC 2) mid 0%nat 0%nat) * Csqrt (mscal (RtoC 2) mid 0%nat 0%nat) - RtoC (sqrt 1 * sin (deg2rad 45)) * RtoC (sqrt 1 * sin (deg2rad 45))))) by apply Csqrt_principal.
    revert K0. rewrite Csqrt_sqr. replace (mscal (RtoC 2) mid 0%nat 0%nat) with (RtoC 2) by (unfold mscal, mid; simpl Nat.eqb; cbv iota; now rewrite Cmult_1_r).
    replace (RtoC 2 - RtoC (sqrt 1 * sin (deg2rad 45)) * RtoC (sqrt 1 * sin (deg2rad 45))) with (RtoC (3 / 2)).
    2:{ rewrite sqrt_1. unfold deg2rad. rewrite <- RtoC_mult, <- RtoC_minus. f_equal. lra. }
    rewrite Csqrt_pos by lra. simpl. assert (Q2 := sqrt_lt_R0 (3 / 2) ltac:(lra)). lra.
  - exists Jr, Jt, r. auto.
Qed.

(** C31 for four slices of the plate *)
Example C31_response4_example : exists l res,
  make_inhomogeneous (fun _ => plate) (1 / 2)%R 4 = Ok l /\ l <> Homogeneous (1 / 2)%R plate /\
  solver4_structure propagator_expm 0 1 (Structure vacuum [l] vacuum) = Some res /\
  meq 2 (jones_t4 res) (mat_of [[RtoC 0; RtoC 1]; [RtoC 1; RtoC 0]]).
Proof.
  destruct plate_result as (res & H & _ & _ & _ & _ & _ & T0 & T1 & T2 & T3).
  assert (E : exists l, make_inhomogeneous (fun _ => plate) (1 / 2)%R 4 = Ok l /\ l <> Homogeneous (1 / 2)%R plate).
  { unfold make_inhomogeneous. destruct (Rlt_dec (1 / 2) 0); [lra|]. eexists. split; [reflexivity|discriminate]. }
  destruct E as (l & E & N). exists l.
  assert (Q := C31_response4 0 1 vacuum [] plate (1 / 2)%R 4 [] vacuum l E). cbn [app] in Q.
  assert (S : solver4_structure propagator_expm 0 1 (Structure vacuum [Homogeneous (1 / 2)%R plate] vacuum) = Some res) by exact H.
  rewrite S in Q. destruct (solver4_structure propagator_expm 0 1 (Structure vacuum [l] vacuum)) as [r|]; [|contradiction].
  exists r. split; [exact E|]. split; [exact N|]. split; [reflexivity|]. destruct Q as (_ & Q & _). rewrite Q.
  mexpl; unfold mat_of; cbn [nth]; assumption.
Qed.
