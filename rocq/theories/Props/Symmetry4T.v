(** C86-C90: symmetries of the 4x4 solver: half turns of the sample, mirror images, turns at normal
    incidence, the sample turned over, and a common scale of lengths. *)
From Coq Require Import Reals Lra Psatz Lia ZArith.
From Coquelicot Require Import Complex.
From Coq Require Import List.
From Verif.Base Require Import Py Cx Mat Mexp Det.
From Verif.Model Require Import Units Ellips Rotation Structure Solver2 Solver4.
From Verif.Model Require Materials.
From Verif.Spec Require Import Maxwell Tensor Turned.
From Verif.Proof Require Import UnitsP DispersionsP Solver2P3 PoyntingP Solver4P Solver4P2 Solver4P3 Solver4P5 Solver4P6 ModesP Symmetry4P Symmetry4P2.
From Verif.Props Require Import EnergyT Solver4T Energy4T ModesT.
Import ListNotations.
Open Scope R_scope.
Open Scope C_scope.
Open Scope py_scope.

(** Materials: their tensors are reciprocal, and turning a material with set_rotation moves its
    tensor. *)
Definition orientation (m : Materials.material) : mat :=
  if Materials.rotated m then Materials.rotation_matrix m else mid.
Theorem C86_material : forall m Q, reciprocal (Materials.get_tensor m) /\
  moved Q (Materials.get_tensor m) (Materials.get_tensor (Materials.set_rotation m (mmul 3 Q (orientation m)))).
Proof.
  intros m Q. set (D := mdiag (fun i => nth i [Materials.dispersion_x m; Materials.dispersion_y m; Materials.dispersion_z m] (RtoC 0))).
  assert (T : meq 3 (Materials.get_tensor m) (mmul 3 (mmul 3 (orientation m) D) (mtr (orientation m)))).
  { unfold Materials.get_tensor, orientation. fold D. destruct (Materials.rotated m); [reflexivity|]. rewrite mmul_1_l, mtr_mid, mmul_1_r. reflexivity. }
  assert (TD : meq 3 (mtr D) D) by (unfold D; mexpl; unfold mtr, mdiag; cbn [Nat.eqb]; reflexivity).
  split.
  - unfold reciprocal. assert (TT : meq 3 (mtr (Materials.get_tensor m)) (mtr (mmul 3 (mmul 3 (orientation m) D) (mtr (orientation m))))) by (intros i j Hi Hj; apply T; assumption).
    rewrite TT, T, !mtr_mul, mtr_mtr, TD, mmul_assoc. reflexivity.
  - unfold moved. rewrite T. unfold Materials.get_tensor, Materials.set_rotation. cbn [Materials.rotated Materials.rotation_matrix Materials.dispersion_x Materials.dispersion_y Materials.dispersion_z]. fold D.
    rewrite mtr_mul, <- !mmul_assoc. reflexivity.
Qed.
Print Assumptions C86_material.

(** The turns about the normal are those of rotation_euler. *)
Theorem C86_euler : forall p, meq 3 (rotation_euler p 0 0) (z_turn (p * PI / 180)).
Proof.
  intros p. unfold rotation_euler, z_turn, rmat_of. replace (deg2rad 0) with 0%R by (unfold deg2rad; lra). rewrite cos_0, sin_0.
  replace (deg2rad p) with (p * PI / 180)%R by (unfold deg2rad; lra).
  mexpl; unfold mat_of; cbn [nth]; f_equal; ring.
Qed.
Print Assumptions C86_euler.

(** What is needed to use a result *)
Lemma solver4_ok prop th lb (ef eb : mat) ls r : solver4 prop th lb ef ls eb = Some r -> eps_ok ls.
Proof. intros H. destruct (eps_dec ls); [assumption|rewrite solver4_eps in H by assumption; discriminate]. Qed.
Lemma aniso_ok prop th lb (ef eb : mat) ls eig r : solver4_aniso prop th lb ef ls eb eig = Some r -> eps_ok ls.
Proof.
  intros H. destruct (eps_dec ls) as [|O]; [assumption|]. exfalso. unfold solver4_aniso in H.
  destruct (build_delta_matrix _ eb); [|discriminate]. cbn [obind] in H. destruct (transition_matrix_halfspace eig) as [M|]; [|discriminate].
  cbn [obind] in H. rewrite jones4_eps in H by exact O. discriminate.
Qed.

(** C86: after half a turn about the normal the sample reflects p and s as before, and the two
    conversions are exchanged, with a sign; absorbing or not. *)
Theorem C86_half_turn : forall prop prop' theta_i lbda eps_f ls ls' eps_b r r',
  exact_propagator prop (reduced_k_x theta_i eps_f) ls -> exact_propagator prop' (reduced_k_x theta_i eps_f) ls' ->
  Forall (fun l => reciprocal (snd l)) ls -> moved_layers (z_turn PI) ls ls' ->
  solver4 prop theta_i lbda eps_f ls eps_b = Some r -> solver4 prop' theta_i lbda eps_f ls' eps_b = Some r' ->
  jones_r4 r' 0%nat 0%nat = jones_r4 r 0%nat 0%nat /\ jones_r4 r' 1%nat 1%nat = jones_r4 r 1%nat 1%nat /\
  jones_r4 r' 0%nat 1%nat = - jones_r4 r 1%nat 0%nat /\ jones_r4 r' 1%nat 0%nat = - jones_r4 r 0%nat 1%nat.
Proof.
  intros prop prop' th lb ef ls ls' eb r r' P P' S M H H'.
  assert (O := solver4_ok _ _ _ _ _ _ _ H). assert (O' := solver4_ok _ _ _ _ _ _ _ H').
  assert (G := proj1 (exact_good prop _ lb ls P O)). assert (G' := proj1 (exact_good prop' _ lb ls' P' O')).
  unfold solver4 in H, H'. destruct (transition_matrix_iso_halfspace _ eb false) as [X|] eqn:EX; [|discriminate]. cbn [obind] in H, H'.
  apply iso_L_some in EX. destruct EX as (_ & _ & ->).
  destruct (jones4 prop th lb ef ls _) as [[a b]|] eqn:J; [|discriminate]. destruct (jones4 prop' th lb ef ls' _) as [[a' b']|] eqn:J'; [|discriminate].
  cbn [obind] in H, H'. apply Some_eq in H, H'. subst r r'. cbn [jones_r4].
  exact (onsager prop prop' th lb ef ls ls' _ _ a b a' b' G G' (tmat_half_turn _ lb ls ls' S M O) (iso_exits _ _) J J').
Qed.
Print Assumptions C86_half_turn.

(** The same on a back medium that is not isotropic and turns with the layers. *)
Theorem C86_half_turn_modes : forall prop prop' theta_i lbda eps_f ls ls' eps_b eps_b' delta delta' eig eig' r r',
  exact_propagator prop (reduced_k_x theta_i eps_f) ls -> exact_propagator prop' (reduced_k_x theta_i eps_f) ls' ->
  Forall (fun l => reciprocal (snd l)) ls -> moved_layers (z_turn PI) ls ls' -> reciprocal eps_b -> moved (z_turn PI) eps_b eps_b' ->
  build_delta_matrix (reduced_k_x theta_i eps_f) eps_b = Some delta -> eigen_decomposition 4 delta eig -> two_forward (fst eig) ->
  build_delta_matrix (reduced_k_x theta_i eps_f) eps_b' = Some delta' -> eigen_decomposition 4 delta' eig' -> two_forward (fst eig') ->
  solver4_aniso prop theta_i lbda eps_f ls eps_b eig = Some r -> solver4_aniso prop' theta_i lbda eps_f ls' eps_b' eig' = Some r' ->
  jones_r4 r' 0%nat 0%nat = jones_r4 r 0%nat 0%nat /\ jones_r4 r' 1%nat 1%nat = jones_r4 r 1%nat 1%nat /\
  jones_r4 r' 0%nat 1%nat = - jones_r4 r 1%nat 0%nat /\ jones_r4 r' 1%nat 0%nat = - jones_r4 r 0%nat 1%nat.
Proof.
  intros prop prop' th lb ef ls ls' eb eb' D D' eig eig' r r' P P' S M Sb Mb ED E T ED' E' T' H H'.
  assert (O := aniso_ok _ _ _ _ _ _ _ _ H). assert (O' := aniso_ok _ _ _ _ _ _ _ _ H').
  assert (G := proj1 (exact_good prop _ lb ls P O)). assert (G' := proj1 (exact_good prop' _ lb ls' P' O')).
  unfold solver4_aniso in H, H'. rewrite ED in H. rewrite ED' in H'. cbn [obind] in H, H'.
  destruct (transition_matrix_halfspace eig) as [X|] eqn:EX; [|discriminate]. destruct (transition_matrix_halfspace eig') as [X'|] eqn:EX'; [|discriminate].
  cbn [obind] in H, H'.
  destruct (jones4 prop th lb ef ls X) as [[a b]|] eqn:J; [|discriminate]. destruct (jones4 prop' th lb ef ls' X') as [[a' b']|] eqn:J'; [|discriminate].
  cbn [obind] in H, H'. apply Some_eq in H, H'. subst r r'. cbn [jones_r4].
  apply delta_inv in ED. apply delta_inv in ED'. destruct ED as [Nb ->], ED' as [Nb' ->].
  refine (onsager prop prop' th lb ef ls ls' _ _ a b a' b' G G' (tmat_half_turn _ lb ls ls' S M O) _ J J').
  exact (modes_exits _ _ eig eig' X X' (delta_half_turn _ eb eb' Sb Mb Nb) E E' T T' EX EX').
Qed.
Print Assumptions C86_half_turn_modes.

(** An absorbing crystal in a general orientation, and the same after half a turn *)
Definition tilted (s : R) : mat := mat_of
  [[RtoC 2 + Ci; RtoC (1 / 2); RtoC (s / 4)]; [RtoC (1 / 2); RtoC 3 + Ci; RtoC (s / 4)]; [RtoC (s / 4); RtoC (s / 4); RtoC 2 + Ci]].
Lemma tilted_reciprocal s : reciprocal (tilted s).
Proof. unfold reciprocal, tilted. mexpl; reflexivity. Qed.
Lemma tilted_passive s : passive (tilted s).
Proof.
  intros E. unfold dissipation, mvec, tilted, mat_of, csum. cbn [nth]. destruct (E 0%nat) as [a b], (E 1%nat) as [c d], (E 2%nat) as [e f]. simpl.
  match goal with |- (0 <= ?x)%R => replace x with (a * a + b * b + c * c + d * d + e * e + f * f)%R by field end. nra.
Qed.
Lemma tilted_zz s : tilted s 2%nat 2%nat <> 0.
Proof. unfold tilted, mat_of. cbn [nth]. intros K. assert (K1 := f_equal Re K). simpl in K1. lra. Qed.
Lemma tilted_turned : moved (z_turn PI) (tilted 1) (tilted (-1)).
Proof.
  unfold moved, tilted, z_turn. rewrite cos_PI, sin_PI. mexpl; unfold mmul, mtr, mat_of, csum; cbn [nth]; apply C_ext; simpl; field.
Qed.
Lemma vacuum_iso : isotropic vacuum (RtoC 1).
Proof. unfold isotropic, vacuum. reflexivity. Qed.
Lemma tilted_result th eps_f (x : R) eps_b (y : R) ls : isotropic eps_f (RtoC x) -> (0 < x)%R -> cos (th * PI / 180) <> 0%R ->
  isotropic eps_b (RtoC y) -> (0 < y)%R -> Forall (fun l => (0 <= fst l)%R /\ exists s, snd l = tilted s) ls ->
  exists r, solver4 propagator_expm th 1 eps_f ls eps_b = Some r.
Proof.
  intros If X Cz Ib Y F. apply (C69_defined propagator_expm th 1 eps_f ls eps_b x (RtoC y)); auto.
  - apply C_of_R_neq. lra.
  - simpl. lra.
  - now left.
  - split; [lra|]. eapply Forall_impl; [|exact F]. intros [d e] [_ [s E]]. cbn [snd] in *. subst e. apply tilted_zz.
  - left. split; [lra|]. eapply Forall_impl; [|exact F]. intros [d e] [D [s E]]. cbn [fst snd] in *. subst e. split; [exact D|apply tilted_passive].
Qed.
Lemma cos60 : cos (60 * PI / 180) <> 0%R.
Proof. replace (60 * PI / 180)%R with (PI / 3)%R by lra. rewrite cos_PI3. lra. Qed.

Example C86_example : tilted (-1) 0%nat 2%nat <> tilted 1 0%nat 2%nat /\
  exists r r', solver4 propagator_expm 60 1 vacuum [(1%R, tilted 1)] vacuum = Some r /\
    solver4 propagator_expm 60 1 vacuum [(1%R, tilted (-1))] vacuum = Some r' /\
    jones_r4 r' 0%nat 0%nat = jones_r4 r 0%nat 0%nat /\ jones_r4 r' 0%nat 1%nat = - jones_r4 r 1%nat 0%nat.
Proof.
  split; [unfold tilted, mat_of; cbn [nth]; intros K; apply RtoC_inj in K; lra|].
  destruct (tilted_result 60 vacuum 1 vacuum 1 [(1%R, tilted 1)] vacuum_iso ltac:(lra) cos60 vacuum_iso ltac:(lra)) as [r H].
  { repeat constructor; cbn [fst snd]; [lra|eauto]. }
  destruct (tilted_result 60 vacuum 1 vacuum 1 [(1%R, tilted (-1))] vacuum_iso ltac:(lra) cos60 vacuum_iso ltac:(lra)) as [r' H'].
  { repeat constructor; cbn [fst snd]; [lra|eauto]. }
  exists r, r'. split; [exact H|]. split; [exact H'|].
  destruct (C86_half_turn propagator_expm propagator_expm 60 1 vacuum [(1%R, tilted 1)] [(1%R, tilted (-1))] vacuum r r') as (A & _ & B & _); auto.
  - now left.
  - now left.
  - repeat constructor; apply tilted_reciprocal.
  - constructor; [|constructor]. split; [reflexivity|exact tilted_turned].
Qed.

(** The same crystal on vacuum as a material that is not an IsotropicMaterial *)
Lemma jones4_cols prop th lb (ef : mat) ls M M' Jr Jt : good_prop prop (reduced_k_x th ef) lb ls ->
  (forall i, M' i 0%nat = M i 0%nat /\ M' i 2%nat = M i 2%nat) -> jones4 prop th lb ef ls M = Some (Jr, Jt) ->
  exists Jr' Jt', jones4 prop th lb ef ls M' = Some (Jr', Jt').
Proof.
  intros [E T] Cl J. destruct (jones4_inv prop th lb ef ls M Jr Jt E J) as (O & L & N & K & [I1 I2] & _). set (kx := reduced_k_x th ef) in *.
  assert (Q : meq 2 (t_it (kmat kx lb ef ls M')) (t_it (kmat kx lb ef ls M))).
  { unfold kmat. set (A := isoLi _ _). set (B := tmat kx lb ls). clearbody A B.
    assert (Q : forall i, mmul 4 A (mmul 4 B M') i 0%nat = mmul 4 A (mmul 4 B M) i 0%nat /\ mmul 4 A (mmul 4 B M') i 2%nat = mmul 4 A (mmul 4 B M) i 2%nat).
    { intros i. unfold mmul. split; apply csum_ext; intros j _; f_equal; apply csum_ext; intros k _; f_equal; apply Cl. }
    mexpl; unfold t_it, mat_of; cbn [nth]; apply Q. }
  assert (I' : is_inverse 2 (t_it (kmat kx lb ef ls M')) Jt) by (split; rewrite Q; assumption).
  destruct (jones4_some prop th lb ef ls M' Jt E T O L N K I') as (a & b & H & _). eauto.
Qed.
Lemma vacuum_exit : exists M, transition_matrix_halfspace (scaled one_each 1 1) = Some M /\ forall i, M i 0%nat = isoL 1 1 i 0%nat /\ M i 2%nat = isoL 1 1 i 2%nat.
Proof.
  rewrite scaled_halfspace by exact forward_one. cbv zeta. unfold halfspace_phases.
  assert (P0 : isoL 1 1 1%nat 0%nat * one_each 0 = RtoC 1) by (unfold isoL, mat_of, one_each; cbn [nth]; ring).
  assert (P1 : isoL 1 1 1%nat 1%nat * one_each 1 = RtoC 1) by (unfold isoL, mat_of, one_each; cbn [nth]; ring).
  assert (P2 : isoL 1 1 0%nat 2%nat * one_each 2 = RtoC 1) by (unfold isoL, mat_of, one_each; cbn [nth]; ring).
  rewrite P0, P1. rewrite (unit_phase_pos 1) by lra.
  destruct (Ceq_dec (1 * 1 + 1 * 1) 0) as [K|K]; [exfalso; apply (f_equal fst) in K; simpl in K; lra|].
  eexists. split; [reflexivity|]. intros i. cbv beta iota. rewrite ?P0, ?P2, (unit_phase_pos 1) by lra. unfold one_each. split; Cfield.
Qed.
Example C86_example_modes : exists delta r r', build_delta_matrix (reduced_k_x 0 vacuum) vacuum = Some delta /\
  eigen_decomposition 4 delta (scaled one_each 1 1) /\ two_forward (fst (scaled one_each 1 1)) /\ moved (z_turn PI) vacuum vacuum /\
  solver4_aniso propagator_expm 0 1 vacuum [(1%R, tilted 1)] vacuum (scaled one_each 1 1) = Some r /\
  solver4_aniso propagator_expm 0 1 vacuum [(1%R, tilted (-1))] vacuum (scaled one_each 1 1) = Some r' /\
  jones_r4 r' 0%nat 1%nat = - jones_r4 r 1%nat 0%nat.
Proof.
  assert (KX : reduced_k_x 0 vacuum = 0).
  { unfold reduced_k_x, deg2rad. replace (0 * PI / 180)%R with 0%R by field. rewrite sin_0. ring. }
  assert (N1 : RtoC 1 <> 0) by (apply C_of_R_neq; lra).
  destruct (vacuum_modes one_each vacuum vacuum_iso ltac:(intros; exact N1)) as (D & ED & E1).
  assert (MV : moved (z_turn PI) vacuum vacuum).
  { unfold moved, vacuum, z_turn. rewrite cos_PI, sin_PI. mexpl; unfold mmul, mtr, mscal, mid, mat_of, csum; cbn [nth Nat.eqb]; apply C_ext; simpl; field. }
  assert (TF : two_forward (fst (scaled one_each 1 1))) by apply std_two_forward, forward_one.
  assert (C0 : cos (0 * PI / 180) <> 0%R) by (replace (0 * PI / 180)%R with 0%R by field; rewrite cos_0; lra).
  destruct vacuum_exit as (M & HM & Cl).
  assert (R : forall s, exists r, solver4_aniso propagator_expm 0 1 vacuum [(1%R, tilted s)] vacuum (scaled one_each 1 1) = Some r).
  { intros s. destruct (tilted_result 0 vacuum 1 vacuum 1 [(1%R, tilted s)] vacuum_iso ltac:(lra) C0 vacuum_iso ltac:(lra)) as [r H].
    { constructor; [|constructor]. cbn [fst snd]. split; [lra|eauto]. }
    unfold solver4 in H. rewrite KX in H. destruct (transition_matrix_iso_halfspace 0 vacuum false) as [X|] eqn:EX; [|discriminate]. cbn [obind] in H.
    apply iso_L_some in EX. destruct EX as (_ & _ & ->). rewrite iso_cos_0 in H.
    assert (EN : iso_n vacuum = 1) by (rewrite (iso_n_eq vacuum _ vacuum_iso), Csqrt_pos, sqrt_1 by lra; reflexivity). rewrite EN in H.
    destruct (jones4 propagator_expm 0 1 vacuum [(1%R, tilted s)] (isoL 1 1)) as [[a b]|] eqn:J; [|discriminate].
    destruct (jones4_cols propagator_expm 0 1 vacuum [(1%R, tilted s)] (isoL 1 1) M a b (expm_good _ _ _) Cl J) as (a' & b' & J').
    unfold solver4_aniso. rewrite KX, ED. cbn [obind]. rewrite HM. cbn [obind]. rewrite J'. cbn [obind]. eauto. }
  destruct (R 1%R) as [r H]. destruct (R (-1)%R) as [r' H'].
  exists D, r, r'. rewrite KX. do 6 (split; [assumption|]).
  destruct (C86_half_turn_modes propagator_expm propagator_expm 0 1 vacuum [(1%R, tilted 1)] [(1%R, tilted (-1))] vacuum vacuum D D
    (scaled one_each 1 1) (scaled one_each 1 1) r r') as (_ & _ & B & _); rewrite ?KX; auto.
  - now left.
  - now left.
  - constructor; [apply tilted_reciprocal|constructor].
  - constructor; [|constructor]. split; [reflexivity|exact tilted_turned].
  - unfold reciprocal, vacuum. mexpl; reflexivity.
Qed.

(** C87: the mirror image at the plane of incidence of a sample has the same results up to the sign
    of the conversions. *)
Theorem C87_mirror : forall prop prop' theta_i lbda eps_f ls ls' eps_b r,
  exact_propagator prop (reduced_k_x theta_i eps_f) ls -> exact_propagator prop' (reduced_k_x theta_i eps_f) ls' ->
  moved_layers y_mirror ls ls' -> solver4 prop theta_i lbda eps_f ls eps_b = Some r ->
  exists r', solver4 prop' theta_i lbda eps_f ls' eps_b = Some r' /\ power_correction4 r' = power_correction4 r /\
    meq 2 (jones_r4 r') (mat_of [[jones_r4 r 0%nat 0%nat; - jones_r4 r 0%nat 1%nat]; [- jones_r4 r 1%nat 0%nat; jones_r4 r 1%nat 1%nat]]) /\
    meq 2 (jones_t4 r') (mat_of [[jones_t4 r 0%nat 0%nat; - jones_t4 r 0%nat 1%nat]; [- jones_t4 r 1%nat 0%nat; jones_t4 r 1%nat 1%nat]]).
Proof.
  intros prop prop' th lb ef ls ls' eb r P P' M H.
  assert (O := solver4_ok _ _ _ _ _ _ _ H).
  assert (O' : eps_ok ls') by (apply (moved_ok y_mirror ls ls'); [intros e e' K N; rewrite (mirror_elem e e' K) by lia; exact N|exact M|exact O]).
  assert (G := proj1 (exact_good prop _ lb ls P O)). assert (G' := exact_good prop' _ lb ls' P' O').
  unfold solver4 in H |- *. destruct (transition_matrix_iso_halfspace _ eb false) as [X|] eqn:EX; [|discriminate]. cbn [obind] in H |- *.
  apply iso_L_some in EX. destruct EX as (_ & _ & ->).
  destruct (jones4 prop th lb ef ls _) as [[a b]|] eqn:J; [|discriminate]. cbn [obind] in H. apply Some_eq in H. subst r. cbn [jones_r4 jones_t4 power_correction4].
  destruct (mirror_jones prop prop' th lb ef ls ls' _ _ a b G G' M J) as (a' & b' & J' & A & B). rewrite J'. cbn [obind].
  eexists. split; [reflexivity|]. cbn [jones_r4 jones_t4 power_correction4]. split; [reflexivity|]. split; [rewrite A|rewrite B]; apply flipped_eq.
Qed.
Print Assumptions C87_mirror.

(** A sample that is its own mirror image does not convert p into s or s into p. *)
Theorem C87_no_conversion : forall prop theta_i lbda eps_f ls eps_b r,
  exact_propagator prop (reduced_k_x theta_i eps_f) ls -> Forall (fun l => moved y_mirror (snd l) (snd l)) ls ->
  solver4 prop theta_i lbda eps_f ls eps_b = Some r ->
  jones_r4 r 0%nat 1%nat = 0 /\ jones_r4 r 1%nat 0%nat = 0 /\ jones_t4 r 0%nat 1%nat = 0 /\ jones_t4 r 1%nat 0%nat = 0.
Proof.
  intros prop th lb ef ls eb r P M H.
  assert (ML : moved_layers y_mirror ls ls) by (clear - M; induction M; constructor; auto).
  destruct (C87_mirror prop prop th lb ef ls ls eb r P P ML H) as (r' & H' & _ & A & B). rewrite H in H'. apply Some_eq in H'. subst r'.
  assert (Z : forall z : C, z = - z -> z = 0).
  { intros [a b] K. assert (K1 := f_equal Re K). assert (K2 := f_equal Im K). simpl in K1, K2. apply C_ext; simpl; lra. }
  repeat split; apply Z.
  - exact (A 0%nat 1%nat ltac:(lia) ltac:(lia)).
  - exact (A 1%nat 0%nat ltac:(lia) ltac:(lia)).
  - exact (B 0%nat 1%nat ltac:(lia) ltac:(lia)).
  - exact (B 1%nat 0%nat ltac:(lia) ltac:(lia)).
Qed.
Print Assumptions C87_no_conversion.

(** The half-wave plate and its mirror image: both exchange p and s, with opposite signs. *)
Definition plate_image : mat := mat_of [[RtoC (5 / 2); RtoC (- 3 / 2); RtoC 0]; [RtoC (- 3 / 2); RtoC (5 / 2); RtoC 0]; [RtoC 0; RtoC 0; RtoC 1]].
Example C87_example : exists r, solver4 propagator_expm 0 1 vacuum [((1 / 2)%R, plate_image)] vacuum = Some r /\
  jones_t4 r 0%nat 1%nat = - (1) /\ jones_t4 r 1%nat 0%nat = - (1).
Proof.
  destruct plate_result as (r & H & _ & _ & _ & _ & _ & _ & T1 & T2 & _).
  destruct (C87_mirror propagator_expm propagator_expm 0 1 vacuum [((1 / 2)%R, plate)] [((1 / 2)%R, plate_image)] vacuum r) as (r' & H' & _ & _ & A).
  - now left.
  - now left.
  - constructor; [|constructor]. split; [reflexivity|]. unfold moved, plate, plate_image, y_mirror. cbn [snd].
    mexpl; unfold mmul, mtr, mat_of, csum; cbn [nth]; apply C_ext; simpl; field.
  - exact H.
  - exists r'. split; [exact H'|]. rewrite (A 0%nat 1%nat) by lia. rewrite (A 1%nat 0%nat) by lia. unfold mat_of. cbn [nth]. now rewrite T1, T2.
Qed.

(** An optic axis in the plane of incidence: an absorbing crystal without conversion at 60 degrees *)
Definition in_plane : mat := mat_of
  [[RtoC 2 + Ci; RtoC 0; RtoC (1 / 4)]; [RtoC 0; RtoC 3 + Ci; RtoC 0]; [RtoC (1 / 4); RtoC 0; RtoC 2 + Ci]].
Example C87_example_in_plane : exists r, solver4 propagator_expm 60 1 vacuum [(1%R, in_plane)] vacuum = Some r /\
  jones_r4 r 0%nat 1%nat = 0 /\ jones_r4 r 1%nat 0%nat = 0.
Proof.
  destruct (C69_defined propagator_expm 60 1 vacuum [(1%R, in_plane)] vacuum 1 (RtoC 1) vacuum_iso ltac:(lra) cos60 vacuum_iso) as [r H].
  - apply C_of_R_neq. lra.
  - simpl. lra.
  - now left.
  - split; [lra|]. constructor; [|constructor]. cbn [snd]. unfold in_plane, mat_of. cbn [nth]. intros K. assert (K1 := f_equal Re K). simpl in K1. lra.
  - left. split; [lra|]. constructor; [|constructor]. cbn [fst snd]. split; [lra|].
    intros E. unfold dissipation, mvec, in_plane, mat_of, csum. cbn [nth]. destruct (E 0%nat) as [a b], (E 1%nat) as [c d], (E 2%nat) as [e f]. simpl.
    match goal with |- (0 <= ?x)%R => replace x with (a * a + b * b + c * c + d * d + e * e + f * f)%R by field end. nra.
  - exists r. split; [exact H|]. destruct (C87_no_conversion propagator_expm 60 1 vacuum [(1%R, in_plane)] vacuum r) as (A & B & _); auto; [now left|].
    constructor; [|constructor]. unfold moved, in_plane, y_mirror. cbn [snd]. mexpl; unfold mmul, mtr, mat_of, csum; cbn [nth]; apply C_ext; simpl; field.
Qed.

(** C88: at normal incidence, turning the sample by phi turns the transmitted light: the Jones
    matrix is seen in turned axes.  The reflected light runs towards the observer and turns the
    other way. *)
Theorem C88_turn : forall prop prop' lbda phi eps_f ls ls' eps_b r,
  exact_propagator prop 0 ls -> exact_propagator prop' 0 ls' ->
  moved_layers (z_turn phi) ls ls' -> solver4 prop 0 lbda eps_f ls eps_b = Some r ->
  exists r', solver4 prop' 0 lbda eps_f ls' eps_b = Some r' /\ power_correction4 r' = power_correction4 r /\
    meq 2 (jones_t4 r') (mmul 2 (mmul 2 (plane_turn phi) (jones_t4 r)) (plane_turn (- phi))) /\
    meq 2 (jones_r4 r') (mmul 2 (mmul 2 (plane_turn (- phi)) (jones_r4 r)) (plane_turn (- phi))).
Proof.
  intros prop prop' lb phi ef ls ls' eb r P P' M H.
  assert (KX : reduced_k_x 0 ef = 0).
  { unfold reduced_k_x, deg2rad. replace (0 * PI / 180)%R with 0%R by field. rewrite sin_0. ring. }
  assert (O := solver4_ok _ _ _ _ _ _ _ H).
  assert (O' : eps_ok ls') by (apply (moved_ok (z_turn phi) ls ls'); [apply turn_ok|exact M|exact O]).
  assert (G := proj1 (exact_good prop _ lb ls P O)). assert (G' := exact_good prop' _ lb ls' P' O').
  unfold solver4 in H |- *. rewrite KX in H |- *. destruct (transition_matrix_iso_halfspace _ eb false) as [X|] eqn:EX; [|discriminate]. cbn [obind] in H |- *.
  apply iso_L_some in EX. destruct EX as (_ & _ & ->). rewrite iso_cos_0 in H |- *.
  destruct (jones4 prop 0 lb ef ls _) as [[a b]|] eqn:J; [|discriminate]. cbn [obind] in H. apply Some_eq in H. subst r. cbn [jones_r4 jones_t4 power_correction4].
  destruct (turn_jones prop prop' 0 lb phi ef ls ls' _ a b KX G G' M J) as (a' & b' & J' & A & B). rewrite J'. cbn [obind].
  eexists. split; [reflexivity|]. cbn [jones_r4 jones_t4 power_correction4]. auto.
Qed.
Print Assumptions C88_turn.

(** The half-wave plate turned by 45 degrees no longer converts; it delays p by half a period. *)
Example C88_example : exists r, solver4 propagator_expm 0 1 vacuum
    [((1 / 2)%R, mmul 3 (mmul 3 (z_turn (PI / 4)) plate) (mtr (z_turn (PI / 4))))] vacuum = Some r /\
  jones_t4 r 0%nat 0%nat = - (1) /\ jones_t4 r 1%nat 1%nat = 1 /\ jones_t4 r 0%nat 1%nat = 0 /\ jones_t4 r 1%nat 0%nat = 0.
Proof.
  destruct plate_result as (r & H & _ & _ & _ & _ & _ & T0 & T1 & T2 & T3).
  destruct (C88_turn propagator_expm propagator_expm 1 (PI / 4) vacuum [((1 / 2)%R, plate)]
    [((1 / 2)%R, mmul 3 (mmul 3 (z_turn (PI / 4)) plate) (mtr (z_turn (PI / 4))))] vacuum r) as (r' & H' & _ & A & _).
  - now left.
  - now left.
  - constructor; [|constructor]. split; [reflexivity|]. cbn [snd]. unfold moved. reflexivity.
  - exact H.
  - exists r'. split; [exact H'|].
    assert (Q : RtoC (cos (PI / 4)) * RtoC (cos (PI / 4)) = RtoC (1 / 2) /\ sin (PI / 4) = cos (PI / 4)).
    { assert (E : sin (PI / 4) = cos (PI / 4)) by (rewrite cos_PI4, sin_PI4; reflexivity). split; [|exact E]. rewrite <- RtoC_mult. f_equal.
      assert (K := sin2_cos2 (PI / 4)). unfold Rsqr in K. rewrite E in K. lra. }
    destruct Q as [Q1 Q2]. set (c := RtoC (cos (PI / 4))) in *.
    assert (X : forall i j, (i < 2)%nat -> (j < 2)%nat -> jones_t4 r' i j = match i, j with 0%nat, 0%nat => - (c * c) - c * c | 1%nat, 1%nat => c * c + c * c | _, _ => 0 end).
    { intros i j Hi Hj. rewrite (A i j Hi Hj). unfold mmul, plane_turn, mat_of, csum. rewrite cos_neg, sin_neg, Ropp_involutive, Q2.
      idx i; idx j; cbn [nth]; rewrite ?RtoC_opp; fold c; rewrite ?T0, ?T1, ?T2, ?T3; ring. }
    rewrite !X by lia. rewrite Q1. repeat split; apply C_ext; simpl; field.
Qed.

(** C89: the sample turned over, with the light coming in through the other half space under the
    angle that belongs to it: the transmitted amplitudes. *)
Theorem C89_amplitudes : forall prop prop' theta_i theta_b lbda eps_f ls ls' eps_b r r',
  reduced_k_x theta_b eps_b = reduced_k_x theta_i eps_f ->
  exact_propagator prop (reduced_k_x theta_i eps_f) ls -> exact_propagator prop' (reduced_k_x theta_b eps_b) (rev ls') ->
  Forall (fun l => reciprocal (snd l)) ls -> moved_layers y_half_turn ls ls' ->
  solver4 prop theta_i lbda eps_f ls eps_b = Some r -> solver4 prop' theta_b lbda eps_b (rev ls') eps_f = Some r' ->
  let k_x := reduced_k_x theta_i eps_f in
  let f := iso_n eps_f * iso_cos k_x eps_f in let b := iso_n eps_b * iso_cos k_x eps_b in
  f * jones_t4 r' 0%nat 0%nat = b * jones_t4 r 0%nat 0%nat /\ f * jones_t4 r' 1%nat 1%nat = b * jones_t4 r 1%nat 1%nat /\
  f * jones_t4 r' 0%nat 1%nat = - (b * jones_t4 r 1%nat 0%nat) /\ f * jones_t4 r' 1%nat 0%nat = - (b * jones_t4 r 0%nat 1%nat).
Proof.
  intros prop prop' th th' lb ef ls ls' eb r r' KX P P' S M H H'.
  assert (O := solver4_ok _ _ _ _ _ _ _ H). assert (O' := solver4_ok _ _ _ _ _ _ _ H').
  assert (G := proj1 (exact_good prop _ lb ls P O)). assert (G' := proj1 (exact_good prop' _ lb _ P' O')). rewrite KX in G'.
  exact (turned_over prop prop' th th' lb ef eb ls ls' r r' KX G G' M S H H').
Qed.
Print Assumptions C89_amplitudes.

(** Between lossless half spaces the same part of the light comes through from both sides, however
    much the layers absorb. *)
Theorem C89_transmittance : forall prop prop' theta_i theta_b lbda eps_f ls ls' eps_b (x y : R) r r',
  isotropic eps_f (RtoC x) -> (0 < x)%R -> cos (theta_i * PI / 180) <> 0%R ->
  isotropic eps_b (RtoC y) -> (0 < y)%R -> cos (theta_b * PI / 180) <> 0%R ->
  (sqrt y * sin (theta_b * PI / 180) = sqrt x * sin (theta_i * PI / 180))%R ->
  exact_propagator prop (reduced_k_x theta_i eps_f) ls -> exact_propagator prop' (reduced_k_x theta_b eps_b) (rev ls') ->
  Forall (fun l => reciprocal (snd l)) ls -> moved_layers y_half_turn ls ls' ->
  solver4 prop theta_i lbda eps_f ls eps_b = Some r -> solver4 prop' theta_b lbda eps_b (rev ls') eps_f = Some r' ->
  exists pc pc', power_correction4 r = Some pc /\ power_correction4 r' = Some pc' /\
    forall i j, (i < 2)%nat -> (j < 2)%nat -> T_matrix pc' (jones_t4 r') i j = T_matrix pc (jones_t4 r) j i.
Proof.
  intros prop prop' th th' lb ef ls ls' eb x y r r' If X Cf Ib Y Cb KR P P' S M H H'.
  destruct (front_real th ef x If X Cf) as (N1 & K1 & C1 & Z1 & P1). destruct (front_real th' eb y Ib Y Cb) as (N2 & K2 & C2 & Z2 & P2).
  assert (KX : reduced_k_x th' eb = reduced_k_x th ef) by (rewrite K1, K2; unfold deg2rad; now rewrite KR).
  assert (A := C89_amplitudes prop prop' th th' lb ef ls ls' eb r r' KX P P' S M H H'). cbv zeta in A.
  assert (O := solver4_ok _ _ _ _ _ _ _ H). assert (O' := solver4_ok _ _ _ _ _ _ _ H').
  assert (G := proj1 (exact_good prop _ lb ls P O)). assert (G' := proj1 (exact_good prop' _ lb _ P' O')).
  destruct (solver4_fields prop th lb ef eb ls r G H) as (_ & _ & _ & _ & _ & PC & _).
  destruct (solver4_fields prop' th' lb eb ef (rev ls') r' G' H') as (_ & _ & _ & _ & _ & PC' & _).
  rewrite KX in C2, Z2, PC'. rewrite Z1, Z2 in PC, PC'. rewrite N1, N2, C1, C2 in A. rewrite <- !RtoC_mult in A.
  set (f := (sqrt x * Rabs (cos (deg2rad th)))%R) in *. set (b := (sqrt y * Rabs (cos (deg2rad th')))%R) in *.
  cbn [Re fst RtoC] in PC, PC'. unfold rdiv in PC, PC'. destruct (Req_EM_T f 0) as [E|_]; [lra|]. destruct (Req_EM_T b 0) as [E|_]; [lra|].
  exists (b / f)%R, (f / b)%R. split; [exact PC|]. split; [exact PC'|].
  assert (K : forall u v : C, RtoC f * u = RtoC b * v \/ RtoC f * u = - (RtoC b * v) -> (Cmod u * Cmod u * (f / b) = Cmod v * Cmod v * (b / f))%R).
  { intros u v D. assert (E : (f * Cmod u = b * Cmod v)%R).
    { assert (Q : forall (t : R) w, (0 < t)%R -> Cmod (RtoC t * w) = (t * Cmod w)%R) by (intros t w T; rewrite Cmod_mult, Cmod_R, Rabs_right by lra; reflexivity).
      rewrite <- !Q by assumption. destruct D as [->| ->]; [reflexivity|apply Cmod_opp]. }
    replace (Cmod u) with (b * Cmod v / f)%R by (rewrite <- E; field; lra). field. lra. }
  destruct A as (A00 & A11 & A01 & A10).
  intros i j Hi Hj. unfold T_matrix. idx i; idx j; apply K; tauto.
Qed.
Print Assumptions C89_transmittance.

(** An absorbing layer between vacuum, at 45 degrees, and a glass of permittivity 2, at 30 degrees *)
Definition glass2 : mat := mscal (RtoC 2) mid.
Example C89_example : exists r r' pc pc',
  solver4 propagator_expm 45 1 vacuum [(1%R, tilted 1); (2%R, tilted 0)] glass2 = Some r /\
  solver4 propagator_expm 30 1 glass2 [(2%R, mmul 3 (mmul 3 y_half_turn (tilted 0)) (mtr y_half_turn));
    (1%R, mmul 3 (mmul 3 y_half_turn (tilted 1)) (mtr y_half_turn))] vacuum = Some r' /\
  power_correction4 r = Some pc /\ power_correction4 r' = Some pc' /\
  T_matrix pc' (jones_t4 r') 0 0 = T_matrix pc (jones_t4 r) 0 0 /\ T_matrix pc' (jones_t4 r') 0 1 = T_matrix pc (jones_t4 r) 1 0.
Proof.
  assert (Ig : isotropic glass2 (RtoC 2)) by (unfold isotropic, glass2; reflexivity).
  assert (E45 : (45 * PI / 180 = PI / 4)%R) by lra. assert (E30 : (30 * PI / 180 = PI / 6)%R) by lra.
  assert (S2 : (0 < sqrt 2)%R) by (apply sqrt_lt_R0; lra). assert (S3 : (0 < sqrt 3)%R) by (apply sqrt_lt_R0; lra).
  assert (C45 : cos (45 * PI / 180) <> 0%R).
  { rewrite E45, cos_PI4. apply Rgt_not_eq. apply Rdiv_lt_0_compat; lra. }
  assert (C30 : cos (30 * PI / 180) <> 0%R).
  { rewrite E30, cos_PI6. apply Rgt_not_eq. apply Rdiv_lt_0_compat; lra. }
  destruct (tilted_result 45 vacuum 1 glass2 2 [(1%R, tilted 1); (2%R, tilted 0)] vacuum_iso ltac:(lra) C45 Ig ltac:(lra)) as [r H].
  { repeat constructor; cbn [fst snd]; first [lra|eauto]. }
  set (over s := mmul 3 (mmul 3 y_half_turn (tilted s)) (mtr y_half_turn)).
  assert (OP : forall s, passive (over s)).
  { intros s E. unfold over, dissipation, mvec, mmul, mtr, y_half_turn, tilted, mat_of, csum. cbn [nth].
    destruct (E 0%nat) as [a b], (E 1%nat) as [c d], (E 2%nat) as [e f]. simpl.
    match goal with |- (0 <= ?x)%R => replace x with (a * a + b * b + c * c + d * d + e * e + f * f)%R by field end. nra. }
  assert (OZ : forall s, over s 2%nat 2%nat <> 0).
  { intros s. unfold over, mmul, mtr, y_half_turn, tilted, mat_of, csum. cbn [nth]. intros K. assert (K1 := f_equal Re K). simpl in K1. lra. }
  destruct (C69_defined propagator_expm 30 1 glass2 [(2%R, over 0%R); (1%R, over 1%R)] vacuum 2 (RtoC 1) Ig ltac:(lra) C30 vacuum_iso) as [r' H'].
  { apply C_of_R_neq. lra. }
  { simpl. lra. }
  { now left. }
  { split; [lra|]. constructor; [exact (OZ 0%R)|constructor; [exact (OZ 1%R)|constructor]]. }
  { left. split; [lra|]. constructor; [split; [cbn [fst]; lra|exact (OP 0%R)]|constructor; [split; [cbn [fst]; lra|exact (OP 1%R)]|constructor]]. }
  destruct (C89_transmittance propagator_expm propagator_expm 45 30 1 vacuum [(1%R, tilted 1); (2%R, tilted 0)] [(1%R, over 1%R); (2%R, over 0%R)] glass2 1 2 r r')
    as (pc & pc' & A & B & D); auto.
  - apply vacuum_iso.
  - lra.
  - lra.
  - rewrite E45, E30, sin_PI6, sin_PI4, sqrt_1. replace (sqrt 2 * (1 / 2))%R with (sqrt 2 * sqrt 2 * (1 / (2 * sqrt 2)))%R by (field; lra). rewrite sqrt_sqrt by lra. field. lra.
  - now left.
  - now left.
  - constructor; [apply tilted_reciprocal|constructor; [apply tilted_reciprocal|constructor]].
  - constructor; [split; [reflexivity|unfold moved; reflexivity]|constructor; [split; [reflexivity|unfold moved; reflexivity]|constructor]].
  - exists r, r', pc, pc'. do 4 (split; [assumption|]). split; apply D; lia.
Qed.

(** C90: a common factor on the wavelength and on all thicknesses changes nothing (the permittivities
    given at the wavelength being the same). *)
Definition rescaled {A} (s : R) (ls : list (R * A)) : list (R * A) := map (fun l => ((s * fst l)%R, snd l)) ls.
Lemma rescaled_jones prop th lb s (ef : mat) ls X : s <> 0%R -> eps_ok ls -> exact_propagator prop (reduced_k_x th ef) ls ->
  same_jones (jones4 prop th (s * lb) ef (rescaled s ls) X) (jones4 prop th lb ef ls X).
Proof.
  intros Hs O P.
  assert (OK : eps_ok (rescaled s ls) <-> eps_ok ls).
  { unfold eps_ok, rescaled. rewrite Forall_map. reflexivity. }
  assert (P' : exact_propagator prop (reduced_k_x th ef) (rescaled s ls)).
  { destruct P as [->|(eig & -> & E)]; [now left|right]. exists eig. split; [reflexivity|]. intros l D Hl HD.
    apply in_map_iff in Hl. destruct Hl as (l0 & <- & Hl). now apply (E l0). }
  assert (LS : lb_ok (s * lb) (rescaled s ls) <-> lb_ok lb ls).
  { unfold lb_ok. assert (N : rescaled s ls = [] <-> ls = []) by (destruct ls; cbn; split; intros K; (reflexivity || discriminate)). rewrite N.
    assert (Q : (s * lb <> 0)%R <-> (lb <> 0)%R) by (split; intros K Z; [apply K; rewrite Z; ring|apply Rmult_integral in Z; tauto]). rewrite Q. reflexivity. }
  assert (T : lb_ok lb ls -> meq 4 (tmat (reduced_k_x th ef) (s * lb) (rescaled s ls)) (tmat (reduced_k_x th ef) lb ls)).
  { intros [->|L]; [reflexivity|]. clear - Hs L. induction ls as [|l ls IH]; cbn [rescaled map tmat]; [reflexivity|]. unfold rescaled in IH. rewrite IH.
    replace (layer_mat (reduced_k_x th ef) (s * lb) ((s * fst l)%R, snd l)) with (layer_mat (reduced_k_x th ef) lb l); [reflexivity|].
    unfold layer_mat. cbn [fst snd]. replace (phase (s * lb) (- (s * fst l))) with (phase lb (- fst l)); [reflexivity|].
    unfold phase. rewrite <- !Cmult_assoc, <- !RtoC_mult. f_equal. f_equal. field. auto. }
  apply (jones4_lb prop prop th (s * lb) lb ef (rescaled s ls) ls X).
  - exact (exact_good prop _ (s * lb) (rescaled s ls) P' (proj2 OK O)).
  - exact (exact_good prop _ lb ls P O).
  - rewrite OK, LS. reflexivity.
  - intros _ L. apply T. now apply LS.
Qed.
Theorem C90_solver4 : forall prop theta_i lbda s eps_f ls eps_b, s <> 0%R ->
  exact_propagator prop (reduced_k_x theta_i eps_f) ls ->
  same_result4 (solver4 prop theta_i (s * lbda) eps_f (rescaled s ls) eps_b) (solver4 prop theta_i lbda eps_f ls eps_b) /\
  forall eig, same_result4 (solver4_aniso prop theta_i (s * lbda) eps_f (rescaled s ls) eps_b eig) (solver4_aniso prop theta_i lbda eps_f ls eps_b eig).
Proof.
  intros prop th lb s ef ls eb Hs P. assert (J := fun X O => rescaled_jones prop th lb s ef ls X Hs O P).
  assert (OK : eps_ok (rescaled s ls) <-> eps_ok ls).
  { unfold eps_ok, rescaled. rewrite Forall_map. reflexivity. }
  assert (JJ : forall X, same_jones (jones4 prop th (s * lb) ef (rescaled s ls) X) (jones4 prop th lb ef ls X)).
  { intros X. destruct (eps_dec ls) as [O|O]; [now apply J|]. rewrite !jones4_eps by (rewrite ?OK; exact O). exact I. }
  split; [|intros eig].
  - unfold solver4. destruct (transition_matrix_iso_halfspace _ eb false) as [X|]; [|exact I]. cbn [obind]. specialize (JJ X).
    destruct (jones4 prop th (s * lb) ef (rescaled s ls) X) as [[a b]|], (jones4 prop th lb ef ls X) as [[a' b']|]; cbn in *; tauto.
  - unfold solver4_aniso. destruct (build_delta_matrix _ eb); [|exact I]. cbn [obind].
    destruct (transition_matrix_halfspace eig) as [X|]; [|exact I]. cbn [obind]. specialize (JJ X).
    destruct (jones4 prop th (s * lb) ef (rescaled s ls) X) as [[a b]|], (jones4 prop th lb ef ls X) as [[a' b']|]; cbn in *; tauto.
Qed.
Print Assumptions C90_solver4.

Theorem C90_solver2 : forall theta_i lbda s eps_f ls eps_b, s <> 0%R ->
  solver2 theta_i (s * lbda) eps_f (rescaled s ls) eps_b = solver2 theta_i lbda eps_f ls eps_b.
Proof.
  intros th lb s ef ls eb Hs. unfold solver2. replace (solver2_media th (s * lb) ef (rescaled s ls) eb) with (solver2_media th lb ef ls eb); [reflexivity|].
  unfold solver2_media. replace (map (fun l => Csqrt (snd l)) (rescaled s ls)) with (map (fun l : R * C => Csqrt (snd l)) ls) by (unfold rescaled; rewrite map_map; reflexivity).
  set (ns := map (fun l : R * C => Csqrt (snd l)) ls). destruct (list_snell th (Csqrt ef) ns (Csqrt eb)) as [[[a b] c]|]; [|reflexivity]. cbn [obind].
  unfold cdiv. destruct (Ceq_dec (RtoC lb) 0) as [E|E].
  - destruct (Ceq_dec (RtoC (s * lb)) 0) as [F|F]; [reflexivity|]. exfalso. apply F. rewrite RtoC_mult, E. ring.
  - destruct (Ceq_dec (RtoC (s * lb)) 0) as [F|F].
    + exfalso. apply RtoC_inj in F. apply Rmult_integral in F. destruct F as [F|F]; [contradiction|]. apply E. now rewrite F.
    + cbn [obind]. f_equal. f_equal. f_equal. unfold rescaled. clearbody ns.
      assert (NS : RtoC s <> 0) by now apply C_of_R_neq.
      generalize (combine ns b). clear ns b. induction ls as [|[d e] ls IH]; intros [|[n t] l]; cbn [map combine]; try reflexivity.
      f_equal; [|apply IH]. f_equal. cbn [fst]. rewrite !RtoC_mult. field. auto.
Qed.
Print Assumptions C90_solver2.

(** The half-wave plate at twice the wavelength and twice as thick *)
Example C90_example : exists r, solver4 propagator_expm 0 (2 * 1) vacuum [((2 * (1 / 2))%R, plate)] vacuum = Some r /\
  jones_t4 r 0%nat 1%nat = 1.
Proof.
  destruct plate_result as (r & H & _ & _ & _ & _ & _ & _ & T1 & _).
  destruct (C90_solver4 propagator_expm 0 1 2 vacuum [((1 / 2)%R, plate)] vacuum ltac:(lra) ltac:(now left)) as [S _]. rewrite H in S.
  unfold rescaled in S. cbn [map fst snd] in S.
  destruct (solver4 propagator_expm 0 (2 * 1) vacuum [((2 * (1 / 2))%R, plate)] vacuum) as [r'|]; [|destruct S]. exists r'. split; [reflexivity|].
  destruct S as (_ & S & _). rewrite (S 0%nat 1%nat) by lia. exact T1.
Qed.
