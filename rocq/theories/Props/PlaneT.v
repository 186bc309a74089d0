(** C95: samples that are symmetric with respect to the plane of incidence, for Solver4x4. *)
From Coq Require Import Reals Lra Psatz Lia ZArith.
From Coquelicot Require Import Complex.
From Coq Require Import List.
From Verif.Base Require Import Py Cx Mat Mexp Det.
From Verif.Model Require Import Units Ellips Structure Solver2 Solver4.
From Verif.Spec Require Import Stack Tensor Plane.
From Verif.Proof Require Import UnitsP DispersionsP StructureP StackP Solver2P Solver2P2 Solver2P3 Solver2P4
  Solver4P Solver4P2 Solver4P3 Solver4P4 Solver4P5 Solver4P6 BlocksP.
From Verif.Props Require Import Solver4T Energy4T Symmetry4T Optics2T.
Import ListNotations.
Open Scope R_scope.
Open Scope C_scope.
Open Scope py_scope.

Lemma plane_result s prop prop' th lb ef ls ls' eb r r' :
  exact_propagator prop (reduced_k_x th ef) ls -> exact_propagator prop' (reduced_k_x th ef) ls' ->
  Forall2 (fun l l' => fst l = fst l' /\ plane_symmetric (snd l) /\ plane_symmetric (snd l') /\ same_for s (snd l) (snd l')) ls ls' ->
  solver4 prop th lb ef ls eb = Some r -> solver4 prop' th lb ef ls' eb = Some r' ->
  let k := if s then 1%nat else 0%nat in jones_t4 r k k = jones_t4 r' k k /\ jones_r4 r k k = jones_r4 r' k k.
Proof.
  intros P P' F H H'. assert (O := solver4_ok _ _ _ _ _ _ _ H). assert (O' := solver4_ok _ _ _ _ _ _ _ H').
  assert (G := proj1 (exact_good prop _ lb ls P O)). assert (G' := proj1 (exact_good prop' _ lb ls' P' O')).
  unfold solver4 in H, H'. destruct (transition_matrix_iso_halfspace _ eb false) as [X|] eqn:EX; [|discriminate]. cbn [obind] in H, H'.
  apply iso_L_some in EX. destruct EX as (_ & _ & ->).
  destruct (jones4 prop th lb ef ls _) as [[a b]|] eqn:J; [|discriminate]. cbn [obind] in H. apply Some_eq in H. subst r.
  destruct (jones4 prop' th lb ef ls' _) as [[a' b']|] eqn:J'; [|discriminate]. cbn [obind] in H'. apply Some_eq in H'. subst r'.
  cbn [jones_r4 jones_t4]. apply jones4_inv in J, J'; try assumption.
  destruct J as (_ & _ & _ & _ & I & R). destruct J' as (_ & _ & _ & _ & I' & R').
  assert (A := agree_kmat s (reduced_k_x th ef) lb ef (iso_n eb) (iso_cos (reduced_k_x th ef) eb) ls ls' O O' F).
  exact (block_jones s _ _ _ _ _ _ A I I' R R').
Qed.

(** C95: s polarised light depends only on the permittivity across the plane of incidence. *)
Theorem C95_s : forall prop prop' theta_i lbda eps_f ls ls' eps_b r r',
  exact_propagator prop (reduced_k_x theta_i eps_f) ls -> exact_propagator prop' (reduced_k_x theta_i eps_f) ls' ->
  Forall2 (fun l l' => fst l = fst l' /\ plane_symmetric (snd l) /\ plane_symmetric (snd l') /\ same_across (snd l) (snd l')) ls ls' ->
  solver4 prop theta_i lbda eps_f ls eps_b = Some r -> solver4 prop' theta_i lbda eps_f ls' eps_b = Some r' ->
  jones_r4 r 1%nat 1%nat = jones_r4 r' 1%nat 1%nat /\ jones_t4 r 1%nat 1%nat = jones_t4 r' 1%nat 1%nat.
Proof. intros prop prop' th lb ef ls ls' eb r r' P P' F H H'. destruct (plane_result true _ _ _ _ _ _ _ _ _ _ P P' F H H'); auto. Qed.
Print Assumptions C95_s.

(** C95: p polarised light depends only on the permittivity within the plane of incidence. *)
Theorem C95_p : forall prop prop' theta_i lbda eps_f ls ls' eps_b r r',
  exact_propagator prop (reduced_k_x theta_i eps_f) ls -> exact_propagator prop' (reduced_k_x theta_i eps_f) ls' ->
  Forall2 (fun l l' => fst l = fst l' /\ plane_symmetric (snd l) /\ plane_symmetric (snd l') /\ same_within (snd l) (snd l')) ls ls' ->
  solver4 prop theta_i lbda eps_f ls eps_b = Some r -> solver4 prop' theta_i lbda eps_f ls' eps_b = Some r' ->
  jones_r4 r 0%nat 0%nat = jones_r4 r' 0%nat 0%nat /\ jones_t4 r 0%nat 0%nat = jones_t4 r' 0%nat 0%nat.
Proof. intros prop prop' th lb ef ls ls' eb r r' P P' F H H'. destruct (plane_result false _ _ _ _ _ _ _ _ _ _ P P' F H H'); auto. Qed.
Print Assumptions C95_p.

(** C95: so s polarised light may be calculated with Solver2x2 and the permittivities across the
    plane of incidence. *)
Theorem C95_solver2 : forall prop theta_i lbda eps_f ls eps_b (x : R) (e_b : C) r J_r J_t,
  isotropic eps_f (RtoC x) -> (0 < x)%R -> cos (deg2rad theta_i) <> 0%R ->
  isotropic eps_b e_b -> e_b <> 0 -> (0 <= Im e_b)%R ->
  exact_propagator prop (reduced_k_x theta_i eps_f) ls -> Forall (fun l => plane_symmetric (snd l)) ls ->
  ~ (Re (get_k_z eps_b (reduced_k_x theta_i eps_f)) = 0%R /\
     (0 < Im (get_k_z eps_b (reduced_k_x theta_i eps_f)) <= 1 / 10 ^ 10)%R) ->
  solver4 prop theta_i lbda eps_f ls eps_b = Some r ->
  let across := solver2 theta_i lbda (RtoC x) (map (fun l => (fst l, snd l 1%nat 1%nat)) ls) e_b in
  jones2_r across = Some J_r -> jones2_t across = Some J_t ->
  jones_r4 r 1%nat 1%nat = J_r 1%nat 1%nat /\ jones_t4 r 1%nat 1%nat = J_t 1%nat 1%nat /\
  power_correction4 r = power_correction across.
Proof.
  intros prop th lb ef ls eb x e r Jr Jt If Hx Hc Ib Nb Pb P F B H across Hr Ht.
  set (iso := map (fun l : R * mat => (fst l, mscal (snd l 1%nat 1%nat) mid)) ls).
  assert (Il : Forall2 (fun l l' => fst l = fst l' /\ isotropic (snd l) (snd l')) iso (map (fun l : R * mat => (fst l, snd l 1%nat 1%nat)) ls)).
  { unfold iso. clear. induction ls as [|l ls IH]; cbn [map]; constructor; [|exact IH]. cbn [fst snd]. split; [reflexivity|]. unfold isotropic. reflexivity. }
  destruct (C38_passive propagator_expm th lb ef eb iso x e _ Jr Jt If Hx Hc Ib Nb Pb Il (or_introl eq_refl) B Hr Ht) as (r' & H' & A1 & A2 & A3).
  assert (G := C95_s prop propagator_expm th lb ef ls iso eb r r' P (or_introl eq_refl)).
  destruct G as [G1 G2]; [| |exact H'|].
  - unfold iso. clear - F. induction F as [|l ls Hl F IH]; cbn [map]; constructor; [|exact IH]. cbn [fst snd].
    split; [reflexivity|]. split; [exact Hl|]. unfold plane_symmetric, same_across, mscal, mid. cbn [Nat.eqb]. repeat split; ring.
  - exact H.
  - rewrite G1, G2. split; [apply A1; lia|]. split; [apply A2; lia|]. etransitivity; [|exact A3].
    unfold solver4 in H, H'. destruct (transition_matrix_iso_halfspace _ eb false); [|discriminate]. cbn [obind] in H, H'.
    destruct (jones4 prop th lb ef ls _) as [[? ?]|]; [|discriminate]. destruct (jones4 propagator_expm th lb ef iso _) as [[? ?]|]; [|discriminate].
    cbn [obind] in H, H'. apply Some_eq in H, H'. subst r r'. reflexivity.
Qed.
Print Assumptions C95_solver2.

(** An absorbing crystal that is tilted in the plane of incidence, with the permittivity e across it *)
Definition crystal (e : R) : mat := mat_of
  [[RtoC 2 + Ci; RtoC 0; RtoC (1 / 4)]; [RtoC 0; RtoC e; RtoC 0]; [RtoC (1 / 4); RtoC 0; RtoC 2 + Ci]].
Lemma crystal_plane e : plane_symmetric (crystal e).
Proof. unfold plane_symmetric, crystal, mat_of. cbn [nth]. auto. Qed.
Lemma crystal_defined th d e : (0 <= d)%R -> cos (th * PI / 180) <> 0%R ->
  exists r, solver4 propagator_expm th 1 vacuum [(d, crystal e)] vacuum = Some r.
Proof.
  intros D Hc. apply (C69_defined propagator_expm th 1 vacuum [(d, crystal e)] vacuum 1 (RtoC 1) vacuum_iso ltac:(lra) Hc vacuum_iso).
  - apply C_of_R_neq. lra.
  - simpl. lra.
  - now left.
  - split; [lra|]. constructor; [|constructor]. cbn [snd]. unfold crystal, mat_of. cbn [nth]. intros K. assert (K1 := f_equal Re K). simpl in K1. lra.
  - left. split; [lra|]. constructor; [|constructor]. cbn [fst snd]. split; [exact D|].
    intros E. unfold dissipation, mvec, crystal, mat_of, csum. cbn [nth]. destruct (E 0%nat) as [a b], (E 1%nat) as [c g], (E 2%nat) as [h f]. simpl.
    match goal with |- (0 <= ?x)%R => replace x with (a * a + b * b + h * h + f * f)%R by field end. nra.
Qed.

(** Crystals that differ across the plane reflect p alike at 60 degrees; s sees a quarter wave layer
    of index 3. *)
Example C95_example : exists r r', solver4 propagator_expm 60 1 vacuum [(1%R, crystal 9)] vacuum = Some r /\
  solver4 propagator_expm 60 1 vacuum [(1%R, crystal 4)] vacuum = Some r' /\ jones_r4 r 0%nat 0%nat = jones_r4 r' 0%nat 0%nat.
Proof.
  destruct (crystal_defined 60 1 9 ltac:(lra) cos60) as [r H]. destruct (crystal_defined 60 1 4 ltac:(lra) cos60) as [r' H'].
  exists r, r'. split; [exact H|]. split; [exact H'|].
  apply (C95_p propagator_expm propagator_expm 60 1 vacuum [(1%R, crystal 9)] [(1%R, crystal 4)] vacuum r r'); auto; try (now left).
  constructor; [|constructor]. cbn [fst snd]. split; [reflexivity|]. split; [apply crystal_plane|]. split; [apply crystal_plane|].
  unfold same_within, crystal, mat_of. cbn [nth]. auto.
Qed.
Example C95_example_s : exists r, solver4 propagator_expm 0 1 vacuum [((1 / 12)%R, crystal 9)] vacuum = Some r /\
  jones_r4 r 1%nat 1%nat = RtoC (- (4 / 5)).
Proof.
  assert (C0 : cos (0 * PI / 180) <> 0%R) by (replace (0 * PI / 180)%R with 0%R by field; rewrite cos_0; lra).
  destruct (crystal_defined 0 (1 / 12) 9 ltac:(lra) C0) as [r H]. exists r. split; [exact H|].
  destruct (C92_quarter 1 1 9 1 0 ltac:(lra) ltac:(lra) ltac:(lra) ltac:(lra)) as [[ts Hs] [tp Hp]]. cbv zeta in Hs, Hp.
  assert (S9 : sqrt 9 = 3%R) by (replace 9%R with (3 * 3)%R by ring; apply sqrt_square; lra).
  replace ((2 * INR 0 + 1) * 1 / (4 * sqrt 9))%R with (1 / 12)%R in Hs, Hp by (rewrite S9; simpl; field).
  rewrite sqrt_1 in Hs, Hp.
  set (res := solver2 0 1 (RtoC 1) [((1 / 12)%R, RtoC 9)] (RtoC 1)) in *.
  assert (KX : reduced_k_x 0 vacuum = 0).
  { unfold reduced_k_x, deg2rad. replace (0 * PI / 180)%R with 0%R by field. rewrite sin_0. ring. }
  edestruct (C95_solver2 propagator_expm 0 1 vacuum [((1 / 12)%R, crystal 9)] vacuum 1 (RtoC 1) r) as (A & _); try exact vacuum_iso; try exact H.
  - lra.
  - exact C0.
  - apply C_of_R_neq; lra.
  - simpl; lra.
  - now left.
  - constructor; [apply crystal_plane|constructor].
  - rewrite KX. unfold get_k_z. intros [K0 _]. revert K0. rewrite Csqrt_sqr.
    replace (vacuum 0%nat 0%nat - 0 * 0) with (RtoC 1) by (unfold vacuum, mscal, mid; cbn [Nat.eqb]; ring).
    rewrite Csqrt_pos by lra. rewrite sqrt_1. simpl. lra.
  - cbn [map fst snd]. change (crystal 9 1%nat 1%nat) with (RtoC 9). fold res. unfold jones2_r, jones2. rewrite Hp, Hs. reflexivity.
  - cbn [map fst snd]. change (crystal 9 1%nat 1%nat) with (RtoC 9). fold res. unfold jones2_t, jones2. rewrite Hp, Hs. reflexivity.
  - rewrite A. unfold mat_of. cbn [nth fst snd]. f_equal. field.
Qed.
