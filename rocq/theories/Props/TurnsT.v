(** C110: repeated twisted layers are one longer twisted layer. *)
From Coq Require Import Reals Lra Psatz Lia ZArith.
From Coquelicot Require Import Complex.
From Coq Require Import List.
From Verif.Base Require Import Py Cx Mat Mexp Det Approx.
From Verif.Model Require Import Units Ellips Rotation Structure Solver4.
From Verif.Spec Require Import Maxwell Tensor Turned Turns.
From Verif.Proof Require Import UnitsP DispersionsP StructureP Solver4P Solver4P2 Solver4P3 Solver4P5 Solver4P6 GradedP GradedP2 TurnsP.
From Verif.Props Require Import Solver4T GradedT.
Import ListNotations.
Open Scope R_scope.
Open Scope C_scope.
Open Scope py_scope.

(** C110: if the twist brings the tensor back to itself, the repeated layer has the same slices as
    a layer of the whole thickness, angle and number of divisions. *)
Theorem C110_profile : forall (e : mat) d angle eps eps' (div reps : Z) l l1 l2,
  (forall z, twisted_tensor e d angle z = Some (eps z)) ->
  (forall z, twisted_tensor e (IZR reps * d) (IZR reps * angle) z = Some (eps' z)) ->
  moved (z_turn (angle * PI / 180)) e e ->
  make_inhomogeneous eps d div = Ok l -> make_repeated [l] reps 0 0 = Ok l1 ->
  make_inhomogeneous eps' (IZR reps * d) (reps * div) = Ok l2 ->
  same_layers (profile l1) (profile l2).
Proof.
  intros e d angle eps eps' div reps l l1 l2 T T' M H H1 H2.
  assert (E := fun z => twisted_helix e d angle z (eps z) (T z)). assert (E' := fun z => twisted_helix _ _ _ z (eps' z) (T' z)). assert (D := proj1 (E 0%R)). assert (RD := proj1 (E' 0%R)).
  unfold make_inhomogeneous in H, H2. unfold make_repeated in H1. destruct (Rlt_dec d 0); [discriminate|]. destruct (div <? 1)%Z eqn:Q; [discriminate|]. injection H as <-.
  destruct (reps <? 1)%Z eqn:Q1; [discriminate|]. cbn in H1. injection H1 as <-. destruct (Rlt_dec _ 0); [discriminate|]. destruct (reps * div <? 1)%Z; [discriminate|]. injection H2 as <-.
  apply Z.ltb_ge in Q, Q1. rewrite profile_repeated. cbn [profiles app firstn]. rewrite !app_nil_r, Z2Nat.inj_mul by lia.
  set (D0 := Z.to_nat div). set (N0 := Z.to_nat reps). assert (HD : (0 < D0)%nat) by (unfold D0; lia). assert (HN : (0 < N0)%nat) by (unfold N0; lia). assert (RN : IZR reps = INR N0) by (unfold N0; rewrite INR_IZR_INZ, Z2Nat.id by lia; reflexivity).
  rewrite RN in *. assert (ND := lt_0_INR _ HD). assert (NN := lt_0_INR _ HN). rewrite !inhom_profile by nia. apply (times_blocks _ _ _ D0 N0) with (a := 0%nat). intros a k Hk. cbn [fst snd].
  assert (W : (INR N0 * d / INR (N0 * D0) = d / INR D0)%R) by (rewrite mult_INR; field; lra). split; [now symmetry|]. rewrite W. rewrite (proj2 (E _)), (proj2 (E' _)).
  replace (INR N0 * angle * PI / 180 / (INR N0 * d))%R with (angle * PI / 180 / d)%R by (field; split; lra || exact D).
  replace ((INR (a * D0 + k) + 1 / 2) * (d / INR D0))%R with ((INR k + 1 / 2) * (d / INR D0) + INR a * d)%R by (rewrite plus_INR, mult_INR; field; lra).
  symmetry. apply helix_turns. replace (angle * PI / 180 / d * d)%R with (angle * PI / 180)%R by (field; exact D). exact M.
Qed.
Print Assumptions C110_profile.

(** C110: then the solver gives the same results with either, whatever the other layers are. *)
Theorem C110_solver : forall prop prop' theta_i lbda eps_f eps_b pre post (e : mat) d angle eps eps' (div reps : Z) l l1 l2,
  (forall z, twisted_tensor e d angle z = Some (eps z)) ->
  (forall z, twisted_tensor e (IZR reps * d) (IZR reps * angle) z = Some (eps' z)) ->
  moved (z_turn (angle * PI / 180)) e e ->
  make_inhomogeneous eps d div = Ok l -> make_repeated [l] reps 0 0 = Ok l1 ->
  make_inhomogeneous eps' (IZR reps * d) (reps * div) = Ok l2 ->
  exact_propagator prop (reduced_k_x theta_i eps_f) (concat (map profile (pre ++ [l1] ++ post))) ->
  exact_propagator prop' (reduced_k_x theta_i eps_f) (concat (map profile (pre ++ [l2] ++ post))) ->
  same_result4 (solver4_structure prop theta_i lbda (Structure eps_f (pre ++ [l1] ++ post) eps_b))
               (solver4_structure prop' theta_i lbda (Structure eps_f (pre ++ [l2] ++ post) eps_b)).
Proof.
  intros prop prop' th lb ef eb pre post e d angle eps eps' div reps l l1 l2 T T' M H H1 H2 P P'.
  assert (S := C110_profile e d angle eps eps' div reps l l1 l2 T T' M H H1 H2). rewrite !solver4_structure_eq, !profiles_concat. set (ls := concat _) in *. set (ls' := concat (map profile (pre ++ [l2] ++ post))) in *.
  assert (SL : same_layers ls ls').
  { unfold ls, ls'. rewrite !map_app, !concat_app. apply Forall2_app; [apply same_layers_refl|]. apply Forall2_app; [|apply same_layers_refl]. cbn [map concat]. rewrite !app_nil_r. exact S. }
  clearbody ls ls'. destruct (eps_dec ls) as [O|O].
  - assert (O' := same_layers_ok _ _ SL O). apply solver4_congr; [now apply exact_good|now apply exact_good| |intros _ _; now apply same_layers_tmat].
    split; intros [X Y]; (split; [assumption|]); (destruct Y as [Y|Y]; [left|right; exact Y]); subst; inversion SL; reflexivity.
  - assert (O' : ~ eps_ok ls') by (intros O'; apply O; apply (same_layers_ok ls' ls); [now apply same_layers_sym|exact O']). rewrite !solver4_eps by assumption. exact I.
Qed.
Print Assumptions C110_solver.

(** C110: full turns bring every tensor back, half turns the ones with an axis along the normal and
    no others. *)
Theorem C110_turns : forall (e : mat) (n : nat),
  moved (z_turn (360 * INR n * PI / 180)) e e /\
  (moved (z_turn (180 * (2 * INR n + 1) * PI / 180)) e e <->
   e 0%nat 2%nat = 0 /\ e 1%nat 2%nat = 0 /\ e 2%nat 0%nat = 0 /\ e 2%nat 1%nat = 0).
Proof.
  intros e n. assert (C0 : cos (2 * INR n * PI) = 1%R /\ sin (2 * INR n * PI) = 0%R).
  { replace (2 * INR n * PI)%R with (0 + 2 * INR n * PI)%R by ring. now rewrite cos_period, sin_period, cos_0, sin_0. }
  assert (T : z_turn (360 * INR n * PI / 180) = mat_of [[RtoC 1; RtoC 0; RtoC 0]; [RtoC 0; RtoC 1; RtoC 0]; [RtoC 0; RtoC 0; RtoC 1]]).
  { unfold z_turn. replace (360 * INR n * PI / 180)%R with (2 * INR n * PI)%R by field. destruct C0 as [-> ->]. rewrite ?Ropp_0. reflexivity. }
  assert (T' : z_turn (180 * (2 * INR n + 1) * PI / 180) = mat_of [[RtoC (- (1))%R; RtoC 0; RtoC 0]; [RtoC 0; RtoC (- (1))%R; RtoC 0]; [RtoC 0; RtoC 0; RtoC 1]]).
  { unfold z_turn. replace (180 * (2 * INR n + 1) * PI / 180)%R with (2 * INR n * PI + PI)%R by field. rewrite neg_cos, neg_sin. destruct C0 as [-> ->]. rewrite ?Ropp_0. reflexivity. }
  unfold moved. rewrite T, T'. rewrite RtoC_opp. split.
  - intros i j Hi Hj. unfold mmul, mtr, mat_of, csum. idx i; idx j; cbn [nth]; ring.
  - split.
    + intros H. assert (Z : forall c : C, c = - c -> c = 0) by (intros c Hc; assert (X : c + c = 0) by (rewrite Hc at 1; ring); apply C_ext; [apply (f_equal fst) in X|apply (f_equal snd) in X]; cbn in *; lra).
      repeat split; apply Z.
      * rewrite (H 0%nat 2%nat) at 1 by lia. unfold mmul, mtr, mat_of, csum. cbn [nth]. ring.
      * rewrite (H 1%nat 2%nat) at 1 by lia. unfold mmul, mtr, mat_of, csum. cbn [nth]. ring.
      * rewrite (H 2%nat 0%nat) at 1 by lia. unfold mmul, mtr, mat_of, csum. cbn [nth]. ring.
      * rewrite (H 2%nat 1%nat) at 1 by lia. unfold mmul, mtr, mat_of, csum. cbn [nth]. ring.
    + intros (H1 & H2 & H3 & H4) i j Hi Hj. unfold mmul, mtr, mat_of, csum. idx i; idx j; cbn [nth]; rewrite ?H1, ?H2, ?H3, ?H4; ring.
Qed.
Print Assumptions C110_turns.

(** C110, refuted: repeating half turns is not a longer helix if the director is tilted. *)
Theorem C110_half_turns_refuted : exists (e : mat) d eps eps' (div reps : Z) l l1 l2,
  meq 3 (mtr e) e /\
  (forall z, twisted_tensor e d 180 z = Some (eps z)) /\
  (forall z, twisted_tensor e (IZR reps * d) (IZR reps * 180) z = Some (eps' z)) /\
  make_inhomogeneous eps d div = Ok l /\ make_repeated [l] reps 0 0 = Ok l1 /\
  make_inhomogeneous eps' (IZR reps * d) (reps * div) = Ok l2 /\
  ~ same_layers (profile l1) (profile l2).
Proof.
  set (e := mat_of [[RtoC 3; RtoC 0; RtoC 1]; [RtoC 0; RtoC 2; RtoC 0]; [RtoC 1; RtoC 0; RtoC 3]]).
  destruct (C105_twisted e 1 180 ltac:(lra)) as (eps & T & _); [unfold e, mat_of; cbn [nth]; apply C_of_R_neq; lra|].
  destruct (C105_twisted e (2 * 1) (2 * 180) ltac:(lra)) as (eps' & T' & _); [unfold e, mat_of; cbn [nth]; apply C_of_R_neq; lra|].
  exists e, 1%R, eps, eps', 1%Z, 2%Z, (Inhomogeneous 1 1 eps), (Repeated [Inhomogeneous 1 1 eps] 2 0 0), (Inhomogeneous (2 * 1) 2 eps').
  split; [intros i j Hi Hj; unfold e, mtr, mat_of; idx i; idx j; reflexivity|]. split; [exact T|]. split; [exact T'|].
  split; [unfold make_inhomogeneous; destruct (Rlt_dec 1 0); [lra|reflexivity]|]. split; [reflexivity|]. split; [unfold make_inhomogeneous; destruct (Rlt_dec _ 0); [lra|reflexivity]|].
  rewrite profile_repeated. cbn [profiles app firstn times]. rewrite !app_nil_r, !inhom_profile by lia. cbn [seq map app]. intros H. inversion H as [|? ? ? ? _ H']; subst. inversion H' as [|? ? ? ? [_ M] _]; subst. cbn [snd] in M.
  specialize (M 1%nat 2%nat ltac:(lia) ltac:(lia)). rewrite (proj2 (twisted_helix _ _ _ _ _ (T _)) 1%nat 2%nat), (proj2 (twisted_helix _ _ _ _ _ (T' _)) 1%nat 2%nat) in M by lia.
  unfold helix in M. change (INR 0) with 0%R in M. change (INR 1) with 1%R in M.
  replace (180 * PI / 180 / 1 * ((0 + 1 / 2) * (1 / 1)))%R with (PI / 2)%R in M by field. replace (2 * 180 * PI / 180 / (2 * 1) * ((1 + 1 / 2) * (2 * 1 / (1 + 1))))%R with (3 * (PI / 2))%R in M by field.
  unfold mmul, mtr, z_turn, e, mat_of, csum in M. cbn [nth] in M. rewrite cos_PI2, sin_PI2, cos_3PI2, sin_3PI2 in M. apply (f_equal fst) in M. cbn in M. lra.
Qed.
Print Assumptions C110_half_turns_refuted.

(** The cell of the gallery: fifteen half turns of 35 slices are one layer of 525 slices. *)
Definition nematic : mat := mat_of [[RtoC (289 / 100); RtoC 0; RtoC 0]; [RtoC 0; RtoC (225 / 100); RtoC 0]; [RtoC 0; RtoC 0; RtoC (225 / 100)]].
Example C110_example : exists eps eps' l l1 l2,
  (forall z, twisted_tensor nematic 325 180 z = Some (eps z)) /\
  (forall z, twisted_tensor nematic (15 * 325) (15 * 180) z = Some (eps' z)) /\
  make_inhomogeneous eps 325 35 = Ok l /\ make_repeated [l] 15 0 0 = Ok l1 /\ make_inhomogeneous eps' (15 * 325) (15 * 35) = Ok l2 /\
  same_layers (profile l1) (profile l2) /\ length (profile l1) = 525%nat /\
  forall theta_i lbda, same_result4 (solver4_structure propagator_expm theta_i lbda (Structure (mscal (RtoC 2) mid) [l1] (mscal (RtoC 2) mid)))
                                    (solver4_structure propagator_expm theta_i lbda (Structure (mscal (RtoC 2) mid) [l2] (mscal (RtoC 2) mid))).
Proof.
  destruct (C105_twisted nematic 325 180 ltac:(lra)) as (eps & T & _); [unfold nematic, mat_of; cbn [nth]; apply C_of_R_neq; lra|].
  destruct (C105_twisted nematic (15 * 325) (15 * 180) ltac:(lra)) as (eps' & T' & _); [unfold nematic, mat_of; cbn [nth]; apply C_of_R_neq; lra|].
  assert (M : moved (z_turn (180 * PI / 180)) nematic nematic).
  { destruct (C110_turns nematic 0) as [_ H]. change (INR 0) with 0%R in H. replace (180 * (2 * 0 + 1) * PI / 180)%R with (180 * PI / 180)%R in H by field. apply H. repeat split; reflexivity. }
  assert (H : make_inhomogeneous eps 325 35 = Ok (Inhomogeneous 325 35 eps)) by (unfold make_inhomogeneous; destruct (Rlt_dec 325 0); [lra|reflexivity]).
  assert (H1 : make_repeated [Inhomogeneous 325 35 eps] 15 0 0 = Ok (Repeated [Inhomogeneous 325 35 eps] 15 0 0)) by reflexivity.
  assert (H2 : make_inhomogeneous eps' (15 * 325) (15 * 35) = Ok (Inhomogeneous (15 * 325) (Z.to_nat (15 * 35)) eps')) by (unfold make_inhomogeneous; destruct (Rlt_dec _ 0); [lra|reflexivity]).
  exists eps, eps', (Inhomogeneous 325 35 eps), (Repeated [Inhomogeneous 325 35 eps] 15 0 0), (Inhomogeneous (15 * 325) (Z.to_nat (15 * 35)) eps').
  assert (S := C110_profile nematic 325 180 eps eps' 35 15 _ _ _ T T' M H H1 H2).
  do 5 (split; [assumption|]). split; [exact S|]. split.
  - assert (LE : forall a b, same_layers a b -> length a = length b) by (intros a b Q; induction Q; cbn; congruence). rewrite (LE _ _ S), inhom_profile by lia. rewrite map_length, seq_length. reflexivity.
  - intros th lb. apply (C110_solver propagator_expm propagator_expm th lb _ _ [] [] nematic 325 180 eps eps' 35 15 _ _ _ T T' M H H1 H2); left; reflexivity.
Qed.
