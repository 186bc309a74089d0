(** C34: Jones and Stokes input vectors. *)
From Coq Require Import Reals Lra Psatz.
From Coquelicot Require Import Complex.
From Verif.Base Require Import Py Cx.
From Verif.Model Require Import Units Polar.
From Verif.Spec Require Import Analyser.
From Verif.Proof Require Import PolarP.
Open Scope R_scope.

(** A Jones vector is stored as it is, with the Stokes vector an experiment would measure. *)
Theorem C34_jones : forall old a b, exists l, set_vector old (VJones a b) = Some l /\
  jones_vector l = Some (a, b) /\
  (forall S, stokes_vector l = S <-> measured a b S).
Proof.
  intros old a b. eexists. split; [reflexivity|]. split; [reflexivity|]. cbn [stokes_vector].
  intros S. split; [intros <-; apply jones_measured|]. intros H.
  eapply measured_unique; [apply jones_measured|exact H].
Qed.
Print Assumptions C34_jones.

(** A Stokes vector is stored as it is; unless the power or the polarised part is zero, the Jones
    vector has unit power, and scaled to the polarised power it gives the polarised part. *)
Theorem C34_stokes_partial : forall old s0 s1 s2 s3, s0 <> 0 -> s1 ^ 2 + s2 ^ 2 + s3 ^ 2 <> 0 ->
  exists l a b, set_vector old (VStokes s0 s1 s2 s3) = Some l /\ stokes_vector l = (s0, s1, s2, s3) /\
  jones_vector l = Some (a, b) /\ Cnorm2 a + Cnorm2 b = 1 /\
  let P := sqrt (s1 ^ 2 + s2 ^ 2 + s3 ^ 2) in
  measured (RtoC (sqrt P) * a)%C (RtoC (sqrt P) * b)%C (P, s1, s2, s3).
Proof.
  intros old s0 s1 s2 s3 H0 HP.
  assert (HP' : 0 < s1 ^ 2 + s2 ^ 2 + s3 ^ 2) by nra.
  destruct (stokes_jones s0 s1 s2 s3 H0 HP') as (a & b & E & K & _).
  exists (Light (Some (a, b)) (s0, s1, s2, s3)), a, b.
  split; [cbn [set_vector]; now rewrite E|]. split; [reflexivity|]. split; [reflexivity|].
  set (P := sqrt (s1 ^ 2 + s2 ^ 2 + s3 ^ 2)) in *. cbv zeta.
  assert (PP : 0 < P) by (apply sqrt_lt_R0; exact HP').
  assert (Q := sqrt_sqrt P ltac:(lra)). set (q := sqrt P) in *.
  unfold jones_to_stokes in K. injection K as K0 K1 K2 K3.
  assert (M : forall z : C, Cmod z ^ 2 = Cnorm2 z) by (intros z; simpl; rewrite Rmult_1_r; apply Cmod_sqr).
  simpl in K0, K1. rewrite !Rmult_1_r, !Cmod_sqr in K0, K1.
  split; [exact K0|].
  replace (P, s1, s2, s3) with (jones_to_stokes (RtoC q * a) (RtoC q * b)%C); [apply jones_measured|].
  unfold jones_to_stokes. rewrite !M, !Cnorm2_mult.
  replace (Cnorm2 (RtoC q)) with P by (unfold Cnorm2; simpl; nra).
  replace (RtoC q * a * Cconj (RtoC q * b))%C with (RtoC P * (a * Cconj b))%C.
  2:{ rewrite Cconj_mult, Cconj_R, <- Q, RtoC_mult. ring. }
  replace (Re (RtoC P * (a * Cconj b))%C) with (P * Re (a * Cconj b)%C) by (unfold Re, Im; simpl; ring).
  replace (Im (RtoC P * (a * Cconj b))%C) with (P * Im (a * Cconj b)%C) by (unfold Re, Im; simpl; ring).
  assert (G1 : s1 = P * (Cnorm2 a - Cnorm2 b)) by (rewrite K1; field; lra).
  assert (G2 : s2 = P * (2 * Re (a * Cconj b)%C)) by (unfold Re in *; simpl in *; rewrite K2; field; lra).
  assert (G3 : s3 = P * (- 2 * Im (a * Cconj b)%C)) by (unfold Im in *; simpl in *; rewrite K3; field; lra).
  rewrite G1, G2, G3. f_equal; [f_equal; [f_equal|]|]; nra.
Qed.
Print Assumptions C34_stokes_partial.

(** Exactly for zero power and for unpolarised light there is no Jones vector (nan entries), ... *)
Theorem C34_undefined : forall old s0 s1 s2 s3,
  (exists l, set_vector old (VStokes s0 s1 s2 s3) = Some l /\ jones_vector l = None) <->
  s0 = 0 \/ (s1 = 0 /\ s2 = 0 /\ s3 = 0).
Proof.
  intros old s0 s1 s2 s3. split.
  - intros (l & E & N). cbn [set_vector] in E. apply (f_equal (option_map jones_vector)) in E.
    cbn [option_map jones_vector] in E. rewrite N in E. injection E as E.
    destruct (Req_EM_T s0 0) as [|n]; [now left|right].
    destruct (Req_EM_T (s1 ^ 2 + s2 ^ 2 + s3 ^ 2) 0) as [z|z]; [nra|].
    destruct (stokes_jones s0 s1 s2 s3 n ltac:(nra)) as (a & b & E' & _). rewrite E' in E. discriminate.
  - intros H. eexists. split; [reflexivity|]. cbn [jones_vector].
    destruct H as [->|(-> & -> & ->)]; [apply stokes_zero|apply stokes_unpolarised].
Qed.
Print Assumptions C34_undefined.

(** ... so the documented vector [1, 0, 0, 0] of unpolarised light is refuted. *)
Theorem C34_unpolarised_refuted : exists s0 s1 s2 s3, s0 > 0 /\ s1 ^ 2 + s2 ^ 2 + s3 ^ 2 <= s0 ^ 2 /\
  forall old l, set_vector old (VStokes s0 s1 s2 s3) = Some l -> jones_vector l = None.
Proof.
  exists 1, 0, 0, 0. split; [lra|]. split; [lra|]. intros old l H. cbn [set_vector] in H.
  apply (f_equal (option_map jones_vector)) in H. cbn [option_map jones_vector] in H.
  injection H as H. rewrite <- H. apply stokes_unpolarised.
Qed.
Print Assumptions C34_unpolarised_refuted.

(** Light given as a Jones vector and set again by its Stokes vector is the same light: the Jones
    vectors differ by a complex factor. *)
Theorem C34_round_trip : forall old (a b : C), a <> RtoC 0 \/ b <> RtoC 0 ->
  exists l, set_vector old (VJones a b) = Some l /\
  let '(s0, s1, s2, s3) := stokes_vector l in
  exists (l' : light) (k : C), set_vector (Some l) (VStokes s0 s1 s2 s3) = Some l' /\ k <> RtoC 0 /\
    jones_vector l' = Some (k * a, k * b)%C.
Proof.
  intros old a b N. eexists. split; [reflexivity|]. cbn [stokes_vector]. unfold jones_to_stokes.
  set (na := Cnorm2 a). set (nb := Cnorm2 b).
  assert (M : forall z : C, Cmod z ^ 2 = Cnorm2 z) by (intros z; simpl; rewrite Rmult_1_r; apply Cmod_sqr).
  rewrite !M. fold na nb.
  assert (Na : 0 <= na) by apply Cnorm2_ge0. assert (Nb : 0 <= nb) by apply Cnorm2_ge0.
  assert (NN : 0 < na + nb).
  { destruct N as [N|N]; apply Cnorm2_gt0 in N; [fold na in N|fold nb in N]; lra. }
  set (w := (a * Cconj b)%C).
  assert (W : Re w * Re w + Im w * Im w = na * nb).
  { change (Cnorm2 w = na * nb). unfold w. rewrite Cnorm2_mult. unfold na, nb, Cnorm2; simpl; ring. }
  assert (PE : (na - nb) ^ 2 + (2 * Re w) ^ 2 + (- 2 * Im w) ^ 2 = (na + nb) ^ 2).
  { transitivity ((na - nb) ^ 2 + 4 * (Re w * Re w + Im w * Im w)); [ring|rewrite W; ring]. }
  destruct (stokes_jones (na + nb) (na - nb) (2 * Re w) (- 2 * Im w)) as (a' & b' & E & K & _).
  { lra. } { rewrite PE. nra. }
  rewrite PE in K. rewrite sqrt_pow2 in K by lra. unfold jones_to_stokes in K. rewrite !M in K.
  injection K as K0 K1 K2 K3. set (n := na + nb) in *.
  assert (Ea : Cnorm2 a' = na / n).
  { transitivity ((1 + (na - nb) / n) / 2); [lra|]. unfold n. field. fold n. lra. }
  assert (Eb : Cnorm2 b' = nb / n).
  { transitivity ((1 - (na - nb) / n) / 2); [lra|]. unfold n. field. fold n. lra. }
  assert (Ew : (a' * Cconj b')%C = (RtoC (/ n) * w)%C).
  { apply C_ext.
    - replace (fst (a' * Cconj b')%C) with (2 * Re w / n / 2).
      + unfold Re, RtoC; simpl. field. lra.
      + unfold Re in K2; simpl in K2 |- *. rewrite <- K2. field.
    - replace (snd (a' * Cconj b')%C) with (- (- 2 * Im w / n) / 2).
      + unfold Im, RtoC; simpl. field. lra.
      + unfold Im in K3; simpl in K3 |- *. rewrite <- K3. field. }
  assert (nC : (RtoC n <> 0)%C) by (intros h; apply RtoC_inj in h; lra).
  destruct (Ceq_dec a 0) as [a0|a0].
  - destruct N as [N|N]; [contradiction|].
    assert (na0 : na = 0) by (unfold na; rewrite a0; unfold Cnorm2; simpl; ring).
    assert (a'0 : a' = 0%C).
    { apply Cnorm2_eq0. rewrite Ea, na0. field. lra. }
    assert (nb0 : 0 < nb) by (apply Cnorm2_gt0; exact N).
    assert (b'0 : (b' <> 0)%C).
    { intros h. rewrite h in Eb. replace (Cnorm2 0) with 0 in Eb by (unfold Cnorm2; simpl; ring).
      assert (0 < nb / n) by (apply Rdiv_lt_0_compat; lra). lra. }
    exists (Light (Some (a', b')) (n, na - nb, 2 * Re w, - 2 * Im w)), (b' / b)%C.
    split; [cbn [set_vector]; now rewrite E|]. split; [apply Cdiv_neq0; assumption|].
    cbn [jones_vector]. rewrite a0, a'0. f_equal. f_equal; [ring|field; exact N].
  - assert (na0 : 0 < na) by (apply Cnorm2_gt0; exact a0).
    assert (a'0 : (a' <> 0)%C).
    { intros h. rewrite h in Ea. replace (Cnorm2 0) with 0 in Ea by (unfold Cnorm2; simpl; ring).
      assert (0 < na / n) by (apply Rdiv_lt_0_compat; lra). lra. }
    exists (Light (Some (a', b')) (n, na - nb, 2 * Re w, - 2 * Im w)), (a' / a)%C.
    split; [cbn [set_vector]; now rewrite E|]. split; [apply Cdiv_neq0; assumption|].
    cbn [jones_vector]. f_equal. f_equal; [field; exact a0|].
    assert (ca : (Cconj a <> 0)%C) by (apply Cconj_neq0; exact a0).
    assert (ca' : (Cconj a' <> 0)%C) by (apply Cconj_neq0; exact a'0).
    assert (Na2 : forall z : C, (z * Cconj z)%C = RtoC (Cnorm2 z)).
    { intros z. apply C_ext; unfold Cnorm2; simpl; ring. }
    assert (Ew' := f_equal Cconj Ew). rewrite !Cconj_mult, Cconj_conj, Cconj_R in Ew'.
    unfold w in Ew'. rewrite Cconj_mult, Cconj_conj in Ew'.
    apply (Cmult_cancel (Cconj a')); [exact ca'|]. rewrite Ew'.
    transitivity (RtoC (Cnorm2 a') * b / a)%C.
    + rewrite Ea. unfold na, Rdiv. rewrite RtoC_mult, <- Na2. field. exact a0.
    + rewrite <- Na2. field. exact a0.
Qed.
Print Assumptions C34_round_trip.

(** The default vector is diagonally polarised light of unit power. *)
Theorem C34_default : forall old, exists l, set_vector old VNone = Some l /\
  stokes_vector l = (1, 0, 1, 0) /\
  jones_vector l = Some (RtoC (1 / sqrt 2), RtoC (1 / sqrt 2)).
Proof.
  intros old. eexists. split; [reflexivity|]. split; [reflexivity|]. cbn [jones_vector].
  unfold stokes_to_jones. replace (0 ^ 2 + 1 ^ 2 + 0 ^ 2) with 1 by ring. rewrite sqrt_1.
  rewrite rdiv_some by lra. cbn [obind]. replace (1 * (1 / 1)) with 1 by field.
  rewrite !(rdiv_some _ 1) by lra. cbn [obind].
  destruct (Req_EM_T (0 / 1) (-1)) as [h|h]; [exfalso; lra|].
  replace ((1 + 0 / 1) / 2) with (/ 2) by field. rewrite sqrt_inv.
  assert (S2 := sqrt_lt_R0 2 ltac:(lra)). assert (SS := sqrt_sqrt 2 ltac:(lra)).
  rewrite !rdiv_some by (apply Rmult_integral_contrapositive_currified; [lra|apply Rinv_neq_0_compat; lra]).
  cbn [obind]. f_equal. f_equal; [f_equal; field; lra|].
  apply C_ext; simpl; [|field; lra].
  apply (Rmult_eq_reg_r (2 * sqrt 2)); [|lra].
  transitivity (sqrt 2 * sqrt 2); [field; lra|]. rewrite SS. field. lra.
Qed.
Print Assumptions C34_default.

(** A vertically polarised and a partially polarised input. *)
Example C34_example : stokes_to_jones 2 (- (2)) 0 0 = Some (RtoC 0, RtoC 1) /\
  2 <> 0 /\ 1 ^ 2 + 0 ^ 2 + 0 ^ 2 <> 0.
Proof.
  split; [|lra]. unfold stokes_to_jones. replace ((- (2)) ^ 2 + 0 ^ 2 + 0 ^ 2) with (2 ^ 2) by ring.
  rewrite sqrt_pow2 by lra. rewrite rdiv_some by lra. cbn [obind]. replace (2 * (2 / 2)) with 2 by field.
  rewrite !rdiv_some by lra. cbn [obind]. destruct (Req_EM_T (- (2) / 2) (-1)) as [|h]; [reflexivity|].
  exfalso. apply h. field.
Qed.
