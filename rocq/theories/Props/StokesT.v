(** C125: Stokes' relations between the amplitudes of a transparent stack lit from its two sides. *)
From Coq Require Import Reals Lra Psatz Lia.
From Coquelicot Require Import Complex.
From Coq Require Import List.
From Verif.Base Require Import Py Cx Mat.
From Verif.Model Require Import Units Ellips Structure Solver2.
From Verif.Spec Require Import Stack Waves.
From Verif.Proof Require Import StackP FluxP UnitsP DispersionsP StructureP Solver2P Solver2P2 Solver2P3 Solver2P4 Solver2P5 ReverseP SplitP.
From Verif.Props Require Import Solver2T EnergyT Optics2T.
Import ListNotations.
Open Scope R_scope.
Open Scope C_scope.

(** Numbers on one of the two axes *)
Definition on_axis (z : C) : Prop := Cconj z = z \/ Cconj z = - z.
Lemma axis_of_sqr (z : C) (a : R) : z * z = RtoC a -> on_axis z.
Proof.
  intros H. assert (H2 := f_equal snd H). destruct z as [x y]. simpl in H2.
  assert (K : (x = 0 \/ y = 0)%R) by (destruct (Req_dec x 0); [now left|right; nra]).
  destruct K as [->| ->]; [right|left]; apply C_ext; simpl; ring.
Qed.
Lemma axis_real (x : R) : on_axis (RtoC x).
Proof. left. apply Cconj_R. Qed.

(** Waves of a transparent stack run backwards in time *)
Definition transparent_layer (l : C * C * C) : Prop :=
  on_axis (fst (fst l)) /\ on_axis (snd (fst l)) /\ exists k : R, snd l = RtoC k * (fst (fst l) * snd (fst l)).
Lemma through_conj ls : Forall transparent_layer ls -> forall u v u' v',
  through u v ls u' v' -> through (Cconj u) (- Cconj v) ls (Cconj u') (- Cconj v').
Proof.
  induction 1 as [|[[p q] d] ls (P & Q & k & D) F IH]; intros u v u' v'; cbn [through].
  - intros [-> ->]. auto.
  - intros (A & B & -> & -> & H). apply IH in H. cbn [fst snd] in P, Q, D.
    rewrite !Cconj_mult, Cconj_plus, Cconj_minus, !Cconj_mult, !Cexp_conj, Cconj_opp, Cconj_mult, Cconj_Ci in H.
    assert (Dc : Cconj d = RtoC k * (Cconj p * Cconj q)) by (rewrite D, !Cconj_mult, Cconj_R; reflexivity).
    rewrite !Cconj_mult, Cconj_plus, Cconj_minus.
    destruct P as [P|P], Q as [Q|Q]; rewrite P, Q in *.
    + exists (Cconj B), (Cconj A). split; [ring|]. split; [ring|].
      replace (Cconj d) with d in H by (rewrite Dc, D; ring).
      replace (- - (Ci * d)) with (Ci * d) in H by ring. replace (- Ci * d) with (- (Ci * d)) in H by ring.
      replace (- (- (Ci * d))) with (Ci * d) in H by ring.
      match goal with H : through ?a ?b _ _ _ |- through ?e ?f _ _ _ => replace e with a by ring; replace f with b by ring end. exact H.
    + exists (Cconj A), (Cconj B). split; [ring|]. split; [ring|].
      replace (Cconj d) with (- d) in H by (rewrite Dc, D; ring).
      replace (- Ci * - d) with (Ci * d) in H by ring.
      match goal with H : through ?a ?b _ _ _ |- through ?e ?f _ _ _ => replace e with a by ring; replace f with b by ring end. exact H.
    + exists (- Cconj A), (- Cconj B). split; [ring|]. split; [ring|].
      replace (Cconj d) with (- d) in H by (rewrite Dc, D; ring).
      replace (- Ci * - d) with (Ci * d) in H by ring.
      match goal with H : through ?a ?b _ _ _ |- through ?e ?f _ _ _ => replace e with a by ring; replace f with b by ring end. exact H.
    + exists (- Cconj B), (- Cconj A). split; [ring|]. split; [ring|].
      replace (Cconj d) with d in H by (rewrite Dc, D; ring).
      replace (- Ci * d) with (- (Ci * d)) in H by ring.
      replace (- (- (Ci * d))) with (Ci * d) in H by ring.
      match goal with H : through ?a ?b _ _ _ |- through ?e ?f _ _ _ => replace e with a by ring; replace f with b by ring end. exact H.
Qed.
Lemma layer_transparent b (k kx d e : R) : (e <> 0)%R ->
  transparent_layer (char_layer (pc b) (layer_of (RtoC k) (RtoC kx) (d, RtoC e))).
Proof.
  intros N. assert (N' : RtoC e <> 0) by now apply C_of_R_neq.
  unfold char_layer, layer_of. cbn [fst snd]. set (n := Csqrt (RtoC e)). set (c := Ccos (Casin (RtoC kx / n))).
  assert (n2 : n * n = RtoC e) by apply Csqrt_sqr.
  assert (n0 : n <> 0) by (intros E; apply N'; rewrite <- n2, E; ring).
  assert (c2 : c * c = RtoC (1 - kx * kx / e)).
  { unfold c. rewrite Ccos_Casin, Csqrt_sqr, RtoC_minus, RtoC_div, RtoC_mult, <- n2 by exact N. field. exact n0. }
  destruct b; unfold pc, char_s, char_p, transparent_layer; cbn [fst snd]; fold c.
  - split; [apply axis_real|]. split.
    + apply (axis_of_sqr _ (e * (1 - kx * kx / e))). rewrite RtoC_mult, <- n2, <- c2. ring.
    + exists (k * d)%R. rewrite RtoC_mult. ring.
  - split; [exact (axis_of_sqr _ _ n2)|]. split; [exact (axis_of_sqr _ _ c2)|].
    exists (k * d)%R. rewrite RtoC_mult. ring.
Qed.

(** The relations for amplitudes of waves *)
Lemma stokes_waves ls (p0 q0 pb qb r t r' t' : C) : Forall transparent_layer ls ->
  Cconj p0 = p0 -> Cconj q0 = q0 -> Cconj pb = pb -> Cconj qb = qb ->
  scattering p0 q0 ls pb qb 1 r t ->
  (forall a x y, scattering pb qb (rev ls) p0 q0 a x y -> x = a * r' /\ y = a * t') ->
  r' * Cconj t + Cconj r * t = 0 /\ t' * Cconj t + r * Cconj r = 1.
Proof.
  intros F P0 Q0 Pb Qb S U. unfold scattering in S. apply through_matched in S.
  assert (X := through_rev _ _ _ _ _ (through_conj ls F _ _ _ _ S)). assert (Y := through_rev _ _ _ _ _ S).
  rewrite !Cconj_mult, Cconj_plus, Cconj_minus, Cconj_R, P0, Q0, Pb, Qb in X.
  assert (Z := through_add _ _ _ _ _ _ _ _ _ X (through_scal (- Cconj r) _ _ _ _ _ Y)).
  destruct (U (Cconj t) (- (Cconj r * t)) (1 - r * Cconj r)) as [E1 E2].
  - unfold scattering. apply through_matched.
    match goal with H : through ?a ?b _ ?c ?d |- through ?e ?f _ ?g ?h =>
      replace e with a by ring; replace f with b by ring; replace g with c by ring; replace h with d by ring end. exact Z.
  - split.
    + rewrite (Cmult_comm r'), <- E1. ring.
    + rewrite (Cmult_comm t'), <- E2. ring.
Qed.

Lemma half_real b th (x : R) : (0 < x)%R -> cos (deg2rad th) <> 0%R ->
  let m := pc b (half_of (kx_of th (RtoC x)) (RtoC x)) in Cconj (fst m) = fst m /\ Cconj (snd m) = snd m.
Proof.
  intros P Q. destruct (kz_front th x P Q) as (_ & -> & E).
  destruct b; unfold pc, char_s, char_p; cbn [fst snd]; rewrite E, ?Cconj_mult, !Cconj_R; auto.
Qed.

(** C125: the stack lit from the back at the angle of the transmitted wave *)
Theorem C125_stokes : forall theta_i theta_b lbda (x y : R) (ls : list (R * R)) r t,
  (0 < x)%R -> (0 < y)%R -> cos (theta_i * PI / 180) <> 0%R -> cos (theta_b * PI / 180) <> 0%R ->
  (sqrt x * sin (theta_i * PI / 180) = sqrt y * sin (theta_b * PI / 180))%R ->
  let layers := map (fun l => (fst l, RtoC (snd l))) ls in
  let there := solver2 theta_i lbda (RtoC x) layers (RtoC y) in
  let back_again := solver2 theta_b lbda (RtoC y) (rev layers) (RtoC x) in
  let stokes a b := a = Some (r, t) -> exists r' t', b = Some (r', t') /\
    r' * Cconj t + Cconj r * t = 0 /\ t' * Cconj t + r * Cconj r = 1 in
  stokes (rt_s there) (rt_s back_again) /\ stokes (rt_p there) (rt_p back_again).
Proof.
  intros th tb lb x y ls r t P Py Q Q' S layers there again stokes.
  destruct (C93_transmittance th tb lb x y layers r t P Py Q Q' S) as [Gs Gp]. fold there again in Gs, Gp. cbv zeta in Gs, Gp.
  assert (K : kx_of th (RtoC x) = kx_of tb (RtoC y)) by (rewrite !kx_real by lra; f_equal; exact S).
  assert (G : forall b, stokes (rt b there) (rt b again)).
  { intros b H. assert (E : exists r' t', rt b again = Some (r', t')).
    { destruct b; [destruct (Gs H) as (r' & t' & _ & _ & E & _)|destruct (Gp H) as (r' & t' & _ & _ & E & _)]; exists r', t'; exact E. }
    destruct E as (r' & t' & E). exists r', t'. split; [exact E|].
    apply rt_some in H. apply rt_some in E. destruct H as [(L & _ & _ & F) H], E as [_ E].
    rewrite <- K, map_rev in E.
    apply (amplitudes_scattering (pf b) (pc b) (pf_char b)) in H, E. cbv zeta in H, E. destruct H as [H _], E as [_ E].
    rewrite map_rev in E.
    destruct (half_real b th x P Q) as [R1 R2]. destruct (half_real b tb y Py Q') as [R3 R4]. rewrite <- K in R3, R4.
    refine (stokes_waves _ _ _ _ _ _ _ _ _ _ R1 R2 R3 R4 H E).
    rewrite k0_R, kx_real by (exact L || lra). unfold layers in F |- *. rewrite Forall_map in F. cbn [snd] in F. rewrite !map_map, Forall_map.
    revert F. apply Forall_impl. intros [d e] N. cbn [fst snd] in *. apply layer_transparent. intros ->. now apply N. }
  split; [exact (G true)|exact (G false)].
Qed.
Print Assumptions C125_stokes.

(** C125: a stack that is the same from both sides, between equal half spaces: the transmitted
    and the reflected wave are a quarter of a period apart. *)
Theorem C125_quadrature : forall theta_i lbda (x : R) (ls : list (R * R)) r t,
  (0 < x)%R -> cos (theta_i * PI / 180) <> 0%R -> rev ls = ls ->
  let res := solver2 theta_i lbda (RtoC x) (map (fun l => (fst l, RtoC (snd l))) ls) (RtoC x) in
  rt_s res = Some (r, t) \/ rt_p res = Some (r, t) ->
  (fst r * fst t + snd r * snd t = 0)%R /\ (Cmod r * Cmod r + Cmod t * Cmod t = 1)%R.
Proof.
  intros th lb x ls r t P Q V res H.
  destruct (C125_stokes th th lb x x ls r t P P Q Q eq_refl) as [Gs Gp]. cbv zeta in Gs, Gp.
  rewrite <- map_rev, V in Gs, Gp. fold res in Gs, Gp.
  assert (E : r * Cconj t + Cconj r * t = 0 /\ t * Cconj t + r * Cconj r = 1).
  { destruct H as [H|H]; [destruct (Gs H) as (r' & t' & E & E1)|destruct (Gp H) as (r' & t' & E & E1)];
      rewrite H in E; apply Some_eq in E; assert (A := f_equal fst E); assert (B := f_equal snd E); cbn [fst snd] in A, B; subst r' t'; exact E1. }
  destruct E as [E1 E2]. apply (f_equal fst) in E1, E2.
  destruct r as [a b], t as [c d]. simpl in E1, E2. cbn [fst snd]. split; [lra|].
  unfold Cmod. cbn [fst snd]. rewrite !sqrt_sqrt by nra. lra.
Qed.
Print Assumptions C125_quadrature.

(** C125: a single interface, as Stokes wrote it *)
Theorem C125_interface : forall theta_i theta_b lbda (x y : R) r t,
  (0 < x)%R -> (0 < y)%R -> cos (theta_i * PI / 180) <> 0%R -> cos (theta_b * PI / 180) <> 0%R ->
  (sqrt x * sin (theta_i * PI / 180) = sqrt y * sin (theta_b * PI / 180))%R ->
  let there := solver2 theta_i lbda (RtoC x) [] (RtoC y) in
  let back_again := solver2 theta_b lbda (RtoC y) [] (RtoC x) in
  let stokes a b := a = Some (r, t) -> exists t', b = Some (- r, t') /\ t * t' = 1 - r * r in
  stokes (rt_s there) (rt_s back_again) /\ stokes (rt_p there) (rt_p back_again).
Proof.
  intros th tb lb x y r t P Py Q Q' S there again stokes.
  destruct (C125_stokes th tb lb x y [] r t P Py Q Q' S) as [Gs Gp]. cbv zeta in Gs, Gp. cbn [map rev] in Gs, Gp. fold there again in Gs, Gp.
  assert (K : kx_of th (RtoC x) = kx_of tb (RtoC y)) by (rewrite !kx_real by lra; f_equal; exact S).
  assert (G : forall b, stokes (rt b there) (rt b again)).
  { intros b H. assert (E : exists r' t', rt b again = Some (r', t')).
    { destruct b; [destruct (Gs H) as (r' & t' & E & _)|destruct (Gp H) as (r' & t' & E & _)]; exists r', t'; exact E. }
    destruct E as (r' & t' & E). exists t'. rewrite E.
    apply rt_some in H. apply rt_some in E. destruct H as [_ H], E as [_ E]. rewrite <- K in E.
    apply (amplitudes_scattering (pf b) (pc b) (pf_char b)) in H, E. cbv zeta in H, E. destruct H as [H _], E as [E _].
    unfold scattering in H, E. cbn [map matched] in H, E. rewrite K in H at 2 4. rewrite K in E at 1 3.
    assert (Zf := pc_prod b (half_of (kx_of th (RtoC x)) (RtoC x))). assert (Zb := pc_prod b (half_of (kx_of tb (RtoC y)) (RtoC y))).
    fold (kz_half (kx_of th (RtoC x)) (RtoC x)) in Zf. fold (kz_half (kx_of tb (RtoC y)) (RtoC y)) in Zb.
    destruct (kz_front th x P Q) as (Ef & _ & _). destruct (kz_front tb y Py Q') as (Eb & _ & _). rewrite Ef in Zf. rewrite Eb in Zb.
    assert (Nf := C_of_R_neq _ (Rgt_not_eq _ _ (real_kz x th P Q))). assert (Nb := C_of_R_neq _ (Rgt_not_eq _ _ (real_kz y tb Py Q'))).
    rewrite <- Zf in Nf. rewrite <- Zb in Nb.
    set (p0 := fst (pc b (half_of (kx_of th (RtoC x)) (RtoC x)))) in *. set (q0 := snd (pc b (half_of (kx_of th (RtoC x)) (RtoC x)))) in *.
    set (pb := fst (pc b (half_of (kx_of tb (RtoC y)) (RtoC y)))) in *. set (qb := snd (pc b (half_of (kx_of tb (RtoC y)) (RtoC y)))) in *.
    destruct H as [H1 H2], E as [E1 E2].
    assert (N1 : p0 * pb <> 0).
    { apply Cmult_neq_0; intros Z; [apply Nf|apply Nb]; rewrite Z; ring. }
    assert (N2 : q0 * qb <> 0).
    { apply Cmult_neq_0; intros Z; [apply Nf|apply Nb]; rewrite Z; ring. }
    assert (A1 : (1 + r) * (1 + r') = t * t').
    { apply (Cmult_cancel (p0 * pb) _ _ N1). transitivity (p0 * (1 + r) * (pb * (1 + r'))); [ring|]. rewrite H1, E1. ring. }
    assert (A2 : (1 - r) * (1 - r') = t * t').
    { apply (Cmult_cancel (q0 * qb) _ _ N2). transitivity (q0 * (1 - r) * (qb * (1 - r'))); [ring|]. rewrite H2, E2. ring. }
    assert (R0 : r' = - r).
    { apply (Cmult_cancel 2); [apply C2_neq0|]. transitivity ((1 + r) * (1 + r') - (1 - r) * (1 - r') - 2 * r); [ring|]. rewrite A1, A2. ring. }
    split; [now rewrite R0|]. rewrite <- A1, R0. ring. }
  split; [exact (G true)|exact (G false)].
Qed.
Print Assumptions C125_interface.

(** A film between two equal coatings, at normal incidence *)
Example C125_example : exists r t,
  rt_s (solver2 0 1 (RtoC 1) [((1 / 3)%R, RtoC 4); (1%R, RtoC 2); ((1 / 3)%R, RtoC 4)] (RtoC 1)) = Some (r, t) /\
  (fst r * fst t + snd r * snd t = 0)%R.
Proof.
  assert (Df := C37_defined 0 1 1 1 [((1 / 3)%R, 4%R); (1%R, 2%R); ((1 / 3)%R, 4%R)] ltac:(lra)). rewrite cos_zero in Df.
  change (1 * (sin (0 * PI / 180) * sin (0 * PI / 180)))%R with (tangential2 1 0) in Df. rewrite tangential_0 in Df.
  specialize (Df ltac:(lra) ltac:(lra) ltac:(lra)). cbn [map fst snd] in Df. destruct Df as ((r & t & E) & _ & _).
  { repeat constructor; cbn [fst snd]; lra. }
  exists r, t. split; [exact E|].
  refine (proj1 (C125_quadrature 0 1 1 [((1 / 3)%R, 4%R); (1%R, 2%R); ((1 / 3)%R, 4%R)] r t _ _ eq_refl (or_introl E))); [lra|].
  rewrite cos_zero. lra.
Qed.
