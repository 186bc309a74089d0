(** C119: a sample divided at a transparent layer; multiple reflections; the etalon. *)
From Coq Require Import Reals Lra Psatz Lia.
From Coquelicot Require Import Complex.
From Coq Require Import List.
From Verif.Base Require Import Py Cx Mat.
From Verif.Model Require Import Units Ellips Structure Solver2.
From Verif.Spec Require Import Stack Etalon.
From Verif.Proof Require Import StackP FluxP UnitsP DispersionsP StructureP Solver2P Solver2P2 Solver2P3 Solver2P4 Solver2P5 SplitP SplitP2.
From Verif.Props Require Import EnergyT.
Import ListNotations.
Open Scope R_scope.
Open Scope C_scope.
Open Scope py_scope.

(** C119: a layer of real permittivity e > 0 inside any sample, with the refracted angle theta'.
    The amplitudes of the sample follow from three samples that have the material of the layer as
    back or front medium, and from the phase of one passage through the layer. *)
Theorem C119_split : forall theta theta' lbda (x e : R) (eps_b : C) pre d post,
  (0 < x)%R -> (0 < e)%R -> cos (theta' * PI / 180) <> 0%R ->
  (sqrt x * sin (theta * PI / 180) = sqrt e * sin (theta' * PI / 180))%R ->
  let above := solver2 theta lbda (RtoC x) pre (RtoC e) in
  let above_back := solver2 theta' lbda (RtoC e) (rev pre) (RtoC x) in
  let below := solver2 theta' lbda (RtoC e) post eps_b in
  let sample := solver2 theta lbda (RtoC x) (pre ++ (d, RtoC e) :: post) eps_b in
  let h := Cexp (Ci * RtoC (2 * PI / lbda * (sqrt e * Rabs (cos (theta' * PI / 180))) * d)) in
  forall pol, pol = rt_s \/ pol = rt_p ->
  forall ra ta ra' ta' rb tb r t,
  pol above = Some (ra, ta) -> pol above_back = Some (ra', ta') -> pol below = Some (rb, tb) -> pol sample = Some (r, t) ->
  let D := 1 - ra' * (h * rb * h) in
  D <> 0 /\ r = ra + ta * (h * rb * h) * ta' / D /\ t = ta * h * tb / D.
Proof.
  intros th th' lb x e eb pre d post Px Pe Hc Sn above above_back below sample h pol Hp ra ta ra' ta' rb tb r t HA HA' HB HW.
  destruct Hp as [-> | ->].
  - exact (split_rt true th th' lb x e eb pre d post ra ta ra' ta' rb tb r t Px Pe Hc Sn HA HA' HB HW).
  - exact (split_rt false th th' lb x e eb pre d post ra ta ra' ta' rb tb r t Px Pe Hc Sn HA HA' HB HW).
Qed.
Print Assumptions C119_split.

(** C119: for passive materials the amplitudes are the sums over all waves that leave the layer after
    0, 1, 2, ... reflections at its two sides. *)
Theorem C119_waves : forall theta theta' lbda (x e : R) (eps_b : C) pre d post,
  (0 < x)%R -> (0 < e)%R -> (0 < lbda)%R -> cos (theta * PI / 180) <> 0%R -> cos (theta' * PI / 180) <> 0%R ->
  (sqrt x * sin (theta * PI / 180) = sqrt e * sin (theta' * PI / 180))%R ->
  Forall (fun l => (0 <= fst l)%R /\ (0 <= Im (snd l))%R) pre ->
  Forall (fun l => (0 <= fst l)%R /\ (0 <= Im (snd l))%R) post -> (0 <= Im eps_b)%R ->
  let above := solver2 theta lbda (RtoC x) pre (RtoC e) in
  let above_back := solver2 theta' lbda (RtoC e) (rev pre) (RtoC x) in
  let below := solver2 theta' lbda (RtoC e) post eps_b in
  let sample := solver2 theta lbda (RtoC x) (pre ++ (d, RtoC e) :: post) eps_b in
  let h := Cexp (Ci * RtoC (2 * PI / lbda * (sqrt e * Rabs (cos (theta' * PI / 180))) * d)) in
  forall pol, pol = rt_s \/ pol = rt_p ->
  forall ra ta ra' ta' rb tb r t,
  pol above = Some (ra, ta) -> pol above_back = Some (ra', ta') -> pol below = Some (rb, tb) -> pol sample = Some (r, t) ->
  sums_to (reflected_wave ra ta ra' ta' rb h) r /\ sums_to (transmitted_wave ta ra' rb tb h) t.
Proof.
  intros th th' lb x e eb pre d post Px Pe L Hc Hc' Sn Fa Fb Ib above above_back below sample h pol Hp ra ta ra' ta' rb tb r t HA HA' HB HW.
  destruct (C119_split th th' lb x e eb pre d post Px Pe Hc' Sn pol Hp ra ta ra' ta' rb tb r t HA HA' HB HW) as (_ & -> & ->).
  assert (M : (Cmod ra' < 1)%R /\ (Cmod rb <= 1)%R).
  { destruct Hp as [-> | ->].
    - exact (inside true th th' lb x e eb pre post ra' ta' rb tb Px Pe L Hc Hc' Sn Fa Fb Ib HA' HB).
    - exact (inside false th th' lb x e eb pre post ra' ta' rb tb Px Pe L Hc Hc' Sn Fa Fb Ib HA' HB). }
  assert (S : (Cmod (ra' * (h * rb * h))%C < 1)%R).
  { rewrite !Cmod_mult. unfold h. rewrite Cmod_phase. destruct M as [M1 M2]. assert (G1 := Cmod_ge_0 ra'). assert (G2 := Cmod_ge_0 rb). nra. }
  split; [now apply waves_r|now apply waves_t].
Qed.
Print Assumptions C119_waves.

(** One interface between transparent media *)
Lemma one_interface (p0 q0 p1 q1 : R) b f g r t : (0 < p0)%R -> (0 < q0)%R -> (0 < p1)%R -> (0 < q1)%R ->
  pc b f = (RtoC p0, RtoC q0) -> pc b g = (RtoC p1, RtoC q1) -> amplitudes (pf b) f [] g = Some (r, t) ->
  r = RtoC ((q0 * p1 - p0 * q1) / (q0 * p1 + p0 * q1)) /\ t = RtoC (2 * p0 * q0 / (q0 * p1 + p0 * q1)).
Proof.
  intros P0 Q0 P1 Q1 Ef Eg H. apply (amplitudes_iff (pf b) (pc b) (pf_char b)) in H. cbv zeta in H. rewrite Ef, Eg in H. cbn [map] in H.
  destruct H as (_ & _ & -> & ->). unfold inc_ref. cbn [front_fields fst snd].
  assert (A : (0 < q0 * p1 + p0 * q1)%R) by nra.
  assert (N0 := C_of_R_neq p0 ltac:(lra)). assert (N1 := C_of_R_neq q0 ltac:(lra)). assert (N2 := C_of_R_neq _ (Rgt_not_eq _ _ A)).
  rewrite !RtoC_div by lra. rewrite RtoC_minus, RtoC_plus, !RtoC_mult in *. 
  assert (N3 : RtoC p1 * RtoC q0 + RtoC q1 * RtoC p0 <> 0) by (intros E; apply N2; rewrite <- E; ring).
  split; field; repeat split; auto; try (intros E; apply N2; rewrite <- E; ring); apply C_of_R_neq; lra.
Qed.

(** C119: an etalon, a transparent plate in a transparent medium, follows Airy's formula: with the
    reflectance R of one of its surfaces, 1 / T = 1 + 4 R / (1 - R)^2 sin^2 phi and R + T = 1. *)
Theorem C119_etalon : forall theta theta' lbda (x e d : R),
  (0 < x)%R -> (0 < e)%R -> (0 < lbda)%R -> (0 <= d)%R -> cos (theta * PI / 180) <> 0%R -> cos (theta' * PI / 180) <> 0%R ->
  (sqrt x * sin (theta * PI / 180) = sqrt e * sin (theta' * PI / 180))%R ->
  let surface := solver2 theta lbda (RtoC x) [] (RtoC e) in
  let plate := solver2 theta lbda (RtoC x) [(d, RtoC e)] (RtoC x) in
  let phi := (2 * PI / lbda * (sqrt e * Rabs (cos (theta' * PI / 180))) * d)%R in
  forall pol, pol = rt_s \/ pol = rt_p ->
  exists r1 t1 r t, pol surface = Some (r1, t1) /\ pol plate = Some (r, t) /\ power_correction plate = Some 1%R /\
  let R1 := (Cmod r1 * Cmod r1)%R in
  (R1 < 1)%R /\
  (Cmod t * Cmod t = 1 / (1 + 4 * R1 / ((1 - R1) * (1 - R1)) * (sin phi * sin phi)))%R /\
  (Cmod r * Cmod r = 1 - Cmod t * Cmod t)%R.
Proof.
  intros th th' lb x e d Px Pe L Hd Hc Hc' Sn surface plate phi pol Hp.
  set (s := sin (th * PI / 180)) in *. set (s' := sin (th' * PI / 180)) in *. set (c := cos (th * PI / 180)) in *. set (c' := cos (th' * PI / 180)) in *.
  assert (SC : (s * s + c * c = 1)%R) by (assert (K := sin2_cos2 (th * PI / 180)); unfold Rsqr in K; exact K).
  assert (SC' : (s' * s' + c' * c' = 1)%R) by (assert (K := sin2_cos2 (th' * PI / 180)); unfold Rsqr in K; exact K).
  assert (S2 : (x * (s * s) = e * (s' * s'))%R).
  { transitivity ((sqrt x * sqrt x) * (s * s))%R; [rewrite sqrt_sqrt by lra; reflexivity|].
    transitivity ((sqrt x * s) * (sqrt x * s))%R; [ring|]. rewrite Sn. transitivity ((sqrt e * sqrt e) * (s' * s'))%R; [ring|]. rewrite sqrt_sqrt by lra. reflexivity. }
  assert (Cp : (0 < c * c)%R) by (destruct (Rlt_dec 0 c); nra). assert (Cp' : (0 < c' * c')%R) by (destruct (Rlt_dec 0 c'); nra).
  assert (Lx : (x * (s * s) < x)%R) by nra. assert (Le : (x * (s * s) < e)%R) by nra.
  destruct (C37_defined th lb x e []) as (A1 & A2 & _); [exact Px|exact Hc|exact L|exact Le|constructor|].
  destruct (C37_defined th' lb e x []) as (B1 & B2 & _); [exact Pe|exact Hc'|exact L|fold s'; lra|constructor|].
  destruct (C37_defined th lb x x [(d, e)]) as (W1 & W2 & W3); [exact Px|exact Hc|exact L|exact Lx| |].
  { constructor; [|constructor]. cbn [fst snd]. fold s. repeat split; lra. }
  cbn [map fst snd] in A1, A2, B1, B2, W1, W2, W3. fold surface in A1, A2. fold plate in W1, W2, W3.
  assert (G : exists b, pol = rt b) by (destruct Hp as [-> | ->]; [exists true|exists false]; reflexivity). destruct G as [b ->]. clear Hp.
  assert (A : exists r t, rt b surface = Some (r, t)) by (destruct b; [exact A1|apply A2; constructor]).
  assert (B : exists r t, rt b (solver2 th' lb (RtoC e) [] (RtoC x)) = Some (r, t)) by (destruct b; [exact B1|apply B2; constructor]).
  assert (W : exists r t, rt b plate = Some (r, t)) by (destruct b; [exact W1|apply W2; constructor; [exact Pe|constructor]]).
  clear A1 A2 B1 B2 W1 W2. destruct A as (ra & ta & A), B as (rb & tb & B), W as (r & t & W).
  exists ra, ta, r, t. split; [exact A|]. split; [exact W|]. split.
  { rewrite W3. f_equal. fold s c. replace (x - x * (s * s))%R with (x * (c * c))%R by nra. rewrite sqrt_mult by lra.
    replace (sqrt (c * c)) with (Rabs c) by (rewrite <- sqrt_Rsqr_abs; reflexivity).
    assert (0 < sqrt x)%R by (apply sqrt_lt_R0; exact Px). assert (0 < Rabs c)%R by (now apply Rabs_pos_lt). field. lra. }
  destruct (split_rt b th th' lb x e (RtoC x) [] d [] ra ta rb tb rb tb r t Px Pe Hc' Sn A B B W) as (_ & Er & Et). cbv zeta in Er, Et.
  change (2 * PI / lb * (sqrt e * Rabs (cos (deg2rad th'))) * d)%R with phi in Er, Et.
  (* the two interfaces *)
  assert (K : kx_of th (RtoC x) = kx_of th' (RtoC e)).
  { rewrite !kx_real by lra. f_equal. exact Sn. }
  apply rt_some in A, B. destruct A as [_ A], B as [_ B]. rewrite <- K in B. cbn [map] in A, B.
  destruct (kz_front th x Px Hc) as (_ & Hx & Cx). destruct (kz_front th' e Pe Hc') as (_ & He & Ce). rewrite <- K in He. rewrite Hx, He in A, B.
  assert (sx : (0 < sqrt x)%R) by (apply sqrt_lt_R0; exact Px). assert (se : (0 < sqrt e)%R) by (apply sqrt_lt_R0; exact Pe).
  assert (ac : (0 < Rabs c)%R) by (now apply Rabs_pos_lt). assert (ac' : (0 < Rabs c')%R) by (now apply Rabs_pos_lt).
  change (cos (deg2rad th)) with c in Cx. change (cos (deg2rad th')) with c' in Ce.
  assert (V : exists p0 q0 p1 q1, (0 < p0)%R /\ (0 < q0)%R /\ (0 < p1)%R /\ (0 < q1)%R /\
    pc b (RtoC (sqrt x), Casin (RtoC (sin (deg2rad th)))) = (RtoC p0, RtoC q0) /\ pc b (RtoC (sqrt e), Casin (RtoC (sin (deg2rad th')))) = (RtoC p1, RtoC q1)).
  { destruct b; unfold pc, char_s, char_p; cbn [fst snd]; rewrite Cx, Ce, <- ?RtoC_mult.
    - exists 1%R, (sqrt x * Rabs c)%R, 1%R, (sqrt e * Rabs c')%R. repeat split; try lra; now apply Rmult_lt_0_compat.
    - exists (sqrt x), (Rabs c), (sqrt e), (Rabs c'). repeat split; assumption. }
  destruct V as (p0 & q0 & p1 & q1 & P0 & Q0 & P1 & Q1 & V0 & V1).
  destruct (one_interface _ _ _ _ b _ _ _ _ P0 Q0 P1 Q1 V0 V1 A) as [Ra Ta]. destruct (one_interface _ _ _ _ b _ _ _ _ P1 Q1 P0 Q0 V1 V0 B) as [Rb Tb].
  assert (a0 : (0 < q0 * p1)%R) by (now apply Rmult_lt_0_compat). assert (b0 : (0 < p0 * q1)%R) by (now apply Rmult_lt_0_compat).
  set (m := ((q0 * p1 - p0 * q1) / (q0 * p1 + p0 * q1))%R) in *.
  assert (Rb' : rb = RtoC (- m)) by (rewrite Rb; f_equal; unfold m; field; nra).
  assert (TT : (ta * tb = RtoC (1 - m * m))%C) by (rewrite Ta, Tb, <- RtoC_mult; f_equal; unfold m; field; nra).
  assert (m1 : (m * m < 1)%R).
  { assert (E : (1 - m * m = 4 * (q0 * p1) * (p0 * q1) / ((q0 * p1 + p0 * q1) * (q0 * p1 + p0 * q1)))%R) by (unfold m; field; lra).
    assert (0 < 1 - m * m)%R by (rewrite E; apply Rdiv_lt_0_compat; repeat apply Rmult_lt_0_compat; lra). lra. }
  clearbody m. set (h := Cexp (Ci * RtoC phi)) in *.
  assert (RR : (Cmod ra * Cmod ra = m * m)%R) by (rewrite Ra, Cmod_R, <- Rabs_mult; apply Rabs_pos_eq; nra).
  assert (Hh : h = (cos phi, sin phi)).
  { unfold h, Cexp. apply C_ext; simpl; replace (0 * phi - 1 * 0)%R with 0%R by ring; replace (0 * 0 + 1 * phi)%R with phi by ring; rewrite exp_0; ring. }
  assert (ph := sin2_cos2 phi). unfold Rsqr in ph. set (si := sin phi) in *. set (co := cos phi) in *.
  assert (h2 : h * h = (1 - 2 * (si * si), 2 * (si * co))%R) by (rewrite Hh; apply C_ext; simpl; nra).
  set (Mm := (m * m)%R) in *. assert (M0 : (0 <= Mm)%R) by (unfold Mm; nra).
  assert (DD : 1 - rb * (h * rb * h) = (1 - Mm * (1 - 2 * (si * si)), - (Mm * (2 * (si * co))))%R).
  { replace (rb * (h * rb * h)) with (rb * rb * (h * h)) by ring. rewrite h2, Rb', <- RtoC_mult. replace (- m * - m)%R with Mm by (unfold Mm; ring). apply C_ext; simpl; ring. }
  assert (ND : 1 - rb * (h * rb * h) <> 0).
  { rewrite DD. intros E. apply (f_equal fst) in E. cbn [fst RtoC] in E. clear - E m1 M0 ph. assert (0 <= co * co)%R by nra. nra. }
  set (D := 1 - rb * (h * rb * h)) in *.
  assert (ND2 : (Cmod D * Cmod D = (1 - Mm) * (1 - Mm) + 4 * Mm * (si * si))%R).
  { rewrite <- norm_mod, DD. unfold Cnorm2, Re, Im. cbn [fst snd].
    replace (- (Mm * (2 * (si * co))) * - (Mm * (2 * (si * co))))%R with (4 * (Mm * Mm) * (si * si) * (co * co))%R by ring. replace (co * co)%R with (1 - si * si)%R by lra. ring. }
  assert (Pd : (0 < (1 - Mm) * (1 - Mm) + 4 * Mm * (si * si))%R).
  { assert (0 < (1 - Mm) * (1 - Mm))%R by (apply Rmult_lt_0_compat; lra). assert (0 <= 4 * Mm * (si * si))%R by (apply Rmult_le_pos; [lra|nra]). lra. }
  assert (h1 : Cmod h = 1%R) by apply Cmod_phase.
  assert (T2 : (Cmod t * Cmod t = (1 - Mm) * (1 - Mm) / ((1 - Mm) * (1 - Mm) + 4 * Mm * (si * si)))%R).
  { rewrite Et. replace (ta * h * tb) with (ta * tb * h) by ring. rewrite TT, Cmod_div by exact ND. rewrite Cmod_mult, h1, Cmod_R, Rabs_pos_eq by (fold Mm; lra).
    rewrite <- ND2. fold Mm. assert (Cmod D <> 0)%R by (apply Rgt_not_eq, Cmod_gt_0; exact ND). field. assumption. }
  cbv zeta. rewrite RR. split; [exact m1|]. split.
  - rewrite T2. clear - Pd m1. assert (N1 : (1 - Mm <> 0)%R) by lra. 
    replace (1 + 4 * Mm / ((1 - Mm) * (1 - Mm)) * (si * si))%R with (((1 - Mm) * (1 - Mm) + 4 * Mm * (si * si)) / ((1 - Mm) * (1 - Mm)))%R by (field; exact N1).
    field. repeat split; lra.
  - (* r = m (1 - h h) / D *)
    assert (R2 : r = RtoC m * (1 - h * h) / D).
    { rewrite Er, Ra. replace (ta * (h * rb * h) * tb) with (ta * tb * rb * (h * h)) by ring. rewrite TT.
      apply (Cmult_cancel D); [exact ND|]. 
      transitivity (RtoC m * D + RtoC (1 - Mm) * rb * (h * h)); [unfold Mm; field; exact ND|].
      transitivity (RtoC m * (1 - h * h)); [|field; exact ND]. unfold D. rewrite Rb'. unfold Mm. rewrite RtoC_minus, RtoC_mult, RtoC_opp. ring. }
    assert (H1 : (Cmod (1 - h * h)%C * Cmod (1 - h * h)%C = 4 * (si * si))%R).
    { rewrite <- norm_mod, h2. unfold Cnorm2, Re, Im. simpl. 
      transitivity (4 * (si * si) * (si * si + co * co))%R; [ring|]. rewrite ph. ring. }
    rewrite T2, R2, Cmod_div, Cmod_mult, Cmod_R by exact ND.
    transitivity ((Rabs m * Rabs m) * (Cmod (1 - h * h)%C * Cmod (1 - h * h)%C) / (Cmod D * Cmod D))%R.
    { assert (Cmod D <> 0)%R by (apply Rgt_not_eq, Cmod_gt_0; exact ND). field. assumption. }
    rewrite H1, ND2, <- Rabs_mult. rewrite Rabs_pos_eq by (fold Mm; lra). fold Mm. field. lra.
Qed.
Print Assumptions C119_etalon.

(** A plate of index 2 and an eighth of the wavelength in air: each surface reflects 1 / 9, the plate
    transmits 16 / 25. *)
Example C119_example :
  exists r t, rt_s (solver2 0 1 (RtoC 1) [((1 / 8)%R, RtoC 4)] (RtoC 1)) = Some (r, t) /\
  (Cmod t * Cmod t = 16 / 25)%R /\ (Cmod r * Cmod r = 9 / 25)%R.
Proof.
  assert (z0 : (0 * PI / 180 = 0)%R) by field.
  assert (q4 : sqrt 4 = 2%R) by (replace 4%R with (2 * 2)%R by ring; apply sqrt_square; lra).
  destruct (C119_etalon 0 0 1 1 4 (1 / 8)) with (pol := rt_s) as (r1 & t1 & r & t & E1 & E & _ & _ & T & R'); rewrite ?z0, ?cos_0, ?sin_0; try lra; [left; reflexivity|].
  exists r, t. split; [exact E|].
  assert (R1 : (Cmod r1 * Cmod r1 = 1 / 9)%R).
  { assert (E2 := E1). change (rt_s ?y) with (rt true y) in E2. apply rt_some in E2. destruct E2 as [_ E2]. cbn [map] in E2.
    assert (K : kx_of 0 (RtoC 1) = kx_of 0 (RtoC 4)) by (unfold kx_of, deg2rad; rewrite z0, sin_0; ring).
    destruct (kz_front 0 1) as (_ & Hx & Cx); [lra|unfold deg2rad; rewrite z0, cos_0; lra|].
    destruct (kz_front 0 4) as (_ & He & Ce); [lra|unfold deg2rad; rewrite z0, cos_0; lra|]. rewrite <- K in He. rewrite Hx, He in E2.
    unfold deg2rad in *. rewrite z0, sin_0, cos_0, Rabs_R1 in *. 
    apply (one_interface 1 1 1 2 true) in E2; try lra.
    - destruct E2 as [-> _]. rewrite Cmod_R. rewrite <- Rabs_mult, Rabs_pos_eq; [field|]. apply Rle_0_sqr.
    - unfold pc, char_s. cbn [fst snd]. rewrite Cx, sqrt_1, <- RtoC_mult. f_equal. f_equal. ring.
    - unfold pc, char_s. cbn [fst snd]. rewrite Ce, q4, <- RtoC_mult. f_equal. f_equal. ring. }
  rewrite R1, z0, cos_0, Rabs_R1, q4 in T. replace (2 * PI / 1 * (2 * 1) * (1 / 8))%R with (PI / 2)%R in T by field. rewrite sin_PI2 in T.
  assert (T' : (Cmod t * Cmod t = 16 / 25)%R) by (rewrite T; field). split; [exact T'|]. rewrite R', T'. field.
Qed.

(** Three layers, divided at the middle one. *)
Example C119_waves_example : exists ra ta ra' ta' rb tb r t,
  rt_s (solver2 0 1 (RtoC 1) [((1 / 12)%R, RtoC 9)] (RtoC 4)) = Some (ra, ta) /\
  rt_s (solver2 0 1 (RtoC 4) [((1 / 12)%R, RtoC 9)] (RtoC 1)) = Some (ra', ta') /\
  rt_s (solver2 0 1 (RtoC 4) [((1 / 3)%R, RtoC 5)] (RtoC 2)) = Some (rb, tb) /\
  rt_s (solver2 0 1 (RtoC 1) [((1 / 12)%R, RtoC 9); ((1 / 7)%R, RtoC 4); ((1 / 3)%R, RtoC 5)] (RtoC 2)) = Some (r, t) /\
  sums_to (reflected_wave ra ta ra' ta' rb (Cexp (Ci * RtoC (4 * PI / 7)))) r.
Proof.
  assert (z0 : (0 * PI / 180 = 0)%R) by field.
  assert (q4 : sqrt 4 = 2%R) by (replace 4%R with (2 * 2)%R by ring; apply sqrt_square; lra).
  destruct (C37_defined 0 1 1 4 [(1 / 12, 9)%R]) as ((ra & ta & A) & _); rewrite ?z0, ?sin_0, ?cos_0; try lra; [repeat constructor; cbn [fst snd]; lra|].
  destruct (C37_defined 0 1 4 1 [(1 / 12, 9)%R]) as ((ra' & ta' & A') & _); rewrite ?z0, ?sin_0, ?cos_0; try lra; [repeat constructor; cbn [fst snd]; lra|].
  destruct (C37_defined 0 1 4 2 [(1 / 3, 5)%R]) as ((rb & tb & B) & _); rewrite ?z0, ?sin_0, ?cos_0; try lra; [repeat constructor; cbn [fst snd]; lra|].
  destruct (C37_defined 0 1 1 2 [(1 / 12, 9)%R; (1 / 7, 4)%R; (1 / 3, 5)%R]) as ((r & t & W) & _); rewrite ?z0, ?sin_0, ?cos_0; try lra; [repeat constructor; cbn [fst snd]; lra|].
  cbn [map fst snd] in *. exists ra, ta, ra', ta', rb, tb, r, t. do 4 (split; [assumption|]).
  assert (S : sums_to (reflected_wave ra ta ra' ta' rb (Cexp (Ci * RtoC (2 * PI / 1 * (sqrt 4 * Rabs (cos (0 * PI / 180))) * (1 / 7))))) r).
  { apply (C119_waves 0 0 1 1 4 (RtoC 2) [((1 / 12)%R, RtoC 9)] (1 / 7) [((1 / 3)%R, RtoC 5)]) with (pol := rt_s) (tb := tb) (t := t);
      rewrite ?z0, ?sin_0, ?cos_0; try lra; try assumption; try (left; reflexivity).
    - constructor; [|constructor]. cbn [fst snd]. simpl. lra.
    - constructor; [|constructor]. cbn [fst snd]. simpl. lra.
    - simpl. lra. }
  rewrite z0, cos_0, Rabs_R1, q4 in S. replace (2 * PI / 1 * (2 * 1) * (1 / 7))%R with (4 * PI / 7)%R in S by field. exact S.
Qed.
