(** C116: very thin films change the reflection in proportion to their thickness. *)
From Coq Require Import Reals Lra Psatz Lia.
From Coquelicot Require Import Complex.
From Coq Require Import List.
From Verif.Base Require Import Py Cx Mat.
From Verif.Model Require Import Units DeltaRange Ellips Structure Solver2.
From Verif.Spec Require Import Angle Light Stack Film.
From Verif.Proof Require Import StackP FluxP UnitsP DispersionsP EllipsP StructureP Solver2P Solver2P2 Solver2P3 Solver2P4 Solver2P5 FilmP FilmP2.
From Verif.Props Require Import EllipsT Solver2T PseudoT EnergyT SubstrateT.
Import ListNotations.
Open Scope R_scope.
Open Scope C_scope.
Open Scope py_scope.

(** C116: a film of any permittivity e on any sample.  The change of the amplitude r in first order
    in the thickness depends only on the film, the angle and the reflection r0 without film. *)
Theorem C116_film : forall theta_i lbda (x : R) (e : C) ls (eps_b : C) d1,
  (0 < x)%R ->
  let k := (2 * PI / lbda)%R in
  let q := (sqrt x * Rabs (cos (theta_i * PI / 180)))%R in
  let s := (sqrt x * sin (theta_i * PI / 180))%R in
  let with_film d := solver2 theta_i lbda (RtoC x) ((d, e) :: ls) eps_b in
  (forall r0 t0, rt_s (solver2 theta_i lbda (RtoC x) ls eps_b) = Some (r0, t0) -> rt_s (with_film d1) <> None ->
     first_order (fun d => option_map fst (rt_s (with_film d))) r0 (film_s k q s e r0)) /\
  (forall r0 t0, rt_p (solver2 theta_i lbda (RtoC x) ls eps_b) = Some (r0, t0) -> rt_p (with_film d1) <> None ->
     first_order (fun d => option_map fst (rt_p (with_film d))) r0 (film_p k x q s e r0)).
Proof.
  intros th lb x e ls eb d1 P. cbv zeta. split; intros r0 t0 H0 H1.
  - destruct (rt_s (solver2 th lb (RtoC x) ((d1, e) :: ls) eb)) as [rt1|] eqn:E; [|congruence]. exact (film true th lb x e ls eb d1 rt1 r0 t0 P H0 E).
  - destruct (rt_p (solver2 th lb (RtoC x) ((d1, e) :: ls) eb)) as [rt1|] eqn:E; [|congruence]. exact (film false th lb x e ls eb d1 rt1 r0 t0 P H0 E).
Qed.
Print Assumptions C116_film.

(** C116: at every thickness of the uppermost layer the amplitudes obey the Riccati equations
    dr/dd = film r. *)
Theorem C116_riccati : forall theta_i lbda (x : R) (e : C) ls (eps_b : C) d,
  (0 < x)%R ->
  let k := (2 * PI / lbda)%R in
  let q := (sqrt x * Rabs (cos (theta_i * PI / 180)))%R in
  let s := (sqrt x * sin (theta_i * PI / 180))%R in
  let sample d := solver2 theta_i lbda (RtoC x) ((d, e) :: ls) eps_b in
  (forall r t, rt_s (sample d) = Some (r, t) ->
     first_order (fun h => option_map fst (rt_s (sample (h + d)%R))) r (film_s k q s e r)) /\
  (forall r t, rt_p (sample d) = Some (r, t) ->
     first_order (fun h => option_map fst (rt_p (sample (h + d)%R))) r (film_p k x q s e r)).
Proof.
  intros th lb x e ls eb d P. cbv zeta. split; intros r t H.
  - exact (riccati true th lb x e ls eb d r t P H).
  - exact (riccati false th lb x e ls eb d r t P H).
Qed.
Print Assumptions C116_riccati.

Lemma first_order_ext (f g : R -> option C) (c L : C) : (forall d, f d = g d) -> first_order f c L -> first_order g c L.
Proof. intros E F eta He. destruct (F eta He) as (d0 & D0 & K). exists d0. split; [exact D0|]. intros d Hd. rewrite <- E. exact (K d Hd). Qed.

Lemma rho_refl th lb (x : R) ls (eb a : C) : a <> 0 ->
  (let? J := jones2_r (solver2 th lb (RtoC x) ls eb) in rho (-180, 180)%R J (vec_of [a; a])) =
  (let? p := refl false th lb x ls eb in let? s := refl true th lb x ls eb in if Ceq_dec s 0 then None else Some (p / s)).
Proof.
  intros Na. unfold jones2_r, jones2, refl, rt. destruct (rt_p _) as [[p p']|]; [|reflexivity]. destruct (rt_s _) as [[s s']|]; [|reflexivity]. cbn [obind option_map fst].
  unfold rho. rewrite diag_rho by exact Na. destruct (Ceq_dec s 0); [reflexivity|]. cbn [obind]. f_equal. apply fold_id. left. cbn [fst]. lra.
Qed.

(** rho of a sample in light polarised at 45 degrees, as Experiment assumes by default *)
Definition rho_of (theta_i lbda x : R) (ls : list (R * C)) (eps_b a : C) : option C :=
  let? J := jones2_r (solver2 theta_i lbda (RtoC x) ls eps_b) in rho (-180, 180)%R J (vec_of [a; a]).

(** C116: rho of a sample with a film *)
Theorem C116_rho : forall theta_i lbda (x : R) (e : C) ls (eps_b a : C) d1 rho0 rp tp rs ts,
  (0 < x)%R -> a <> 0 ->
  let k := (2 * PI / lbda)%R in
  let q := (sqrt x * Rabs (cos (theta_i * PI / 180)))%R in
  let s := (sqrt x * sin (theta_i * PI / 180))%R in
  rho_of theta_i lbda x ls eps_b a = Some rho0 ->
  rt_p (solver2 theta_i lbda (RtoC x) ls eps_b) = Some (rp, tp) -> rt_s (solver2 theta_i lbda (RtoC x) ls eps_b) = Some (rs, ts) ->
  jones2_r (solver2 theta_i lbda (RtoC x) ((d1, e) :: ls) eps_b) <> None ->
  first_order (fun d => rho_of theta_i lbda x ((d, e) :: ls) eps_b a) rho0 ((film_p k x q s e rp - rho0 * film_s k q s e rs) / rs).
Proof.
  intros th lb x e ls eb a d1 rho0 rp tp rs ts P Na k q s H0 Hp Hs H1.
  unfold rho_of in H0. rewrite rho_refl in H0 by exact Na. unfold refl, rt in H0. rewrite Hp, Hs in H0. cbn [option_map obind fst] in H0.
  destruct (Ceq_dec rs 0) as [|Nr]; [discriminate|]. apply Some_eq in H0. subst rho0.
  assert (Fp : rt_p (solver2 th lb (RtoC x) ((d1, e) :: ls) eb) <> None) by (intros K; apply H1; unfold jones2_r, jones2; rewrite K; reflexivity).
  assert (Fs : rt_s (solver2 th lb (RtoC x) ((d1, e) :: ls) eb) <> None).
  { intros K. apply H1. unfold jones2_r, jones2. rewrite K. destruct (rt_p (solver2 th lb (RtoC x) ((d1, e) :: ls) eb)); reflexivity. }
  destruct (C116_film th lb x e ls eb d1 P) as [S Q]. specialize (S rs ts Hs Fs). specialize (Q rp tp Hp Fp). fold k q s in S, Q.
  eapply first_order_ext; [intros d; symmetry; apply rho_refl; exact Na|]. exact (first_order_div _ _ rp _ rs _ Nr Q S).
Qed.
Print Assumptions C116_rho.

(** ** Drude's formula *)
Lemma drude_s (k s : R) (x e eb q qb r : C) : q <> 0 -> q + qb <> 0 -> q - qb <> 0 -> eb - x <> 0 -> q * q = x - RtoC (s * s) -> qb * qb = eb - RtoC (s * s) ->
  r = (q - qb) / (q + qb) ->
  Ci * RtoC k / 2 * ((e - RtoC (s * s)) / q * ((1 + r) * (1 + r)) - q * ((1 - r) * (1 - r))) / r = 2 * Ci * RtoC k * q * ((eb - e) / (eb - x)).
Proof.
  intros N0 N1 N2 N3 Q B ->. set (z := RtoC (s * s)) in *. assert (two : RtoC 2 <> 0) by (apply C_of_R_neq; lra).
  transitivity (2 * Ci * RtoC k * q * ((e - z) - qb * qb) / (q * q - qb * qb)).
  - assert (N4 : q * q - qb * qb <> 0) by (replace (q * q - qb * qb) with ((q + qb) * (q - qb)) by ring; now apply Cmult_neq_0).
    field. repeat split; assumption.
  - rewrite Q, B. assert (N5 : x - z - (eb - z) <> 0) by (intros K; apply N3; transitivity (- (x - z - (eb - z))); [ring|rewrite K; ring]). field. split; assumption.
Qed.
Lemma drude_p (k s : R) (x e eb q qb r : C) : q <> 0 -> x <> 0 -> e <> 0 -> eb * q + x * qb <> 0 -> eb * q - x * qb <> 0 -> q * q = x - RtoC (s * s) -> qb * qb = eb - RtoC (s * s) ->
  r = (eb * q - x * qb) / (eb * q + x * qb) ->
  Ci * RtoC k / 2 * ((1 - RtoC (s * s) / e) * (x / q) * ((1 + r) * (1 + r)) - e * (q / x) * ((1 - r) * (1 - r))) / r =
  2 * Ci * RtoC k * q * x * (eb * eb * (1 - RtoC (s * s) / e) - e * (eb - RtoC (s * s))) / ((eb - x) * (x * eb - RtoC (s * s) * (eb + x))).
Proof.
  intros N0 Nx Ne N1 N2 Q B ->. set (z := RtoC (s * s)) in *. assert (two : RtoC 2 <> 0) by (apply C_of_R_neq; lra).
  assert (D : (eb * q + x * qb) * (eb * q - x * qb) = (eb - x) * (x * eb - z * (eb + x))).
  { transitivity (eb * eb * (q * q) - x * x * (qb * qb)); [ring|]. rewrite Q, B. ring. }
  rewrite <- D, <- B. field. repeat split; assumption.
Qed.
Lemma drude_sum (x e eb z K q : C) : x <> 0 -> e <> 0 -> eb - x <> 0 -> x * eb - z * (eb + x) <> 0 ->
  K * q * x * (eb * eb * (1 - z / e) - e * (eb - z)) / ((eb - x) * (x * eb - z * (eb + x))) - K * q * ((eb - e) / (eb - x)) =
  K * q * z * eb * (eb - e) * (e - x) / (e * (eb - x) * (x * eb - z * (eb + x))).
Proof. intros. field. repeat split; assumption. Qed.

Theorem C116_drude : forall theta_i lbda (x : R) (e eps_b a : C) d1 rho0,
  (0 < x)%R -> a <> 0 ->
  let k := (2 * PI / lbda)%R in
  let q := (sqrt x * Rabs (cos (theta_i * PI / 180)))%R in
  let s := (sqrt x * sin (theta_i * PI / 180))%R in
  rho_of theta_i lbda x [] eps_b a = Some rho0 -> rho0 <> 0 ->
  jones2_r (solver2 theta_i lbda (RtoC x) [(d1, e)] eps_b) <> None ->
  first_order (fun d => rho_of theta_i lbda x [(d, e)] eps_b a) rho0 (rho0 * drude_film k x q s e eps_b).
Proof.
  intros th lb x e eb a d1 rho0 P Na k q s H0 R0 H1. assert (H0' := H0).
  unfold rho_of in H0'. rewrite rho_refl in H0' by exact Na. unfold refl, rt in H0'.
  destruct (rt_p (solver2 th lb (RtoC x) [] eb)) as [[rp tp]|] eqn:Hp; [|discriminate]. destruct (rt_s (solver2 th lb (RtoC x) [] eb)) as [[rs ts]|] eqn:Hs; [|discriminate].
  cbn [option_map obind fst] in H0'. destruct (Ceq_dec rs 0) as [|Nrs]; [discriminate|]. apply Some_eq in H0'.
  assert (Nrp : rp <> 0) by (intros K; apply R0; rewrite <- H0', K; unfold Cdiv; ring).
  assert (Hc := front_cos true th lb x [] eb _ P Hs).
  assert (I0 : input_ok lb (RtoC x) [] eb) by (destruct (input_dec lb (RtoC x) [] eb) as [I|I]; [exact I|rewrite solver2_inv in Hs by exact I; discriminate]).
  destruct I0 as (L & Nx & Nb & _).
  assert (Ne : e <> 0).
  { destruct (input_dec lb (RtoC x) [(d1, e)] eb) as [(_ & _ & _ & F)|I]; [inversion F; assumption|]. exfalso. apply H1. rewrite solver2_inv by exact I. reflexivity. }
  assert (M := media_some th lb (RtoC x) [] eb L Nx Nb (Forall_nil _)). cbv zeta in M. cbn [map] in M.
  assert (FR := C36_fresnel _ _ _ _ _ _ _ M). cbv zeta in FR. destruct FR as (_ & _ & _ & S & Q).
  fold (kz_half (kx_of th (RtoC x)) (RtoC x)) in S, Q. fold (kz_half (kx_of th (RtoC x)) eb) in S, Q.
  assert (B := kz_half_sqr (kx_of th (RtoC x)) eb Nb). assert (A := kz_half_sqr (kx_of th (RtoC x)) (RtoC x) Nx).
  destruct (kz_front th x P Hc) as (Kf & _ & _). 
  assert (Same : eb = RtoC x -> kz_half (kx_of th (RtoC x)) eb = kz_half (kx_of th (RtoC x)) (RtoC x)) by now intros ->.
  rewrite Kf in *. change (th * PI / 180)%R with (deg2rad th) in *. fold q in S, Q, A, Same. rewrite kx_real in * by lra. fold s in S, Q, A, B, Same.
  rewrite <- !RtoC_mult in A. rewrite <- RtoC_mult in B. set (qb := kz_half (RtoC s) eb) in *.
  rewrite Hs in S. rewrite Hp in Q.
  destruct (Ceq_dec (RtoC q) 0) as [|Nq]; [discriminate|]. destruct (Ceq_dec (RtoC q + qb) 0) as [|N1]; [discriminate|].
  destruct (Ceq_dec (eb * RtoC q + RtoC x * qb) 0) as [|N2]; [discriminate|]. apply Some_eq in S. apply Some_eq in Q.
  assert (S1 := f_equal fst S). assert (Q1 := f_equal fst Q). cbn [fst] in S1, Q1. clear S Q.
  assert (N3 : RtoC q - qb <> 0) by (intros K; apply Nrs; rewrite S1, K; unfold Cdiv; ring).
  assert (N4 : eb * RtoC q - RtoC x * qb <> 0) by (intros K; apply Nrp; rewrite Q1, K; unfold Cdiv; ring).
  assert (N5 : eb - RtoC x <> 0).
  { intros K. apply N3. rewrite Same; [ring|]. replace eb with (eb - RtoC x + RtoC x) by ring. rewrite K. ring. }
  assert (AA : RtoC q * RtoC q = RtoC x - RtoC (s * s)) by (rewrite <- A; symmetry; apply RtoC_mult).
  assert (N6 : RtoC x * eb - RtoC (s * s) * (eb + RtoC x) <> 0).
  { intros K. assert (Z : (eb * RtoC q + RtoC x * qb) * (eb * RtoC q - RtoC x * qb) = 0).
    { transitivity (eb * eb * (RtoC q * RtoC q) - RtoC x * RtoC x * (qb * qb)); [ring|]. rewrite AA, B.
      transitivity ((eb - RtoC x) * (RtoC x * eb - RtoC (s * s) * (eb + RtoC x))); [ring|]. rewrite K. ring. }
    apply C_integral in Z. tauto. }
  assert (G := C116_rho th lb x e [] eb a d1 rho0 rp tp rs ts P Na H0 Hp Hs H1). change (th * PI / 180)%R with (deg2rad th) in G. fold k q s in G.
  replace (rho0 * drude_film k x q s e eb) with ((film_p k x q s e rp - rho0 * film_s k q s e rs) / rs); [exact G|].
  transitivity (rho0 * (film_p k x q s e rp / rp - film_s k q s e rs / rs)); [rewrite <- H0'; field; auto|]. f_equal.
  assert (q0 : (q <> 0)%R) by (intros K; apply Nq; now rewrite K).
  unfold film_p, film_s. rewrite (RtoC_div x q), (RtoC_div q x) by lra.
  rewrite (drude_p k s (RtoC x) e eb (RtoC q) qb rp) by assumption. rewrite (drude_s k s (RtoC x) e eb (RtoC q) qb rs) by assumption.
  unfold drude_film. apply drude_sum; assumption.
Qed.
Print Assumptions C116_drude.

(** ** psi and delta *)
Lemma near_one (u : C) : (Cmod u <= 1 / 2)%R ->
  (1 / 2 <= Re (1 + u)%C)%R /\ (1 / 2 <= Cmod (1 + u)%C)%R /\ (Rabs (Cmod (1 + u)%C - 1) <= Cmod u)%R /\ (Rabs (Cmod (1 + u)%C - 1 - Re u) <= Cmod u * Cmod u)%R.
Proof.
  intros H. assert (R1 := Rmax_Cmod u). assert (X := Rle_trans _ _ _ (Rmax_l _ _) R1). clear R1.
  assert (N2 : (Cmod u * Cmod u = fst u * fst u + snd u * snd u)%R) by (unfold Cmod; rewrite sqrt_sqrt; [ring|nra]).
  assert (N1 : (Cmod (1 + u)%C * Cmod (1 + u)%C = (1 + fst u) * (1 + fst u) + snd u * snd u)%R) by (unfold Cmod; rewrite sqrt_sqrt; [simpl; ring|nra]).
  assert (G0 := Cmod_ge_0 u). assert (G1 := Cmod_ge_0 (1 + u)). unfold Re. cbn [fst Cplus RtoC]. set (m := Cmod u) in *. set (w := Cmod (1 + u)) in *.
  assert (A := Rle_abs (fst u)). assert (B := Rle_abs (- fst u)). rewrite Rabs_Ropp in B.
  destruct u as [a b]. cbn [fst snd] in *.
  assert (W0 : (1 + a <= w)%R) by nra. assert (W1 : (w <= 1 + a + b * b)%R) by (apply Rsqr_incr_0_var; unfold Rsqr; nra).
  split; [lra|]. split; [lra|]. split.
  - assert (T1 := Cmod_triangle 1 (a, b)). fold w m in T1. rewrite Cmod_1 in T1. apply Rabs_le. lra.
  - apply Rabs_le. nra.
Qed.
Lemma angles_mod J (E : nat -> C) z : rho (-180, 180)%R J E = Some z ->
  exists p d, psi (-180, 180)%R J E = Some p /\ delta (-180, 180)%R J E = Some d /\ (0 <= p < 90)%R /\ tan (p * PI / 180) = Cmod z /\
    z = RtoC (Cmod z) * (cos (d * PI / 180), - sin (d * PI / 180))%R.
Proof.
  intros H. destruct (rho_angles J E z H) as (p & d & A & B & P & _ & I). exists p, d. split; [exact A|]. split; [exact B|]. split; [exact P|].
  assert (T := tan_norm p d z P I). destruct (tan_psi p P) as (T0 & _). unfold Cnorm2 in T.
  assert (M : tan (p * PI / 180) = Cmod z) by (symmetry; unfold Cmod; apply sqrt_lem_1; [nra|exact T0|]; rewrite T; ring).
  split; [exact M|]. destruct I as [I1 I2]. rewrite M in I1, I2. unfold Re, Im in *. apply C_ext; simpl; rewrite ?I1, ?I2; ring.
Qed.

(** C116: psi and delta.  The relative change of tan psi is the real part of Drude's formula, the
    angle by which delta turns back is its imaginary part (in radians). *)
Theorem C116_angles : forall theta_i lbda (x : R) (e eps_b a : C) d1 rho0,
  (0 < x)%R -> a <> 0 ->
  let k := (2 * PI / lbda)%R in
  let q := (sqrt x * Rabs (cos (theta_i * PI / 180)))%R in
  let s := (sqrt x * sin (theta_i * PI / 180))%R in
  let L := drude_film k x q s e eps_b in
  rho_of theta_i lbda x [] eps_b a = Some rho0 -> rho0 <> 0 ->
  jones2_r (solver2 theta_i lbda (RtoC x) [(d1, e)] eps_b) <> None ->
  let psi_of ls := let? J := jones2_r (solver2 theta_i lbda (RtoC x) ls eps_b) in psi (-180, 180)%R J (vec_of [a; a]) in
  let delta_of ls := let? J := jones2_r (solver2 theta_i lbda (RtoC x) ls eps_b) in delta (-180, 180)%R J (vec_of [a; a]) in
  exists p0 t0, psi_of [] = Some p0 /\ delta_of [] = Some t0 /\ (0 < p0 < 90)%R /\
  forall eta, (0 < eta)%R -> exists d0, (0 < d0)%R /\ forall d, (Rabs d <= d0)%R ->
    exists p t, psi_of [(d, e)] = Some p /\ delta_of [(d, e)] = Some t /\ (0 <= p < 90)%R /\
      (Rabs (tan (p * PI / 180) - tan (p0 * PI / 180) * (1 + d * Re L)) <= eta * Rabs d)%R /\
      (Rabs (sin ((t0 - t) * PI / 180) - d * Im L) <= eta * Rabs d)%R /\ (0 < cos ((t0 - t) * PI / 180))%R.
Proof.
  intros th lb x e eb a d1 rho0 P Na k q s L H0 R0 H1 psi_of delta_of.
  assert (PS : forall ls z, rho_of th lb x ls eb a = Some z -> exists p d, psi_of ls = Some p /\ delta_of ls = Some d /\ (0 <= p < 90)%R /\ tan (p * PI / 180) = Cmod z /\
    z = RtoC (Cmod z) * (cos (d * PI / 180), - sin (d * PI / 180))%R).
  { intros ls z H. unfold rho_of in H. unfold psi_of, delta_of. destruct (jones2_r (solver2 th lb (RtoC x) ls eb)) as [J|]; [|discriminate H]. cbn [obind] in *. now apply angles_mod. }
  destruct (PS [] rho0 H0) as (p0 & t0 & E0 & F0 & B0 & T0 & Z0). exists p0, t0. split; [exact E0|]. split; [exact F0|].
  assert (m0 : (0 < Cmod rho0)%R) by (now apply Cmod_gt_0).
  split. { split; [|lra]. destruct (proj1 B0) as [|K]; [assumption|]. exfalso. rewrite <- K in T0. replace (0 * PI / 180)%R with 0%R in T0 by field. rewrite tan_0 in T0. lra. }
  assert (D := C116_drude th lb x e eb a d1 rho0 P Na H0 R0 H1). fold k q s L in D.
  intros eta He. set (m := Cmod rho0) in *. set (M := (Cmod L + 1)%R). assert (L0 := Cmod_ge_0 L). assert (M0 : (1 <= M)%R) by (unfold M; lra).
  set (e1 := Rmin 1 (eta / (2 * (1 + m)))). assert (e1a := Rmin_l 1 (eta / (2 * (1 + m)))). assert (e1b := Rmin_r 1 (eta / (2 * (1 + m)))). fold e1 in e1a, e1b.
  assert (e10 : (0 < e1)%R) by (apply Rmin_pos; [lra|apply Rdiv_lt_0_compat; lra]).
  assert (e1c : (e1 * (1 + m) <= eta / 2)%R).
  { apply (Rle_trans _ (eta / (2 * (1 + m)) * (1 + m))); [apply Rmult_le_compat_r; lra|right; field; lra]. }
  destruct (D (m * e1)%R ltac:(now apply Rmult_lt_0_compat)) as (d2 & d20 & K).
  set (d3 := (/ (2 * M))%R). assert (d30 : (0 < d3)%R) by (apply Rinv_0_lt_compat; lra).
  set (d4 := (eta / (4 * (1 + m) * (M * M)))%R). assert (MM : (0 < M * M)%R) by nra.
  assert (d4d : (0 < 4 * (1 + m) * (M * M))%R) by (apply Rmult_lt_0_compat; lra).
  assert (d40 : (0 < d4)%R) by (now apply Rdiv_lt_0_compat).
  exists (Rmin d2 (Rmin d3 d4)). split; [repeat apply Rmin_pos; assumption|]. intros d Hd.
  assert (M1 := Rmin_l d2 (Rmin d3 d4)). assert (M2 := Rmin_r d2 (Rmin d3 d4)). assert (M3 := Rmin_l d3 d4). assert (M4 := Rmin_r d3 d4).
  destruct (K d ltac:(lra)) as (z & Z & Bz). destruct (PS _ z Z) as (p & t & Ep & Et & Bp & Tp & Zz). exists p, t. split; [exact Ep|]. split; [exact Et|]. split; [exact Bp|].
  assert (dp := Rabs_pos d). set (ad := Rabs d) in *.
  set (v := (z - rho0 - RtoC d * (rho0 * L)) / rho0). set (u := RtoC d * L + v).
  assert (Ez : z = rho0 * (1 + u)) by (unfold u, v; field; exact R0).
  assert (Bv : (Cmod v <= e1 * ad)%R).
  { unfold v. rewrite Cmod_div by exact R0. fold m. apply (Rmult_le_reg_r m); [exact m0|]. unfold Rdiv. rewrite Rmult_assoc, Rinv_l, Rmult_1_r by lra.
    eapply Rle_trans; [exact Bz|]. right. ring. }
  assert (Bu : (Cmod u <= M * ad)%R).
  { unfold u. eapply Rle_trans; [apply Cmod_triangle|]. rewrite Cmod_mult, Cmod_R. fold ad. assert (e1 * ad <= 1 * ad)%R by (apply Rmult_le_compat_r; lra). unfold M. lra. }
  assert (Bh : (M * ad <= 1 / 2)%R).
  { assert (E3 : (M * d3 = 1 / 2)%R) by (unfold d3; field; lra). assert (M * ad <= M * d3)%R by (apply Rmult_le_compat_l; lra). lra. }
  assert (U0 := Cmod_ge_0 u).
  assert (Bq : (Cmod u * Cmod u <= M * M * ad * ad)%R).
  { replace (M * M * ad * ad)%R with ((M * ad) * (M * ad))%R by ring. apply Rmult_le_compat; assumption. }
  assert (Bs : (M * M * ad * (1 + m) <= eta / 4)%R).
  { assert (E4 : (M * M * d4 * (1 + m) = eta / 4)%R) by (unfold d4; field; split; lra).
    assert (M * M * ad * (1 + m) <= M * M * d4 * (1 + m))%R; [|lra]. apply Rmult_le_compat_r; [lra|]. apply Rmult_le_compat_l; lra. }
  destruct (near_one u ltac:(lra)) as (O1 & O2 & O3 & O4).
  assert (Wz : Cmod z = (m * Cmod (1 + u)%C)%R) by (rewrite Ez; apply Cmod_mult). set (w := Cmod (1 + u)) in *.
  assert (V1 : (Rabs (Re v) <= e1 * ad)%R) by (eapply Rle_trans; [|exact Bv]; eapply Rle_trans; [apply (Rmax_l (Rabs (fst v)) (Rabs (snd v)))|apply Rmax_Cmod]).
  assert (V2 : (Rabs (Im v) <= e1 * ad)%R) by (eapply Rle_trans; [|exact Bv]; eapply Rle_trans; [apply (Rmax_r (Rabs (fst v)) (Rabs (snd v)))|apply Rmax_Cmod]).
  assert (Ru : Re u = (d * Re L + Re v)%R) by (unfold u, Re; simpl; ring). assert (Iu : Im u = (d * Im L + Im v)%R) by (unfold u, Im; simpl; ring).
  (* the phases *)
  assert (PH : 1 + u = RtoC w * (cos ((t0 - t) * PI / 180), sin ((t0 - t) * PI / 180))%R).
  { apply (Cmult_cancel rho0 _ _ R0). rewrite <- Ez, Zz, Wz, Z0 at 1. fold m.
    replace ((t0 - t) * PI / 180)%R with (t0 * PI / 180 - t * PI / 180)%R by field. rewrite cos_minus, sin_minus.
    assert (S := sin2_cos2 (t0 * PI / 180)). unfold Rsqr in S. set (c0 := cos (t0 * PI / 180)) in *. set (s0 := sin (t0 * PI / 180)) in *. set (c1 := cos (t * PI / 180)). set (s1 := sin (t * PI / 180)).
    apply C_ext; simpl.
    - transitivity (m * w * c1 * (s0 * s0 + c0 * c0))%R; [rewrite S; ring|ring].
    - transitivity (- (m * w * s1 * (s0 * s0 + c0 * c0)))%R; [rewrite S; ring|ring]. }
  assert (PR : Re (1 + u)%C = (w * cos ((t0 - t) * PI / 180))%R) by (rewrite PH; unfold Re; simpl; ring).
  assert (PI' : Im u = (w * sin ((t0 - t) * PI / 180))%R).
  { transitivity (Im (1 + u)%C); [unfold Im; simpl; ring|]. rewrite PH. unfold Im; simpl; ring. }
  set (sn := sin ((t0 - t) * PI / 180)) in *. set (cn := cos ((t0 - t) * PI / 180)) in *.
  assert (w0 : (0 < w)%R) by lra.
  split; [|split].
  - rewrite Tp, T0. fold m. rewrite Wz. replace (m * w - m * (1 + d * Re L))%R with (m * ((w - 1 - Re u) + Re v))%R by (rewrite Ru; ring).
    rewrite Rabs_mult, (Rabs_pos_eq m) by lra.
    assert (T := Rabs_triang (w - 1 - Re u) (Re v)).
    assert (X : (Rabs (w - 1 - Re u + Re v) <= M * M * ad * ad + e1 * ad)%R) by lra.
    apply (Rle_trans _ (m * (M * M * ad * ad + e1 * ad))); [apply Rmult_le_compat_l; lra|].
    assert (Y1 : (M * M * ad * (1 + m) * ad <= eta / 4 * ad)%R) by (apply Rmult_le_compat_r; lra).
    assert (Y2 : (e1 * (1 + m) * ad <= eta / 2 * ad)%R) by (apply Rmult_le_compat_r; lra).
    assert (Y3 : (0 <= M * M * ad * ad)%R) by (repeat apply Rmult_le_pos; lra). assert (Y4 : (0 <= e1 * ad)%R) by (apply Rmult_le_pos; lra).
    assert (Y5 : (0 <= eta * ad)%R) by (apply Rmult_le_pos; lra). lra.
  - replace (sn - d * Im L)%R with (Im v + sn * (1 - w))%R by lra.
    assert (T := Rabs_triang (Im v) (sn * (1 - w))). rewrite Rabs_mult in T.
    assert (Sn : (Rabs sn <= 2 * Cmod u)%R).
    { assert (I1 : (Rabs (Im u) <= Cmod u)%R) by (eapply Rle_trans; [apply (Rmax_r (Rabs (fst u)) (Rabs (snd u)))|apply Rmax_Cmod]).
      rewrite PI', Rabs_mult, (Rabs_pos_eq w) in I1 by lra. assert (Sp := Rabs_pos sn). assert (1 / 2 * Rabs sn <= w * Rabs sn)%R by (apply Rmult_le_compat_r; lra). lra. }
    assert (W1 : (Rabs (1 - w) <= Cmod u)%R) by (rewrite Rabs_minus_sym; exact O3).
    assert (X : (Rabs sn * Rabs (1 - w) <= 2 * Cmod u * Cmod u)%R) by (apply Rmult_le_compat; try apply Rabs_pos; assumption).
    assert (Y0 : (0 <= M * M * ad * ad)%R) by (repeat apply Rmult_le_pos; lra).
    assert (Y1 : (M * M * ad * (1 + m) * ad <= eta / 4 * ad)%R) by (apply Rmult_le_compat_r; lra).
    assert (Y2 : (e1 * (1 + m) * ad <= eta / 2 * ad)%R) by (apply Rmult_le_compat_r; lra).
    assert (Y3 : (0 <= m * (M * M * ad * ad))%R) by (apply Rmult_le_pos; lra). assert (Y4 : (0 <= m * (e1 * ad))%R) by (repeat apply Rmult_le_pos; lra). lra.
  - rewrite PR in O1. destruct (Rlt_le_dec 0 cn) as [|Cn]; [assumption|]. assert (w * cn <= 0)%R by nra. lra.
Qed.
Print Assumptions C116_angles.

Lemma drude_imag (k x q s e eb : R) : exists y : R, drude_film k x q s (RtoC e) (RtoC eb) = Ci * RtoC y.
Proof.
  exists (Im (drude_film k x q s (RtoC e) (RtoC eb))). unfold drude_film.
  match goal with |- ?n / ?d = _ => assert (D : d = RtoC (fst d)) by (apply C_ext; simpl; ring); assert (Nn : n = Ci * RtoC (snd n)) by (apply C_ext; simpl; ring);
    rewrite D, Nn; generalize (fst d) (snd n) end.
  intros d n. apply C_ext; unfold Im; simpl; unfold Rdiv; ring.
Qed.

(** C116: a transparent film on a transparent substrate does not change psi in first order. *)
Theorem C116_psi : forall theta_i lbda (x e y : R) (a : C) d1 rho0,
  (0 < x)%R -> a <> 0 -> rho_of theta_i lbda x [] (RtoC y) a = Some rho0 -> rho0 <> 0 ->
  jones2_r (solver2 theta_i lbda (RtoC x) [(d1, RtoC e)] (RtoC y)) <> None ->
  let psi_of ls := let? J := jones2_r (solver2 theta_i lbda (RtoC x) ls (RtoC y)) in psi (-180, 180)%R J (vec_of [a; a]) in
  exists p0, psi_of [] = Some p0 /\ (0 < p0 < 90)%R /\
  forall eta, (0 < eta)%R -> exists d0, (0 < d0)%R /\ forall d, (Rabs d <= d0)%R ->
    exists p, psi_of [(d, RtoC e)] = Some p /\ (0 <= p < 90)%R /\ (Rabs (tan (p * PI / 180) - tan (p0 * PI / 180)) <= eta * Rabs d)%R.
Proof.
  intros th lb x e y a d1 rho0 P Na H0 R0 H1 psi_of.
  destruct (C116_angles th lb x (RtoC e) (RtoC y) a d1 rho0 P Na H0 R0 H1) as (p0 & t0 & A & _ & B & F). exists p0. split; [exact A|]. split; [exact B|].
  intros eta He. destruct (F eta He) as (d0 & D0 & K). exists d0. split; [exact D0|]. intros d Hd. destruct (K d Hd) as (p & t & A1 & _ & B1 & T & _).
  exists p. split; [exact A1|]. split; [exact B1|].
  destruct (drude_imag (2 * PI / lb) x (sqrt x * Rabs (cos (th * PI / 180))) (sqrt x * sin (th * PI / 180)) e y) as [v V]. rewrite V in T.
  replace (Re (Ci * RtoC v)) with 0%R in T by (unfold Re; simpl; ring). rewrite Rmult_0_r, Rplus_0_r, Rmult_1_r in T. exact T.
Qed.
Print Assumptions C116_psi.

(** A film of permittivity 2 on a substrate of permittivity 5/2 at 45 degrees *)
Example C116_example :
  rho_of 45 1 1 [] (RtoC (5 / 2)) (RtoC 1) = Some (RtoC (- 1 / 3)) /\
  jones2_r (solver2 45 1 (RtoC 1) [(1%R, RtoC 2)] (RtoC (5 / 2))) <> None /\
  first_order (fun d => rho_of 45 1 1 [(d, RtoC 2)] (RtoC (5 / 2)) (RtoC 1)) (RtoC (- 1 / 3))
    (RtoC (- 1 / 3) * (Ci * RtoC (10 * PI / (9 * sqrt 2)))).
Proof.
  destruct C04_example as (J & p & d & HJ & Hr & _). destruct deg45 as [S4 C4]. unfold deg2rad in S4, C4. assert (H2 := half2).
  assert (s2 : (0 < sqrt 2)%R) by (apply sqrt_lt_R0; lra).
  assert (h0 : (0 < 1 / sqrt 2)%R) by (apply Rdiv_lt_0_compat; lra).
  assert (A : rho_of 45 1 1 [] (RtoC (5 / 2)) (RtoC 1) = Some (RtoC (- 1 / 3))) by (unfold rho_of; rewrite HJ; cbn [obind]; exact Hr).
  assert (B : jones2_r (solver2 45 1 (RtoC 1) [(1%R, RtoC 2)] (RtoC (5 / 2))) <> None).
  { destruct (C37_defined 45 1 1 (5 / 2) [(1, 2)%R]) as ((r & t & E1) & E2 & _); rewrite ?S4, ?C4; try lra.
    - constructor; [cbn [fst snd]; lra|constructor].
    - destruct E2 as (r' & t' & E2); [constructor; [cbn [snd]; lra|constructor]|]. cbn [map fst snd] in E1, E2.
      unfold jones2_r, jones2. rewrite E1, E2. discriminate. }
  split; [exact A|]. split; [exact B|].
  assert (D := C116_drude 45 1 1 (RtoC 2) (RtoC (5 / 2)) (RtoC 1) 1 _ ltac:(lra) ltac:(apply C_of_R_neq; lra) A ltac:(apply C_of_R_neq; lra) B).
  cbv zeta in D. rewrite S4, C4, sqrt_1, !Rmult_1_l, (Rabs_pos_eq (1 / sqrt 2)) in D by lra.
  replace (Ci * RtoC (10 * PI / (9 * sqrt 2))) with (drude_film (2 * PI / 1) 1 (1 / sqrt 2) (1 / sqrt 2) (RtoC 2) (RtoC (5 / 2))); [exact D|].
  unfold drude_film. rewrite H2.
  match goal with |- _ / ?g = _ => replace g with (RtoC (9 / 4)) by (apply C_ext; simpl; field) end.
  replace (RtoC (10 * PI / (9 * sqrt 2))) with (RtoC (5 / 2 * PI / sqrt 2) / RtoC (9 / 4)) by (rewrite <- RtoC_div by lra; f_equal; field; lra).
  transitivity (Ci * RtoC (5 / 2 * PI / sqrt 2) / RtoC (9 / 4)); [|unfold Cdiv; ring]. f_equal.
  apply C_ext; simpl; field; lra.
Qed.
