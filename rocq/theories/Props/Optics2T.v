(** C91, C92, C93: total reflection, Brewster's angle, half wave and quarter wave layers, and
    stacks passed in the opposite direction, for Solver2x2. *)
From Coq Require Import Reals Lra Psatz ZArith Lia.
From Coquelicot Require Import Complex.
From Coq Require Import List.
From Verif.Base Require Import Py Cx Mat.
From Verif.Model Require Import Units Ellips Structure Solver2.
From Verif.Spec Require Import Stack Waves.
From Verif.Proof Require Import StackP FluxP UnitsP DispersionsP StructureP Solver2P Solver2P2 Solver2P3 Solver2P4 Solver2P5 ReverseP.
From Verif.Props Require Import Solver2T EnergyT.
Import ListNotations.
Open Scope R_scope.
Open Scope C_scope.

(** The normal wave number behind the stack for real permittivities *)
Lemma kx2_real (x th : R) : (0 < x)%R -> (sqrt x * sin (deg2rad th) * (sqrt x * sin (deg2rad th)) = tangential2 x th)%R.
Proof.
  intros P. unfold tangential2, deg2rad. set (s := sin _).
  replace (sqrt x * s * (sqrt x * s))%R with (sqrt x * sqrt x * (s * s))%R by ring. now rewrite sqrt_sqrt by lra.
Qed.
Lemma kz_half_real (x y th : R) : (0 < x)%R -> (y <> 0)%R -> (tangential2 x th < y)%R ->
  kz_half (kx_of th (RtoC x)) (RtoC y) = RtoC (sqrt (y - tangential2 x th)).
Proof.
  intros P N L. rewrite kx_real by lra. assert (K := kx2_real x th P). set (kx := (sqrt x * _)%R) in *.
  assert (Ny : RtoC y <> 0) by now apply C_of_R_neq.
  assert (S := kz_half_sqr (RtoC kx) (RtoC y) Ny). assert (R0 := kz_half_Re (RtoC y) kx Ny (Req_le _ _ eq_refl)).
  destruct (kz_half (RtoC kx) (RtoC y)) as [a b]. unfold Re in R0. cbn [fst] in R0.
  assert (S1 := f_equal fst S). assert (S2 := f_equal snd S). simpl in S1, S2.
  assert (b0 : (b = 0)%R) by (destruct (Req_dec a 0) as [->|Na]; nra).
  subst b. apply C_ext; simpl; [|reflexivity]. symmetry. apply sqrt_lem_1; nra.
Qed.
Lemma kz_half_imag (x y th : R) : (0 < x)%R -> (y <> 0)%R -> (y <= tangential2 x th)%R ->
  Re (kz_half (kx_of th (RtoC x)) (RtoC y)) = 0%R /\
  (Im (kz_half (kx_of th (RtoC x)) (RtoC y)) * Im (kz_half (kx_of th (RtoC x)) (RtoC y)) = tangential2 x th - y)%R /\
  ((1 / 10 ^ 10 < sqrt (tangential2 x th - y))%R ->
    kz_half (kx_of th (RtoC x)) (RtoC y) = Ci * RtoC (sqrt (tangential2 x th - y))).
Proof.
  intros P N L. assert (H := half_rule (kx_of th (RtoC x)) (RtoC y)). cbv zeta in H.
  rewrite kx_real in * by lra. assert (K := kx2_real x th P). set (kx := (sqrt x * _)%R) in *.
  assert (Ny : RtoC y <> 0) by now apply C_of_R_neq.
  assert (S := kz_half_sqr (RtoC kx) (RtoC y) Ny). fold (kz_half (RtoC kx) (RtoC y)) in H.
  destruct (kz_half (RtoC kx) (RtoC y)) as [a b]. unfold Re, Im in *. cbn [fst snd] in *.
  assert (S1 := f_equal fst S). assert (S2 := f_equal snd S). simpl in S1, S2.
  assert (a0 : (a = 0)%R) by (destruct (Req_dec b 0) as [->|Na]; nra). subst a.
  split; [reflexivity|]. split; [nra|]. intros T. destruct H as [H _].
  assert (D : (0 <= tangential2 x th - y)%R) by lra. assert (Q := sqrt_sqrt _ D). assert (Q0 := sqrt_pos (tangential2 x th - y)).
  assert (E : (Rabs b = sqrt (tangential2 x th - y))%R).
  { rewrite <- (sqrt_Rsqr_abs b). f_equal. unfold Rsqr. nra. }
  rewrite E in H. specialize (H T). rewrite Rabs_pos_eq in E by lra. rewrite E. unfold Ci. apply C_ext; simpl; ring.
Qed.

(** C91: behind a stack of real permittivities light is totally reflected, in both polarisations,
    exactly from the critical angle on: for x sin^2 >= y all power is reflected and none is
    transmitted, and below it less than all. *)
Theorem C91_total : forall theta_i lbda (x y : R) (ls : list (R * R)) r t,
  (0 < x)%R -> cos (theta_i * PI / 180) <> 0%R ->
  let res := solver2 theta_i lbda (RtoC x) (map (fun l => (fst l, RtoC (snd l))) ls) (RtoC y) in
  (rt_s res = Some (r, t) \/ rt_p res = Some (r, t)) ->
  ((y <= tangential2 x theta_i)%R -> Cmod r = 1%R /\ power_correction res = Some 0%R) /\
  ((tangential2 x theta_i < y)%R -> (Cmod r < 1)%R /\ t <> 0 /\
     exists pc, power_correction res = Some pc /\ (0 < pc)%R).
Proof.
  intros th lb x y ls r t P Q res H.
  assert (G : exists b, rt b res = Some (r, t)) by (destruct H as [H|H]; [exists true|exists false]; exact H).
  destruct G as [b G]. assert (I := G). apply rt_some in I. destruct I as [I A]. assert (I' := I). destruct I' as (_ & _ & Ny & _).
  assert (Ny' : (y <> 0)%R) by (intros K; apply Ny; now rewrite K).
  destruct (front_flux true th x P Q) as (_ & _ & K0). destruct (kz_front th x P Q) as (Ef & _ & _).
  assert (PC : power_correction res = Some (Re (kz_half (kx_of th (RtoC x)) (RtoC y)) / Re (kz_half (kx_of th (RtoC x)) (RtoC x)))%R).
  { unfold res. rewrite solver2_eq by exact I. cbn [power_correction]. unfold rdiv. destruct (Req_EM_T _ 0); [lra|reflexivity]. }
  assert (EN := C37_energy th lb x y ls r t _ P Q PC H).
  assert (M0 := Cmod_ge_0 r).
  split; intros L.
  - destruct (kz_half_imag x y th P Ny' L) as (R0 & _ & _). rewrite R0 in *. unfold Rdiv in *. rewrite Rmult_0_l in *.
    split; [|exact PC]. nra.
  - rewrite (kz_half_real x y th P Ny' L) in *. unfold Re at 1 in PC. unfold Re at 1 in EN. cbn [fst RtoC] in *.
    assert (S0 : (0 < sqrt (y - tangential2 x th))%R) by (apply sqrt_lt_R0; lra).
    assert (D0 := Rdiv_lt_0_compat _ _ S0 K0).
    assert (T0 : t <> 0).
    { apply (amplitudes_iff (pf b) (pc b) (pf_char b)) in A. cbv zeta in A. destruct A as (_ & A1 & _ & ->).
      apply Cdiv_neq0; [|exact A1]. intros K. apply RtoC_inj in K. lra. }
    assert (T1 := Cmod_gt_0 t). destruct T1 as [T1 _]. specialize (T1 T0).
    split; [|split; [exact T0|eauto]]. assert (0 < Cmod t * Cmod t)%R by nra.
    assert (T2 := Rmult_lt_0_compat _ _ D0 H0). nra.
Qed.
Print Assumptions C91_total.

(** C91: the phases of total reflection at one interface, in terms of the decay constant kappa. *)
Theorem C91_phase : forall theta_i lbda (x y : R),
  (0 < x)%R -> (0 < y)%R -> (lbda <> 0)%R -> cos (theta_i * PI / 180) <> 0%R ->
  let kappa := sqrt (tangential2 x theta_i - y) in
  let c := (sqrt x * Rabs (cos (theta_i * PI / 180)))%R in
  (y <= tangential2 x theta_i)%R -> (1 / 10 ^ 10 < kappa)%R ->
  let res := solver2 theta_i lbda (RtoC x) [] (RtoC y) in
  (exists t, rt_s res = Some ((RtoC c - Ci * RtoC kappa) / (RtoC c + Ci * RtoC kappa), t)) /\
  (exists t, rt_p res = Some ((RtoC (y * c) - Ci * RtoC (x * kappa)) / (RtoC (y * c) + Ci * RtoC (x * kappa)), t)).
Proof.
  intros th lb x y P Py L Q kappa c Y K. cbv zeta.
  assert (Nx : RtoC x <> 0) by (apply C_of_R_neq; lra). assert (Ny : RtoC y <> 0) by (apply C_of_R_neq; lra).
  destruct (C36_fresnel th lb (RtoC x) (RtoC y) _ _ _ (media_some th lb (RtoC x) [] (RtoC y) L Nx Ny (Forall_nil _))) as (_ & _ & _ & S & Pp).
  fold (kz_half (kx_of th (RtoC x)) (RtoC x)) in S, Pp. fold (kz_half (kx_of th (RtoC x)) (RtoC y)) in S, Pp.
  destruct (kz_front th x P Q) as (Ef & _ & _). unfold deg2rad in Ef. fold c in Ef.
  assert (Ny' : (y <> 0)%R) by lra. destruct (kz_half_imag x y th P Ny' Y) as (_ & _ & Eb). specialize (Eb K). fold kappa in Eb.
  rewrite Ef, Eb in S, Pp.
  assert (c0 : (0 < c)%R) by (apply Rmult_lt_0_compat; [now apply sqrt_lt_R0|now apply Rabs_pos_lt]).
  assert (N : forall a b : R, (0 < a)%R -> RtoC a + Ci * RtoC b <> 0).
  { intros a b0 A E. apply (f_equal fst) in E. simpl in E. lra. }
  split.
  - rewrite S. clear S Pp. destruct (Ceq_dec (RtoC c) 0) as [Z|_]; [apply RtoC_inj in Z; lra|].
    destruct (Ceq_dec _ 0) as [Z|_]; [exfalso; exact (N c kappa c0 Z)|]. eauto.
  - rewrite Pp. clear S Pp. destruct (Ceq_dec (RtoC c) 0) as [Z|_]; [apply RtoC_inj in Z; lra|].
    replace (RtoC x * (Ci * RtoC kappa)) with (Ci * RtoC (x * kappa)) by (rewrite RtoC_mult; ring).
    replace (RtoC y * RtoC c) with (RtoC (y * c)) by (rewrite RtoC_mult; ring).
    destruct (Ceq_dec _ 0) as [Z|_]; [exfalso; exact (N (y * c)%R (x * kappa)%R (Rmult_lt_0_compat _ _ Py c0) Z)|]. eauto.
Qed.
Print Assumptions C91_phase.

(** C91: p polarised light is not reflected exactly at Brewster's angle, where tan = n2 / n1; s
    polarised light is reflected at every angle. *)
Theorem C91_brewster : forall theta_i lbda (x y : R),
  (0 < x)%R -> (0 < y)%R -> x <> y -> (lbda <> 0)%R -> (0 <= theta_i < 90)%R ->
  let res := solver2 theta_i lbda (RtoC x) [] (RtoC y) in
  (exists r t, rt_p res = Some (r, t) /\ (r = 0 <-> tan (theta_i * PI / 180) = (sqrt y / sqrt x)%R)) /\
  (exists r t, rt_s res = Some (r, t) /\ r <> 0).
Proof.
  intros th lb x y P Py D L T res. set (a := (th * PI / 180)%R).
  assert (Pi := PI_RGT_0).
  assert (c0 : (0 < cos a)%R) by (apply cos_gt_0; unfold a; nra).
  assert (s0 : (0 <= sin a)%R) by (apply sin_ge_0; unfold a; nra).
  assert (Q : cos (th * PI / 180) <> 0%R) by (fold a; lra).
  assert (cs : (sin a * sin a + cos a * cos a = 1)%R) by (assert (Z := sin2_cos2 a); unfold Rsqr in Z; exact Z).
  assert (Nx : RtoC x <> 0) by (apply C_of_R_neq; lra). assert (Ny : RtoC y <> 0) by (apply C_of_R_neq; lra).
  destruct (C36_fresnel th lb (RtoC x) (RtoC y) _ _ _ (media_some th lb (RtoC x) [] (RtoC y) L Nx Ny (Forall_nil _))) as (_ & _ & _ & S & Pp).
  fold (kz_half (kx_of th (RtoC x)) (RtoC x)) in S, Pp. fold (kz_half (kx_of th (RtoC x)) (RtoC y)) in S, Pp.
  destruct (kz_front th x P Q) as (Ef & _ & _). unfold deg2rad in Ef. fold a in Ef. rewrite Rabs_pos_eq in Ef by lra.
  assert (sx := sqrt_lt_R0 x P). assert (sy := sqrt_lt_R0 y Py). assert (sx2 := sqrt_sqrt x (Rlt_le _ _ P)). assert (sy2 := sqrt_sqrt y (Rlt_le _ _ Py)).
  set (c := (sqrt x * cos a)%R) in *. assert (cp : (0 < c)%R) by (apply Rmult_lt_0_compat; lra).
  assert (c2 : (c * c = x * (cos a * cos a))%R) by (transitivity (sqrt x * sqrt x * (cos a * cos a))%R; [unfold c; ring|now rewrite sx2]).
  assert (R0 : (0 <= Re (kz_half (kx_of th (RtoC x)) (RtoC y)))%R).
  { rewrite kx_real by lra. apply kz_half_Re; [exact Ny|apply Req_le; reflexivity]. }
  assert (E2 : kz_half (kx_of th (RtoC x)) (RtoC y) * kz_half (kx_of th (RtoC x)) (RtoC y) = RtoC (y - tangential2 x th)).
  { rewrite kz_half_sqr by exact Ny. rewrite kx_real by lra. rewrite <- (kx2_real x th P), RtoC_minus, <- !RtoC_mult. reflexivity. }
  rewrite Ef in S, Pp. set (w := kz_half _ (RtoC y)) in *.
  assert (Ny' : (y <> 0)%R) by lra.
  assert (TB : (tan a = sqrt y / sqrt x <-> y * (cos a * cos a) = x * (sin a * sin a))%R).
  { unfold tan. split; intros E.
    - assert (E' : (sqrt x * sin a = sqrt y * cos a)%R).
      { transitivity (sqrt x * cos a * (sin a / cos a))%R; [field; lra|]. rewrite E. field. lra. }
      rewrite <- sx2, <- sy2. transitivity (sqrt y * cos a * (sqrt y * cos a))%R; [ring|]. rewrite <- E'. ring.
    - assert (E' : (sqrt x * sin a = sqrt y * cos a)%R).
      { apply Rsqr_inj; [nra|nra|]. unfold Rsqr. replace (sqrt x * sin a * (sqrt x * sin a))%R with (sqrt x * sqrt x * (sin a * sin a))%R by ring.
        replace (sqrt y * cos a * (sqrt y * cos a))%R with (sqrt y * sqrt y * (cos a * cos a))%R by ring. rewrite sx2, sy2. lra. }
      apply (Rmult_eq_reg_l (sqrt x * cos a)); [|apply Rgt_not_eq, Rmult_lt_0_compat; lra]. transitivity (sqrt x * sin a)%R; [field; lra|]. rewrite E'. field. lra. }
  assert (Dn : forall u v : R, (0 < u)%R -> (0 < v)%R -> RtoC u * RtoC c + RtoC v * w <> 0).
  { intros u v U V E. apply (f_equal fst) in E. unfold Re in R0. cbn [fst snd Cplus Cmult RtoC] in E.
    assert (U1 := Rmult_lt_0_compat _ _ U cp). assert (V1 := Rmult_le_pos _ _ (Rlt_le _ _ V) R0). lra. }
  destruct (Ceq_dec (RtoC c) 0) as [Z|_]; [apply RtoC_inj in Z; lra|].
  assert (W : tangential2 x th = (x * (sin a * sin a))%R) by reflexivity.
  split.
  - clear S. destruct (Ceq_dec _ 0) as [Z|N]; [exfalso; exact (Dn y x Py P Z)|]. do 2 eexists. split; [exact Pp|]. rewrite TB.
    split.
    + intros E. assert (E3 : RtoC y * RtoC c = RtoC x * w).
      { apply (Cmult_cancel (/ (RtoC y * RtoC c + RtoC x * w))).
        - intros Z. apply N. transitivity (RtoC y * RtoC c + RtoC x * w); [reflexivity|].
          exfalso. assert (O : / (RtoC y * RtoC c + RtoC x * w) * (RtoC y * RtoC c + RtoC x * w) = 1) by (field; exact N).
          rewrite Z in O. assert (O' : RtoC 0 = 1) by (rewrite <- O; ring). apply RtoC_inj in O'. lra.
        - transitivity ((RtoC y * RtoC c - RtoC x * w) / (RtoC y * RtoC c + RtoC x * w) + / (RtoC y * RtoC c + RtoC x * w) * (RtoC x * w)).
          + unfold Cdiv. ring.
          + rewrite E. ring. }
      assert (E4 : RtoC (y * c * (y * c)) = RtoC (x * x * (y - tangential2 x th))).
      { rewrite (RtoC_mult (x * x)%R), <- E2. transitivity ((RtoC y * RtoC c) * (RtoC y * RtoC c)); [rewrite !RtoC_mult; ring|].
        rewrite E3, RtoC_mult. ring. }
      apply RtoC_inj in E4. rewrite W in E4.
      assert (E5 : (x * (y - x) * (y * (cos a * cos a) - x * (sin a * sin a)) = 0)%R).
      { transitivity (y * y * (c * c) - x * x * (y * (sin a * sin a + cos a * cos a) - x * (sin a * sin a)))%R; [rewrite c2; ring|].
        rewrite cs, Rmult_1_r. apply Rminus_diag_eq. rewrite <- E4. ring. }
      apply Rmult_integral in E5. destruct E5 as [E5|E5]; [|lra]. apply Rmult_integral in E5. lra.
    + intros E. assert (C0 := Rmult_lt_0_compat _ _ c0 c0). assert (Y0 := Rmult_lt_0_compat _ _ Py C0).
      assert (S0 : (0 < sin a * sin a)%R) by (apply (Rmult_lt_reg_l x); [exact P|]; rewrite <- E, Rmult_0_r; exact Y0).
      assert (Lt : (tangential2 x th < y)%R).
      { rewrite W, <- E. replace (cos a * cos a)%R with (1 - sin a * sin a)%R by lra. assert (Z := Rmult_lt_0_compat _ _ Py S0). lra. }
      assert (Ew : w = RtoC (sqrt (y - tangential2 x th))) by (apply kz_half_real; assumption).
      assert (E6 : (x * sqrt (y - tangential2 x th) = y * c)%R).
      { assert (S2 : (0 <= y - tangential2 x th)%R) by lra. assert (S3 := sqrt_pos (y - tangential2 x th)). assert (S4 := sqrt_sqrt _ S2).
        apply Rsqr_inj; [nra|nra|]. unfold Rsqr.
        transitivity (x * x * (sqrt (y - tangential2 x th) * sqrt (y - tangential2 x th)))%R; [ring|]. rewrite S4, W, <- E.
        transitivity (y * y * (c * c))%R; [|ring]. rewrite c2.
        transitivity (x * x * y * (1 - cos a * cos a))%R; [ring|]. replace (1 - cos a * cos a)%R with (sin a * sin a)%R by lra.
        transitivity (x * y * (x * (sin a * sin a)))%R; [ring|]. rewrite <- E. ring. }
      rewrite Ew, <- !RtoC_mult, E6. unfold Cdiv. ring.
  - clear Pp. destruct (Ceq_dec _ 0) as [Z|N].
    + exfalso. apply (Dn 1%R 1%R); [lra|lra|]. rewrite !Cmult_1_l. exact Z.
    + do 2 eexists. split; [exact S|]. apply Cdiv_neq0; [|exact N]. intros E.
      assert (E3 : w = RtoC c) by (transitivity (RtoC c - (RtoC c - w)); [ring|rewrite E; ring]).
      rewrite E3 in E2. rewrite <- RtoC_mult in E2. apply RtoC_inj in E2. rewrite c2, W in E2. apply D. nra.
Qed.
Print Assumptions C91_brewster.

(** Glass against air at 45 degrees is beyond the critical angle; from air to permittivity 3
    Brewster's angle is 60 degrees. *)
Lemma sin45 : (sin (45 * PI / 180) * sin (45 * PI / 180) = 1 / 2)%R /\ (0 < cos (45 * PI / 180))%R.
Proof.
  replace (45 * PI / 180)%R with (PI / 4)%R by field. split; [|apply cos_gt_0; assert (Z := PI_RGT_0); lra].
  assert (A := sin2_cos2 (PI / 4)). rewrite sin_cos_PI4 in *. unfold Rsqr in A. lra.
Qed.
Example C91_example_total : exists r t,
  rt_s (solver2 45 500 (RtoC (9 / 4)) [] (RtoC 1)) = Some (r, t) /\ Cmod r = 1%R.
Proof.
  destruct sin45 as [S C]. assert (T2 : tangential2 (9 / 4) 45 = (9 / 8)%R) by (unfold tangential2; rewrite S; field).
  assert (K : (1 / 10 ^ 10 < sqrt (tangential2 (9 / 4) 45 - 1))%R).
  { rewrite T2. replace (9 / 8 - 1)%R with (1 / 8)%R by field.
    apply Rlt_trans with (1 / 8)%R; [simpl; lra|]. rewrite <- (sqrt_square (1 / 8)) at 1 by lra. apply sqrt_lt_1; lra. }
  destruct (C91_phase 45 500 (9 / 4) 1 ltac:(lra) ltac:(lra) ltac:(lra) ltac:(lra) ltac:(rewrite T2; lra) K) as [[t E] _].
  do 2 eexists. split; [exact E|].
  destruct (C91_total 45 500 (9 / 4) 1 [] _ t ltac:(lra) ltac:(lra) (or_introl E)) as [H _]. apply H. rewrite T2. lra.
Qed.
Example C91_example_brewster : exists t, rt_p (solver2 60 500 (RtoC 1) [] (RtoC 3)) = Some (RtoC 0, t).
Proof.
  destruct (C91_brewster 60 500 1 3 ltac:(lra) ltac:(lra) ltac:(lra) ltac:(lra) ltac:(lra)) as [(r & t & E & B) _].
  exists t. rewrite E. f_equal. f_equal. apply B. replace (60 * PI / 180)%R with (PI / 3)%R by field.
  rewrite tan_PI3, sqrt_1. field.
Qed.

(** C92: in a transparent layer anywhere in a stack the thickness counts only up to a half wave.
    Adding m half waves leaves the reflected amplitudes as they are and multiplies the transmitted
    ones by (-1)^m; and there is no result in one case if there is none in the other. *)
Lemma period b theta_i lbda (x e d : R) (m : Z) pre post (eps_b : C) :
  (0 < x)%R -> (tangential2 x theta_i < e)%R ->
  rt b (solver2 theta_i lbda (RtoC x) (pre ++ ((d + IZR m * half_wave lbda e (tangential2 x theta_i))%R, RtoC e) :: post) eps_b) =
  option_map (signed (RtoC (sign_of m))) (rt b (solver2 theta_i lbda (RtoC x) (pre ++ (d, RtoC e) :: post) eps_b)).
Proof.
  intros P E. set (d' := (d + _)%R).
  assert (Iff : input_ok lbda (RtoC x) (pre ++ (d, RtoC e) :: post) eps_b <-> input_ok lbda (RtoC x) (pre ++ (d', RtoC e) :: post) eps_b).
  { split; intros I.
    - apply (ok_replace lbda (RtoC x) eps_b pre [(d, RtoC e)] [(d', RtoC e)] post I). intros F. inversion F; subst. constructor; [assumption|constructor].
    - apply (ok_replace lbda (RtoC x) eps_b pre [(d', RtoC e)] [(d, RtoC e)] post I). intros F. inversion F; subst. constructor; [assumption|constructor]. }
  destruct (input_dec lbda (RtoC x) (pre ++ (d, RtoC e) :: post) eps_b) as [I|I].
  2:{ assert (I' : ~ input_ok lbda (RtoC x) (pre ++ (d', RtoC e) :: post) eps_b) by tauto. rewrite !solver2_inv by assumption. destruct b; reflexivity. }
  assert (I' := proj1 Iff I). rewrite !rt_eq by assumption. destruct I as (L & _ & _ & _).
  set (kx := kx_of theta_i (RtoC x)).
  assert (S2 : (0 <= tangential2 x theta_i)%R) by (unfold tangential2; apply Rmult_le_pos; [lra|nra]).
  assert (Ne : RtoC e <> 0) by (apply C_of_R_neq; lra).
  assert (Sg : RtoC (sign_of m) * RtoC (sign_of m) = 1).
  { rewrite <- RtoC_mult. f_equal. unfold sign_of. destruct (Z.even m); ring. }
  assert (W : kz_layer kx (RtoC e) = RtoC (sqrt (e - tangential2 x theta_i))).
  { unfold kx. rewrite kx_real by lra. assert (K := kx2_real x theta_i P). set (k := (sqrt x * _)%R) in *.
    assert (Sq := kz_layer_sqr (RtoC k) (RtoC e) Ne). destruct (kz_layer_quad (RtoC e) k Ne (Req_le _ _ eq_refl)) as [Q1 Q2].
    destruct (kz_layer (RtoC k) (RtoC e)) as [u v]. unfold Re, Im in *. cbn [fst snd] in *.
    assert (S3 := f_equal fst Sq). assert (S4 := f_equal snd Sq). simpl in S3, S4.
    assert (v0 : (v = 0)%R) by (destruct (Req_dec u 0) as [->|Na]; nra).
    subst v. apply C_ext; simpl; [|reflexivity]. symmetry. apply sqrt_lem_1; nra. }
  assert (Ph : exists p q c : C, char_layer (pc b) (layer_of (k0 lbda) kx (d, RtoC e)) = (p, q, c) /\
     char_layer (pc b) (layer_of (k0 lbda) kx (d', RtoC e)) = (p, q, c + RtoC (IZR m * PI))).
  { unfold char_layer, layer_of. cbn [fst snd]. destruct (pc b (Csqrt (RtoC e), Casin (kx / Csqrt (RtoC e)))) as [p q].
    do 3 eexists. split; [reflexivity|]. f_equal. fold (kz_layer kx (RtoC e)).
    assert (G : forall z : R, k0 lbda * Csqrt (RtoC e) * Ccos (Casin (kx / Csqrt (RtoC e))) * RtoC z = k0 lbda * RtoC (sqrt (e - tangential2 x theta_i)) * RtoC z).
    { intros z. rewrite <- W. unfold kz_layer. ring. }
    rewrite !G. unfold d', half_wave. rewrite k0_R by exact L.
    rewrite <- !RtoC_mult, <- RtoC_plus. f_equal. assert (Q := sqrt_lt_R0 (e - tangential2 x theta_i)).
    assert (Q' : (0 < e - tangential2 x theta_i)%R) by lra. specialize (Q Q'). field. split; lra. }
  destruct Ph as (p & q & c & E1 & E2).
  rewrite !map_app. cbn [map]. apply amplitudes_signed; [exact Sg| |]; cbv zeta; rewrite !map_app; cbn [map]; rewrite E1, E2.
  - apply nonsing_head. reflexivity.
  - apply matched_pre. apply matched_phase; [apply Cexp_pi|exact Sg].
Qed.
Theorem C92_period : forall theta_i lbda (x e d : R) (m : Z) pre post (eps_b : C),
  (0 < x)%R -> (tangential2 x theta_i < e)%R ->
  let stack d := solver2 theta_i lbda (RtoC x) (pre ++ (d, RtoC e) :: post) eps_b in
  let thicker := stack (d + IZR m * half_wave lbda e (tangential2 x theta_i))%R in
  let same_r f g := forall r t, f = Some (r, t) <-> g = Some (r, RtoC (sign_of m) * t) in
  same_r (rt_s (stack d)) (rt_s thicker) /\ same_r (rt_p (stack d)) (rt_p thicker) /\
  power_correction thicker = power_correction (stack d).
Proof.
  intros th lb x e d m pre post eb P E. cbv zeta.
  assert (Sg : RtoC (sign_of m) * RtoC (sign_of m) = 1).
  { rewrite <- RtoC_mult. f_equal. unfold sign_of. destruct (Z.even m); ring. }
  assert (G : forall o o' : option (C * C), o' = option_map (signed (RtoC (sign_of m))) o ->
    forall r t, o = Some (r, t) <-> o' = Some (r, RtoC (sign_of m) * t)).
  { intros o o' -> r t. split; [intros ->; reflexivity|]. destruct o as [[r0 t0]|]; cbn [option_map signed fst snd]; [|discriminate].
    intros H. unfold signed in H. apply Some_eq in H. assert (H1 := f_equal fst H). assert (H2 := f_equal snd H). cbn [fst snd] in H1, H2. rewrite H1.
    f_equal. f_equal. transitivity (RtoC (sign_of m) * RtoC (sign_of m) * t0); [rewrite Sg; ring|]. rewrite <- Cmult_assoc, H2, Cmult_assoc, Sg. ring. }
  split; [apply G, (period true); assumption|]. split; [apply G, (period false); assumption|].
  apply pc_eq. split; intros I.
  - refine (ok_replace lb (RtoC x) eb pre [(_, RtoC e)] [(d, RtoC e)] post I _). intros F. inversion F; subst. constructor; [assumption|constructor].
  - refine (ok_replace lb (RtoC x) eb pre [(d, RtoC e)] [(_, RtoC e)] post I _). intros F. inversion F; subst. constructor; [assumption|constructor].
Qed.
Print Assumptions C92_period.

(** C92: a layer of m half waves is as good as no layer. *)
Theorem C92_absentee : forall theta_i lbda (x e : R) (m : Z) pre post (eps_b : C) r t r' t',
  (0 < x)%R -> (tangential2 x theta_i < e)%R ->
  let d := (IZR m * half_wave lbda e (tangential2 x theta_i))%R in
  let with_layer := solver2 theta_i lbda (RtoC x) (pre ++ (d, RtoC e) :: post) eps_b in
  let without := solver2 theta_i lbda (RtoC x) (pre ++ post) eps_b in
  (rt_s with_layer = Some (r, t) /\ rt_s without = Some (r', t') \/
   rt_p with_layer = Some (r, t) /\ rt_p without = Some (r', t')) ->
  r = r' /\ t = RtoC (sign_of m) * t'.
Proof.
  intros th lb x e m pre post eb r t r' t' P E. cbv zeta. intros H.
  assert (G : exists b, rt b (solver2 th lb (RtoC x) (pre ++ ((IZR m * half_wave lb e (tangential2 x th))%R, RtoC e) :: post) eb) = Some (r, t) /\
    rt b (solver2 th lb (RtoC x) (pre ++ post) eb) = Some (r', t')) by (destruct H as [H|H]; [exists true|exists false]; exact H).
  destruct G as (b & G1 & G2).
  assert (K := period b th lb x e 0 m pre post eb P E). rewrite Rplus_0_l, G1 in K.
  destruct (rt b (solver2 th lb (RtoC x) (pre ++ (0%R, RtoC e) :: post) eb)) as [[r0 t0]|] eqn:Z; [|discriminate].
  assert (Q := rt_zero b th lb (RtoC x) eb pre (RtoC e) post _ _ Z G2). cbn [option_map] in K. unfold signed in K. apply Some_eq in K.
  assert (K1 := f_equal fst K). assert (K2 := f_equal snd K). assert (Q1 := f_equal fst Q). assert (Q2 := f_equal snd Q). cbn [fst snd] in *.
  subst. split; reflexivity.
Qed.
Print Assumptions C92_absentee.

(** C92: an odd number of quarter waves at normal incidence.  Without reflection for n1^2 = n0 n2. *)
Lemma quarter_wave (p0 q0 p1 q1 pb qb d : C) : p0 <> 0 -> q0 <> 0 -> p1 <> 0 -> q1 <> 0 ->
  Cexp (Ci * d) * Cexp (Ci * d) = - (1) -> q0 * (p1 * p1) * qb + p0 * (q1 * q1) * pb <> 0 ->
  exists t, scattering p0 q0 [(p1, q1, d)] pb qb 1
    ((q0 * (p1 * p1) * qb - p0 * (q1 * q1) * pb) / (q0 * (p1 * p1) * qb + p0 * (q1 * q1) * pb)) t.
Proof.
  intros N0 M0 N1 M1 W D. set (S := q0 * (p1 * p1) * qb + p0 * (q1 * q1) * pb) in *.
  set (w := Cexp (Ci * d)) in *.
  assert (W' : Cexp (- (Ci * d)) = - w).
  { assert (X := exp_cancel d). fold w in X. transitivity (- (w * w) * Cexp (- (Ci * d))); [rewrite W; ring|].
    transitivity (- w * (w * Cexp (- (Ci * d)))); [ring|]. rewrite X. ring. }
  set (t := 2 * w * (p0 * q0 * p1 * q1) / S). exists t. unfold scattering. cbn [matched]. fold w. rewrite W'.
  exists (- w * ((pb / p1 + qb / q1) * t / 2)), (w * ((pb / p1 - qb / q1) * t / 2)).
  assert (T : w * t = - (2 * (p0 * q0 * p1 * q1) / S)).
  { unfold t. transitivity (w * w * (2 * (p0 * q0 * p1 * q1) / S)); [field; exact D|]. rewrite W. ring. }
  assert (W1 : - w * w = 1) by (transitivity (- (w * w)); [ring|rewrite W; ring]).
  split; [|split]; cbv zeta.
  - transitivity (- (p1 / q1 * qb) * (w * t)); [|Cfield]. rewrite T. unfold S in *. Cfield.
  - transitivity (- (q1 / p1 * pb) * (w * t)); [|Cfield]. rewrite T. unfold S in *. Cfield.
  - replace (- w * ((pb / p1 + qb / q1) * t / 2) * w) with (- w * w * ((pb / p1 + qb / q1) * t / 2)) by ring.
    replace (w * ((pb / p1 - qb / q1) * t / 2) * - w) with (- w * w * ((pb / p1 - qb / q1) * t / 2)) by ring.
    rewrite W1. split; Cfield.
Qed.
Lemma tangential_0 (x : R) : tangential2 x 0 = 0%R.
Proof. unfold tangential2. replace (0 * PI / 180)%R with 0%R by field. rewrite sin_0. ring. Qed.
Lemma cos_zero : cos (0 * PI / 180) = 1%R.
Proof. replace (0 * PI / 180)%R with 0%R by field. apply cos_0. Qed.
Lemma normal_half_of (x : R) : (0 < x)%R -> fst (half_of 0 (RtoC x)) = RtoC (sqrt x) /\ Ccos (snd (half_of 0 (RtoC x))) = RtoC 1.
Proof.
  intros P. assert (E := normal_half (sqrt x) (sqrt_lt_R0 x P)). rewrite sqrt_sqrt in E by lra. exact E.
Qed.
Lemma kx_normal (x : R) : (0 < x)%R -> kx_of 0 (RtoC x) = 0.
Proof.
  intros P. unfold kx_of, deg2rad. replace (0 * PI / 180)%R with 0%R by field. rewrite sin_0. ring.
Qed.
Lemma cos_normal (z : C) : Ccos (Casin (0 / z)) = 1.
Proof.
  rewrite Ccos_Casin. replace (1 - 0 / z * (0 / z)) with (RtoC 1) by (unfold Cdiv; ring).
  rewrite Csqrt_pos by lra. now rewrite sqrt_1.
Qed.
Theorem C92_quarter : forall lbda (x e y : R) (m : nat),
  (0 < lbda)%R -> (0 < x)%R -> (0 < e)%R -> (0 < y)%R ->
  let d := ((2 * INR m + 1) * lbda / (4 * sqrt e))%R in
  let res := solver2 0 lbda (RtoC x) [(d, RtoC e)] (RtoC y) in
  let n02 := (sqrt x * sqrt y)%R in
  (exists t, rt_s res = Some (RtoC ((n02 - e) / (n02 + e)), t)) /\
  (exists t, rt_p res = Some (RtoC ((e - n02) / (e + n02)), t)).
Proof.
  intros lb x e y m L P Pe Py d res n02.
  assert (se := sqrt_lt_R0 e Pe). assert (sx := sqrt_lt_R0 x P). assert (sy := sqrt_lt_R0 y Py).
  assert (d0 : (0 <= d)%R).
  { unfold d. assert (I0 := pos_INR m). apply Rmult_le_pos; [apply Rmult_le_pos; lra|]. left. apply Rinv_0_lt_compat. lra. }
  assert (Df := C37_defined 0 lb x y [(d, e)] P). rewrite cos_zero in Df.
  change (x * (sin (0 * PI / 180) * sin (0 * PI / 180)))%R with (tangential2 x 0) in Df. rewrite tangential_0 in Df.
  specialize (Df ltac:(lra) L). cbv zeta in Df. specialize (Df Py). cbn [map fst snd] in Df. fold res in Df.
  destruct Df as (D1 & D2 & _).
  { constructor; [|constructor]. cbn [fst snd]. split; [exact d0|lra]. }
  destruct D1 as (rs & ts & Es). destruct D2 as (rp & tp & Ep); [constructor; [exact Pe|constructor]|].
  destruct (normal_half_of x P) as [X1 X2]. destruct (normal_half_of y Py) as [Y1 Y2].
  assert (Ne : Csqrt (RtoC e) = RtoC (sqrt e)) by (apply Csqrt_pos; lra).
  set (ph := k0 lb * Csqrt (RtoC e) * Ccos (Casin (0 / Csqrt (RtoC e))) * RtoC d).
  assert (Ph : ph = RtoC ((2 * INR m + 1) * PI / 2)).
  { unfold ph. rewrite cos_normal, Ne, k0_R by lra. rewrite Cmult_1_r, <- !RtoC_mult. f_equal. unfold d. field. lra. }
  assert (W : Cexp (Ci * ph) * Cexp (Ci * ph) = - (1)).
  { rewrite <- Cexp_plus, Ph. replace (Ci * RtoC ((2 * INR m + 1) * PI / 2) + Ci * RtoC ((2 * INR m + 1) * PI / 2))
      with (Ci * RtoC (IZR (2 * Z.of_nat m + 1) * PI)).
    - rewrite Cexp_pi. unfold sign_of. replace (Z.even (2 * Z.of_nat m + 1)) with false.
      + rewrite <- RtoC_opp. reflexivity.
      + symmetry. rewrite Z.add_1_r, Z.even_succ, <- Z.negb_even, Z.even_mul. reflexivity.
    - rewrite plus_IZR, mult_IZR, <- INR_IZR_INZ. rewrite <- Cmult_plus_distr_l, <- RtoC_plus. f_equal. f_equal. field. }
  assert (Cz : forall a b : R, (0 < a)%R -> (0 < b)%R -> RtoC a + RtoC b <> 0).
  { intros a b0 A B E. rewrite <- RtoC_plus in E. apply RtoC_inj in E. lra. }
  assert (se2 : (sqrt e * sqrt e = e)%R) by (apply sqrt_sqrt; lra).
  assert (nn : (0 < n02)%R) by (apply Rmult_lt_0_compat; assumption).
  assert (One : RtoC 1 <> 0) by (intros E; apply RtoC_inj in E; lra).
  assert (Go : forall b r t, rt b res = Some (r, t) -> forall r' t',
    scattering (fst (pc b (half_of 0 (RtoC x)))) (snd (pc b (half_of 0 (RtoC x))))
      [(fst (pc b (Csqrt (RtoC e), Casin (0 / Csqrt (RtoC e)))), snd (pc b (Csqrt (RtoC e), Casin (0 / Csqrt (RtoC e)))), ph)]
      (fst (pc b (half_of 0 (RtoC y)))) (snd (pc b (half_of 0 (RtoC y)))) 1 r' t' -> r = r').
  { intros b r t H r' t' S. apply rt_some in H. destruct H as [_ H]. rewrite (kx_normal x P) in H.
    apply (amplitudes_scattering (pf b) (pc b) (pf_char b)) in H. destruct H as [_ H]. cbv zeta in H.
    specialize (H 1 r' t'). cbn [map] in H. unfold char_layer, layer_of in H. cbn [fst snd] in H. fold ph in H.
    destruct (pc b (Csqrt (RtoC e), Casin (0 / Csqrt (RtoC e)))) as [p1 q1]. cbn [fst snd] in *.
    destruct (H S) as [E _]. rewrite E. ring. }
  split.
  - exists ts. rewrite Es. f_equal. f_equal.
    destruct (quarter_wave 1 (RtoC (sqrt x)) 1 (RtoC (sqrt e)) 1 (RtoC (sqrt y)) ph) as [t' S]; try assumption; try (apply C_of_R_neq; lra).
    { rewrite !Cmult_1_l, !Cmult_1_r, <- !RtoC_mult, se2. now apply Cz. }
    erewrite (Go true rs ts Es _ t').
    2:{ unfold pc, char_s. cbn [fst snd]. rewrite X1, X2, Y1, Y2, cos_normal, Ne, !Cmult_1_r. rewrite !Cmult_1_l, !Cmult_1_r in S. exact S. }
    rewrite ?Cmult_1_l, ?Cmult_1_r, <- !RtoC_mult, se2. fold n02. rewrite <- RtoC_minus, <- RtoC_plus, <- RtoC_div by lra. reflexivity.
  - exists tp. rewrite Ep. f_equal. f_equal.
    destruct (quarter_wave (RtoC (sqrt x)) 1 (RtoC (sqrt e)) 1 (RtoC (sqrt y)) 1 ph) as [t' S]; try assumption; try (apply C_of_R_neq; lra).
    { rewrite !Cmult_1_l, !Cmult_1_r, <- !RtoC_mult, se2. now apply Cz. }
    erewrite (Go false rp tp Ep _ t').
    2:{ unfold pc, char_p. cbn [fst snd]. rewrite X1, X2, Y1, Y2, cos_normal, Ne. exact S. }
    rewrite ?Cmult_1_l, ?Cmult_1_r, <- !RtoC_mult, se2. fold n02. rewrite <- RtoC_minus, <- RtoC_plus, <- RtoC_div by lra. reflexivity.
Qed.
Print Assumptions C92_quarter.
Theorem C92_antireflection : forall lbda (x e y : R) (m : nat),
  (0 < lbda)%R -> (0 < x)%R -> (0 < e)%R -> (0 < y)%R ->
  let d := ((2 * INR m + 1) * lbda / (4 * sqrt e))%R in
  let res := solver2 0 lbda (RtoC x) [(d, RtoC e)] (RtoC y) in
  exists r_s t_s r_p t_p, rt_s res = Some (r_s, t_s) /\ rt_p res = Some (r_p, t_p) /\
    (r_s = 0 <-> (e * e = x * y)%R) /\ (r_p = 0 <-> (e * e = x * y)%R).
Proof.
  intros lb x e y m L P Pe Py. cbv zeta.
  destruct (C92_quarter lb x e y m L P Pe Py) as [[ts Es] [tp Ep]]. cbv zeta in Es, Ep.
  assert (nn : (0 < sqrt x * sqrt y)%R) by (apply Rmult_lt_0_compat; apply sqrt_lt_R0; assumption).
  assert (N2 : (sqrt x * sqrt y * (sqrt x * sqrt y) = x * y)%R).
  { transitivity (sqrt x * sqrt x * (sqrt y * sqrt y))%R; [ring|]. rewrite !sqrt_sqrt by lra. reflexivity. }
  do 4 eexists. split; [exact Es|]. split; [exact Ep|]. set (n := (sqrt x * sqrt y)%R) in *.
  assert (G : (n = e <-> e * e = x * y)%R) by (rewrite <- N2; split; [intros ->; reflexivity|intros K; apply Rsqr_inj; [lra|lra|unfold Rsqr; lra]]).
  split; rewrite <- G; split; intros H.
  - apply RtoC_inj in H. unfold Rdiv in H. apply Rmult_integral in H. destruct H as [H|H]; [lra|].
    exfalso. revert H. apply Rinv_neq_0_compat. lra.
  - rewrite H. f_equal. field. lra.
  - apply RtoC_inj in H. unfold Rdiv in H. apply Rmult_integral in H. destruct H as [H|H]; [lra|].
    exfalso. revert H. apply Rinv_neq_0_compat. lra.
  - rewrite H. f_equal. field. lra.
Qed.
Print Assumptions C92_antireflection.

(** C93: the same stack lit from the back, at the angle that belongs to the same wave number along
    the interfaces.  The transmitted amplitudes are in the ratio of the normal wave numbers of the
    half spaces, for any complex permittivities. *)
Theorem C93_amplitudes : forall theta_i theta_b lbda (eps_f eps_b : C) ls front layers back r t r' t',
  Csqrt eps_f * RtoC (sin (theta_i * PI / 180)) = Csqrt eps_b * RtoC (sin (theta_b * PI / 180)) ->
  solver2_media theta_i lbda eps_f ls eps_b = Some (front, layers, back) ->
  let there := solver2 theta_i lbda eps_f ls eps_b in
  let back_again := solver2 theta_b lbda eps_b (rev ls) eps_f in
  (rt_s there = Some (r, t) /\ rt_s back_again = Some (r', t') \/
   rt_p there = Some (r, t) /\ rt_p back_again = Some (r', t')) ->
  fst front * Ccos (snd front) * t' = fst back * Ccos (snd back) * t.
Proof.
  intros th tb lb ef eb ls f l k r t r' t' K M there again H. apply media_inv in M. cbv zeta in M.
  destruct M as (_ & _ & _ & _ & Ef & Ek & _).
  assert (G : exists b, rt b there = Some (r, t) /\ rt b again = Some (r', t')) by (destruct H as [H|H]; [exists true|exists false]; exact H).
  destruct G as (b & G1 & G2). apply rt_some in G1, G2. destruct G1 as [_ G1], G2 as [_ G2].
  change (kx_of th ef = kx_of tb eb) in K. rewrite <- K, map_rev in G2. subst f k.
  exact (rev_amp b _ _ _ _ _ _ _ G1 G2).
Qed.
Print Assumptions C93_amplitudes.

(** C93: between transparent media the transmittance is the same from both sides, whatever the
    layers absorb; there is a result from both sides or from none. *)
Lemma real_kz (x th : R) : (0 < x)%R -> cos (deg2rad th) <> 0%R ->
  (0 < sqrt x * Rabs (cos (deg2rad th)))%R.
Proof. intros P Q. apply Rmult_lt_0_compat; [now apply sqrt_lt_R0|now apply Rabs_pos_lt]. Qed.
Lemma pc_real th tb lb (x y : R) ls : (0 < x)%R -> (0 < y)%R -> input_ok lb (RtoC x) ls (RtoC y) ->
  cos (deg2rad th) <> 0%R -> cos (deg2rad tb) <> 0%R -> kx_of th (RtoC x) = kx_of tb (RtoC y) ->
  power_correction (solver2 th lb (RtoC x) ls (RtoC y)) =
  Some (sqrt y * Rabs (cos (deg2rad tb)) / (sqrt x * Rabs (cos (deg2rad th))))%R.
Proof.
  intros P Py I Q Q' K. rewrite solver2_eq by exact I. cbn [power_correction].
  destruct (kz_front th x P Q) as (-> & _ & _). rewrite K. destruct (kz_front tb y Py Q') as (-> & _ & _).
  unfold Re. cbn [fst RtoC]. assert (Z := real_kz x th P Q). unfold rdiv. destruct (Req_EM_T _ 0); [lra|reflexivity].
Qed.
Lemma ok_rev lb ef ls eb : input_ok lb ef ls eb -> input_ok lb eb (rev ls) ef.
Proof. intros (L & A & B & F). repeat split; auto. now apply Forall_rev. Qed.
Theorem C93_transmittance : forall theta_i theta_b lbda (x y : R) (ls : list (R * C)) r t,
  (0 < x)%R -> (0 < y)%R -> cos (theta_i * PI / 180) <> 0%R -> cos (theta_b * PI / 180) <> 0%R ->
  (sqrt x * sin (theta_i * PI / 180) = sqrt y * sin (theta_b * PI / 180))%R ->
  let there := solver2 theta_i lbda (RtoC x) ls (RtoC y) in
  let back_again := solver2 theta_b lbda (RtoC y) (rev ls) (RtoC x) in
  let same a b := a = Some (r, t) -> exists r' t' pc pc', b = Some (r', t') /\
    power_correction there = Some pc /\ power_correction back_again = Some pc' /\
    (pc * (Cmod t * Cmod t) = pc' * (Cmod t' * Cmod t'))%R in
  same (rt_s there) (rt_s back_again) /\ same (rt_p there) (rt_p back_again).
Proof.
  intros th tb lb x y ls r t P Py Q Q' S there again same.
  assert (K : kx_of th (RtoC x) = kx_of tb (RtoC y)) by (rewrite !kx_real by lra; f_equal; exact S).
  assert (G : forall b, same (rt b there) (rt b again)).
  { intros b H. unfold there in H. apply rt_some in H. destruct H as [I A]. assert (I' := ok_rev _ _ _ _ I).
    set (cf := (sqrt x * Rabs (cos (deg2rad th)))%R). set (cb := (sqrt y * Rabs (cos (deg2rad tb)))%R).
    assert (Zf : (0 < cf)%R) by (apply real_kz; assumption). assert (Zb : (0 < cb)%R) by (apply real_kz; assumption).
    destruct (kz_front th x P Q) as (Ef & _ & _). destruct (kz_front tb y Py Q') as (Eb & _ & _). fold cf in Ef. fold cb in Eb.
    assert (NZ : fst (pc b (half_of (kx_of th (RtoC x)) (RtoC y))) <> 0 /\ snd (pc b (half_of (kx_of th (RtoC x)) (RtoC y))) <> 0).
    { assert (Z := pc_prod b (half_of (kx_of th (RtoC x)) (RtoC y))). fold (kz_half (kx_of th (RtoC x)) (RtoC y)) in Z. rewrite K in *. rewrite Eb in Z.
      split; intros E; rewrite E in Z; assert (Z' : RtoC cb = 0) by (rewrite <- Z; ring); apply RtoC_inj in Z'; lra. }
    destruct NZ as [N1 N2]. destruct (rev_some b _ _ _ _ _ N1 N2 A) as (r' & t' & A').
    assert (E := rev_amp b _ _ _ _ _ _ _ A A').
    fold (kz_half (kx_of th (RtoC x)) (RtoC x)) in E. fold (kz_half (kx_of th (RtoC x)) (RtoC y)) in E.
    rewrite Ef in E. rewrite K, Eb in E.
    exists r', t', (cb / cf)%R, (cf / cb)%R. split.
    - unfold again. rewrite rt_eq by exact I'. rewrite <- K, map_rev. exact A'.
    - split; [apply (pc_real th tb lb x y ls); assumption|]. split; [apply (pc_real tb th lb y x (rev ls)); auto|].
      assert (T : t' = RtoC (cb / cf) * t).
      { rewrite RtoC_div by lra. apply (Cmult_cancel (RtoC cf)); [apply C_of_R_neq; lra|]. rewrite E. field. apply C_of_R_neq. lra. }
      rewrite T, Cmod_mult, Cmod_R, Rabs_pos_eq by (apply Rlt_le, Rdiv_lt_0_compat; assumption). field. lra. }
  split; [exact (G true)|exact (G false)].
Qed.
Print Assumptions C93_transmittance.

(** C93: without absorption the reflectance is the same, too. *)
Theorem C93_reflectance : forall theta_i theta_b lbda (x y : R) (ls : list (R * R)) r t r' t',
  (0 < x)%R -> (0 < y)%R -> cos (theta_i * PI / 180) <> 0%R -> cos (theta_b * PI / 180) <> 0%R ->
  (sqrt x * sin (theta_i * PI / 180) = sqrt y * sin (theta_b * PI / 180))%R ->
  let layers := map (fun l => (fst l, RtoC (snd l))) ls in
  let there := solver2 theta_i lbda (RtoC x) layers (RtoC y) in
  let back_again := solver2 theta_b lbda (RtoC y) (rev layers) (RtoC x) in
  (rt_s there = Some (r, t) /\ rt_s back_again = Some (r', t') \/
   rt_p there = Some (r, t) /\ rt_p back_again = Some (r', t')) ->
  Cmod r = Cmod r'.
Proof.
  intros th tb lb x y ls r t r' t' P Py Q Q' S layers there again H.
  destruct (C93_transmittance th tb lb x y layers r t P Py Q Q' S) as [Gs Gp]. fold there again in Gs, Gp. cbv zeta in Gs, Gp.
  assert (G : exists pc pc', power_correction there = Some pc /\ power_correction again = Some pc' /\
    (pc * (Cmod t * Cmod t) = pc' * (Cmod t' * Cmod t'))%R).
  { destruct H as [[H1 H2]|[H1 H2]].
    - destruct (Gs H1) as (r0 & t0 & pc & pc' & E & E1 & E2 & E3). rewrite H2 in E. apply Some_eq in E. assert (Et := f_equal snd E). cbn [snd] in Et. subst t0. eauto.
    - destruct (Gp H1) as (r0 & t0 & pc & pc' & E & E1 & E2 & E3). rewrite H2 in E. apply Some_eq in E. assert (Et := f_equal snd E). cbn [snd] in Et. subst t0. eauto. }
  destruct G as (p & p' & E1 & E2 & E3).
  assert (A := C37_energy th lb x y ls r t p P Q E1).
  assert (B := C37_energy tb lb y x (rev ls) r' t' p' Py Q').
  rewrite map_rev in B. fold layers in A, B. change (solver2 th lb (RtoC x) layers (RtoC y)) with there in A.
  change (solver2 tb lb (RtoC y) (rev layers) (RtoC x)) with again in B. cbv zeta in B. specialize (B E2).
  assert (A' : (Cmod r * Cmod r + p * (Cmod t * Cmod t) = 1)%R) by (apply A; tauto).
  assert (B' : (Cmod r' * Cmod r' + p' * (Cmod t' * Cmod t') = 1)%R) by (apply B; tauto).
  assert (M := Cmod_ge_0 r). assert (M' := Cmod_ge_0 r'). apply Rsqr_inj; [exact M|exact M'|]. unfold Rsqr. lra.
Qed.
Print Assumptions C93_reflectance.

(** A half wave plate in vacuum reflects nothing and turns the sign of the transmitted wave; a
    quarter wave of permittivity 2 is antireflective between 1 and 4. *)
Example C92_example_plate :
  rt_s (solver2 0 1 (RtoC 1) [((1 / 4)%R, RtoC 4)] (RtoC 1)) = Some (RtoC 0, RtoC (-1)).
Proof.
  assert (Df := C37_defined 0 1 1 1 [((1 / 4)%R, 4%R)] ltac:(lra)). rewrite cos_zero in Df.
  change (1 * (sin (0 * PI / 180) * sin (0 * PI / 180)))%R with (tangential2 1 0) in Df. rewrite tangential_0 in Df.
  specialize (Df ltac:(lra) ltac:(lra) ltac:(lra)). cbn [map fst snd] in Df. destruct Df as ((r & t & E) & _ & _).
  { constructor; [cbn [fst snd]; lra|constructor]. }
  assert (Dw := C37_defined 0 1 1 1 [] ltac:(lra)). rewrite cos_zero in Dw.
  change (1 * (sin (0 * PI / 180) * sin (0 * PI / 180)))%R with (tangential2 1 0) in Dw. rewrite tangential_0 in Dw.
  specialize (Dw ltac:(lra) ltac:(lra) ltac:(lra) (Forall_nil _)). cbn [map] in Dw. destruct Dw as ((r' & t' & E') & _ & _).
  destruct (C36_same_media 0 1 (RtoC 1) r' t' (or_introl E')) as [-> ->].
  assert (A := C92_absentee 0 1 1 4 1 [] [] (RtoC 1) r t 0 1 ltac:(lra)). rewrite tangential_0 in A.
  replace (1 * half_wave 1 4 0)%R with (1 / 4)%R in A.
  - cbn [app] in A. destruct (A ltac:(lra) (or_introl (conj E E'))) as [-> ->]. rewrite E. f_equal. f_equal.
    unfold sign_of. simpl. ring.
  - unfold half_wave. replace (4 - 0)%R with (2 * 2)%R by ring. rewrite sqrt_square by lra. field.
Qed.
Example C92_example_coating : exists t,
  rt_s (solver2 0 1 (RtoC 1) [((1 / (4 * sqrt 2))%R, RtoC 2)] (RtoC 4)) = Some (RtoC 0, t).
Proof.
  destruct (C92_antireflection 1 1 2 4 0 ltac:(lra) ltac:(lra) ltac:(lra) ltac:(lra)) as (r & t & _ & _ & E & _ & B & _).
  replace ((2 * INR 0 + 1) * 1 / (4 * sqrt 2))%R with (1 / (4 * sqrt 2))%R in E.
  - exists t. rewrite E. f_equal. f_equal. apply B. ring.
  - simpl. f_equal. ring.
Qed.

(** From air into permittivity 3 at 60 degrees, and back at 30 degrees. *)
Example C93_example : exists r t r' t' pc pc',
  let there := solver2 60 500 (RtoC 1) [(10%R, RtoC 2); (20%R, RtoC 5)] (RtoC 3) in
  let back_again := solver2 30 500 (RtoC 3) [(20%R, RtoC 5); (10%R, RtoC 2)] (RtoC 1) in
  rt_p there = Some (r, t) /\ rt_p back_again = Some (r', t') /\
  power_correction there = Some pc /\ power_correction back_again = Some pc' /\
  (pc * (Cmod t * Cmod t) = pc' * (Cmod t' * Cmod t'))%R /\ Cmod r = Cmod r'.
Proof.
  assert (A60 : (60 * PI / 180 = PI / 3)%R) by field. assert (A30 : (30 * PI / 180 = PI / 6)%R) by field.
  assert (s3 := sqrt_lt_R0 3 ltac:(lra)). assert (s3' := sqrt_sqrt 3 ltac:(lra)).
  assert (C60 : cos (60 * PI / 180) <> 0%R) by (rewrite A60, cos_PI3; lra).
  assert (C30 : cos (30 * PI / 180) <> 0%R) by (rewrite A30, cos_PI6; lra).
  assert (K : (sqrt 1 * sin (60 * PI / 180) = sqrt 3 * sin (30 * PI / 180))%R) by (rewrite A60, A30, sin_PI3, sin_PI6, sqrt_1; field).
  assert (Df := C37_defined 60 500 1 3 [(10%R, 2%R); (20%R, 5%R)] ltac:(lra) C60 ltac:(lra)). cbv zeta in Df.
  assert (Sq : (1 * (sin (60 * PI / 180) * sin (60 * PI / 180)) = 3 / 4)%R) by (rewrite A60, sin_PI3; lra).
  rewrite Sq in Df. cbn [map fst snd] in Df. destruct Df as (_ & D & _); [lra| |].
  { constructor; [cbn [fst snd]; lra|]. constructor; [cbn [fst snd]; lra|constructor]. }
  destruct D as (r & t & E). { constructor; [cbn [snd]; lra|]. constructor; [cbn [snd]; lra|constructor]. }
  destruct (C93_transmittance 60 30 500 1 3 [(10%R, RtoC 2); (20%R, RtoC 5)] r t ltac:(lra) ltac:(lra) C60 C30 K) as [_ G].
  destruct (G E) as (r' & t' & p & p' & E' & P1 & P2 & P3). exists r, t, r', t', p, p'. cbv zeta. cbn [rev app] in *.
  split; [exact E|]. split; [exact E'|]. split; [exact P1|]. split; [exact P2|]. split; [exact P3|].
  apply (C93_reflectance 60 30 500 1 3 [(10%R, 2%R); (20%R, 5%R)] r t r' t' ltac:(lra) ltac:(lra) C60 C30 K).
  right. cbn [map fst snd rev app]. split; [exact E|exact E'].
Qed.
