(** C122: frustrated total reflection, light tunnelling through a thin gap. *)
From Coq Require Import Reals Lra Psatz Lia.
From Coquelicot Require Import Complex.
From Coq Require Import List.
From Verif.Base Require Import Py Cx Mat.
From Verif.Model Require Import Units Ellips Structure Solver2.
From Verif.Spec Require Import Stack Etalon.
From Verif.Proof Require Import StackP FluxP UnitsP DispersionsP StructureP Solver2P Solver2P2 Solver2P3 Solver2P4 SplitP SplitP2.
From Verif.Props Require Import EnergyT.
Import ListNotations.
Open Scope R_scope.
Open Scope C_scope.
Open Scope py_scope.

Lemma Cexp_real (x : R) : Cexp (RtoC x) = RtoC (exp x).
Proof. unfold Cexp. apply C_ext; simpl; rewrite ?cos_0, ?sin_0; ring. Qed.

(** The waves in the gap *)
Lemma gap_waves (p0 q0 p1 q1 delta : R) (r t : C) : (0 < p0)%R -> (0 < q0)%R -> (0 < p1)%R -> (0 < q1)%R ->
  scattering (RtoC p0) (RtoC q0) [(RtoC p1, Ci * RtoC q1, Ci * RtoC delta)] (RtoC p0) (RtoC q0) 1 r t ->
  let g := (q1 * p0 / (p1 * q0))%R in
  t * (RtoC (2 * cosh delta) + Ci * RtoC (sinh delta * (g - / g))) = 2 /\ 2 * r = - (t * (Ci * RtoC (sinh delta * (g + / g)))).
Proof.
  intros P0 Q0 P1 Q1 S g. unfold scattering in S. cbn [matched] in S. destruct S as (A & B & U & V & U' & V').
  assert (N : forall y : R, (0 < y)%R -> RtoC y <> 0) by (intros y Hy; apply C_of_R_neq; lra).
  assert (I2 : Ci * Ci = -1) by (apply C_ext; simpl; ring).
  replace (Ci * (Ci * RtoC delta)) with (RtoC (- delta)) in U', V' by (rewrite Cmult_assoc, I2, RtoC_opp; ring).
  replace (- RtoC (- delta)) with (RtoC delta) in U', V' by (rewrite RtoC_opp; ring).
  rewrite !Cexp_real in U', V'.
  assert (EE : (exp delta * exp (- delta) = 1)%R) by (rewrite <- exp_plus, Rplus_opp_r; apply exp_0).
  unfold sinh, cosh. set (E := exp delta) in *. set (F := exp (- delta)) in *. clearbody E F.
  assert (G0 : g <> 0%R) by (unfold g; apply Rgt_not_eq; apply Rdiv_lt_0_compat; now apply Rmult_lt_0_compat).
  assert (Ci0 : Ci <> 0) by (intros K; apply (f_equal snd) in K; simpl in K; lra).
  (* A and B from the transmitted wave *)
  assert (EA : 2 * A = RtoC E * (t * (RtoC (p0 / p1) - Ci * RtoC (q0 / q1)))).
  { assert (X1 : A * RtoC F + B * RtoC E = RtoC (p0 / p1) * t).
    { rewrite RtoC_div by lra. apply (Cmult_cancel (RtoC p1)); [now apply N|]. transitivity (RtoC p1 * (A * RtoC F + B * RtoC E)); [ring|]. rewrite U'. field. now apply N. }
    assert (X2 : A * RtoC F - B * RtoC E = - Ci * RtoC (q0 / q1) * t).
    { rewrite RtoC_div by lra. apply (Cmult_cancel (Ci * RtoC q1)); [apply Cmult_neq_0; [exact Ci0|now apply N]|].
      transitivity (Ci * RtoC q1 * (A * RtoC F - B * RtoC E)); [ring|]. rewrite V'.
      transitivity (- (Ci * Ci) * (RtoC q0 * t)); [|field; now apply N]. rewrite I2. ring. }
    transitivity (RtoC (E * F) * (2 * A)); [rewrite EE; ring|]. rewrite RtoC_mult.
    transitivity (RtoC E * ((A * RtoC F + B * RtoC E) + (A * RtoC F - B * RtoC E))); [ring|]. rewrite X1, X2. ring. }
  assert (EB : 2 * B = RtoC F * (t * (RtoC (p0 / p1) + Ci * RtoC (q0 / q1)))).
  { assert (X1 : A * RtoC F + B * RtoC E = RtoC (p0 / p1) * t).
    { rewrite RtoC_div by lra. apply (Cmult_cancel (RtoC p1)); [now apply N|]. transitivity (RtoC p1 * (A * RtoC F + B * RtoC E)); [ring|]. rewrite U'. field. now apply N. }
    assert (X2 : A * RtoC F - B * RtoC E = - Ci * RtoC (q0 / q1) * t).
    { rewrite RtoC_div by lra. apply (Cmult_cancel (Ci * RtoC q1)); [apply Cmult_neq_0; [exact Ci0|now apply N]|].
      transitivity (Ci * RtoC q1 * (A * RtoC F - B * RtoC E)); [ring|]. rewrite V'.
      transitivity (- (Ci * Ci) * (RtoC q0 * t)); [|field; now apply N]. rewrite I2. ring. }
    transitivity (RtoC (E * F) * (2 * B)); [rewrite EE; ring|]. rewrite RtoC_mult.
    transitivity (RtoC F * ((A * RtoC F + B * RtoC E) - (A * RtoC F - B * RtoC E))); [ring|]. rewrite X1, X2. ring. }
  assert (W1 : 1 + r = RtoC (p1 / p0) * (A + B)).
  { rewrite RtoC_div by lra. apply (Cmult_cancel (RtoC p0)); [now apply N|]. transitivity (RtoC p0 * (1 + r)); [ring|]. rewrite U. field. now apply N. }
  assert (W2 : 1 - r = Ci * RtoC (q1 / q0) * (A - B)).
  { rewrite RtoC_div by lra. apply (Cmult_cancel (RtoC q0)); [now apply N|]. transitivity (RtoC q0 * (1 - r)); [ring|]. rewrite V. field. now apply N. }
  assert (Y1 : 2 * (1 + r) = t * (RtoC (E + F) - Ci * RtoC ((E - F) / g))).
  { rewrite W1. transitivity (RtoC (p1 / p0) * (2 * A + 2 * B)); [ring|]. rewrite EA, EB.
    transitivity (t * (RtoC (p1 / p0 * (p0 / p1) * (E + F)) - Ci * RtoC (p1 / p0 * (q0 / q1) * (E - F)))); [rewrite !RtoC_mult, !RtoC_minus, !RtoC_plus; ring|].
    replace (p1 / p0 * (p0 / p1) * (E + F))%R with (E + F)%R by (field; lra). replace (p1 / p0 * (q0 / q1) * (E - F))%R with ((E - F) / g)%R by (unfold g; field; repeat split; lra). reflexivity. }
  assert (Y2 : 2 * (1 - r) = t * (RtoC (E + F) + Ci * RtoC ((E - F) * g))).
  { rewrite W2. transitivity (Ci * RtoC (q1 / q0) * (2 * A - 2 * B)); [ring|]. rewrite EA, EB.
    transitivity (t * (- (Ci * Ci) * RtoC (q1 / q0 * (q0 / q1) * (E + F)) + Ci * RtoC (q1 / q0 * (p0 / p1) * (E - F)))); [rewrite !RtoC_mult, !RtoC_minus, !RtoC_plus; ring|].
    rewrite I2. replace (q1 / q0 * (q0 / q1) * (E + F))%R with (E + F)%R by (field; lra). replace (q1 / q0 * (p0 / p1) * (E - F))%R with ((E - F) * g)%R by (unfold g; field; lra). ring. }
  split.
  - transitivity ((t * (RtoC (E + F) - Ci * RtoC ((E - F) / g)) + t * (RtoC (E + F) + Ci * RtoC ((E - F) * g))) / 2).
    + replace (2 * ((E + F) / 2))%R with (E + F)%R by field. replace ((E - F) / 2 * (g - / g))%R with (((E - F) * g - (E - F) / g) / 2)%R by (field; exact G0).
      set (X := ((E - F) * g)%R). set (Y := ((E - F) / g)%R). rewrite RtoC_div, RtoC_minus by lra. field. apply N; lra.
    + rewrite <- Y1, <- Y2. field. apply N; lra.
  - transitivity ((t * (RtoC (E + F) - Ci * RtoC ((E - F) / g)) - t * (RtoC (E + F) + Ci * RtoC ((E - F) * g))) / 2).
    + rewrite <- Y1, <- Y2. field. apply N; lra.
    + replace ((E - F) / 2 * (g + / g))%R with (((E - F) * g + (E - F) / g) / 2)%R by (field; exact G0).
      set (X := ((E - F) * g)%R). set (Y := ((E - F) / g)%R). set (Z := (E + F)%R). rewrite RtoC_div, RtoC_plus by lra. field. apply N; lra.
Qed.

Lemma gap_power (g delta : R) (r t : C) : (0 < g)%R ->
  t * (RtoC (2 * cosh delta) + Ci * RtoC (sinh delta * (g - / g))) = 2 -> 2 * r = - (t * (Ci * RtoC (sinh delta * (g + / g)))) ->
  let F := ((g + / g) * (g + / g) / 4)%R in
  (Cmod t * Cmod t = 1 / (1 + F * (sinh delta * sinh delta)))%R /\ (Cmod r * Cmod r = 1 - Cmod t * Cmod t)%R.
Proof.
  intros G ET ER F. assert (CS : (cosh delta * cosh delta = 1 + sinh delta * sinh delta)%R).
  { unfold cosh, sinh. assert (EE : (exp delta * exp (- delta) = 1)%R) by (rewrite <- exp_plus, Rplus_opp_r; apply exp_0). nra. }
  set (c := cosh delta) in *. set (s := sinh delta) in *. assert (GG : (g * / g = 1)%R) by (apply Rinv_r; lra). assert (IG := Rinv_0_lt_compat g G).
  set (k := (/ g)%R) in *. clearbody k.
  assert (M1 : (Cmod t * Cmod t * (4 * (1 + F * (s * s))) = 4)%R).
  { apply (f_equal Cnorm2) in ET. rewrite !Cnorm2_mult in ET. rewrite <- norm_mod.
    replace (Cnorm2 (RtoC (2 * c) + Ci * RtoC (s * (g - k)))) with (4 * (c * c) + s * s * ((g - k) * (g - k)))%R in ET by (unfold Cnorm2, Re, Im; simpl; ring).
    replace (Cnorm2 2) with 4%R in ET by (unfold Cnorm2, Re, Im; simpl; ring). eapply eq_trans; [|exact ET]. f_equal. rewrite CS. unfold F.
    transitivity (4 + s * s * ((g - k) * (g - k) + 4 * (g * k)))%R; [field|]. rewrite GG. ring. }
  assert (F0 : (0 <= F * (s * s))%R) by (unfold F; apply Rmult_le_pos; [apply Rmult_le_pos; [|lra]; apply Rmult_le_pos; lra|nra]).
  assert (M2 : (Cmod r * Cmod r = Cmod t * Cmod t * (F * (s * s)))%R).
  { apply (f_equal Cnorm2) in ER. rewrite <- !norm_mod. unfold F.
    replace (Cnorm2 (2 * r)) with (4 * Cnorm2 r)%R in ER by (unfold Cnorm2, Re, Im; simpl; ring).
    replace (Cnorm2 (- (t * (Ci * RtoC (s * (g + k)))))) with (Cnorm2 t * (s * s * ((g + k) * (g + k))))%R in ER by (unfold Cnorm2, Re, Im; simpl; ring). lra. }
  split.
  - apply (Rmult_eq_reg_r (1 + F * (s * s))); [|lra]. unfold Rdiv. rewrite Rmult_1_l, Rinv_l by lra. lra.
  - rewrite M2. lra.
Qed.

(** The gap in the solver *)
Lemma gap_layer (x e : R) th : (0 < x)%R -> (0 < e)%R -> (e < x * (sin (deg2rad th) * sin (deg2rad th)))%R ->
  kz_layer (kx_of th (RtoC x)) (RtoC e) = Ci * RtoC (sqrt (x * (sin (deg2rad th) * sin (deg2rad th)) - e)).
Proof.
  intros P Pe H. set (s := sin (deg2rad th)) in *. set (kap := sqrt (x * (s * s) - e)).
  assert (K2 : (kap * kap = x * (s * s) - e)%R) by (apply sqrt_sqrt; lra). assert (K0 : (0 < kap)%R) by (apply sqrt_lt_R0; lra).
  rewrite kx_real by lra. fold s. assert (N : RtoC e <> 0) by (apply C_of_R_neq; lra).
  assert (Q := kz_layer_quad (RtoC e) (sqrt x * s) N ltac:(simpl; lra)). assert (S := kz_layer_sqr (RtoC (sqrt x * s)) (RtoC e) N).
  set (z := kz_layer _ _) in *. destruct Q as [Q1 Q2].
  assert (X : (sqrt x * s * (sqrt x * s) = x * (s * s))%R) by (transitivity (sqrt x * sqrt x * (s * s))%R; [ring|]; rewrite sqrt_sqrt by lra; ring).
  rewrite <- RtoC_mult, X, <- RtoC_minus in S. replace (e - x * (s * s))%R with (- (kap * kap))%R in S by lra. clearbody z kap. clear X.
  destruct z as [a b]. unfold Re, Im in *. cbn [fst snd] in *.
  assert (S1 := f_equal fst S). assert (S2 := f_equal snd S). simpl in S1, S2.
  assert (A0 : a = 0%R).
  { destruct (Req_dec a 0) as [A|A]; [exact A|]. exfalso. assert (b = 0%R) by nra. subst b. nra. }
  subst a. apply C_ext; simpl; [ring|]. assert ((b - kap) * (b + kap) = 0)%R by nra. assert (b + kap <> 0)%R by lra. nra.
Qed.

(** C122: a gap of index lower than x sin^2, between two half spaces of permittivity x, transmits
    1 / (1 + F sinh^2) and reflects the rest.  kappa is the decay constant of the wave in the gap. *)
Theorem C122_gap : forall theta lbda (x e d : R),
  (0 < x)%R -> (0 < e)%R -> (0 < lbda)%R -> (0 <= d)%R -> cos (theta * PI / 180) <> 0%R ->
  (e < x * (sin (theta * PI / 180) * sin (theta * PI / 180)))%R ->
  let kappa := sqrt (x * (sin (theta * PI / 180) * sin (theta * PI / 180)) - e) in
  let gap := solver2 theta lbda (RtoC x) [(d, RtoC e)] (RtoC x) in
  let sh := sinh (2 * PI / lbda * kappa * d) in
  let F g := ((g + / g) * (g + / g) / 4)%R in
  power_correction gap = Some 1%R /\
  (exists r t, rt_s gap = Some (r, t) /\ let g := (kappa / (sqrt x * Rabs (cos (theta * PI / 180))))%R in
    (Cmod t * Cmod t = 1 / (1 + F g * (sh * sh)))%R /\ (Cmod r * Cmod r = 1 - Cmod t * Cmod t)%R) /\
  (exists r t, rt_p gap = Some (r, t) /\ let g := (kappa / e * (sqrt x / Rabs (cos (theta * PI / 180))))%R in
    (Cmod t * Cmod t = 1 / (1 + F g * (sh * sh)))%R /\ (Cmod r * Cmod r = 1 - Cmod t * Cmod t)%R).
Proof.
  intros th lb x e d Px Pe L Hd Hc Hs kappa gap sh F.
  assert (GL := gap_layer x e th Px Pe Hs). change (deg2rad th) with (th * PI / 180)%R in GL. fold kappa in GL.
  assert (K0 : (0 < kappa)%R) by (apply sqrt_lt_R0; lra).
  set (s := sin (th * PI / 180)) in *. set (c := cos (th * PI / 180)) in *.
  assert (SC : (s * s + c * c = 1)%R) by (assert (K := sin2_cos2 (th * PI / 180)); unfold Rsqr in K; exact K).
  assert (Cp : (0 < c * c)%R) by (destruct (Rlt_dec 0 c); nra). assert (Lx : (x * (s * s) < x)%R) by nra.
  destruct (C37_defined th lb x x [(d, e)]) as (W1 & W2 & W3); [exact Px|exact Hc|exact L|exact Lx| |].
  { constructor; [|constructor]. cbn [fst snd]. fold s. repeat split; lra. }
  cbn [map fst snd] in W1, W2, W3. fold gap in W1, W2, W3. specialize (W2 (Forall_cons (d, e) Pe (Forall_nil _))).
  assert (sx : (0 < sqrt x)%R) by (apply sqrt_lt_R0; exact Px). assert (se : (0 < sqrt e)%R) by (apply sqrt_lt_R0; exact Pe).
  assert (ac : (0 < Rabs c)%R) by (now apply Rabs_pos_lt).
  split.
  { rewrite W3. f_equal. fold s c. replace (x - x * (s * s))%R with (x * (c * c))%R by nra. rewrite sqrt_mult by lra.
    replace (sqrt (c * c)) with (Rabs c) by (rewrite <- sqrt_Rsqr_abs; reflexivity). field. lra. }
  destruct (kz_front th x Px Hc) as (_ & Hx & Cx). change (cos (deg2rad th)) with c in Cx.
  assert (LG : layer_of (k0 lb) (kx_of th (RtoC x)) (d, RtoC e) =
    (RtoC (sqrt e), Casin (kx_of th (RtoC x) / RtoC (sqrt e)), Ci * RtoC (2 * PI / lb * kappa * d))).
  { unfold layer_of. cbn [fst snd]. f_equal; [now rewrite Csqrt_pos by lra|]. 
    transitivity (k0 lb * kz_layer (kx_of th (RtoC x)) (RtoC e) * RtoC d); [unfold kz_layer; ring|]. rewrite GL. unfold k0.
    rewrite !RtoC_mult, RtoC_div, RtoC_mult by lra. field. apply C_of_R_neq; lra. }
  assert (CG : Ccos (Casin (kx_of th (RtoC x) / RtoC (sqrt e))) = Ci * RtoC (kappa / sqrt e)).
  { unfold kz_layer in GL. rewrite Csqrt_pos in GL by lra. apply (Cmult_cancel (RtoC (sqrt e))); [apply C_of_R_neq; lra|].
    transitivity (Ci * RtoC kappa); [rewrite <- GL; ring|]. rewrite RtoC_div by lra. field. apply C_of_R_neq; lra. }
  split.
  - destruct W1 as (r & t & W). exists r, t. split; [exact W|]. change (rt_s gap) with (rt true gap) in W. apply rt_some in W. destruct W as [_ W].
    apply (amplitudes_scattering (pf true) (pc true) (pf_char true)) in W. cbv zeta in W. destruct W as [W _].
    cbn [map] in W. rewrite LG, Hx in W. unfold char_layer, pc, char_s in W. cbn [fst snd] in W. rewrite Cx, CG, <- RtoC_mult in W.
    replace (RtoC (sqrt e) * (Ci * RtoC (kappa / sqrt e))) with (Ci * RtoC kappa) in W by (rewrite RtoC_div by lra; field; apply C_of_R_neq; lra).
    apply gap_waves in W; [|lra|now apply Rmult_lt_0_compat|lra|exact K0].
    replace (kappa * 1 / (1 * (sqrt x * Rabs c)))%R with (kappa / (sqrt x * Rabs c))%R in W by (field; lra).
    destruct W as [Y1 Y2]. apply (gap_power _ _ _ _) in Y2; [exact Y2| |exact Y1]. apply Rdiv_lt_0_compat; [exact K0|now apply Rmult_lt_0_compat].
  - destruct W2 as (r & t & W). exists r, t. split; [exact W|]. change (rt_p gap) with (rt false gap) in W. apply rt_some in W. destruct W as [_ W].
    apply (amplitudes_scattering (pf false) (pc false) (pf_char false)) in W. cbv zeta in W. destruct W as [W _].
    cbn [map] in W. rewrite LG, Hx in W. unfold char_layer, pc, char_p in W. cbn [fst snd] in W. rewrite Cx, CG in W.
    apply gap_waves in W; [|lra|exact ac|exact se|now apply Rdiv_lt_0_compat].
    replace (kappa / sqrt e * sqrt x / (sqrt e * Rabs c))%R with (kappa / e * (sqrt x / Rabs c))%R in W.
    2:{ rewrite <- (sqrt_sqrt e) at 1 by lra. field. lra. }
    destruct W as [Y1 Y2]. apply (gap_power _ _ _ _) in Y2; [exact Y2| |exact Y1].
    apply Rmult_lt_0_compat; apply Rdiv_lt_0_compat; assumption.
Qed.
Print Assumptions C122_gap.

Lemma F_ge1 (g : R) : (0 < g)%R -> (1 <= (g + / g) * (g + / g) / 4)%R.
Proof. intros G. assert (GG : (g * / g = 1)%R) by (apply Rinv_r; lra). set (k := (/ g)%R) in *. clearbody k. assert (0 <= (g - k) * (g - k))%R by (apply Rle_0_sqr). replace ((g + k) * (g + k) / 4)%R with ((g - k) * (g - k) / 4 + g * k)%R by field. rewrite GG. lra. Qed.
Lemma sinh_mono a b : (0 <= a < b)%R -> (sinh a * sinh a < sinh b * sinh b)%R.
Proof.
  intros H. assert (S0 : (0 <= sinh a)%R) by (destruct (Req_dec a 0) as [->|]; [rewrite sinh_0; lra|rewrite <- sinh_0; left; apply sinh_lt; lra]).
  assert (sinh a < sinh b)%R by (apply sinh_lt; lra). nra.
Qed.
Lemma sinh_big a : (0 <= a)%R -> (exp (2 * a) / 4 <= 1 + sinh a * sinh a)%R.
Proof.
  intros H. unfold sinh. assert (EE : (exp a * exp (- a) = 1)%R) by (rewrite <- exp_plus, Rplus_opp_r; apply exp_0).
  replace (2 * a)%R with (a + a)%R by ring. rewrite exp_plus. assert (A := exp_pos (- a)). nra.
Qed.

(** C122: without a gap everything passes; a wider gap transmits less, but never nothing; wide gaps
    let the light decay exponentially. *)
Theorem C122_width : forall theta lbda (x e d d' : R),
  (0 < x)%R -> (0 < e)%R -> (0 < lbda)%R -> (0 <= d < d')%R -> cos (theta * PI / 180) <> 0%R ->
  (e < x * (sin (theta * PI / 180) * sin (theta * PI / 180)))%R ->
  let kappa := sqrt (x * (sin (theta * PI / 180) * sin (theta * PI / 180)) - e) in
  let gap d := solver2 theta lbda (RtoC x) [(d, RtoC e)] (RtoC x) in
  forall pol, pol = rt_s \/ pol = rt_p ->
  exists r t r' t', pol (gap d) = Some (r, t) /\ pol (gap d') = Some (r', t') /\
  (0 < Cmod t' < Cmod t)%R /\ (Cmod t <= 1)%R /\ (Cmod r < Cmod r' < 1)%R /\ (d = 0%R -> Cmod t = 1%R /\ r = 0) /\
  (Cmod t' * Cmod t' <= 4 * exp (- (4 * PI / lbda * kappa * d')))%R.
Proof.
  intros th lb x e d d' Px Pe L [Hd Hdd] Hc Hs kappa gap pol Hp.
  assert (K0 : (0 < kappa)%R) by (apply sqrt_lt_R0; lra). set (c := cos (th * PI / 180)) in *.
  assert (sx : (0 < sqrt x)%R) by (apply sqrt_lt_R0; exact Px). assert (ac : (0 < Rabs c)%R) by (now apply Rabs_pos_lt).
  assert (G : exists g, (0 < g)%R /\ forall y, (0 <= y)%R -> exists r t, pol (gap y) = Some (r, t) /\
    (Cmod t * Cmod t = 1 / (1 + (g + / g) * (g + / g) / 4 * (sinh (2 * PI / lb * kappa * y) * sinh (2 * PI / lb * kappa * y))))%R /\ (Cmod r * Cmod r = 1 - Cmod t * Cmod t)%R).
  { destruct Hp as [-> | ->].
    - exists (kappa / (sqrt x * Rabs c))%R. split; [apply Rdiv_lt_0_compat; [exact K0|now apply Rmult_lt_0_compat]|].
      intros y Hy. destruct (C122_gap th lb x e y Px Pe L Hy Hc Hs) as (_ & H & _). exact H.
    - exists (kappa / e * (sqrt x / Rabs c))%R. split; [apply Rmult_lt_0_compat; apply Rdiv_lt_0_compat; assumption|].
      intros y Hy. destruct (C122_gap th lb x e y Px Pe L Hy Hc Hs) as (_ & _ & H). exact H. }
  destruct G as (g & G0 & G). destruct (G d Hd) as (r & t & E & T & R'). destruct (G d' ltac:(lra)) as (r' & t' & E' & T' & R'').
  exists r, t, r', t'. split; [exact E|]. split; [exact E'|]. clear G E E'.
  assert (F1 := F_ge1 g G0). set (F := ((g + / g) * (g + / g) / 4)%R) in *. clearbody F.
  assert (k2 : (0 < 2 * PI / lb * kappa)%R) by (apply Rmult_lt_0_compat; [apply Rdiv_lt_0_compat; [assert (Z := PI_RGT_0); lra|exact L]|exact K0]).
  assert (S1 : (sinh (2 * PI / lb * kappa * d) * sinh (2 * PI / lb * kappa * d) < sinh (2 * PI / lb * kappa * d') * sinh (2 * PI / lb * kappa * d'))%R).
  { apply sinh_mono. split; [apply Rmult_le_pos; lra|]. now apply Rmult_lt_compat_l. }
  assert (S2 := sinh_big (2 * PI / lb * kappa * d') ltac:(apply Rmult_le_pos; lra)).
  assert (S0 : d = 0%R -> (sinh (2 * PI / lb * kappa * d) * sinh (2 * PI / lb * kappa * d) = 0)%R) by (intros ->; rewrite Rmult_0_r, sinh_0; ring).
  assert (S3 : (0 <= sinh (2 * PI / lb * kappa * d) * sinh (2 * PI / lb * kappa * d))%R) by nra.
  replace (- (4 * PI / lb * kappa * d'))%R with (- (2 * (2 * PI / lb * kappa * d')))%R by (field; lra). rewrite exp_Ropp.
  assert (X := exp_pos (2 * (2 * PI / lb * kappa * d'))). set (ex := exp _) in *.
  set (a := (sinh (2 * PI / lb * kappa * d) * _)%R) in *. set (a' := (sinh (2 * PI / lb * kappa * d') * _)%R) in *. clearbody a a' ex.
  assert (B0 : (0 <= F * a)%R) by (apply Rmult_le_pos; lra). assert (B1 : (F * a < F * a')%R) by (apply Rmult_lt_compat_l; lra). assert (B2 : (a' <= F * a')%R) by nra.
  set (u := (F * a)%R) in *. set (u' := (F * a')%R) in *.
  assert (TT : (1 / (1 + u') < 1 / (1 + u))%R) by (unfold Rdiv; rewrite !Rmult_1_l; apply Rinv_lt_contravar; [apply Rmult_lt_0_compat; lra|lra]).
  assert (T1 : (1 / (1 + u) <= 1)%R) by (apply (Rmult_le_reg_r (1 + u)); [lra|]; unfold Rdiv; rewrite Rmult_assoc, Rinv_l by lra; lra).
  assert (T0 : (0 < 1 / (1 + u'))%R) by (apply Rdiv_lt_0_compat; lra).
  assert (Z : (d = 0%R -> 1 / (1 + u) = 1)%R) by (intros D0; unfold u; rewrite (S0 D0); field).
  assert (X4 : (1 / (1 + u') <= 4 * / ex)%R).
  { apply (Rmult_le_reg_r (1 + u')); [lra|]. unfold Rdiv. rewrite Rmult_assoc, Rinv_l by lra. apply (Rmult_le_reg_r ex); [exact X|]. replace (4 * / ex * (1 + u') * ex)%R with (4 * (1 + u'))%R by (field; lra). lra. }
  assert (Ct := Cmod_ge_0 t). assert (Ct' := Cmod_ge_0 t'). assert (Cr := Cmod_ge_0 r). assert (Cr' := Cmod_ge_0 r').
  rewrite <- T in *. rewrite <- T' in *. set (y := Cmod t) in *. set (y' := Cmod t') in *.
  assert (Q : forall p q : R, (0 <= p)%R -> (0 <= q)%R -> (p * p < q * q)%R -> (p < q)%R).
  { intros p q P1 P2 P3. destruct (Rlt_dec p q) as [|N]; [assumption|]. exfalso. assert (q * q <= p * p)%R by (apply Rmult_le_compat; lra). lra. }
  assert (Y1 : (0 < y')%R) by (apply Q; lra). assert (Y2 : (y' < y)%R) by (apply Q; lra).
  assert (Y3 : (y <= 1)%R) by (destruct (Rle_dec y 1); [assumption|exfalso; assert (1 * 1 < y * y)%R by (apply Rmult_le_0_lt_compat; lra); lra]).
  split; [lra|]. split; [exact Y3|]. split; [split; apply Q; lra|]. split; [|exact X4].
  intros D0. specialize (Z D0). assert (O : y = 1%R) by (destruct (Rlt_dec y 1); [exfalso; assert (y * y < 1 * 1)%R by (apply Rmult_le_0_lt_compat; lra); lra|lra]).
  split; [exact O|]. apply Cmod_eq_0. rewrite O in R'. destruct (Req_dec (Cmod r) 0) as [|N]; [assumption|]. exfalso. assert (0 < Cmod r * Cmod r)%R by (apply Rmult_lt_0_compat; lra). lra.
Qed.
Print Assumptions C122_width.

(** Light in glass of permittivity 4 that meets an air gap of the width lambda / (2 pi) at 45
    degrees: kappa is 1, and the s polarised light passes with 1 / (1 + 9 / 8 sinh(1)^2). *)
Example C122_example : exists r t,
  rt_s (solver2 45 (2 * PI) (RtoC 4) [(1%R, RtoC 1)] (RtoC 4)) = Some (r, t) /\
  (Cmod t * Cmod t = 1 / (1 + 9 / 8 * (sinh 1 * sinh 1)))%R /\ (Cmod t < 1)%R /\ (0 < Cmod t)%R.
Proof.
  assert (P := PI_RGT_0). assert (A : (45 * PI / 180 = PI / 4)%R) by field.
  assert (S : (sin (PI / 4) * sin (PI / 4) = 1 / 2)%R).
  { rewrite sin_PI4. assert (Q := Rlt_sqrt2_0). assert (Q2 : (sqrt 2 * sqrt 2 = 2)%R) by (apply sqrt_sqrt; lra).
    transitivity (1 / (sqrt 2 * sqrt 2))%R; [field; lra|]. rewrite Q2. reflexivity. }
  assert (C0 : (0 < cos (PI / 4))%R) by (apply cos_gt_0; lra).
  assert (q4 : sqrt 4 = 2%R) by (replace 4%R with (2 * 2)%R by ring; apply sqrt_square; lra).
  assert (q1 : sqrt (4 * (1 / 2) - 1) = 1%R) by (replace (4 * (1 / 2) - 1)%R with 1%R by field; apply sqrt_1).
  destruct (C122_gap 45 (2 * PI) 4 1 1) as (_ & (r & t & E & T) & _); rewrite ?A, ?S; try lra.
  cbv zeta in T. destruct T as [T _]. rewrite A, S, q1, q4, Rabs_pos_eq in T by lra.
  replace (2 * PI / (2 * PI) * 1 * 1)%R with 1%R in T by (field; lra).
  assert (CC : (cos (PI / 4) * cos (PI / 4) = 1 / 2)%R) by (assert (K := sin2_cos2 (PI / 4)); unfold Rsqr in K; lra).
  set (c := cos (PI / 4)) in *.
  replace ((1 / (2 * c) + / (1 / (2 * c))) * (1 / (2 * c) + / (1 / (2 * c))) / 4)%R with (9 / 8)%R in T.
  2:{ transitivity ((1 / (4 * (c * c)) + 2 + 4 * (c * c)) / 4)%R; [rewrite CC; field|field; lra]. }
  destruct (C122_width 45 (2 * PI) 4 1 0 1) with (pol := rt_s) as (r0 & t0 & r' & t' & _ & E' & B & B1 & _); rewrite ?A, ?S; fold c; try lra; [left; reflexivity|].
  rewrite E in E'. injection E' as <- <-. exists r, t. split; [exact E|]. split; [exact T|]. lra.
Qed.

(** C122: at the critical angle itself the wave in the gap has no direction, and the solver gives no
    result for either polarisation. *)
Theorem C122_critical : forall theta lbda (x e d : R), (0 < x)%R -> (0 < e)%R ->
  e = (x * (sin (theta * PI / 180) * sin (theta * PI / 180)))%R ->
  let gap := solver2 theta lbda (RtoC x) [(d, RtoC e)] (RtoC x) in rt_s gap = None /\ rt_p gap = None.
Proof.
  intros th lb x e d Px Pe He gap.
  assert (N : RtoC e <> 0) by (apply C_of_R_neq; lra).
  assert (Z : kz_layer (kx_of th (RtoC x)) (RtoC e) = 0).
  { assert (S := kz_layer_sqr (kx_of th (RtoC x)) (RtoC e) N). rewrite kx_real in * by lra. rewrite <- RtoC_mult, <- RtoC_minus in S.
    replace (e - sqrt x * sin (deg2rad th) * (sqrt x * sin (deg2rad th)))%R with 0%R in S.
    - set (z := kz_layer _ _) in *. destruct (Ceq_dec z 0) as [|K]; [assumption|]. exfalso. revert S. now apply Cmult_neq_0.
    - unfold deg2rad. transitivity (e - sqrt x * sqrt x * (sin (th * PI / 180) * sin (th * PI / 180)))%R; [rewrite sqrt_sqrt by lra; lra|ring]. }
  assert (G : forall b, rt b gap = None).
  { intros b. destruct (rt b gap) as [[r t]|] eqn:E; [|reflexivity]. exfalso. apply rt_some in E. destruct E as [_ E].
    apply (amplitudes_iff (pf b) (pc b) (pf_char b)) in E. cbv zeta in E. destruct E as (NS & _). cbn [map nonsing] in NS. destruct NS as (_ & _ & _ & NS).
    destruct NS as (_ & NS & _). apply NS. unfold char_layer, layer_of. cbn [fst snd]. unfold kz_layer in Z.
    destruct b; unfold pc, char_s, char_p; cbn [fst snd]; [exact Z|].
    destruct (Ceq_dec (Ccos (Casin (kx_of th (RtoC x) / Csqrt (RtoC e)))) 0) as [|K]; [assumption|]. exfalso. revert Z. apply Cmult_neq_0; [now apply Csqrt_neq0|exact K]. }
  split; [exact (G true)|exact (G false)].
Qed.
Print Assumptions C122_critical.
Example C122_critical_example : rt_s (solver2 45 1 (RtoC 2) [(1%R, RtoC 1)] (RtoC 2)) = None.
Proof.
  apply (C122_critical 45 1 2 1 1); try lra. replace (45 * PI / 180)%R with (PI / 4)%R by field. rewrite sin_PI4.
  assert (Q := Rlt_sqrt2_0). assert (Q2 : (sqrt 2 * sqrt 2 = 2)%R) by (apply sqrt_sqrt; lra).
  transitivity (2 * (1 / (sqrt 2 * sqrt 2)))%R; [rewrite Q2; field|field; lra].
Qed.
