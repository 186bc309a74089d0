From Coq Require Import Reals Lra Lia List Psatz.
From Coquelicot Require Import Complex.
From Verif.Base Require Import Py Cx Mat.
From Verif.Model Require Import Rotation Materials Mixture.
From Verif.Spec Require Import Rot Effective.
From Verif.Proof Require Import RotationP DispersionsP MixtureP MixtureP2.
Import ListNotations.
Open Scope R_scope.
Open Scope C_scope.
Open Scope py_scope.

(** ** Bruggeman: the result lies in the cone spanned by host and guest *)
Lemma brugg_im (f : R) (h g e : C) : bruggeman_equation f h g e ->
  ((1 - f) * snd (h * Cconj e)%C * Cnorm2 (g + 2 * e)%C + f * snd (g * Cconj e)%C * Cnorm2 (h + 2 * e)%C = 0)%R.
Proof.
  unfold bruggeman_equation. intros H.
  assert (E : snd ((RtoC (1 - f) * ((h - e) * (g + 2 * e)) + RtoC f * ((g - e) * (h + 2 * e)))
                   * (Cconj (g + 2 * e) * Cconj (h + 2 * e)))%C = 0%R).
  { rewrite H. simpl. ring. }
  assert (E2 : (3 * ((1 - f) * snd (h * Cconj e)%C * Cnorm2 (g + 2 * e)%C + f * snd (g * Cconj e)%C * Cnorm2 (h + 2 * e)%C) = 0)%R).
  { rewrite <- E. destruct h, g, e. unfold Cnorm2. simpl. ring. }
  lra.
Qed.

Lemma sector_real (a c q1 q2 z1 z2 : R) : (0 < a -> 0 < c -> 0 < q1 -> 0 <= z1 -> ~ (z1 = 0 /\ z2 = 0) ->
  a * (q2 * z1 - q1 * z2) = c * (q2 * z1 + q1 * z2) ->
  0 < z1 /\ q1 * z2 * (q1 * z2) <= q2 * z1 * (q2 * z1) /\ (q2 = 0 -> z2 = 0))%R.
Proof.
  intros Ha Hc Hq Hz N E.
  set (u := (q2 * z1)%R) in *. set (v := (q1 * z2)%R) in *.
  assert (Z : (0 < z1)%R).
  { destruct (Req_dec z1 0) as [Z|Z]; [|lra]. exfalso. unfold u in E. rewrite Z in E.
    assert (V : ((a + c) * v = 0)%R) by lra. apply Rmult_integral in V. destruct V as [V|V]; [lra|].
    unfold v in V. apply Rmult_integral in V. destruct V as [V|V]; [lra|]. apply N. auto. }
  assert (V : (v * v <= u * u)%R).
  { assert (K : ((a + c) * v = (a - c) * u)%R) by lra.
    assert (K2 : (((a + c) * (a + c)) * (v * v) = ((a - c) * (a - c)) * (u * u))%R).
    { transitivity (((a + c) * v) * ((a + c) * v))%R; [ring|]. rewrite K. ring. }
    assert (0 <= u * u)%R by nra. assert (0 <= v * v)%R by nra.
    assert (P : (((a - c) * (a - c)) <= ((a + c) * (a + c)))%R) by nra.
    assert (Q : (0 < ((a + c) * (a + c)))%R) by nra.
    apply Rnot_lt_le. intros L.
    assert (((a - c) * (a - c)) * (u * u) <= ((a + c) * (a + c)) * (u * u))%R by nra.
    assert (((a + c) * (a + c)) * (u * u) < ((a + c) * (a + c)) * (v * v))%R by nra. lra. }
  split; [exact Z|split; [exact V|]].
  intros Q. assert (U : u = 0%R) by (unfold u; rewrite Q; ring). rewrite U in V.
  assert (v = 0%R) by nra. unfold v in H. apply Rmult_integral in H. destruct H; lra.
Qed.

Lemma cone_of (s t z : C) (q1 q2 : R) : s * Cconj t = (q1, q2) -> (0 < q1)%R -> (0 < fst z)%R ->
  (q1 * snd z * (q1 * snd z) <= q2 * fst z * (q2 * fst z))%R -> (q2 = 0 -> snd z = 0)%R ->
  exists x y : R, (0 <= x)%R /\ (0 <= y)%R /\ z * s * t = RtoC x * (s * s) + RtoC y * (t * t).
Proof.
  intros Q q1p z1p I Z.
  assert (E1 : (q1, q2) * s * t = RtoC (Cnorm2 t) * (s * s)).
  { rewrite <- Q. destruct s, t. unfold Cnorm2. Ccomp; ring. }
  assert (E2 : Cconj (q1, q2) * s * t = RtoC (Cnorm2 s) * (t * t)).
  { rewrite <- Q. destruct s, t. unfold Cnorm2. Ccomp; ring. }
  pose proof (Cnorm2_ge0 s) as Ns. pose proof (Cnorm2_ge0 t) as Nt.
  destruct z as [z1 z2]; simpl in *.
  destruct (Req_dec q2 0) as [q20|q20].
  - rewrite (Z q20) in *. subst q2. exists (z1 / q1 * Cnorm2 t)%R, 0%R.
    assert (0 < z1 / q1)%R by (apply Rdiv_lt_0_compat; lra).
    split; [nra|split; [lra|]].
    transitivity (RtoC (z1 / q1) * ((q1, 0%R) * s * t)).
    + replace ((z1, 0%R) : C) with (RtoC (z1 / q1) * (q1, 0%R)); [ring|]. Ccomp; field; lra.
    + rewrite E1, RtoC_mult. ring.
  - set (x := ((z1 / q1 + z2 / q2) / 2)%R). set (y := ((z1 / q1 - z2 / q2) / 2)%R).
    assert (B : (- (z1 / q1) <= z2 / q2 <= z1 / q1)%R).
    { assert (0 < z1 / q1)%R by (apply Rdiv_lt_0_compat; lra).
      assert (S : (z2 / q2 * (z2 / q2) <= z1 / q1 * (z1 / q1))%R).
      { apply (Rmult_le_reg_l (q1 * q1 * (q2 * q2))%R).
        - assert (0 < q2 * q2)%R by nra. assert (0 < q1 * q1)%R by nra. nra.
        - replace (q1 * q1 * (q2 * q2) * (z2 / q2 * (z2 / q2)))%R with (q1 * z2 * (q1 * z2))%R by (field; lra).
          replace (q1 * q1 * (q2 * q2) * (z1 / q1 * (z1 / q1)))%R with (q2 * z1 * (q2 * z1))%R by (field; lra).
          exact I. }
      set (A := (z1 / q1)%R) in *. set (B := (z2 / q2)%R) in *. split; nra. }
    exists (x * Cnorm2 t)%R, (y * Cnorm2 s)%R.
    assert (0 <= x)%R by (unfold x; lra). assert (0 <= y)%R by (unfold y; lra).
    split; [nra|split; [nra|]].
    transitivity (RtoC x * ((q1, q2) * s * t) + RtoC y * (Cconj (q1, q2) * s * t)).
    + replace ((z1, z2) : C) with (RtoC x * (q1, q2) + RtoC y * Cconj (q1, q2)); [ring|].
      unfold x, y. Ccomp; field; lra.
    + rewrite E1, E2, !RtoC_mult. ring.
Qed.

Lemma brugg_cone (f : R) (h g e : C) : (0 <= f <= 1)%R -> passive h -> passive g -> ~ lossless_opposite h g ->
  bruggeman f h g = Some e ->
  exists x y : R, (0 <= x)%R /\ (0 <= y)%R /\ e = RtoC x * h + RtoC y * g.
Proof.
  intros Hf Ph Pg N B. pose proof (brugg_equation_holds _ _ _ _ B) as Q.
  destruct (brugg_cases _ _ _ _ B) as [[-> ->]|(hg & h0 & g0 & Ez)].
  { exists 1%R, 0%R. split; [lra|split; [lra|]]. ring. }
  destruct (Req_dec f 0) as [f0|f0].
  { subst f. rewrite brugg_host in B by assumption. apply Some_eq in B. subst e.
    exists 1%R, 0%R. split; [lra|split; [lra|]]. ring. }
  destruct (Req_dec f 1) as [f1|f1].
  { subst f. rewrite brugg_guest in B by assumption. apply Some_eq in B. subst e.
    exists 0%R, 1%R. split; [lra|split; [lra|]]. ring. }
  cbv zeta in Ez. pose proof (z_Re f h g) as Zr. pose proof (z_neq0 f h g) as Zn. cbv zeta in Zr, Zn.
  set (z := RtoC (1 / 4) * (RtoC (3 * f - 1) * (/ (Csqrt h / Csqrt g) - Csqrt h / Csqrt g) + Csqrt h / Csqrt g) + _) in Ez.
  change (0 <= fst z)%R in Zr. change (z <> 0) in Zn. clearbody z.
  pose proof (ratio_Re h g Ph Pg h0 g0 N) as Rq.
  pose proof (Csqrt_sqr h) as Es. pose proof (Csqrt_sqr g) as Et.
  pose proof (Csqrt_neq0 h h0) as s0. pose proof (Csqrt_neq0 g g0) as t0.
  set (s := Csqrt h) in *. set (t := Csqrt g) in *. clearbody s t.
  assert (e0 : e <> 0).
  { rewrite Ez. intros K. apply C_integral in K. destruct K as [K|K]; [|contradiction].
    apply C_integral in K. destruct K; contradiction. }
  assert (G : (0 < Cnorm2 (g + 2 * e)%C)%R).
  { apply Cnorm2_gt0. intros K. unfold bruggeman_equation in Q. rewrite K in Q.
    assert (gE : g = - (2 * e)) by (rewrite <- (Cplus_0_r g), <- (Cplus_opp_r (2 * e)), Cplus_assoc, K; ring).
    assert (K2 : RtoC f * ((- (3) * e) * (h + 2 * e)) = 0) by (rewrite <- Q, gE; ring).
    apply C_integral in K2. destruct K2 as [K2|K2]; [apply (C_of_R_neq f f0 K2)|].
    apply C_integral in K2. destruct K2 as [K2|K2].
    - apply C_integral in K2. destruct K2 as [K2|K2]; [|contradiction].
      apply (f_equal fst) in K2. simpl in K2. lra.
    - apply hg. rewrite gE. rewrite <- (Cplus_0_r h), <- (Cplus_opp_r (2 * e)), Cplus_assoc, K2. ring. }
  assert (H : (0 < Cnorm2 (h + 2 * e)%C)%R).
  { apply Cnorm2_gt0. intros K. unfold bruggeman_equation in Q. rewrite K in Q.
    assert (hE : h = - (2 * e)) by (rewrite <- (Cplus_0_r h), <- (Cplus_opp_r (2 * e)), Cplus_assoc, K; ring).
    assert (K2 : RtoC (1 - f) * ((- (3) * e) * (g + 2 * e)) = 0) by (rewrite <- Q, hE; ring).
    apply C_integral in K2. destruct K2 as [K2|K2]; [apply (C_of_R_neq (1 - f)); [lra|exact K2]|].
    apply C_integral in K2. destruct K2 as [K2|K2].
    - apply C_integral in K2. destruct K2 as [K2|K2]; [|contradiction].
      apply (f_equal fst) in K2. simpl in K2. lra.
    - apply hg. rewrite hE. symmetry. rewrite <- (Cplus_0_r g), <- (Cplus_opp_r (2 * e)), Cplus_assoc, K2. ring. }
  pose proof (brugg_im _ _ _ _ Q) as I.
  destruct (s * Cconj t) as [q1 q2] eqn:Eq. simpl in Rq.
  assert (I1 : snd (h * Cconj e)%C = (Cnorm2 s * (q2 * fst z - q1 * snd z))%R).
  { rewrite Ez, <- Es. transitivity (Cnorm2 s * snd ((s * Cconj t) * Cconj z)%C)%R.
    - destruct s, t, z. unfold Cnorm2. simpl. ring.
    - rewrite Eq. simpl. ring. }
  assert (I2 : snd (g * Cconj e)%C = (- (Cnorm2 t * (q2 * fst z + q1 * snd z)))%R).
  { rewrite Ez, <- Et. transitivity (- (Cnorm2 t * snd ((s * Cconj t) * z)%C))%R.
    - destruct s, t, z. unfold Cnorm2. simpl. ring.
    - rewrite Eq. simpl. ring. }
  rewrite I1, I2 in I.
  pose proof (Cnorm2_gt0 s s0) as Ns. pose proof (Cnorm2_gt0 t t0) as Nt.
  destruct (sector_real ((1 - f) * Cnorm2 s * Cnorm2 (g + 2 * e)%C) (f * Cnorm2 t * Cnorm2 (h + 2 * e)%C)
              q1 q2 (fst z) (snd z)) as (P1 & P2 & P3).
  - apply Rmult_lt_0_compat; [apply Rmult_lt_0_compat; lra|exact G].
  - apply Rmult_lt_0_compat; [apply Rmult_lt_0_compat; lra|exact H].
  - exact Rq.
  - exact Zr.
  - intros [A D]. apply Zn. apply C_ext; simpl; assumption.
  - lra.
  - rewrite Ez, <- Es, <- Et. exact (cone_of s t z q1 q2 Eq Rq P1 P2 P3).
Qed.

Lemma brugg_passive (f : R) (h g e : C) : (0 <= f <= 1)%R -> passive h -> passive g ->
  bruggeman f h g = Some e -> passive e.
Proof.
  intros Hf Ph Pg B.
  assert (D : lossless_opposite h g \/ ~ lossless_opposite h g).
  { unfold lossless_opposite. destruct (Req_dec (snd h) 0); destruct (Req_dec (snd g) 0);
      destruct (Rlt_dec (fst h * fst g) 0); tauto. }
  destruct D as [D|D].
  - destruct (brugg_cases _ _ _ _ B) as [[-> ->]|(hg & h0 & g0 & Ez)]; [exact Ph|].
    cbv zeta in Ez. pose proof (z_Re f h g) as Zr. cbv zeta in Zr.
    set (z := RtoC (1 / 4) * (RtoC (3 * f - 1) * (/ (Csqrt h / Csqrt g) - Csqrt h / Csqrt g) + Csqrt h / Csqrt g) + _) in Ez.
    change (0 <= fst z)%R in Zr. clearbody z.
    destruct D as (D1 & D2 & D3). destruct h as [h1 h2], g as [g1 g2]. simpl in *. subst h2 g2.
    unfold passive. rewrite Ez.
    destruct (Rlt_dec 0 h1) as [L|L].
    + assert (g1 < 0)%R by nra.
      change (h1, 0%R) with (RtoC h1). rewrite Csqrt_pos by lra.
      replace (g1, 0%R) with (RtoC (- - g1)) by (Ccomp; lra). rewrite Csqrt_neg by lra.
      destruct z as [z1 z2]. simpl in *.
      pose proof (sqrt_pos h1). pose proof (sqrt_pos (- g1)).
      assert (0 <= z1 * sqrt h1 * sqrt (- g1))%R by (apply Rmult_le_pos; [apply Rmult_le_pos|]; assumption). lra.
    + assert (h1 <> 0%R) by (intros ->; lra). assert (0 < g1)%R by nra.
      change (g1, 0%R) with (RtoC g1). rewrite Csqrt_pos by lra.
      replace (h1, 0%R) with (RtoC (- - h1)) by (Ccomp; lra). rewrite Csqrt_neg by lra.
      destruct z as [z1 z2]. simpl in *.
      pose proof (sqrt_pos g1). pose proof (sqrt_pos (- h1)).
      assert (0 <= z1 * sqrt (- h1) * sqrt g1)%R by (apply Rmult_le_pos; [apply Rmult_le_pos|]; assumption). lra.
  - destruct (brugg_cone f h g e Hf Ph Pg D B) as (x & y & Hx & Hy & ->).
    unfold passive in *. destruct h, g. simpl in *. nra.
Qed.

(** ** Maxwell-Garnett *)
Lemma mg_passive (f : R) (h g e : C) : (0 <= f <= 1)%R -> passive h -> passive g ->
  maxwell_garnett f h g = Some e -> passive e.
Proof.
  intros Hf Ph Pg H. destruct (mg_cases _ _ _ _ H) as [(-> & -> & ->)|[N E]]; [unfold passive; simpl; lra|].
  unfold passive in *.
  set (D := 2 * h + g - RtoC f * (g - h)) in *.
  pose proof (Cnorm2_gt0 D N) as ND.
  assert (I : (snd e * Cnorm2 D = snd (h * (2 * RtoC f * (g - h) + g + 2 * h) * Cconj D)%C)%R).
  { rewrite <- E. destruct e, D. unfold Cnorm2. simpl. ring. }
  assert (I2 : (snd (h * (2 * RtoC f * (g - h) + g + 2 * h) * Cconj D)%C =
    snd h * ((1 - f) * ((1 - f) * Cnorm2 (2 * h + g)%C + f * (6 * Cnorm2 h + 3 * Cnorm2 g))) + 9 * f * Cnorm2 h * snd g)%R).
  { unfold D. destruct h, g. unfold Cnorm2. simpl. ring. }
  rewrite I2 in I.
  pose proof (Cnorm2_ge0 (2 * h + g)%C). pose proof (Cnorm2_ge0 h). pose proof (Cnorm2_ge0 g).
  set (a := Cnorm2 (2 * h + g)%C) in *. set (b := Cnorm2 h) in *. set (c := Cnorm2 g) in *.
  assert (0 <= (1 - f) * a + f * (6 * b + 3 * c))%R by nra.
  assert (0 <= (1 - f) * ((1 - f) * a + f * (6 * b + 3 * c)))%R by (apply Rmult_le_pos; lra).
  assert (0 <= snd h * ((1 - f) * ((1 - f) * a + f * (6 * b + 3 * c))))%R by (apply Rmult_le_pos; lra).
  assert (0 <= 9 * f * b * snd g)%R by (apply Rmult_le_pos; [apply Rmult_le_pos|]; lra).
  apply Rnot_lt_le. intros L. assert (snd e * Cnorm2 D < 0)%R by nra. lra.
Qed.

Lemma mg_defined (f : R) (h g : C) : (0 <= f <= 1)%R -> passive h -> passive g -> h <> 0 -> ~ lossless_opposite h g ->
  maxwell_garnett f h g <> None.
Proof.
  unfold passive, lossless_opposite. intros Hf Ph Pg h0 N H. apply mg_none in H. destruct H as [E _].
  pose proof (f_equal fst E) as E1. pose proof (f_equal snd E) as E2.
  destruct h as [h1 h2], g as [g1 g2]. simpl in *.
  ring_simplify in E1. ring_simplify in E2.
  assert (h2 = 0%R) by nra. subst h2.
  assert (h1 <> 0%R) by (intros ->; now apply h0).
  assert (F : ((1 - f) * g1 = - ((2 + f) * h1))%R) by lra.
  assert (F2 : ((1 - f) * g2 = 0)%R) by lra.
  destruct (Req_dec f 1) as [->|f1].
  - apply H. lra.
  - apply Rmult_integral in F2. destruct F2; [lra|].
    apply N. repeat split; auto. assert ((1 - f) * (h1 * g1) < 0)%R.
    { replace ((1 - f) * (h1 * g1))%R with (h1 * ((1 - f) * g1))%R by ring. rewrite F.
      assert (0 < h1 * h1)%R by nra. nra. }
    assert (0 < 1 - f)%R by lra. apply Rnot_le_lt. intros ?. nra.
Qed.

Lemma mg_host (h g : C) : 2 * h + g <> 0 -> maxwell_garnett 0 h g = Some h.
Proof.
  intros N. assert (D : 2 * h + g - RtoC 0 * (g - h) = 2 * h + g) by ring.
  assert (M : cdiv (h * (2 * RtoC 0 * (g - h) + g + 2 * h)) (2 * h + g - RtoC 0 * (g - h)) = Some h).
  { rewrite D, cdiv_nz by exact N. f_equal. field. exact N. }
  unfold maxwell_garnett. rewrite M. destruct (Ceq_dec h 0); [destruct (Ceq_dec g 0)|]; reflexivity.
Qed.

Lemma mg_guest (h g : C) : h <> 0 -> maxwell_garnett 1 h g = Some g.
Proof.
  intros N. assert (D : 2 * h + g - RtoC 1 * (g - h) <> 0).
  { replace (2 * h + g - RtoC 1 * (g - h)) with (RtoC 3 * h).
    - intros K. apply C_integral in K. destruct K as [K|K]; [|contradiction]. apply (C_of_R_neq 3); [lra|exact K].
    - replace (RtoC 3) with (3 : C) by reflexivity. ring. }
  unfold maxwell_garnett. destruct (Ceq_dec h 0) as [|E]; [contradiction|].
  rewrite cdiv_nz by exact D. f_equal. field. intros K. apply D. rewrite <- K. unfold ZtoC. ring.
Qed.

(** ** Looyenga *)
Lemma sqrt3_sqr : (sqrt 3 * sqrt 3 = 3)%R.
Proof. apply sqrt_sqrt. lra. Qed.

Lemma sqrt3_pos : (0 < sqrt 3)%R.
Proof. apply sqrt_lt_R0. lra. Qed.

Lemma Cpowr_third (z : C) : cube_root (Cpowr z (1 / 3)) z.
Proof.
  unfold cube_root, Cpowr. destruct (Ceq_dec z 0) as [->|N].
  { destruct (Req_EM_T (1 / 3) 0); [lra|]. split; [ring|left; reflexivity]. }
  split.
  - rewrite <- !Cexp_plus. replace (_ + _ + _) with (Clog z); [now apply Cexp_Clog|].
    destruct (Clog z). Ccomp; field.
  - right. unfold Cexp, Clog. simpl. pose proof (Carg_bound z) as B.
    set (r := exp _). assert (rp : (0 < r)%R) by apply exp_pos. clearbody r.
    replace (1 / 3 * Carg z + 0 * ln (Cmod z))%R with (Carg z / 3)%R by field.
    set (x := (Carg z / 3)%R). assert (X : (- (PI / 3) < x <= PI / 3)%R) by (unfold x; lra).
    pose proof PI_RGT_0.
    assert (S1 : (0 <= sin (PI / 3 - x))%R) by (apply sin_ge_0; lra).
    assert (S2 : (0 < sin (x + PI / 3))%R) by (apply sin_gt_0; lra).
    rewrite sin_minus, sin_PI3, cos_PI3 in S1. rewrite sin_plus, sin_PI3, cos_PI3 in S2.
    split; nra.
Qed.

Lemma cube_cone_combo (f : R) (u v : C) : (0 <= f <= 1)%R ->
  (u = 0 \/ (- sqrt 3 * fst u < snd u <= sqrt 3 * fst u)%R) ->
  (v = 0 \/ (- sqrt 3 * fst v < snd v <= sqrt 3 * fst v)%R) ->
  let w := u * (1 - RtoC f) + v * RtoC f in
  w = 0 \/ (- sqrt 3 * fst w < snd w <= sqrt 3 * fst w)%R.
Proof.
  intros Hf Hu Hv w. pose proof sqrt3_pos. unfold w. clear w.
  assert (W : forall a b : C, a = 0 -> a * (1 - RtoC f) + b * RtoC f = RtoC f * b) by (intros a b ->; ring).
  assert (W2 : forall a b : C, b = 0 -> a * (1 - RtoC f) + b * RtoC f = RtoC (1 - f) * a) by (intros a b ->; rewrite RtoC_minus; ring).
  destruct Hu as [->|Hu]; [rewrite W by reflexivity|].
  - destruct Hv as [->|Hv]; [left; ring|].
    destruct (Req_dec f 0) as [->|f0]; [left; ring|]. right. destruct v as [a b]; simpl in *. nra.
  - destruct Hv as [->|Hv]; [rewrite W2 by reflexivity|].
    + destruct (Req_dec f 1) as [->|f0]; [left; replace (1 - 1)%R with 0%R by ring; ring|].
      right. destruct u as [a b]; simpl in *. nra.
    + right. destruct u as [a b], v as [c d]; simpl in *.
      destruct (Req_dec f 0) as [->|f0]; [nra|]. destruct (Req_dec f 1) as [->|f1]; [nra|]. nra.
Qed.

Lemma cone_rot (w : C) : w <> 0 ->
  (w = 0 \/ (- sqrt 3 * fst w < snd w <= sqrt 3 * fst w)%R) ->
  let om := ((- (1 / 2))%R, (sqrt 3 / 2)%R) in
  ~ (om * w = 0 \/ (- sqrt 3 * fst (om * w)%C < snd (om * w)%C <= sqrt 3 * fst (om * w)%C)%R).
Proof.
  intros N H om [K|K].
  - apply C_integral in K. destruct K as [K|K]; [|contradiction]. apply (f_equal fst) in K. unfold om in K. simpl in K. lra.
  - destruct H as [|H]; [contradiction|]. pose proof sqrt3_sqr as S3. pose proof sqrt3_pos.
    destruct w as [x y]; unfold om in K; simpl in *.
    assert (E : (sqrt 3 * (- (1 / 2) * x - sqrt 3 / 2 * y) = - (sqrt 3 / 2 * x) - 3 / 2 * y)%R).
    { transitivity (- (sqrt 3 / 2 * x) - (sqrt 3 * sqrt 3) / 2 * y)%R; [field|rewrite S3; field]. }
    lra.
Qed.

Lemma cube_root_unique (u v z : C) : cube_root u z -> cube_root v z -> u = v.
Proof.
  intros [E1 P1] [E2 P2].
  destruct (Ceq_dec u v) as [|D]; [assumption|exfalso].
  pose proof sqrt3_sqr as S3.
  set (om := ((- (1 / 2))%R, (sqrt 3 / 2)%R) : C).
  assert (O1 : om * om + om + 1 = 0).
  { unfold om. Ccomp; [|field]. transitivity (1 / 4 - (sqrt 3 * sqrt 3) / 4 + - (1 / 2) + 1)%R; [field|rewrite S3; field]. }
  assert (F : (u - v) * (u - om * v) * (v - om * u) = 0).
  { transitivity ((u * u * u * - om) + (v * v * v) * om + (om * om + om + 1) * (u * u * v - u * v * v)); [ring|].
    rewrite E1, E2, O1. ring. }
  assert (u0 : u <> 0).
  { intros ->. assert (Z : v * v * v = 0) by (rewrite E2, <- E1; ring).
    apply C_integral in Z. destruct Z as [Z|Z]; [apply C_integral in Z; destruct Z as [Z|Z]|]; now apply D. }
  assert (v0 : v <> 0).
  { intros ->. assert (Z : u * u * u = 0) by (rewrite E1, <- E2; ring).
    apply C_integral in Z. destruct Z as [Z|Z]; [apply C_integral in Z; destruct Z as [Z|Z]|]; now apply D. }
  apply C_integral in F. destruct F as [F|F].
  - apply C_integral in F. destruct F as [F|F].
    + apply D. rewrite <- (Cplus_0_r v), <- F. ring.
    + apply (cone_rot v v0 P2). fold om. replace (om * v) with u; [exact P1|].
      rewrite <- (Cplus_0_r (om * v)), <- F. ring.
  - apply (cone_rot u u0 P1). fold om. replace (om * u) with v; [exact P2|].
    rewrite <- (Cplus_0_r (om * u)), <- F. ring.
Qed.

Lemma looyenga_root (f : R) (h g wh wg : C) : (0 <= f <= 1)%R -> cube_root wh h -> cube_root wg g ->
  cube_root (RtoC (1 - f) * wh + RtoC f * wg) (looyenga f h g).
Proof.
  intros Hf Hh Hg.
  rewrite (cube_root_unique _ _ _ Hh (Cpowr_third h)), (cube_root_unique _ _ _ Hg (Cpowr_third g)).
  set (u := Cpowr h (1 / 3)). set (v := Cpowr g (1 / 3)).
  assert (E : RtoC (1 - f) * u + RtoC f * v = u * (1 - RtoC f) + v * RtoC f) by (rewrite RtoC_minus; ring).
  rewrite E. split.
  - unfold looyenga. fold u v. simpl. ring.
  - apply cube_cone_combo; [exact Hf|apply Cpowr_third|apply Cpowr_third].
Qed.

Lemma looyenga_0 h g : looyenga 0 h g = h.
Proof.
  unfold looyenga. destruct (Cpowr_third h) as [E _]. rewrite <- E at 2. simpl. ring.
Qed.

Lemma looyenga_swap f h g : looyenga f h g = looyenga (1 - f) g h.
Proof. unfold looyenga. f_equal. rewrite RtoC_minus. ring. Qed.

Lemma third_passive (z : C) : passive z -> (0 <= snd (Cpowr z (1 / 3)) <= sqrt 3 * fst (Cpowr z (1 / 3)))%R.
Proof.
  unfold passive. intros P. destruct (Cpowr_third z) as [E S]. set (w := Cpowr z (1 / 3)) in *. clearbody w.
  destruct S as [->|S]; [simpl; lra|]. split; [|lra].
  pose proof (f_equal snd E) as I. pose proof sqrt3_sqr as S3. pose proof sqrt3_pos as S0.
  destruct w as [x y]; simpl in *. rewrite <- I in P.
  apply Rnot_lt_le. intros L.
  assert (X : (0 < x)%R) by nra.
  assert (M : (y * y < 3 * (x * x))%R).
  { assert ((- y) * (- y) < (sqrt 3 * x) * (sqrt 3 * x))%R by (apply Rmult_le_0_lt_compat; lra).
    replace (sqrt 3 * x * (sqrt 3 * x))%R with (sqrt 3 * sqrt 3 * (x * x))%R in H by ring. rewrite S3 in H. lra. }
  assert (y * (3 * (x * x) - y * y) < 0)%R by nra. lra.
Qed.

Lemma looyenga_passive (f : R) (h g : C) : (0 <= f <= 1)%R -> passive h -> passive g -> passive (looyenga f h g).
Proof.
  intros Hf Ph Pg. apply third_passive in Ph. apply third_passive in Pg. unfold looyenga, passive.
  set (u := Cpowr h (1 / 3)) in *. set (v := Cpowr g (1 / 3)) in *. clearbody u v.
  pose proof sqrt3_sqr as S3. pose proof sqrt3_pos as S0.
  assert (W : (0 <= snd (u * (1 - RtoC f) + v * RtoC f)%C <= sqrt 3 * fst (u * (1 - RtoC f) + v * RtoC f)%C)%R).
  { destruct u as [a b], v as [c d]; simpl in *. split; nra. }
  destruct (u * (1 - RtoC f) + v * RtoC f) as [x y]. simpl in *.
  assert (M : (y * y <= 3 * (x * x))%R).
  { assert (y * y <= (sqrt 3 * x) * (sqrt 3 * x))%R by (apply Rmult_le_compat; lra).
    replace (sqrt 3 * x * (sqrt 3 * x))%R with (sqrt 3 * sqrt 3 * (x * x))%R in H by ring. rewrite S3 in H. lra. }
  assert (0 <= y * (3 * (x * x) - y * y))%R by nra. lra.
Qed.
