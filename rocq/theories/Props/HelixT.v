(** C109: light along the axis of a twisted layer. *)
From Coq Require Import Reals Lra Psatz Lia ZArith.
From Coquelicot Require Import Complex.
From Coq Require Import List.
From Verif.Base Require Import Py Cx Mat Mexp Det Approx.
From Verif.Model Require Import Units Ellips Rotation Structure Solver4.
From Verif.Spec Require Import Maxwell Tensor Turned Graded Helix.
From Verif.Proof Require Import UnitsP DispersionsP StructureP Solver4P Solver4P2 Solver4P3 Solver4P5 Solver4P6 GradedP GradedP2 HelixP.
From Verif.Props Require Import Solver4T GradedT.
Import ListNotations.
Open Scope R_scope.
Open Scope C_scope.
Open Scope py_scope.

(** C109: there are four different propagation constants unless two conditions hold by chance. *)
Theorem C109_modes : forall (k q : R) (e1 e2 : C), let s := 2 * RtoC q * RtoC q + RtoC k * RtoC k * (e1 + e2) in
  let p := (RtoC q * RtoC q - RtoC k * RtoC k * e1) * (RtoC q * RtoC q - RtoC k * RtoC k * e2) in
  (exists m1 m2, helix_modes k q e1 e2 m1 m2) <-> p <> 0 /\ s * s <> 4 * p.
Proof.
  intros k q e1 e2 s p. split.
  - intros (m1 & m2 & H1 & H2 & N1 & N2 & D). fold s in H1. fold p in H2. split.
    + rewrite <- H2. repeat apply Cmult_neq_0; assumption.
    + intros E. apply D. rewrite <- H1, <- H2 in E. assert (Z : (m1 * m1 - m2 * m2) * (m1 * m1 - m2 * m2) = 0) by (transitivity ((m1 * m1 + m2 * m2) * (m1 * m1 + m2 * m2) - 4 * (m1 * m1 * (m2 * m2))); [ring|rewrite E; ring]).
      assert (Y : m1 * m1 - m2 * m2 = 0) by (destruct (Ceq_dec (m1 * m1 - m2 * m2) 0) as [Y|Y]; [exact Y|exfalso; now apply (Cmult_neq_0 _ _ Y Y)]). transitivity (m1 * m1 - m2 * m2 + m2 * m2); [ring|rewrite Y; ring].
  - intros [P D]. set (r := Csqrt (s * s - 4 * p)). assert (R2 : r * r = s * s - 4 * p) by apply Csqrt_sqr.
    assert (T : RtoC 2 <> 0) by (apply C_of_R_neq; lra). set (w1 := (s + r) / 2). set (w2 := (s - r) / 2).
    assert (W1 : w1 + w2 = s) by (unfold w1, w2; field; exact T). assert (W2 : w1 * w2 = p).
    { unfold w1, w2. transitivity ((s * s - r * r) / 4); [field|rewrite R2; field]; repeat split; try exact T; apply C_of_R_neq; lra. }
    assert (N1 : w1 <> 0) by (intros E; apply P; rewrite <- W2, E; ring). assert (N2 : w2 <> 0) by (intros E; apply P; rewrite <- W2, E; ring).
    assert (NE : w1 <> w2).
    { intros E. apply D. rewrite <- W1, <- W2, E. ring. }
    exists (Csqrt w1), (Csqrt w2). unfold helix_modes. rewrite !Csqrt_sqr. fold s p. split; [exact W1|]. split; [exact W2|]. split; [now apply Csqrt_neq0|]. split; [now apply Csqrt_neq0|exact NE].
Qed.
Print Assumptions C109_modes.

(** C109: Maxwell's equations in a twisted layer, for light along its normal, are solved by the sums
    of four waves that turn with the medium, and by nothing else. *)
Theorem C109_waves : forall (k : R) (e1 e2 e3 m1 m2 : C) d angle eps, (k <> 0)%R -> (0 < d)%R -> e3 <> 0 ->
  (forall z, twisted_tensor (mat_of [[e1; RtoC 0; RtoC 0]; [RtoC 0; e2; RtoC 0]; [RtoC 0; RtoC 0; e3]]) d angle z = Some (eps z)) ->
  let q := (angle * PI / 180 / d)%R in helix_modes k q e1 e2 m1 m2 ->
  forall u v, in_slabs k 0 [Graded d eps] u v <-> in_helix k q e1 e2 m1 m2 d u v.
Proof.
  intros k e1 e2 e3 m1 m2 d angle eps K D E3 T q M u v. destruct (C105_twisted (diag3 e1 e2 e3) d angle D E3) as (eps' & T' & S & _).
  assert (X : forall z, eps' z = eps z) by (intros z; specialize (T z); specialize (T' z); unfold diag3 in T'; rewrite T in T'; now injection T' as ->).
  apply (in_helix_slab k q e1 e2 e3 m1 m2 K M d eps u v D); [intros z; apply (twisted_helix (diag3 e1 e2 e3) d angle z (eps z) (T z))|].
  destruct S as (S1 & m & L & S2 & S3 & S4). split; [exact S1|]. exists m, L. split; [exact S2|]. cbn [depth permittivity] in *. split; intros; rewrite <- !X; auto.
Qed.
Print Assumptions C109_waves.

(** C109: for light from a transparent medium along the axis of a twisted layer without gain, the
    solver comes as close as wanted to the closed form with these four waves. *)
Theorem C109_passive : forall lbda eps_f eps_b (x : R) (e_b n_b e1 e2 e3 m1 m2 : C) d angle,
  (0 < lbda)%R -> isotropic eps_f (RtoC x) -> (0 < x)%R ->
  isotropic eps_b e_b -> e_b <> 0 -> (0 <= Im e_b)%R -> n_b * n_b = e_b -> principal n_b ->
  (0 < d)%R -> e3 <> 0 -> (0 <= Im e1)%R -> (0 <= Im e2)%R -> (0 <= Im e3)%R ->
  let k := (2 * PI / lbda)%R in let q := (angle * PI / 180 / d)%R in helix_modes k q e1 e2 m1 m2 ->
  exists eps J_r J_t,
    (forall z, twisted_tensor (mat_of [[e1; RtoC 0; RtoC 0]; [RtoC 0; e2; RtoC 0]; [RtoC 0; RtoC 0; e3]]) d angle z = Some (eps z)) /\
    (forall ap as_ bp bs tp ts,
      in_helix k q e1 e2 m1 m2 d (tangential (half_space k 0 (RtoC (sqrt x)) 1 ap as_ bp bs) 0)
                                 (tangential (half_space k 0 n_b 1 tp ts 0 0) 0) <->
      (bp = J_r 0%nat 0%nat * ap + J_r 0%nat 1%nat * as_ /\ bs = J_r 1%nat 0%nat * ap + J_r 1%nat 1%nat * as_ /\
       tp = J_t 0%nat 0%nat * ap + J_t 0%nat 1%nat * as_ /\ ts = J_t 1%nat 0%nat * ap + J_t 1%nat 1%nat * as_)) /\
    approaches 0 lbda eps_f eps_b [Graded d eps] J_r J_t.
Proof.
  intros lb ef eb x e' nb e1 e2 e3 m1 m2 d angle L If X Ib E' Pe Nb Pn D E3 I1 I2 I3 k q M.
  destruct (C105_twisted (diag3 e1 e2 e3) d angle D E3) as (eps & T & S & P & _).
  assert (PD : passive (diag3 e1 e2 e3)).
  { intros E. unfold dissipation, mvec, diag3, mat_of, csum. cbn [nth]. destruct (E 0%nat) as [a b], (E 1%nat) as [a' b'], (E 2%nat) as [a2 b2]. destruct e1 as [r1 i1], e2 as [r2 i2], e3 as [r3 i3]. cbn in *.
    assert (Q : forall i a b : R, (0 <= i -> 0 <= i * (a * a + b * b))%R) by (intros i y z Hi; apply Rmult_le_pos; [exact Hi|nra]).
    assert (Q1 := Q i1 a b I1). assert (Q2 := Q i2 a' b' I2). assert (Q3 := Q i3 a2 b2 I3). lra. }
  assert (KX : Csqrt (RtoC x) * RtoC (sin (0 * PI / 180)) = 0) by (replace (0 * PI / 180)%R with 0%R by field; rewrite sin_0; ring).
  assert (K0 : (k <> 0)%R) by (assert (P0 := PI_RGT_0); apply Rmult_integral_contrapositive_currified; [lra|apply Rinv_neq_0_compat; lra]).
  destruct (C105_passive 0 lb ef eb x e' (RtoC (sqrt x)) 1 nb 1 [Graded d eps]) as (Jr & Jt & SC & AP); try assumption.
  - replace (0 * PI / 180)%R with 0%R by field. rewrite cos_0. lra.
  - constructor; [exact S|constructor].
  - constructor; [|constructor]. intros z _. cbn [permittivity]. now apply P.
  - rewrite KX. split; [rewrite <- RtoC_mult, sqrt_sqrt by lra; reflexivity|]. split; [left; cbn; now apply sqrt_lt_R0|]. split; [ring|left; cbn; lra].
  - rewrite KX. split; [exact Nb|]. split; [exact Pn|]. split; [ring|left; cbn; lra].
  - exists eps, Jr, Jt. split; [exact T|]. split; [|exact AP]. intros ap as_ bp bs tp ts. unfold q in *. rewrite <- (C109_waves k e1 e2 e3 m1 m2 d angle eps K0 D E3 T M).
    unfold scattering in SC. rewrite KX in SC. apply SC.
Qed.
Print Assumptions C109_passive.

(** C109: for real indices n1, n2 along the turning axes there is a wave that decays along the helix
    if and only if the wavelength lies between p n1 and p n2, where p is the pitch. *)
Theorem C109_stop_band : forall n1 n2 lbda p : R, (0 < n1)%R -> (0 < n2)%R -> (0 < lbda)%R -> (0 < p)%R ->
  (exists m A B, helix_wave (2 * PI / lbda) (2 * PI / p) (RtoC (n1 * n1)) (RtoC (n2 * n2)) m A B /\ (A <> 0 \/ B <> 0) /\ Im m <> 0%R) <->
  (p * n1 < lbda < p * n2 \/ p * n2 < lbda < p * n1)%R.
Proof.
  intros n1 n2 lb p N1 N2 L P. assert (PP := PI_RGT_0). set (k := (2 * PI / lb)%R). set (q := (2 * PI / p)%R).
  assert (K : (0 < k)%R) by (unfold k; apply Rdiv_lt_0_compat; lra). assert (Q : (0 < q)%R) by (unfold q; apply Rdiv_lt_0_compat; lra).
  set (a1 := (q * q - k * k * (n1 * n1))%R). set (a2 := (q * q - k * k * (n2 * n2))%R).
  assert (HP : forall n, (0 < n)%R -> ((q * q - k * k * (n * n) < 0 <-> lb < p * n) /\ (0 < q * q - k * k * (n * n) <-> p * n < lb))%R).
  { intros n Hn. assert (F : (q * q - k * k * (n * n) = (2 * PI / (p * lb)) * (2 * PI / (p * lb)) * (lb + p * n) * (lb - p * n))%R) by (unfold q, k; field; lra).
    assert (G : (0 < 2 * PI / (p * lb) * (2 * PI / (p * lb)) * (lb + p * n))%R).
    { assert (0 < 2 * PI / (p * lb))%R by (apply Rdiv_lt_0_compat; [lra|now apply Rmult_lt_0_compat]). assert (0 < p * n)%R by now apply Rmult_lt_0_compat. apply Rmult_lt_0_compat; [apply Rmult_lt_0_compat; assumption|lra]. }
    rewrite F. set (g := (2 * PI / (p * lb) * (2 * PI / (p * lb)) * (lb + p * n))%R) in *. clearbody g. split; split; intros H.
    - destruct (Rlt_dec lb (p * n)); [assumption|]. exfalso. assert (0 <= g * (lb - p * n))%R by (apply Rmult_le_pos; lra). lra.
    - assert (0 < g * (p * n - lb))%R by (apply Rmult_lt_0_compat; lra). lra.
    - destruct (Rlt_dec (p * n) lb); [assumption|]. exfalso. assert (0 <= g * (p * n - lb))%R by (apply Rmult_le_pos; lra). lra.
    - apply Rmult_lt_0_compat; lra. }
  assert (BAND : (a1 * a2 < 0 <-> p * n1 < lb < p * n2 \/ p * n2 < lb < p * n1)%R).
  { destruct (HP n1 N1) as [H1 H2]. destruct (HP n2 N2) as [H3 H4]. fold a1 in H1, H2. fold a2 in H3, H4. rewrite <- H1, <- H2, <- H3, <- H4. clearbody a1 a2. clear. split.
    - intros H. destruct (Rlt_dec a1 0), (Rlt_dec a2 0); [exfalso; assert (0 < (- a1) * (- a2))%R by (apply Rmult_lt_0_compat; lra); lra| | |exfalso; assert (0 <= a1 * a2)%R by (apply Rmult_le_pos; lra); lra].
      + right. split; [|lra]. destruct (Rlt_dec 0 a2); [assumption|]. assert (a2 = 0)%R by lra. subst. lra.
      + left. split; [|lra]. destruct (Rlt_dec 0 a1); [assumption|]. assert (a1 = 0)%R by lra. subst. lra.
    - intros [[H1 H2]|[H1 H2]]; [assert (0 < a1 * (- a2))%R by (apply Rmult_lt_0_compat; lra)|assert (0 < (- a1) * a2)%R by (apply Rmult_lt_0_compat; lra)]; lra. }
  rewrite <- BAND. clear HP BAND. clearbody k q. set (s := (4 * q * q - a1 - a2)%R). set (D := (s * s - 4 * (a1 * a2))%R).
  assert (S0 : (0 < s)%R).
  { unfold s, a1, a2. assert (0 < k * k * (n1 * n1))%R by (repeat apply Rmult_lt_0_compat; lra). assert (0 < k * k * (n2 * n2))%R by (repeat apply Rmult_lt_0_compat; lra). assert (0 < q * q)%R by (apply Rmult_lt_0_compat; lra). lra. }
  assert (D0 : (0 < D)%R).
  { assert (E : (D = 8 * (q * q) * (k * k * (n1 * n1 + n2 * n2)) + (a1 - a2) * (a1 - a2))%R) by (unfold D, s, a1, a2; ring). rewrite E.
    assert (0 < q * q * (k * k * (n1 * n1 + n2 * n2)))%R by (assert (0 < n1 * n1)%R by (now apply Rmult_lt_0_compat); assert (0 < n2 * n2)%R by (now apply Rmult_lt_0_compat); repeat apply Rmult_lt_0_compat; lra). assert (X := Rle_0_sqr (a1 - a2)). unfold Rsqr in X. lra. }
  assert (A1 : RtoC q * RtoC q - RtoC k * RtoC k * RtoC (n1 * n1) = RtoC a1) by (unfold a1; rewrite !RtoC_minus, !RtoC_mult; ring).
  assert (A2 : RtoC q * RtoC q - RtoC k * RtoC k * RtoC (n2 * n2) = RtoC a2) by (unfold a2; rewrite !RtoC_minus, !RtoC_mult; ring).
  assert (W : forall m A B, helix_wave k q (RtoC (n1 * n1)) (RtoC (n2 * n2)) m A B <-> (m * m + RtoC a1) * A + 2 * Ci * RtoC q * m * B = 0 /\ (m * m + RtoC a2) * B - 2 * Ci * RtoC q * m * A = 0).
  { intros m A B. unfold helix_wave. rewrite <- A1, <- A2. replace (m * m + (RtoC q * RtoC q - RtoC k * RtoC k * RtoC (n1 * n1))) with (m * m + RtoC q * RtoC q - RtoC k * RtoC k * RtoC (n1 * n1)) by ring.
    replace (m * m + (RtoC q * RtoC q - RtoC k * RtoC k * RtoC (n2 * n2))) with (m * m + RtoC q * RtoC q - RtoC k * RtoC k * RtoC (n2 * n2)) by ring. reflexivity. }
  assert (I2 := Ci2).
  assert (DET : forall m : C, (m * m + RtoC a1) * (m * m + RtoC a2) + 2 * Ci * RtoC q * m * (2 * Ci * RtoC q * m) = m * m * (m * m) - RtoC s * (m * m) + RtoC (a1 * a2)).
  { intros m. unfold s. rewrite !RtoC_minus, !RtoC_mult. transitivity ((m * m + RtoC a1) * (m * m + RtoC a2) + 4 * (Ci * Ci) * RtoC q * RtoC q * m * m); [ring|]. rewrite I2. ring. }
  split.
  - intros (m & A & B & H & NZ & IM). apply W in H. destruct H as [H1 H2].
    assert (Z : m * m * (m * m) - RtoC s * (m * m) + RtoC (a1 * a2) = 0).
    { rewrite <- DET. set (dd := (m * m + RtoC a1) * (m * m + RtoC a2) + 2 * Ci * RtoC q * m * (2 * Ci * RtoC q * m)).
      assert (ZA : dd * A = 0) by (unfold dd; transitivity ((m * m + RtoC a2) * ((m * m + RtoC a1) * A + 2 * Ci * RtoC q * m * B) - 2 * Ci * RtoC q * m * ((m * m + RtoC a2) * B - 2 * Ci * RtoC q * m * A)); [ring|rewrite H1, H2; ring]).
      assert (ZB : dd * B = 0) by (unfold dd; transitivity ((m * m + RtoC a1) * ((m * m + RtoC a2) * B - 2 * Ci * RtoC q * m * A) + 2 * Ci * RtoC q * m * ((m * m + RtoC a1) * A + 2 * Ci * RtoC q * m * B)); [ring|rewrite H1, H2; ring]).
      destruct (Ceq_dec dd 0) as [Y|Y]; [exact Y|]. exfalso. destruct NZ as [NZ|NZ]; [now apply (Cmult_neq_0 _ _ Y NZ)|now apply (Cmult_neq_0 _ _ Y NZ)]. }
    destruct m as [a b]. cbn [Im snd] in IM. clear - S0 D0 Z IM. subst D. set (t := (a1 * a2)%R) in *. clearbody t.
    set (x := (a * a - b * b)%R). set (y := (2 * a * b)%R). assert (Z1 : (x * x - y * y - s * x + t = 0)%R) by (apply (f_equal fst) in Z; cbn in Z; unfold x, y; lra).
    assert (Z2 : (y * (2 * x - s) = 0)%R) by (apply (f_equal snd) in Z; cbn in Z; unfold x, y; lra).
    assert (Y : y = 0%R).
    { destruct (Rmult_integral _ _ Z2) as [Y|Y]; [exact Y|]. exfalso. assert (X : s = (2 * x)%R) by lra. rewrite X in *. assert (Y2 := Rle_0_sqr y). assert (X2 := Rle_0_sqr x). unfold Rsqr in X2, Y2. lra. }
    assert (A : a = 0%R) by (unfold y in Y; destruct (Rmult_integral _ _ Y) as [Y'|Y']; [lra|contradiction]).
    rewrite Y in Z1. assert (X : (x < 0)%R) by (unfold x; rewrite A; assert (0 < b * b)%R by (apply Rsqr_pos_lt; exact IM); lra). assert (0 < x * x)%R by (assert (0 < (- x) * (- x))%R by (apply Rmult_lt_0_compat; lra); lra). assert (0 < s * - x)%R by (apply Rmult_lt_0_compat; lra). lra.
  - intros H. set (r := ((sqrt D - s) / 2)%R). assert (SD := sqrt_sqrt D ltac:(lra)). assert (SP := sqrt_lt_R0 D D0).
    assert (R0 : (0 < r)%R) by (unfold r; assert (s * s < sqrt D * sqrt D)%R by (rewrite SD; unfold D; lra); assert (s < sqrt D)%R by (apply Rsqr_incrst_0; unfold Rsqr; lra); lra).
    assert (RE : (r * r + s * r + a1 * a2 = 0)%R) by (unfold r; replace ((sqrt D - s) / 2 * ((sqrt D - s) / 2) + s * ((sqrt D - s) / 2) + a1 * a2)%R with ((sqrt D * sqrt D - s * s) / 4 + a1 * a2)%R by field; rewrite SD; unfold D; field).
    assert (RS := sqrt_sqrt r ltac:(lra)). assert (RP := sqrt_lt_R0 r R0). set (m := Ci * RtoC (sqrt r)). assert (MM : m * m = - RtoC r) by (unfold m; transitivity (Ci * Ci * (RtoC (sqrt r) * RtoC (sqrt r))); [ring|]; rewrite I2, <- RtoC_mult, RS; ring).
    exists m, (2 * Ci * RtoC q * m), (- (m * m + RtoC a1)). split; [|split].
    + apply W. split; [ring|]. transitivity (- (m * m * (m * m) - RtoC s * (m * m) + RtoC (a1 * a2))); [rewrite <- DET; ring|]. rewrite MM. transitivity (- RtoC (r * r + s * r + a1 * a2)); [rewrite !RtoC_plus, !RtoC_mult; ring|rewrite RE; ring].
    + left. unfold m. repeat apply Cmult_neq_0; try (apply C_of_R_neq; lra); intros E; apply (f_equal snd) in E; cbn in E; lra.
    + unfold m. cbn. lra.
Qed.
Print Assumptions C109_stop_band.

(** The liquid crystal of the gallery (indices 1.7 and 1.5, pitch 650 nm) between glass plates, one
    turn, at 1040 nm: there are four propagation constants, some waves decay, and the solver
    approaches the closed form with the linear propagator. *)
Definition crystal : mat := mat_of [[RtoC (289 / 100); RtoC 0; RtoC 0]; [RtoC 0; RtoC (225 / 100); RtoC 0]; [RtoC 0; RtoC 0; RtoC (225 / 100)]].
Example C109_example : exists m1 m2 eps J_r J_t,
  helix_modes (2 * PI / 1040) (360 * PI / 180 / 650) (RtoC (289 / 100)) (RtoC (225 / 100)) m1 m2 /\
  (exists m A B, helix_wave (2 * PI / 1040) (2 * PI / 650) (RtoC (17 / 10 * (17 / 10))) (RtoC (15 / 10 * (15 / 10))) m A B /\ (A <> 0 \/ B <> 0) /\ Im m <> 0%R) /\
  (forall z, twisted_tensor crystal 650 360 z = Some (eps z)) /\
  (forall ap as_ bp bs tp ts,
    in_helix (2 * PI / 1040) (360 * PI / 180 / 650) (RtoC (289 / 100)) (RtoC (225 / 100)) m1 m2 650
      (tangential (half_space (2 * PI / 1040) 0 (RtoC (sqrt (24025 / 10000))) 1 ap as_ bp bs) 0)
      (tangential (half_space (2 * PI / 1040) 0 (RtoC (155 / 100)) 1 tp ts 0 0) 0) ->
    bp = J_r 0%nat 0%nat * ap + J_r 0%nat 1%nat * as_ /\ ts = J_t 1%nat 0%nat * ap + J_t 1%nat 1%nat * as_) /\
  exists K N, forall div, (Z.of_nat N <= div)%Z -> exists l res, make_inhomogeneous eps 650 div = Ok l /\
    solver4_structure propagator_linear 0 1040 (Structure (mscal (RtoC (24025 / 10000)) mid) [l] (mscal (RtoC (24025 / 10000)) mid)) = Some res /\
    forall i j, (i < 2)%nat -> (j < 2)%nat -> (Cmod (jones_r4 res i j - J_r i j)%C <= K / IZR div /\ Cmod (jones_t4 res i j - J_t i j)%C <= K / IZR div)%R.
Proof.
  assert (P0 := PI_RGT_0). set (u := (4 * PI * PI)%R). assert (U : (0 < u)%R) by (unfold u; apply Rmult_lt_0_compat; lra).
  set (k := (2 * PI / 1040)%R). set (q := (360 * PI / 180 / 650)%R). set (f := RtoC (289 / 100)). set (g := RtoC (225 / 100)).
  assert (M : exists m1 m2, helix_modes k q f g m1 m2).
  { apply C109_modes. unfold f, g. rewrite <- !RtoC_plus, <- !RtoC_mult, <- !RtoC_minus, <- !RtoC_plus, <- !RtoC_mult.
    assert (A1 : (q * q - k * k * (289 / 100) = u * (1 / 422500 - 289 / 108160000))%R) by (unfold q, k, u; field).
    assert (A2 : (q * q - k * k * (225 / 100) = u * (1 / 422500 - 225 / 108160000))%R) by (unfold q, k, u; field).
    assert (A3 : (2 * q * q + k * k * (289 / 100 + 225 / 100) = u * (2 / 422500 + 514 / 108160000))%R) by (unfold q, k, u; field).
    assert (UU : (0 < u * u)%R) by now apply Rmult_lt_0_compat.
    rewrite A1, A2, A3. split.
    - apply C_of_R_neq. lra.
    - intros E. apply RtoC_inj in E. lra. }
  destruct M as (m1 & m2 & M).
  assert (IS : isotropic (mscal (RtoC (24025 / 10000)) mid) (RtoC (24025 / 10000))) by (intros i j Hi Hj; reflexivity).
  destruct (C109_passive 1040 (mscal (RtoC (24025 / 10000)) mid) (mscal (RtoC (24025 / 10000)) mid) (24025 / 10000) (RtoC (24025 / 10000)) (RtoC (155 / 100)) f g g m1 m2 650 360) as (eps & Jr & Jt & T & W & K & N & AP); try assumption; try lra; try (cbn; lra).
  - apply C_of_R_neq. lra.
  - rewrite <- RtoC_mult. f_equal. lra.
  - left. cbn. lra.
  - apply C_of_R_neq. lra.
  - exists m1, m2, eps, Jr, Jt. split; [exact M|]. split; [apply C109_stop_band; lra|]. split; [exact T|]. split; [intros; apply W in H; tauto|].
    exists K, (N + 1)%nat. intros div Hd. assert (X : exists l, make_inhomogeneous eps 650 div = Ok l).
    { unfold make_inhomogeneous. destruct (Rlt_dec 650 0); [lra|]. destruct (div <? 1)%Z eqn:Q; [apply Z.ltb_lt in Q; lia|]. eauto. }
    destruct X as [l Hl]. destruct (AP (Z.to_nat div) propagator_linear [l]) as (res & HR & HB); [lia| | |].
    + constructor; [|constructor]. exists div. split; [lia|exact Hl].
    + right. split; [reflexivity|]. constructor; [eauto|constructor].
    + exists l, res. split; [exact Hl|]. split; [exact HR|]. intros i j Hi Hj. assert (B := HB i j Hi Hj). rewrite INR_IZR_INZ, Z2Nat.id in B by lia. exact B.
Qed.
