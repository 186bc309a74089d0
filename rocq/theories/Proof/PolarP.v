From Coq Require Import Reals Lra Psatz.
From Coquelicot Require Import Complex.
From Verif.Base Require Import Py Cx.
From Verif.Model Require Import Units Polar.
From Verif.Spec Require Import Analyser.
Open Scope R_scope.

Lemma half_sq : 1 / sqrt 2 * (1 / sqrt 2) = 1 / 2.
Proof.
  assert (H := sqrt_sqrt 2). assert (0 < sqrt 2) by (apply sqrt_lt_R0; lra).
  replace (1 / sqrt 2 * (1 / sqrt 2)) with (1 / (sqrt 2 * sqrt 2)) by (field; lra).
  rewrite H by lra. reflexivity.
Qed.

Lemma jones_measured (a b : C) : measured a b (jones_to_stokes a b).
Proof.
  unfold jones_to_stokes, measured. rewrite <- !Rsqr_pow2. unfold Rsqr.
  assert (M : forall z : C, Cmod z * Cmod z = Cnorm2 z) by (intros z; apply Cmod_sqr).
  rewrite !M. assert (H := half_sq). set (d := 1 / sqrt 2) in *.
  unfold analysed, Cnorm2, Cconj, Cplus, Cmult, Copp, Ci, Re, Im, RtoC. simpl.
  destruct a as [a1 a2], b as [b1 b2]; simpl. repeat split; try ring.
  - transitivity (4 * (d * d) * (a1 * b1 + a2 * b2)); [rewrite H; field|ring].
  - transitivity (4 * (d * d) * (a1 * b2 - a2 * b1)); [rewrite H; field|ring].
Qed.

Lemma measured_unique (a b : C) S S' : measured a b S -> measured a b S' -> S = S'.
Proof.
  destruct S as [[[? ?] ?] ?], S' as [[[? ?] ?] ?]. intros (-> & -> & -> & ->) (-> & -> & -> & ->). reflexivity.
Qed.

Lemma rdiv_some x y : y <> 0 -> rdiv x y = Some (x / y).
Proof. intros H. unfold rdiv. destruct (Req_EM_T y 0); [contradiction|reflexivity]. Qed.

Lemma stokes_jones s0 s1 s2 s3 : s0 <> 0 -> 0 < s1 ^ 2 + s2 ^ 2 + s3 ^ 2 ->
  exists a b, stokes_to_jones s0 s1 s2 s3 = Some (a, b) /\
  let P := sqrt (s1 ^ 2 + s2 ^ 2 + s3 ^ 2) in
  jones_to_stokes a b = (1, s1 / P, s2 / P, s3 / P) /\ Im a = 0 /\ 0 <= Re a.
Proof.
  intros H0 HP. set (P := sqrt (s1 ^ 2 + s2 ^ 2 + s3 ^ 2)).
  assert (PP : 0 < P) by (apply sqrt_lt_R0; exact HP).
  assert (P2 : P * P = s1 ^ 2 + s2 ^ 2 + s3 ^ 2) by (apply sqrt_sqrt; lra).
  unfold stokes_to_jones. fold P. rewrite rdiv_some by exact H0. cbn [obind].
  assert (E : s0 * (P / s0) = P) by (field; exact H0). rewrite E.
  rewrite !(rdiv_some _ P) by lra. cbn [obind].
  set (Q := s1 / P). set (U := s2 / P). set (V := s3 / P).
  assert (N : Q * Q + U * U + V * V = 1).
  { unfold Q, U, V. apply (Rmult_eq_reg_r (P * P)); [|nra]. rewrite P2 at 2. field. lra. }
  destruct (Req_EM_T Q (-1)) as [q|q].
  - exists (RtoC 0), (RtoC 1). split; [reflexivity|]. split; [|simpl; lra].
    assert (U = 0 /\ V = 0) as [-> ->] by (rewrite q in N; split; nra). rewrite q.
    unfold jones_to_stokes. rewrite !Cmod_R, Rabs_R0, Rabs_R1. simpl. f_equal; [f_equal; [f_equal|]|]; ring.
  - assert (q' : 0 < 1 + Q) by nra.
    set (a := sqrt ((1 + Q) / 2)).
    assert (A : 0 < a) by (apply sqrt_lt_R0; lra). assert (A2 : a * a = (1 + Q) / 2) by (apply sqrt_sqrt; lra).
    rewrite !(rdiv_some _ (2 * a)) by lra. cbn [obind].
    eexists; eexists. split; [reflexivity|]. split; [|simpl; lra].
    unfold jones_to_stokes.
    assert (M : forall z : C, Cmod z ^ 2 = Cnorm2 z).
    { intros z. simpl. rewrite Rmult_1_r. apply Cmod_sqr. }
    rewrite !M. unfold Cnorm2, Cconj, Cplus, Cmult, Ci, Re, Im, RtoC. cbn [fst snd].
    assert (X : U / (2 * a) * (U / (2 * a)) + V / (2 * a) * (V / (2 * a)) = (1 - Q) / 2).
    { apply (Rmult_eq_reg_r (4 * (a * a))); [|nra].
      replace ((U / (2 * a) * (U / (2 * a)) + V / (2 * a) * (V / (2 * a))) * (4 * (a * a))) with (U * U + V * V) by (field; lra).
      rewrite A2. nra. }
    set (u := U / (2 * a)) in *. set (v := V / (2 * a)) in *.
    assert (eU : 2 * a * u = U) by (unfold u; field; lra). assert (eV : 2 * a * v = V) by (unfold v; field; lra).
    f_equal; [f_equal; [f_equal|]|]; nra.
Qed.

Lemma stokes_unpolarised s0 : stokes_to_jones s0 0 0 0 = None.
Proof.
  unfold stokes_to_jones. replace (0 ^ 2 + 0 ^ 2 + 0 ^ 2) with 0 by ring. rewrite sqrt_0.
  unfold rdiv. destruct (Req_EM_T s0 0); [reflexivity|]. cbn [obind].
  destruct (Req_EM_T (s0 * (0 / s0)) 0) as [|n0]; [reflexivity|]. exfalso. apply n0. field. assumption.
Qed.
Lemma stokes_zero s1 s2 s3 : stokes_to_jones 0 s1 s2 s3 = None.
Proof. unfold stokes_to_jones, rdiv. destruct (Req_EM_T 0 0); [reflexivity|contradiction]. Qed.
