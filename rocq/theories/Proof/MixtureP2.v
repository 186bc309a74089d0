From Coq Require Import Reals Lra Lia List Psatz.
From Coquelicot Require Import Complex.
From Verif.Base Require Import Py Cx Mat.
From Verif.Model Require Import Rotation Materials Mixture.
From Verif.Spec Require Import Rot Effective.
From Verif.Proof Require Import RotationP DispersionsP MixtureP.
Import ListNotations.
Open Scope R_scope.
Open Scope C_scope.
Open Scope py_scope.

(** ** Bruggeman *)
Section B.
Variables (f : R) (h g : C).
Hypothesis (h0 : h <> 0) (g0 : g <> 0).
Let s := Csqrt h.
Let t := Csqrt g.
Let p := s / t.
Let b := RtoC (1 / 4) * (RtoC (3 * f - 1) * (/ p - p) + p).
Let z := b + Csqrt (b * b + RtoC (1 / 2)).

Lemma s0 : s <> 0. Proof. now apply Csqrt_neq0. Qed.
Lemma t0 : t <> 0. Proof. now apply Csqrt_neq0. Qed.

Lemma z_quadratic : z * z = 2 * b * z + RtoC (1 / 2).
Proof.
  unfold z. set (r := Csqrt (b * b + RtoC (1 / 2))).
  assert (E : r * r = b * b + RtoC (1 / 2)) by apply Csqrt_sqr.
  transitivity (b * b + 2 * b * r + r * r); [ring|]. rewrite E. ring.
Qed.

Lemma b4 : 4 * (b * (s * t)) = RtoC (3 * f - 1) * (g - h) + h.
Proof.
  assert (Es : s * s = h) by apply Csqrt_sqr. assert (Et : t * t = g) by apply Csqrt_sqr.
  unfold b, p. pose proof s0; pose proof t0.
  transitivity (4 * RtoC (1 / 4) * (RtoC (3 * f - 1) * (t * t - s * s) + s * s)).
  { field. auto. }
  rewrite Es, Et. replace (4 * RtoC (1 / 4)) with (RtoC 1) by (Ccomp; lra). ring.
Qed.

Lemma brugg_equation_z : bruggeman_equation f h g (z * s * t).
Proof.
  assert (Es : s * s = h) by apply Csqrt_sqr. assert (Et : t * t = g) by apply Csqrt_sqr.
  set (e := z * s * t).
  assert (Q : 2 * (e * e) = e * (RtoC (3 * f - 1) * (g - h) + h) + h * g).
  { unfold e. transitivity (2 * (z * z) * (s * s) * (t * t)); [ring|].
    rewrite z_quadratic. transitivity (4 * (b * (s * t)) * (z * s * t) + (2 * RtoC (1 / 2)) * (s * s) * (t * t)); [ring|].
    rewrite b4, Es, Et. replace (2 * RtoC (1 / 2)) with (RtoC 1) by (Ccomp; lra). ring. }
  unfold bruggeman_equation. rewrite !RtoC_minus, RtoC_mult in *.
  transitivity (e * ((RtoC 3 * RtoC f - 1) * (g - h) + h) + h * g - 2 * (e * e)).
  { replace (RtoC 3) with (3 : C) by reflexivity. ring. }
  rewrite Q. ring.
Qed.

Lemma z_Re : (0 <= fst z)%R.
Proof.
  (* the other root z' = b - r satisfies z z' = -1/2 *)
  set (r := Csqrt (b * b + RtoC (1 / 2))).
  assert (Rr : (0 <= fst r)%R) by apply Csqrt_Re_ge0.
  assert (E : r * r = b * b + RtoC (1 / 2)) by apply Csqrt_sqr.
  unfold z. fold r. clearbody r.
  pose proof (f_equal fst E) as E1. pose proof (f_equal snd E) as E2.
  destruct b as [b1 b2], r as [r1 r2]; simpl in *.
  destruct (Rle_dec 0 (b1 + r1)) as [|N]; [assumption|exfalso].
  assert (N' : (b1 - r1 < 0)%R) by lra. apply Rnot_le_lt in N.
  assert (X : (0 < (b1 + r1) * (b1 - r1))%R) by nra.
  assert (Y : (1 / 2 < (b2 + r2) * (b2 - r2))%R) by nra.
  assert (I : ((b1 + r1) * (b2 - r2) + (b2 + r2) * (b1 - r1) = 0)%R) by nra.
  assert (J : ((b1 + r1) * ((b2 + r2) * (b2 - r2)) + (b2 + r2) * (b2 + r2) * (b1 - r1) = 0)%R).
  { transitivity ((b2 + r2) * ((b1 + r1) * (b2 - r2) + (b2 + r2) * (b1 - r1)))%R; [ring|]. rewrite I. ring. }
  assert (0 <= (b2 + r2) * (b2 + r2))%R by nra.
  set (u := ((b2 + r2) * (b2 + r2))%R) in *. set (v := ((b2 + r2) * (b2 - r2))%R) in *.
  assert ((b1 + r1) * v < 0)%R by nra. assert (u * (b1 - r1) <= 0)%R by nra. lra.
Qed.

Lemma z_neq0 : z <> 0.
Proof.
  intros Z. pose proof z_quadratic as Q. rewrite Z in Q.
  apply (f_equal fst) in Q. simpl in Q. lra.
Qed.
End B.

Lemma brugg_equation_holds f h g e : bruggeman f h g = Some e -> bruggeman_equation f h g e.
Proof.
  intros H. destruct (brugg_cases _ _ _ _ H) as [[-> ->]|(_ & h0 & g0 & ->)].
  - unfold bruggeman_equation. ring.
  - exact (brugg_equation_z f h g h0 g0).
Qed.

(** The ratio of the roots lies in the open right half plane *)
Lemma ratio_Re (h g : C) : passive h -> passive g -> h <> 0 -> g <> 0 -> ~ lossless_opposite h g ->
  (0 < fst (Csqrt h * Cconj (Csqrt g))%C)%R.
Proof.
  unfold passive, lossless_opposite. intros Ph Pg h0 g0 N.
  pose proof (Csqrt_Re_ge0 h) as A. pose proof (Csqrt_Im_ge0 h Ph) as B.
  pose proof (Csqrt_Re_ge0 g) as A'. pose proof (Csqrt_Im_ge0 g Pg) as B'.
  pose proof (Csqrt_sqr h) as Eh. pose proof (Csqrt_sqr g) as Eg.
  pose proof (Csqrt_neq0 h h0) as Sh. pose proof (Csqrt_neq0 g g0) as Sg.
  destruct (Csqrt h) as [a b], (Csqrt g) as [c d]. simpl in *.
  destruct (Rlt_dec 0 (a * c - b * - d)) as [|K]; [assumption|exfalso].
  assert (ac : (0 <= a * c)%R) by nra. assert (bd : (0 <= b * d)%R) by nra.
  assert (ac0 : (a * c = 0)%R) by nra. assert (bd0 : (b * d = 0)%R) by nra.
  pose proof (f_equal fst Eh) as E1. pose proof (f_equal snd Eh) as E2.
  pose proof (f_equal fst Eg) as E3. pose proof (f_equal snd Eg) as E4. simpl in *.
  destruct (Req_dec a 0) as [->|Na].
  - assert (b <> 0%R) by (intros ->; now apply Sh).
    assert (d = 0%R) by (destruct (Rmult_integral _ _ bd0); [contradiction|assumption]). subst d.
    assert (c <> 0%R) by (intros ->; now apply Sg).
    apply N. rewrite <- E1, <- E2, <- E3, <- E4. repeat split; try lra.
    assert (0 < b * b)%R by nra. assert (0 < c * c)%R by nra. nra.
  - assert (c = 0%R) by (destruct (Rmult_integral _ _ ac0); [contradiction|assumption]). subst c.
    assert (d <> 0%R) by (intros ->; now apply Sg).
    assert (b = 0%R) by (destruct (Rmult_integral _ _ bd0); [assumption|contradiction]). subst b.
    apply N. rewrite <- E1, <- E2, <- E3, <- E4. repeat split; try lra.
    assert (0 < a * a)%R by nra. assert (0 < d * d)%R by nra. nra.
Qed.

Lemma Re_div (a c : C) : c <> 0 -> (0 < fst (a * Cconj c)%C)%R -> (0 < fst (a / c)%C)%R.
Proof.
  intros c0 H. pose proof (Cnorm2_gt0 c c0) as N.
  replace (a / c) with (a * Cconj c * RtoC (/ Cnorm2 c)).
  - replace (fst (a * Cconj c * RtoC (/ Cnorm2 c))%C) with (fst (a * Cconj c)%C * / Cnorm2 c)%R by (simpl; ring).
    apply Rmult_lt_0_compat; [assumption|]. now apply Rinv_0_lt_compat.
  - assert (E : c * Cconj c = RtoC (Cnorm2 c)) by (unfold Cnorm2; Ccomp; ring).
    apply (Cmult_cancel (c * Cconj c)).
    + rewrite E. apply C_of_R_neq. lra.
    + transitivity (a * Cconj c * (RtoC (/ Cnorm2 c) * (c * Cconj c))); [ring|].
      rewrite E, <- RtoC_mult, Rinv_l by lra. rewrite <- E. field. exact c0.
Qed.

Lemma Re_inv (a : C) : (0 < fst a)%R -> (0 < fst (/ a)%C)%R.
Proof.
  intros H. unfold Cinv; simpl. apply Rdiv_lt_0_compat; [assumption|]. nra.
Qed.

Lemma brugg_some (f : R) (h g : C) : h <> g -> h <> 0 -> g <> 0 ->
  let p := Csqrt h / Csqrt g in
  let b := RtoC (1 / 4) * (RtoC (3 * f - 1) * (/ p - p) + p) in
  bruggeman f h g = Some ((b + Csqrt (b * b + RtoC (1 / 2))) * Csqrt h * Csqrt g).
Proof.
  intros E h0 g0. destruct (bruggeman f h g) as [e|] eqn:B.
  - destruct (brugg_cases _ _ _ _ B) as [[? _]|(_ & _ & _ & ->)]; [contradiction|]. reflexivity.
  - apply brugg_none in B. destruct B as [_ [|]]; contradiction.
Qed.

Lemma root_choice (b w : C) : (0 < fst w)%R -> b * b + RtoC (1 / 2) = w * w ->
  Csqrt (b * b + RtoC (1 / 2)) = w.
Proof. intros H E. symmetry. apply Csqrt_unique; [left; exact H|]. now rewrite E. Qed.

Lemma brugg_host (h g : C) : passive h -> passive g -> h <> 0 -> g <> 0 -> ~ lossless_opposite h g ->
  bruggeman 0 h g = Some h.
Proof.
  intros Ph Pg h0 g0 N. destruct (Ceq_dec h g) as [E|E].
  { subst. unfold bruggeman. destruct (Ceq_dec g g); [reflexivity|contradiction]. }
  rewrite brugg_some by assumption.
  pose proof (ratio_Re h g Ph Pg h0 g0 N) as Rp. apply Re_div in Rp; [|now apply Csqrt_neq0].
  pose proof (Csqrt_sqr h) as Es.
  pose proof (Csqrt_neq0 h h0) as s0. pose proof (Csqrt_neq0 g g0) as t0.
  set (s := Csqrt h) in *. set (t := Csqrt g) in *. set (p := s / t) in *.
  assert (p0 : p <> 0) by (unfold p; now apply Cdiv_neq0).
  set (b := RtoC (1 / 4) * (RtoC (3 * 0 - 1) * (/ p - p) + p)).
  assert (Eb : b = RtoC (1 / 4) * (2 * p - / p)).
  { unfold b. replace (RtoC (3 * 0 - 1)) with (- (1) : C) by (Ccomp; lra). ring. }
  rewrite (root_choice b (RtoC (1 / 4) * (2 * p + / p))).
  - f_equal. rewrite Eb. transitivity (4 * RtoC (1 / 4) * (p * t) * s); [ring|].
    replace (4 * RtoC (1 / 4)) with (RtoC 1) by (Ccomp; lra).
    replace (p * t) with s by (unfold p; field; assumption). rewrite <- Es. ring.
  - pose proof (Re_inv p Rp) as Ri. destruct p as [p1 p2], (/ (p1, p2)) as [q1 q2]. simpl in *. lra.
  - rewrite Eb. replace (RtoC (1 / 2)) with (RtoC (1 / 4) * RtoC (1 / 4) * 8 * (p * / p)).
    + ring_simplify. field. exact p0.
    + rewrite Cinv_r by exact p0. Ccomp; lra.
Qed.

Lemma brugg_swap f h g : bruggeman f h g = bruggeman (1 - f) g h.
Proof.
  destruct (Ceq_dec h g) as [E|E].
  { subst. unfold bruggeman. destruct (Ceq_dec g g); [reflexivity|contradiction]. }
  destruct (bruggeman f h g) as [e|] eqn:B.
  - destruct (brugg_cases _ _ _ _ B) as [[? _]|(_ & h0 & g0 & ->)]; [contradiction|].
    rewrite brugg_some by auto.
    pose proof (Csqrt_neq0 h h0) as s0. pose proof (Csqrt_neq0 g g0) as t0.
    set (s := Csqrt h) in *. set (t := Csqrt g) in *.
    set (b := RtoC (1 / 4) * (RtoC (3 * f - 1) * (/ (s / t) - s / t) + s / t)).
    set (b' := RtoC (1 / 4) * (RtoC (3 * (1 - f) - 1) * (/ (t / s) - t / s) + t / s)).
    assert (b = b').
    { unfold b, b'. rewrite !RtoC_minus, !RtoC_mult, RtoC_minus. field. auto. }
    rewrite <- H. f_equal. ring.
  - apply brugg_none in B. symmetry. apply brugg_none. split; [auto|]. tauto.
Qed.

Lemma brugg_guest (h g : C) : passive h -> passive g -> h <> 0 -> g <> 0 -> ~ lossless_opposite h g ->
  bruggeman 1 h g = Some g.
Proof.
  intros. rewrite brugg_swap. replace (1 - 1)%R with 0%R by ring. apply brugg_host; auto.
  unfold lossless_opposite in *. intros (A & B & D). apply H3. repeat split; auto. lra.
Qed.
