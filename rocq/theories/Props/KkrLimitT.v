(** C106: the Kramers-Kronig transforms of src/elli/kkr/kkr.py converge to the principal value
    integrals as the axis gets finer. *)
From Coq Require Import Reals Lra Psatz Lia List Arith.
From Coquelicot Require Import Coquelicot.
From Verif.Base Require Import Py.
From Verif.Model Require Import Units Kkr.
From Verif.Spec Require Import KK PV.
From Verif.Proof Require Import KkrP KkrP2.
From Verif.Props Require Import KkrT.
Import ListNotations.
Open Scope R_scope.

Lemma kernel_neq x c : 0 < x -> 0 < c -> x <> c -> x ^ 2 - c ^ 2 <> 0 /\ c ^ 2 - x ^ 2 <> 0.
Proof.
  intros X C N. assert (E : x ^ 2 - c ^ 2 = (x - c) * (x + c)) by ring. assert (D : (x - c) * (x + c) <> 0) by (apply Rmult_integral_contrapositive_currified; lra). split; lra.
Qed.
Lemma transform_kernel f g adm : In (f, g, adm) transforms -> exists k0 k1 k2, Rabs k0 + Rabs k2 <= 2 /\ Rabs k1 <= 1 /\
  (forall y x c, 0 < x -> 0 < c -> x <> c -> g y x c = y * (k1 / (x - c)) + y * (k0 / x + k2 / (x + c))) /\
  (forall x c, g 0 x c = 0) /\ (forall x, adm x -> 0 <= x).
Proof.
  intros F. unfold transforms in F. cbn [In] in F. destruct F as [F|[F|[F|[F|[]]]]]; injection F as <- <- <-.
  - exists 0, (1 / 2), (- (1 / 2)). rewrite Rabs_R0, Rabs_Ropp, !(Rabs_pos_eq (1 / 2)) by lra. split; [lra|]. split; [lra|]. split; [|split; [intros; unfold g_re, Rdiv; ring|auto]]. intros y x c X C N. unfold g_re. destruct (kernel_neq x c X C N). field. repeat split; lra || assumption.
  - exists 0, (1 / 2), (1 / 2). rewrite Rabs_R0, !(Rabs_pos_eq (1 / 2)) by lra. split; [lra|]. split; [lra|]. split; [|split; [intros; unfold g_im, Rdiv; ring|auto]]. intros y x c X C N. unfold g_im. destruct (kernel_neq x c X C N). field. repeat split; lra || assumption.
  - exists 0, (- (1 / 2)), (1 / 2). rewrite Rabs_R0, Rabs_Ropp, !(Rabs_pos_eq (1 / 2)) by lra. split; [lra|]. split; [lra|]. split; [|split; [intros; unfold g_re_reciprocal, g_re, Rdiv; ring|intros; lra]]. intros y x c X C N. unfold g_re_reciprocal, g_re. destruct (kernel_neq x c X C N). field. repeat split; lra || assumption.
  - exists 1, (- (1 / 2)), (- (1 / 2)). rewrite Rabs_R1, Rabs_Ropp, !(Rabs_pos_eq (1 / 2)) by lra. split; [lra|]. split; [lra|]. split; [|split; [intros; unfold g_im_reciprocal, g_im, Rdiv; ring|intros; lra]]. intros y x c X C N. unfold g_im_reciprocal, g_im. destruct (kernel_neq x c X C N). field. repeat split; lra || assumption.
Qed.

Lemma pv_ext f g c M V : (forall x, x <> c -> f x = g x) -> 0 < c < M -> principal_value f c M V -> principal_value g c M V.
Proof.
  intros E Hc H e e0. destruct (H e e0) as (s & s0 & D). exists (Rmin s (Rmin c (M - c))). split; [repeat apply Rmin_pos; lra|]. intros d [d0 Hd]. apply Rmin_Rgt_l in Hd. destruct Hd as [Hs Hd]. apply Rmin_Rgt_l in Hd. destruct Hd as [H1 H2].
  destruct (D d ltac:(lra)) as (u & v & U & W & R). exists u, v. split; [|split; [|exact R]]; (eapply is_RInt_ext; [|eassumption]); intros x Hx; apply E; rewrite Rmin_left, Rmax_right in Hx; lra.
Qed.

(** C106: the error is at most K h, with a constant that depends on the spectrum and on the range
    only; in particular not on the axis and not on the point. *)
Theorem C106_converges : forall f g adm p p' a b B L M, In (f, g, adm) transforms -> spectrum p p' a b B L -> b <= M ->
  exists K, forall c, 0 < c < M -> exists V, principal_value (fun x => g (p x) x c) c M V /\
  forall x h i, equidistant x h -> 0 < h -> adm (nth 0 x 0) -> nth 0 x 0 <= a -> b <= nth (length x - 1) x 0 <= M ->
    (1 <= i < length x)%nat -> nth i x 0 = c ->
    exists out r, f (map p x) x = Ok out /\ nth i out None = Some r /\ Rabs (r - 2 / PI * V) <= K * h.
Proof.
  intros f g adm p p' a b B L M F SP HM. destruct (transform_kernel f g adm F) as (k0 & k1 & k2 & Hk & Hk1 & G & G0 & A0).
  exists (2 / PI * (4 * M * folded_const a b B L)). intros c Hc. assert (SQ := SP). destruct SQ as (a0 & ab & pz & _).
  assert (E : forall x, x <> c -> integrand p k0 k1 k2 c x = g (p x) x c).
  { intros x X. destruct (Rle_lt_dec x a) as [Y|Y]; [rewrite (integrand_zero p p' a b B L SP), pz, G0 by (left; exact Y); reflexivity|]. rewrite G by (try exact X; lra). reflexivity. }
  exists (RInt (folded p p' k0 k1 k2 c) 0 M). split.
  { apply (pv_ext (integrand p k0 k1 k2 c)); [exact E|exact Hc|]. now apply (integrand_pv p p' a b B L). }
  intros x h i Eq h0 Ad Xa Xb Hi Xi. assert (N : (2 <= length x)%nat) by lia.
  destruct (C48_maclaurin_partial f g adm (map p x) x h F Eq h0 Ad (map_length p x) N) as (out & H & HL & HN & _). exists out. eexists. split; [exact H|]. split; [now apply HN|].
  assert (XL : nth (length x - 1) x 0 = nth 0 x 0 + (INR (length x) - 1) * h) by (rewrite (equi_nth x h _ Eq) by lia; rewrite minus_INR by lia; reflexivity).
  assert (Xn := equi_nth x h). rewrite XL in Xb. unfold maclaurin. rewrite Xi.
  rewrite (rsum_ext _ (fun j => integrand p k0 k1 k2 c (nth 0 x 0 + INR j * h))).
  2:{ intros j Hj. assert (Q := Hj). apply opposite_In in Q. assert (J : j <> i) by (apply opposite_neq in Hj; lia).
      rewrite (nth_indep (map p x) 0 (p 0)) by (rewrite map_length; lia). rewrite map_nth. rewrite <- (Xn j Eq) by tauto. symmetry. apply E. rewrite <- Xi. rewrite (Xn j Eq), (Xn i Eq) by lia.
      intros W. apply J, INR_eq. apply (Rmult_eq_reg_r h); lra. }
  rewrite <- Rmult_minus_distr_l, Rabs_mult, (Rabs_pos_eq (2 / PI)) by (left; apply Rdiv_lt_0_compat; [lra|apply PI_RGT_0]). rewrite (Rmult_assoc (2 / PI)). apply Rmult_le_compat_l; [left; apply Rdiv_lt_0_compat; [lra|apply PI_RGT_0]|].
  apply (axis_error p p' a b B L SP k0 k1 k2 c M Hk Hk1 Hc); try lra; try lia; try tauto; [now apply A0|]. rewrite <- (Xn i Eq) by lia. now rewrite Xi.
Qed.
Print Assumptions C106_converges.

(** A spectrum that satisfies the hypotheses: the square of a parabola between 1 and 3 *)
Definition bump (x : R) : R := Rmax 0 ((x - 1) * (3 - x)) ^ 2.
Definition bump' (x : R) : R := 2 * Rmax 0 ((x - 1) * (3 - x)) * (4 - 2 * x).
Lemma hinge_derive u : is_derive (fun u => Rmax 0 u ^ 2) u (2 * Rmax 0 u).
Proof.
  destruct (Rtotal_order u 0) as [H|[->|H]].
  - rewrite (Rmax_left 0 u), Rmult_0_r by lra. apply (is_derive_ext_loc (fun _ => 0)).
    + apply (filter_imp (fun v => v < 0)); [intros v V; change (0 = Rmax 0 v ^ 2); rewrite Rmax_left by lra; ring|]. apply (open_lt 0 u H).
    + apply (is_derive_const (V := R_NormedModule)).
  - rewrite Rmax_left, Rmult_0_r by lra. apply is_derive_Reals. intros e e0. exists (mkposreal e e0). intros h h0 Hh. cbn [pos] in Hh. rewrite Rplus_0_l, (Rmax_left 0 0) by lra.
    unfold Rmax. destruct (Rle_dec 0 h) as [P|P].
    + replace ((h ^ 2 - 0 ^ 2) / h - 0) with h by (field; exact h0). exact Hh.
    + replace ((0 ^ 2 - 0 ^ 2) / h - 0) with 0 by (field; exact h0). rewrite Rabs_R0. exact e0.
  - rewrite (Rmax_right 0 u) by lra. apply (is_derive_ext_loc (fun v => v ^ 2)).
    + apply (filter_imp (fun v => 0 < v)); [intros v V; change (v ^ 2 = Rmax 0 v ^ 2); rewrite Rmax_right by lra; ring|]. apply (open_gt 0 u H).
    + auto_derive; [trivial|ring].
Qed.
Lemma bump_in x : 1 <= x <= 3 -> bump x = ((x - 1) * (3 - x)) ^ 2 /\ bump' x = 2 * ((x - 1) * (3 - x)) * (4 - 2 * x).
Proof. intros H. unfold bump, bump'. rewrite Rmax_right by nra. auto. Qed.
Lemma bump_out x : x <= 1 \/ 3 <= x -> bump x = 0 /\ bump' x = 0.
Proof. intros H. unfold bump, bump'. rewrite Rmax_left by nra. split; ring. Qed.
Definition clip (x : R) : R := Rmax 1 (Rmin x 3).
Lemma clip_in x : 1 <= clip x <= 3.
Proof. unfold clip, Rmax, Rmin. destruct (Rle_dec x 3); [destruct (Rle_dec 1 x)|destruct (Rle_dec 1 3)]; lra. Qed.
Lemma clip_lip x y : Rabs (clip x - clip y) <= Rabs (x - y).
Proof.
  unfold clip, Rmax, Rmin. destruct (Rle_dec x 3), (Rle_dec y 3); repeat match goal with |- context [Rle_dec ?u ?v] => destruct (Rle_dec u v) end; unfold Rabs; repeat match goal with |- context [Rcase_abs ?u] => destruct (Rcase_abs u) end; lra.
Qed.
Lemma bump'_clip x : bump' x = bump' (clip x).
Proof.
  unfold clip, Rmax at 1, Rmin. destruct (Rle_dec x 3); [destruct (Rle_dec 1 x)|destruct (Rle_dec 1 3)]; try lra; try reflexivity.
  - rewrite (proj2 (bump_out x ltac:(lra))), (proj2 (bump_out 1 ltac:(lra))). reflexivity.
  - rewrite (proj2 (bump_out x ltac:(lra))), (proj2 (bump_out 3 ltac:(lra))). reflexivity.
Qed.
Lemma bump_spectrum : spectrum bump bump' 1 3 4 16.
Proof.
  split; [lra|]. split; [lra|]. split; [intros x X; now apply bump_out|]. split; [|split].
  - intros x. assert (W : is_derive (fun x : R => (x - 1) * (3 - x)) x (4 - 2 * x)) by (auto_derive; [trivial|ring]).
    evar_last; [apply (is_derive_comp (fun u => Rmax 0 u ^ 2) (fun x => (x - 1) * (3 - x)) x _ _ (hinge_derive _) W)|]. apply Rmult_comm.
  - intros x. rewrite bump'_clip. assert (C := clip_in x). rewrite (proj2 (bump_in _ C)). set (z := clip x) in *. clearbody z.
    assert (W0 : 0 <= (z - 1) * (3 - z)) by (apply Rmult_le_pos; lra). assert (W1 : (z - 1) * (3 - z) = 1 - (z - 2) ^ 2) by ring. assert (W2 := pow2_ge_0 (z - 2)). rewrite !Rabs_mult, (Rabs_pos_eq 2), (Rabs_pos_eq (z - 1)), (Rabs_pos_eq (3 - z)) by lra. assert (T : Rabs (4 - 2 * z) <= 2) by (apply Rabs_le; lra). assert (T0 := Rabs_pos (4 - 2 * z)). replace 4 with (2 * 1 * 2) at 2 by ring. apply Rmult_le_compat; try lra.
  - intros x y. rewrite (bump'_clip x), (bump'_clip y). apply Rle_trans with (16 * Rabs (clip x - clip y)); [|apply Rmult_le_compat_l; [lra|apply clip_lip]].
    assert (C := clip_in x). assert (D := clip_in y). rewrite (proj2 (bump_in _ C)), (proj2 (bump_in _ D)). set (z := clip x) in *. set (w := clip y) in *. clearbody z w.
    replace (2 * ((z - 1) * (3 - z)) * (4 - 2 * z) - 2 * ((w - 1) * (3 - w)) * (4 - 2 * w)) with ((4 * ((z - 2) * (z - 2) + (z - 2) * (w - 2) + (w - 2) * (w - 2)) - 4) * (z - w)) by ring.
    rewrite Rabs_mult. apply Rmult_le_compat_r; [apply Rabs_pos|]. apply Rabs_le. assert (-1 <= z - 2 <= 1) by lra. assert (-1 <= w - 2 <= 1) by lra. nra.
Qed.

(** An axis over the whole range, with a step as small as required *)
Definition fine (x0 h : R) (n : nat) : list R := map (fun j => x0 + INR j * h) (seq 0 n).
Lemma fine_nth x0 h n i : (i < n)%nat -> nth i (fine x0 h n) 0 = x0 + INR i * h.
Proof. intros H. unfold fine. rewrite (nth_indep _ 0 (x0 + INR 0 * h)) by (rewrite map_length, seq_length; lia). rewrite (map_nth (fun j => x0 + INR j * h)), seq_nth by lia. reflexivity. Qed.
Lemma fine_length x0 h n : length (fine x0 h n) = n.
Proof. unfold fine. now rewrite map_length, seq_length. Qed.
Lemma fine_equi x0 h n : equidistant (fine x0 h n) h.
Proof. intros i Hi. rewrite fine_length in Hi. rewrite !fine_nth by lia. rewrite S_INR. ring. Qed.

(** C106 example: the real part at 2 of the bump, on the axes from 1 to 4 in steps of 1/m: it is the
    limit, with an error of at most K/m. *)
Example C106_example : exists K V, principal_value (fun x => g_im (bump x) x 2) 2 4 V /\
  forall m, (1 <= m)%nat -> exists out r, im2re (map bump (fine 1 (/ INR m) (3 * m + 1))) (fine 1 (/ INR m) (3 * m + 1)) = Ok out /\
    nth m out None = Some r /\ Rabs (r - 2 / PI * V) <= K * / INR m.
Proof.
  destruct (C106_converges im2re g_im (Rle 0) bump bump' 1 3 4 16 4 ltac:(cbn; auto) bump_spectrum ltac:(lra)) as (K & H). destruct (H 2 ltac:(lra)) as (V & P & Q). exists K, V. split; [exact P|].
  intros m Hm. assert (M0 : 0 < INR m) by (apply lt_0_INR; lia). apply (Q _ (/ INR m) m); rewrite ?fine_length.
  - apply fine_equi.
  - now apply Rinv_0_lt_compat.
  - rewrite fine_nth by lia. change (INR 0) with 0. lra.
  - rewrite fine_nth by lia. change (INR 0) with 0. lra.
  - rewrite fine_nth by lia. replace (3 * m + 1 - 1)%nat with (3 * m)%nat by lia. rewrite mult_INR. replace (INR 3) with 3 by (cbn; ring). replace (1 + 3 * INR m * / INR m) with 4 by (field; lra). lra.
  - lia.
  - rewrite fine_nth by lia. field. lra.
Qed.
Print Assumptions C106_example.

(** The documentation of im2re_reciprocal (kkr.py:219-243) states another integrand: x stands in the
    numerator. *)
Definition g_documented (y x x_i : R) : R := x * y / (1 - x ^ 2 / x_i ^ 2).

Lemma pv_unique f c M V W : principal_value f c M V -> principal_value f c M W -> V = W.
Proof.
  intros A B. apply cond_eq. intros e e0. destruct (A (e / 2) ltac:(lra)) as (s & s0 & S). destruct (B (e / 2) ltac:(lra)) as (t & t0 & T).
  set (d := Rmin s t / 2). assert (0 < Rmin s t) by now apply Rmin_pos. assert (Rmin s t <= s) by apply Rmin_l. assert (Rmin s t <= t) by apply Rmin_r.
  destruct (S d ltac:(unfold d; lra)) as (u & v & U & U' & Q). destruct (T d ltac:(unfold d; lra)) as (u' & v' & X & X' & Q').
  rewrite <- (is_RInt_unique _ _ _ _ U), <- (is_RInt_unique _ _ _ _ U') in Q. rewrite <- (is_RInt_unique _ _ _ _ X), <- (is_RInt_unique _ _ _ _ X') in Q'.
  revert Q Q'. generalize (RInt f 0 (c - d) + RInt f (c + d) M). intros z Q Q'. replace (V - W) with ((z - W) + - (z - V)) by ring. eapply Rle_lt_trans; [apply Rabs_triang|]. rewrite Rabs_Ropp. lra.
Qed.
Lemma pv_off f v : is_RInt f 1 3 v -> (forall x, x <= 1 \/ 3 <= x -> f x = 0) -> principal_value f 4 5 v.
Proof.
  intros F Z e e0. exists 1. split; [lra|]. intros d Hd. exists v, 0. split; [|split].
  - replace v with (plus (plus 0 v) 0) by (unfold plus; cbn; ring). apply (is_RInt_Chasles f 0 3); [apply (is_RInt_Chasles f 0 1); [|exact F]|]; apply zero_RInt; try lra; intros x Hx; apply Z; lra.
  - apply zero_RInt; [lra|]. intros x Hx. apply Z. lra.
  - replace (v + 0 - v) with 0 by ring. now rewrite Rabs_R0.
Qed.
Lemma bump_continuous x : continuous bump x.
Proof. apply (ex_derive_continuous bump). exists (bump' x). apply bump_spectrum. Qed.
Lemma bump_cont_mult q x : ex_derive q x -> continuous (fun x => bump x * q x) x.
Proof. intros Q. apply (continuous_mult (K := R_AbsRing) bump q); [apply bump_continuous|]. now apply (ex_derive_continuous q). Qed.

(** C106 refuted as documented: on ever finer axes im2re_reciprocal stays away from the integral that
    its documentation gives. *)
Theorem C106_documented_refuted : exists p p' a b B L M c V eta, spectrum p p' a b B L /\ b <= M /\ 0 < c < M /\
  principal_value (fun x => g_documented (p x) x c) c M V /\ 0 < eta /\
  forall s, 0 < s -> exists x h i out r, equidistant x h /\ 0 < h < s /\ 0 < nth 0 x 0 <= a /\ b <= nth (length x - 1) x 0 <= M /\
    (1 <= i < length x)%nat /\ nth i x 0 = c /\ im2re_reciprocal (map p x) x = Ok out /\ nth i out None = Some r /\
    eta <= Rabs (r - 2 / PI * V).
Proof.
  destruct (C106_converges im2re_reciprocal g_im_reciprocal (Rlt 0) bump bump' 1 3 4 16 5 ltac:(cbn; auto) bump_spectrum ltac:(lra)) as (K & H). destruct (H 4 ltac:(lra)) as (V & P & Q).
  set (q1 := fun x => 16 / (x * (16 - x * x))). set (q2 := fun x => 16 * x / (16 - x * x)).
  assert (D1 : forall x, 1 <= x <= 3 -> ex_derive q1 x) by (intros x X; unfold q1; auto_derive; repeat split; nra).
  assert (D2 : forall x, 1 <= x <= 3 -> ex_derive q2 x) by (intros x X; unfold q2; auto_derive; repeat split; nra).
  assert (I : forall q, (forall x, 1 <= x <= 3 -> ex_derive q x) -> ex_RInt (fun x => bump x * q x) 1 3).
  { intros q D. apply (ex_RInt_continuous (V := R_CompleteNormedModule)). intros z Z. rewrite Rmin_left, Rmax_right in Z by lra. apply bump_cont_mult. now apply D. }
  assert (P1 : principal_value (fun x => g_im_reciprocal (bump x) x 4) 4 5 (RInt (fun x => bump x * q1 x) 1 3)).
  { apply pv_off; [|intros x X; cbv beta; rewrite (proj1 (bump_out x X)); unfold g_im_reciprocal, g_im, Rdiv; rewrite !Rmult_0_l; reflexivity]. eapply is_RInt_ext; [|apply (RInt_correct (V := R_CompleteNormedModule)), (I q1 D1)].
    intros x X. rewrite Rmin_left, Rmax_right in X by lra. change (bump x * q1 x = g_im_reciprocal (bump x) x 4). unfold q1, g_im_reciprocal, g_im. assert (16 - x * x <> 0) by nra. assert (16 - x ^ 2 <> 0) by nra. field. repeat split; try lra; nra. }
  assert (P2 : principal_value (fun x => g_documented (bump x) x 4) 4 5 (RInt (fun x => bump x * q2 x) 1 3)).
  { apply pv_off; [|intros x X; cbv beta; rewrite (proj1 (bump_out x X)); unfold g_documented, Rdiv; rewrite Rmult_0_r, Rmult_0_l; reflexivity]. eapply is_RInt_ext; [|apply (RInt_correct (V := R_CompleteNormedModule)), (I q2 D2)].
    intros x X. rewrite Rmin_left, Rmax_right in X by lra. change (bump x * q2 x = g_documented (bump x) x 4). unfold q2, g_documented. assert (16 - x * x <> 0) by nra. field. repeat split; try lra; nra. }
  rewrite (pv_unique _ _ _ _ _ P P1) in Q. set (V1 := RInt (fun x => bump x * q1 x) 1 3) in *. set (V2 := RInt (fun x => bump x * q2 x) 1 3) in *.
  assert (LT : 0 < V2 - V1).
  { unfold V1, V2. change (0 < minus (RInt (fun x => bump x * q2 x) 1 3) (RInt (fun x => bump x * q1 x) 1 3)). rewrite <- (RInt_minus (V := R_CompleteNormedModule)) by (apply I; assumption). apply RInt_gt_0; [lra| |].
    - intros x X. change (0 < bump x * q2 x - bump x * q1 x). rewrite <- Rmult_minus_distr_l. apply Rmult_lt_0_compat.
      + rewrite (proj1 (bump_in x ltac:(lra))). apply pow_lt, Rmult_lt_0_compat; lra.
      + replace (q2 x - q1 x) with (16 * ((x - 1) * (x + 1)) / (x * (16 - x * x))) by (unfold q1, q2; field; split; nra). apply Rdiv_lt_0_compat; nra.
    - intros x X. apply (continuous_minus (V := R_NormedModule)); apply bump_cont_mult; [apply D2|apply D1]; exact X. }
  clearbody V1 V2. assert (Pp := PI_RGT_0). assert (TP : 0 < 2 / PI) by (apply Rdiv_lt_0_compat; lra). set (w := 2 / PI) in *. clearbody w. assert (ET : 0 < w * (V2 - V1)) by now apply Rmult_lt_0_compat.
  exists bump, bump', 1, 3, 4, 16, 5, 4, V2, (w * (V2 - V1) / 2). split; [exact bump_spectrum|]. split; [lra|]. split; [lra|]. split; [exact P2|]. split; [lra|].
  intros s s0. assert (KP := Rabs_pos K). assert (EP : 0 < w * (V2 - V1) / 2 / (Rabs K + 1)) by (apply Rdiv_lt_0_compat; lra).
  destruct (archimed_cor1 (Rmin s (w * (V2 - V1) / 2 / (Rabs K + 1)))) as (m & Hm & M1); [now apply Rmin_pos|]. apply Rmin_Rgt_l in Hm. destruct Hm as [Hs He].
  assert (M0 : 0 < INR m) by (apply lt_0_INR; lia). assert (h0 : 0 < / INR m) by now apply Rinv_0_lt_compat.
  assert (X0 : nth 0 (fine 1 (/ INR m) (4 * m + 1)) 0 = 1) by (rewrite fine_nth by lia; change (INR 0) with 0; ring).
  assert (XL : nth (4 * m + 1 - 1) (fine 1 (/ INR m) (4 * m + 1)) 0 = 5) by (rewrite fine_nth by lia; replace (4 * m + 1 - 1)%nat with (4 * m)%nat by lia; rewrite mult_INR; replace (INR 4) with 4 by (cbn; ring); field; lra).
  assert (XI : nth (3 * m) (fine 1 (/ INR m) (4 * m + 1)) 0 = 4) by (rewrite fine_nth by lia; rewrite mult_INR; replace (INR 3) with 3 by (cbn; ring); field; lra).
  destruct (Q (fine 1 (/ INR m) (4 * m + 1)) (/ INR m) (3 * m)%nat) as (out & r & O & N & E); rewrite ?fine_length, ?X0, ?XL; try lra; try lia; try apply fine_equi; try exact XI.
  exists (fine 1 (/ INR m) (4 * m + 1)), (/ INR m), (3 * m)%nat, out, r. rewrite fine_length, X0, XL. repeat split; try lra; try lia; try apply fine_equi; try assumption.
  assert (KE : K * / INR m < w * (V2 - V1) / 2).
  { apply Rle_lt_trans with ((Rabs K + 1) * / INR m); [apply Rmult_le_compat_r; [lra|assert (T := Rle_abs K); lra]|]. apply (Rmult_gt_compat_l (Rabs K + 1)) in He; [|lra]. replace ((Rabs K + 1) * (w * (V2 - V1) / 2 / (Rabs K + 1))) with (w * (V2 - V1) / 2) in He by (field; lra). lra. }
  assert (T := Rabs_triang_inv (w * V2 - w * V1) (r - w * V1)). rewrite (Rabs_pos_eq (w * V2 - w * V1)) in T by lra. replace (w * V2 - w * V1 - (r - w * V1)) with (- (r - w * V2)) in T by ring. rewrite Rabs_Ropp in T. lra.
Qed.
Print Assumptions C106_documented_refuted.
