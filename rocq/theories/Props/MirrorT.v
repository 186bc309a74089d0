(** C94: quarter wave stacks and Bragg mirrors at normal incidence, for Solver2x2. *)
From Coq Require Import Reals Lra Psatz ZArith Lia.
From Coquelicot Require Import Complex.
From Coq Require Import List.
From Verif.Base Require Import Py Cx Mat.
From Verif.Model Require Import Units Ellips Structure Solver2.
From Verif.Spec Require Import Stack Waves Mirror.
From Verif.Proof Require Import StackP FluxP UnitsP DispersionsP StructureP Solver2P Solver2P2 Solver2P3 Solver2P4 Solver2P5 ReverseP.
From Verif.Props Require Import Solver2T EnergyT Optics2T.
Import ListNotations.
Open Scope R_scope.
Open Scope C_scope.

Lemma seen_pos es n : (0 < n)%R -> Forall (fun e => (0 < e)%R) es -> (0 < seen_index es n)%R.
Proof.
  intros P F. induction F as [|e es E F IH]; cbn [seen_index]; [exact P|].
  apply Rmult_lt_0_compat; [exact E|now apply Rinv_0_lt_compat].
Qed.

(** Exchange of the two fields *)
Definition swap (l : C * C * C) : C * C * C := (snd (fst l), fst (fst l), snd l).
Lemma matched_swap ls : forall u v pb qb t, matched u v ls pb qb t -> matched v u (map swap ls) qb pb t.
Proof.
  induction ls as [|[[p q] d] ls IH]; intros u v pb qb t; cbn [matched map swap fst snd]; [tauto|].
  intros (A & B & E1 & E2 & H). exists A, (- B). cbv zeta in *. split; [rewrite E2; ring|]. split; [rewrite E1; ring|].
  apply IH in H.
  replace (q * (A * Cexp (Ci * d) + - B * Cexp (- (Ci * d)))) with (q * (A * Cexp (Ci * d) - B * Cexp (- (Ci * d)))) by ring.
  replace (p * (A * Cexp (Ci * d) - - B * Cexp (- (Ci * d)))) with (p * (A * Cexp (Ci * d) + B * Cexp (- (Ci * d)))) by ring.
  exact H.
Qed.

Lemma quarter_fields (es : list (R * C)) (n : R) : (0 < n)%R ->
  Forall (fun l => (0 < fst l)%R /\ Cexp (Ci * snd l) * Cexp (Ci * snd l) = - (1)) es ->
  forall u v t, matched u v (map (fun l => (RtoC 1, RtoC (sqrt (fst l)), snd l)) es) 1 (RtoC n) t ->
  v = RtoC (seen_index (map fst es) n) * u.
Proof.
  intros P F. induction F as [|[e d] es [E W] F IH]; intros u v t; cbn [map matched seen_index fst snd].
  - intros [-> ->]. ring.
  - intros (A & B & -> & -> & H). cbv zeta in H. apply IH in H. cbn [fst snd] in *.
    assert (Y : (0 < seen_index (map fst es) n)%R).
    { apply seen_pos; [exact P|]. apply Forall_map. eapply Forall_impl; [|exact F]. intros a [Z _]. exact Z. }
    set (y := seen_index (map fst es) n) in *. set (w := Cexp (Ci * d)) in *.
    assert (W' : Cexp (- (Ci * d)) = - w).
    { assert (X := exp_cancel d). fold w in X. transitivity (- (w * w) * Cexp (- (Ci * d))); [rewrite W; ring|].
      transitivity (- w * (w * Cexp (- (Ci * d)))); [ring|]. rewrite X. ring. }
    rewrite W' in H.
    assert (Nw : w <> 0) by (intros Z; rewrite Z in W; assert (O : RtoC 0 = - (1)) by (rewrite <- W; ring); apply (f_equal fst) in O; simpl in O; lra).
    assert (H2 : RtoC (sqrt e) * (A + B) = RtoC y * (A - B)).
    { apply (Cmult_cancel w); [exact Nw|]. transitivity (RtoC (sqrt e) * (A * w - B * - w)); [ring|]. rewrite H. ring. }
    assert (Ny : RtoC y <> 0) by (apply C_of_R_neq; lra).
    apply (Cmult_cancel (RtoC y)); [exact Ny|]. transitivity (RtoC (sqrt e) * (RtoC y * (A - B))); [ring|]. rewrite <- H2.
    transitivity (RtoC (sqrt e * sqrt e) * (A + B)); [rewrite RtoC_mult; ring|]. rewrite sqrt_sqrt by lra.
    rewrite Cmult_1_l, Cmult_assoc, <- RtoC_mult. f_equal. f_equal. field. lra.
Qed.

Lemma reflected_eq (a y : R) (r : C) : (0 < a)%R -> (0 < y)%R ->
  RtoC a * (1 - r) = RtoC y * (1 + r) -> r = RtoC (reflected a y).
Proof.
  intros A Y E. unfold reflected. rewrite RtoC_div, RtoC_minus, RtoC_plus by lra.
  assert (N : RtoC a + RtoC y <> 0) by (rewrite <- RtoC_plus; apply C_of_R_neq; lra).
  apply (Cmult_cancel (RtoC a + RtoC y)); [exact N|].
  transitivity (RtoC a - RtoC y); [|field; exact N].
  transitivity (RtoC a - RtoC y - (RtoC a * (1 - r) - RtoC y * (1 + r))); [ring|]. rewrite E. ring.
Qed.

(** C94: any number of layers, each an odd number of quarter waves thick. *)
Theorem C94_quarter_stack : forall lbda (x y : R) (ms : list (R * nat)),
  (0 < lbda)%R -> (0 < x)%R -> (0 < y)%R -> Forall (fun m => (0 < fst m)%R) ms ->
  let res := solver2 0 lbda (RtoC x) (map (fun m => (quarters lbda (fst m) (snd m), RtoC (fst m))) ms) (RtoC y) in
  let n := seen_index (map fst ms) (sqrt y) in
  (exists t, rt_s res = Some (RtoC (reflected (sqrt x) n), t)) /\
  (exists t, rt_p res = Some (RtoC (- reflected (sqrt x) n), t)).
Proof.
  intros lb x y ms L P Py F res n.
  assert (sx := sqrt_lt_R0 x P). assert (sy := sqrt_lt_R0 y Py).
  assert (n0 : (0 < n)%R) by (apply seen_pos; [exact sy|apply Forall_map; exact F]).
  assert (Df := C37_defined 0 lb x y (map (fun m => (quarters lb (fst m) (snd m), fst m)) ms) P). rewrite cos_zero in Df.
  change (x * (sin (0 * PI / 180) * sin (0 * PI / 180)))%R with (tangential2 x 0) in Df. rewrite tangential_0 in Df.
  specialize (Df ltac:(lra) L). cbv zeta in Df. specialize (Df Py). rewrite map_map in Df. cbn [fst snd] in Df. fold res in Df.
  destruct Df as (D1 & D2 & _).
  { apply Forall_map. eapply Forall_impl; [|exact F]. intros [e m] E. cbn [fst snd] in *. split; [|lra].
    unfold quarters. assert (I0 := pos_INR m). assert (se := sqrt_lt_R0 e E).
    apply Rmult_le_pos; [apply Rmult_le_pos; lra|]. left. apply Rinv_0_lt_compat. lra. }
  destruct D1 as (rs & ts & Es). destruct D2 as (rp & tp & Ep).
  { apply Forall_map. eapply Forall_impl; [|exact F]. intros [e m] E. exact E. }
  destruct (normal_half_of x P) as [X1 X2]. destruct (normal_half_of y Py) as [Y1 Y2].
  set (ph := fun m : R * nat => k0 lb * Csqrt (RtoC (fst m)) * Ccos (Casin (0 / Csqrt (RtoC (fst m)))) * RtoC (quarters lb (fst m) (snd m))).
  assert (W : Forall (fun l : R * C => (0 < fst l)%R /\ Cexp (Ci * snd l) * Cexp (Ci * snd l) = - (1)) (map (fun m => (fst m, ph m)) ms)).
  { apply Forall_map. eapply Forall_impl; [|exact F]. intros [e m] E. cbn [fst snd] in *. split; [exact E|].
    assert (se := sqrt_lt_R0 e E).
    assert (Ne : Csqrt (RtoC e) = RtoC (sqrt e)) by (apply Csqrt_pos; lra).
    assert (Ph : ph (e, m) = RtoC ((2 * INR m + 1) * PI / 2)).
    { unfold ph. cbn [fst snd]. rewrite cos_normal, Ne, k0_R by lra. rewrite Cmult_1_r, <- !RtoC_mult. f_equal. unfold quarters. field. lra. }
    rewrite <- Cexp_plus, Ph. replace (Ci * RtoC ((2 * INR m + 1) * PI / 2) + Ci * RtoC ((2 * INR m + 1) * PI / 2))
      with (Ci * RtoC (IZR (2 * Z.of_nat m + 1) * PI)).
    - rewrite Cexp_pi. unfold sign_of. replace (Z.even (2 * Z.of_nat m + 1)) with false.
      + rewrite <- RtoC_opp. reflexivity.
      + symmetry. rewrite Z.add_1_r, Z.even_succ, <- Z.negb_even, Z.even_mul. reflexivity.
    - rewrite plus_IZR, mult_IZR, <- INR_IZR_INZ. rewrite <- Cmult_plus_distr_l, <- RtoC_plus. f_equal. f_equal. field. }
  assert (Q := quarter_fields _ _ sy W). rewrite !map_map in Q. cbn [fst snd] in Q. fold n in Q.
  split.
  - exists ts. rewrite Es. f_equal. f_equal. apply (rt_some true) in Es. destruct Es as [_ Es]. rewrite (kx_normal x P) in Es.
    apply (amplitudes_scattering (pf true) (pc true) (pf_char true)) in Es. destruct Es as [S _].
    unfold scattering in S. unfold pc, char_s in S. cbn [fst snd] in S. rewrite X1, X2, Y1, Y2, !Cmult_1_r, Cmult_1_l in S.
    apply reflected_eq; [exact sx|exact n0|]. apply (Q _ _ ts).
    rewrite !map_map in S. erewrite map_ext_in; [exact S|].
    intros [e m] H. rewrite Forall_forall in F. specialize (F _ H). cbn [fst snd] in *.
    unfold char_layer, layer_of, ph. cbn [fst snd]. rewrite cos_normal, Csqrt_pos by lra. rewrite !Cmult_1_r. reflexivity.
  - exists tp. rewrite Ep. f_equal. f_equal. apply (rt_some false) in Ep. destruct Ep as [_ Ep]. rewrite (kx_normal x P) in Ep.
    apply (amplitudes_scattering (pf false) (pc false) (pf_char false)) in Ep. destruct Ep as [S _].
    unfold scattering in S. unfold pc, char_p in S. cbn [fst snd] in S. rewrite X1, X2, Y1, Y2, Cmult_1_l in S.
    assert (Rr : - rp = RtoC (reflected (sqrt x) n)).
    { apply reflected_eq; [exact sx|exact n0|].
      transitivity (RtoC (sqrt x) * (1 + rp)); [ring|]. transitivity (RtoC n * (1 - rp)); [|ring].
      apply matched_swap in S. apply (Q _ _ tp).
      rewrite !map_map in S. erewrite map_ext_in; [exact S|].
      intros [e m] H. rewrite Forall_forall in F. specialize (F _ H). cbn [fst snd] in *.
      unfold swap, char_layer, layer_of, ph. cbn [fst snd]. rewrite cos_normal, Csqrt_pos by lra. reflexivity. }
    rewrite RtoC_opp, <- Rr. ring.
Qed.
Print Assumptions C94_quarter_stack.

Lemma seen_app es es' n : seen_index (es ++ es') n = seen_index es (seen_index es' n).
Proof. induction es as [|e es IH]; cbn [app seen_index]; [reflexivity|now rewrite IH]. Qed.
Lemma seen_periods e1 e2 n (N : nat) : (0 < e1)%R -> (0 < e2)%R -> (0 < n)%R ->
  seen_index (times N [e1; e2]) n = ((e1 / e2) ^ N * n)%R.
Proof.
  intros A B P. assert (Q : (0 < e1 / e2)%R) by (apply Rmult_lt_0_compat; [exact A|now apply Rinv_0_lt_compat]).
  induction N as [|N IH]; cbn [times pow]; [cbn [seen_index]; ring|].
  rewrite seen_app, IH. cbn [seen_index]. assert (Z := pow_lt _ N Q). set (z := ((e1 / e2) ^ N)%R) in *. field. repeat split; lra.
Qed.
Lemma times_map {A B} (f : A -> B) n l : map f (times n l) = times n (map f l).
Proof. induction n; cbn [times]; [reflexivity|]. now rewrite map_app, IHn. Qed.
Lemma times_Forall {A} (P : A -> Prop) n l : Forall P l -> Forall P (times n l).
Proof. intros H. induction n; cbn [times]; [constructor|]. apply Forall_app. tauto. Qed.

(** C94: a mirror of N pairs of quarter wave layers, made with RepeatedLayers, alone or closed by a
    further layer of the first kind. *)
Lemma bragg lbda (x y e1 e2 : R) (N : nat) (closed : bool) (f h1 h2 b : mat) :
  (0 < lbda)%R -> (0 < x)%R -> (0 < y)%R -> (0 < e1)%R -> (0 < e2)%R ->
  f 0%nat 0%nat = RtoC x -> h1 0%nat 0%nat = RtoC e1 -> h2 0%nat 0%nat = RtoC e2 -> b 0%nat 0%nat = RtoC y ->
  let pair := [Homogeneous (quarters lbda e1 0) h1; Homogeneous (quarters lbda e2 0) h2] in
  let n := ((e1 / e2) ^ N * (if closed then e1 / sqrt y else sqrt y))%R in
  exists res, solver2_structure 0 lbda (Structure f [Repeated pair N 0 (if closed then 1 else 0)] b) = Some res /\
    (exists t, rt_s res = Some (RtoC (reflected (sqrt x) n), t)) /\
    (exists t, rt_p res = Some (RtoC (- reflected (sqrt x) n), t)).
Proof.
  intros L P Py A B Ef E1 E2 Eb pair n. rewrite solver2_structure_eq, Ef, Eb. eexists. split; [reflexivity|].
  assert (sy := sqrt_lt_R0 y Py).
  assert (Pr : map (fun l : R * mat => (fst l, snd l 0%nat 0%nat)) (profiles [Repeated pair N 0 (if closed then 1 else 0)]) =
    map (fun m : R * nat => (quarters lbda (fst m) (snd m), RtoC (fst m))) (times N [(e1, 0%nat); (e2, 0%nat)] ++ (if closed then [(e1, 0%nat)] else []))).
  { cbn [profiles]. rewrite app_nil_r, profile_repeated'. rewrite last_n_0. cbn [app]. unfold pair. cbn [profiles profile app].
    rewrite !map_app, !times_map. cbn [map fst snd]. rewrite E1, E2. f_equal.
    destruct closed; cbn [firstn map fst snd]; [|reflexivity]. now rewrite E1. }
  match type of Pr with _ = ?m => match goal with |- context [solver2 0 lbda _ ?l _] => replace l with m by (symmetry; exact Pr) end end.
  assert (F : Forall (fun m : R * nat => (0 < fst m)%R) (times N [(e1, 0%nat); (e2, 0%nat)] ++ (if closed then [(e1, 0%nat)] else []))).
  { apply Forall_app. split; [apply times_Forall; repeat constructor; assumption|]. destruct closed; repeat constructor; assumption. }
  assert (H := C94_quarter_stack lbda x y _ L P Py F). cbv zeta in H.
  assert (En : seen_index (map fst (times N [(e1, 0%nat); (e2, 0%nat)] ++ (if closed then [(e1, 0%nat)] else []))) (sqrt y) = n).
  { rewrite map_app, times_map, seen_app. cbn [map fst]. unfold n. rewrite seen_periods; try assumption.
    - destruct closed; reflexivity.
    - apply seen_pos; [exact sy|]. destruct closed; repeat constructor; assumption. }
  rewrite En in H. exact H.
Qed.
Theorem C94_bragg : forall lbda (x y e1 e2 : R) (N : Z) (closed : bool) (f h1 h2 b : mat) l,
  (0 < lbda)%R -> (0 < x)%R -> (0 < y)%R -> (0 < e1)%R -> (0 < e2)%R ->
  f 0%nat 0%nat = RtoC x -> h1 0%nat 0%nat = RtoC e1 -> h2 0%nat 0%nat = RtoC e2 -> b 0%nat 0%nat = RtoC y ->
  make_repeated [Homogeneous (quarters lbda e1 0) h1; Homogeneous (quarters lbda e2 0) h2] N 0 (if closed then 1 else 0) = Ok l ->
  let n := (powerRZ (e1 / e2) N * (if closed then e1 / sqrt y else sqrt y))%R in
  exists res, solver2_structure 0 lbda (Structure f [l] b) = Some res /\
    (exists t, rt_s res = Some (RtoC (reflected (sqrt x) n), t)) /\
    (exists t, rt_p res = Some (RtoC (- reflected (sqrt x) n), t)).
Proof.
  intros lb x y e1 e2 N cl f h1 h2 b l L P Py A B Ef E1 E2 Eb M. unfold make_repeated in M.
  destruct (N <? 1)%Z eqn:EN; [discriminate|]. apply Z.ltb_ge in EN. replace (Z.to_nat (if cl then 1 else 0)%Z) with (if cl then 1%nat else 0%nat) in M by (now destruct cl).
  replace ((if cl then 1 else 0) <? 0)%Z with false in M by (now destruct cl). cbn in M. injection M as <-. cbv zeta.
  assert (Ep : powerRZ (e1 / e2) N = ((e1 / e2) ^ Z.to_nat N)%R) by (rewrite pow_powerRZ, Z2Nat.id by lia; reflexivity).
  rewrite Ep. apply bragg; assumption.
Qed.
Print Assumptions C94_bragg.

(** C94: with more and more pairs the reflectance comes as close to one as one likes. *)
Lemma reflected_big (n0 n d : R) : (0 < n0)%R -> (0 < n)%R -> (0 < d)%R ->
  (n * d >= 4 * n0 \/ n0 * d >= 4 * n)%R -> (1 - d <= reflected n0 n * reflected n0 n)%R.
Proof.
  intros A B D H. unfold reflected. set (s := (n0 + n)%R). assert (S : (0 < s)%R) by (unfold s; lra).
  apply (Rmult_le_reg_r (s * s)); [nra|].
  replace ((n0 - n) / s * ((n0 - n) / s) * (s * s))%R with ((n0 - n) * (n0 - n))%R by (field; lra).
  unfold s in *. assert (M := Rmult_lt_0_compat _ _ A B). assert (M1 := Rmult_lt_0_compat _ _ A D). assert (M2 := Rmult_lt_0_compat _ _ B D).
  assert (Z : (4 * (n0 * n) <= d * ((n0 + n) * (n0 + n)))%R); [|nra].
  destruct H as [H|H].
  - assert (Z1 : (n0 * n * 4 <= n * d * n)%R) by nra. assert (0 <= d * (n0 * n0))%R by nra. assert (0 <= d * (n0 * n))%R by nra. nra.
  - assert (Z1 : (n0 * n * 4 <= n0 * d * n0)%R) by nra. assert (0 <= d * (n * n))%R by nra. assert (0 <= d * (n0 * n))%R by nra. nra.
Qed.
Theorem C94_perfect : forall lbda (x y e1 e2 : R) (f h1 h2 b : mat) (d : R),
  (0 < lbda)%R -> (0 < x)%R -> (0 < y)%R -> (0 < e1)%R -> (0 < e2)%R -> e1 <> e2 -> (0 < d)%R ->
  f 0%nat 0%nat = RtoC x -> h1 0%nat 0%nat = RtoC e1 -> h2 0%nat 0%nat = RtoC e2 -> b 0%nat 0%nat = RtoC y ->
  exists N0, forall N, (N0 <= N)%nat -> exists l res r_s t_s r_p t_p,
    make_repeated [Homogeneous (quarters lbda e1 0) h1; Homogeneous (quarters lbda e2 0) h2] (Z.of_nat N) 0 0 = Ok l /\
    solver2_structure 0 lbda (Structure f [l] b) = Some res /\
    rt_s res = Some (r_s, t_s) /\ rt_p res = Some (r_p, t_p) /\
    (1 - d <= Cmod r_s * Cmod r_s)%R /\ (1 - d <= Cmod r_p * Cmod r_p)%R.
Proof.
  intros lb x y e1 e2 f h1 h2 b d L P Py A B D Dd Ef E1 E2 Eb.
  assert (sx := sqrt_lt_R0 x P). assert (sy := sqrt_lt_R0 y Py).
  assert (Far : exists N0, forall N, (N0 <= N)%nat -> let n := ((e1 / e2) ^ N * sqrt y)%R in (n * d >= 4 * sqrt x \/ sqrt x * d >= 4 * n)%R).
  { assert (Q : (0 < e1 / e2)%R) by (apply Rmult_lt_0_compat; [exact A|now apply Rinv_0_lt_compat]).
    destruct (Rlt_le_dec 1 (e1 / e2)) as [G|G].
    - destruct (Pow_x_infinity (e1 / e2) ltac:(rewrite Rabs_pos_eq; lra) (4 * sqrt x / (sqrt y * d))) as [N0 H].
      exists N0. intros N K. left. specialize (H N K). rewrite Rabs_pos_eq in H by (apply pow_le; lra).
      assert (K2 := Rmult_lt_0_compat _ _ sy Dd). apply Rge_le in H. apply (Rmult_le_compat_r (sqrt y * d)) in H; [|lra].
      replace (4 * sqrt x / (sqrt y * d) * (sqrt y * d))%R with (4 * sqrt x)%R in H by (field; lra). lra.
    - assert (G' : (Rabs (e1 / e2) < 1)%R).
      { rewrite Rabs_pos_eq by lra. destruct G as [G|G]; [exact G|]. exfalso. apply D.
        transitivity (e1 / e2 * e2)%R; [field; lra|]. rewrite G. ring. }
      assert (K2 := Rmult_lt_0_compat _ _ sx Dd).
      destruct (pow_lt_1_zero (e1 / e2) G' (sqrt x * d / (4 * sqrt y))) as [N0 H].
      { apply Rmult_lt_0_compat; [exact K2|apply Rinv_0_lt_compat; lra]. }
      exists N0. intros N K. right. specialize (H N K). rewrite Rabs_pos_eq in H by (apply pow_le; lra).
      apply (Rmult_lt_compat_r (4 * sqrt y)) in H; [|lra].
      replace (sqrt x * d / (4 * sqrt y) * (4 * sqrt y))%R with (sqrt x * d)%R in H by (field; lra). lra. }
  destruct Far as [N0 Far]. exists (S N0). intros N K.
  destruct (bragg lb x y e1 e2 N false f h1 h2 b L P Py A B Ef E1 E2 Eb) as (res & R0 & [ts Hs] & [tp Hp]).
  exists (Repeated [Homogeneous (quarters lb e1 0) h1; Homogeneous (quarters lb e2 0) h2] N 0 0), res.
  do 4 eexists. split.
  { unfold make_repeated. replace (Z.of_nat N <? 1)%Z with false by (symmetry; apply Z.ltb_ge; lia). cbn. rewrite Nat2Z.id. reflexivity. }
  split; [exact R0|]. split; [exact Hs|]. split; [exact Hp|].
  assert (Pn : (0 < (e1 / e2) ^ N * sqrt y)%R).
  { apply Rmult_lt_0_compat; [apply pow_lt, Rmult_lt_0_compat; [exact A|now apply Rinv_0_lt_compat]|exact sy]. }
  assert (Z := reflected_big (sqrt x) _ d sx Pn Dd (Far N ltac:(lia))).
  rewrite !Cmod_R, <- !Rabs_mult. set (r := reflected _ _) in *.
  replace (- r * - r)%R with (r * r)%R by ring. rewrite Rabs_pos_eq by nra. split; exact Z.
Qed.
Print Assumptions C94_perfect.

(** Two pairs of permittivities 4 and 9/4 on glass, closed by a layer of the first kind: the
    substrate seems to have the index (16/9)^2 4 / (3/2) *)
Example C94_example : exists l res t,
  make_repeated [Homogeneous (quarters 600 4 0) (mscal (RtoC 4) mid); Homogeneous (quarters 600 (9 / 4) 0) (mscal (RtoC (9 / 4)) mid)] 2 0 1 = Ok l /\
  solver2_structure 0 600 (Structure mid [l] (mscal (RtoC (9 / 4)) mid)) = Some res /\
  rt_s res = Some (RtoC ((1 - 2048 / 243) / (1 + 2048 / 243)), t) /\ quarters 600 4 0 = 75%R.
Proof.
  assert (s4 : sqrt 4 = 2%R) by (replace 4%R with (2 * 2)%R by ring; apply sqrt_square; lra).
  assert (s9 : sqrt (9 / 4) = (3 / 2)%R) by (replace (9 / 4)%R with (3 / 2 * (3 / 2))%R by field; apply sqrt_square; lra).
  eexists. assert (H := C94_bragg 600 1 (9 / 4) 4 (9 / 4) 2 true mid (mscal (RtoC 4) mid) (mscal (RtoC (9 / 4)) mid) (mscal (RtoC (9 / 4)) mid)
    (Repeated [Homogeneous (quarters 600 4 0) (mscal (RtoC 4) mid); Homogeneous (quarters 600 (9 / 4) 0) (mscal (RtoC (9 / 4)) mid)] 2 0 1)
    ltac:(lra) ltac:(lra) ltac:(lra) ltac:(lra) ltac:(lra)).
  destruct H as (res & H1 & [t H2] & _); try (unfold mscal, mid; cbn; ring); [reflexivity..|].
  exists res, t. split; [reflexivity|]. split; [exact H1|]. split; [|unfold quarters; rewrite s4; simpl; field].
  rewrite H2. do 3 f_equal. rewrite sqrt_1, s9. unfold reflected, powerRZ. simpl. field.
Qed.
