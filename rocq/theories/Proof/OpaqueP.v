(** Waves through an absorbing layer that becomes thicker and thicker. *)
From Coq Require Import Reals Lra Psatz Lia.
From Coquelicot Require Import Complex.
From Coq Require Import List.
From Verif.Base Require Import Py Cx Mat.
From Verif.Model Require Import Units Ellips Structure Solver2.
From Verif.Spec Require Import Stack.
From Verif.Proof Require Import StackP FluxP UnitsP DispersionsP StructureP Solver2P Solver2P2 Solver2P3 Solver2P4 Solver2P5.
Import ListNotations.
Open Scope R_scope.
Open Scope C_scope.
Open Scope py_scope.

(** The fields in front are linear in the fields behind. *)
Lemma front_linear ls : forall a b p q p' q' : C,
  front_fields ls (a * p + b * p') (a * q + b * q') 1 =
  (a * fst (front_fields ls p q 1) + b * fst (front_fields ls p' q' 1), a * snd (front_fields ls p q 1) + b * snd (front_fields ls p' q' 1)).
Proof.
  induction ls as [|[[pl ql] d] ls IH]; intros a b p q p' q'; cbn [front_fields].
  - cbn [fst snd]. f_equal; ring.
  - rewrite IH. destruct (front_fields ls p q 1) as [u v], (front_fields ls p' q' 1) as [u' v']. cbn [fst snd].
    unfold Cdiv. f_equal; ring.
Qed.
Lemma front_app ls ls' p q : front_fields (ls ++ ls') p q 1 = let (u, v) := front_fields ls' p q 1 in front_fields ls u v 1.
Proof.
  induction ls as [|[[pl ql] d] ls IH]; cbn [app front_fields].
  - destruct (front_fields ls' p q 1). f_equal; ring.
  - rewrite IH. destruct (front_fields ls' p q 1). reflexivity.
Qed.

(** Amplitudes through pre, a layer (p, q, d) and fields u, v behind it *)
Lemma inc_layer m pre p q d post bk :
  let (u, v) := front_fields post (fst bk) (snd bk) 1 in
  let A := (u / p + v / q) / 2 in let B := (u / p - v / q) / 2 in
  let s := inc_ref m pre (p, q) in let s' := inc_ref m pre (p, - q) in
  inc_ref m (pre ++ (p, q, d) :: post) bk =
  (A * Cexp (- (Ci * d)) * fst s + B * Cexp (Ci * d) * fst s', A * Cexp (- (Ci * d)) * snd s + B * Cexp (Ci * d) * snd s').
Proof.
  destruct (front_fields post (fst bk) (snd bk) 1) as [u v] eqn:E. cbv zeta. unfold inc_ref. rewrite front_app. cbn [front_fields]. rewrite E. cbn [fst snd].
  set (a := (u / p + v / q) / 2 * Cexp (- (Ci * d))). set (b := (u / p - v / q) / 2 * Cexp (Ci * d)).
  replace (p * (a + b)) with (a * p + b * p) by ring. replace (q * (a - b)) with (a * q + b * - q) by ring.
  rewrite front_linear. destruct (front_fields pre p q 1) as [x y], (front_fields pre p (- q) 1) as [x' y']. cbn [fst snd]. unfold Cdiv. f_equal; ring.
Qed.

(** Behind an absorbing layer something runs forward. *)
Lemma forward_part post (p q pb qb u v : C) : layers_ok post -> Forall (fun l => (0 <= fst (loss l))%R /\ (0 <= snd (loss l))%R) post ->
  p <> 0 -> q <> 0 -> (pb <> 0 \/ qb <> 0) -> (0 < Re (p * Cconj q))%R -> (0 <= Re (pb * Cconj qb))%R ->
  (u, v) = front_fields post pb qb 1 -> (u / p + v / q) / 2 <> 0.
Proof.
  intros L F P Q N Fl Fb E A0. assert (M := matched_front post pb qb 1 L). rewrite <- E in M. cbn [fst snd] in M.
  assert (FL := flux_matched post u v pb qb 1 L F M). assert (O : Cnorm2 1 = 1%R) by (unfold Cnorm2; simpl; ring). rewrite O, Rmult_1_r in FL.
  assert (U : u = p * ((u / p - v / q) / 2)).
  { transitivity (p * ((u / p + v / q) / 2 + (u / p - v / q) / 2)); [Cfield|]. rewrite A0. ring. }
  assert (V : v = - (q * ((u / p - v / q) / 2))).
  { transitivity (q * ((u / p + v / q) / 2 - (u / p - v / q) / 2)); [Cfield|]. rewrite A0. ring. }
  set (r := (u / p - v / q) / 2) in *. clearbody r.
  assert (FR : flux u v = (- (Re (p * Cconj q) * Cnorm2 r))%R).
  { rewrite U, V. unfold flux, Re, Cnorm2. destruct p as [p1 p2], q as [q1 q2], r as [r1 r2]. simpl. ring. }
  assert (R0 : Cnorm2 r = 0%R) by (assert (G0 := Cnorm2_ge0 r); nra). apply Cnorm2_eq0 in R0. subst r.
  assert (U0 : u = 0) by (rewrite U; ring). assert (V0 : v = 0) by (rewrite V; ring). rewrite U0, V0 in M.
  assert (one := matched_zero post pb qb 1 L M N). apply RtoC_inj in one. lra.
Qed.

(** An incident and a reflected amplitude that are dominated by one wave *)
Lemma dominated (I1 R1 I2 R2 A B : C) (g eta : R) : A <> 0 -> I1 <> 0 -> (0 < eta)%R -> (0 < g)%R ->
  exists X0, forall (X : R) (e e' : C), (X0 <= X)%R -> Cmod e = exp (- (g * X)) -> Cmod e' = exp (g * X) ->
    let I := A * e' * I1 + B * e * I2 in let J := A * e' * R1 + B * e * R2 in
    I <> 0 /\ (Cmod (J / I - R1 / I1)%C <= eta)%R /\ (Cmod (1 / I)%C <= eta)%R.
Proof.
  intros NA N1 He Hg.
  assert (a0 := Cmod_gt_0 A). assert (i0 := Cmod_gt_0 I1). specialize (proj1 a0 NA) as a1. specialize (proj1 i0 N1) as i1. clear a0 i0.
  set (a := Cmod A) in *. set (i := Cmod I1) in *. set (b := Cmod B). set (j := Cmod I2). set (D := R2 * I1 - R1 * I2). set (k := Cmod D).
  assert (b0 : (0 <= b)%R) by apply Cmod_ge_0. assert (j0 : (0 <= j)%R) by apply Cmod_ge_0. assert (k0' : (0 <= k)%R) by apply Cmod_ge_0.
  (* bound E = exp (g X) from below: E >= 1, E a i >= 2 b j, E a i^2 eta >= 2 b k, E a i eta >= 2 *)
  set (E0 := (1 + 2 * b * j / (a * i) + 2 * b * k / (a * i * i * eta) + 2 / (a * i * eta))%R).
  assert (ai : (0 < a * i)%R) by (apply Rmult_lt_0_compat; assumption).
  assert (aii : (0 < a * i * i * eta)%R) by (apply Rmult_lt_0_compat; [apply Rmult_lt_0_compat|]; assumption).
  assert (aie : (0 < a * i * eta)%R) by (apply Rmult_lt_0_compat; assumption).
  assert (t1 : (0 <= 2 * b * j / (a * i))%R) by (apply Rmult_le_pos; [apply Rmult_le_pos; lra|apply Rlt_le, Rinv_0_lt_compat, ai]).
  assert (t2 : (0 <= 2 * b * k / (a * i * i * eta))%R) by (apply Rmult_le_pos; [apply Rmult_le_pos; lra|apply Rlt_le, Rinv_0_lt_compat, aii]).
  assert (t3 : (0 < 2 / (a * i * eta))%R) by (apply Rdiv_lt_0_compat; [lra|exact aie]).
  assert (E0p : (1 <= E0)%R) by (unfold E0; lra).
  exists (ln E0 / g)%R. intros X e e' HX He1 He2 I J.
  set (E := exp (g * X)) in *.
  assert (EE : (E0 <= E)%R).
  { unfold E. rewrite <- (exp_ln E0) by lra. assert (L : (ln E0 <= g * X)%R).
    { replace (ln E0) with (g * (ln E0 / g))%R by (field; lra). apply Rmult_le_compat_l; [lra|exact HX]. }
    destruct L as [L|L]; [apply Rlt_le, exp_increasing, L|rewrite L; apply Rle_refl]. }
  assert (Ei : (exp (- (g * X)) * E = 1)%R) by (unfold E; rewrite <- exp_plus, <- exp_0; f_equal; ring).
  set (F := exp (- (g * X))) in *. assert (F0 : (0 < F)%R) by apply exp_pos.
  assert (F1 : (F <= 1)%R) by nra.
  assert (s1 : (2 * b * j <= E * (a * i))%R).
  { apply Rle_trans with (2 * b * j / (a * i) * (a * i))%R; [right; field; lra|]. apply Rmult_le_compat_r; [lra|]. unfold E0 in EE; lra. }
  assert (s2 : (2 * b * k <= E * (a * i * i * eta))%R).
  { apply Rle_trans with (2 * b * k / (a * i * i * eta) * (a * i * i * eta))%R; [right; field; repeat split; lra|]. apply Rmult_le_compat_r; [lra|]. unfold E0 in EE; lra. }
  assert (s3 : (2 <= E * (a * i * eta))%R).
  { apply Rle_trans with (2 / (a * i * eta) * (a * i * eta))%R; [right; field; repeat split; lra|]. apply Rmult_le_compat_r; [lra|]. unfold E0 in EE; lra. }
  (* |I| >= a E i / 2 *)
  assert (I2' : (a * E * i / 2 <= Cmod I)%R).
  { assert (T : (Cmod (A * e' * I1)%C <= Cmod I + Cmod (B * e * I2)%C)%R).
    { apply Rle_trans with (Cmod (I + - (B * e * I2))%C); [right; f_equal; unfold I; ring|]. eapply Rle_trans; [apply Cmod_triangle|]. rewrite Cmod_opp. lra. }
    rewrite !Cmod_mult, He1, He2 in T. fold a b i j in T.
    assert (Q : (b * F * j <= a * E * i / 2)%R).
    { apply Rle_trans with (b * j)%R; [|lra]. replace (b * F * j)%R with (F * (b * j))%R by ring. rewrite <- (Rmult_1_l (b * j)) at 2.
      apply Rmult_le_compat_r; [apply Rmult_le_pos; assumption|exact F1]. }
    lra. }
  assert (Eg : (0 < E)%R) by lra.
  assert (ip : (0 < a * E * i / 2)%R) by (assert (0 < a * E * i)%R by (apply Rmult_lt_0_compat; [apply Rmult_lt_0_compat|]; assumption); lra).
  assert (NI : I <> 0) by (apply Cmod_gt_0; lra).
  split; [exact NI|].
  assert (inv : (/ Cmod I <= 2 / (a * E * i))%R).
  { replace (2 / (a * E * i))%R with (/ (a * E * i / 2))%R by (field; repeat split; lra). apply Rinv_le_contravar; [exact ip|exact I2']. }
  split.
  - replace (J / I - R1 / I1) with (B * e * D / (I * I1)).
    2:{ unfold J, D. transitivity (((A * e' * R1 + B * e * R2) * I1 - R1 * I) / (I * I1)); [unfold I; f_equal; ring|]. field. split; assumption. }
    rewrite Cmod_div by (apply Cmult_neq_0; assumption). rewrite !Cmod_mult, He1. fold b i k. unfold Rdiv. rewrite Rinv_mult.
    apply Rle_trans with (b * F * k * (2 / (a * E * i) * / i))%R.
    + apply Rmult_le_compat_l; [apply Rmult_le_pos; [apply Rmult_le_pos|]; lra|]. apply Rmult_le_compat_r; [apply Rlt_le, Rinv_0_lt_compat, i1|exact inv].
    + replace (b * F * k * (2 / (a * E * i) * / i))%R with (F * (2 * b * k / (a * E * i * i)))%R by (field; repeat split; lra).
      assert (aE : (0 < a * E * i * i)%R) by (repeat apply Rmult_lt_0_compat; assumption).
      assert (W : (2 * b * k / (a * E * i * i) <= eta)%R).
      { apply (Rmult_le_reg_r (a * E * i * i)); [exact aE|]. unfold Rdiv. rewrite Rmult_assoc, Rinv_l by lra. lra. }
      assert (W0 : (0 <= 2 * b * k / (a * E * i * i))%R) by (apply Rmult_le_pos; [apply Rmult_le_pos; lra|apply Rlt_le, Rinv_0_lt_compat, aE]). nra.
  - rewrite Cmod_div by exact NI. rewrite Cmod_1. apply Rle_trans with (2 / (a * E * i))%R; [lra|].
    assert (aE : (0 < a * E * i)%R) by (repeat apply Rmult_lt_0_compat; assumption).
    apply (Rmult_le_reg_r (a * E * i)); [exact aE|]. unfold Rdiv. rewrite Rmult_assoc, Rinv_l by lra. lra.
Qed.

(** The normal wave number in an absorbing medium *)
Lemma kz_absorbing (eps : C) (kx : R) : eps <> 0 -> (0 < Im eps)%R ->
  (0 < Re (kz_layer (RtoC kx) eps))%R /\ (0 < Im (kz_layer (RtoC kx) eps))%R /\
  half_of (RtoC kx) eps = (Csqrt eps, Casin (RtoC kx / Csqrt eps)).
Proof.
  intros N I. destruct (kz_layer_quad eps kx N ltac:(lra)) as [Q1 Q2]. assert (S := kz_layer_sqr (RtoC kx) eps N).
  apply (f_equal snd) in S. set (w := kz_layer (RtoC kx) eps) in *. unfold Re, Im in *. cbn [fst snd Cmult Cminus Cplus Copp RtoC] in S.
  assert (R0 : (0 < fst w)%R) by (destruct Q1 as [|K]; [assumption|rewrite <- K in S; lra]).
  split; [exact R0|]. split; [nra|]. unfold half_of, fix_angle.
  destruct (is_forward_angle (Csqrt eps) (Casin (RtoC kx / Csqrt eps))) eqn:F; [reflexivity|].
  apply flip_passive in F; [|exact N|unfold Im; lra]. destruct F as [F _]. fold w in F. unfold Re in F. lra.
Qed.

Lemma Re_pq b (kx : R) (eps : C) : eps <> 0 -> (0 < Im eps)%R -> let m := pc b (half_of (RtoC kx) eps) in
  fst m <> 0 /\ snd m <> 0 /\ (0 < Re (fst m * Cconj (snd m))%C)%R /\ (0 < Im (kz_layer (RtoC kx) eps))%R.
Proof.
  intros N I. destruct (kz_absorbing eps kx N I) as (R0 & I0 & H). cbv zeta.
  assert (Bk := back_flux_passive b kx eps N ltac:(lra)). unfold kz_half in Bk. rewrite H in Bk. cbn [fst snd] in Bk. fold (kz_layer (RtoC kx) eps) in Bk.
  unfold back_flux in Bk. assert (Z : (0 < Re (fst (pc b (half_of (RtoC kx) eps)) * Cconj (snd (pc b (half_of (RtoC kx) eps))))%C)%R) by lra.
  split; [intros E; rewrite E in Z; revert Z; unfold Re; simpl; lra|]. split; [intros E; rewrite E in Z; revert Z; unfold Re; simpl; lra|].
  split; [exact Z|exact I0].
Qed.

Lemma opaque b th lb (x : R) pre (e : C) post (eb : C) d1 rt1 r0 t0 : (0 < x)%R -> (0 < lb)%R -> (0 < Im e)%R -> (0 <= Im eb)%R ->
  Forall (fun l => (0 <= fst l)%R /\ (0 <= Im (snd l))%R) post ->
  rt b (solver2 th lb (RtoC x) pre e) = Some (r0, t0) ->
  rt b (solver2 th lb (RtoC x) (pre ++ (d1, e) :: post) eb) = Some rt1 ->
  forall eta, (0 < eta)%R -> exists d0, forall d, (d0 <= d)%R ->
    exists r t, rt b (solver2 th lb (RtoC x) (pre ++ (d, e) :: post) eb) = Some (r, t) /\ (Cmod (r - r0)%C <= eta)%R /\ (Cmod t <= eta)%R.
Proof.
  intros P Lp Ie Ib G H0 H1 eta He. destruct rt1 as [r1 t1].
  apply rt_some in H0. destruct H0 as [(L & Nx & Ne & Fp) H0]. apply (amplitudes_iff (pf b) (pc b) (pf_char b)) in H0. cbv zeta in H0.
  destruct H0 as (N0 & I0 & R0 & _).
  apply rt_some in H1. destruct H1 as [(_ & _ & Nb & F1) H1]. apply (amplitudes_iff (pf b) (pc b) (pf_char b)) in H1. cbv zeta in H1. destruct H1 as (N1 & _).
  assert (kxr : kx_of th (RtoC x) = RtoC (sqrt x * sin (deg2rad th))) by (apply kx_real; lra). rewrite kxr in *.
  set (kx := (sqrt x * sin (deg2rad th))%R) in *. rewrite k0_R in * by exact L. set (k := (2 * PI / lb)%R) in *.
  assert (kp : (0 < k)%R) by (apply Rdiv_lt_0_compat; [assert (Q := PI_RGT_0); lra|exact Lp]).
  destruct (Re_pq b kx e Ne Ie) as (Pe & Qe & Fe & Ke). cbv zeta in Pe, Qe, Fe.
  set (m := pc b (half_of (RtoC kx) (RtoC x))) in *. set (bk := pc b (half_of (RtoC kx) eb)) in *.
  destruct (kz_absorbing e kx Ne Ie) as (_ & _ & He2). set (pq := pc b (half_of (RtoC kx) e)) in *.
  assert (Lay : forall d, char_layer (pc b) (layer_of (RtoC k) (RtoC kx) (d, e)) = (fst pq, snd pq, RtoC k * kz_layer (RtoC kx) e * RtoC d)).
  { intros d. unfold pq. rewrite He2. destruct b; unfold char_layer, layer_of, pc, char_s, char_p, kz_layer; cbn [fst snd]; f_equal; ring. }
  rewrite map_app, map_app in N1. cbn [map] in N1. rewrite Lay in N1.
  set (lpre := map (char_layer (pc b)) (map (layer_of (RtoC k) (RtoC kx)) pre)) in *.
  set (lpost := map (char_layer (pc b)) (map (layer_of (RtoC k) (RtoC kx)) post)) in *.
  assert (Lok := nonsing_layers _ _ _ N1). unfold layers_ok in Lok. apply Forall_app in Lok. destruct Lok as [_ Lok].
  assert (Lpost : layers_ok lpost) by (inversion Lok; assumption).
  destruct (front_fields lpost (fst bk) (snd bk) 1) as [u v] eqn:E.
  assert (A0 : (u / fst pq + v / snd pq) / 2 <> 0).
  { apply (forward_part lpost (fst pq) (snd pq) (fst bk) (snd bk)); try assumption.
    - apply Forall_app in F1. destruct F1 as [_ F1]. inversion F1 as [|y1 l1 _ F2]; subst.
      unfold lpost, layers_ok in *. rewrite Forall_forall in *.
      intros y Hy. assert (Hy' := Hy). apply in_map_iff in Hy. destruct Hy as (y1 & <- & Hy). apply in_map_iff in Hy. destruct Hy as ([d ee] & <- & Hy).
      destruct (G _ Hy) as (G1 & G2). specialize (F2 _ Hy). cbn [fst snd] in *. apply Lpost in Hy'.
      apply loss_passive; try assumption; [|apply Rmult_le_pos; lra].
      unfold kz_layer. intros Z. clear - Hy' F2 Z. destruct b; unfold char_layer, layer_of, pc, char_s, char_p in Hy'; cbn [fst snd] in Hy'.
      + tauto.
      + apply C_integral in Z. tauto.
    - left. unfold bk. destruct b; unfold pc, char_s, char_p; cbn [fst snd].
      + intros Z. apply RtoC_inj in Z. lra.
      + unfold half_of. cbn [fst]. now apply Csqrt_neq0.
    - assert (X1 := back_flux_passive b kx eb Nb Ib). assert (X2 := kz_half_Re eb kx Nb Ib). unfold back_flux in X1. fold bk in X1. lra.
    - symmetry. exact E. }
  assert (EI := fun d => inc_layer m lpre (fst pq) (snd pq) d lpost bk). rewrite E in EI. cbv zeta in EI.
  assert (Ieq : inc_ref m lpre (fst pq, snd pq) = inc_ref m lpre pq) by (destruct pq; reflexivity).
  destruct (dominated (fst (inc_ref m lpre pq)) (snd (inc_ref m lpre pq)) (fst (inc_ref m lpre (fst pq, - snd pq))) (snd (inc_ref m lpre (fst pq, - snd pq)))
    ((u / fst pq + v / snd pq) / 2) ((u / fst pq - v / snd pq) / 2) (k * Im (kz_layer (RtoC kx) e)) eta A0 I0 He) as [X0 D].
  { apply Rmult_lt_0_compat; assumption. }
  exists X0. intros d Hd.
  specialize (D d (Cexp (Ci * (RtoC k * kz_layer (RtoC kx) e * RtoC d))) (Cexp (- (Ci * (RtoC k * kz_layer (RtoC kx) e * RtoC d)))) Hd).
  cbv zeta in D. destruct D as (D1 & D2 & D3).
  { rewrite Cmod_Cexp. f_equal. unfold Im. simpl. ring. }
  { rewrite Cmod_Cexp. f_equal. unfold Im. simpl. ring. }
  rewrite rt_eq.
  2:{ split; [exact L|]. split; [exact Nx|]. split; [exact Nb|]. clear - F1 Ne. apply Forall_app in F1. apply Forall_app. split; [apply F1|].
      destruct F1 as [_ F1]. inversion F1; subst. constructor; assumption. }
  rewrite kxr, k0_R by exact L. fold kx k. specialize (EI (RtoC k * kz_layer (RtoC kx) e * RtoC d)). rewrite Ieq in EI.
  eexists. eexists. split.
  { apply (amplitudes_iff (pf b) (pc b) (pf_char b)). cbv zeta. rewrite map_app, map_app. cbn [map]. rewrite Lay. fold lpre lpost m bk.
    split; [apply (nonsing_head m lpre (fst pq, snd pq, RtoC k * kz_layer (RtoC kx) e * RtoC d1)); [reflexivity|exact N1]|].
    rewrite EI. cbn [fst snd]. split; [exact D1|]. split; reflexivity. }
  cbn [fst snd]. rewrite R0. split; [exact D2|exact D3].
Qed.
