From Coq Require Import Reals Lra Psatz.
From Coquelicot Require Import Complex.
From Coq Require Import List.
From Verif.Base Require Import Py Cx Mat.
From Verif.Model Require Import Units Ellips Structure Solver2.
From Verif.Spec Require Import Stack.
From Verif.Proof Require Import StackP FluxP DispersionsP Solver2P Solver2P2.
Import ListNotations.
Open Scope R_scope.
Open Scope C_scope.
Open Scope py_scope.

Definition first_quadrant (w : C) : Prop := (0 <= Re w)%R /\ (0 <= Im w)%R.

Lemma passive_sin2 (eps : C) (kx : R) : eps <> 0 -> (0 <= Im eps)%R -> (0 <= Im (1 - RtoC kx * RtoC kx / eps)%C)%R.
Proof.
  intros N H. assert (P := Cnorm2_gt0 eps N). destruct eps as [a b]. unfold Cnorm2, Im in *. cbn [fst snd] in *.
  replace (snd (1 - RtoC kx * RtoC kx / (a, b))) with (kx * kx * b / (a * a + b * b))%R.
  - apply Rmult_le_pos; [nra|left; apply Rinv_0_lt_compat; exact P].
  - simpl. field. nra.
Qed.

Lemma quad_n (eps : C) : eps <> 0 -> (0 <= Im eps)%R -> first_quadrant (Csqrt eps).
Proof. intros _ H. split; [apply Csqrt_Re_ge0|apply Csqrt_Im_ge0; exact H]. Qed.

Lemma quad1 (eps : C) (kx : R) : eps <> 0 -> (0 <= Im eps)%R ->
  first_quadrant (Csqrt eps * Csqrt (1 - RtoC kx / Csqrt eps * (RtoC kx / Csqrt eps))).
Proof.
  intros N H. assert (Nn := Csqrt_neq0 eps N).
  replace (1 - RtoC kx / Csqrt eps * (RtoC kx / Csqrt eps)) with (1 - RtoC kx * RtoC kx / eps).
  2:{ rewrite <- (Csqrt_sqr eps) at 1. field. exact Nn. }
  set (n := Csqrt eps) in *. set (c := Csqrt (1 - RtoC kx * RtoC kx / eps)).
  assert (n1 : (0 <= fst n)%R) by apply Csqrt_Re_ge0. assert (n2 : (0 <= snd n)%R) by (apply Csqrt_Im_ge0; exact H).
  assert (c1 : (0 <= fst c)%R) by apply Csqrt_Re_ge0.
  assert (c2 : (0 <= snd c)%R) by (apply Csqrt_Im_ge0, passive_sin2; assumption).
  assert (nn : n * n = eps) by apply Csqrt_sqr.
  assert (cc : c * c = 1 - RtoC kx * RtoC kx / eps) by apply Csqrt_sqr.
  clearbody n c.
  assert (W2 : (n * c) * (n * c) = eps - RtoC kx * RtoC kx).
  { transitivity ((n * n) * (c * c)); [ring|]. rewrite nn, cc. field. exact N. }
  assert (I0 : (0 <= Im (n * c)%C)%R) by (unfold Im; simpl; apply Rplus_le_le_0_compat; apply Rmult_le_pos; assumption).
  split; [|exact I0]. destruct I0 as [I0|I0].
  - assert (E := f_equal snd W2). unfold Re, Im in *. simpl in E, I0 |- *. set (x := (fst n * fst c - snd n * snd c)%R) in *.
    set (y := (fst n * snd c + snd n * fst c)%R) in *. assert (0 <= x * y)%R by lra. nra.
  - unfold Re, Im in *. simpl in *.
    assert (Z1 : (fst n * snd c = 0)%R) by nra. assert (Z2 : (snd n * fst c = 0)%R) by nra.
    destruct (Req_dec (fst n) 0) as [n0|n0].
    + assert (n2' : (0 < snd n)%R).
      { destruct n2 as [|n2]; [assumption|]. exfalso. apply Nn. apply C_ext; simpl; lra. }
      exfalso. assert (c0 : (fst c = 0)%R) by nra.
      assert (Ee : eps = RtoC (- (snd n * snd n))).
      { rewrite <- nn. apply C_ext; simpl; rewrite n0; ring. }
      assert (Q : (0 <= kx * kx / (snd n * snd n))%R) by (apply Rmult_le_pos; [nra|left; apply Rinv_0_lt_compat; nra]).
      assert (Ec : c * c = RtoC (1 + kx * kx / (snd n * snd n))).
      { rewrite cc, Ee. apply C_ext; simpl; field; nra. }
      apply (f_equal fst) in Ec. simpl in Ec. rewrite c0 in Ec. nra.
    + assert (snd c = 0)%R by nra. nra.
Qed.

(** The z component of the wave vector in a layer and in the half spaces *)
Definition kz_layer (kx eps : C) : C := Csqrt eps * Ccos (Casin (kx / Csqrt eps)).
Definition kz_half (kx eps : C) : C := fst (half_of kx eps) * Ccos (snd (half_of kx eps)).

Lemma kz_layer_quad (eps : C) (kx : R) : eps <> 0 -> (0 <= Im eps)%R -> first_quadrant (kz_layer (RtoC kx) eps).
Proof. intros. unfold kz_layer. rewrite Ccos_Casin. now apply quad1. Qed.
Lemma kz_layer_sqr (kx eps : C) : eps <> 0 -> kz_layer kx eps * kz_layer kx eps = eps - kx * kx.
Proof.
  intros H. unfold kz_layer. rewrite (sqr_kz _ _ kx); [now rewrite Csqrt_sqr|now apply Csqrt_neq0|].
  rewrite Ccos_Casin. apply Csqrt_sqr.
Qed.
Lemma kz_half_sqr (kx eps : C) : eps <> 0 -> kz_half kx eps * kz_half kx eps = eps - kx * kx.
Proof. apply half_kz. Qed.

Lemma kz_half_cases (kx eps : C) :
  (kz_half kx eps = kz_layer kx eps /\ Ccos (snd (half_of kx eps)) = Ccos (Casin (kx / Csqrt eps))) \/
  (kz_half kx eps = - kz_layer kx eps /\ is_forward_angle (Csqrt eps) (Casin (kx / Csqrt eps)) = false /\
   Ccos (snd (half_of kx eps)) = - Ccos (Casin (kx / Csqrt eps))).
Proof.
  unfold kz_half, kz_layer, half_of, fix_angle. cbn [fst snd].
  destruct (is_forward_angle _ _); [now left|right]. rewrite Ccos_PI_minus. split; [ring|]. split; reflexivity.
Qed.

(** For a passive medium the angle is flipped only for (nearly grazing) evanescent waves. *)
Lemma flip_passive (eps : C) (kx : R) : eps <> 0 -> (0 <= Im eps)%R ->
  is_forward_angle (Csqrt eps) (Casin (RtoC kx / Csqrt eps)) = false ->
  Re (kz_layer (RtoC kx) eps) = 0%R /\ (Im (kz_layer (RtoC kx) eps) <= 1 / 10 ^ 10)%R.
Proof.
  intros N H. destruct (kz_layer_quad eps kx N H) as [Q1 Q2]. unfold kz_layer in *. unfold is_forward_angle.
  set (w := Csqrt eps * Ccos _) in *.
  destruct (Rlt_dec (1 / 10 ^ 10) (Rabs (Im w))) as [L|L].
  - rewrite Rabs_pos_eq in L by exact Q2. destruct (Rlt_dec 0 (Im w)) as [|K]; [discriminate|].
    assert (0 < 1 / 10 ^ 10)%R by (apply Rdiv_lt_0_compat; [lra|apply pow_lt; lra]). lra.
  - rewrite Rabs_pos_eq in L by exact Q2. destruct (Rlt_dec 0 (Re w)); [discriminate|]. intros _. split; lra.
Qed.

Lemma kz_half_passive (eps : C) (kx : R) : eps <> 0 -> (0 <= Im eps)%R ->
  ~ (Re (kz_half (RtoC kx) eps) = 0%R /\ (0 < Rabs (Im (kz_half (RtoC kx) eps)) <= 1 / 10 ^ 10)%R) ->
  first_quadrant (kz_half (RtoC kx) eps).
Proof.
  intros N H C. destruct (kz_layer_quad eps kx N H) as [Q1 Q2].
  destruct (kz_half_cases (RtoC kx) eps) as [[-> _]|[E [F _]]]; [split; assumption|].
  apply flip_passive in F; [|assumption|assumption]. destruct F as [F1 F2]. rewrite E in C |- *.
  set (w := kz_layer (RtoC kx) eps) in *.
  destruct Q2 as [Q2|Q2].
  - exfalso. apply C. split; [change (- Re w = 0)%R; lra|]. change (Im (- w)) with (- Im w)%R.
    rewrite Rabs_Ropp, Rabs_pos_eq by lra. lra.
  - split; [change (0 <= - Re w)%R|change (0 <= - Im w)%R]; lra.
Qed.

Lemma kz_half_Re (eps : C) (kx : R) : eps <> 0 -> (0 <= Im eps)%R -> (0 <= Re (kz_half (RtoC kx) eps))%R.
Proof.
  intros N H. destruct (kz_layer_quad eps kx N H) as [Q1 Q2].
  destruct (kz_half_cases (RtoC kx) eps) as [[-> _]|[E [F _]]]; [exact Q1|].
  apply flip_passive in F; [|assumption|assumption]. destruct F as [F1 F2]. rewrite E.
  change (0 <= - Re (kz_layer (RtoC kx) eps))%R. lra.
Qed.

(** Reduced wave number of a lossless front medium *)
Lemma kx_real th (x : R) : (0 <= x)%R -> kx_of th (RtoC x) = RtoC (sqrt x * sin (deg2rad th)).
Proof. intros H. unfold kx_of. rewrite Csqrt_pos by exact H. now rewrite RtoC_mult. Qed.

Lemma kz_front th (x : R) : (0 < x)%R -> cos (deg2rad th) <> 0%R ->
  kz_half (kx_of th (RtoC x)) (RtoC x) = RtoC (sqrt x * Rabs (cos (deg2rad th))) /\
  half_of (kx_of th (RtoC x)) (RtoC x) = (RtoC (sqrt x), Casin (RtoC (sin (deg2rad th)))) /\
  Ccos (Casin (RtoC (sin (deg2rad th)))) = RtoC (Rabs (cos (deg2rad th))).
Proof.
  intros Hx Hc. assert (sx : (0 < sqrt x)%R) by (apply sqrt_lt_R0; exact Hx).
  assert (Cc : Ccos (Casin (RtoC (sin (deg2rad th)))) = RtoC (Rabs (cos (deg2rad th)))).
  { rewrite Ccos_Casin. replace (1 - RtoC (sin (deg2rad th)) * RtoC (sin (deg2rad th))) with (RtoC (Rsqr (cos (deg2rad th)))).
    - rewrite Csqrt_pos by apply Rle_0_sqr. now rewrite sqrt_Rsqr_abs.
    - rewrite cos2. unfold Rsqr. rewrite RtoC_minus, RtoC_mult. reflexivity. }
  assert (Hh : half_of (kx_of th (RtoC x)) (RtoC x) = (RtoC (sqrt x), Casin (RtoC (sin (deg2rad th))))).
  { unfold half_of, kx_of. rewrite Csqrt_pos by lra.
    replace (RtoC (sqrt x) * RtoC (sin (deg2rad th)) / RtoC (sqrt x)) with (RtoC (sin (deg2rad th))) by (field; apply C_of_R_neq; lra).
    f_equal. unfold fix_angle, is_forward_angle. rewrite Cc, <- RtoC_mult. unfold Re, Im. cbn [fst snd RtoC].
    rewrite Rabs_R0. destruct (Rlt_dec (1 / 10 ^ 10) 0) as [l|_].
    - assert (0 < 1 / 10 ^ 10)%R by (apply Rdiv_lt_0_compat; [lra|apply pow_lt; lra]). lra.
    - assert (0 < Rabs (cos (deg2rad th)))%R by (apply Rabs_pos_lt; exact Hc).
      destruct (Rlt_dec 0 (sqrt x * Rabs (cos (deg2rad th)))); [reflexivity|]. nra. }
  split; [|split; assumption]. unfold kz_half. rewrite Hh. cbn [fst snd]. rewrite Cc. now rewrite RtoC_mult.
Qed.
