(** Films at any thickness, and rho. *)
From Coq Require Import Reals Lra Psatz Lia.
From Coquelicot Require Import Coquelicot.
From Coq Require Import List.
From Verif.Base Require Import Py Cx Mat Mexp.
From Verif.Model Require Import Units Ellips Structure Solver2.
From Verif.Spec Require Import Stack Film.
From Verif.Proof Require Import StackP FluxP UnitsP DispersionsP StructureP Solver2P Solver2P2 Solver2P3 Solver2P4 Solver2P5 OpaqueP FilmP.
Import ListNotations.
Open Scope R_scope.
Open Scope C_scope.
Open Scope py_scope.

Lemma riccati b th lb (x : R) (e : C) ls (eb : C) d r t : (0 < x)%R ->
  rt b (solver2 th lb (RtoC x) ((d, e) :: ls) eb) = Some (r, t) ->
  first_order (fun h => refl b th lb x (((h + d)%R, e) :: ls) eb) r
    (film_g b (2 * PI / lb) x (sqrt x * Rabs (cos (deg2rad th))) (sqrt x * sin (deg2rad th)) e r).
Proof.
  intros P H.
  assert (S : forall h, rt b (solver2 th lb (RtoC x) ((h, e) :: (d, e) :: ls) eb) = rt b (solver2 th lb (RtoC x) (((h + d)%R, e) :: ls) eb)).
  { intros h. apply (rt_split b th lb (RtoC x) eb [] h d e ls). }
  assert (F := film b th lb x e ((d, e) :: ls) eb 0%R (r, t) r t P H).
  rewrite S, Rplus_0_l in F. specialize (F H). intros eta He. destruct (F eta He) as (d0 & D0 & K). exists d0. split; [exact D0|].
  intros h Hh. destruct (K h Hh) as (z & Z & B). exists z. split; [|exact B]. unfold refl in *. now rewrite <- S.
Qed.

(** Quotients *)
Lemma first_order_div (f g : R -> option C) (a A b B : C) : b <> 0 -> first_order f a A -> first_order g b B ->
  first_order (fun d => let? x := f d in let? y := g d in if Ceq_dec y 0 then None else Some (x / y)) (a / b) ((A - a / b * B) / b).
Proof.
  intros N F G eta He. set (w := a / b). set (Ga := A - w * B).
  assert (b0 : (0 < Cmod b)%R) by (now apply Cmod_gt_0). assert (w0 := Cmod_ge_0 w). assert (g0 := Cmod_ge_0 Ga). assert (B0 := Cmod_ge_0 B).
  set (mb := Cmod b) in *. set (mw := Cmod w) in *. set (mg := Cmod Ga) in *. set (mB := Cmod B) in *.
  set (e1 := (eta * mb / (4 * (1 + mw)))%R). assert (e10 : (0 < e1)%R) by (unfold e1; apply Rdiv_lt_0_compat; [apply Rmult_lt_0_compat; assumption|lra]).
  destruct (F e1 e10) as (x1 & x10 & F1). destruct (G (Rmin e1 1) ltac:(apply Rmin_pos; lra)) as (x2 & x20 & G1).
  set (x3 := (mb / (2 * (1 + mB)))%R). assert (x30 : (0 < x3)%R) by (unfold x3; apply Rdiv_lt_0_compat; lra).
  set (x4 := (eta * mb * mb / (4 * (1 + mg * (mB + 1))))%R).
  assert (gB : (0 <= mg * (mB + 1))%R) by (apply Rmult_le_pos; lra).
  assert (x40 : (0 < x4)%R) by (unfold x4; apply Rdiv_lt_0_compat; [repeat apply Rmult_lt_0_compat; assumption|lra]).
  exists (Rmin (Rmin x1 x2) (Rmin x3 x4)). split; [repeat apply Rmin_pos; assumption|]. intros d Hd.
  assert (M1 := Rmin_l (Rmin x1 x2) (Rmin x3 x4)). assert (M2 := Rmin_r (Rmin x1 x2) (Rmin x3 x4)).
  assert (M3 := Rmin_l x1 x2). assert (M4 := Rmin_r x1 x2). assert (M5 := Rmin_l x3 x4). assert (M6 := Rmin_r x3 x4).
  destruct (F1 d ltac:(lra)) as (x & -> & Ex). destruct (G1 d ltac:(lra)) as (y & -> & Ey). cbn [obind].
  assert (dp := Rabs_pos d). set (ad := Rabs d) in *.
  assert (m1 := Rmin_l e1 1). assert (m2 := Rmin_r e1 1).
  set (u := x - a - RtoC d * A) in *. set (v := y - b - RtoC d * B) in *.
  assert (V1 : (Cmod v <= e1 * ad)%R) by (eapply Rle_trans; [exact Ey|apply Rmult_le_compat_r; lra]).
  assert (V2 : (Cmod v <= 1 * ad)%R) by (eapply Rle_trans; [exact Ey|apply Rmult_le_compat_r; lra]).
  assert (Hx : x = a + RtoC d * A + u) by (unfold u; ring). assert (Hy : y = b + RtoC d * B + v) by (unfold v; ring).
  assert (DB : (Cmod (RtoC d * B + v)%C <= ad * (mB + 1))%R).
  { eapply Rle_trans; [apply Cmod_triangle|]. rewrite Cmod_mult, Cmod_R. fold ad mB. lra. }
  assert (Yb : (mb / 2 <= Cmod y)%R).
  { assert (T := Cmod_triangle y (- (RtoC d * B + v))). rewrite Cmod_opp in T. replace (y + - (RtoC d * B + v)) with b in T by (rewrite Hy; ring). fold mb in T.
    assert (E : (x3 * (mB + 1) = mb / 2)%R) by (unfold x3; field; lra). assert (ad * (mB + 1) <= x3 * (mB + 1))%R by (apply Rmult_le_compat_r; lra). lra. }
  assert (Ny : y <> 0) by (intros K; rewrite K, Cmod_0 in Yb; lra).
  destruct (Ceq_dec y 0) as [|_]; [contradiction|]. exists (x / y). split; [reflexivity|].
  assert (EQ : x / y - w - RtoC d * (Ga / b) = (u - w * v - RtoC d * Ga * ((RtoC d * B + v) / b)) / y).
  { rewrite Hx, Hy. unfold Ga, w. field. split; [exact N|]. rewrite <- Hy. exact Ny. }
  rewrite EQ. rewrite Cmod_div by exact Ny. apply (Rmult_le_reg_r (Cmod y)); [lra|].
  unfold Rdiv. rewrite Rmult_assoc, Rinv_l, Rmult_1_r by lra.
  assert (N1 : (Cmod (u - w * v - RtoC d * Ga * ((RtoC d * B + v) / b))%C <= e1 * ad * (1 + mw) + ad * mg * (ad * (mB + 1) / mb))%R).
  { unfold Cminus at 1. eapply Rle_trans; [apply Cmod_triangle|]. rewrite Cmod_opp, !Cmod_mult, Cmod_div, Cmod_R by exact N. fold ad mg mb.
    apply Rplus_le_compat.
    - unfold Cminus. eapply Rle_trans; [apply Cmod_triangle|]. rewrite Cmod_opp, Cmod_mult. fold mw.
      assert (mw * Cmod v <= mw * (e1 * ad))%R by (apply Rmult_le_compat_l; lra). lra.
    - apply Rmult_le_compat_l; [apply Rmult_le_pos; lra|]. apply Rmult_le_compat_r; [left; now apply Rinv_0_lt_compat|exact DB]. }
  eapply Rle_trans; [exact N1|].
  assert (A1 : (e1 * ad * (1 + mw) = eta * mb / 4 * ad)%R) by (unfold e1; field; lra).
  assert (A2 : (ad * mg * (ad * (mB + 1) / mb) <= eta * mb / 4 * ad)%R).
  { replace (ad * mg * (ad * (mB + 1) / mb))%R with (ad * (mg * (mB + 1)) / mb * ad)%R by (field; lra).
    apply Rmult_le_compat_r; [exact dp|]. apply (Rmult_le_reg_r mb); [exact b0|]. unfold Rdiv at 1. rewrite Rmult_assoc, Rinv_l, Rmult_1_r by lra.
    assert (E4 : (x4 * (1 + mg * (mB + 1)) = eta * mb / 4 * mb)%R) by (unfold x4; field; lra).
    assert (ad * (mg * (mB + 1)) <= x4 * (mg * (mB + 1)))%R by (apply Rmult_le_compat_r; lra). lra. }
  rewrite A1. assert (Y2 : (eta * ad * (mb / 2) <= eta * ad * Cmod y)%R) by (apply Rmult_le_compat_l; [apply Rmult_le_pos; lra|exact Yb]). lra.
Qed.
