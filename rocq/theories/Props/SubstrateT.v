(** C96: psi and delta of a bare substrate in air. *)
From Coq Require Import Reals Lra Psatz Lia ZArith.
From Coquelicot Require Import Complex.
From Coq Require Import List.
From Verif.Base Require Import Py Cx Mat.
From Verif.Model Require Import Units DeltaRange Ellips Solver2.
From Verif.Spec Require Import Angle Light.
From Verif.Proof Require Import UnitsP DispersionsP DeltaRangeP EllipsP Solver2P Solver2P2 Solver2P3 Solver2P4.
From Verif.Props Require Import EllipsT Solver2T PseudoT.
Import ListNotations.
Open Scope R_scope.
Open Scope C_scope.
Open Scope py_scope.

(** rho in terms of the normal component q of the wave vector in the substrate *)
Lemma rho_quotient (w eps q : C) (c s : R) :
  w = (eps * RtoC c - q) / (eps * RtoC c + q) / ((RtoC c - q) / (RtoC c + q)) ->
  q * q = eps - RtoC (s * s) -> (s * s + c * c = 1)%R ->
  RtoC c + q <> 0 -> eps * RtoC c + q <> 0 -> (RtoC c - q) / (RtoC c + q) <> 0 ->
  w * (RtoC (s * s) + RtoC c * q) = RtoC (s * s) - RtoC c * q.
Proof.
  intros E B SC D1 D2 D3.
  assert (Z1 : RtoC c - q <> 0) by (intros K; apply D3; rewrite K; unfold Cdiv; ring).
  assert (MI : (1 - w) * ((RtoC c - q) * (eps * RtoC c + q)) = 2 * (RtoC c * q) * (1 - eps)) by (rewrite E; field; auto).
  assert (PL : (1 + w) * ((RtoC c - q) * (eps * RtoC c + q)) = 2 * RtoC (s * s) * (1 - eps)).
  { transitivity (2 * (eps * (RtoC c * RtoC c) - q * q)); [rewrite E; field; auto|]. rewrite B.
    replace (RtoC c * RtoC c) with (1 - RtoC (s * s)) by (rewrite <- RtoC_mult, <- RtoC_minus; f_equal; lra). ring. }
  assert (W : (1 - w) * RtoC (s * s) = (1 + w) * (RtoC c * q)).
  { apply (Cmult_cancel ((RtoC c - q) * (eps * RtoC c + q))); [now apply Cmult_neq_0|].
    transitivity ((1 - w) * ((RtoC c - q) * (eps * RtoC c + q)) * RtoC (s * s)); [ring|]. rewrite MI.
    transitivity ((1 + w) * ((RtoC c - q) * (eps * RtoC c + q)) * (RtoC c * q)); [rewrite PL; ring|ring]. }
  transitivity (RtoC (s * s) - (1 - w) * RtoC (s * s) + w * (RtoC c * q)); [ring|]. rewrite W. ring.
Qed.

(** The same in real numbers, with q = u + i v *)
Lemma rho_parts (w q : C) (c s : R) :
  w * (RtoC (s * s) + RtoC c * q) = RtoC (s * s) - RtoC c * q ->
  let u := Re q in let v := Im q in
  let n := ((s * s + c * u) * (s * s + c * u) + c * v * (c * v))%R in
  (Re w * n = s * s * (s * s) - c * c * (u * u + v * v))%R /\ (Im w * n = - (2 * (s * s) * (c * v)))%R /\
  (Cnorm2 w * n = (s * s - c * u) * (s * s - c * u) + c * v * (c * v))%R.
Proof.
  intros W u v n. assert (W1 := f_equal fst W). assert (W2 := f_equal snd W). cbn [fst snd Cmult Cminus Cplus Copp RtoC] in W1, W2.
  unfold Cnorm2. fold (Re w) (Im w) in W1, W2. fold (Re q) (Im q) in W1, W2. fold u v in W1, W2. change (fst w) with (Re w). change (snd w) with (Im w). set (x := Re w) in *. set (y := Im w) in *.
  assert (A1 : (x * (s * s + c * u) - y * (c * v) = s * s - c * u)%R) by lra.
  assert (A2 : (x * (c * v) + y * (s * s + c * u) = - (c * v))%R) by lra.
  split; [|split].
  - transitivity ((x * (s * s + c * u) - y * (c * v)) * (s * s + c * u) + (x * (c * v) + y * (s * s + c * u)) * (c * v))%R; [unfold n; ring|].
    rewrite A1, A2. ring.
  - transitivity ((x * (c * v) + y * (s * s + c * u)) * (s * s + c * u) - (x * (s * s + c * u) - y * (c * v)) * (c * v))%R; [unfold n; ring|].
    rewrite A1, A2. ring.
  - transitivity ((x * (s * s + c * u) - y * (c * v)) * (x * (s * s + c * u) - y * (c * v)) + (x * (c * v) + y * (s * s + c * u)) * (x * (c * v) + y * (s * s + c * u)))%R; [unfold n; ring|].
    rewrite A1, A2. ring.
Qed.

(** What is known about rho of a substrate without gain *)
Lemma substrate_real th lb (eps a : C) J w : a <> 0 -> (0 <= Im eps)%R ->
  jones2_r (solver2 th lb (RtoC 1) [] eps) = Some J -> rho (-180, 180)%R J (vec_of [a; a]) = Some w ->
  let s := sin (th * PI / 180) in let c := Rabs (cos (th * PI / 180)) in
  exists u v : R, (0 <= u)%R /\ (0 < c)%R /\ (s * s + c * c = 1)%R /\ eps <> 0 /\ eps <> 1 /\
    (u * u - v * v = Re eps - s * s)%R /\ (2 * (u * v) = Im eps)%R /\
    let n := ((s * s + c * u) * (s * s + c * u) + c * v * (c * v))%R in (0 < n)%R /\
    (Re w * n = s * s * (s * s) - c * c * (u * u + v * v))%R /\ (Im w * n = - (2 * (s * s) * (c * v)))%R /\
    (Cnorm2 w * n = (s * s - c * u) * (s * s - c * u) + c * v * (c * v))%R.
Proof.
  intros Na Ie HJ Hw s c. apply rho_fold in Hw. destruct Hw as (w' & Hw & E'). rewrite fold_id in E' by (left; cbn [fst]; lra). subst w'.
  destruct (substrate_rho th lb eps a J w Na HJ Hw) as (Hc & Ne & N1 & D1 & D2 & D3 & B & E).
  change (th * PI / 180)%R with (deg2rad th) in *. fold s in B, D1, D2, D3, E. fold c in D1, D2, D3, E.
  assert (c0 : (0 < c)%R) by (apply Rabs_pos_lt; exact Hc).
  assert (SC : (s * s + c * c = 1)%R).
  { assert (X := sin2_cos2 (deg2rad th)). unfold Rsqr in X. unfold c. rewrite <- Rabs_mult, Rabs_pos_eq by nra. exact X. }
  assert (U := kz_half_Re eps s Ne Ie). set (q := kz_half (RtoC s) eps) in *.
  assert (Q := rho_quotient w eps q c s E B SC D1 D2 D3).
  destruct (rho_parts w q c s Q) as (P1 & P2 & P3).
  assert (B1 := f_equal fst B). assert (B2 := f_equal snd B). cbn [fst snd Cmult Cminus Cplus Copp RtoC] in B1, B2.
  fold (Re q) (Im q) in B1, B2. fold (Re eps) in B1. fold (Im eps) in B2.
  exists (Re q), (Im q). split; [exact U|]. do 4 (split; [assumption|]). split; [lra|]. split; [lra|].
  split; [|split; [exact P1|split; [exact P2|exact P3]]].
  set (u := Re q) in *. set (v := Im q) in *.
  destruct (Rle_lt_or_eq_dec 0 (s * s) ltac:(nra)) as [S0|S0].
  - assert (0 <= c * u)%R by (apply Rmult_le_pos; lra). nra.
  - assert (Z : (0 < u * u + v * v)%R).
    { destruct (Rle_lt_or_eq_dec 0 (u * u + v * v) ltac:(nra)) as [|K]; [assumption|]. exfalso. apply Ne.
      assert (u = 0)%R by nra. assert (v = 0)%R by nra. apply C_ext; unfold Re, Im in *; simpl; nra. }
    rewrite <- S0. replace ((0 + c * u) * (0 + c * u) + c * v * (c * v))%R with (c * c * (u * u + v * v))%R by ring.
    apply Rmult_lt_0_compat; [nra|exact Z].
Qed.

Lemma rho_angles J E z : rho (-180, 180)%R J E = Some z ->
  exists p d, psi (-180, 180)%R J E = Some p /\ delta (-180, 180)%R J E = Some d /\
    (0 <= p < 90)%R /\ (-180 <= d < 180)%R /\ is_rho p d z.
Proof.
  intros H. destruct (C03_psi_delta_rho_partial (-180) 180 J E z ltac:(right; lia) ltac:(lia) H) as (p & d & A & B & P & T & I).
  exists p, d. unfold in_turn in T. split; [exact A|]. split; [exact B|]. split; [exact P|]. split; [lra|exact I].
Qed.
Lemma tan_psi p : (0 <= p < 90)%R -> (0 <= tan (p * PI / 180))%R /\ (tan (p * PI / 180) = 0 <-> p = 0)%R /\
  (tan (p * PI / 180) <= 1 <-> p <= 45)%R /\ (tan (p * PI / 180) = 1 <-> p = 45)%R.
Proof.
  intros P. assert (Pi := PI_RGT_0). assert (B : forall x, (0 <= x < 90)%R -> (- (PI / 2) < x * PI / 180 < PI / 2)%R) by (intros x X; split; [assert (0 <= x * PI)%R by (apply Rmult_le_pos; lra); lra|assert (x * PI < 90 * PI)%R by (apply Rmult_lt_compat_r; lra); lra]).
  assert (T45 : tan (45 * PI / 180) = 1%R) by (replace (45 * PI / 180)%R with (PI / 4)%R by field; apply tan_PI4).
  assert (T0 : tan (0 * PI / 180) = 0%R) by (replace (0 * PI / 180)%R with 0%R by field; apply tan_0).
  assert (Inc : forall x y, (0 <= x < 90)%R -> (0 <= y < 90)%R -> (x < y)%R -> (tan (x * PI / 180) < tan (y * PI / 180))%R).
  { intros x y X Y L. apply tan_increasing; [assert (BX := B x X); lra|unfold Rdiv; apply Rmult_lt_compat_r; [lra|]; apply Rmult_lt_compat_r; lra|exact (proj2 (B y Y))]. }
  assert (I45 := fun L => Inc p 45%R P ltac:(lra) L). assert (J45 := fun L => Inc 45%R p ltac:(lra) P L). assert (I0 := fun L => Inc 0%R p ltac:(lra) P L).
  rewrite T45 in I45, J45. rewrite T0 in I0.
  assert (Z : p = 0%R -> tan (p * PI / 180) = 0%R) by (intros ->; exact T0).
  assert (F : p = 45%R -> tan (p * PI / 180) = 1%R) by (intros ->; exact T45).
  destruct (Rtotal_order 0 p) as [G|[G|G]]; [|symmetry in G; specialize (Z G)|lra].
  - specialize (I0 G). destruct (Rtotal_order p 45) as [L|[L|L]]; [specialize (I45 L)|specialize (F L)|specialize (J45 L)]; repeat split; intros; try lra.
  - specialize (I45 ltac:(lra)). repeat split; intros; lra.
Qed.
Lemma tan_norm p d z : (0 <= p < 90)%R -> is_rho p d z -> (tan (p * PI / 180) * tan (p * PI / 180) = Cnorm2 z)%R.
Proof.
  intros P [A B]. unfold Cnorm2. change (fst z) with (Re z). change (snd z) with (Im z). rewrite A, B. assert (S := sin2_cos2 (d * PI / 180)). unfold Rsqr in S.
  transitivity (tan (p * PI / 180) * tan (p * PI / 180) * (sin (d * PI / 180) * sin (d * PI / 180) + cos (d * PI / 180) * cos (d * PI / 180)))%R; [rewrite S; ring|ring].
Qed.

(** C96: psi of a substrate without gain is at most 45 degrees, which is reached at normal incidence
    and by substrates that carry no light away. *)
Theorem C96_psi : forall theta_i lbda (eps a : C) J w,
  a <> 0 -> (0 <= Im eps)%R ->
  jones2_r (solver2 theta_i lbda (RtoC 1) [] eps) = Some J -> rho (-180, 180)%R J (vec_of [a; a]) = Some w ->
  let s := sin (theta_i * PI / 180) in
  exists p, psi (-180, 180)%R J (vec_of [a; a]) = Some p /\ (0 <= p <= 45)%R /\
    (p = 45%R <-> s = 0%R \/ (Im eps = 0 /\ Re eps <= s * s)%R).
Proof.
  intros th lb eps a J w Na Ie HJ Hw s.
  destruct (substrate_real th lb eps a J w Na Ie HJ Hw) as (u & v & U & c0 & SC & Ne & N1 & B1 & B2 & n0 & _ & _ & P3).
  fold s in SC, B1, B2, n0, P3. set (c := Rabs _) in *. set (n := ((s * s + c * u) * (s * s + c * u) + c * v * (c * v))%R) in *.
  destruct (rho_angles _ _ _ Hw) as (p & d & Hp & _ & P & _ & I). exists p. split; [exact Hp|].
  destruct (tan_psi p P) as (T0 & _ & T45 & T1). assert (TN := tan_norm p d w P I). set (t := tan (p * PI / 180)) in *.
  assert (X : ((1 - t * t) * n = 4 * (s * s * (c * u)))%R) by (rewrite TN; transitivity (n - Cnorm2 w * n)%R; [ring|rewrite P3; unfold n; ring]).
  assert (cu : (0 <= c * u)%R) by (apply Rmult_le_pos; lra). assert (ss : (0 <= s * s)%R) by nra.
  assert (Y : (0 <= s * s * (c * u))%R) by (apply Rmult_le_pos; assumption).
  split; [split; [lra|]; apply T45; destruct (Rle_lt_dec t 1) as [|K]; [assumption|exfalso; assert ((1 - t * t) < 0)%R by nra; assert ((1 - t * t) * n < 0)%R by nra; lra]|].
  rewrite <- T1. split.
  - intros E. rewrite E in X. assert (Z : (s * s * (c * u) = 0)%R) by lra. apply Rmult_integral in Z. destruct Z as [Z|Z]; [left; nra|].
    right. apply Rmult_integral in Z. destruct Z as [Z|Z]; [lra|]. rewrite Z in B1, B2. split; nra.
  - intros K. assert (Z : (s * s * (c * u) = 0)%R).
    { destruct K as [K|[K1 K2]]; [rewrite K; ring|]. assert (U0 : u = 0%R); [|rewrite U0; ring].
      rewrite K1 in B2. destruct (Req_dec u 0) as [|W]; [assumption|]. exfalso. assert (v = 0)%R by nra. subst v. nra. }
    rewrite Z in X. assert (1 - t * t = 0)%R by nra. nra.
Qed.
Print Assumptions C96_psi.

(** C96: for a transparent substrate delta is half a turn below Brewster's angle and zero from it
    on; psi is zero exactly there. *)
Theorem C96_transparent : forall theta_i lbda (y : R) (a : C) J w,
  a <> 0 -> jones2_r (solver2 theta_i lbda (RtoC 1) [] (RtoC y)) = Some J -> rho (-180, 180)%R J (vec_of [a; a]) = Some w ->
  let s := sin (theta_i * PI / 180) in let t := tan (theta_i * PI / 180) in
  (s * s < y)%R ->
  exists p d, psi (-180, 180)%R J (vec_of [a; a]) = Some p /\ delta (-180, 180)%R J (vec_of [a; a]) = Some d /\
    (p = 0%R <-> (t * t = y)%R) /\ (d = if Rlt_dec (t * t) y then -180 else 0)%R.
Proof.
  intros th lb y a J w Na HJ Hw s t Y.
  destruct (substrate_real th lb (RtoC y) a J w Na ltac:(simpl; lra) HJ Hw) as (u & v & U & c0 & SC & Ne & N1 & B1 & B2 & n0 & P1 & P2 & P3).
  fold s in SC, B1, B2, n0, P1, P2, P3. set (c := Rabs _) in *. set (n := ((s * s + c * u) * (s * s + c * u) + c * v * (c * v))%R) in *.
  change (Re (RtoC y)) with y in B1. change (Im (RtoC y)) with 0%R in B2.
  assert (V : v = 0%R). { destruct (Req_dec v 0) as [|K]; [assumption|]. exfalso. assert (u = 0)%R by nra. subst u. nra. }
  destruct (rho_angles _ _ _ Hw) as (p & d & Hp & Hd & P & D & I). exists p, d. split; [exact Hp|]. split; [exact Hd|].
  destruct (tan_psi p P) as (T0 & TZ & _ & _). assert (TN := tan_norm p d w P I).
  assert (IM : Im w = 0%R) by (rewrite V in P2; nra).
  assert (CC : (c * c = cos (th * PI / 180) * cos (th * PI / 180))%R) by (unfold c; rewrite <- Rabs_mult, Rabs_pos_eq; [reflexivity|nra]).
  assert (TT : (t * t * (c * c) = s * s)%R).
  { rewrite CC. unfold t, s, tan. field. intros K. rewrite K in CC. nra. }
  (* Re w * n = c^2 (t^2 - y) *)
  assert (RW : (Re w * n = c * c * (t * t - y))%R).
  { rewrite P1. transitivity (s * s * (s * s) - c * c * (y - s * s))%R; [nra|]. transitivity (s * s * (s * s + c * c) - c * c * y)%R; [ring|]. rewrite SC. lra. }
  split.
  - rewrite <- TZ. split; intros K.
    + rewrite K in TN. change (Cnorm2 w) with (Re w * Re w + Im w * Im w)%R in TN. rewrite IM in TN. assert (R0 : Re w = 0%R) by nra. rewrite R0 in RW. nra.
    + rewrite K in RW. assert (R0 : Re w = 0%R) by nra. change (Cnorm2 w) with (Re w * Re w + Im w * Im w)%R in TN. rewrite IM, R0 in TN. nra.
  - assert (DD : d = delta_of (-180, 180)%R w).
    { unfold delta in Hd. rewrite Hw in Hd. cbn [obind] in Hd. now apply Some_eq in Hd. }
    assert (CA : Carg w = if Rlt_dec (t * t) y then PI else 0%R).
    { destruct w as [x z]. unfold Re, Im in RW, IM. cbn [fst snd] in RW, IM. subst z. unfold Carg. cbn [fst snd].
      assert (cc : (0 < c * c)%R) by nra. replace (0 / x)%R with 0%R by (unfold Rdiv; ring). rewrite atan_0.
      destruct (Rlt_dec (t * t) y) as [L|L].
      - assert (x < 0)%R by nra. destruct (Rlt_dec 0 x); [lra|]. destruct (Rlt_dec x 0); [|lra]. destruct (Rlt_dec 0 0); [lra|]. ring.
      - destruct (Rlt_dec 0 x); [reflexivity|]. destruct (Rlt_dec x 0); [exfalso; nra|]. destruct (Rlt_dec 0 0); [lra|reflexivity]. }
    rewrite DD. unfold delta_of. cbn [fst]. rewrite CA. assert (Pi := PI_neq0). destruct (Rlt_dec (t * t) y) as [L|L].
    + replace (rad2deg PI) with 180%R by (unfold rad2deg; field; exact Pi). 
      rewrite (np_mod_unique _ 360 0 ltac:(lra) ltac:(lra)); [ring|]. exists 1%Z. simpl. ring.
    + replace (rad2deg 0) with 0%R by (unfold rad2deg; field; exact Pi).
      rewrite (np_mod_unique _ 360 180 ltac:(lra) ltac:(lra)); [ring|]. exists 1%Z. simpl. ring.
Qed.
Print Assumptions C96_transparent.

(** C96: for an absorbing substrate at oblique incidence psi is between 0 and 45 degrees and delta
    between 0 and 180 degrees; delta is 90 degrees at the principal angle. *)
Theorem C96_absorbing : forall theta_i lbda (eps a : C) J w,
  a <> 0 -> (0 < Im eps)%R ->
  jones2_r (solver2 theta_i lbda (RtoC 1) [] eps) = Some J -> rho (-180, 180)%R J (vec_of [a; a]) = Some w ->
  let s := sin (theta_i * PI / 180) in let t := tan (theta_i * PI / 180) in
  s <> 0%R ->
  exists p d, psi (-180, 180)%R J (vec_of [a; a]) = Some p /\ delta (-180, 180)%R J (vec_of [a; a]) = Some d /\
    (0 < p < 45)%R /\ (0 < d < 180)%R /\
    (d < 90 <-> Cmod (eps - RtoC (s * s)) < s * s * (t * t))%R /\ (d = 90 <-> Cmod (eps - RtoC (s * s)) = s * s * (t * t))%R.
Proof.
  intros th lb eps a J w Na Ie HJ Hw s t S0.
  destruct (C96_psi th lb eps a J w Na ltac:(lra) HJ Hw) as (p & Hp & PB & P45). fold s in P45.
  destruct (substrate_real th lb eps a J w Na ltac:(lra) HJ Hw) as (u & v & U & c0 & SC & Ne & N1 & B1 & B2 & n0 & P1 & P2 & P3).
  fold s in SC, B1, B2, n0, P1, P2, P3. set (c := Rabs _) in *. set (n := ((s * s + c * u) * (s * s + c * u) + c * v * (c * v))%R) in *.
  destruct (rho_angles _ _ _ Hw) as (p' & d & Hp' & Hd & P & D & I). rewrite Hp in Hp'. apply Some_eq in Hp'. subst p'.
  exists p, d. split; [exact Hp|]. split; [exact Hd|].
  assert (u0 : (0 < u)%R) by (destruct U as [|K]; [assumption|subst u; lra]). assert (v0 : (0 < v)%R) by nra.
  assert (ss : (0 < s * s)%R) by nra. assert (cv : (0 < c * v)%R) by nra.
  assert (IM : (Im w < 0)%R) by nra. destruct I as [I1 I2]. destruct (tan_psi p P) as (T0 & TZ & _ & _).
  assert (p0 : (0 < p)%R). { destruct PB as [[|K] _]; [assumption|]. symmetry in K. apply TZ in K. rewrite K in I2. lra. }
  assert (tp : (0 < tan (p * PI / 180))%R). { destruct T0 as [|K]; [assumption|]. symmetry in K. apply TZ in K. lra. }
  split; [split; [exact p0|]; destruct PB as [_ [|K]]; [assumption|apply P45 in K; destruct K; [contradiction|lra]]|].
  assert (SD : (0 < sin (d * PI / 180))%R). { clear - I2 tp IM. destruct (Rlt_le_dec 0 (sin (d * PI / 180))) as [|K]; [assumption|]. exfalso. assert (0 <= tan (p * PI / 180) * - sin (d * PI / 180))%R by (apply Rmult_le_pos; lra). lra. } assert (Pi := PI_RGT_0).
  assert (D0 : (0 < d < 180)%R).
  { split; [|lra]. destruct (Rlt_le_dec 0 d) as [|K]; [assumption|]. exfalso.
    assert (Z : (sin (- (d * PI / 180)) >= 0)%R) by (assert (H1 : (- PI * 180 <= d * PI)%R) by (clear - D Pi; nra); assert (H2 : (d * PI <= 0)%R) by (clear - K Pi; nra); clear - H1 H2 Pi; apply Rle_ge, sin_ge_0; lra). rewrite sin_neg in Z. lra. }
  split; [exact D0|].
  assert (QM : (Cmod (eps - RtoC (s * s)) = u * u + v * v)%R).
  { replace (eps - RtoC (s * s)) with ((u, v) * (u, v)) by (apply C_ext; unfold Re, Im in *; simpl; lra).
    rewrite Cmod_mult. unfold Cmod. cbn [fst snd]. rewrite sqrt_sqrt by (clear; nra). ring. }
  assert (CC : (c * c = cos (th * PI / 180) * cos (th * PI / 180))%R) by (unfold c; rewrite <- Rabs_mult, Rabs_pos_eq; [reflexivity|clear; nra]).
  assert (TT : (t * t * (c * c) = s * s)%R).
  { rewrite CC. unfold t, s, tan. field. intros K. rewrite K in CC. clear - CC c0; nra. }
  rewrite QM. assert (RW : (tan (p * PI / 180) * cos (d * PI / 180) * n = c * c * (s * s * (t * t) - (u * u + v * v)))%R).
  { rewrite <- I1, P1. rewrite <- TT at 2. ring. }
  assert (cc : (0 < c * c)%R) by (clear - c0; nra). set (X := (s * s * (t * t) - (u * u + v * v))%R) in *.
  assert (K1 : (0 < cos (d * PI / 180) <-> 0 < X)%R).
  { set (cd := cos (d * PI / 180)) in *. set (tt := tan (p * PI / 180)) in *. assert (tn : (0 < tt * n)%R) by (apply Rmult_lt_0_compat; assumption).
    replace (tt * cd * n)%R with (tt * n * cd)%R in RW by ring. split; intros K.
    - assert (0 < tt * n * cd)%R by (apply Rmult_lt_0_compat; assumption). apply (Rmult_lt_reg_l (c * c)); [exact cc|]. lra.
    - assert (0 < c * c * X)%R by (apply Rmult_lt_0_compat; assumption). apply (Rmult_lt_reg_l (tt * n)); [exact tn|]. lra. }
  assert (K2 : (cos (d * PI / 180) = 0 <-> X = 0)%R).
  { split; intros K; rewrite K in RW.
    - assert (c * c * X = 0)%R by lra. apply Rmult_integral in H. destruct H; [lra|assumption].
    - assert (H : (tan (p * PI / 180) * cos (d * PI / 180) * n = 0)%R) by lra. apply Rmult_integral in H. destruct H as [H|]; [|lra].
      apply Rmult_integral in H. destruct H as [H|H]; [lra|exact H]. }
  assert (C90 : cos (90 * PI / 180) = 0%R) by (replace (90 * PI / 180)%R with (PI / 2)%R by field; apply cos_PI2).
  assert (M : forall x y, (0 <= x <= 180)%R -> (0 <= y <= 180)%R -> (x < y)%R -> (cos (y * PI / 180) < cos (x * PI / 180))%R).
  { clear - Pi. intros x y Hx Hy L. apply cos_decreasing_1; unfold Rdiv; nra. }
  assert (E : (X = 0 <-> u * u + v * v = s * s * (t * t))%R) by (unfold X; split; lra).
  assert (E' : (0 < X <-> u * u + v * v < s * s * (t * t))%R) by (unfold X; split; lra).
  rewrite <- E, <- E', <- K1, <- K2. clear - M C90 D0.
  destruct (Rtotal_order d 90) as [L|[L|L]].
  - specialize (M d 90%R ltac:(lra) ltac:(lra) L). rewrite C90 in M. split; split; intros; lra.
  - rewrite L, C90. split; split; intros; lra.
  - specialize (M 90%R d ltac:(lra) ltac:(lra) L). rewrite C90 in M. split; split; intros; lra.
Qed.
Print Assumptions C96_absorbing.

(** Permittivity 5/2 at 45 degrees, below Brewster's angle *)
Example C96_example : exists J p,
  jones2_r (solver2 45 1 (RtoC 1) [] (RtoC (5 / 2))) = Some J /\
  psi (-180, 180)%R J (vec_of [RtoC 1; RtoC 1]) = Some p /\ (0 < p < 45)%R /\
  delta (-180, 180)%R J (vec_of [RtoC 1; RtoC 1]) = Some (-180)%R.
Proof.
  destruct C04_example as (J & p & d & HJ & Hr & Hp & Hd & _). exists J, p. split; [exact HJ|]. split; [exact Hp|].
  assert (N1 : RtoC 1 <> 0) by (apply C_of_R_neq; lra). destruct deg45 as [S4 C4]. unfold deg2rad in S4, C4. assert (H2 := half2).
  assert (S2 : (0 < 1 / sqrt 2)%R) by (apply Rdiv_lt_0_compat; [lra|apply sqrt_lt_R0; lra]).
  assert (T4 : tan (45 * PI / 180) = 1%R) by (unfold tan; rewrite S4, C4; field; apply Rgt_not_eq, sqrt_lt_R0; lra).
  destruct (C96_transparent 45 1 (5 / 2) (RtoC 1) J _ N1 HJ Hr) as (p' & d' & Hp' & Hd' & P0 & D); [rewrite S4; lra|].
  rewrite Hp in Hp'. apply Some_eq in Hp'. subst p'. rewrite T4 in P0, D. destruct (Rlt_dec (1 * 1) (5 / 2)); [|lra]. subst d'. split; [|exact Hd'].
  destruct (C96_psi 45 1 (RtoC (5 / 2)) (RtoC 1) J _ N1 ltac:(simpl; lra) HJ Hr) as (p' & Hp' & B & P45).
  rewrite Hp in Hp'. apply Some_eq in Hp'. subst p'. rewrite S4 in P45. change (Re (RtoC (5 / 2))) with (5 / 2)%R in P45.
  destruct B as [B1 B2]. split.
  - destruct B1 as [B1|B1]; [exact B1|]. exfalso. symmetry in B1. apply P0 in B1. lra.
  - destruct B2 as [B2|B2]; [exact B2|]. exfalso. apply P45 in B2. destruct B2 as [K|[_ K]]; lra.
Qed.

(** An absorbing substrate at 45 degrees *)
Example C96_example_absorbing : exists J w p d,
  jones2_r (solver2 45 1 (RtoC 1) [] (1 / 2, 2)%R) = Some J /\ rho (-180, 180)%R J (vec_of [RtoC 1; RtoC 1]) = Some w /\
  psi (-180, 180)%R J (vec_of [RtoC 1; RtoC 1]) = Some p /\ delta (-180, 180)%R J (vec_of [RtoC 1; RtoC 1]) = Some d /\
  (0 < p < 45)%R /\ (90 < d < 180)%R.
Proof.
  assert (N1 : RtoC 1 <> 0) by (apply C_of_R_neq; lra). destruct deg45 as [S4 C4]. assert (H2 := half2).
  assert (S2 : (0 < 1 / sqrt 2)%R) by (apply Rdiv_lt_0_compat; [lra|apply sqrt_lt_R0; lra]).
  assert (Ne : ((1 / 2, 2)%R : C) <> 0) by (intros K; apply (f_equal snd) in K; simpl in K; lra).
  set (eps := ((1 / 2, 2)%R : C)) in *. set (r := (1 / sqrt 2)%R) in *.
  assert (Q : kz_half (RtoC r) eps = (1, 1)%R).
  { assert (B := kz_half_sqr (RtoC r) eps Ne). assert (U := kz_half_Re eps r Ne ltac:(simpl; lra)). set (q := kz_half _ _) in *.
    assert (E : q * q = ((1, 1)%R : C) * (1, 1)%R) by (rewrite B; unfold eps; apply C_ext; simpl; lra).
    apply Csqr_eq in E. destruct E as [E|E]; [exact E|]. rewrite E in U. simpl in U. lra. }
  assert (D1 : RtoC r + (1, 1)%R <> 0) by (intros K; apply (f_equal snd) in K; simpl in K; lra).
  assert (D2 : eps * RtoC r + (1, 1)%R <> 0) by (intros K; apply (f_equal snd) in K; simpl in K; lra).
  assert (Hc : cos (deg2rad 45) <> 0%R) by (rewrite C4; lra).
  assert (SJ := substrate_some 45 1 eps). cbv zeta in SJ. rewrite S4, C4 in SJ. rewrite (Rabs_pos_eq r) in SJ by lra. rewrite Q in SJ.
  specialize (SJ ltac:(lra) ltac:(lra) Ne D1 D2).
  set (J := mat_of _) in SJ. destruct (rho (-180, 180)%R J (vec_of [RtoC 1; RtoC 1])) as [w|] eqn:Hw.
  2:{ apply (C04_defined _ 45 1 eps (RtoC 1) J N1 SJ) in Hw. apply (f_equal snd) in Hw. simpl in Hw. lra. }
  destruct (C96_absorbing 45 1 eps (RtoC 1) J w N1 ltac:(simpl; lra) SJ Hw) as (p & d & Hp & Hd & P & D & L & E).
  { change (45 * PI / 180)%R with (deg2rad 45). rewrite S4. lra. }
  exists J, w, p, d. do 4 (split; [assumption|]). split; [exact P|]. split; [|lra].
  change (45 * PI / 180)%R with (deg2rad 45) in L, E. rewrite S4 in L, E.
  assert (T4 : tan (deg2rad 45) = 1%R) by (unfold tan; rewrite S4, C4; fold r; field; lra).
  rewrite T4 in L, E. replace (r * r)%R with (1 / 2)%R in L, E by lra.
  replace (eps - RtoC (1 / 2)) with (RtoC 2 * Ci) in L, E by (unfold eps; apply C_ext; simpl; lra).
  rewrite Cmod_mult, Cmod_R, Rabs_pos_eq in L, E by lra. replace (Cmod Ci) with 1%R in L, E by (unfold Cmod, Ci; simpl; symmetry; replace (0 * (0 * 1) + 1 * (1 * 1))%R with 1%R by ring; apply sqrt_1).
  destruct (Rtotal_order d 90) as [K|[K|K]]; [apply L in K|apply E in K|]; lra.
Qed.
