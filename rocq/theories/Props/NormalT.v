(** C124: normal dispersion of the transparent models. *)
From Coq Require Import Reals Lra Psatz.
From Coquelicot Require Import Complex.
From Coq Require Import List.
From Verif.Base Require Import Py Cx.
From Verif.Model Require Import Units Dispersions.
From Verif.Spec Require Import Normal.
From Verif.Proof Require Import UnitsP DispersionsP.
Import ListNotations.
Open Scope R_scope.

(** Sums of real terms that fall *)
Lemma osum_falls {T} (f f' : T -> option C) (ok strict : T -> Prop) rep :
  (forall t, ok t -> exists y y' : R, f t = Some (RtoC y) /\ f' t = Some (RtoC y') /\ y' <= y /\ (strict t -> y' < y)) ->
  Forall ok rep ->
  exists y y' : R, osum f rep = Some (RtoC y) /\ osum f' rep = Some (RtoC y') /\ y' <= y /\ (Exists strict rep -> y' < y).
Proof.
  intros H F. induction F as [|t rep Ht F IH].
  - exists 0, 0. rewrite !osum_nil. split; [reflexivity|]. split; [reflexivity|]. split; [lra|]. intros K; inversion K.
  - destruct IH as (y & y' & E & E' & L & S). destruct (H t Ht) as (z & z' & Z & Z' & Lz & Sz). exists (z + y), (z' + y'). rewrite !osum_cons, Z, Z', E, E'. cbn [obind].
    rewrite <- !RtoC_plus. split; [reflexivity|]. split; [reflexivity|]. split; [lra|]. intros K. inversion K as [? ? K'|? ? K']; subst; [specialize (Sz K')|specialize (S K')]; lra.
Qed.

Definition outside (a b B : R) : Prop := B < (a / 10 ^ 3) ^ 2 \/ (b / 10 ^ 3) ^ 2 < B.

Lemma sell_term A B a b : 0 < a < b -> 0 <= A -> 0 <= B -> outside a b B ->
  exists y y' : R, rdiv (A * (a / 10 ^ 3) ^ 2) ((a / 10 ^ 3) ^ 2 - B) = Some y /\ rdiv (A * (b / 10 ^ 3) ^ 2) ((b / 10 ^ 3) ^ 2 - B) = Some y' /\
    y' <= y /\ (0 < A /\ 0 < B -> y' < y) /\ (B < (a / 10 ^ 3) ^ 2 -> A <= y').
Proof.
  intros H HA HB O. assert (Q : a / 10 ^ 3 < b / 10 ^ 3) by (apply Rmult_lt_compat_r; [apply Rinv_0_lt_compat, pow_lt; lra|lra]).
  assert (Q0 : 0 < a / 10 ^ 3) by (apply Rdiv_lt_0_compat; [lra|apply pow_lt; lra]). unfold outside in O. set (u := a / 10 ^ 3) in *. set (v := b / 10 ^ 3) in *. clearbody u v.
  assert (P : u ^ 2 < v ^ 2) by (cbn; nra). set (p := u ^ 2) in *. set (p' := v ^ 2) in *. clearbody p p'.
  assert (N : 0 < (p - B) * (p' - B)) by (destruct O; [apply Rmult_lt_0_compat; lra|replace ((p - B) * (p' - B)) with ((B - p) * (B - p')) by ring; apply Rmult_lt_0_compat; lra]).
  assert (N1 : p - B <> 0) by (intros K; rewrite K in N; lra). assert (N2 : p' - B <> 0) by (intros K; rewrite K in N; lra).
  exists (A * p / (p - B)), (A * p' / (p' - B)). rewrite !rdiv_nz by assumption. split; [reflexivity|]. split; [reflexivity|].
  assert (D : A * p / (p - B) - A * p' / (p' - B) = A * B * ((p' - p) / ((p - B) * (p' - B)))) by (field; split; assumption).
  assert (X : 0 < (p' - p) / ((p - B) * (p' - B))) by (apply Rdiv_lt_0_compat; lra). set (w := (p' - p) / ((p - B) * (p' - B))) in *. clearbody w.
  assert (AB : 0 <= A * B) by (now apply Rmult_le_pos). split; [assert (0 <= A * B * w) by (apply Rmult_le_pos; lra); lra|]. split.
  - intros [A0 B0]. assert (0 < A * B * w) by (repeat apply Rmult_lt_0_compat; assumption). lra.
  - intros K. assert (E : A * p' / (p' - B) = A + A * B / (p' - B)) by (field; exact N2). rewrite E. assert (0 <= A * B / (p' - B)); [|lra]. apply Rmult_le_pos; [exact AB|]. left. apply Rinv_0_lt_compat. lra.
Qed.

(** C124: between two wavelengths without resonance the permittivity of a Sellmeier model falls.
    B is the square of a resonance wavelength in micrometres. *)
Theorem C124_sellmeier : forall rep a b, 0 < a < b ->
  Forall (fun '(A, B) => 0 <= A /\ 0 <= B /\ (B < (a / 1000) ^ 2 \/ (b / 1000) ^ 2 < B)) rep ->
  Exists (fun '(A, B) => 0 < A /\ 0 < B) rep -> falls (sellmeier rep) a b.
Proof.
  intros rep a b H F X. replace 1000 with (10 ^ 3) in F by ring.
  destruct (osum_falls (fun '(A, B) => obind (rdiv (A * (a / 10 ^ 3) ^ 2) ((a / 10 ^ 3) ^ 2 - B)) (fun q => Some (RtoC q)))
    (fun '(A, B) => obind (rdiv (A * (b / 10 ^ 3) ^ 2) ((b / 10 ^ 3) ^ 2 - B)) (fun q => Some (RtoC q)))
    (fun '(A, B) => 0 <= A /\ 0 <= B /\ outside a b B) (fun '(A, B) => 0 < A /\ 0 < B) rep) as (y & y' & E & E' & _ & S); [|exact F|].
  { intros [A B] (HA & HB & O). destruct (sell_term A B a b H HA HB O) as (z & z' & Z & Z' & L & S & _). exists z, z'. rewrite Z, Z'. cbn [obind]. auto. }
  exists (1 + y), (1 + y'). unfold sellmeier. rewrite E, E'. cbn [obind]. rewrite <- !RtoC_plus. split; [reflexivity|]. split; [reflexivity|]. specialize (S X). lra.
Qed.
Print Assumptions C124_sellmeier.

(** C124: beyond all resonances it stays above 1 + sum A, so that also the refractive index is real
    and falls. *)
Theorem C124_sellmeier_index : forall rep a b, 0 < a < b ->
  Forall (fun '(A, B) => 0 <= A /\ 0 <= B < (a / 1000) ^ 2) rep -> Exists (fun '(A, B) => 0 < A /\ 0 < B) rep ->
  (exists y : R, sellmeier rep b = Some (RtoC y) /\ 1 + fold_right Rplus 0 (map fst rep) <= y) /\
  falls (fun l => obind (sellmeier rep l) (fun z => Some (Csqrt z))) a b.
Proof.
  intros rep a b H F X.
  assert (L : exists y : R, sellmeier rep b = Some (RtoC y) /\ 1 + fold_right Rplus 0 (map fst rep) <= y).
  { replace 1000 with (10 ^ 3) in F by ring. clear X.
    assert (G : exists y : R, osum (fun '(A, B) => obind (rdiv (A * (b / 10 ^ 3) ^ 2) ((b / 10 ^ 3) ^ 2 - B)) (fun q => Some (RtoC q))) rep = Some (RtoC y) /\ fold_right Rplus 0 (map fst rep) <= y).
    { induction F as [|[A B] rep (HA & HB & O) F IH]; [exists 0; split; [reflexivity|cbn; lra]|]. destruct IH as (y & E & L).
      destruct (sell_term A B a b H HA HB (or_introl O)) as (z & z' & Z & Z' & _ & _ & Lz). specialize (Lz O). exists (z' + y). rewrite osum_cons, Z', E. cbn [obind map fst fold_right]. rewrite <- RtoC_plus. split; [reflexivity|lra]. }
    destruct G as (y & E & G). exists (1 + y). unfold sellmeier. rewrite E. cbn [obind]. rewrite <- RtoC_plus. split; [reflexivity|lra]. }
  split; [exact L|]. destruct L as (y' & E' & L').
  destruct (C124_sellmeier rep a b H) as (z & z' & Z & Z' & S); [|exact X|].
  { eapply Forall_impl; [|exact F]. intros [A B] (HA & HB & O). tauto. }
  rewrite E' in Z'. assert (y' = z') by (apply (f_equal (fun o => match o with Some w => fst w | None => 0 end)) in Z'; exact Z'). subst z'.
  assert (P : 0 <= fold_right Rplus 0 (map fst rep)).
  { clear - F. induction F as [|[A B] rep (HA & _) F IH]; cbn [map fst fold_right]; lra. }
  exists (sqrt z), (sqrt y'). rewrite Z, E'. cbn [obind]. rewrite !Csqrt_pos by lra. split; [reflexivity|]. split; [reflexivity|]. apply sqrt_lt_1_alt. lra.
Qed.
Print Assumptions C124_sellmeier_index.

(** C124: the refractive index of a transparent Cauchy model falls. *)
Theorem C124_cauchy : forall n0 n1 n2 a b, 0 < a < b -> 0 <= n1 -> 0 <= n2 -> 0 < n1 + n2 -> falls (cauchy n0 n1 n2 0 0 0) a b.
Proof.
  intros n0 n1 n2 a b H H1 H2 H3. assert (A2 : 0 < a ^ 2) by (apply pow_lt; lra). assert (A4 : 0 < a ^ 4) by (apply pow_lt; lra).
  assert (B2 : 0 < b ^ 2) by (apply pow_lt; lra). assert (B4 : 0 < b ^ 4) by (apply pow_lt; lra).
  assert (L2 : a ^ 2 < b ^ 2) by (cbn; nra). assert (L4 : a ^ 4 < b ^ 4) by (replace (a ^ 4) with (a ^ 2 * a ^ 2) by ring; replace (b ^ 4) with (b ^ 2 * b ^ 2) by ring; apply Rmult_le_0_lt_compat; lra).
  exists (n0 + 10 ^ 2 * n1 / a ^ 2 + 10 ^ 7 * n2 / a ^ 4), (n0 + 10 ^ 2 * n1 / b ^ 2 + 10 ^ 7 * n2 / b ^ 4).
  assert (Z : forall q, q <> 0 -> forall k, rdiv (k * 0) q = Some 0) by (intros q Hq k; rewrite rdiv_nz by exact Hq; f_equal; field; exact Hq).
  assert (I2 : / b ^ 2 < / a ^ 2) by (apply Rinv_lt_contravar; [now apply Rmult_lt_0_compat|exact L2]). assert (I4 : / b ^ 4 < / a ^ 4) by (apply Rinv_lt_contravar; [now apply Rmult_lt_0_compat|exact L4]).
  assert (Q : forall y : R, (RtoC y + Ci * RtoC (0 + 0 + 0))%C = RtoC y) by (intros y; rewrite !Rplus_0_r; ring).
  unfold cauchy. split; [rewrite !Z, !rdiv_nz by lra; cbn [obind]; now rewrite Q|]. split; [rewrite !Z, !rdiv_nz by lra; cbn [obind]; now rewrite Q|].
  unfold Rdiv. set (i := / a ^ 2) in *. set (i' := / b ^ 2) in *. set (j := / a ^ 4) in *. set (j' := / b ^ 4) in *. clearbody i i' j j'.
  assert (T1 : 0 < 10 ^ 2) by (apply pow_lt; lra). assert (T2 : 0 < 10 ^ 7) by (apply pow_lt; lra). set (t1 := 10 ^ 2) in *. set (t2 := 10 ^ 7) in *. clearbody t1 t2.
  destruct (Rlt_dec 0 n1) as [P|P].
  - assert (t1 * n1 * i' < t1 * n1 * i) by (apply Rmult_lt_compat_l; [now apply Rmult_lt_0_compat|assumption]). assert (t2 * n2 * j' <= t2 * n2 * j) by (apply Rmult_le_compat_l; [apply Rmult_le_pos|]; lra). lra.
  - assert (n1 = 0) by lra. subst n1. assert (t2 * n2 * j' < t2 * n2 * j) by (apply Rmult_lt_compat_l; [apply Rmult_lt_0_compat|]; lra). lra.
Qed.
Print Assumptions C124_cauchy.

(** C124: the permittivity of a Poles model falls while the photon energy passes no pole, with a
    negative amplitude in the infrared and a positive one in the ultraviolet. *)
Theorem C124_poles : forall c h A_ir A_uv E_uv a b, 0 < c -> 0 < h -> 0 < a < b -> A_ir <= 0 -> 0 <= A_uv -> A_ir < A_uv ->
  (c * h * 10 ^ 9 / a < Rabs E_uv \/ Rabs E_uv < c * h * 10 ^ 9 / b) -> falls (poles c h A_ir A_uv E_uv) a b.
Proof.
  intros c h Ai Au Eu a b Hc Hh H HI HU HS O.
  destruct (conv_pos c h a Hc Hh ltac:(lra)) as (e & E & P & V). destruct (conv_pos c h b Hc Hh ltac:(lra)) as (e' & E' & P' & V').
  assert (K : 0 < c * h * 10 ^ 9) by (apply Rmult_lt_0_compat; [now apply Rmult_lt_0_compat|apply pow_lt; lra]).
  rewrite <- V, <- V' in O. assert (L : e' < e) by (rewrite V, V'; apply Rmult_lt_compat_l; [exact K|]; apply Rinv_lt_contravar; [apply Rmult_lt_0_compat; lra|lra]).
  assert (U2 : Eu ^ 2 = Rabs Eu * Rabs Eu) by (rewrite <- Rabs_mult, Rabs_pos_eq by apply Rle_0_sqr; ring). assert (UP := Rabs_pos Eu).
  assert (P2 : 0 < e' ^ 2) by (now apply pow_lt). assert (L2 : e' ^ 2 < e ^ 2) by (replace (e' ^ 2) with (e' * e') by ring; replace (e ^ 2) with (e * e) by ring; apply Rmult_le_0_lt_compat; lra).
  assert (O2 : e ^ 2 < Eu ^ 2 \/ Eu ^ 2 < e' ^ 2).
  { rewrite U2. replace (e' ^ 2) with (e' * e') by ring. replace (e ^ 2) with (e * e) by ring. destruct O; [left|right]; apply Rmult_le_0_lt_compat; lra. }
  clear U2 O V V'. set (u := Eu ^ 2) in *. set (p := e ^ 2) in *. set (q := e' ^ 2) in *.
  assert (N : 0 < (u - p) * (u - q)) by (destruct O2; [apply Rmult_lt_0_compat; lra|replace ((u - p) * (u - q)) with ((p - u) * (q - u)) by ring; apply Rmult_lt_0_compat; lra]).
  assert (N1 : u - p <> 0) by (intros Z; rewrite Z in N; lra). assert (N2 : u - q <> 0) by (intros Z; rewrite Z in N; lra).
  exists (Ai / p + Au / (u - p)), (Ai / q + Au / (u - q)). unfold poles. rewrite E, E'. cbn [obind]. fold p q u. rewrite !rdiv_nz by lra. cbn [obind]. split; [reflexivity|]. split; [reflexivity|].
  assert (D1 : Ai / p - Ai / q = - Ai * ((p - q) / (p * q))) by (field; lra). assert (D2 : Au / (u - p) - Au / (u - q) = Au * ((p - q) / ((u - p) * (u - q)))) by (field; split; assumption).
  assert (X1 : 0 < (p - q) / (p * q)) by (apply Rdiv_lt_0_compat; [lra|apply Rmult_lt_0_compat; lra]). assert (X2 : 0 < (p - q) / ((u - p) * (u - q))) by (apply Rdiv_lt_0_compat; lra).
  set (w1 := (p - q) / (p * q)) in *. set (w2 := (p - q) / ((u - p) * (u - q))) in *. clearbody w1 w2.
  assert (0 <= - Ai * w1) by (apply Rmult_le_pos; lra). assert (0 <= Au * w2) by (apply Rmult_le_pos; lra).
  destruct (Rlt_dec 0 Au) as [Y|Y]; [assert (0 < Au * w2) by (now apply Rmult_lt_0_compat); lra|]. assert (0 < - Ai * w1) by (apply Rmult_lt_0_compat; lra). lra.
Qed.
Print Assumptions C124_poles.

(** Without the condition on resonances it is false: across a resonance the permittivity rises. *)
Theorem C124_across_refuted : exists rep a b, 0 < a < b /\ Forall (fun '(A, B) => 0 < A /\ 0 < B) rep /\
  (forall B, In B (map snd rep) -> (a / 1000) ^ 2 <> B /\ (b / 1000) ^ 2 <> B) /\ ~ falls (sellmeier rep) a b.
Proof.
  exists [(1, 4)], 1000, 3000. split; [lra|]. split; [constructor; [lra|constructor]|]. split.
  - intros B [<-|[]]. cbn [snd]. split; lra.
  - intros (y & y' & E & E' & L). unfold sellmeier in E, E'. rewrite osum_cons, osum_nil in E, E'. rewrite rdiv_nz in E, E' by lra. cbn [obind] in E, E'.
    apply (f_equal (fun o => match o with Some w => fst w | None => 0 end)) in E. apply (f_equal (fun o => match o with Some w => fst w | None => 0 end)) in E'.
    cbn [fst RtoC Cplus] in E, E'. rewrite <- E, <- E' in L. lra.
Qed.
Print Assumptions C124_across_refuted.

(** Fused silica, with the coefficients of Malitson, from 400 to 800 nm *)
Example C124_example : falls (fun l => obind (sellmeier [(0.6961663, 0.00467914826); (0.4079426, 0.0135120631)] l) (fun z => Some (Csqrt z))) 400 800.
Proof.
  apply C124_sellmeier_index; [lra| |].
  - repeat constructor; lra.
  - constructor. lra.
Qed.
