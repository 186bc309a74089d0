(** C97: an absorbing layer that is thick enough hides what lies behind it. *)
From Coq Require Import Reals Lra Psatz Lia.
From Coquelicot Require Import Complex.
From Coq Require Import List.
From Verif.Base Require Import Py Cx Mat.
From Verif.Model Require Import Units Ellips Structure Solver2.
From Verif.Spec Require Import Stack.
From Verif.Proof Require Import StackP FluxP UnitsP DispersionsP StructureP Solver2P Solver2P2 Solver2P3 Solver2P4 Solver2P5 OpaqueP.
From Verif.Props Require Import EnergyT.
Import ListNotations.
Open Scope R_scope.
Open Scope C_scope.

(** One polarisation of the result: (r, t) for s or for p *)
Definition polarisation (pol : result2 -> option (C * C)) : Prop := pol = rt_s \/ pol = rt_p.

Lemma polarisation_rt pol : polarisation pol -> exists b, pol = rt b.
Proof. intros [-> | ->]; [exists true|exists false]; reflexivity. Qed.

(** C97: with growing thickness of an absorbing layer the reflection of a passive sample tends to
    the reflection of the sample in which the layer's material fills the whole space behind, and
    the transmission tends to zero.  Nothing is assumed about the layers in front of it. *)
Theorem C97_opaque : forall pol theta_i lbda (x : R) pre (e : C) post (eps_b : C) d1 rt1 r0 t0,
  polarisation pol -> (0 < x)%R -> (0 < lbda)%R -> (0 < Im e)%R -> (0 <= Im eps_b)%R ->
  Forall (fun l => (0 <= fst l)%R /\ (0 <= Im (snd l))%R) post ->
  pol (solver2 theta_i lbda (RtoC x) pre e) = Some (r0, t0) ->
  pol (solver2 theta_i lbda (RtoC x) (pre ++ (d1, e) :: post) eps_b) = Some rt1 ->
  forall eta, (0 < eta)%R -> exists d0, forall d, (d0 <= d)%R -> exists r t,
    pol (solver2 theta_i lbda (RtoC x) (pre ++ (d, e) :: post) eps_b) = Some (r, t) /\
    (Cmod (r - r0)%C <= eta)%R /\ (Cmod t <= eta)%R.
Proof.
  intros pol th lb x pre e post eb d1 rt1 r0 t0 Pol P L I Ib F H0 H1. destruct (polarisation_rt pol Pol) as [b ->].
  apply (opaque b th lb x pre e post eb d1 rt1 r0 t0); assumption.
Qed.
Print Assumptions C97_opaque.

(** Two samples that differ only behind the layer cannot be told apart by their reflection. *)
Theorem C97_hidden : forall pol theta_i lbda (x : R) pre (e : C) post (eps_b : C) post' (eps_b' : C) d1 rt1 d1' rt1' rt0,
  polarisation pol -> (0 < x)%R -> (0 < lbda)%R -> (0 < Im e)%R -> (0 <= Im eps_b)%R -> (0 <= Im eps_b')%R ->
  Forall (fun l => (0 <= fst l)%R /\ (0 <= Im (snd l))%R) (post ++ post') ->
  pol (solver2 theta_i lbda (RtoC x) pre e) = Some rt0 ->
  pol (solver2 theta_i lbda (RtoC x) (pre ++ (d1, e) :: post) eps_b) = Some rt1 ->
  pol (solver2 theta_i lbda (RtoC x) (pre ++ (d1', e) :: post') eps_b') = Some rt1' ->
  forall eta, (0 < eta)%R -> exists d0, forall d d', (d0 <= d)%R -> (d0 <= d')%R -> exists r t r' t',
    pol (solver2 theta_i lbda (RtoC x) (pre ++ (d, e) :: post) eps_b) = Some (r, t) /\
    pol (solver2 theta_i lbda (RtoC x) (pre ++ (d', e) :: post') eps_b') = Some (r', t') /\
    (Cmod (r - r')%C <= eta)%R.
Proof.
  intros pol th lb x pre e post eb post' eb' d1 rt1 d1' rt1' [r0 t0] Pol P L I Ib Ib' F H0 H1 H1' eta He. apply Forall_app in F. destruct F as [F F'].
  destruct (C97_opaque pol th lb x pre e post eb d1 rt1 r0 t0 Pol P L I Ib F H0 H1 (eta / 2) ltac:(lra)) as [x0 D].
  destruct (C97_opaque pol th lb x pre e post' eb' d1' rt1' r0 t0 Pol P L I Ib' F' H0 H1' (eta / 2) ltac:(lra)) as [x0' D'].
  exists (Rmax x0 x0'). intros d d' Hd Hd'. assert (M1 := Rmax_l x0 x0'). assert (M2 := Rmax_r x0 x0').
  destruct (D d ltac:(lra)) as (r & t & E & Er & _). destruct (D' d' ltac:(lra)) as (r' & t' & E' & Er' & _).
  exists r, t, r', t'. split; [exact E|]. split; [exact E'|].
  apply Rle_trans with (Cmod ((r - r0) + - (r' - r0))%C); [right; f_equal; ring|].
  eapply Rle_trans; [apply Cmod_triangle|]. rewrite Cmod_opp. lra.
Qed.
Print Assumptions C97_hidden.

(** Results exist: at normal incidence every passive sample on a substrate that is not a lossless
    metal has one in both polarisations. *)
Theorem C97_defined : forall pol lbda (x : R) ls (eps_b : C), polarisation pol -> (0 < x)%R -> (0 < lbda)%R ->
  (0 < Im eps_b)%R \/ (Im eps_b = 0 /\ 0 < Re eps_b)%R ->
  Forall (fun l => (0 <= fst l)%R /\ (0 <= Im (snd l))%R /\ snd l <> RtoC 0) ls ->
  exists r t, pol (solver2 0 lbda (RtoC x) ls eps_b) = Some (r, t).
Proof.
  intros pol lb x ls eb Pol P L Hb F. destruct (polarisation_rt pol Pol) as [b ->].
  assert (s0 : sin (deg2rad 0) = 0%R) by (unfold deg2rad; replace (0 * PI / 180)%R with 0%R by field; apply sin_0).
  assert (c0 : cos (deg2rad 0) = 1%R) by (unfold deg2rad; replace (0 * PI / 180)%R with 0%R by field; apply cos_0).
  assert (Nb : eb <> 0) by (intros ->; unfold Re, Im in Hb; simpl in Hb; lra).
  assert (Ib : (0 <= Im eb)%R) by lra.
  assert (kx0 : kx_of 0 (RtoC x) = RtoC 0) by (rewrite kx_real by lra; rewrite s0; f_equal; ring).
  assert (Nx : RtoC x <> 0) by (apply C_of_R_neq; lra).
  assert (cosL : forall e : C, e <> 0 -> Ccos (Casin (RtoC 0 / Csqrt e)) = 1).
  { intros e Ne. apply Csqrt_neq0 in Ne. replace (RtoC 0 / Csqrt e) with (RtoC 0) by (field; exact Ne). rewrite Ccos_Casin.
    replace (1 - 0 * 0) with (RtoC 1) by ring. rewrite Csqrt_pos by lra. now rewrite sqrt_1. }
  assert (Half : forall e : C, e <> 0 -> (0 <= Im e)%R -> (0 < Re (Csqrt e))%R -> half_of (RtoC 0) e = (Csqrt e, Casin (RtoC 0 / Csqrt e))).
  { intros e Ne Ie Re0. unfold half_of, fix_angle. destruct (is_forward_angle (Csqrt e) (Casin (RtoC 0 / Csqrt e))) eqn:Fa; [reflexivity|].
    apply flip_passive in Fa; [|exact Ne|exact Ie]. destruct Fa as [Fa _]. unfold kz_layer in Fa. rewrite cosL in Fa by exact Ne.
    rewrite Cmult_1_r in Fa. lra. }
  assert (Pos : forall e : C, e <> 0 -> (0 < Im e)%R \/ (Im e = 0 /\ 0 < Re e)%R -> (0 < Re (Csqrt e))%R).
  { intros e Ne H. destruct (Csqrt_Re_ge0 e) as [|Z]; [assumption|]. exfalso. assert (S2 := Csqrt_sqr e).
    assert (S1 := f_equal fst S2). apply (f_equal snd) in S2. cbn [fst snd Cmult] in S1, S2. unfold Re, Im in *. rewrite <- Z in S1, S2. nra. }
  assert (Hx := Half (RtoC x) Nx ltac:(unfold Im; simpl; lra) (Pos _ Nx ltac:(right; unfold Re, Im; simpl; lra))).
  assert (Hk := Half eb Nb Ib (Pos eb Nb Hb)).
  assert (chr : forall (e : C), e <> 0 -> pc b (Csqrt e, Casin (RtoC 0 / Csqrt e)) = if b then (RtoC 1, Csqrt e) else (Csqrt e, RtoC 1)).
  { intros e Ne. destruct b; unfold pc, char_s, char_p; cbn [fst snd]; rewrite cosL by exact Ne; [now rewrite Cmult_1_r|reflexivity]. }
  apply defined; try assumption; [rewrite c0; lra|]. rewrite kx0, Hx, Hk, !chr by assumption.
  assert (lay : forall l, In l (map fst (map (char_layer (pc b)) (map (layer_of (k0 lb) (RtoC 0)) ls))) ->
    exists e : C, e <> 0 /\ (0 <= Im e)%R /\ l = if b then (RtoC 1, Csqrt e) else (Csqrt e, RtoC 1)).
  { intros l Hl. apply in_map_iff in Hl. destruct Hl as (l1 & <- & Hl). apply in_map_iff in Hl. destruct Hl as (l2 & <- & Hl).
    apply in_map_iff in Hl. destruct Hl as ([d e] & <- & Hl). rewrite Forall_forall in F. destruct (F _ Hl) as (_ & F2 & F3). cbn [fst snd] in F2, F3.
    exists e. split; [exact F3|]. split; [exact F2|]. rewrite <- chr by exact F3. unfold layer_of, char_layer. cbn [fst snd]. destruct b; reflexivity. }
  apply nonsing_all.
  - destruct b; cbn [fst]; [intros K; apply RtoC_inj in K; lra|now apply Csqrt_neq0].
  - destruct b; cbn [snd]; [now apply Csqrt_neq0|intros K; apply RtoC_inj in K; lra].
  - intros a c Ha Hc.
    assert (Ga : exists e : C, e <> 0 /\ (0 <= Im e)%R /\ a = if b then (RtoC 1, Csqrt e) else (Csqrt e, RtoC 1)).
    { destruct Ha as [<-|Ha]; [exists (RtoC x); split; [exact Nx|split; [unfold Im; simpl; lra|reflexivity]]|apply lay, Ha]. }
    assert (Gc : exists e : C, e <> 0 /\ (0 <= Im e)%R /\ c = if b then (RtoC 1, Csqrt e) else (Csqrt e, RtoC 1)).
    { apply in_app_or in Hc. destruct Hc as [Hc|[<-|[]]]; [apply lay, Hc|exists eb; auto]. }
    destruct Ga as (e & Ne & Ie & ->), Gc as (e' & Ne' & Ie' & ->). assert (Q := quad_n e Ne Ie). assert (Q' := quad_n e' Ne' Ie').
    destruct b; cbn [fst snd].
    + rewrite Cmult_1_r, Cmult_1_l. apply quad_sum; [exact Q|exact Q'|now apply Csqrt_neq0].
    + rewrite Cmult_1_r, Cmult_1_l. apply quad_sum; [exact Q'|exact Q|now apply Csqrt_neq0].
  - rewrite Forall_forall. intros l Hl. destruct (lay (fst l) ltac:(apply in_map; exact Hl)) as (e & Ne & _ & E). rewrite E.
    apply Csqrt_neq0 in Ne. assert (O : RtoC 1 <> 0) by (intros K; apply RtoC_inj in K; lra). destruct b; cbn [fst snd]; tauto.
Qed.
Print Assumptions C97_defined.

(** A film of permittivity 2 on gold-like material on glass and on air. *)
Example C97_example : forall pol, polarisation pol ->
  exists d0, forall d d', (d0 <= d)%R -> (d0 <= d')%R -> exists r t r' t',
    pol (solver2 0 500 (RtoC 1) [(20%R, RtoC 2); (d, (-9, 2)%R)] (RtoC (9 / 4))) = Some (r, t) /\
    pol (solver2 0 500 (RtoC 1) [(20%R, RtoC 2); (d', (-9, 2)%R); (1000%R, RtoC 4)] (RtoC 1)) = Some (r', t') /\
    (Cmod (r - r')%C <= 1 / 1000)%R.
Proof.
  intros pol Pol. set (e := (-9, 2)%R : C).
  assert (N1 : forall a : R, (a <> 0)%R -> RtoC a <> 0) by (intros; now apply C_of_R_neq).
  assert (Ne : e <> 0) by (intros K; apply (f_equal snd) in K; unfold e in K; simpl in K; lra).
  destruct (C97_defined pol 500 1 [(20%R, RtoC 2)] e Pol) as (r0 & t0 & H0); [lra|lra|left; unfold e, Im; simpl; lra| |].
  { repeat apply Forall_cons; try apply Forall_nil; cbn [fst snd]; (split; [lra|]); (split; [unfold e, Im; simpl; lra|]); first [assumption|apply N1; lra]. }
  destruct (C97_defined pol 500 1 [(20%R, RtoC 2); (1%R, e)] (RtoC (9 / 4)) Pol) as (r1 & t1 & H1); [lra|lra|right; unfold Re, Im; simpl; lra| |].
  { repeat apply Forall_cons; try apply Forall_nil; cbn [fst snd]; (split; [lra|]); (split; [unfold e, Im; simpl; lra|]); first [assumption|apply N1; lra]. }
  destruct (C97_defined pol 500 1 [(20%R, RtoC 2); (1%R, e); (1000%R, RtoC 4)] (RtoC 1) Pol) as (r2 & t2 & H2); [lra|lra|right; unfold Re, Im; simpl; lra| |].
  { repeat apply Forall_cons; try apply Forall_nil; cbn [fst snd]; (split; [lra|]); (split; [unfold e, Im; simpl; lra|]); first [assumption|apply N1; lra]. }
  apply (C97_hidden pol 0 500 1 [(20%R, RtoC 2)] e [] (RtoC (9 / 4)) [(1000%R, RtoC 4)] (RtoC 1) 1%R (r1, t1) 1%R (r2, t2) (r0, t0));
    try assumption; try lra; try (unfold e, Im; simpl; lra).
  constructor; [|constructor]. cbn [fst snd]. unfold Im; simpl; lra.
Qed.

(** C66 (EnergyT): an absorbing film on an absorbing substrate has all the amplitudes. *)
Example C66_example : exists r t pc,
  rt_s (solver2 0 500 (RtoC 1) [(30%R, (-9, 2)%R)] (2, 1)%R) = Some (r, t) /\
  power_correction (solver2 0 500 (RtoC 1) [(30%R, (-9, 2)%R)] (2, 1)%R) = Some pc /\
  (0 <= pc /\ Cmod r * Cmod r + pc * (Cmod t * Cmod t) <= 1)%R.
Proof.
  assert (c0 : cos (0 * PI / 180) = 1%R) by (replace (0 * PI / 180)%R with 0%R by field; apply cos_0).
  assert (Ne : ((-9, 2)%R : C) <> 0) by (intros K; apply (f_equal snd) in K; simpl in K; lra).
  assert (Nb : ((2, 1)%R : C) <> 0) by (intros K; apply (f_equal snd) in K; simpl in K; lra).
  assert (N1 : RtoC 1 <> 0) by (apply C_of_R_neq; lra).
  destruct (C97_defined rt_s 500 1 [(30%R, (-9, 2)%R)] (2, 1)%R) as (r & t & H); [now left|lra|lra|left; unfold Im; simpl; lra| |].
  { constructor; [|constructor]. cbn [fst snd]. split; [lra|]. split; [unfold Im; simpl; lra|exact Ne]. }
  assert (P : exists pc, power_correction (solver2 0 500 (RtoC 1) [(30%R, (-9, 2)%R)] (2, 1)%R) = Some pc).
  { rewrite solver2_eq. 2:{ repeat split; [lra|exact N1|exact Nb|constructor; [exact Ne|constructor]]. }
    cbn [power_correction]. destruct (front_flux true 0 1) as (_ & _ & K); [lra|unfold deg2rad; rewrite c0; lra|].
    unfold rdiv. destruct (Req_EM_T _ 0) as [Z|_]; [|eauto]. rewrite Z in K. lra. }
  destruct P as [pc P]. exists r, t, pc. split; [exact H|]. split; [exact P|].
  refine (C66_passive 0 500 1 _ _ r t pc _ _ _ _ _ P (or_introl H)); try lra; try (rewrite c0; lra); [|unfold Im; simpl; lra].
  constructor; [|constructor]. cbn [fst snd]. unfold Im; simpl. lra.
Qed.
