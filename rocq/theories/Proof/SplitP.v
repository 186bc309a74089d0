(** A sample divided at one of its layers. *)
From Coq Require Import Reals Lra Psatz Lia.
From Coquelicot Require Import Complex.
From Coq Require Import List.
From Verif.Base Require Import Py Cx Mat.
From Verif.Model Require Import Units Ellips Structure Solver2.
From Verif.Spec Require Import Stack Etalon.
From Verif.Proof Require Import StackP FluxP UnitsP DispersionsP StructureP Solver2P Solver2P2 Solver2P3 Solver2P4 Solver2P5.
Import ListNotations.
Open Scope R_scope.
Open Scope C_scope.
Open Scope py_scope.

(** Fields in front of and behind a list of layers *)
Fixpoint through (u v : C) (ls : list (C * C * C)) (u' v' : C) : Prop :=
  match ls with
  | [] => u' = u /\ v' = v
  | (p, q, d) :: rest => exists A B : C, u = p * (A + B) /\ v = q * (A - B) /\
      through (p * (A * Cexp (Ci * d) + B * Cexp (- (Ci * d)))) (q * (A * Cexp (Ci * d) - B * Cexp (- (Ci * d)))) rest u' v'
  end.

Lemma through_matched ls : forall u v p q t, matched u v ls p q t <-> through u v ls (p * t) (q * t).
Proof.
  induction ls as [|[[p1 q1] d] ls IH]; intros u v p q t; cbn [matched through].
  - split; intros [A B]; split; congruence.
  - split; intros (A & B & E1 & E2 & H); exists A, B; (split; [exact E1|]; split; [exact E2|]); cbv zeta in *; now apply IH.
Qed.
Lemma through_app ls : forall ls' u v u' v', through u v (ls ++ ls') u' v' <-> exists a b, through u v ls a b /\ through a b ls' u' v'.
Proof.
  induction ls as [|[[p q] d] ls IH]; intros ls' u v u' v'; cbn [app through].
  - split; [intros H; exists u, v; auto|]. intros (a & b & [-> ->] & H). exact H.
  - split.
    + intros (A & B & E1 & E2 & H). apply IH in H. destruct H as (a & b & H1 & H2). exists a, b. split; [|exact H2]. exists A, B. auto.
    + intros (a & b & (A & B & E1 & E2 & H1) & H2). exists A, B. split; [exact E1|]. split; [exact E2|]. apply IH. exists a, b. auto.
Qed.
Lemma through_scal (c : C) ls : forall u v u' v', through u v ls u' v' -> through (c * u) (c * v) ls (c * u') (c * v').
Proof.
  induction ls as [|[[p q] d] ls IH]; intros u v u' v'; cbn [through].
  - intros [-> ->]. auto.
  - intros (A & B & -> & -> & H). exists (c * A), (c * B). split; [ring|]. split; [ring|]. apply IH in H.
    match goal with H : through ?a ?b _ _ _ |- through ?e ?f _ _ _ => replace e with a by ring; replace f with b by ring end. exact H.
Qed.
Lemma through_add ls : forall u v u' v' a b a' b', through u v ls u' v' -> through a b ls a' b' -> through (u + a) (v + b) ls (u' + a') (v' + b').
Proof.
  induction ls as [|[[p q] d] ls IH]; intros u v u' v' a b a' b'; cbn [through].
  - intros [-> ->] [-> ->]. auto.
  - intros (A & B & -> & -> & H) (A' & B' & -> & -> & H'). exists (A + A'), (B + B'). split; [ring|]. split; [ring|].
    assert (K := IH _ _ _ _ _ _ _ _ H H').
    match goal with H : through ?a ?b _ _ _ |- through ?e ?f _ _ _ => replace e with a by ring; replace f with b by ring end. exact K.
Qed.
(** Waves that run back *)
Lemma through_rev ls : forall u v u' v', through u v ls u' v' -> through u' (- v') (rev ls) u (- v).
Proof.
  induction ls as [|[[p q] d] ls IH]; intros u v u' v'; cbn [through rev].
  - intros [-> ->]. auto.
  - intros (A & B & -> & -> & H). apply IH in H. apply through_app. eexists; eexists. split; [exact H|]. cbn [through].
    exists (B * Cexp (- (Ci * d))), (A * Cexp (Ci * d)). split; [ring|]. split; [ring|].
    assert (E := exp_cancel d).
    replace (B * Cexp (- (Ci * d)) * Cexp (Ci * d)) with (B * (Cexp (Ci * d) * Cexp (- (Ci * d)))) by ring.
    replace (A * Cexp (Ci * d) * Cexp (- (Ci * d))) with (A * (Cexp (Ci * d) * Cexp (- (Ci * d)))) by ring.
    rewrite E. split; ring.
Qed.

Section Split.
Variable b : bool.
Notation chars := (map (char_layer (pc b))).

Lemma split_amplitudes f g k pre post delta ra ta ra' ta' rb tb r t :
  amplitudes (pf b) f pre g = Some (ra, ta) ->
  amplitudes (pf b) g (rev pre) f = Some (ra', ta') ->
  amplitudes (pf b) g post k = Some (rb, tb) ->
  amplitudes (pf b) f (pre ++ (g, delta) :: post) k = Some (r, t) ->
  let h := Cexp (Ci * delta) in let D := 1 - ra' * (h * rb * h) in
  D <> 0 /\ r = ra + ta * (h * rb * h) * ta' / D /\ t = ta * h * tb / D.
Proof.
  intros HA HA' HB HW h D.
  assert (TB : tb <> 0).
  { apply (amplitudes_iff (pf b) (pc b) (pf_char b)) in HB. cbv zeta in HB. destruct HB as (_ & I0 & _ & ->). apply Cdiv_neq0; [|exact I0]. apply C_of_R_neq; lra. }
  assert (HH : h * Cexp (- (Ci * delta)) = 1) by apply exp_cancel. assert (H0 : h <> 0) by (intros Z; rewrite Z in HH; replace (0 * Cexp (- (Ci * delta))) with (RtoC 0) in HH by ring; apply RtoC_inj in HH; lra).
  apply (amplitudes_scattering (pf b) (pc b) (pf_char b)) in HA, HA', HB, HW. cbv zeta in HA, HA', HB, HW.
  destruct HA as [HA _], HA' as [HA' _], HB as [HB _], HW as [_ HW]. unfold scattering in *.
  rewrite map_rev in HA'. rewrite map_app in HW. cbn [map] in HW.
  assert (CL : char_layer (pc b) (g, delta) = (fst (pc b g), snd (pc b g), delta)) by (unfold char_layer; cbn [fst snd]; now destruct (pc b g)).
  rewrite CL in HW. clear CL.
  destruct (pc b f) as [p0 q0]. destruct (pc b g) as [p1 q1]. destruct (pc b k) as [p2 q2]. cbn [fst snd] in *.
  apply through_matched in HA, HA', HB. apply through_rev in HA'. rewrite rev_involutive in HA'.
  assert (Whole : forall a c F, let B := F * h in F = a * ta + c * ra' -> c = B * rb * h ->
    0 * a + (a * r) = a * ra + c * ta' /\ B * tb = a * t).
  { intros a c F B EF Ec.
    assert (S : matched (p0 * (a + (a * ra + c * ta'))) (q0 * (a - (a * ra + c * ta'))) (chars pre ++ (p1, q1, delta) :: chars post) p2 q2 (B * tb)).
    { apply through_matched. apply through_app. exists (p1 * (F + c)), (q1 * (F - c)). split.
      - apply (through_scal a) in HA. apply (through_scal c) in HA'. assert (K := through_add _ _ _ _ _ _ _ _ _ HA HA').
        match goal with H : through ?a ?b _ ?x ?y |- through ?e ?f _ ?z ?w => replace e with a by ring; replace f with b by ring; replace z with x by (rewrite EF; ring); replace w with y by (rewrite EF; ring) end. exact K.
      - cbn [through]. exists F, c. split; [reflexivity|]. split; [reflexivity|]. fold h. apply (through_scal B) in HB.
        replace (c * Cexp (- (Ci * delta))) with (B * rb) by (rewrite Ec; transitivity (B * rb * (h * Cexp (- (Ci * delta)))); [rewrite HH; ring|ring]).
        fold B. match goal with H : through ?a ?b _ ?x ?y |- through ?e ?f _ ?z ?w => replace e with a by ring; replace f with b by ring; replace z with x by ring; replace w with y by ring end. exact HB. }
    destruct (HW _ _ _ S) as [E1 E2]. split; [rewrite E1; ring|exact E2]. }
  assert (ND : D <> 0).
  { intros Z. destruct (Whole (RtoC 0) (h * rb * h) (RtoC 1)) as [_ E].
    - unfold D in Z. replace (0 * ta + h * rb * h * ra') with (1 - (1 - ra' * (h * rb * h))) by ring. rewrite Z. ring.
    - ring.
    - apply (Cmult_neq_0 h tb); [exact H0|exact TB|]. transitivity (1 * h * tb); [ring|]. rewrite E. ring. }
  split; [exact ND|].
  destruct (Whole (RtoC 1) (ta / D * h * rb * h) (ta / D)) as [E1 E2].
  - apply (Cmult_cancel D); [exact ND|]. unfold D. field. exact ND.
  - reflexivity.
  - split; [transitivity (0 * 1 + 1 * r); [ring|]; rewrite E1; field; exact ND|].
    transitivity (1 * t); [ring|]. rewrite <- E2. field. exact ND.
Qed.

(** The transparent layer as front medium at its own angle *)
Lemma layer_half th' (e : R) (kx : C) (k : C) (d : R) : (0 < e)%R -> cos (deg2rad th') <> 0%R -> kx = kx_of th' (RtoC e) ->
  layer_of k kx (d, RtoC e) = (half_of kx (RtoC e), k * RtoC (sqrt e) * RtoC (Rabs (cos (deg2rad th'))) * RtoC d).
Proof.
  intros P Q ->. destruct (kz_front th' e P Q) as (_ & -> & Hc). unfold layer_of. cbn [fst snd].
  assert (S := sqrt_lt_R0 e P). unfold kx_of. rewrite !Csqrt_pos by lra.
  replace (RtoC (sqrt e) * RtoC (sin (deg2rad th')) / RtoC (sqrt e)) with (RtoC (sin (deg2rad th'))) by (field; apply C_of_R_neq; lra).
  now rewrite Hc.
Qed.

Lemma split_rt th th' lb (x e : R) (eb : C) pre d post ra ta ra' ta' rb tb r t :
  (0 < x)%R -> (0 < e)%R -> cos (deg2rad th') <> 0%R -> (sqrt x * sin (deg2rad th) = sqrt e * sin (deg2rad th'))%R ->
  rt b (solver2 th lb (RtoC x) pre (RtoC e)) = Some (ra, ta) ->
  rt b (solver2 th' lb (RtoC e) (rev pre) (RtoC x)) = Some (ra', ta') ->
  rt b (solver2 th' lb (RtoC e) post eb) = Some (rb, tb) ->
  rt b (solver2 th lb (RtoC x) (pre ++ (d, RtoC e) :: post) eb) = Some (r, t) ->
  let h := Cexp (Ci * RtoC (2 * PI / lb * (sqrt e * Rabs (cos (deg2rad th'))) * d)) in let D := 1 - ra' * (h * rb * h) in
  D <> 0 /\ r = ra + ta * (h * rb * h) * ta' / D /\ t = ta * h * tb / D.
Proof.
  intros Px Pe Hc Sn HA HA' HB HW. apply rt_some in HA, HA', HB, HW. destruct HA as [IA HA], HA' as [_ HA'], HB as [_ HB], HW as [_ HW].
  assert (L : (lb <> 0)%R) by apply IA.
  assert (K : kx_of th (RtoC x) = kx_of th' (RtoC e)) by (rewrite !kx_real by lra; now rewrite Sn).
  set (kx := kx_of th (RtoC x)) in *. rewrite <- K in HA', HB. rewrite map_app in HW. cbn [map] in HW. rewrite map_rev in HA'.
  rewrite (layer_half th' e kx (k0 lb) d Pe Hc K) in HW.
  assert (G := split_amplitudes _ _ _ _ _ _ _ _ _ _ _ _ _ _ HA HA' HB HW). cbv zeta in G |- *.
  rewrite k0_R in G by exact L.
  replace (RtoC (2 * PI / lb * (sqrt e * Rabs (cos (deg2rad th'))) * d)) with (RtoC (2 * PI / lb) * RtoC (sqrt e) * RtoC (Rabs (cos (deg2rad th'))) * RtoC d) by (rewrite !RtoC_mult; ring).
  exact G.
Qed.
End Split.
