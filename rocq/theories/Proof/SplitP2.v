(** Waves that go to and fro inside a layer. *)
From Coq Require Import Reals Lra Psatz Lia.
From Coquelicot Require Import Complex.
From Coq Require Import List.
From Verif.Base Require Import Py Cx Mat.
From Verif.Model Require Import Units Ellips Structure Solver2.
From Verif.Spec Require Import Stack Etalon.
From Verif.Proof Require Import StackP FluxP UnitsP DispersionsP StructureP Solver2P Solver2P2 Solver2P3 Solver2P4 Solver2P5 SplitP.
Import ListNotations.
Open Scope R_scope.
Open Scope C_scope.
Open Scope py_scope.

Lemma Cmod_Cpow z n : Cmod (Cpow z n) = (Cmod z ^ n)%R.
Proof. induction n as [|n IH]; cbn [Cpow pow]; [apply Cmod_1|]. now rewrite Cmod_mult, IH. Qed.
Lemma total_geometric (c z : C) n : total (fun n => c * Cpow z n) n * (1 - z) = c * (1 - Cpow z n).
Proof. induction n as [|n IH]; cbn [total Cpow]; [ring|]. rewrite Cmult_plus_distr_r, IH. ring. Qed.

Lemma geometric (c z : C) : (Cmod z < 1)%R -> sums_to (fun n => c * Cpow z n) (c / (1 - z)).
Proof.
  intros H eta He. assert (N1 : 1 - z <> 0).
  { intros E. assert (F : z = 1) by (transitivity (1 - (1 - z)); [ring|rewrite E; ring]). rewrite F, Cmod_1 in H. lra. }
  assert (P1 : (0 < Cmod (1 - z))%R) by (apply Cmod_gt_0; exact N1).
  assert (P0 : (0 < Cmod c + 1)%R) by (assert (K := Cmod_ge_0 c); lra).
  destruct (pow_lt_1_zero (Cmod z)) with (y := (eta * Cmod (1 - z) / (Cmod c + 1))%R) as [N HN].
  { rewrite Rabs_pos_eq; [exact H|apply Cmod_ge_0]. }
  { apply Rdiv_lt_0_compat; [now apply Rmult_lt_0_compat|exact P0]. }
  exists N. intros n Hn. specialize (HN n Hn). rewrite Rabs_pos_eq in HN by (apply pow_le, Cmod_ge_0).
  replace (total (fun n => c * Cpow z n) n - c / (1 - z)) with (- (c * Cpow z n) / (1 - z)).
  2:{ apply (Cmult_cancel (1 - z)); [exact N1|]. transitivity (total (fun n => c * Cpow z n) n * (1 - z) - c); [rewrite total_geometric; field; exact N1|field; exact N1]. }
  rewrite Cmod_div by exact N1. rewrite Cmod_opp, Cmod_mult, Cmod_Cpow.
  assert (Z : (0 <= Cmod z ^ n)%R) by (apply pow_le, Cmod_ge_0). set (w := (Cmod z ^ n)%R) in *. assert (K := Cmod_ge_0 c).
  assert (W : (w * (Cmod c + 1) < eta * Cmod (1 - z))%R).
  { apply (Rmult_lt_reg_r (/ (Cmod c + 1))); [now apply Rinv_0_lt_compat|].
    replace (w * (Cmod c + 1) * / (Cmod c + 1))%R with w by (field; lra). exact HN. }
  apply (Rmult_lt_reg_r (Cmod (1 - z))); [exact P1|]. unfold Rdiv. rewrite Rmult_assoc, Rinv_l, Rmult_1_r by lra. nra.
Qed.

Lemma sums_first f z a : sums_to f z -> sums_to (fun n => match n with O => a | S n => f n end) (a + z).
Proof.
  intros H eta He. destruct (H eta He) as [N HN]. exists (S N). intros [|n] Hn; [lia|].
  assert (E : forall m, total (fun n => match n with O => a | S n => f n end) (S m) = a + total f m).
  { intros m. induction m as [|m IH]; [cbn [total]; ring|].
    change (total (fun n => match n with O => a | S n => f n end) (S m) + f m = a + (total f m + f m)). rewrite IH. ring. }
  rewrite E. replace (a + total f n - (a + z)) with (total f n - z) by ring. apply HN. lia.
Qed.
Lemma sums_ext f g z : (forall n, f n = g n) -> sums_to f z -> sums_to g z.
Proof.
  intros E H eta He. destruct (H eta He) as [N HN]. exists N. intros n Hn.
  assert (T : forall m, total g m = total f m) by (induction m as [|m IH]; cbn [total]; [reflexivity|now rewrite IH, E]).
  rewrite T. now apply HN.
Qed.

Lemma waves_r (ra ta ra' ta' rb h : C) : (Cmod (ra' * (h * rb * h))%C < 1)%R ->
  sums_to (reflected_wave ra ta ra' ta' rb h) (ra + ta * (h * rb * h) * ta' / (1 - ra' * (h * rb * h))).
Proof.
  intros H. assert (K := sums_first _ _ ra (geometric (ta * (h * rb * h) * ta') _ H)).
  eapply sums_ext; [|exact K]. intros [|n]; [reflexivity|]. cbn [reflected_wave]. ring.
Qed.
Lemma waves_t (ta ra' rb tb h : C) : (Cmod (ra' * (h * rb * h))%C < 1)%R ->
  sums_to (transmitted_wave ta ra' rb tb h) (ta * h * tb / (1 - ra' * (h * rb * h))).
Proof.
  intros H. eapply sums_ext; [|exact (geometric (ta * h * tb) _ H)]. intros n. unfold transmitted_wave.
  replace (h * rb * h * ra') with (ra' * (h * rb * h)) by ring. ring.
Qed.

Lemma Cmod_phase (x : R) : Cmod (Cexp (Ci * RtoC x)) = 1%R.
Proof.
  unfold Cexp, Cmod. simpl. replace (0 * x - 1 * 0)%R with 0%R by ring. replace (0 * 0 + 1 * x)%R with x by ring. rewrite exp_0.
  match goal with |- sqrt ?a = _ => replace a with 1%R end; [apply sqrt_1|]. assert (S := sin2_cos2 x). unfold Rsqr in S. nra.
Qed.

Lemma norm_mod (z : C) : Cnorm2 z = (Cmod z * Cmod z)%R.
Proof. unfold Cnorm2, Cmod, Re, Im. rewrite sqrt_sqrt by nra. ring. Qed.

(** Seen from inside the layer the upper part lets light out and the lower part gives none. *)
Lemma inside b th th' lb (x e : R) (eb : C) pre post ra' ta' rb tb :
  (0 < x)%R -> (0 < e)%R -> (0 < lb)%R -> cos (deg2rad th) <> 0%R -> cos (deg2rad th') <> 0%R ->
  (sqrt x * sin (deg2rad th) = sqrt e * sin (deg2rad th'))%R ->
  Forall (fun l => (0 <= fst l)%R /\ (0 <= Im (snd l))%R) pre -> Forall (fun l => (0 <= fst l)%R /\ (0 <= Im (snd l))%R) post -> (0 <= Im eb)%R ->
  rt b (solver2 th' lb (RtoC e) (rev pre) (RtoC x)) = Some (ra', ta') ->
  rt b (solver2 th' lb (RtoC e) post eb) = Some (rb, tb) ->
  (Cmod ra' < 1)%R /\ (Cmod rb <= 1)%R.
Proof.
  intros Px Pe Lp Hc Hc' Sn Fa Fb Ib HA HB.
  assert (K : kx_of th (RtoC x) = kx_of th' (RtoC e)) by (rewrite !kx_real by lra; now rewrite Sn).
  destruct (front_flux b th' e Pe Hc') as (_ & _ & Fe). destruct (front_flux b th x Px Hc) as (Fx1 & _ & Fx2).
  split.
  - assert (HA' := HA). apply rt_some in HA'. destruct HA' as [_ HA'].
    apply (amplitudes_iff (pf b) (pc b) (pf_char b)) in HA'. cbv zeta in HA'. destruct HA' as (_ & I0 & _ & T).
    assert (T0 : ta' <> 0) by (rewrite T; apply Cdiv_neq0; [apply C_of_R_neq; lra|exact I0]).
    apply energy_le in HA; [|assumption|assumption|assumption|].
    2:{ rewrite Forall_forall in *. intros l Hl. apply Fa. now apply in_rev. }
    rewrite <- K in HA. unfold back_flux in HA. cbv zeta in Fx1. rewrite Fx1 in HA. rewrite K in HA. rewrite K in Fx2.
    set (kz := Re (kz_half (kx_of th' (RtoC e)) (RtoC e))) in *. set (kf := Re (kz_half (kx_of th' (RtoC e)) (RtoC x))) in *.
    assert (P : (0 < Cnorm2 ta')%R) by (rewrite norm_mod; assert (Z := proj1 (Cmod_gt_0 ta') T0); nra).
    rewrite norm_mod in HA at 1. rewrite norm_mod in P. rewrite norm_mod in HA. set (w := (Cmod ta' * Cmod ta')%R) in *.
    assert (G := Cmod_ge_0 ra'). set (m := Cmod ra') in *. clearbody kz kf w m. 
    destruct (Rlt_dec m 1) as [|NL]; [assumption|exfalso]. assert (0 < kf * w)%R by (now apply Rmult_lt_0_compat). assert (1 <= m * m)%R by nra. nra.
  - assert (HB' := HB). apply rt_some in HB'. destruct HB' as [(_ & _ & Nb & _) _].
    apply energy_le in HB; [|assumption|assumption|assumption|assumption].
    rewrite (kx_real th' e) in * by lra.
    assert (G1 := back_flux_passive b (sqrt e * sin (deg2rad th')) eb Nb Ib). assert (G2 := kz_half_Re eb (sqrt e * sin (deg2rad th')) Nb Ib).
    set (kz := Re (kz_half _ (RtoC e))) in *. set (bf := back_flux _ _ _) in *. rewrite !norm_mod in HB.
    assert (G := Cmod_ge_0 rb). set (m := Cmod rb) in *. assert (W : (0 <= Cmod tb * Cmod tb)%R) by (assert (Z := Cmod_ge_0 tb); nra). set (w := (Cmod tb * Cmod tb)%R) in *. clearbody kz bf w m.
    destruct (Rle_dec m 1) as [|NL]; [assumption|exfalso]. assert (0 <= bf * w)%R by (apply Rmult_le_pos; lra). assert (1 < m * m)%R by nra. nra.
Qed.
