(** C112: oscillator models and the Kramers-Kronig relation. *)
From Coq Require Import Reals Lra Psatz.
From Coquelicot Require Import Coquelicot.
From Coq Require Import List.
From Verif.Base Require Import Py Cx.
From Verif.Model Require Import Units Dispersions.
From Verif.Spec Require Import Causal.
From Verif.Proof Require Import UnitsP DispersionsP DispersionsP2 CausalP CausalP2 GaussP GaussP2.
Import ListNotations.
Open Scope R_scope.

(** C112: the value of the integral is unique. *)
Theorem C112_unique : forall e2 E V V', kk_transform e2 E V -> kk_transform e2 E V' -> V = V'.
Proof. exact kk_unique. Qed.
Print Assumptions C112_unique.

(** C112: Lorentz oscillators of energy, with any damping, weak or strong *)
Theorem C112_lorentz_energy : forall c h rep, 0 < c -> 0 < h -> Forall (fun '(A, E, gamma) => 0 < E /\ 0 < gamma) rep ->
  kramers_kronig c h (lorentz_energy c h rep) 1 /\
  forall E, 0 < E -> exists z, lorentz_energy c h rep (wavelength_of c h E) = Some z.
Proof.
  intros c h rep Hc Hh F. split.
  - intros E z e2 HE Z X. rewrite lorentz_energy_sum in Z by assumption. destruct (osum (fun t => lor_term t E) rep) as [s|] eqn:S; [|discriminate]. cbn [obind] in Z. apply Some_eq in Z. subst z.
    replace (Re (1 + s)%C - 1) with (fst s) by (cbn; ring). apply (lor_sum rep E s e2 HE F S). intros x z Hx Z. rewrite (X x (1 + z)%C Hx); [cbn; ring|]. rewrite lorentz_energy_sum by assumption. now rewrite Z.
  - intros E HE. rewrite lorentz_energy_sum by assumption. destruct (osum (fun t => lor_term t E) rep) as [s|] eqn:S; [eexists; reflexivity|]. exfalso. revert S. apply osum_defined. intros [[A E0] g] Ht. rewrite Forall_forall in F. destruct (F _ Ht). now apply lor_defined.
Qed.
Print Assumptions C112_lorentz_energy.

(** C112: and of wavelength *)
Theorem C112_lorentz_lambda : forall c h rep, 0 < c -> 0 < h -> Forall (fun '(A, lambda_r, gamma) => 0 < lambda_r /\ 0 < gamma) rep ->
  kramers_kronig c h (lorentz_lambda rep) 1 /\
  forall E, 0 < E -> exists z, lorentz_lambda rep (wavelength_of c h E) = Some z.
Proof.
  intros c h rep Hc Hh F. assert (K : 0 < c * h * 10 ^ 9) by (apply Rmult_lt_0_compat; [apply Rmult_lt_0_compat; assumption|apply pow_lt; lra]).
  assert (F' : Forall (fun '(A, E0, g) => 0 < E0 /\ 0 < g) (map (lam c h) rep)).
  { rewrite Forall_forall in *. intros t Ht. apply in_map_iff in Ht as ([[A lr] g] & <- & Ht). destruct (F _ Ht) as [H1 H2]. unfold lam. assert (0 < c * h * 10 ^ 9 / lr) by (apply Rdiv_lt_0_compat; assumption). split; [assumption|]. apply Rdiv_lt_0_compat; [apply Rmult_lt_0_compat; [assumption|apply pow_lt; assumption]|assumption]. }
  split.
  - intros E z e2 HE Z X. rewrite (lorentz_lambda_sum c h) in Z by assumption. destruct (osum (fun t => lor_term t E) (map (lam c h) rep)) as [s|] eqn:S; [|discriminate]. cbn [obind] in Z. apply Some_eq in Z. subst z.
    replace (Re (1 + s)%C - 1) with (fst s) by (cbn; ring). apply (lor_sum _ E s e2 HE F' S). intros x z Hx Z. rewrite (X x (1 + z)%C Hx); [cbn; ring|]. rewrite (lorentz_lambda_sum c h) by assumption. now rewrite Z.
  - intros E HE. rewrite (lorentz_lambda_sum c h) by assumption. destruct (osum (fun t => lor_term t E) (map (lam c h) rep)) as [s|] eqn:S; [eexists; reflexivity|]. exfalso. revert S. apply osum_defined. intros [[A E0] g] Ht. rewrite Forall_forall in F'. destruct (F' _ Ht). now apply lor_defined.
Qed.
Print Assumptions C112_lorentz_lambda.

(** C112: Tauc-Lorentz with broadening below twice the resonance energy; at the gap itself there is
    no value.  This shows the long formula of Jellison and Modine for the real part. *)
Theorem C112_tauc_lorentz : forall c h Eg rep, 0 < c -> 0 < h -> 0 < Eg ->
  Forall (fun '(A, E, C) => 0 < E /\ 0 < C /\ C ^ 2 < 4 * E ^ 2) rep ->
  kramers_kronig c h (tauc_lorentz c h Eg rep) 0 /\
  forall E, 0 < E -> E <> Eg -> exists z, tauc_lorentz c h Eg rep (wavelength_of c h E) = Some z.
Proof.
  intros c h g rep Hc Hh Hg F. rewrite Forall_forall in F. split.
  - intros E z e2 HE Z X. rewrite tauc_sum in Z by assumption. rewrite Rminus_0_r. apply (kk_osum (tl_term_at g) rep g E z e2 HE); [| |exact Z|].
    + intros [[A E0] Cc] Ht. destruct (F _ Ht) as (H1 & H2 & H3). exists (tl_im g A E0 Cc). now apply tl_kk.
    + intros [[A E0] Cc] x Ht Hx Hn. destruct (F _ Ht) as (H1 & H2 & H3). now apply tl_at_defined.
    + intros x y Hx Y. apply (X x y Hx). now rewrite tauc_sum.
  - intros E HE Hn. rewrite tauc_sum by assumption. destruct (osum (fun t => tl_term_at g t E) rep) as [s|] eqn:S; [eexists; reflexivity|]. exfalso. revert S. apply osum_defined. intros [[A E0] Cc] Ht. destruct (F _ Ht) as (H1 & H2 & H3). now apply tl_at_defined.
Qed.
Print Assumptions C112_tauc_lorentz.

(** C112: Gaussian oscillators, whose real part is made of Dawson's integrals *)
Definition gauss_term (t : R * R * R) (e : R) : option C := let '(A, E, s) := t in
  obind (rdiv (2 * sqrt (ln 2) * (e + E)) s) (fun x => obind (rdiv (2 * sqrt (ln 2) * (e - E)) s) (fun y =>
    Some (RtoC (2 * A / sqrt PI * (dawsn x - dawsn y)) + Ci * RtoC (A * exp (- y ^ 2) - A * exp (- x ^ 2)))%C)).
Lemma gauss_parts A E0 s e : 0 < s -> gauss_term (A, E0, s) e = Some
  (2 * A / sqrt PI * (gs (2 * sqrt (ln 2) / s * (e + E0)) * q (2 * sqrt (ln 2) / s * (e + E0)) - gs (2 * sqrt (ln 2) / s * (e - E0)) * q (2 * sqrt (ln 2) / s * (e - E0))),
   A * (gs (2 * sqrt (ln 2) / s * (e - E0)) - gs (2 * sqrt (ln 2) / s * (e + E0)))).
Proof.
  intros Hs. unfold gauss_term. rewrite !rdiv_nz by lra. cbn [obind]. f_equal. replace (2 * sqrt (ln 2) * (e + E0) / s) with (2 * sqrt (ln 2) / s * (e + E0)) by (field; lra). replace (2 * sqrt (ln 2) * (e - E0) / s) with (2 * sqrt (ln 2) / s * (e - E0)) by (field; lra).
  set (x := 2 * sqrt (ln 2) / s * (e + E0)). set (y := 2 * sqrt (ln 2) / s * (e - E0)). unfold dawsn. fold (gs x). fold (gs y). fold (q x). fold (q y). replace (exp (- y ^ 2)) with (gs y) by (unfold gs; f_equal; ring). replace (exp (- x ^ 2)) with (gs x) by (unfold gs; f_equal; ring). apply C_ext; cbn [fst snd]; unfold Cplus, Cmult, Ci, RtoC; cbn [fst snd]; ring.
Qed.
Theorem C112_gaussian : forall c h rep, 0 < c -> 0 < h -> Forall (fun '(A, E, sigma) => 0 < sigma) rep ->
  kramers_kronig c h (gaussian c h rep) 0 /\
  forall E, 0 < E -> exists z, gaussian c h rep (wavelength_of c h E) = Some z.
Proof.
  intros c h rep Hc Hh F. rewrite Forall_forall in F.
  assert (G : forall E, 0 < E -> gaussian c h rep (wavelength_of c h E) = osum (fun t => gauss_term t E) rep).
  { intros E HE. unfold gaussian. rewrite (proj1 (wavelength_of_energy c h E Hc Hh HE)). cbn [obind]. rewrite <- (map_id rep) at 2. apply osum_ext. intros [[A E0] s] _. reflexivity. }
  assert (L2 : 0 < 2 * sqrt (ln 2)) by (assert (0 < sqrt (ln 2)) by (apply sqrt_lt_R0; rewrite <- ln_1; apply ln_increasing; lra); lra).
  split.
  - intros E z e2 HE Z X. rewrite G in Z by assumption. rewrite Rminus_0_r. apply (kk_osum gauss_term rep 0 E z e2 HE); [| |exact Z|].
    + intros [[A E0] s] Ht. specialize (F _ Ht). cbn in F. exists (fun x => A * (gs (2 * sqrt (ln 2) / s * (x - E0)) - gs (2 * sqrt (ln 2) / s * (x + E0)))).
      split; [intros x y Hx Y; rewrite gauss_parts in Y by exact F; apply Some_eq in Y; subst y; reflexivity|]. intros y Y. rewrite gauss_parts in Y by exact F. apply Some_eq in Y. subst y. cbn [fst]. apply kk_gauss; [now apply Rdiv_lt_0_compat|exact HE].
    + intros [[A E0] s] x Ht Hx _. specialize (F _ Ht). cbn in F. rewrite gauss_parts by exact F. discriminate.
    + intros x y Hx Y. apply (X x y Hx). now rewrite G.
  - intros E HE. rewrite G by assumption. destruct (osum (fun t => gauss_term t E) rep) as [s|] eqn:S; [eexists; reflexivity|]. exfalso. revert S. apply osum_defined. intros [[A E0] s] Ht. specialize (F _ Ht). cbn in F. rewrite gauss_parts by exact F. discriminate.
Qed.
Print Assumptions C112_gaussian.

(** C112: the Drude terms have the transform of their imaginary part as real part, with the wrong
    sign, so that no constant makes the relation hold. *)
Lemma drude_at c h A g x : 0 < c -> 0 < h -> 0 < g -> 0 < x -> exists z, drude_energy c h A g (wavelength_of c h x) = Some z /\
  Re z = A * x ^ 2 / (x ^ 2 * x ^ 2 + (g * x) ^ 2) /\ Im z = A * (g * x) / (x ^ 2 * x ^ 2 + (g * x) ^ 2).
Proof.
  intros Hc Hh Hg Hx. destruct (wavelength_of_energy c h x Hc Hh Hx) as [W L]. unfold drude_energy. rewrite W. cbn [obind]. rewrite dru_den.
  destruct (cdiv (RtoC A) (RtoC (x ^ 2) - Ci * RtoC (g * x))%C) as [z|] eqn:Z.
  - apply cdiv_resp in Z as (_ & R1 & I1). exists z. split; [reflexivity|]. replace ((g * x) ^ 2) with (g * x * (g * x)) by ring. auto.
  - exfalso. rewrite cdiv_nz in Z; [discriminate|]. apply resp_nz. assert (0 < x ^ 2 * x ^ 2) by (apply Rmult_lt_0_compat; apply pow_lt; assumption). assert (Q := Rle_0_sqr (g * x)). unfold Rsqr in Q. lra.
Qed.
Theorem C112_drude : forall c h A gamma, 0 < c -> 0 < h -> 0 < gamma ->
  (forall E z e2, 0 < E -> drude_energy c h A gamma (wavelength_of c h E) = Some z ->
    absorption c h (drude_energy c h A gamma) e2 -> kk_transform e2 E (- Re z)) /\
  (A <> 0 -> forall constant, ~ kramers_kronig c h (drude_energy c h A gamma) constant).
Proof.
  intros c h A g Hc Hh Hg. assert (K : forall E z e2, 0 < E -> drude_energy c h A g (wavelength_of c h E) = Some z ->
    absorption c h (drude_energy c h A g) e2 -> kk_transform e2 E (- Re z)).
  { intros E z e2 HE Z X. destruct (drude_at c h A g E Hc Hh Hg HE) as (z' & Z' & R1 & _). assert (z' = z) by congruence. subst z'. rewrite R1.
    apply (kk_ext (fun x => A * (g * x) / (x ^ 2 * x ^ 2 + (g * x) ^ 2)) e2 E 0 _ HE); [|now apply kk_drude]. intros x Hx _. destruct (drude_at c h A g x Hc Hh Hg Hx) as (y & Y & _ & I1). now rewrite (X x y Hx Y). }
  split; [exact K|]. intros HA k H. set (e2 := fun x => A * (g * x) / (x ^ 2 * x ^ 2 + (g * x) ^ 2)).
  assert (X : absorption c h (drude_energy c h A g) e2) by (intros x z Hx Z; destruct (drude_at c h A g x Hc Hh Hg Hx) as (y & Y & _ & I1); assert (y = z) by congruence; subst y; now rewrite I1).
  assert (V : forall E, 0 < E -> A * E ^ 2 / (E ^ 2 * E ^ 2 + (g * E) ^ 2) = k / 2).
  { intros E HE. destruct (drude_at c h A g E Hc Hh Hg HE) as (z & Z & R1 & _). assert (Q := kk_unique _ _ _ _ (H E z e2 HE Z X) (K E z e2 HE Z X)). rewrite R1 in Q. lra. }
  assert (V1 := V 1 ltac:(lra)). assert (V2 := V 2 ltac:(lra)). assert (G : 0 < g ^ 2) by now apply pow_lt. replace (A * 1 ^ 2 / (1 ^ 2 * 1 ^ 2 + (g * 1) ^ 2)) with (A / (1 + g ^ 2)) in V1 by (field; lra). replace (A * 2 ^ 2 / (2 ^ 2 * 2 ^ 2 + (g * 2) ^ 2)) with (A / (4 + g ^ 2)) in V2 by (replace (2 ^ 2 * 2 ^ 2 + (g * 2) ^ 2) with (4 * (4 + g ^ 2)) by ring; field; lra).
  apply HA. assert (Q : A / (1 + g ^ 2) - A / (4 + g ^ 2) = 0) by lra. replace (A / (1 + g ^ 2) - A / (4 + g ^ 2)) with (A * (3 / ((1 + g ^ 2) * (4 + g ^ 2)))) in Q by (field; split; lra).
  apply Rmult_integral in Q as [Q|Q]; [exact Q|]. exfalso. assert (0 < 3 / ((1 + g ^ 2) * (4 + g ^ 2))) by (apply Rdiv_lt_0_compat; [lra|apply Rmult_lt_0_compat; lra]). lra.
Qed.
Print Assumptions C112_drude.
Theorem C112_drude_resistivity : forall c h eps0 rho_opt tau, 0 < c -> 0 < h -> 0 < eps0 -> 0 < rho_opt -> 0 < tau ->
  (forall E z e2, 0 < E -> drude_resistivity c h eps0 rho_opt tau (wavelength_of c h E) = Some z ->
    absorption c h (drude_resistivity c h eps0 rho_opt tau) e2 -> kk_transform e2 E (- Re z)) /\
  forall constant, ~ kramers_kronig c h (drude_resistivity c h eps0 rho_opt tau) constant.
Proof.
  intros c h eps0 rho tau Hc Hh He Hr Ht. assert (Hb : 0 < h / 2 / PI) by (assert (P := PI_RGT_0); repeat apply Rdiv_lt_0_compat; lra). assert (H0 : 0 < eps0 * / 10 ^ 2) by (apply Rmult_lt_0_compat; [assumption|apply Rinv_0_lt_compat, pow_lt; lra]).
  set (A := (h / 2 / PI) ^ 2 / (eps0 * / 10 ^ 2 * rho * tau)). set (g := h / 2 / PI / tau).
  assert (HA : 0 < A) by (apply Rdiv_lt_0_compat; [now apply pow_lt|apply Rmult_lt_0_compat; [apply Rmult_lt_0_compat|]; assumption]). assert (Hg : 0 < g) by (apply Rdiv_lt_0_compat; assumption).
  assert (Same : forall x, 0 < x -> drude_resistivity c h eps0 rho tau (wavelength_of c h x) = drude_energy c h A g (wavelength_of c h x)).
  { intros x Hx. unfold drude_resistivity, drude_energy. rewrite (proj1 (wavelength_of_energy c h x Hc Hh Hx)). cbn [obind]. unfold A, g. set (k := eps0 * / 10 ^ 2) in *. set (b := h / 2 / PI) in *. clearbody k b. rewrite res_den, dru_den.
    assert (N1 : k * rho * (tau * x ^ 2) * (k * rho * (tau * x ^ 2)) + k * rho * (b * x) * (k * rho * (b * x)) <> 0) by (assert (0 < k * rho * (b * x)) by (repeat apply Rmult_lt_0_compat; assumption); assert (Q := Rle_0_sqr (k * rho * (tau * x ^ 2))); unfold Rsqr in Q; nra).
    assert (N2 : x ^ 2 * x ^ 2 + b / tau * x * (b / tau * x) <> 0) by (assert (0 < b / tau * x) by (apply Rmult_lt_0_compat; [apply Rdiv_lt_0_compat|]; assumption); assert (Q := Rle_0_sqr (x ^ 2)); unfold Rsqr in Q; nra).
    rewrite !cdiv_nz by now apply resp_nz. f_equal. rewrite !resp by assumption.
    assert (S1 : k * rho * (tau * x ^ 2) = k * rho * tau * x ^ 2) by ring. assert (S2 : k * rho * (b * x) = k * rho * tau * (b / tau * x)) by (field; lra). assert (S3 : b ^ 2 / (k * rho * tau) = b ^ 2 / (k * rho * tau)) by reflexivity. rewrite S1, S2 in *. set (m := k * rho * tau) in *. assert (Hm : 0 < m) by (unfold m; repeat apply Rmult_lt_0_compat; assumption). set (u := x ^ 2) in *. set (v := b / tau * x) in *. clearbody m u v.
    apply C_ext; cbn [fst snd]; field; repeat split; try lra; assumption. }
  destruct (C112_drude c h A g Hc Hh Hg) as [K1 K2].
  assert (Ab : forall e2, absorption c h (drude_resistivity c h eps0 rho tau) e2 <-> absorption c h (drude_energy c h A g) e2) by (intros e2; split; intros H x z Hx Z; apply (H x z Hx); [rewrite Same|rewrite <- Same]; assumption).
  split.
  - intros E z e2 HE Z X. apply (K1 E z e2 HE); [now rewrite <- Same|now apply Ab].
  - intros k H. apply (K2 ltac:(lra) k). intros E z e2 HE Z X. apply (H E z e2 HE); [now rewrite Same|now apply Ab].
Qed.
Print Assumptions C112_drude_resistivity.
Theorem C112_drude_refuted : exists A gamma, 0 < A /\ 0 < gamma /\ forall c h constant, 0 < c -> 0 < h ->
  ~ kramers_kronig c h (drude_energy c h A gamma) constant.
Proof. exists 1, 1. split; [lra|]. split; [lra|]. intros c h k Hc Hh. apply (proj2 (C112_drude c h 1 1 Hc Hh ltac:(lra))). lra. Qed.
Print Assumptions C112_drude_refuted.

(** Two Tauc-Lorentz oscillators above the gap at 1 eV; a strongly damped Lorentz oscillator *)
Example C112_example : let eps := tauc_lorentz 1 1 1 [(20, 3 / 2, 1); (10, 3, 2)] in let eps' := lorentz_energy 1 1 [(2, 1, 5)] in
  exists z z', eps (wavelength_of 1 1 2) = Some z /\ eps' (wavelength_of 1 1 2) = Some z' /\ Re z' < 1 /\
  (forall e2, absorption 1 1 eps e2 -> kk_transform e2 2 (Re z)) /\ forall e2, absorption 1 1 eps' e2 -> kk_transform e2 2 (Re z' - 1).
Proof.
  intros eps eps'. destruct (C112_tauc_lorentz 1 1 1 [(20, 3 / 2, 1); (10, 3, 2)]) as [K D]; [lra|lra|lra|repeat constructor; lra|]. destruct (C112_lorentz_energy 1 1 [(2, 1, 5)]) as [K' D']; [lra|lra|repeat constructor; lra|].
  destruct (D 2 ltac:(lra) ltac:(lra)) as [z Z]. destruct (D' 2 ltac:(lra)) as [z' Z']. exists z, z'. split; [exact Z|]. split; [exact Z'|]. split; [|split].
  - rewrite lorentz_energy_sum in Z' by lra. rewrite osum_cons in Z'. destruct (lor_term (2, 1, 5) 2) as [a|] eqn:A; [|discriminate]. cbn in Z'. apply Some_eq in Z'. subst z'. cbn. rewrite (proj2 (lor_parts _ _ _ _ _ A)). unfold lo_re. lra.
  - intros e2 X. replace (Re z) with (Re z - 0) by ring. apply (K 2 z e2); [lra|exact Z|exact X].
  - intros e2 X. apply (K' 2 z' e2); [lra|exact Z'|exact X].
Qed.
