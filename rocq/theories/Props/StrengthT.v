(** C115: the total strength of oscillator models. *)
From Coq Require Import Reals Lra Psatz.
From Coquelicot Require Import Coquelicot.
From Coq Require Import List.
From Verif.Base Require Import Py Cx.
From Verif.Model Require Import Units Dispersions.
From Verif.Spec Require Import Causal Strength.
From Verif.Proof Require Import UnitsP DispersionsP DispersionsP2 CausalP CausalP2 GaussP GaussP2 StrengthP.
From Verif.Props Require Import CausalT.
Import ListNotations.
Open Scope R_scope.

(** C115: there is at most one strength. *)
Theorem C115_unique : forall e2 S S', sum_rule e2 S -> sum_rule e2 S' -> S = S'.
Proof. exact sum_unique. Qed.
Print Assumptions C115_unique.

(** C115: Lorentz oscillators have pi/2 times the sum of their amplitudes, for any resonance energies and dampings *)
Theorem C115_lorentz_energy : forall c h rep, 0 < c -> 0 < h -> Forall (fun '(A, E, gamma) => 0 < E /\ 0 < gamma) rep ->
  has_strength c h (lorentz_energy c h rep) (total (fun '(A, E, gamma) => PI / 2 * A) rep).
Proof.
  intros c h rep Hc Hh F e2 X. rewrite Forall_forall in F.
  apply (strength_osum lor_term (fun '(A, E, g) => lo_im A E g) (fun '(A, E, g) => PI / 2 * A) rep 0).
  - intros [[A E] g] x z _ _ Z. exact (proj1 (lor_parts _ _ _ _ _ Z)).
  - intros [[A E] g] Ht. destruct (F _ Ht). now apply sum_lorentz.
  - intros [[A E] g] x Ht Hx _. destruct (F _ Ht). now apply lor_defined.
  - intros x z Hx Z. rewrite (X x (1 + z)%C Hx); [cbn; ring|]. rewrite lorentz_energy_sum by assumption. now rewrite Z.
Qed.
Print Assumptions C115_lorentz_energy.

(** C115: with parameters in wavelengths the amplitudes count with the square of the resonance energy *)
Theorem C115_lorentz_lambda : forall c h rep, 0 < c -> 0 < h -> Forall (fun '(A, lambda_r, gamma) => 0 < lambda_r /\ 0 < gamma) rep ->
  has_strength c h (lorentz_lambda rep) (total (fun '(A, lambda_r, gamma) => PI / 2 * (A * (c * h * 10 ^ 9 / lambda_r) ^ 2)) rep).
Proof.
  intros c h rep Hc Hh F e2 X. assert (K : 0 < c * h * 10 ^ 9) by (apply Rmult_lt_0_compat; [apply Rmult_lt_0_compat; assumption|apply pow_lt; lra]).
  assert (F' : forall t, In t (map (lam c h) rep) -> let '(A, E0, g) := t in 0 < E0 /\ 0 < g).
  { rewrite Forall_forall in F. intros t Ht. apply in_map_iff in Ht as ([[A lr] g] & <- & Ht). destruct (F _ Ht) as [H1 H2]. unfold lam. assert (0 < c * h * 10 ^ 9 / lr) by (apply Rdiv_lt_0_compat; assumption). split; [assumption|]. apply Rdiv_lt_0_compat; [apply Rmult_lt_0_compat; [assumption|apply pow_lt; assumption]|assumption]. }
  assert (T : total (fun '(A, lr, g) => PI / 2 * (A * (c * h * 10 ^ 9 / lr) ^ 2)) rep = total (fun '(A, E, g) => PI / 2 * A) (map (lam c h) rep)).
  { clear. induction rep as [|[[A lr] g] rep IH]; [reflexivity|]. cbn [total map]. rewrite IH. reflexivity. }
  rewrite T. apply (strength_osum lor_term (fun '(A, E, g) => lo_im A E g) (fun '(A, E, g) => PI / 2 * A) (map (lam c h) rep) 0).
  - intros [[A E] g] x z _ _ Z. exact (proj1 (lor_parts _ _ _ _ _ Z)).
  - intros [[A E] g] Ht. destruct (F' _ Ht). now apply sum_lorentz.
  - intros [[A E] g] x Ht Hx _. destruct (F' _ Ht). now apply lor_defined.
  - intros x z Hx Z. rewrite (X x (1 + z)%C Hx); [cbn; ring|]. rewrite (lorentz_lambda_sum c h) by assumption. now rewrite Z.
Qed.
Print Assumptions C115_lorentz_lambda.

(** C115: Drude terms have pi/2 times their amplitude, which is the square of the plasma energy *)
Theorem C115_drude_energy : forall c h A gamma, 0 < c -> 0 < h -> 0 < gamma ->
  has_strength c h (drude_energy c h A gamma) (PI / 2 * A).
Proof.
  intros c h A g Hc Hh Hg e2 X. apply (sum_ext (fun x => A * (g * x) / (x ^ 2 * x ^ 2 + (g * x) ^ 2)) e2 0); [|now apply sum_drude].
  intros x Hx _. destruct (drude_at c h A g x Hc Hh Hg Hx) as (y & Y & _ & I1). now rewrite (X x y Hx Y).
Qed.
Print Assumptions C115_drude_energy.
Theorem C115_drude_resistivity : forall c h eps0 rho_opt tau, 0 < c -> 0 < h -> 0 < eps0 -> 0 < rho_opt -> 0 < tau ->
  has_strength c h (drude_resistivity c h eps0 rho_opt tau) (PI / 2 * ((h / (2 * PI)) ^ 2 / (eps0 / 100 * rho_opt * tau))).
Proof.
  intros c h eps0 rho tau Hc Hh He Hr Ht e2 X. assert (P := PI_RGT_0). assert (Hb : 0 < h / 2 / PI) by (repeat apply Rdiv_lt_0_compat; lra).
  set (k := eps0 / 100). assert (Hk : 0 < k) by (unfold k; lra). set (b := h / 2 / PI) in *. replace (h / (2 * PI)) with b by (unfold b; field; lra).
  assert (Hg : 0 < b / tau) by (apply Rdiv_lt_0_compat; assumption). assert (Hm : 0 < k * rho * tau) by (apply Rmult_lt_0_compat; [apply Rmult_lt_0_compat|]; assumption).
  apply (sum_ext (fun x => b ^ 2 / (k * rho * tau) * (b / tau * x) / (x ^ 2 * x ^ 2 + (b / tau * x) ^ 2)) e2 0); [|apply (sum_drude (b ^ 2 / (k * rho * tau)) (b / tau)); exact Hg].
  intros x Hx _. symmetry.
  assert (D1 : eps0 * / 10 ^ 2 * rho * (tau * x ^ 2) = k * rho * tau * x ^ 2) by (unfold k; field). assert (D2 : eps0 * / 10 ^ 2 * rho * (h / 2 / PI * x) = k * rho * tau * (b / tau * x)) by (unfold k, b; field; lra).
  assert (HX : 0 < x ^ 2 * x ^ 2) by (apply Rmult_lt_0_compat; apply pow_lt; assumption). assert (Sq := Rle_0_sqr (b / tau * x)). unfold Rsqr in Sq.
  assert (N : eps0 * / 10 ^ 2 * rho * (tau * x ^ 2) * (eps0 * / 10 ^ 2 * rho * (tau * x ^ 2)) + eps0 * / 10 ^ 2 * rho * (h / 2 / PI * x) * (eps0 * / 10 ^ 2 * rho * (h / 2 / PI * x)) <> 0).
  { rewrite D1, D2. replace (k * rho * tau * x ^ 2 * (k * rho * tau * x ^ 2) + k * rho * tau * (b / tau * x) * (k * rho * tau * (b / tau * x))) with ((k * rho * tau) ^ 2 * (x ^ 2 * x ^ 2 + b / tau * x * (b / tau * x))) by ring.
    assert (0 < (k * rho * tau) ^ 2 * (x ^ 2 * x ^ 2 + b / tau * x * (b / tau * x))) by (apply Rmult_lt_0_compat; [now apply pow_lt|lra]). lra. }
  destruct (drude_resistivity c h eps0 rho tau (wavelength_of c h x)) as [z|] eqn:Z.
  - rewrite (X x z Hx Z). unfold drude_resistivity in Z. rewrite (proj1 (wavelength_of_energy c h x Hc Hh Hx)) in Z. cbn [obind] in Z. rewrite res_den in Z. apply cdiv_resp in Z as (_ & _ & I1). change (Im z) with (snd z). rewrite I1, D1, D2.
    set (m := k * rho * tau) in *. set (v := b / tau * x) in *. replace (m * x ^ 2 * (m * x ^ 2) + m * v * (m * v)) with (m ^ 2 * (x ^ 2 * x ^ 2 + v ^ 2)) by ring. fold b. assert (0 < x ^ 2 * x ^ 2 + v ^ 2) by (assert (Q := pow2_ge_0 v); lra). clearbody m v. field. repeat split; lra.
  - exfalso. unfold drude_resistivity in Z. rewrite (proj1 (wavelength_of_energy c h x Hc Hh Hx)) in Z. cbn [obind] in Z. rewrite res_den in Z. rewrite cdiv_nz in Z; [discriminate|]. now apply resp_nz.
Qed.
Print Assumptions C115_drude_resistivity.

(** C115: Gaussian oscillators, with sigma the full width at half maximum *)
Theorem C115_gaussian : forall c h rep, 0 < c -> 0 < h -> Forall (fun '(A, E, sigma) => 0 < sigma) rep ->
  has_strength c h (gaussian c h rep) (total (fun '(A, E, sigma) => A * E * sigma * sqrt PI / (2 * sqrt (ln 2))) rep).
Proof.
  intros c h rep Hc Hh F e2 X. rewrite Forall_forall in F. assert (L2 : 0 < sqrt (ln 2)) by (apply sqrt_lt_R0; rewrite <- ln_1; apply ln_increasing; lra).
  assert (G : forall E, 0 < E -> gaussian c h rep (wavelength_of c h E) = osum (fun t => gauss_term t E) rep).
  { intros E HE. unfold gaussian. rewrite (proj1 (wavelength_of_energy c h E Hc Hh HE)). cbn [obind]. rewrite <- (map_id rep) at 2. apply osum_ext. intros [[A E0] s] _. reflexivity. }
  apply (strength_osum gauss_term (fun '(A, E0, s) x => A * (gs (2 * sqrt (ln 2) / s * (x - E0)) - gs (2 * sqrt (ln 2) / s * (x + E0)))) _ rep 0).
  - intros [[A E0] s] x z Ht Hx Z. specialize (F _ Ht). cbn in F. rewrite gauss_parts in Z by exact F. apply Some_eq in Z. subst z. reflexivity.
  - intros [[A E0] s] Ht. specialize (F _ Ht). cbn in F. replace (A * E0 * s * sqrt PI / (2 * sqrt (ln 2))) with (A * (sqrt PI * E0 / (2 * sqrt (ln 2) / s))) by (field; lra). apply sum_gauss. apply Rdiv_lt_0_compat; lra.
  - intros [[A E0] s] x Ht Hx _. specialize (F _ Ht). cbn in F. rewrite gauss_parts by exact F. discriminate.
  - intros x z Hx Z. apply (X x z Hx). now rewrite G.
Qed.
Print Assumptions C115_gaussian.

(** C115: Tauc-Lorentz oscillators with broadening below twice the resonance energy *)
Theorem C115_tauc_lorentz : forall c h Eg rep, 0 < c -> 0 < h -> 0 < Eg ->
  Forall (fun '(A, E, C) => 0 < E /\ 0 < C /\ C ^ 2 < 4 * E ^ 2) rep ->
  has_strength c h (tauc_lorentz c h Eg rep) (total (fun '(A, E, C) => tauc_strength Eg A E C) rep).
Proof.
  intros c h g rep Hc Hh Hg F e2 X. rewrite Forall_forall in F.
  apply (strength_osum (tl_term_at g) (fun '(A, E, Cc) => tl_im g A E Cc) _ rep g).
  - intros [[A E] Cc] x z Ht Hx Z. destruct (F _ Ht) as (H1 & H2 & H3). destruct (tl_kk g A E Cc x Hx Hg H1 H2 H3) as [K _]. exact (K x z Hx Z).
  - intros [[A E] Cc] Ht. destruct (F _ Ht) as (H1 & H2 & H3). now apply sum_tauc.
  - intros [[A E] Cc] x Ht Hx Hn. destruct (F _ Ht) as (H1 & H2 & H3). now apply tl_at_defined.
  - intros x z Hx Z. apply (X x z Hx). now rewrite tauc_sum.
Qed.
Print Assumptions C115_tauc_lorentz.

(** C115: strengths add for sums of models that have a value everywhere but at one energy *)
Theorem C115_sum : forall c h f g p S S', has_strength c h f S -> has_strength c h g S' ->
  (forall x, 0 < x -> x <> p -> f (wavelength_of c h x) <> None /\ g (wavelength_of c h x) <> None) ->
  has_strength c h (fun l => obind (f l) (fun a => obind (g l) (fun b => Some (a + b)%C))) (S + S').
Proof.
  intros c h f g p S S' Hf Hg D e2 X. set (im := fun (q : R -> option C) x => match q (wavelength_of c h x) with Some z => Im z | None => 0 end).
  assert (I : forall q, absorption c h q (im q)) by (intros q x z _ Z; unfold im; now rewrite Z).
  apply (sum_ext (fun x => im f x + im g x) e2 p); [|apply sum_plus; [apply Hf, I|apply Hg, I]].
  intros x Hx Hn. destruct (D x Hx Hn) as [D1 D2]. unfold im. destruct (f (wavelength_of c h x)) as [a|] eqn:Ea; [|congruence]. destruct (g (wavelength_of c h x)) as [b|] eqn:Eb; [|congruence].
  rewrite (X x (a + b)%C Hx); [reflexivity|]. now rewrite Ea, Eb.
Qed.
Print Assumptions C115_sum.

(** A Lorentz oscillator at 3 eV with two widths, and a Drude term of the same amplitude *)
Example C115_nonvacuous : has_strength 1 1 (lorentz_energy 1 1 [(2, 3, 1 / 10)]) PI /\ has_strength 1 1 (lorentz_energy 1 1 [(2, 3, 7)]) PI /\
  has_strength 1 1 (drude_energy 1 1 2 (1 / 2)) PI.
Proof.
  split; [|split].
  - replace PI with (total (fun '(A, E, gamma) => PI / 2 * A) [(2, 3, 1 / 10)]) at 1 by (cbn; field). apply C115_lorentz_energy; try lra. constructor; [lra|constructor].
  - replace PI with (total (fun '(A, E, gamma) => PI / 2 * A) [(2, 3, 7)]) at 1 by (cbn; field). apply C115_lorentz_energy; try lra. constructor; [lra|constructor].
  - replace PI with (PI / 2 * 2) by field. apply C115_drude_energy; lra.
Qed.
