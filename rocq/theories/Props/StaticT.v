(** C123: the static dielectric constant of the Lorentz models and their absorption. *)
From Coq Require Import Reals Lra Psatz.
From Coquelicot Require Import Coquelicot.
From Coq Require Import List.
From Verif.Base Require Import Py Cx.
From Verif.Model Require Import Units Dispersions.
From Verif.Spec Require Import Causal Strength Static.
From Verif.Proof Require Import UnitsP DispersionsP DispersionsP2 CausalP CausalP2 GaussP GaussP2 StrengthP StaticP.
Import ListNotations.
Open Scope R_scope.

(** A model that is one plus a sum of Lorentz terms *)
Lemma lorentz_static c h eps rep : good rep ->
  (forall x, 0 < x -> eps (wavelength_of c h x) = obind (osum (fun t => lor_term t x) rep) (fun s => Some (1 + s)%C)) ->
  static_value c h eps (1 + total (fun '(A, E, g) => A / E ^ 2) rep) /\
  forall e2, absorption c h eps e2 -> static_rule e2 (total (fun '(A, E, g) => A / E ^ 2) rep).
Proof.
  intros F H. split.
  - intros eta He. destruct (static_limit rep F eta He) as (s & S0 & K). exists s. split; [exact S0|]. intros x Hx. destruct (K x Hx) as [K1 K2].
    destruct (lor_total rep x F (proj1 Hx)) as (z & Z & Z1 & Z2). exists (1 + z)%C. rewrite H, Z by apply Hx. split; [reflexivity|].
    destruct z as [a b]. cbn [fst snd] in Z1, Z2. change (Re (1 + (a, b))%C) with (1 + a). change (Im (1 + (a, b))%C) with (0 + b). rewrite Rplus_0_l, Z1, Z2. split; [|exact K2].
    match goal with |- Rabs (1 + ?y - (1 + ?y')) < _ => replace (1 + y - (1 + y')) with (y - y') by ring end. exact K1.
  - intros e2 X. apply (static_of_sum e2 (fun x => total (fun '(A, E, g) => lo_im A E g x) rep)); [|now apply sum_static_total].
    intros x Hx. destruct (lor_total rep x F Hx) as (z & Z & _ & Z2). rewrite (X x (1 + z)%C Hx); [rewrite <- Z2; cbn; ring|]. rewrite H, Z by exact Hx. reflexivity.
Qed.

(** C123: LorentzEnergy *)
Theorem C123_lorentz_energy : forall c h rep, 0 < c -> 0 < h -> Forall (fun '(A, E, gamma) => 0 < E /\ 0 < gamma) rep ->
  let V := 1 + total (fun '(A, E, gamma) => A / E ^ 2) rep in
  static_value c h (lorentz_energy c h rep) V /\
  forall e2, absorption c h (lorentz_energy c h rep) e2 -> static_rule e2 (V - 1).
Proof.
  intros c h rep Hc Hh F V. replace (V - 1) with (total (fun '(A, E, gamma) => A / E ^ 2) rep) by (unfold V; ring). unfold V.
  apply lorentz_static; [rewrite Forall_forall in F; exact F|]. intros x Hx. now apply lorentz_energy_sum.
Qed.
Print Assumptions C123_lorentz_energy.

(** C123: LorentzLambda, where the amplitudes are the contributions to the static value *)
Theorem C123_lorentz_lambda : forall c h rep, 0 < c -> 0 < h -> Forall (fun '(A, lambda_r, gamma) => 0 < lambda_r /\ 0 < gamma) rep ->
  let V := 1 + total (fun '(A, lambda_r, gamma) => A) rep in
  static_value c h (lorentz_lambda rep) V /\
  forall e2, absorption c h (lorentz_lambda rep) e2 -> static_rule e2 (V - 1).
Proof.
  intros c h rep Hc Hh F V. assert (K : 0 < c * h * 10 ^ 9) by (apply Rmult_lt_0_compat; [apply Rmult_lt_0_compat; assumption|apply pow_lt; lra]).
  assert (G : good (map (lam c h) rep)).
  { rewrite Forall_forall in F. intros t Ht. apply in_map_iff in Ht as ([[A lr] g] & <- & Ht). destruct (F _ Ht) as [H1 H2]. unfold lam.
    assert (0 < c * h * 10 ^ 9 / lr) by (apply Rdiv_lt_0_compat; assumption). split; [assumption|]. apply Rdiv_lt_0_compat; [apply Rmult_lt_0_compat; [assumption|apply pow_lt; assumption]|assumption]. }
  assert (T : total (fun '(A, lr, g) => A) rep = total (fun '(A, E, g) => A / E ^ 2) (map (lam c h) rep)).
  { clear G V. induction rep as [|[[A lr] g] rep IH]; [reflexivity|]. inversion F as [|t l P F']; subst. cbn beta iota in P. destruct P as [H1 H2]. cbn [total map]. rewrite <- IH by exact F'. unfold lam. f_equal.
    set (k := c * h * 10 ^ 9) in *. clearbody k. field. split; lra. }
  replace (V - 1) with (total (fun '(A, E, g) => A / E ^ 2) (map (lam c h) rep)) by (unfold V; rewrite T; ring). unfold V. rewrite T.
  apply lorentz_static; [exact G|]. intros x Hx. now apply lorentz_lambda_sum.
Qed.
Print Assumptions C123_lorentz_lambda.

(** C123: the static value is the only one that fits to the absorption. *)
Theorem C123_unique : forall e2 S S', static_rule e2 S -> static_rule e2 S' -> S = S'.
Proof.
  intros e2 S S' H H'. destruct (Req_dec S S') as [|N]; [assumption|exfalso]. assert (P : 0 < Rabs (S - S') / 2) by (apply Rdiv_lt_0_compat; [apply Rabs_pos_lt; lra|lra]).
  destruct (H _ P) as (M & K). destruct (H' _ P) as (M' & K'). set (N' := Rmax M M' + 1). assert (R1 := Rmax_l M M'). assert (R2 := Rmax_r M M').
  destruct (K N') as (u & Hu & B); [unfold N'; lra|]. destruct (K' N') as (u' & Hu' & B'); [unfold N'; lra|].
  assert (E : u' = u) by (rewrite <- (is_RInt_unique _ _ _ _ Hu); symmetry; now apply is_RInt_unique). subst u'.
  assert (X := Rabs_triang (2 / PI * u - S') (- (2 / PI * u - S))). rewrite Rabs_Ropp in X. replace (2 / PI * u - S' + - (2 / PI * u - S)) with (S - S') in X by ring. lra.
Qed.
Print Assumptions C123_unique.

(** Two oscillators with the static value 1 + 8 / 4 + 9 / 9 = 4 *)
Example C123_example : forall c h, 0 < c -> 0 < h ->
  static_value c h (lorentz_energy c h [(8, 2, 1); (9, 3, 1 / 2)]) 4 /\
  forall e2, absorption c h (lorentz_energy c h [(8, 2, 1); (9, 3, 1 / 2)]) e2 -> static_rule e2 3.
Proof.
  intros c h Hc Hh. assert (X := C123_lorentz_energy c h [(8, 2, 1); (9, 3, 1 / 2)] Hc Hh). cbn [total] in X.
  replace (1 + (8 / 2 ^ 2 + (9 / 3 ^ 2 + 0))) with 4 in X by field. replace (4 - 1) with 3 in X by ring. apply X. repeat constructor; lra.
Qed.
