(** C06, C09: unit conversions and the quarter wave plate. *)
From Coq Require Import Reals Lra Psatz.
From Coquelicot Require Import Complex.
From Verif.Base Require Import Cx Mat.
From Verif.Model Require Import Units.
From Verif.Proof Require Import UnitsP.
Open Scope R_scope.

(** C06: the photon energy E (eV) of the vacuum wavelength l (nm) is the one with E * l = h c,
    and likewise for the frequency and the wavenumber (1/cm); zero input is the only failure. *)
Theorem C06_physical_laws : forall c h v, c <> 0 -> h <> 0 ->
  match wavelength_energy c h v with Some e => e * (v / 10 ^ 9) = h * c /\ v <> 0 | None => v = 0 end /\
  match wavelength_frequency c v with Some f => f * (v / 10 ^ 9) = c /\ v <> 0 | None => v = 0 end /\
  match wavelength_wavenumber v with Some k => k * (v / 10 ^ 7) = 1 /\ v <> 0 | None => v = 0 end /\
  frequency2energy h v = h * v.
Proof.
  intros c h v Hc Hh. pose proof giga_nz. pose proof ten7_nz.
  assert (Hch : c * h <> 0) by (now apply Rmult_integral_contrapositive_currified).
  unfold wavelength_energy, wavelength_frequency, wavelength_wavenumber, frequency2energy.
  split; [|split; [|split]].
  - destruct (Req_EM_T v 0) as [E|E].
    + now rewrite (proj2 (inv_law_0 _ v) E).
    + rewrite inv_law by auto. split; auto. field. auto.
  - destruct (Req_EM_T v 0) as [E|E].
    + now rewrite (proj2 (inv_law_0 _ v) E).
    + rewrite inv_law by auto. split; auto. field. auto.
  - destruct (Req_EM_T v 0) as [E|E].
    + now rewrite (proj2 (rdiv_None _ v) E).
    + rewrite rdiv_nz by auto. split; auto. field. auto.
  - ring.
Qed.
Print Assumptions C06_physical_laws.

(** C06: conversions between wavelength and energy, frequency, wavenumber are involutions. *)
Theorem C06_involutions : forall c h v, c <> 0 -> h <> 0 -> v <> 0 ->
  (exists e, wavelength_energy c h v = Some e /\ e <> 0 /\ wavelength_energy c h e = Some v) /\
  (exists f, wavelength_frequency c v = Some f /\ f <> 0 /\ wavelength_frequency c f = Some v) /\
  (exists k, wavelength_wavenumber v = Some k /\ k <> 0 /\ wavelength_wavenumber k = Some v).
Proof.
  intros c h v Hc Hh Hv. pose proof ten7_nz.
  assert (Hch : c * h <> 0) by (now apply Rmult_integral_contrapositive_currified).
  unfold wavelength_energy, wavelength_frequency, wavelength_wavenumber.
  split; [|split]; eexists.
  - rewrite inv_law by auto. split; [reflexivity|]. split; [now apply frac_nz|].
    rewrite inv_law by (auto; now apply frac_nz). f_equal. now apply frac_invol.
  - rewrite inv_law by auto. split; [reflexivity|]. split; [now apply frac_nz|].
    rewrite inv_law by (auto; now apply frac_nz). f_equal. now apply frac_invol.
  - rewrite rdiv_nz by auto. split; [reflexivity|].
    assert (10 ^ 7 / v <> 0) by (apply Rmult_integral_contrapositive_currified; auto; now apply Rinv_neq_0_compat).
    split; auto. rewrite rdiv_nz by auto. f_equal. field. auto.
Qed.
Print Assumptions C06_involutions.

(** C06: energy and frequency are inverse to each other (for every value, zero included). *)
Theorem C06_energy_frequency : forall h x, h <> 0 ->
  energy2frequency h (frequency2energy h x) = Some x /\
  (exists f, energy2frequency h x = Some f /\ frequency2energy h f = x).
Proof.
  intros h x Hh. unfold energy2frequency, frequency2energy. rewrite !rdiv_nz by auto. split.
  - f_equal. field. auto.
  - eexists. split; [reflexivity|]. field. auto.
Qed.
Print Assumptions C06_energy_frequency.

(** C06: wavelength to frequency directly or through the energy. *)
Theorem C06_frequency_through_energy : forall c h v, c <> 0 -> h <> 0 -> v <> 0 ->
  exists e f, wavelength_energy c h v = Some e /\ wavelength_frequency c v = Some f /\
    energy2frequency h e = Some f /\ frequency2energy h f = e.
Proof.
  intros c h v Hc Hh Hv. pose proof giga_nz.
  assert (Hch : c * h <> 0) by (now apply Rmult_integral_contrapositive_currified).
  unfold wavelength_energy, wavelength_frequency, energy2frequency, frequency2energy.
  do 2 eexists. rewrite !inv_law, rdiv_nz by auto. repeat split; [f_equal|]; field; auto.
Qed.
Print Assumptions C06_frequency_through_energy.

Example C06_example : wavelength_wavenumber 500 = Some 20000 /\
  wavelength_frequency 300000000 600 = Some (5 * 10 ^ 14).
Proof.
  unfold wavelength_wavenumber, wavelength_frequency. split.
  - rewrite rdiv_nz by lra. f_equal. lra.
  - rewrite inv_law by lra. f_equal. lra.
Qed.

(** C09: for a material whose xx permittivity is the square of the refractive index n + i k
    (with n > 0), a plate of the returned thickness has the optical thickness of a quarter
    wave: thickness times n is a quarter of the wavelength, the phase 2 pi n d / lambda is
    pi / 2, and the wave amplitude factor exp(i 2 pi (n + i k) d / lambda) is i times a
    real attenuation. *)
Theorem C09_quarter_wave : forall (eps : mat) (n k lbda : R),
  0 < n -> lbda <> 0 -> eps 0%nat 0%nat = ((n, k) * (n, k))%C ->
  exists d, qwp_thickness eps lbda = Some d /\ d * n = lbda / 4 /\
    2 * PI * n * d / lbda = PI / 2 /\
    Cexp (Ci * RtoC (2 * PI / lbda * d) * (n, k))%C = (Ci * RtoC (exp (- (PI * k / (2 * n)))))%C.
Proof.
  intros eps n k lbda Hn Hl E. exists (lbda / (4 * n)).
  assert (Q : fst (index_tensor eps 0%nat 0%nat) = n).
  { unfold index_tensor. rewrite E. rewrite <- (Csqrt_unique (n, k) _); auto. left. exact Hn. }
  assert (D : lbda / (4 * n) * n = lbda / 4) by (field; lra).
  split; [|split; [exact D|split]].
  - unfold qwp_thickness. rewrite Q. apply rdiv_nz. lra.
  - field. lra.
  - assert (P : 2 * PI / lbda * (lbda / (4 * n)) = PI / (2 * n)) by (field; lra). rewrite P.
    unfold Cexp, Ci, Cmult, RtoC; cbn [fst snd].
    replace ((0 * (PI / (2 * n)) - 1 * 0) * n - (0 * 0 + 1 * (PI / (2 * n))) * k) with (- (PI * k / (2 * n))) by (field; lra).
    replace ((0 * (PI / (2 * n)) - 1 * 0) * k + (0 * 0 + 1 * (PI / (2 * n))) * n) with (PI / 2) by (field; lra).
    rewrite cos_PI2, sin_PI2. apply C_ext; simpl; ring.
Qed.
Print Assumptions C09_quarter_wave.

(** C09: there is no thickness if and only if the real index vanishes. *)
Theorem C09_no_plate : forall (eps : mat) (lbda : R),
  qwp_thickness eps lbda = None <->
  (snd (eps 0%nat 0%nat) = 0 /\ fst (eps 0%nat 0%nat) <= 0).
Proof.
  intros eps lbda. unfold qwp_thickness, index_tensor.
  pose proof (Csqrt_sqr (eps 0%nat 0%nat)) as S. pose proof (Csqrt_principal (eps 0%nat 0%nat)) as P.
  destruct (Csqrt (eps 0%nat 0%nat)) as [a b]. destruct (eps 0%nat 0%nat) as [x y].
  unfold principal in P. simpl in *. unfold Cmult in S. simpl in S. injection S as S1 S2.
  rewrite rdiv_None. split.
  - intros H. assert (a = 0) by lra. subst a. split; [lra|]. rewrite <- S1. nra.
  - intros [H1 H2]. subst. destruct P as [P|[P _]]; [|lra].
    assert (b = 0) by nra. subst b. nra.
Qed.
Print Assumptions C09_no_plate.

Example C09_example : exists d, qwp_thickness (fun _ _ => RtoC (9 / 4)) 600 = Some d /\ d = 100.
Proof.
  destruct (C09_quarter_wave (fun _ _ => RtoC (9 / 4)) (3 / 2) 0 600) as (d & H & K & _); try lra.
  - apply C_ext; simpl; lra.
  - exists d. split; auto. lra.
Qed.
