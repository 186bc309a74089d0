(** C17 to C21: dispersion formulas. *)
From Coq Require Import Reals Psatz Lra List Permutation.
From Coquelicot Require Import Complex.
From Verif.Base Require Import Py Cx.
From Verif.Model Require Import Units Dispersions.
From Verif.Proof Require Import UnitsP DispersionsP DispersionsP2.
Import ListNotations.
Open Scope R_scope.
Open Scope C_scope.
Open Scope py_scope.

(** * C17: passivity *)

Theorem C17_lorentz_energy : forall c h rep l z, (0 < c -> 0 < h -> 0 < l ->
  Forall (fun '(A, E, g) => 0 <= A /\ 0 <= g) rep ->
  lorentz_energy c h rep l = Some z -> 0 <= snd z)%R.
Proof. intros c h rep l z Hc Hh Hl F H. exact (lorentz_energy_passive c h Hc Hh rep l z Hl F H). Qed.
Print Assumptions C17_lorentz_energy.

Theorem C17_lorentz_lambda : forall rep l z, (0 < l ->
  Forall (fun '(A, lr, g) => 0 <= A /\ 0 <= g) rep ->
  lorentz_lambda rep l = Some z -> 0 <= snd z)%R.
Proof. exact lorentz_lambda_passive. Qed.
Print Assumptions C17_lorentz_lambda.

Theorem C17_drude_energy : forall c h A g l, (0 < c -> 0 < h -> 0 < l -> 0 <= A -> 0 <= g ->
  exists z, drude_energy c h A g l = Some z /\ 0 <= snd z)%R.
Proof.
  intros c h A g l Hc Hh Hl HA Hg. destruct (drude_energy c h A g l) as [z|] eqn:E.
  - exists z. split; auto. destruct (drude_energy_parts c h Hc Hh A g l z Hl E) as (e & k & _ & He & Hk & ->). simpl.
    repeat apply Rmult_le_pos; lra.
  - now apply (drude_energy_defined c h Hc Hh _ _ l Hl) in E.
Qed.
Print Assumptions C17_drude_energy.

Theorem C17_drude_resistivity : forall c h eps0 rho tau l z, (0 < c -> 0 < h -> 0 < eps0 -> 0 < l ->
  0 < rho -> 0 < tau -> drude_resistivity c h eps0 rho tau l = Some z -> 0 <= snd z)%R.
Proof.
  intros c h eps0 rho tau l z Hc Hh He Hl Hr Ht H. left.
  exact (proj2 (drude_resistivity_parts c h eps0 Hc Hh He rho tau l z Hl Hr Ht H)).
Qed.
Print Assumptions C17_drude_resistivity.

Theorem C17_gaussian : forall c h rep l z, (0 < c -> 0 < h -> 0 < l ->
  Forall (fun '(A, E, s) => 0 <= A /\ 0 <= E) rep ->
  gaussian c h rep l = Some z -> 0 <= snd z)%R.
Proof. intros c h rep l z Hc Hh Hl F H. exact (gaussian_passive c h Hc Hh rep l z Hl F H). Qed.
Print Assumptions C17_gaussian.

Theorem C17_cody_lorentz : forall c h eps1 Eg A Et g Ep E0 Eu l z, (0 < c -> 0 < h -> 0 < l ->
  0 <= A -> 0 < g -> 0 <= E0 -> 0 < Et -> Ep <> 0 -> Eu <> 0 ->
  cody_lorentz c h eps1 Eg A Et g Ep E0 Eu l = Some z -> 0 <= snd z)%R.
Proof.
  intros c h eps1 Eg A Et g Ep E0 Eu l z Hc Hh Hl HA Hg H0 Ht Hp Hu H. unfold cody_lorentz in H.
  destruct (conv_pos c h l Hc Hh Hl) as (e & E & P & _). rewrite E in H. cbn [obind] in H.
  destruct (eps1 l) as [r|]; [|discriminate]. cbn [obind] in H.
  rewrite cl_eps2_val in H by (auto; lra). cbn [obind] in H. injection H as <-. simpl.
  pose proof (cl_fun_ge0 Eg A Et g Ep E0 Eu e HA H0 Hg Hp Ht P). lra.
Qed.
Print Assumptions C17_cody_lorentz.

(** C17 for Tauc-Lorentz, restricted to broadenings below twice the resonance energy.  Beyond
    that the claim fails, see the next theorem. *)
Theorem C17_tauc_lorentz_partial : forall c h Eg rep l z, (0 < c -> 0 < h -> 0 < l ->
  Forall (fun '(A, E, Cc) => Cc ^ 2 < 4 * E ^ 2) rep ->
  Forall (fun '(A, E, Cc) => 0 <= A /\ 0 <= E /\ 0 <= Cc) rep ->
  tauc_lorentz c h Eg rep l = Some z -> 0 <= snd z)%R.
Proof. intros c h Eg rep l z Hc Hh Hl U F H. exact (tauc_lorentz_passive c h Hc Hh Eg rep l z Hl U F H). Qed.
Print Assumptions C17_tauc_lorentz_partial.

(** For a broadening above twice the resonance energy the square root alpha is imaginary and
    the "real" part keeps an imaginary part: gain below the gap. *)
Theorem C17_tauc_lorentz_refuted : exists Eg A E0 Cc, (0 < Eg /\ 0 < A /\ 0 < E0 /\ 0 < Cc)%R /\
  forall c h, (0 < c)%R -> (0 < h)%R ->
  exists l z, (0 < l)%R /\ tauc_lorentz c h Eg [(A, E0, Cc)] l = Some z /\ (snd z < 0)%R.
Proof.
  exists 1%R, 1%R, 1%R, 4%R. split; [lra|]. intros c h Hc Hh.
  destruct (conv_onto c h (1 / 2) Hc Hh ltac:(lra)) as (l & Hl & E).
  destruct (tl_eps1_defined (1 / 2) 1 1 1 4) as [r Hr]; try lra.
  destruct (tauc_single c h 1 1 1 4 l (1 / 2) r E) as (z & Hz & Im); try lra; auto.
  exists l, z. split; auto. split; auto. rewrite Im, (tl_eps1_over (1 / 2) 1 1 1 4 r ltac:(simpl; lra) ltac:(lra) ltac:(lra) Hr).
  rewrite heaviside_neg by lra. rewrite Rmult_0_r, Rplus_0_l.
  assert (0 < sqrt (4 ^ 2 - 4 * 1 ^ 2))%R by (apply sqrt_lt_R0; lra).
  set (s := sqrt _) in *. apply (Rmult_lt_reg_r s); auto. unfold Rdiv at 1. rewrite Rmult_assoc, Rinv_l by lra. lra.
Qed.
Print Assumptions C17_tauc_lorentz_refuted.

Example C17_example : exists z, lorentz_lambda [(1, 300, 10); (2, 100, 0)]%R 300 = Some z /\ (0 < snd z)%R.
Proof.
  unfold lorentz_lambda. rewrite !osum_cons, osum_nil, !lam_den. rewrite !cdiv_nz by (apply resp_nz; lra).
  cbn [obind]. eexists. split; [reflexivity|]. rewrite !resp by lra. simpl. lra.
Qed.

(** * C18: repeated parameter sets *)

(** [base] is the value without any parameter set. *)
Definition superposes {A} (model : list A -> option C) : Prop :=
  exists base, model [] = Some base /\
  forall l1 l2, model (l1 ++ l2) =
    match model l1, model l2 with Some a, Some b => Some (a + b - base) | _, _ => None end.
Definition order_free {A} (model : list A -> option C) : Prop :=
  forall l1 l2, Permutation l1 l2 -> model l1 = model l2.

Lemma osum_laws {A} (f : A -> option C) (k : C) :
  superposes (fun rep => let? s := osum f rep in Some (k + s)) /\
  order_free (fun rep => let? s := osum f rep in Some (k + s)).
Proof.
  split.
  - exists (k + RtoC 0). split; [reflexivity|]. intros l1 l2. rewrite osum_app.
    destruct (osum f l1), (osum f l2); simpl; auto. f_equal. ring.
  - intros l1 l2 P. now rewrite (osum_perm f l1 l2 P).
Qed.
Lemma osum_laws0 {A} (f : A -> option C) : superposes (osum f) /\ order_free (osum f).
Proof.
  split.
  - exists (RtoC 0). split; [reflexivity|]. intros l1 l2. rewrite osum_app.
    destruct (osum f l1), (osum f l2); simpl; auto. f_equal. ring.
  - intros l1 l2 P. now apply osum_perm.
Qed.

Theorem C18_superposition_and_order : forall c h x l, (c <> 0)%R -> (h <> 0)%R -> (l <> 0)%R ->
  (superposes (fun rep => cauchy_custom x rep l) /\ order_free (fun rep => cauchy_custom x rep l)) /\
  (superposes (fun rep => polynomial x rep l) /\ order_free (fun rep => polynomial x rep l)) /\
  (superposes (fun rep => sellmeier rep l) /\ order_free (fun rep => sellmeier rep l)) /\
  (superposes (fun rep => sellmeier_custom rep l) /\ order_free (fun rep => sellmeier_custom rep l)) /\
  (superposes (fun rep => lorentz_lambda rep l) /\ order_free (fun rep => lorentz_lambda rep l)) /\
  (superposes (fun rep => lorentz_energy c h rep l) /\ order_free (fun rep => lorentz_energy c h rep l)) /\
  (superposes (fun rep => gaussian c h rep l) /\ order_free (fun rep => gaussian c h rep l)) /\
  (superposes (fun rep => tauc_lorentz c h x rep l) /\ order_free (fun rep => tauc_lorentz c h x rep l)).
Proof.
  intros c h x l Hc Hh Hl.
  assert (Hch : (c * h <> 0)%R) by (now apply Rmult_integral_contrapositive_currified).
  unfold cauchy_custom, polynomial, sellmeier, sellmeier_custom, lorentz_lambda, lorentz_energy, gaussian, tauc_lorentz, wavelength_energy.
  rewrite !inv_law by auto. cbn [obind]. cbv zeta.
  repeat match goal with |- (_ /\ _) /\ _ => split end; first [apply osum_laws|apply osum_laws0].
Qed.
Print Assumptions C18_superposition_and_order.

Example C18_example : sellmeier [(1, 0); (2, -1)]%R 1000 = Some (RtoC 3) /\
  sellmeier [(2, -1); (1, 0)]%R 1000 = Some (RtoC 3).
Proof.
  unfold sellmeier. split; rewrite !osum_cons, osum_nil, !rdiv_nz by lra; cbn [obind]; f_equal; apply C_ext; simpl; field.
Qed.

(** * C19: equal models *)

Theorem C19_sellmeier_custom : forall rep l, (0 < l)%R ->
  sellmeier rep l =
  (let? s := sellmeier_custom (map (fun '(A, B) => (A, 2, B, 1)%R) rep) l in Some (1 + s)).
Proof. exact sellmeier_as_custom. Qed.
Print Assumptions C19_sellmeier_custom.

(** The resonance of Sellmeier is in square micrometres. *)
Theorem C19_lorentz_lambda : forall rep l, (0 < l)%R ->
  lorentz_lambda (map (fun '(A, lr) => (A, lr, 0)%R) rep) l =
  sellmeier (map (fun '(A, lr) => (A, (lr / 10 ^ 3) ^ 2)%R) rep) l.
Proof. exact lambda_as_sellmeier. Qed.
Print Assumptions C19_lorentz_lambda.

Theorem C19_cauchy : forall n0 n1 n2 l, (0 < l)%R ->
  cauchy n0 n1 n2 0 0 0 l = cauchy_custom n0 [(10 ^ 2 * n1, -2); (10 ^ 7 * n2, -4)]%R l.
Proof. exact cauchy_as_custom. Qed.
Print Assumptions C19_cauchy.

(** A Lorentz oscillator at zero energy is a Drude term, but of the opposite amplitude and of
    the opposite damping. *)
Theorem C19_lorentz_drude_partial : forall c h A g l, (0 < c)%R -> (0 < h)%R -> (0 < l)%R ->
  lorentz_energy c h [(A, 0, g)%R] l = (let? z := drude_energy c h (- A) (- g) l in Some (1 + z)).
Proof. exact lorentz_as_drude. Qed.
Print Assumptions C19_lorentz_drude_partial.

(** No Drude term with a positive damping equals a damped Lorentz oscillator at zero energy. *)
Theorem C19_lorentz_drude_refuted : exists A g, (0 < A)%R /\ (0 < g)%R /\
  forall c h l, (0 < c)%R -> (0 < h)%R -> (0 < l)%R ->
  forall A' g', (0 <= g')%R ->
    lorentz_energy c h [(A, 0, g)%R] l <> (let? z := drude_energy c h A' g' l in Some (1 + z)).
Proof.
  exists 1%R, 1%R. split; [lra|]. split; [lra|]. intros c h l Hc Hh Hl A' g' Hg.
  rewrite lorentz_as_drude by auto.
  destruct (drude_energy c h (- (1)) (- (1)) l) as [u|] eqn:Eu; [|now apply (drude_energy_defined c h Hc Hh _ _ l Hl) in Eu].
  destruct (drude_energy c h A' g' l) as [v|] eqn:Ev; [|now apply (drude_energy_defined c h Hc Hh _ _ l Hl) in Ev].
  cbn [obind].
  destruct (drude_energy_parts c h Hc Hh _ _ l u Hl Eu) as (e & k & E & He & Hk & ->).
  destruct (drude_energy_parts c h Hc Hh _ _ l v Hl Ev) as (e' & k' & E' & He' & Hk' & ->).
  intros H. apply Some_eq in H. pose proof (f_equal fst H) as H1. pose proof (f_equal snd H) as H2. simpl in H1, H2. clear H.
  assert (0 < e * (e * 1) * k)%R by (repeat apply Rmult_lt_0_compat; lra).
  assert (0 < e * k)%R by nra. assert (P : (0 < e' * (e' * 1) * k')%R) by (repeat apply Rmult_lt_0_compat; lra).
  assert (0 < e' * k')%R by nra.
  assert (A' < 0)%R by (simpl in *; nra). 
  assert (A' * (g' * e') * k' <= 0)%R.
  { assert (0 <= - A' * g' * (e' * k'))%R by (repeat apply Rmult_le_pos; lra). nra. }
  nra.
Qed.
Print Assumptions C19_lorentz_drude_refuted.

(** More identities: the two Drude models, and poles as undamped Drude and Lorentz terms. *)
Theorem C19_drude_models : forall c h eps0 rho tau l, (0 < c)%R -> (0 < h)%R -> (0 < l)%R -> (0 < eps0)%R ->
  (0 < rho)%R -> (0 < tau)%R ->
  drude_resistivity c h eps0 rho tau l =
  drude_energy c h ((h / (2 * PI)) ^ 2 / (eps0 / 10 ^ 2 * rho * tau)) (h / (2 * PI) / tau) l.
Proof. exact resistivity_as_drude. Qed.
Print Assumptions C19_drude_models.

Theorem C19_poles : forall c h A_ir A_uv E_uv l, (0 < c)%R -> (0 < h)%R -> (0 < l)%R ->
  (let? z := poles c h A_ir A_uv E_uv l in Some (1 + z)) =
  (let? a := drude_energy c h A_ir 0 l in
   let? b := lorentz_energy c h [(A_uv, E_uv, 0)%R] l in Some (a + b)).
Proof. exact poles_as_sum. Qed.
Print Assumptions C19_poles.

Example C19_example : sellmeier [(2, -1)%R] 1000 = Some (RtoC 2).
Proof.
  unfold sellmeier. rewrite !osum_cons, osum_nil, !rdiv_nz by lra; cbn [obind]; f_equal; apply C_ext; simpl; field.
Qed.

(** * C20: the gap *)

(** Tauc-Lorentz, broadenings below twice the resonance energy: no absorption up to the gap and
    some above. *)
Theorem C20_tauc_lorentz_partial : forall c h Eg rep l e z, (0 < c)%R -> (0 < h)%R -> (0 < l)%R ->
  wavelength_energy c h l = Some e -> rep <> [] ->
  Forall (fun '(A, E, Cc) => Cc ^ 2 < 4 * E ^ 2)%R rep ->
  Forall (fun '(A, E, Cc) => 0 < A /\ 0 < E /\ 0 < Cc)%R rep ->
  tauc_lorentz c h Eg rep l = Some z ->
  if Rle_dec e Eg then snd z = 0%R else (0 < snd z)%R.
Proof.
  intros c h Eg rep l e z Hc Hh Hl E N U F H. destruct (Rle_dec e Eg) as [L|L].
  - exact (tauc_lorentz_gap c h Eg rep l z e E L U H).
  - destruct (conv_pos c h l Hc Hh Hl) as (e' & E' & P & _). rewrite E in E'. injection E' as <-.
    exact (tauc_lorentz_above c h Eg rep l z e E ltac:(lra) P N U F H).
Qed.
Print Assumptions C20_tauc_lorentz_partial.

(** Otherwise not: the value below the gap is not zero. *)
Theorem C20_tauc_lorentz_refuted : exists Eg A E0 Cc, (0 < Eg /\ 0 < A /\ 0 < E0 /\ 0 < Cc)%R /\
  forall c h, (0 < c)%R -> (0 < h)%R ->
  exists l e z, (0 < l)%R /\ wavelength_energy c h l = Some e /\ (e < Eg)%R /\
    tauc_lorentz c h Eg [(A, E0, Cc)] l = Some z /\ snd z <> 0%R.
Proof.
  exists 1%R, 1%R, 1%R, 4%R. split; [lra|]. intros c h Hc Hh.
  destruct (conv_onto c h (1 / 2) Hc Hh ltac:(lra)) as (l & Hl & E).
  destruct (tl_eps1_defined (1 / 2) 1 1 1 4) as [r Hr]; try lra.
  destruct (tauc_single c h 1 1 1 4 l (1 / 2) r E) as (z & Hz & Im); try lra; auto.
  exists l, (1 / 2)%R, z. split; auto. split; auto. split; [lra|]. split; auto.
  rewrite Im, (tl_eps1_over (1 / 2) 1 1 1 4 r ltac:(simpl; lra) ltac:(lra) ltac:(lra) Hr).
  rewrite heaviside_neg by lra. rewrite Rmult_0_r, Rplus_0_l.
  assert (0 < sqrt (4 ^ 2 - 4 * 1 ^ 2))%R by (apply sqrt_lt_R0; lra).
  set (s := sqrt _) in *. intros K. apply (f_equal (fun x => x * s)%R) in K. unfold Rdiv in K at 1.
  rewrite Rmult_assoc, Rinv_l in K by lra. lra.
Qed.
Print Assumptions C20_tauc_lorentz_refuted.

(** Exactly at the gap energy Tauc-Lorentz has no value (infinity minus infinity); at every
    other energy it has one, unless a broadening is exactly twice its resonance energy. *)
Theorem C20_tauc_lorentz_undefined : forall c h Eg rep l, (0 < c)%R -> (0 < h)%R -> (0 < l)%R ->
  (0 < Eg)%R -> Forall (fun '(A, E, Cc) => 0 < E /\ 0 < Cc /\ Cc <> 2 * E)%R rep -> rep <> [] ->
  (tauc_lorentz c h Eg rep l = None <-> wavelength_energy c h l = Some Eg).
Proof.
  intros c h Eg rep l Hc Hh Hl HG F N. destruct (conv_pos c h l Hc Hh Hl) as (e & E & P & _).
  unfold tauc_lorentz. rewrite E. cbn [obind]. split.
  - intros H. destruct (Req_EM_T e Eg) as [->|NE]; auto. exfalso. revert H.
    apply osum_defined. intros [[A E0] Cc] Hin. rewrite Forall_forall in F. specialize (F _ Hin). simpl in F.
    destruct F as (F1 & F2 & F3).
    pose proof (cl_den e E0 Cc ltac:(lra) ltac:(lra)) as Z.
    rewrite rdiv_nz by lra. cbn [obind]. rewrite rdiv_nz by lra. cbn [obind].
    destruct (tl_eps1_defined e Eg A E0 Cc) as [r ->]; auto; [|discriminate].
    intros K. apply F3. simpl in K. nra.
  - intros H. injection H as ->. destruct rep as [|[[A E0] Cc] rep]; [contradiction|].
    rewrite osum_cons. rewrite tl_eps1_gap.
    destruct (rdiv (A * _ * _ * _) _) as [q|]; auto. cbn [obind]. destruct (rdiv q Eg); reflexivity.
Qed.
Print Assumptions C20_tauc_lorentz_undefined.

(** Cody-Lorentz: the imaginary part is given by a function that is continuous at every positive
    energy, the start of the Urbach tail included. *)
Theorem C20_cody_lorentz_continuous : forall Eg A Et g Ep E0 Eu, (0 < Et)%R -> g <> 0%R -> Ep <> 0%R -> Eu <> 0%R ->
  exists f : R -> R, (forall E, (0 < E)%R -> cl_eps2 Eg A Et g Ep E0 Eu E = Some (f E)) /\
    (forall E, (0 < E)%R -> continuity_pt f E).
Proof.
  intros Eg A Et g Ep E0 Eu Ht Hg Hp Hu. exists (cl_fun Eg A Et g Ep E0 Eu). split.
  - intros E HE. apply cl_eps2_val; auto; lra.
  - intros E HE. apply cl_fun_cont; auto; lra.
Qed.
Print Assumptions C20_cody_lorentz_continuous.

(** Cody-Lorentz absorbs above the gap, and, on account of its Urbach tail, at every energy
    below: the clause "zero up to the gap" is false of it. *)
Theorem C20_cody_lorentz_positive : forall Eg A Et g Ep E0 Eu E, (0 < A -> 0 < E0 -> 0 < g -> Ep <> 0 -> Eu <> 0 ->
  0 < Et -> Eg < Et -> 0 < E -> exists y, cl_eps2 Eg A Et g Ep E0 Eu E = Some y /\ 0 < y)%R.
Proof.
  intros Eg A Et g Ep E0 Eu E HA H0 Hg Hp Hu Ht HGt HE. exists (cl_fun Eg A Et g Ep E0 Eu E). split.
  - apply cl_eps2_val; auto; lra.
  - now apply cl_fun_gt0.
Qed.
Print Assumptions C20_cody_lorentz_positive.

Theorem C20_cody_lorentz_refuted : exists Eg A Et g Ep E0 Eu E y,
  (0 < E < Eg)%R /\ cl_eps2 Eg A Et g Ep E0 Eu E = Some y /\ y <> 0%R.
Proof.
  (* the default parameters *)
  exists 1.6%R, 100%R, 1.8%R, 2.4%R, 0.8%R, 3.6%R, 0.05%R, 1%R.
  destruct (C20_cody_lorentz_positive 1.6 100 1.8 2.4 0.8 3.6 0.05 1) as (y & H & P); try lra.
  exists y. split; [lra|]. split; auto. lra.
Qed.
Print Assumptions C20_cody_lorentz_refuted.

(** The default oscillator, below and above the gap. *)
Example C20_example : forall c h, (0 < c)%R -> (0 < h)%R -> exists l1 l2 z1 z2, (0 < l1)%R /\ (0 < l2)%R /\
  tauc_lorentz c h 1 [(20, 1.5, 1)]%R l1 = Some z1 /\ snd z1 = 0%R /\
  tauc_lorentz c h 1 [(20, 1.5, 1)]%R l2 = Some z2 /\ (0 < snd z2)%R.
Proof.
  intros c h Hc Hh.
  destruct (conv_onto c h 0.5 Hc Hh ltac:(lra)) as (l1 & Hl1 & E1).
  destruct (conv_onto c h 2 Hc Hh ltac:(lra)) as (l2 & Hl2 & E2).
  destruct (tl_eps1_defined 0.5 1 20 1.5 1) as [r1 Hr1]; try lra.
  destruct (tl_eps1_defined 2 1 20 1.5 1) as [r2 Hr2]; try lra.
  destruct (tauc_single c h 1 20 1.5 1 l1 0.5 r1 E1) as (z1 & Hz1 & _); try lra; auto.
  destruct (tauc_single c h 1 20 1.5 1 l2 2 r2 E2) as (z2 & Hz2 & _); try lra; auto.
  assert (U : Forall (fun '(A, E, Cc) => Cc ^ 2 < 4 * E ^ 2)%R [(20, 1.5, 1)%R]) by (constructor; [simpl; lra|constructor]).
  assert (F : Forall (fun '(A, E, Cc) => 0 < A /\ 0 < E /\ 0 < Cc)%R [(20, 1.5, 1)%R]) by (constructor; [lra|constructor]).
  pose proof (C20_tauc_lorentz_partial c h 1 [(20, 1.5, 1)%R] l1 0.5 z1 Hc Hh Hl1 E1 ltac:(discriminate) U F Hz1) as P1.
  pose proof (C20_tauc_lorentz_partial c h 1 [(20, 1.5, 1)%R] l2 2 z2 Hc Hh Hl2 E2 ltac:(discriminate) U F Hz2) as P2.
  exists l1, l2, z1, z2. split; auto. split; auto. split; auto.
  destruct (Rle_dec 0.5 1) as [_|N]; [|exfalso; apply N; lra]. destruct (Rle_dec 2 1); [lra|]. auto.
Qed.

(** * C21: metals *)

(** Whatever the amplitude, with a positive damping real and imaginary part of the Drude term
    have the same sign. *)
Theorem C21_same_sign : forall c h A g l z, (0 < c -> 0 < h -> 0 < l -> 0 < g ->
  drude_energy c h A g l = Some z ->
  (0 < A -> 0 < fst z /\ 0 < snd z) /\ (A < 0 -> fst z < 0 /\ snd z < 0))%R.
Proof.
  intros c h A g l z Hc Hh Hl Hg H.
  destruct (drude_energy_parts c h Hc Hh _ _ l z Hl H) as (e & k & E & He & Hk & ->).
  assert (P1 : (0 < e ^ 2 * k)%R) by (apply Rmult_lt_0_compat; auto; apply pow_lt; auto).
  assert (P2 : (0 < (g * e) * k)%R) by (repeat apply Rmult_lt_0_compat; auto).
  cbn [fst snd]. split; intros HA; split; nra.
Qed.
Print Assumptions C21_same_sign.

Theorem C21_metal_refuted : exists g, (0 < g)%R /\ forall c h A l, (0 < c)%R -> (0 < h)%R -> (0 < l)%R ->
  ~ (exists z, drude_energy c h A g l = Some z /\ (fst z < 0)%R /\ (0 <= snd z)%R).
Proof.
  exists 1%R. split; [lra|]. intros c h A l Hc Hh Hl (z & H & Z1 & Z2).
  destruct (C21_same_sign c h A 1 l z Hc Hh Hl ltac:(lra) H) as [Pos Neg].
  destruct (Rtotal_order A 0) as [L|[E|L]].
  - apply Neg in L. lra.
  - destruct (drude_energy_parts c h Hc Hh _ _ l z Hl H) as (e & k & _ & He & Hk & ->). subst. simpl in Z1. lra.
  - apply Pos in L. lra.
Qed.
Print Assumptions C21_metal_refuted.

Theorem C21_resistivity_refuted : exists rho tau, (0 < rho)%R /\ (0 < tau)%R /\
  forall c h eps0 l z, (0 < c)%R -> (0 < h)%R -> (0 < eps0)%R -> (0 < l)%R ->
  drude_resistivity c h eps0 rho tau l = Some z -> (0 < fst z)%R.
Proof.
  exists 1%R, 1%R. split; [lra|]. split; [lra|]. intros c h eps0 l z Hc Hh He Hl H.
  exact (proj1 (drude_resistivity_parts c h eps0 Hc Hh He 1 1 l z Hl ltac:(lra) ltac:(lra) H)).
Qed.
Print Assumptions C21_resistivity_refuted.

(** What holds: the Lorentz oscillator at zero energy, and the undamped Drude term with a
    negative amplitude. *)
Theorem C21_metal_partial : forall c h A l, (0 < c)%R -> (0 < h)%R -> (0 < l)%R -> (0 < A)%R ->
  (forall g, (0 < g)%R -> exists z, lorentz_energy c h [(A, 0, g)%R] l = Some z /\ (fst (z - 1)%C < 0)%R /\ (0 < snd z)%R) /\
  (exists z, drude_energy c h (- A) 0 l = Some z /\ (fst z < 0)%R /\ snd z = 0%R).
Proof.
  intros c h A l Hc Hh Hl HA. split.
  - intros g Hg. rewrite lorentz_as_drude by auto.
    destruct (drude_energy c h (- A) (- g) l) as [u|] eqn:Q; [|now apply (drude_energy_defined c h Hc Hh _ _ l Hl) in Q].
    destruct (drude_energy_parts c h Hc Hh _ _ l u Hl Q) as (e & k & E & He & Hk & ->).
    eexists. split; [reflexivity|]. simpl.
    assert (0 < A * (e * (e * 1)) * k)%R by (repeat apply Rmult_lt_0_compat; lra).
    assert (0 < A * (g * e) * k)%R by (repeat apply Rmult_lt_0_compat; lra). split; nra.
  - assert (D : exists u, drude_energy c h (- A) 0 l = Some u).
    { pose proof (drude_energy_defined c h Hc Hh (- A) 0 l Hl) as D.
      destruct (drude_energy c h (- A) 0 l) as [u|]; [now exists u|contradiction]. }
    destruct D as [u Q]. rewrite Q.
    destruct (drude_energy_parts c h Hc Hh _ _ l u Hl Q) as (e & k & E & He & Hk & ->).
    eexists. split; [reflexivity|]. simpl.
    assert (0 < A * (e * (e * 1)) * k)%R by (repeat apply Rmult_lt_0_compat; lra). split; nra.
Qed.
Print Assumptions C21_metal_partial.

(** A Drude term with broadening, and the model's only metal, without. *)
Example C21_example : forall c h, (0 < c)%R -> (0 < h)%R ->
  (exists z, drude_energy c h 2 1 500 = Some z /\ (0 < fst z)%R /\ (0 < snd z)%R) /\
  (exists z, drude_energy c h (- 2) 0 500 = Some z /\ (fst z < 0)%R /\ snd z = 0%R).
Proof.
  intros c h Hc Hh. split.
  - destruct (drude_energy c h 2 1 500) as [z|] eqn:Q; [|apply (drude_energy_defined c h Hc Hh) in Q; [destruct Q|lra]].
    exists z. split; [reflexivity|]. apply (C21_same_sign c h 2 1 500 z); try assumption; lra.
  - exact (proj2 (C21_metal_partial c h 2 500 Hc Hh ltac:(lra) ltac:(lra))).
Qed.
