(** C63, C65: reality condition and documented formulas of the dispersions. *)
From Coq Require Import Reals Lra Lia List.
From Coquelicot Require Import Complex.
From Verif.Base Require Import Py Cx.
From Verif.Model Require Import Units Dispersions.
From Verif.Spec Require Import DispDoc.
From Verif.Proof Require Import UnitsP DispersionsP DispersionsP3.
Import ListNotations.
Open Scope R_scope.
Open Scope C_scope.
Open Scope py_scope.

(** C63: at the negative wavelength (energy) the oscillator models take the complex conjugate
    value: they are transforms of real response functions. *)
Theorem C63_reality : forall c h eps0 lbda,
  (forall l, lorentz_energy c h l (- lbda) = option_map Cconj (lorentz_energy c h l lbda)) /\
  (forall l, lorentz_lambda l (- lbda) = option_map Cconj (lorentz_lambda l lbda)) /\
  (forall A g, drude_energy c h A g (- lbda) = option_map Cconj (drude_energy c h A g lbda)) /\
  (forall r t, drude_resistivity c h eps0 r t (- lbda) = option_map Cconj (drude_resistivity c h eps0 r t lbda)) /\
  (forall l, gaussian c h l (- lbda) = option_map Cconj (gaussian c h l lbda)).
Proof.
  intros c h eps0 lbda. split; [|split; [|split; [|split]]]; intros.
  - apply lorentz_energy_conj.
  - apply lorentz_lambda_conj.
  - apply drude_energy_conj.
  - apply drude_resistivity_conj.
  - apply gaussian_conj.
Qed.
Print Assumptions C63_reality.

Example C63_example : lorentz_lambda [(1, 0, 1)]%R 1 = Some (RtoC 1 + (1 / (1 - Ci))) /\
  lorentz_lambda [(1, 0, 1)]%R (- 1) = Some (RtoC 1 + (1 / (1 + Ci))).
Proof.
  unfold lorentz_lambda. rewrite !osum_cons, !osum_nil.
  rewrite !cdiv_nz; cbn [obind].
  - split; f_equal; Ccomp; field.
  - intros K. apply (f_equal fst) in K. simpl in K. lra.
  - intros K. apply (f_equal fst) in K. simpl in K. lra.
Qed.

(** C65: the documented formulas. *)
Lemma photon_conv c h lbda E : lbda <> 0%R -> photon c h lbda E -> wavelength_energy c h lbda = Some E.
Proof.
  unfold photon, wavelength_energy, rdiv. intros N H.
  assert (T : (/ 10 ^ 9 <> 0)%R) by (apply Rinv_neq_0_compat; lra).
  assert (M : (lbda * / 10 ^ 9 <> 0)%R) by (apply Rmult_integral_contrapositive_currified; assumption).
  destruct (Req_EM_T (lbda * / 10 ^ 9) 0); [contradiction|]. f_equal. rewrite <- H. field. exact N.
Qed.

Lemma osum_total {A} (f : A -> option C) (g : A -> C) l : (forall x, In x l -> f x = Some (g x)) ->
  osum f l = Some (total g l).
Proof.
  induction l as [|x l IH]; intros H; [reflexivity|].
  rewrite osum_cons, (H x) by (now left). rewrite IH by (intros y Hy; apply H; now right). reflexivity.
Qed.

Lemma rpow_pos x y : (0 < x)%R -> rpow x y = Some (Rpower x y).
Proof. intros H. unfold rpow. destruct (Rlt_dec 0 x); [reflexivity|contradiction]. Qed.

Theorem C65_cauchy : forall n0 n1 n2 k0 k1 k2 lbda, lbda <> 0%R ->
  cauchy n0 n1 n2 k0 k1 k2 lbda = Some (doc_cauchy n0 n1 n2 k0 k1 k2 lbda).
Proof.
  intros. unfold cauchy. assert (lbda ^ 2 <> 0 /\ lbda ^ 4 <> 0)%R by (split; apply pow_nonzero; assumption).
  rewrite !rdiv_nz by tauto. cbn [obind]. unfold doc_cauchy. replace (10 ^ 2)%R with 100%R by lra. reflexivity.
Qed.
Print Assumptions C65_cauchy.

Theorem C65_powers : forall n0 l lbda, (0 < lbda)%R ->
  cauchy_custom n0 l lbda = Some (doc_powers n0 l lbda) /\ polynomial n0 l lbda = Some (doc_powers n0 l lbda).
Proof.
  intros. unfold cauchy_custom, polynomial, doc_powers.
  rewrite (osum_total _ (fun '(f, e) => RtoC (f * Rpower lbda e))).
  - split; reflexivity.
  - intros [f e] _. rewrite rpow_pos by assumption. reflexivity.
Qed.
Print Assumptions C65_powers.

Theorem C65_urbach : forall c h n0 B Cc D Eg Eu lbda E, lbda <> 0%R -> Eu <> 0%R -> photon c h lbda E ->
  cauchy_urbach c h n0 B Cc D Eg Eu lbda = Some (doc_urbach n0 B Cc D Eg Eu E).
Proof.
  intros. unfold cauchy_urbach. rewrite (photon_conv _ _ _ E) by assumption. cbn [obind].
  rewrite rdiv_nz by assumption. cbn [obind]. unfold doc_urbach. f_equal. rewrite RtoC_mult. ring.
Qed.
Print Assumptions C65_urbach.

(** lbda in nm; resonances in squared micrometres *)
Theorem C65_sellmeier : forall l lbda, (forall A B, In (A, B) l -> (lbda / 1000) ^ 2 <> B)%R ->
  sellmeier l lbda = Some (doc_sellmeier l (lbda / 1000)).
Proof.
  intros l lbda H. unfold sellmeier, doc_sellmeier. replace (lbda / 10 ^ 3)%R with (lbda / 1000)%R by lra.
  rewrite (osum_total _ (fun '(A, B) => RtoC (A * (lbda / 1000) ^ 2 / ((lbda / 1000) ^ 2 - B)))).
  - reflexivity.
  - intros [A B] I. specialize (H A B I). rewrite rdiv_nz by lra. reflexivity.
Qed.
Print Assumptions C65_sellmeier.

Theorem C65_sellmeier_custom : forall l lbda, (0 < lbda)%R ->
  (forall A eA B eB, In (A, eA, B, eB) l -> 0 < B /\ (lbda / 1000) ^ 2 <> Rpower B eB)%R ->
  sellmeier_custom l lbda = Some (doc_sellmeier_custom l (lbda / 1000)).
Proof.
  intros l lbda L H. unfold sellmeier_custom, doc_sellmeier_custom. replace (lbda / 10 ^ 3)%R with (lbda / 1000)%R by lra.
  apply osum_total. intros [[[A eA] B] eB] I. destruct (H A eA B eB I).
  rewrite !rpow_pos by lra. cbn [obind]. rewrite rdiv_nz by lra. reflexivity.
Qed.
Print Assumptions C65_sellmeier_custom.

Theorem C65_poles : forall c h A_ir A_uv E_uv lbda E, lbda <> 0%R -> photon c h lbda E -> E <> 0%R ->
  (E_uv ^ 2 <> E ^ 2)%R -> poles c h A_ir A_uv E_uv lbda = Some (doc_poles A_ir A_uv E_uv E).
Proof.
  intros. unfold poles. rewrite (photon_conv _ _ _ E) by assumption. cbn [obind].
  assert (E ^ 2 <> 0)%R by (apply pow_nonzero; assumption).
  rewrite !rdiv_nz by lra. reflexivity.
Qed.
Print Assumptions C65_poles.

Theorem C65_drude_energy : forall c h A g lbda E, lbda <> 0%R -> photon c h lbda E -> E <> 0%R ->
  drude_energy c h A g lbda = Some (doc_drude_energy A g E).
Proof.
  intros. unfold drude_energy. rewrite (photon_conv _ _ _ E) by assumption. cbn [obind].
  rewrite cdiv_nz; [reflexivity|]. intros K. apply (f_equal fst) in K. simpl in K. nra.
Qed.
Print Assumptions C65_drude_energy.

(** The documented sign of the damping (wavelength) and of the whole term (energy) is the
    opposite of what is computed. *)
Theorem C65_lorentz_lambda_refuted : exists l lbda eps, lorentz_lambda l lbda = Some eps /\ eps <> doc_lorentz_lambda l lbda.
Proof.
  exists [(1, 0, 1)]%R, 1%R, (RtoC 1 + (1 / (1 - Ci))). split; [exact (proj1 C63_example)|].
  intros K. unfold doc_lorentz_lambda, total in K. cbn [map fold_right] in K.
  apply (f_equal snd) in K. simpl in K. field_simplify in K. lra.
Qed.
Print Assumptions C65_lorentz_lambda_refuted.

Lemma lorentz_energy_total c h l lbda E : lbda <> 0%R -> photon c h lbda E ->
  (forall A Ej g, In (A, Ej, g) l -> RtoC (Ej ^ 2) - RtoC (E ^ 2) - Ci * RtoC g * RtoC E <> 0) ->
  lorentz_energy c h l lbda =
    Some (RtoC 1 + total (fun '(A, Ej, g) => RtoC A / (RtoC (Ej ^ 2) - RtoC (E ^ 2) - Ci * RtoC g * RtoC E)) l).
Proof.
  intros N P H. unfold lorentz_energy. rewrite (photon_conv _ _ _ E) by assumption. cbn [obind].
  rewrite (osum_total _ (fun '(A, Ej, g) => RtoC A / (RtoC (Ej ^ 2) - RtoC (E ^ 2) - Ci * RtoC g * RtoC E))).
  - reflexivity.
  - intros [[A Ej] g] I. apply cdiv_nz. exact (H A Ej g I).
Qed.

(** What LorentzEnergy computes is 1 minus the documented sum. *)
Theorem C65_lorentz_energy_partial : forall c h l lbda E, lbda <> 0%R -> photon c h lbda E ->
  (forall A Ej g, In (A, Ej, g) l -> RtoC (Ej ^ 2) - RtoC (E ^ 2) - Ci * RtoC g * RtoC E <> 0) ->
  lorentz_energy c h l lbda = Some (2 - doc_lorentz_energy l E).
Proof.
  intros c h l lbda E N P H. rewrite (lorentz_energy_total c h l lbda E N P H). f_equal.
  unfold doc_lorentz_energy, total. clear N P. induction l as [|[[A Ej] g] l IH]; cbn [map fold_right].
  - ring.
  - assert (IH' := IH (fun a b d I => H a b d (or_intror I))). clear IH.
    pose proof (H A Ej g (or_introl eq_refl)) as D.
    set (X := fold_right Cplus (RtoC 0) (map _ l)) in *. set (Y := fold_right Cplus (RtoC 0) (map _ l)) in IH' |- *.
    assert (EQ : RtoC A / (RtoC (Ej ^ 2) - RtoC (E ^ 2) - Ci * RtoC g * RtoC E) =
                 - (RtoC A / (RtoC (E ^ 2) - RtoC (Ej ^ 2) + Ci * RtoC g * RtoC E))).
    { assert (D' : RtoC (E ^ 2) - RtoC (Ej ^ 2) + Ci * RtoC g * RtoC E <> 0).
      { intros K. apply D. transitivity (- (RtoC (E ^ 2) - RtoC (Ej ^ 2) + Ci * RtoC g * RtoC E)); [ring|]. rewrite K. ring. }
      field. split; assumption. }
    rewrite EQ. transitivity ((RtoC 1 + X) - (RtoC A / (RtoC (E ^ 2) - RtoC (Ej ^ 2) + Ci * RtoC g * RtoC E))); [ring|].
    rewrite IH'. ring.
Qed.
Print Assumptions C65_lorentz_energy_partial.

Theorem C65_lorentz_energy_refuted : exists c h l lbda E eps, (0 < c * h)%R /\ photon c h lbda E /\
  lorentz_energy c h l lbda = Some eps /\ eps <> doc_lorentz_energy l E.
Proof.
  exists 1%R, 1%R, [(1, 2, 0)]%R, (10 ^ 9)%R, 1%R.
  assert (P : photon 1 1 (10 ^ 9) 1) by (unfold photon; field; lra).
  assert (D : forall A Ej g, In (A, Ej, g) [(1, 2, 0)]%R -> RtoC (Ej ^ 2) - RtoC (1 ^ 2) - Ci * RtoC g * RtoC 1 <> 0).
  { intros A Ej g [I|[]]. injection I as <- <- <-. intros K. apply (f_equal fst) in K. simpl in K. lra. }
  eexists. split; [lra|]. split; [exact P|]. split; [apply C65_lorentz_energy_partial; [lra|exact P|exact D]|].
  unfold doc_lorentz_energy, total. cbn [map fold_right]. intros K.
  replace (RtoC (1 ^ 2) - RtoC (2 ^ 2) + Ci * RtoC 0 * RtoC 1) with (RtoC (-3)) in K by (Ccomp; lra).
  rewrite <- RtoC_div in K by lra. apply (f_equal fst) in K. simpl in K. lra.
Qed.
Print Assumptions C65_lorentz_energy_refuted.

Theorem C65_drude_resistivity_refuted : exists c h eps0 rho tau lbda E eps, photon c h lbda E /\
  drude_resistivity c h eps0 rho tau lbda = Some eps /\
  eps <> doc_drude_resistivity (h / 2 / PI) eps0 rho tau E.
Proof.
  pose proof PI_RGT_0 as HP.
  exists (1 / (2 * PI))%R, (2 * PI)%R, 100%R, 2%R, 0%R, (10 ^ 9)%R, 1%R.
  assert (P : photon (1 / (2 * PI)) (2 * PI) (10 ^ 9) 1) by (unfold photon; field; lra).
  exists (- (RtoC 1 / (RtoC 2 * Ci))). split; [exact P|]. split.
  - unfold drude_resistivity. rewrite (photon_conv _ _ _ 1) by (try exact P; lra). cbn [obind].
    replace (2 * PI / 2 / PI)%R with 1%R by (field; lra).
    replace (100 * / 10 ^ 2)%R with 1%R by (field; lra).
    rewrite cdiv_nz.
    + f_equal. Ccomp; field.
    + intros K. apply (f_equal snd) in K. simpl in K. lra.
  - replace (2 * PI / 2 / PI)%R with 1%R by (field; lra). unfold doc_drude_resistivity. intros K.
    apply (f_equal snd) in K. simpl in K. field_simplify in K. lra.
Qed.
Print Assumptions C65_drude_resistivity_refuted.

(** The imaginary part of a Gaussian falls to one half at a distance sigma / 2 from the centre
    (mirror term aside): sigma is the full width at half maximum. *)
Theorem C65_gaussian_width_partial : forall c h A E s lbda e eps, (0 < s)%R -> lbda <> 0%R -> photon c h lbda e ->
  gaussian c h [(A, E, s)] lbda = Some eps ->
  snd eps = (A * Rpower 2 (- (2 * (e - E) / s) ^ 2) - A * Rpower 2 (- (2 * (e + E) / s) ^ 2))%R.
Proof.
  intros c h A E s lbda e eps Hs Hl P H. exact (gaussian_im c h A E s lbda e eps Hs (photon_conv _ _ _ _ Hl P) H).
Qed.
Print Assumptions C65_gaussian_width_partial.

Theorem C65_gaussian_refuted : exists c h A E s lbda e eps, (0 < s)%R /\ photon c h lbda e /\
  gaussian c h [(A, E, s)] lbda = Some eps /\ snd eps <> doc_gaussian_im A E s e.
Proof.
  exists (3 / 2)%R, 1%R, 1%R, 1%R, 1%R, (10 ^ 9)%R, (3 / 2)%R.
  assert (P : photon (3 / 2) 1 (10 ^ 9) (3 / 2)) by (unfold photon; field; lra).
  destruct (gaussian (3 / 2) 1 [(1, 1, 1)]%R (10 ^ 9)) as [eps|] eqn:G.
  2:{ exfalso. unfold gaussian in G. rewrite (photon_conv _ _ _ (3 / 2)) in G by (try exact P; lra). cbn [obind] in G.
      rewrite osum_cons, osum_nil, !rdiv_nz in G by lra. discriminate G. }
  exists eps. split; [lra|]. split; [exact P|]. split; [reflexivity|].
  assert (N9 : (10 ^ 9 <> 0)%R) by lra.
  rewrite (C65_gaussian_width_partial (3 / 2) 1 1 1 1 (10 ^ 9) (3 / 2) eps Rlt_0_1 N9 P G). unfold doc_gaussian_im.
  intros K.
  replace (- (2 * (3 / 2 - 1) / 1) ^ 2)%R with (- (1))%R in K by field.
  replace (- (2 * (3 / 2 + 1) / 1) ^ 2)%R with (- (25))%R in K by field.
  assert (A1 : Rpower 2 (- (1)) = (/ 2)%R) by (rewrite Rpower_Ropp, Rpower_1 by lra; reflexivity).
  assert (A2 : (Rpower 2 (- (25)) <= / 16)%R).
  { apply Rle_trans with (Rpower 2 (- (4))).
    - apply Rle_Rpower; lra.
    - rewrite Rpower_Ropp. replace 4%R with (INR 4) by (simpl; lra). rewrite Rpower_pow by lra. simpl. lra. }
  assert (L : (1 / 2 <= ln 2)%R).
  { rewrite <- (ln_exp (1 / 2)). destruct (Req_dec (exp (1 / 2)) 2) as [E2|E2]; [rewrite E2; lra|].
    assert (X : (exp (1 / 2) < 2)%R).
    { assert (Y : (exp (1 / 2) * exp (1 / 2) <= 3)%R) by (rewrite <- exp_plus; replace (1 / 2 + 1 / 2)%R with 1%R by field; apply exp_le_3).
      pose proof (exp_pos (1 / 2)). nra. }
    left. apply ln_increasing; [apply exp_pos|exact X]. }
  assert (B : (exp (- (4 * ln 2 * (3 / 2 - 1) / 1) ^ 2) <= / 2 * / 2 + / 8)%R).
  { apply Rle_trans with (exp (- (1))).
    - destruct (Req_dec (- (4 * ln 2 * (3 / 2 - 1) / 1) ^ 2) (- (1))) as [E1|E1]; [rewrite E1; lra|].
      left. apply exp_increasing. assert (1 <= (4 * ln 2 * (3 / 2 - 1) / 1) ^ 2)%R; [|lra].
      replace ((4 * ln 2 * (3 / 2 - 1) / 1) ^ 2)%R with ((2 * ln 2) * (2 * ln 2))%R by field. nra.
    - rewrite exp_Ropp. pose proof (exp_ineq1 1 ltac:(lra)).
      assert (X : (8 / 3 <= exp 1)%R).
      { assert (Y : exp 1 = (exp (1 / 2) * exp (1 / 2))%R) by (rewrite <- exp_plus; f_equal; field).
        assert (Z : exp (1 / 2) = (exp (1 / 4) * exp (1 / 4))%R) by (rewrite <- exp_plus; f_equal; field).
        assert (W : exp (1 / 4) = (exp (1 / 8) * exp (1 / 8))%R) by (rewrite <- exp_plus; f_equal; field).
        assert (V : exp (1 / 8) = (exp (1 / 16) * exp (1 / 16))%R) by (rewrite <- exp_plus; f_equal; field).
        assert (U : exp (1 / 16) = (exp (1 / 32) * exp (1 / 32))%R) by (rewrite <- exp_plus; f_equal; field).
        pose proof (exp_ineq1 (1 / 32) ltac:(lra)) as T.
        assert (U' : (1.0634 < exp (1 / 16))%R) by nra. assert (V' : (1.1308 < exp (1 / 8))%R) by nra.
        assert (W' : (1.2787 < exp (1 / 4))%R) by nra. assert (Z' : (1.635 < exp (1 / 2))%R) by nra. nra. }
      assert (Q : (/ exp 1 <= / (8 / 3))%R) by (apply Rinv_le_contravar; lra). lra. }
  pose proof (exp_pos (- (4 * ln 2 * (3 / 2 + 1) / 1) ^ 2)). lra.
Qed.
Print Assumptions C65_gaussian_refuted.

Example C65_example : photon 2 3 (10 ^ 9) 6 /\ sellmeier [(1, 0)]%R 1000 = Some (RtoC 2).
Proof.
  split; [unfold photon; field|].
  rewrite C65_sellmeier.
  - unfold doc_sellmeier, total; cbn [map fold_right]. f_equal.
    replace (1 * (1000 / 1000) ^ 2 / ((1000 / 1000) ^ 2 - 0))%R with 1%R by field. Ccomp; lra.
  - intros A B [I|[]]. injection I as <- <-. lra.
Qed.
