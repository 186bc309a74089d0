From Coq Require Import Reals Lra Lia List.
From Coquelicot Require Import Complex Hierarchy RInt Continuity Derive AutoDerive RInt_analysis.
From Verif.Base Require Import Py Cx.
From Verif.Model Require Import Units Dispersions.
From Verif.Proof Require Import UnitsP DispersionsP.
Import ListNotations.
Open Scope R_scope.
Open Scope C_scope.
Open Scope py_scope.

(** ** Negated wavelength or energy *)
Lemma exp2_ex a b : ex_RInt (fun t : R => exp (t * t)) a b.
Proof.
  apply (@ex_RInt_continuous R_CompleteNormedModule). intros z _. apply (@ex_derive_continuous R_AbsRing R_NormedModule). auto_derive; auto.
Qed.

Lemma dawsn_odd x : dawsn (- x) = (- dawsn x)%R.
Proof.
  unfold dawsn.
  assert (E : @RInt R_CompleteNormedModule (fun t : R => exp (t * t)) 0 (- x) = (- @RInt R_CompleteNormedModule (fun t : R => exp (t * t)) 0 x)%R).
  { pose proof (@RInt_correct R_CompleteNormedModule _ _ _ (exp2_ex 0 (- x))) as K.
    replace 0%R with (- 0)%R in K at 1 by ring. apply is_RInt_comp_opp in K.
    pose proof (@RInt_correct R_CompleteNormedModule _ _ _ (exp2_ex 0 x)) as K2. apply is_RInt_opp in K2.
    assert (K3 : is_RInt (fun y : R => opp (exp (- y * - y))) 0 x (opp (@RInt R_CompleteNormedModule (fun t : R => exp (t * t)) 0 x))).
    { eapply is_RInt_ext; [|exact K2]. intros y _. simpl. do 2 f_equal. ring. }
    pose proof (@is_RInt_unique R_CompleteNormedModule _ _ _ _ K) as U1.
    pose proof (@is_RInt_unique R_CompleteNormedModule _ _ _ _ K3) as U3.
    exact (eq_trans (eq_sym U1) U3). }
  rewrite E. replace (- x * - x)%R with (x * x)%R by ring. ring.
Qed.

Lemma rdiv_opp_r x y : rdiv x (- y) = match rdiv x y with Some q => Some (- q)%R | None => None end.
Proof.
  unfold rdiv. destruct (Req_EM_T (- y) 0) as [A|A], (Req_EM_T y 0) as [B|B]; try (exfalso; lra); auto.
  f_equal. field. lra.
Qed.
Lemma rdiv_opp_l x y : rdiv (- x) y = match rdiv x y with Some q => Some (- q)%R | None => None end.
Proof. unfold rdiv. destruct (Req_EM_T y 0) as [B|B]; auto. f_equal. field. lra. Qed.

Lemma conv_opp c h l : wavelength_energy c h (- l) =
  match wavelength_energy c h l with Some e => Some (- e)%R | None => None end.
Proof.
  unfold wavelength_energy. replace (- l * / 10 ^ 9)%R with (- (l * / 10 ^ 9))%R by ring. apply rdiv_opp_r.
Qed.

Lemma cdiv_conj (a b : C) : cdiv (Cconj a) (Cconj b) = option_map Cconj (cdiv a b).
Proof.
  unfold cdiv. destruct (Ceq_dec b 0) as [->|N], (Ceq_dec (Cconj _) 0) as [M|M]; simpl; auto.
  - exfalso. apply M. Ccomp; lra.
  - exfalso. apply N. rewrite <- (Cconj_conj b), M. Ccomp; lra.
  - f_equal. symmetry. now apply Cconj_div.
Qed.

Lemma osum_conj {A} (f g : A -> option C) l : (forall x, f x = option_map Cconj (g x)) ->
  osum f l = option_map Cconj (osum g l).
Proof.
  intros H. induction l as [|x l IH].
  - rewrite !osum_nil. simpl. f_equal. Ccomp; lra.
  - rewrite !osum_cons, H, IH. destruct (g x); simpl; auto. destruct (osum g l); simpl; auto. f_equal. Ccomp; lra.
Qed.

Section S.
Variables c h eps0 : R.

Lemma lorentz_energy_conj rep l : lorentz_energy c h rep (- l) = option_map Cconj (lorentz_energy c h rep l).
Proof.
  unfold lorentz_energy. rewrite conv_opp. destruct (wavelength_energy c h l) as [e|]; [|reflexivity]. cbn [obind].
  rewrite (osum_conj _ (fun '(A, E, g) => cdiv (RtoC A) (RtoC (E ^ 2) - RtoC (e ^ 2) - Ci * RtoC g * RtoC e))).
  - destruct (osum _ rep); simpl; auto. f_equal. Ccomp; lra.
  - intros [[A E] g]. rewrite <- cdiv_conj. f_equal; Ccomp; ring.
Qed.
Lemma lorentz_lambda_conj rep l : lorentz_lambda rep (- l) = option_map Cconj (lorentz_lambda rep l).
Proof.
  unfold lorentz_lambda.
  rewrite (osum_conj _ (fun '(A, lr, g) => cdiv (RtoC (A * l ^ 2)) (RtoC (l ^ 2) - RtoC (lr ^ 2) - Ci * RtoC g * RtoC l))).
  - destruct (osum _ rep); simpl; auto. f_equal. Ccomp; lra.
  - intros [[A E] g]. rewrite <- cdiv_conj. f_equal; Ccomp; ring.
Qed.
Lemma drude_energy_conj A g l : drude_energy c h A g (- l) = option_map Cconj (drude_energy c h A g l).
Proof.
  unfold drude_energy. rewrite conv_opp. destruct (wavelength_energy c h l) as [e|]; [|reflexivity]. cbn [obind].
  rewrite <- cdiv_conj. f_equal; Ccomp; ring.
Qed.
Lemma drude_resistivity_conj r t l : drude_resistivity c h eps0 r t (- l) = option_map Cconj (drude_resistivity c h eps0 r t l).
Proof.
  unfold drude_resistivity. rewrite conv_opp. destruct (wavelength_energy c h l) as [e|]; [|reflexivity]. cbn [obind].
  rewrite <- cdiv_conj. f_equal; Ccomp; ring.
Qed.
Lemma gaussian_conj rep l : gaussian c h rep (- l) = option_map Cconj (gaussian c h rep l).
Proof.
  unfold gaussian. rewrite conv_opp. destruct (wavelength_energy c h l) as [e|]; [|reflexivity]. cbn [obind].
  set (k := (2 * sqrt (ln 2))%R). apply osum_conj. intros [[A E] s].
  replace (k * (- e + E))%R with (- (k * (e - E)))%R by ring.
  replace (k * (- e - E))%R with (- (k * (e + E)))%R by ring.
  rewrite !rdiv_opp_l. destruct (rdiv (k * (e + E)) s) as [x|], (rdiv (k * (e - E)) s) as [y|]; cbn [obind]; auto.
  simpl option_map. f_equal. rewrite !dawsn_odd.
  replace ((- x) ^ 2)%R with (x ^ 2)%R by ring. replace ((- y) ^ 2)%R with (y ^ 2)%R by ring.
  apply C_ext; simpl; ring.
Qed.

(** The Gaussian imaginary part as powers of two *)
Lemma gaussian_im A E s l e eps : (0 < s)%R -> wavelength_energy c h l = Some e ->
  gaussian c h [(A, E, s)] l = Some eps ->
  snd eps = (A * Rpower 2 (- (2 * (e - E) / s) ^ 2) - A * Rpower 2 (- (2 * (e + E) / s) ^ 2))%R.
Proof.
  intros Hs He H. unfold gaussian in H. rewrite He in H. cbn [obind] in H.
  rewrite osum_cons, osum_nil in H. unfold rdiv in H. destruct (Req_EM_T s 0); [lra|]. cbn [obind] in H.
  apply Some_eq in H. rewrite <- H. clear H.
  assert (P : forall u : R, exp (- (2 * sqrt (ln 2) * u / s) ^ 2) = Rpower 2 (- (2 * u / s) ^ 2)).
  { intros u. unfold Rpower. f_equal.
    assert (L : (0 < ln 2)%R) by (rewrite <- ln_1; apply ln_increasing; lra).
    assert (Q : (sqrt (ln 2) * sqrt (ln 2) = ln 2)%R) by (apply sqrt_sqrt; lra).
    transitivity (- ((2 * u / s) ^ 2 * (sqrt (ln 2) * sqrt (ln 2))))%R; [field; lra|]. rewrite Q. ring. }
  rewrite !P. simpl. ring.
Qed.
End S.
