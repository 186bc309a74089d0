From Coq Require Import Reals ZArith Psatz Lra Lia List Permutation.
From Coquelicot Require Import Complex.
From Verif.Base Require Import Py Cx.
From Verif.Model Require Import Units Dispersions.
From Verif.Proof Require Import UnitsP.
Import ListNotations.
Open Scope R_scope.
Open Scope C_scope.
Open Scope py_scope.

Ltac osplit H :=
  repeat match type of H with
  | obind ?a _ = Some _ => let x := fresh "x" in let E := fresh "E" in
      destruct a as [x|] eqn:E; [cbn [obind] in H|discriminate H]
  end.

Lemma Some_eq {A} (x y : A) : Some x = Some y -> x = y.
Proof. congruence. Qed.

(** ** The sum of optional terms *)
Section Osum.
Context {A : Type} (f : A -> option C).

Definition ostep (acc : option C) (x : A) : option C := obind acc (fun a => obind (f x) (fun t => Some (a + t))).
Lemma osum_fold l : osum f l = fold_left ostep l (Some (RtoC 0)).
Proof. reflexivity. Qed.

Lemma ofold_None l : fold_left ostep l None = None.
Proof. induction l; simpl; auto. Qed.

Lemma ofold_start l a : fold_left ostep l (Some a) = obind (osum f l) (fun s => Some (a + s)).
Proof.
  unfold osum. fold ostep. revert a. induction l as [|x l IH]; intros a; simpl.
  - f_equal. ring.
  - destruct (f x) as [t|]; simpl.
    + rewrite (IH (a + t)), (IH (0 + t)). destruct (fold_left _ l _); simpl; auto. f_equal. ring.
    + now rewrite !ofold_None.
Qed.

Lemma osum_nil : osum f [] = Some (RtoC 0).
Proof. reflexivity. Qed.
Lemma osum_cons x l : osum f (x :: l) = obind (f x) (fun t => obind (osum f l) (fun s => Some (t + s))).
Proof.
  rewrite osum_fold. simpl. destruct (f x) as [t|]; simpl; [|apply ofold_None].
  rewrite ofold_start. destruct (osum f l); simpl; auto. f_equal. ring.
Qed.
Lemma osum_app l m : osum f (l ++ m) = obind (osum f l) (fun a => obind (osum f m) (fun b => Some (a + b))).
Proof.
  induction l as [|x l IH]; cbn [app].
  - rewrite osum_nil. cbn [obind]. destruct (osum f m); simpl; auto. f_equal. ring.
  - rewrite !osum_cons, IH. destruct (f x); simpl; auto. destruct (osum f l); simpl; auto.
    destruct (osum f m); simpl; auto. f_equal. ring.
Qed.
Lemma osum_perm l m : Permutation l m -> osum f l = osum f m.
Proof.
  induction 1.
  - reflexivity.
  - rewrite !osum_cons, IHPermutation. reflexivity.
  - rewrite !osum_cons. destruct (f y), (f x); simpl; auto; destruct (osum f l); simpl; auto. f_equal. ring.
  - congruence.
Qed.
Lemma osum_Im_ge0 l s : (forall x t, In x l -> f x = Some t -> (0 <= snd t)%R) ->
  osum f l = Some s -> (0 <= snd s)%R.
Proof.
  revert s. induction l as [|x l IH]; intros s H E.
  - injection E as <-. simpl. lra.
  - rewrite osum_cons in E. osplit E. injection E as <-. simpl.
    assert (0 <= snd x0)%R by (eapply H; eauto; now left).
    assert (0 <= snd x1)%R by (eapply IH; eauto; intros; eapply H; eauto; now right). lra.
Qed.
Lemma osum_Im_gt0 l s : l <> [] -> (forall x t, In x l -> f x = Some t -> (0 < snd t)%R) ->
  osum f l = Some s -> (0 < snd s)%R.
Proof.
  intros N H E. destruct l as [|x l]; [contradiction|].
  rewrite osum_cons in E. osplit E. injection E as <-. simpl.
  assert (0 < snd x0)%R by (eapply H; eauto; now left).
  assert (0 <= snd x1)%R by (eapply osum_Im_ge0; eauto; intros; left; eapply H; eauto; now right). lra.
Qed.
Lemma osum_Im_0 l s : (forall x t, In x l -> f x = Some t -> snd t = 0%R) ->
  osum f l = Some s -> snd s = 0%R.
Proof.
  revert s. induction l as [|x l IH]; intros s H E.
  - injection E as <-. reflexivity.
  - rewrite osum_cons in E. osplit E. injection E as <-. simpl.
    rewrite (H x x0), (IH x1); eauto; [ring|..]. intros; eapply H; eauto; now right. now left.
Qed.
Lemma osum_defined l : (forall x, In x l -> f x <> None) <-> osum f l <> None.
Proof.
  induction l as [|x l IH].
  - split; [discriminate|intros _ x []].
  - rewrite osum_cons. split.
    + intros H. destruct (f x) eqn:E; simpl.
      * destruct (osum f l); simpl; [discriminate|]. exfalso. apply (proj1 IH); auto. intros y Hy. apply H. now right.
      * exfalso. apply (H x); auto. now left.
    + intros H y [<-|Hy].
      * destruct (f x); [discriminate|]. simpl in H. contradiction.
      * destruct (f x); [|simpl in H; contradiction]. cbn [obind] in H.
        apply IH; auto. intros N. rewrite N in H. now apply H.
Qed.
End Osum.

Lemma osum_ext {A B} (f : A -> option C) (g : B -> option C) (k : A -> B) l :
  (forall x, In x l -> f x = g (k x)) -> osum f l = osum g (map k l).
Proof.
  induction l as [|x l IH]; intros H; [reflexivity|]. cbn [map]. rewrite !osum_cons.
  rewrite (H x) by (now left). rewrite IH; auto. intros; apply H; now right.
Qed.

(** ** Energies *)
Lemma conv_pos c h l : (0 < c)%R -> (0 < h)%R -> (0 < l)%R ->
  exists e, wavelength_energy c h l = Some e /\ (0 < e)%R /\ e = (c * h * 10 ^ 9 / l)%R.
Proof.
  intros Hc Hh Hl. assert (0 < c * h)%R by nra. unfold wavelength_energy.
  rewrite inv_law by lra. eexists. split; [reflexivity|]. split; auto.
  apply Rdiv_lt_0_compat; auto. apply Rmult_lt_0_compat; auto. apply pow_lt. lra.
Qed.
(** every positive energy is the energy of some wavelength *)
Lemma conv_onto c h e : (0 < c)%R -> (0 < h)%R -> (0 < e)%R ->
  exists l, (0 < l)%R /\ wavelength_energy c h l = Some e.
Proof.
  intros Hc Hh He. assert (0 < c * h)%R by nra. pose proof giga_nz.
  assert (P : (0 < c * h * 10 ^ 9)%R) by (apply Rmult_lt_0_compat; auto; apply pow_lt; lra).
  exists (c * h * 10 ^ 9 / e)%R.
  assert (0 < c * h * 10 ^ 9 / e)%R by (now apply Rdiv_lt_0_compat).
  split; auto. unfold wavelength_energy. rewrite inv_law by lra. f_equal. field. lra.
Qed.

(** ** Im A / (x - i y) *)
Lemma cdiv_Some (z w q : C) : cdiv z w = Some q -> w <> 0 /\ q = z / w.
Proof.
  unfold cdiv. destruct (Ceq_dec w 0); [discriminate|]. intros H. injection H as <-. auto.
Qed.
Lemma cdiv_nz (z w : C) : w <> 0 -> cdiv z w = Some (z / w).
Proof. intros H. unfold cdiv. destruct (Ceq_dec w 0); [contradiction|reflexivity]. Qed.

Lemma resp (A x y : R) : (x * x + y * y <> 0)%R ->
  RtoC A / (RtoC x - Ci * RtoC y) = (A * x / (x * x + y * y), A * y / (x * x + y * y))%R.
Proof.
  intros H. unfold Cdiv, Cinv, Cmult, RtoC, Ci, Cminus, Copp, Cplus; simpl.
  apply C_ext; simpl; field; intros K; apply H; nra.
Qed.
Lemma nz_resp (x y : R) : RtoC x - Ci * RtoC y <> 0 -> (x * x + y * y <> 0)%R.
Proof.
  intros H E. apply H. assert (x = 0)%R by nra. assert (y = 0)%R by nra. subst.
  apply C_ext; simpl; ring.
Qed.
Lemma resp_nz (x y : R) : (x * x + y * y <> 0)%R -> RtoC x - Ci * RtoC y <> 0.
Proof.
  intros H E. apply H. apply (f_equal fst) in E as E1. apply (f_equal snd) in E as E2. simpl in *. nra.
Qed.
Lemma cdiv_resp (A x y : R) q : cdiv (RtoC A) (RtoC x - Ci * RtoC y) = Some q ->
  (0 < x * x + y * y)%R /\ fst q = (A * x / (x * x + y * y))%R /\ snd q = (A * y / (x * x + y * y))%R.
Proof.
  intros H. apply cdiv_Some in H as [N ->]. apply nz_resp in N. rewrite resp by auto. simpl.
  split; auto. nra.
Qed.

(** ** Passivity (C17) *)
Lemma frac_ge0 a b : (0 <= a)%R -> (0 < b)%R -> (0 <= a / b)%R.
Proof. intros. apply Rmult_le_pos; auto. apply Rlt_le, Rinv_0_lt_compat; auto. Qed.
Lemma frac_gt0 a b : (0 < a)%R -> (0 < b)%R -> (0 < a / b)%R.
Proof. intros. apply Rmult_lt_0_compat; auto. apply Rinv_0_lt_compat; auto. Qed.

Lemma lor_den (e E g : R) : RtoC (E ^ 2) - RtoC (e ^ 2) - Ci * RtoC g * RtoC e
  = RtoC (E ^ 2 - e ^ 2) - Ci * RtoC (g * e).
Proof. apply C_ext; simpl; ring. Qed.
Lemma lam_den (l lr g : R) : RtoC (l ^ 2) - RtoC (lr ^ 2) - Ci * RtoC g * RtoC l
  = RtoC (l ^ 2 - lr ^ 2) - Ci * RtoC (g * l).
Proof. apply C_ext; simpl; ring. Qed.
Lemma dru_den (e g : R) : RtoC (e ^ 2) - Ci * RtoC g * RtoC e = RtoC (e ^ 2) - Ci * RtoC (g * e).
Proof. apply C_ext; simpl; ring. Qed.
Lemma res_den (k r t e hb : R) :
  RtoC k * RtoC r * (RtoC (t * e ^ 2) - Ci * RtoC hb * RtoC e)
  = RtoC (k * r * (t * e ^ 2)) - Ci * RtoC (k * r * (hb * e)).
Proof. apply C_ext; simpl; ring. Qed.

Section Passive.
Variables c h eps0 : R.
Hypotheses (Hc : (0 < c)%R) (Hh : (0 < h)%R) (He : (0 < eps0)%R).

Lemma lorentz_energy_passive rep l z : (0 < l)%R ->
  Forall (fun '(A, E, g) => 0 <= A /\ 0 <= g)%R rep ->
  lorentz_energy c h rep l = Some z -> (0 <= snd z)%R.
Proof.
  intros Hl F H. unfold lorentz_energy in H. destruct (conv_pos c h l Hc Hh Hl) as (e & E & P & _).
  rewrite E in H. cbn [obind] in H. osplit H. injection H as <-. simpl.
  rewrite Rplus_0_l. eapply osum_Im_ge0; [|eassumption].
  intros [[A En] g] t Hin Ht. rewrite Forall_forall in F. specialize (F _ Hin). simpl in F.
  rewrite lor_den in Ht. apply cdiv_resp in Ht as (D & _ & ->). apply frac_ge0; auto. destruct F. repeat apply Rmult_le_pos; lra.
Qed.

Lemma lorentz_lambda_passive rep l z : (0 < l)%R ->
  Forall (fun '(A, lr, g) => 0 <= A /\ 0 <= g)%R rep ->
  lorentz_lambda rep l = Some z -> (0 <= snd z)%R.
Proof.
  intros Hl F H. unfold lorentz_lambda in H. osplit H. injection H as <-. simpl.
  rewrite Rplus_0_l. eapply osum_Im_ge0; [|eassumption].
  intros [[A lr] g] t Hin Ht. rewrite Forall_forall in F. specialize (F _ Hin). simpl in F.
  rewrite lam_den in Ht. apply cdiv_resp in Ht as (D & _ & ->). apply frac_ge0; auto.
  destruct F. repeat apply Rmult_le_pos; lra.
Qed.

Lemma drude_energy_parts A g l z : (0 < l)%R -> drude_energy c h A g l = Some z ->
  exists e k, wavelength_energy c h l = Some e /\ (0 < e)%R /\ (0 < k)%R /\ z = (A * e ^ 2 * k, A * (g * e) * k)%R.
Proof.
  intros Hl H. unfold drude_energy in H. destruct (conv_pos c h l Hc Hh Hl) as (e & E & P & _).
  rewrite E in H. cbn [obind] in H. rewrite dru_den in H. apply cdiv_resp in H as (D & R1 & I1).
  exists e, (/ (e ^ 2 * e ^ 2 + g * e * (g * e)))%R. split; auto. split; auto. split; [now apply Rinv_0_lt_compat|].
  apply C_ext; simpl; [rewrite R1|rewrite I1]; unfold Rdiv; simpl; ring.
Qed.
Lemma drude_energy_defined A g l : (0 < l)%R -> drude_energy c h A g l <> None.
Proof.
  intros Hl. unfold drude_energy. destruct (conv_pos c h l Hc Hh Hl) as (e & E & P & _). rewrite E.
  cbn [obind]. rewrite dru_den, cdiv_nz; [discriminate|]. apply resp_nz.
  pose proof (pow_lt e 2 P). nra.
Qed.

Lemma drude_resistivity_parts rho tau l z : (0 < l)%R -> (0 < rho)%R -> (0 < tau)%R ->
  drude_resistivity c h eps0 rho tau l = Some z -> (0 < fst z)%R /\ (0 < snd z)%R.
Proof.
  intros Hl Hr Ht H. unfold drude_resistivity in H. destruct (conv_pos c h l Hc Hh Hl) as (e & E & P & _).
  rewrite E in H. cbn [obind] in H. rewrite res_den in H. apply cdiv_resp in H as (D & -> & ->).
  assert (0 < h / 2 / PI)%R by (pose proof PI_RGT_0; repeat apply Rdiv_lt_0_compat; auto; lra).
  assert (0 < eps0 * / 10 ^ 2)%R by (apply Rmult_lt_0_compat; auto; apply Rinv_0_lt_compat; lra).
  generalize dependent (h / 2 / PI)%R. generalize dependent (eps0 * / 10 ^ 2)%R. intros k K1 hb D Hb.
  split; apply frac_gt0; auto; repeat apply Rmult_lt_0_compat; auto; lra.
Qed.

Lemma gaussian_passive rep l z : (0 < l)%R ->
  Forall (fun '(A, E, s) => 0 <= A /\ 0 <= E)%R rep ->
  gaussian c h rep l = Some z -> (0 <= snd z)%R.
Proof.
  intros Hl F H. unfold gaussian in H. destruct (conv_pos c h l Hc Hh Hl) as (e & E & P & _).
  rewrite E in H. cbn [obind] in H. eapply osum_Im_ge0; [|eassumption].
  intros [[A En] s] t Hin Ht. rewrite Forall_forall in F. specialize (F _ Hin). simpl in F. destruct F as [FA FE].
  cbv beta iota in Ht. set (k := (2 * sqrt (ln 2))%R) in *.
  destruct (rdiv (k * (e + En)) s) as [x|] eqn:Ex; [|discriminate]. cbn [obind] in Ht.
  destruct (rdiv (k * (e - En)) s) as [y|] eqn:Ey; [|discriminate]. cbn [obind] in Ht.
  apply rdiv_Some in Ex as [Ns ->]. apply rdiv_Some in Ey as [_ ->]. injection Ht as <-. simpl.
  assert (Q : (exp (- (k * (e + En) / s) ^ 2) <= exp (- (k * (e - En) / s) ^ 2))%R).
  { assert (L : (- (k * (e + En) / s) ^ 2 <= - (k * (e - En) / s) ^ 2)%R).
    { replace ((k * (e + En) / s) ^ 2)%R with ((k / s) ^ 2 * (e + En) ^ 2)%R by (field; auto).
      replace ((k * (e - En) / s) ^ 2)%R with ((k / s) ^ 2 * (e - En) ^ 2)%R by (field; auto).
      pose proof (pow2_ge_0 (k / s)). assert ((e - En) ^ 2 <= (e + En) ^ 2)%R by (simpl; nra). nra. }
    destruct L as [L|L]; [left; now apply exp_increasing|right; now rewrite L]. }
  simpl in Q. nra.
Qed.

Lemma heaviside_ge0 x a : (0 <= a)%R -> (0 <= heaviside x a)%R.
Proof. intros. unfold heaviside. destruct (Rlt_dec x 0), (Rlt_dec 0 x); lra. Qed.
Lemma heaviside_pos x a : (0 < x)%R -> heaviside x a = 1%R.
Proof. intros. unfold heaviside. destruct (Rlt_dec x 0), (Rlt_dec 0 x); lra. Qed.
Lemma heaviside_neg x a : (x < 0)%R -> heaviside x a = 0%R.
Proof. intros. unfold heaviside. destruct (Rlt_dec x 0), (Rlt_dec 0 x); lra. Qed.
Lemma heaviside_0 a : heaviside 0 a = a.
Proof. unfold heaviside. destruct (Rlt_dec 0 0); lra. Qed.

End Passive.

(** ** Complex arctangent and logarithm *)
Lemma Catan_real (x : R) : Catan (RtoC x) = RtoC (atan x).
Proof.
  unfold Catan, Clog.
  assert (M : Cmod (1 - Ci * RtoC x) = Cmod (1 + Ci * RtoC x)).
  { unfold Cmod; simpl. f_equal. ring. }
  assert (A1 : Carg (1 - Ci * RtoC x) = (- atan x)%R).
  { unfold Carg; simpl. destruct (Rlt_dec _ _) as [H|H]; [|exfalso; apply H; lra].
    rewrite <- atan_opp. f_equal. field. }
  assert (A2 : Carg (1 + Ci * RtoC x) = atan x).
  { unfold Carg; simpl. destruct (Rlt_dec _ _) as [H|H]; [|exfalso; apply H; lra].
    f_equal. field. }
  rewrite M, A1, A2. apply C_ext; simpl; field.
Qed.

Lemma Clog_conj (z : C) : (0 < fst z)%R -> Clog (Cconj z) = Cconj (Clog z).
Proof.
  intros H. unfold Clog, Carg, Cmod, Cconj; simpl. destruct (Rlt_dec 0 (fst z)); [|lra].
  apply C_ext; simpl.
  - do 2 f_equal. ring.
  - rewrite <- atan_opp. f_equal. field. lra.
Qed.

Lemma Catan_mirror (w : C) : (0 < fst (1 - Ci * w)%C)%R -> (0 < fst (1 + Ci * w)%C)%R ->
  Catan (- Cconj w) = - Cconj (Catan w).
Proof.
  intros H K. unfold Catan.
  replace (1 - Ci * - Cconj w) with (Cconj (1 - Ci * w)) by (apply C_ext; simpl; ring).
  replace (1 + Ci * - Cconj w) with (Cconj (1 + Ci * w)) by (apply C_ext; simpl; ring).
  rewrite !Clog_conj by auto. apply C_ext; simpl; field.
Qed.

Lemma Clog_unit_Re (z : C) : Cmod z = 1%R -> fst (Clog z) = 0%R.
Proof. intros H. unfold Clog; simpl. now rewrite H, ln_1. Qed.

Lemma Clog_real (x : R) : (0 < x)%R -> Clog (RtoC x) = RtoC (ln x).
Proof.
  intros H. unfold Clog, Carg. rewrite Cmod_R, Rabs_pos_eq by lra. simpl.
  destruct (Rlt_dec 0 x); [|lra]. apply C_ext; simpl; auto.
  unfold Rdiv. rewrite Rmult_0_l. apply atan_0.
Qed.

(** arctan (i y) for y > 1 *)
Lemma Catan_cut (y : R) : (1 < y)%R -> fst (Catan (Ci * RtoC y)) = (PI / 2)%R.
Proof.
  intros H. unfold Catan, Clog.
  replace (1 - Ci * (Ci * RtoC y)) with (RtoC (1 + y)) by (apply C_ext; simpl; ring).
  replace (1 + Ci * (Ci * RtoC y)) with (RtoC (1 - y)) by (apply C_ext; simpl; ring).
  assert (A1 : Carg (RtoC (1 + y)) = 0%R).
  { unfold Carg; simpl. destruct (Rlt_dec 0 (1 + y)); [|lra]. unfold Rdiv. rewrite Rmult_0_l. apply atan_0. }
  assert (A2 : Carg (RtoC (1 - y)) = PI).
  { unfold Carg; simpl. destruct (Rlt_dec 0 (1 - y)); [lra|]. destruct (Rlt_dec (1 - y) 0); [|lra].
    destruct (Rlt_dec 0 0); [lra|]. unfold Rdiv. rewrite Rmult_0_l, atan_0. ring. }
  rewrite A1, A2. simpl. field.
Qed.

Lemma zeta4_eq (E Ei Cc : R) :
  ((E ^ 2 - (Ei ^ 2 - Cc ^ 2 / 2)) ^ 2 + (4 * Ei ^ 2 - Cc ^ 2) * Cc ^ 2 / 4
   = (E ^ 2 - Ei ^ 2) ^ 2 + Cc ^ 2 * E ^ 2)%R.
Proof. field. Qed.

Lemma im0_mult (z w : C) : snd z = 0%R -> snd w = 0%R -> snd (z * w) = 0%R.
Proof. intros H K. simpl. rewrite H, K. ring. Qed.
Lemma im0_plus (z w : C) : snd z = 0%R -> snd w = 0%R -> snd (z + w) = 0%R.
Proof. intros H K. simpl. rewrite H, K. ring. Qed.
Lemma im0_minus (z w : C) : snd z = 0%R -> snd w = 0%R -> snd (z - w) = 0%R.
Proof. intros H K. simpl. rewrite H, K. ring. Qed.
Lemma im0_real (z : C) : snd z = 0%R -> z = RtoC (fst z).
Proof. intros H. apply C_ext; simpl; auto. Qed.
Lemma im0_div (z w : C) : snd z = 0%R -> snd w = 0%R -> snd (z / w) = 0%R.
Proof. intros H K. simpl. rewrite H, K. unfold Rdiv. ring. Qed.

(** Below critical damping the real part is real. *)
Lemma tl_eps1_real E Eg A Ei Cc r : (Cc ^ 2 < 4 * Ei ^ 2)%R -> tl_eps1 E Eg A Ei Cc = Some r -> snd r = 0%R.
Proof.
  intros U H. unfold tl_eps1 in H. cbv zeta in H.
  rewrite Csqrt_pos in H by lra. set (a := sqrt (4 * Ei ^ 2 - Cc ^ 2)) in *.
  assert (Ha : (0 < a)%R) by (apply sqrt_lt_R0; lra).
  assert (Ha2 : (a * a = 4 * Ei ^ 2 - Cc ^ 2)%R) by (apply sqrt_sqrt; lra).
  destruct (Ceq_dec (RtoC a) 0) as [|_]; [discriminate|].
  destruct (rdiv 1 _) as [w|] eqn:Ew; [|discriminate]. cbn [obind] in H.
  destruct (cdiv _ _) as [q1|] eqn:E1; [|discriminate]. cbn [obind] in H.
  destruct (clog q1) as [l1|] eqn:E2; [|discriminate]. cbn [obind] in H.
  destruct (rdiv (Rabs _) _) as [q2|]; [|discriminate]. cbn [obind] in H.
  destruct (rlog q2) as [l2|]; [|discriminate]. cbn [obind] in H.
  destruct (rdiv (Rabs _ * _) _) as [q3|]; [|discriminate]. cbn [obind] in H.
  destruct (rlog q3) as [l3|]; [|discriminate]. cbn [obind] in H.
  injection H as <-.
  assert (L1 : snd l1 = 0%R).
  { unfold clog in E2. destruct (Ceq_dec q1 0); [discriminate|]. injection E2 as <-.
    apply cdiv_Some in E1 as [N ->].
    assert (a * a <= 4 * (Ei * Ei))%R by (rewrite Ha2; simpl; nra).
    assert (P1 : (0 < Ei ^ 2 + Eg ^ 2 + a * Eg)%R).
    { assert (0 <= (Eg + a / 2) * (Eg + a / 2))%R by apply Rle_0_sqr. simpl in *.
      assert (0 < Cc * Cc)%R.
      { apply rdiv_Some in Ew as [Nw _]. destruct (Req_EM_T Cc 0) as [->|NC]; [|exact (Rsqr_pos_lt Cc NC)]. exfalso. apply Nw. ring. }
      nra. }
    assert (P2 : (0 < Ei ^ 2 + Eg ^ 2 - a * Eg)%R).
    { assert (0 <= (Eg - a / 2) * (Eg - a / 2))%R by apply Rle_0_sqr. simpl in *.
      assert (0 < Cc * Cc)%R.
      { apply rdiv_Some in Ew as [Nw _]. destruct (Req_EM_T Cc 0) as [->|NC]; [|exact (Rsqr_pos_lt Cc NC)]. exfalso. apply Nw. ring. }
      nra. }
    replace (_ / _) with (RtoC ((Ei ^ 2 + Eg ^ 2 + a * Eg) / (Ei ^ 2 + Eg ^ 2 - a * Eg))).
    2: { rewrite RtoC_div by lra. now rewrite RtoC_plus, RtoC_minus, RtoC_mult. }
    rewrite Clog_real by (apply Rdiv_lt_0_compat; auto). reflexivity. }
  assert (A1 : forall x : C, snd x = 0%R -> snd (Catan x) = 0%R).
  { intros x Hx. rewrite (im0_real x Hx), Catan_real. reflexivity. }
  repeat first [ exact L1 | reflexivity | apply A1 | simple apply im0_minus | simple apply im0_plus | simple apply im0_div | simple apply im0_mult ].
Qed.

(** Above critical damping an imaginary part is left over. *)
Lemma tl_eps1_over E Eg A Ei Cc r : (4 * Ei ^ 2 < Cc ^ 2)%R -> (0 < Cc)%R -> (0 < Eg)%R ->
  tl_eps1 E Eg A Ei Cc = Some r ->
  snd r = (- (4 * A * Ei * Eg * (E ^ 2 + (Cc ^ 2 / 2 - Ei ^ 2))) /
           ((E ^ 2 - Ei ^ 2) ^ 2 + Cc ^ 2 * E ^ 2) / sqrt (Cc ^ 2 - 4 * Ei ^ 2))%R.
Proof.
  intros U HC HG H. unfold tl_eps1 in H. cbv zeta in H.
  replace (Csqrt (RtoC (4 * Ei ^ 2 - Cc ^ 2))) with (0%R, sqrt (Cc ^ 2 - 4 * Ei ^ 2)) in H.
  2: { rewrite <- Csqrt_neg by lra. do 2 f_equal. ring. }
  set (b := sqrt (Cc ^ 2 - 4 * Ei ^ 2)) in *.
  assert (Hb : (0 < b)%R) by (apply sqrt_lt_R0; lra).
  assert (Hb2 : (b * b = Cc ^ 2 - 4 * Ei ^ 2)%R) by (apply sqrt_sqrt; lra).
  rewrite zeta4_eq in H. set (z4 := ((E ^ 2 - Ei ^ 2) ^ 2 + Cc ^ 2 * E ^ 2)%R) in *.
  destruct (Ceq_dec _ 0) as [|_]; [discriminate|].
  destruct (rdiv 1 _) as [w|] eqn:Ew; [|discriminate]. cbn [obind] in H.
  destruct (cdiv _ _) as [q1|] eqn:E1; [|discriminate]. cbn [obind] in H.
  destruct (clog q1) as [l1|] eqn:E2; [|discriminate]. cbn [obind] in H.
  destruct (rdiv (Rabs _) _) as [q2|]; [|discriminate]. cbn [obind] in H.
  destruct (rlog q2) as [l2|]; [|discriminate]. cbn [obind] in H.
  destruct (rdiv (Rabs _ * _) _) as [q3|]; [|discriminate]. cbn [obind] in H.
  destruct (rlog q3) as [l3|]; [|discriminate]. cbn [obind] in H.
  apply Some_eq in H. subst r.
  apply rdiv_Some in Ew as [Nw _].
  assert (Nz : z4 <> 0%R) by (intros K; apply Nw; rewrite K; ring).
  assert (NE : Ei <> 0%R) by (intros K; apply Nw; rewrite K; ring).
  assert (bC : (b < Cc)%R).
  { apply Rsqr_incrst_0; [|lra|lra]. unfold Rsqr. rewrite Hb2. simpl. pose proof (Rsqr_pos_lt _ NE). unfold Rsqr in *. nra. }
  assert (L1 : fst l1 = 0%R).
  { unfold clog in E2. destruct (Ceq_dec q1 0); [discriminate|]. injection E2 as <-.
    apply Clog_unit_Re. apply cdiv_Some in E1 as [N ->]. rewrite Cmod_div by auto.
    set (u := (RtoC (Ei ^ 2 + Eg ^ 2) - (0%R, b) * RtoC Eg)) in *.
    replace (RtoC (Ei ^ 2 + Eg ^ 2) + (0%R, b) * RtoC Eg) with (Cconj u).
    - replace (Cmod (Cconj u)) with (Cmod u) by (unfold Cmod, Cconj; simpl; f_equal; ring).
      field. apply Cmod_gt_0 in N. lra.
    - unfold u. apply C_ext; simpl; ring. }
  set (w1 := (RtoC (2 * Eg) + (0%R, b)) / RtoC Cc).
  assert (W1 : w1 = (2 * Eg / Cc, b / Cc)%R) by (unfold w1; apply C_ext; simpl; field; lra).
  assert (bCC : (b / Cc < 1)%R) by (apply (Rmult_lt_reg_r Cc); auto; unfold Rdiv; rewrite Rmult_assoc, Rinv_l; lra).
  assert (bC0 : (0 < b / Cc)%R) by (now apply Rdiv_lt_0_compat).
  assert (T2 : Catan (((0%R, b) - RtoC (2 * Eg)) / RtoC Cc) = - Cconj (Catan w1)).
  { rewrite <- Catan_mirror.
    - f_equal. rewrite W1. apply C_ext; simpl; field; lra.
    - rewrite W1. simpl. lra.
    - rewrite W1. simpl. lra. }
  rewrite T2. clear T2.
  set (y := (2 / b / Cc * (Cc ^ 2 / 2 - Ei ^ 2 + Eg ^ 2))%R).
  assert (Hy : (1 < y)%R).
  { apply (Rmult_lt_reg_r (b * Cc)); [nra|]. unfold y.
    replace (2 / b / Cc * (Cc ^ 2 / 2 - Ei ^ 2 + Eg ^ 2) * (b * Cc))%R with (Cc ^ 2 - 2 * Ei ^ 2 + 2 * Eg ^ 2)%R by (field; lra).
    assert (b * Cc <= Cc ^ 2 - 2 * Ei ^ 2)%R.
    { assert (0 <= (Cc - b) * (Cc - b))%R by nra. simpl in *. nra. }
    pose proof (pow_lt Eg 2 HG). lra. }
  replace (RtoC 2 / (0%R, b) / RtoC Cc * RtoC (Ei ^ 2 - Cc ^ 2 / 2 - Eg ^ 2)) with (Ci * RtoC y).
  2: { unfold y. apply C_ext; simpl; field; lra. }
  pose proof (Catan_cut y Hy) as T3. destruct (Catan (Ci * RtoC y)) as [p q]. cbn [fst] in T3. subst p.
  destruct (Catan w1) as [p1 q1']. destruct l1 as [l1a l1b]. simpl in L1. subst l1a.
  assert (Pnz := PI_neq0).
  simpl. field. repeat split; auto; try lra.
Qed.

(** One Tauc-Lorentz term *)
Lemma tl_term A E Cc Eg e t :
  (let? q := rdiv (A * E * Cc * (e - Eg) ^ 2) ((e ^ 2 - E ^ 2) ^ 2 + Cc ^ 2 * e ^ 2) in
   let? q := rdiv q e in
   let? r := tl_eps1 e Eg A E Cc in
   Some (Ci * RtoC q * RtoC (heaviside (e - Eg) 0) + r)) = Some t ->
  exists r : C, tl_eps1 e Eg A E Cc = Some r /\
  (0 < (e ^ 2 - E ^ 2) ^ 2 + Cc ^ 2 * e ^ 2)%R /\ e <> 0%R /\
  snd t = (A * E * Cc * (e - Eg) ^ 2 / ((e ^ 2 - E ^ 2) ^ 2 + Cc ^ 2 * e ^ 2) / e * heaviside (e - Eg) 0 + snd r)%R.
Proof.
  intros H. destruct (rdiv (_ * _ * _ * _) _) as [q0|] eqn:E0; [|discriminate]. cbn [obind] in *.
  apply rdiv_Some in E0 as [N ->].
  destruct (rdiv _ e) as [q|] eqn:Eq; [|discriminate]. cbn [obind] in *.
  destruct (tl_eps1 e Eg A E Cc) as [r|] eqn:Er; [|discriminate]. cbn [obind] in *.
  apply rdiv_Some in Eq as [Ne ->]. injection H as <-. exists r. split; auto. split; [|split; auto].
  - pose proof (pow2_ge_0 (e ^ 2 - E ^ 2)). pose proof (pow2_ge_0 (Cc * e)).
    replace ((Cc * e) ^ 2)%R with (Cc ^ 2 * e ^ 2)%R in * by (simpl; ring). lra.
  - unfold RtoC, Ci. simpl. ring.
Qed.

Lemma tl_eps1_gap Eg A Ei Cc : tl_eps1 Eg Eg A Ei Cc = None.
Proof.
  destruct (tl_eps1 Eg Eg A Ei Cc) as [r|] eqn:Er; auto. exfalso. unfold tl_eps1 in Er. cbv zeta in Er.
  destruct (Ceq_dec _ _); [discriminate|].
  replace (Eg - Eg)%R with 0%R in Er by ring. rewrite Rabs_R0 in Er.
  destruct (rdiv 1 _) as [?|]; [|discriminate]. cbn [obind] in Er.
  destruct (cdiv _ _) as [qq|]; [|discriminate]. cbn [obind] in Er.
  destruct (clog qq) as [ll|]; [|discriminate]. cbn [obind] in Er.
  destruct (rdiv 0 _) as [q|] eqn:Q; [|discriminate]. cbn [obind] in Er.
  apply rdiv_Some in Q as [_ ->]. unfold Rdiv in Er. rewrite Rmult_0_l in Er.
  unfold rlog in Er at 1. destruct (Rlt_dec 0 0); [lra|]. discriminate.
Qed.

Section Tauc.
Variables c h : R.
Hypotheses (Hc : (0 < c)%R) (Hh : (0 < h)%R).

Definition underdamped (rep : list (R * R * R)) : Prop := Forall (fun '(A, E, Cc) => Cc ^ 2 < 4 * E ^ 2)%R rep.

Lemma tauc_lorentz_passive Eg rep l z : (0 < l)%R -> underdamped rep ->
  Forall (fun '(A, E, Cc) => 0 <= A /\ 0 <= E /\ 0 <= Cc)%R rep ->
  tauc_lorentz c h Eg rep l = Some z -> (0 <= snd z)%R.
Proof.
  intros Hl U F H. unfold tauc_lorentz in H. destruct (conv_pos c h l Hc Hh Hl) as (e & E & P & _).
  rewrite E in H. cbn [obind] in H. eapply osum_Im_ge0; [|eassumption].
  intros [[A En] Cc] t Hin Ht. unfold underdamped in U. rewrite Forall_forall in F, U.
  specialize (F _ Hin). specialize (U _ Hin). simpl in F. destruct F as (FA & FE & FC).
  apply tl_term in Ht as (r & Hr & D & _ & ->). rewrite (tl_eps1_real _ _ _ _ _ _ U Hr), Rplus_0_r.
  apply Rmult_le_pos; [|apply heaviside_ge0; lra].
  apply frac_ge0; auto. apply frac_ge0; auto. apply Rmult_le_pos; [|apply pow2_ge_0].
  apply Rmult_le_pos; [apply Rmult_le_pos|]; auto.
Qed.

Lemma tauc_lorentz_gap Eg rep l z e : wavelength_energy c h l = Some e -> (e <= Eg)%R -> underdamped rep ->
  tauc_lorentz c h Eg rep l = Some z -> snd z = 0%R.
Proof.
  intros E L U H. unfold tauc_lorentz in H.
  rewrite E in H. cbn [obind] in H. eapply osum_Im_0; [|eassumption].
  intros [[A En] Cc] t Hin Ht. unfold underdamped in U. rewrite Forall_forall in U. specialize (U _ Hin).
  apply tl_term in Ht as (r & Hr & D & _ & ->). rewrite (tl_eps1_real _ _ _ _ _ _ U Hr), Rplus_0_r.
  unfold heaviside. destruct (Rlt_dec (e - Eg) 0), (Rlt_dec 0 (e - Eg)); try lra.
Qed.
Lemma tauc_lorentz_above Eg rep l z e : wavelength_energy c h l = Some e -> (Eg < e)%R -> (0 < e)%R -> rep <> [] ->
  underdamped rep -> Forall (fun '(A, E, Cc) => 0 < A /\ 0 < E /\ 0 < Cc)%R rep ->
  tauc_lorentz c h Eg rep l = Some z -> (0 < snd z)%R.
Proof.
  intros E L P N U F H. unfold tauc_lorentz in H.
  rewrite E in H. cbn [obind] in H. eapply osum_Im_gt0; [exact N| |eassumption].
  intros [[A En] Cc] t Hin Ht. unfold underdamped in U. rewrite Forall_forall in F, U.
  specialize (F _ Hin). specialize (U _ Hin). simpl in F. destruct F as (FA & FE & FC).
  apply tl_term in Ht as (r & Hr & D & _ & ->). rewrite (tl_eps1_real _ _ _ _ _ _ U Hr), Rplus_0_r.
  rewrite heaviside_pos, Rmult_1_r by lra.
  apply frac_gt0; auto. apply frac_gt0; auto. apply Rmult_lt_0_compat; [|apply pow_lt; lra].
  apply Rmult_lt_0_compat; [apply Rmult_lt_0_compat|]; auto.
Qed.
End Tauc.
