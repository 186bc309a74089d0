From Coq Require Import Reals ZArith Psatz Lra Lia List Permutation.
From Coquelicot Require Import Complex Derive AutoDerive.
From Verif.Base Require Import Py Cx.
From Verif.Model Require Import Units Dispersions.
From Verif.Proof Require Import UnitsP DispersionsP.
Import ListNotations.
Open Scope R_scope.
Open Scope py_scope.

Lemma pow2_gt_0 x : x <> 0 -> 0 < x ^ 2.
Proof. intros H. pose proof (pow_nonzero x 2 H). pose proof (pow2_ge_0 x). lra. Qed.

(** ** Cody-Lorentz *)
Lemma cl_G_val Eg Ep E : Ep <> 0 -> cl_G Eg Ep E = Some ((E - Eg) ^ 2 / ((E - Eg) ^ 2 + Ep ^ 2)).
Proof. intros H. apply rdiv_nz. pose proof (pow2_ge_0 (E - Eg)). pose proof (pow2_gt_0 Ep H). lra. Qed.
Lemma cl_den E E0 g : g <> 0 -> E <> 0 -> 0 < (E ^ 2 - E0 ^ 2) ^ 2 + g ^ 2 * E ^ 2.
Proof.
  intros H K. pose proof (pow2_ge_0 (E ^ 2 - E0 ^ 2)). pose proof (pow2_gt_0 g H). pose proof (pow2_gt_0 E K). nra.
Qed.
Lemma cl_L_val A g E0 E : g <> 0 -> E <> 0 ->
  cl_L A g E0 E = Some (A * E0 * g * E / ((E ^ 2 - E0 ^ 2) ^ 2 + g ^ 2 * E ^ 2)).
Proof. intros H K. apply rdiv_nz. pose proof (cl_den E E0 g H K). lra. Qed.

Definition clG Eg Ep E := (E - Eg) ^ 2 / ((E - Eg) ^ 2 + Ep ^ 2).
Definition clL A g E0 E := A * E0 * g * E / ((E ^ 2 - E0 ^ 2) ^ 2 + g ^ 2 * E ^ 2).
Definition cl_tail Eg A Et g Ep E0 Eu E := Et * clG Eg Ep Et * clL A g E0 Et / E * exp ((E - Et) / Eu).
Definition cl_lor Eg A g Ep E0 E := clG Eg Ep E * clL A g E0 E.
Definition cl_fun Eg A Et g Ep E0 Eu E :=
  if Rle_dec E Et then cl_tail Eg A Et g Ep E0 Eu E else cl_lor Eg A g Ep E0 E.

Lemma cl_eps2_val Eg A Et g Ep E0 Eu E : g <> 0 -> Ep <> 0 -> Eu <> 0 -> Et <> 0 -> E <> 0 ->
  cl_eps2 Eg A Et g Ep E0 Eu E = Some (cl_fun Eg A Et g Ep E0 Eu E).
Proof.
  intros Hg Hp Hu Ht He. unfold cl_eps2.
  rewrite !cl_G_val, !cl_L_val by auto. cbn [obind]. rewrite !rdiv_nz by auto. cbn [obind].
  f_equal. unfold cl_fun, cl_tail, cl_lor, clG, clL, heaviside.
  destruct (Rle_dec E Et); destruct (Rlt_dec (Et - E) 0), (Rlt_dec 0 (Et - E)), (Rlt_dec (E - Et) 0), (Rlt_dec 0 (E - Et)); try lra.
Qed.

Lemma clG_ge0 Eg Ep E : Ep <> 0 -> 0 <= clG Eg Ep E.
Proof.
  intros H. unfold clG. pose proof (pow2_ge_0 (E - Eg)). pose proof (pow2_gt_0 Ep H). apply frac_ge0; lra.
Qed.
Lemma clG_gt0 Eg Ep E : Ep <> 0 -> E <> Eg -> 0 < clG Eg Ep E.
Proof.
  intros H K. unfold clG. assert (E - Eg <> 0) as K' by lra. pose proof (pow2_gt_0 _ K'). pose proof (pow2_gt_0 Ep H). apply frac_gt0; lra.
Qed.
Lemma clL_ge0 A g E0 E : 0 <= A -> 0 <= E0 -> 0 < g -> 0 < E -> 0 <= clL A g E0 E.
Proof.
  intros. unfold clL. apply frac_ge0.
  - apply Rmult_le_pos; [|lra]. apply Rmult_le_pos; [|lra]. now apply Rmult_le_pos.
  - apply cl_den; lra.
Qed.
Lemma clL_gt0 A g E0 E : 0 < A -> 0 < E0 -> 0 < g -> 0 < E -> 0 < clL A g E0 E.
Proof.
  intros. unfold clL. apply frac_gt0.
  - repeat apply Rmult_lt_0_compat; auto.
  - apply cl_den; lra.
Qed.

Lemma cl_fun_ge0 Eg A Et g Ep E0 Eu E : 0 <= A -> 0 <= E0 -> 0 < g -> Ep <> 0 -> 0 < Et -> 0 < E ->
  0 <= cl_fun Eg A Et g Ep E0 Eu E.
Proof.
  intros HA H0 Hg Hp Ht HE. unfold cl_fun. destruct (Rle_dec E Et).
  - unfold cl_tail. apply Rmult_le_pos; [|left; apply exp_pos]. apply frac_ge0; auto.
    apply Rmult_le_pos; [apply Rmult_le_pos; [lra|now apply clG_ge0]|now apply clL_ge0].
  - unfold cl_lor. apply Rmult_le_pos; [now apply clG_ge0|now apply clL_ge0].
Qed.
(** Strictly positive everywhere on the tail, above the gap on the other branch. *)
Lemma cl_fun_gt0 Eg A Et g Ep E0 Eu E : 0 < A -> 0 < E0 -> 0 < g -> Ep <> 0 -> 0 < Et -> 0 < E -> Eg < Et ->
  0 < cl_fun Eg A Et g Ep E0 Eu E.
Proof.
  intros HA H0 Hg Hp Ht HE Hgt. unfold cl_fun. destruct (Rle_dec E Et).
  - unfold cl_tail. apply Rmult_lt_0_compat; [|apply exp_pos]. apply frac_gt0; auto.
    apply Rmult_lt_0_compat; [apply Rmult_lt_0_compat; [lra|apply clG_gt0; auto; lra]|now apply clL_gt0].
  - unfold cl_lor. apply Rmult_lt_0_compat; [apply clG_gt0; auto; lra|now apply clL_gt0].
Qed.

Lemma cl_join Eg A Et g Ep E0 Eu : Et <> 0 ->
  cl_tail Eg A Et g Ep E0 Eu Et = cl_lor Eg A g Ep E0 Et.
Proof.
  intros H. unfold cl_tail, cl_lor. replace ((Et - Et) / Eu) with 0 by (unfold Rdiv; ring). rewrite exp_0. field. auto.
Qed.

Lemma glue (u w : R -> R) a : continuity_pt u a -> continuity_pt w a -> u a = w a ->
  continuity_pt (fun x => if Rle_dec x a then u x else w x) a.
Proof.
  intros Hu Hw E eps He.
  destruct (Hu eps He) as (d1 & P1 & Q1). destruct (Hw eps He) as (d2 & P2 & Q2).
  exists (Rmin d1 d2). split; [now apply Rmin_glb_lt|]. intros x [D Hx].
  destruct (Rle_dec a a); [|lra]. destruct (Rle_dec x a).
  - apply Q1. split; auto. eapply Rlt_le_trans; [exact Hx|apply Rmin_l].
  - rewrite E. apply Q2. split; auto. eapply Rlt_le_trans; [exact Hx|apply Rmin_r].
Qed.

Lemma ex_derive_cont (f : R -> R) (x : R) : @ex_derive Hierarchy.R_AbsRing Hierarchy.R_NormedModule f x -> continuity_pt f x.
Proof. intros H. apply derivable_continuous_pt. now apply ex_derive_Reals_0. Qed.

Lemma cl_tail_cont Eg A Et g Ep E0 Eu x : x <> 0 -> continuity_pt (cl_tail Eg A Et g Ep E0 Eu) x.
Proof. intros Hx. apply ex_derive_cont. unfold cl_tail. auto_derive. auto. Qed.
Lemma cl_lor_cont Eg A g Ep E0 x : x <> 0 -> g <> 0 -> Ep <> 0 -> continuity_pt (cl_lor Eg A g Ep E0) x.
Proof.
  intros Hx Hg Hp. apply ex_derive_cont. unfold cl_lor, clG, clL. auto_derive.
  pose proof (cl_den x E0 g Hg Hx). pose proof (pow2_ge_0 (x - Eg)). pose proof (pow2_gt_0 Ep Hp).
  simpl in *. split; [lra|]. split; [|auto]. lra.
Qed.

Lemma glue_away (u w : R -> R) a x : continuity_pt u x -> continuity_pt w x -> x <> a ->
  continuity_pt (fun x => if Rle_dec x a then u x else w x) x.
Proof.
  intros Hu Hw N.
  assert (L : 0 < Rabs (x - a)) by (apply Rabs_pos_lt; lra).
  destruct (Rle_dec x a) as [Hl|Hl]; intros eps He.
  - destruct (Hu eps He) as (d & P & Q). exists (Rmin d (Rabs (x - a))). split; [now apply Rmin_glb_lt|].
    intros y [D Hy]. destruct (Rle_dec x a); [|lra].
    assert (Rabs (y - x) < Rabs (x - a)) by (eapply Rlt_le_trans; [exact Hy|apply Rmin_r]).
    destruct (Rle_dec y a).
    + apply Q. split; auto. eapply Rlt_le_trans; [exact Hy|apply Rmin_l].
    + exfalso. unfold Rabs in *. destruct (Rcase_abs (y - x)), (Rcase_abs (x - a)); lra.
  - destruct (Hw eps He) as (d & P & Q). exists (Rmin d (Rabs (x - a))). split; [now apply Rmin_glb_lt|].
    intros y [D Hy]. destruct (Rle_dec x a); [lra|].
    assert (Rabs (y - x) < Rabs (x - a)) by (eapply Rlt_le_trans; [exact Hy|apply Rmin_r]).
    destruct (Rle_dec y a).
    + exfalso. unfold Rabs in *. destruct (Rcase_abs (y - x)), (Rcase_abs (x - a)); lra.
    + apply Q. split; auto. eapply Rlt_le_trans; [exact Hy|apply Rmin_l].
Qed.

Lemma cl_fun_cont Eg A Et g Ep E0 Eu x : x <> 0 -> Et <> 0 -> g <> 0 -> Ep <> 0 ->
  continuity_pt (cl_fun Eg A Et g Ep E0 Eu) x.
Proof.
  intros Hx Ht Hg Hp. unfold cl_fun. destruct (Req_EM_T x Et) as [->|N].
  - apply glue; auto using cl_tail_cont, cl_lor_cont, cl_join.
  - apply glue_away; auto using cl_tail_cont, cl_lor_cont.
Qed.

(** ** Powers *)
Lemma rpow_pos x y : 0 < x -> rpow x y = Some (Rpower x y).
Proof. intros H. unfold rpow. now destruct (Rlt_dec 0 x). Qed.
Lemma Int_part_IZR z : Int_part (IZR z) = z.
Proof.
  unfold Int_part. rewrite <- (tech_up (IZR z) (z + 1)); [lia|..]; rewrite plus_IZR; lra.
Qed.
Lemma rpow_1 x : rpow x 1 = Some x.
Proof.
  unfold rpow. destruct (Rlt_dec 0 x) as [H|H].
  - now rewrite Rpower_1.
  - rewrite (Int_part_IZR 1). destruct (Req_EM_T 1 1); [|lra].
    destruct (Req_EM_T x 0) as [->|N].
    + destruct (Rlt_dec 1 0); [lra|]. destruct (Req_EM_T 1 0); [lra|reflexivity].
    + f_equal. simpl. ring.
Qed.
Lemma Rpower_nat x (n : nat) : 0 < x -> Rpower x (INR n) = x ^ n.
Proof. intros. now apply Rpower_pow. Qed.
Lemma Rpower_m2 x : 0 < x -> Rpower x (-2) = / x ^ 2.
Proof.
  intros H. replace (-2)%R with (- INR 2)%R by (simpl; ring). now rewrite Rpower_Ropp, Rpower_pow.
Qed.
Lemma Rpower_m4 x : 0 < x -> Rpower x (-4) = / x ^ 4.
Proof.
  intros H. replace (-4)%R with (- INR 4)%R by (simpl; ring). now rewrite Rpower_Ropp, Rpower_pow.
Qed.
Lemma Rpower_2' x : 0 < x -> Rpower x 2 = x ^ 2.
Proof. intros H. replace 2%R with (INR 2) by (simpl; ring). now rewrite Rpower_pow. Qed.

(** ** Where Tauc-Lorentz is finite *)
Local Open Scope C_scope.
Lemma tl_eps1_defined E Eg A Ei Cc : (0 < E)%R -> (0 < Eg)%R -> E <> Eg -> (0 < Ei)%R -> (0 < Cc)%R ->
  (Cc ^ 2 <> 4 * Ei ^ 2)%R -> exists r, tl_eps1 E Eg A Ei Cc = Some r.
Proof.
  intros HE HG N HI HC HD. unfold tl_eps1. cbv zeta.
  set (al := Csqrt (RtoC (4 * Ei ^ 2 - Cc ^ 2))).
  assert (Sq : al * al = RtoC (4 * Ei ^ 2 - Cc ^ 2)) by apply Csqrt_sqr.
  destruct (Ceq_dec al 0) as [K|K].
  { exfalso. rewrite K in Sq. apply (f_equal fst) in Sq. simpl in Sq. apply HD. simpl. lra. }
  rewrite zeta4_eq. pose proof (cl_den E Ei Cc ltac:(lra) ltac:(lra)) as Z.
  rewrite rdiv_nz; cbn [obind].
  2: { apply Rmult_integral_contrapositive_currified; [|lra]. apply Rmult_integral_contrapositive_currified; [|lra].
       apply Rmult_integral_contrapositive_currified; lra. }
  assert (P : (RtoC (Ei ^ 2 + Eg ^ 2) + al * RtoC Eg) * (RtoC (Ei ^ 2 + Eg ^ 2) - al * RtoC Eg) <> 0).
  { replace (_ * _) with (RtoC (Ei ^ 2 + Eg ^ 2) * RtoC (Ei ^ 2 + Eg ^ 2) - al * al * RtoC Eg * RtoC Eg) by ring.
    rewrite Sq. intros F. apply (f_equal fst) in F. simpl in F.
    assert (0 < Cc * Eg)%R by nra. assert (0 < (Cc * Eg) * (Cc * Eg))%R by nra.
    assert (0 <= (Ei * Ei - Eg * Eg) * (Ei * Ei - Eg * Eg))%R by apply Rle_0_sqr. nra. }
  assert (P1 : RtoC (Ei ^ 2 + Eg ^ 2) + al * RtoC Eg <> 0) by (intros F; apply P; rewrite F; ring).
  assert (P2 : RtoC (Ei ^ 2 + Eg ^ 2) - al * RtoC Eg <> 0) by (intros F; apply P; rewrite F; ring).
  rewrite cdiv_nz by auto. cbn [obind]. unfold clog at 1.
  destruct (Ceq_dec _ 0) as [F|_].
  { exfalso. revert F. now apply Cdiv_neq0. }
  cbn [obind]. rewrite rdiv_nz by lra. cbn [obind].
  assert (D : (0 < Rabs (E - Eg))%R) by (apply Rabs_pos_lt; lra).
  unfold rlog at 1. destruct (Rlt_dec _ _) as [_|F]; [|exfalso; apply F; apply Rdiv_lt_0_compat; lra].
  cbn [obind].
  assert (S : (0 < sqrt ((Ei ^ 2 - Eg ^ 2) ^ 2 + Eg ^ 2 * Cc ^ 2))%R).
  { apply sqrt_lt_R0. pose proof (pow2_ge_0 (Ei ^ 2 - Eg ^ 2)).
    assert (0 < Eg ^ 2 * Cc ^ 2)%R by (apply Rmult_lt_0_compat; apply pow_lt; auto). lra. }
  rewrite rdiv_nz by lra. cbn [obind].
  unfold rlog at 1. destruct (Rlt_dec _ _) as [_|F].
  2: { exfalso; apply F; apply Rdiv_lt_0_compat; auto. apply Rmult_lt_0_compat; lra. }
  cbn [obind]. eexists. reflexivity.
Qed.

Lemma tauc_single c h Eg A E0 Cc l e r : wavelength_energy c h l = Some e -> (0 < e)%R -> (0 < Cc)%R ->
  tl_eps1 e Eg A E0 Cc = Some r ->
  exists z, tauc_lorentz c h Eg [(A, E0, Cc)] l = Some z /\
   snd z = (A * E0 * Cc * (e - Eg) ^ 2 / ((e ^ 2 - E0 ^ 2) ^ 2 + Cc ^ 2 * e ^ 2) / e * heaviside (e - Eg) 0 + snd r)%R.
Proof.
  intros E P HC Hr. unfold tauc_lorentz. rewrite E. cbn [obind]. rewrite osum_cons, osum_nil.
  pose proof (cl_den e E0 Cc ltac:(lra) ltac:(lra)) as Z.
  rewrite rdiv_nz by lra. cbn [obind]. rewrite rdiv_nz by lra. cbn [obind]. rewrite Hr. cbn [obind].
  eexists. split; [reflexivity|]. simpl. ring.
Qed.

(** ** Equal models (C19) *)
Lemma sellmeier_as_custom rep l : (0 < l)%R ->
  sellmeier rep l =
  obind (sellmeier_custom (map (fun '(A, B) => (A, 2, B, 1)%R) rep) l) (fun s => Some (1 + s)).
Proof.
  intros Hl. unfold sellmeier, sellmeier_custom. cbv zeta. set (m := (l / 10 ^ 3)%R).
  assert (Hm : (0 < m)%R) by (apply Rdiv_lt_0_compat; lra).
  erewrite osum_ext; [reflexivity|]. intros [A B] _. rewrite rpow_1, (rpow_pos m) by auto.
  cbn [obind]. rewrite Rpower_2' by auto. reflexivity.
Qed.

Lemma lambda_as_sellmeier rep l : (0 < l)%R ->
  lorentz_lambda (map (fun '(A, lr) => (A, lr, 0)%R) rep) l =
  sellmeier (map (fun '(A, lr) => (A, (lr / 10 ^ 3) ^ 2)%R) rep) l.
Proof.
  intros Hl. unfold lorentz_lambda, sellmeier. cbv zeta.
  assert (E : forall f g, (forall x : R * R, f ((fun '(A, lr) => (A, lr, 0)%R) x) = g ((fun '(A, lr) => (A, (lr / 10 ^ 3) ^ 2)%R) x)) ->
     osum f (map (fun '(A, lr) => (A, lr, 0)%R) rep) = osum g (map (fun '(A, lr) => (A, (lr / 10 ^ 3) ^ 2)%R) rep)).
  { intros f g H. rewrite <- (osum_ext (fun x => f ((fun '(A, lr) => (A, lr, 0)%R) x)) f _ rep) by auto.
    rewrite <- (osum_ext (fun x => g ((fun '(A, lr) => (A, (lr / 10 ^ 3) ^ 2)%R) x)) g _ rep) by auto.
    rewrite (osum_ext _ (fun x => g ((fun '(A, lr) => (A, (lr / 10 ^ 3) ^ 2)%R) x)) (fun x => x) rep) by (intros; apply H).
    now rewrite map_id. }
  match goal with |- obind (osum ?f _) _ = obind (osum ?g _) _ => rewrite (E f g); [reflexivity|] end.
  intros [A lr]. rewrite lam_den.
  destruct (Req_EM_T (l ^ 2 - lr ^ 2) 0) as [Z|Z].
  - rewrite (proj2 (rdiv_None _ _)).
    + unfold cdiv. destruct (Ceq_dec _ _) as [|N]; [reflexivity|]. exfalso. apply N. rewrite Z. apply C_ext; simpl; ring.
    + replace ((l / 10 ^ 3) ^ 2 - (lr / 10 ^ 3) ^ 2)%R with ((l ^ 2 - lr ^ 2) / 10 ^ 6)%R by field. rewrite Z. unfold Rdiv. ring.
  - rewrite cdiv_nz, rdiv_nz.
    + cbn [obind]. f_equal.
      replace (RtoC (l ^ 2 - lr ^ 2) - Ci * RtoC (0 * l)) with (RtoC (l ^ 2 - lr ^ 2)) by (apply C_ext; simpl; ring).
      rewrite <- RtoC_div by auto. f_equal. field. intros K. apply Z. simpl in *. lra.
    + replace ((l / 10 ^ 3) ^ 2 - (lr / 10 ^ 3) ^ 2)%R with ((l ^ 2 - lr ^ 2) / 10 ^ 6)%R by field.
      unfold Rdiv. apply Rmult_integral_contrapositive_currified; auto. apply Rinv_neq_0_compat, pow_nonzero. lra.
    + apply resp_nz. nra.
Qed.

Lemma cauchy_as_custom n0 n1 n2 l : (0 < l)%R ->
  cauchy n0 n1 n2 0 0 0 l = cauchy_custom n0 [(10 ^ 2 * n1, -2); (10 ^ 7 * n2, -4)]%R l.
Proof.
  intros Hl. unfold cauchy, cauchy_custom.
  assert (H2 : (l ^ 2 <> 0)%R) by (apply pow_nonzero; lra). assert (H4 : (l ^ 4 <> 0)%R) by (apply pow_nonzero; lra).
  rewrite !rdiv_nz by auto. cbn [obind]. rewrite !osum_cons, osum_nil, !rpow_pos by auto. cbn [obind].
  rewrite Rpower_m2, Rpower_m4 by auto. f_equal. apply C_ext; simpl; field; lra.
Qed.

Lemma lorentz_as_drude c h A g l : (0 < c)%R -> (0 < h)%R -> (0 < l)%R ->
  lorentz_energy c h [(A, 0, g)%R] l = obind (drude_energy c h (- A) (- g) l) (fun z => Some (1 + z)).
Proof.
  intros Hc Hh Hl. unfold lorentz_energy, drude_energy. destruct (conv_pos c h l Hc Hh Hl) as (e & -> & P & _).
  cbn [obind]. rewrite osum_cons, osum_nil, lor_den, dru_den. pose proof (pow_lt e 2 P).
  rewrite !cdiv_nz by (apply resp_nz; nra). cbn [obind]. rewrite !resp by nra. f_equal.
  apply C_ext; simpl; field; nra.
Qed.

Lemma resistivity_as_drude c h eps0 rho tau l : (0 < c)%R -> (0 < h)%R -> (0 < l)%R -> (0 < eps0)%R ->
  (0 < rho)%R -> (0 < tau)%R ->
  let hbar := (h / (2 * PI))%R in
  drude_resistivity c h eps0 rho tau l =
  drude_energy c h (hbar ^ 2 / (eps0 / 10 ^ 2 * rho * tau)) (hbar / tau) l.
Proof.
  intros Hc Hh Hl He Hr Ht hbar. unfold drude_resistivity, drude_energy.
  destruct (conv_pos c h l Hc Hh Hl) as (e & -> & P & _). cbn [obind]. rewrite res_den, dru_den.
  pose proof PI_RGT_0 as HP.
  replace (h / 2 / PI)%R with hbar by (unfold hbar; field; lra).
  assert (0 < hbar)%R by (apply Rdiv_lt_0_compat; lra). clearbody hbar.
  assert (K : (0 < eps0 * / 10 ^ 2 * rho)%R) by (repeat apply Rmult_lt_0_compat; auto; lra).
  unfold Rdiv at 2. remember (eps0 * / 10 ^ 2 * rho)%R as k eqn:Hk. clear Hk.
  pose proof (pow_lt e 2 P) as Pe.
  assert (0 < k * (tau * e ^ 2))%R by (repeat apply Rmult_lt_0_compat; auto; lra).
  rewrite !cdiv_nz by (apply resp_nz; nra).
  f_equal. rewrite !resp by nra. apply C_ext; simpl; field; repeat split; nra.
Qed.

Lemma poles_as_sum c h A_ir A_uv E_uv l : (0 < c)%R -> (0 < h)%R -> (0 < l)%R ->
  obind (poles c h A_ir A_uv E_uv l) (fun z => Some (1 + z)) =
  obind (drude_energy c h A_ir 0 l) (fun a => obind (lorentz_energy c h [(A_uv, E_uv, 0)%R] l) (fun b => Some (a + b))).
Proof.
  intros Hc Hh Hl. unfold poles, lorentz_energy, drude_energy. destruct (conv_pos c h l Hc Hh Hl) as (e & -> & P & _).
  cbn [obind]. rewrite osum_cons, osum_nil, lor_den, dru_den. pose proof (pow_lt e 2 P).
  rewrite (cdiv_nz _ (RtoC (e ^ 2) - Ci * RtoC (0 * e))) by (apply resp_nz; nra). rewrite rdiv_nz by lra. cbn [obind].
  destruct (Req_EM_T (E_uv ^ 2 - e ^ 2) 0) as [Z|Z].
  - rewrite (proj2 (rdiv_None _ _) Z). cbn [obind]. unfold cdiv.
    destruct (Ceq_dec _ _) as [|N]; [reflexivity|]. exfalso. apply N. rewrite Z. apply C_ext; simpl; ring.
  - rewrite rdiv_nz by auto. assert (0 < (E_uv ^ 2 - e ^ 2) * (E_uv ^ 2 - e ^ 2))%R by (exact (Rsqr_pos_lt _ Z)).
    rewrite cdiv_nz by (apply resp_nz; nra). cbn [obind].
    f_equal. rewrite !resp by nra. apply C_ext; simpl; field; split; nra.
Qed.
