(** Lemmas for C103 and C104. *)
From Coq Require Import Reals Lra Psatz Lia ZArith.
From Coquelicot Require Import Complex.
From Coq Require Import String List Sorted Permutation.
From Verif.Base Require Import Py Cx Mat.
From Verif.Model Require Import Units DeltaRange Ellips Solver2 Tables TableKinds PseudoFunc.
From Verif.Spec Require Import Angle Light Table SplineDoc TableKind PseudoDoc.
From Verif.Proof Require Import UnitsP DispersionsP EllipsP Solver2P Solver2P2 Solver2P3 Solver2P4 TablesP TableKindsP SplineP.
From Verif.Props Require Import EllipsT Solver2T PseudoT TableKindsT.
Import ListNotations.
Open Scope R_scope.
Open Scope C_scope.
Open Scope py_scope.

Lemma rad_pos x : (0 < x < 180)%R -> (0 < deg2rad x < PI)%R.
Proof. intros H. assert (P := PI_RGT_0). unfold deg2rad. split; [apply Rdiv_lt_0_compat; nra|]. apply Rmult_lt_reg_r with 180%R; [lra|]. replace (x * PI / 180 * 180)%R with (x * PI)%R by field. nra. Qed.
Lemma rad_lt x y : (x < y)%R -> (deg2rad x < deg2rad y)%R.
Proof. intros H. assert (P := PI_RGT_0). unfold deg2rad. apply Rmult_lt_compat_r; [lra|]. now apply Rmult_lt_compat_r. Qed.
Lemma deg_90 : deg2rad 90 = (PI / 2)%R. Proof. unfold deg2rad. field. Qed.
Lemma deg_180 : deg2rad 180 = PI. Proof. unfold deg2rad. field. Qed.
Lemma deg_0 : deg2rad 0 = 0%R. Proof. unfold deg2rad. field. Qed.
Lemma cos_deg x : (-90 < x < 90)%R -> (0 < cos (deg2rad x))%R.
Proof.
  intros H. apply cos_gt_0.
  - replace (- (PI / 2))%R with (deg2rad (-90)) by (unfold deg2rad; field). apply rad_lt. lra.
  - rewrite <- deg_90. apply rad_lt. lra.
Qed.
Lemma sin_deg x : (0 < x < 180)%R -> (0 < sin (deg2rad x))%R.
Proof. intros H. apply rad_pos in H. apply sin_gt_0; lra. Qed.
Lemma tan_deg x : (0 < x < 90)%R -> (0 < tan (deg2rad x))%R.
Proof. intros H. unfold tan. apply Rdiv_lt_0_compat; [apply sin_deg; lra|apply cos_deg; lra]. Qed.
Lemma tan_deg_lt x y : (-90 < x)%R -> (x < y)%R -> (y < 90)%R -> (tan (deg2rad x) < tan (deg2rad y))%R.
Proof.
  intros H1 H2 H3. apply tan_increasing; [|now apply rad_lt|].
  - replace (- PI / 2)%R with (deg2rad (-90)) by (unfold deg2rad; field). apply rad_lt. lra.
  - rewrite <- deg_90. apply rad_lt. lra.
Qed.
Lemma tan_deg_inj x y : (-90 < x < 90)%R -> (-90 < y < 90)%R -> tan (deg2rad x) = tan (deg2rad y) -> x = y.
Proof.
  intros X Y E. destruct (Rtotal_order x y) as [L|[L|L]]; [|exact L|]; apply tan_deg_lt in L; lra.
Qed.

(** psi and delta follow from rho *)
Lemma turn_unique x : (-360 < x < 360)%R -> cos (deg2rad x) = 1%R -> x = 0%R.
Proof.
  intros H E. replace (deg2rad x) with (2 * deg2rad (x / 2))%R in E by (unfold deg2rad; field). rewrite cos_2a_sin in E.
  assert (S : sin (deg2rad (x / 2)) = 0%R) by nra. destruct (Rtotal_order x 0) as [L|[L|L]]; [|exact L|].
  - assert (K := sin_deg (- x / 2) ltac:(lra)). replace (deg2rad (- x / 2)) with (- deg2rad (x / 2))%R in K by (unfold deg2rad; field). rewrite sin_neg in K. lra.
  - assert (K := sin_deg (x / 2) ltac:(lra)). lra.
Qed.
Lemma rho_unique p d p' d' z : (0 < p < 90)%R -> (0 <= p' < 90)%R -> is_rho p d z -> is_rho p' d' z -> p' = p /\ cos (deg2rad (d - d')) = 1%R.
Proof.
  intros P P' [A B] [A' B']. fold (deg2rad p) (deg2rad d) in A, B. fold (deg2rad p') (deg2rad d') in A', B'. assert (T := tan_deg p P).
  assert (T' : (0 <= tan (deg2rad p'))%R) by (destruct (Req_dec p' 0) as [->|]; [rewrite deg_0, tan_0; lra|left; apply tan_deg; lra]).
  assert (S := sin2_cos2 (deg2rad d)). assert (S' := sin2_cos2 (deg2rad d')). unfold Rsqr in S, S'. set (t := tan (deg2rad p)) in *. set (t' := tan (deg2rad p')) in *.
  set (c := cos (deg2rad d)) in *. set (s := sin (deg2rad d)) in *. set (c' := cos (deg2rad d')) in *. set (s' := sin (deg2rad d')) in *.
  assert (Q : (t * t = t' * t')%R).
  { transitivity (Re z * Re z + Im z * Im z)%R; [rewrite A, B; transitivity (t * t * (s * s + c * c))%R; [rewrite S; ring|ring]|].
    rewrite A', B'. transitivity (t' * t' * (s' * s' + c' * c'))%R; [ring|rewrite S'; ring]. }
  assert (E : t' = t) by nra. split; [apply tan_deg_inj; [lra|lra|exact E]|].
  replace (deg2rad (d - d')) with (deg2rad d - deg2rad d')%R by (unfold deg2rad; field). rewrite cos_minus. fold c s c' s'. rewrite A, E in A'. rewrite B, E in B'. apply Rmult_eq_reg_l in A'; [|lra]. 
  assert (B2 : s = s') by (apply (Rmult_eq_reg_l t); lra). rewrite A', B2. lra.
Qed.
Lemma cos_360 x : cos (deg2rad (x - 360)) = cos (deg2rad x).
Proof. replace (deg2rad x) with (deg2rad (x - 360) + 2 * PI)%R by (unfold deg2rad; field). symmetry. replace (2 * PI)%R with (2 * PI * IZR 1)%R by ring. apply cos_turns. Qed.
Lemma same_of_cos d d' : (-720 < d - d' < 720)%R -> cos (deg2rad (d - d')) = 1%R -> same_angle d d'.
Proof.
  intros H E. destruct (Rlt_dec (d - d') (-359)) as [L|L]; [|destruct (Rlt_dec (d - d') 359) as [M|M]].
  - exists 1%Z. assert (K := turn_unique (d - d' + 360) ltac:(lra)). rewrite <- cos_360 in K. replace (d - d' + 360 - 360)%R with (d - d')%R in K by ring. specialize (K E). lra.
  - exists 0%Z. assert (K := turn_unique (d - d') ltac:(lra) E). lra.
  - exists (-1)%Z. rewrite <- cos_360 in E. assert (K := turn_unique (d - d' - 360) ltac:(lra) E). lra.
Qed.

Lemma pseudo_row_calc angle p d : cos (deg2rad p) <> 0%R -> cos (deg2rad angle) <> 0%R ->
  pseudo_row angle p d = calc_pseudo_diel (calc_rho p d) angle.
Proof.
  intros H1 H2. unfold pseudo_row, calc_pseudo_diel. fold (deg2rad angle). unfold rdiv. destruct (Req_EM_T _ 0); [contradiction|]. cbn [obind]. destruct (Req_EM_T _ 0); [contradiction|]. cbn [obind].
  reflexivity.
Qed.

(** The table *)
Lemma broadcast_same psi delta : length psi = length delta -> broadcast psi delta = Ok (combine psi delta).
Proof. intros H. unfold broadcast. now rewrite H, Nat.eqb_refl. Qed.
Lemma no_nan es : existsb is_nan (map Some es) = false.
Proof. induction es; [reflexivity|]. exact IHes. Qed.
Lemma rows_of_table s lbda n : table_kind s lbda n = Ok (Cubic, sorted (combine lbda n)) -> (4 <= length (sorted (combine lbda n)))%nat /\ increasing (sorted (combine lbda n)) = true.
Proof. intros H. destruct (kind_shape _ _ _ _ _ H) as (_ & _ & _ & _ & _ & S). exact (S 3%nat eq_refl). Qed.
Lemma cubic_table lbda (n : list C) : length n = length lbda -> NoDup lbda -> (4 <= length lbda)%nat -> table_kind "cubic"%string lbda n = Ok (Cubic, sorted (combine lbda n)).
Proof.
  intros L N Q. destruct (C58_kind_accepted "cubic"%string lbda n) as [[k rows] E]; try assumption; try (intros K; discriminate K).
  - intros ->. cbn in Q. lia.
  - cbn. tauto.
  - intros _. exact Q.
  - destruct (kind_shape _ _ _ _ _ E) as (K & -> & _). cbn in K. injection K as <-. exact E.
Qed.
Lemma pseudo_new_ok angle lbda psi delta ps es : broadcast psi delta = Ok ps ->
  map (fun pd => pseudo_row angle (fst pd) (snd pd)) ps = map Some es -> length es = length lbda -> NoDup lbda -> (4 <= length lbda)%nat ->
  pseudo_new angle lbda psi delta = Ok (false, sorted (combine lbda es)).
Proof.
  intros B E L N Q. unfold pseudo_new. rewrite B. cbn [rbind]. rewrite E, map_length, L, Nat.eqb_refl. rewrite no_nan. cbv zeta. rewrite map_map, map_id.
  destruct (rows_of_table "cubic"%string lbda es (cubic_table lbda es L N Q)) as [A I]. destruct (Nat.ltb_spec (length (sorted (combine lbda es))) 4); [lia|]. now rewrite I.
Qed.
Lemma pseudo_value_table rows x : pseudo_value (false, rows) x = kind_value true (Cubic, rows) x.
Proof. unfold pseudo_value. cbn [fst snd]. now destruct (kind_value _ _ _). Qed.

(** A substrate with the pseudo dielectric function *)
Lemma kz_pick (kx eps q : C) : eps <> 0 -> q * q = eps - kx * kx -> (0 < Re q)%R -> (0 <= Im q)%R \/ (- (1 / 10 ^ 10) <= Im q)%R -> kz_half kx eps = q.
Proof.
  intros Ne Q R I. assert (E : kz_half kx eps * kz_half kx eps = q * q) by (rewrite Q; now apply kz_half_sqr).
  apply Csqr_eq in E. destruct E as [E|E]; [exact E|]. exfalso. destruct (half_rule kx eps) as [H1 H2]. fold (kz_half kx eps) in H1, H2. rewrite E in H1, H2.
  change (Im (- q)) with (- Im q)%R in *. change (Re (- q)) with (- Re q)%R in *. rewrite Rabs_Ropp in *.
  assert (T0 : (0 < 1 / 10 ^ 10)%R) by (apply Rdiv_lt_0_compat; [lra|apply pow_lt; lra]).
  destruct (Rlt_dec (1 / 10 ^ 10) (Rabs (Im q))) as [L|L]; [specialize (H1 L)|specialize (H2 ltac:(lra)); lra].
  destruct I as [I|I]; [lra|]. destruct (Rle_dec 0 (Im q)); [lra|]. rewrite Rabs_left in L by lra. lra.
Qed.
Lemma kz_drop (kx eps q : C) : eps <> 0 -> q * q = eps - kx * kx -> (Im q < - (1 / 10 ^ 10))%R -> kz_half kx eps = - q.
Proof.
  intros Ne Q I. assert (E : kz_half kx eps * kz_half kx eps = q * q) by (rewrite Q; now apply kz_half_sqr).
  apply Csqr_eq in E. destruct E as [E|E]; [|exact E]. exfalso. destruct (half_rule kx eps) as [H1 _]. fold (kz_half kx eps) in H1. rewrite E in H1.
  assert (T0 : (0 < 1 / 10 ^ 10)%R) by (apply Rdiv_lt_0_compat; [lra|apply pow_lt; lra]). rewrite Rabs_left in H1 by lra. lra.
Qed.
Section Bulk.
Variables (c s : R) (k : C).
Hypothesis C0 : (0 < c)%R.
Hypothesis S0 : (s <> 0)%R.
Hypothesis SC : (s * s + c * c = 1)%R.
Let S2 := RtoC (s * s).
Let C2 := RtoC (c * c).
Definition bulk_eps : C := RtoC (s * s) * (1 + RtoC (s / c * (s / c)) * (k * k)).
Definition bulk_q : C := RtoC (s * s / c) * k.
Local Lemma cn : RtoC c <> 0. Proof. apply C_of_R_neq. lra. Qed.
Local Lemma sn : RtoC s <> 0. Proof. now apply C_of_R_neq. Qed.
Local Lemma pyth : RtoC s * RtoC s = 1 - RtoC c * RtoC c. Proof. rewrite <- !RtoC_mult, <- RtoC_minus. f_equal. lra. Qed.
Lemma bulk_sqr : bulk_q * bulk_q = bulk_eps - RtoC s * RtoC s.
Proof. assert (N := cn). unfold bulk_q, bulk_eps. rewrite !RtoC_mult, !RtoC_div, !RtoC_mult by lra. field. exact N. Qed.
Lemma bulk_s : RtoC c + bulk_q = (C2 + S2 * k) / RtoC c.
Proof. assert (N := cn). unfold bulk_q, C2, S2. rewrite RtoC_div, !RtoC_mult by lra. field. exact N. Qed.
Lemma bulk_s' : RtoC c - bulk_q = (C2 - S2 * k) / RtoC c.
Proof. assert (N := cn). unfold bulk_q, C2, S2. rewrite RtoC_div, !RtoC_mult by lra. field. exact N. Qed.
Lemma bulk_p : bulk_eps * RtoC c + bulk_q = S2 / RtoC c * ((1 + k) * (C2 + S2 * k)).
Proof.
  assert (N := cn). unfold bulk_eps, bulk_q, C2, S2. rewrite !RtoC_mult, !RtoC_div, !RtoC_mult by lra.
  transitivity (RtoC s * RtoC s / RtoC c * (RtoC c * RtoC c + RtoC s * RtoC s * (k * k) + k)); [field; exact N|]. rewrite pyth. field. exact N.
Qed.
Lemma bulk_p' : bulk_eps * RtoC c - bulk_q = S2 / RtoC c * ((1 - k) * (C2 - S2 * k)).
Proof.
  assert (N := cn). unfold bulk_eps, bulk_q, C2, S2. rewrite !RtoC_mult, !RtoC_div, !RtoC_mult by lra.
  transitivity (RtoC s * RtoC s / RtoC c * (RtoC c * RtoC c + RtoC s * RtoC s * (k * k) - k)); [field; exact N|]. rewrite pyth. field. exact N.
Qed.
Local Lemma factors z : z / RtoC c <> 0 <-> z <> 0.
Proof.
  assert (N := cn). split; intros H E; apply H; [rewrite E; unfold Cdiv; ring|]. transitivity (z / RtoC c * RtoC c); [field; exact N|]. rewrite E. ring.
Qed.
Lemma bulk_ratio : 1 + k <> 0 -> C2 + S2 * k <> 0 -> C2 - S2 * k <> 0 ->
  RtoC c + bulk_q <> 0 /\ bulk_eps * RtoC c + bulk_q <> 0 /\ (RtoC c - bulk_q) / (RtoC c + bulk_q) <> 0 /\
  (bulk_eps * RtoC c - bulk_q) / (bulk_eps * RtoC c + bulk_q) / ((RtoC c - bulk_q) / (RtoC c + bulk_q)) = (1 - k) / (1 + k).
Proof.
  intros K D1 D2. assert (N := cn). assert (M := sn). assert (T : S2 <> 0) by (unfold S2; rewrite RtoC_mult; now apply Cmult_neq_0).
  rewrite bulk_s, bulk_s', bulk_p, bulk_p'. split; [now apply factors|]. split; [apply Cmult_neq_0; [now apply factors|now apply Cmult_neq_0]|].
  split; [replace ((C2 - S2 * k) / RtoC c / ((C2 + S2 * k) / RtoC c)) with ((C2 - S2 * k) * / (C2 + S2 * k)) by (field; auto); apply Cmult_neq_0; [exact D2|now apply Cinv_neq0]|].
  field. repeat split; auto.
Qed.
End Bulk.

(** The quotient (1 - rho) / (1 + rho) *)
Section Quotient.
Variables (t d : R).
Hypothesis T : (0 < t)%R.
Hypothesis T1 : (t < 1 \/ sin d <> 0)%R.
Let z : C := (t * cos d, - (t * sin d))%R.
Definition quo : C := (1 - z) / (1 + z).
Let n := ((1 + t * cos d) * (1 + t * cos d) + t * sin d * (t * sin d))%R.
Local Lemma n_pos : (0 < n)%R.
Proof.
  unfold n. assert (B := COS_bound d). destruct T1 as [H|H]; [assert (0 < 1 + t * cos d)%R by nra; nra|]. assert (K := Rsqr_pos_lt (t * sin d) ltac:(apply Rmult_integral_contrapositive_currified; lra)). unfold Rsqr in K. assert (L := Rle_0_sqr (1 + t * cos d)). unfold Rsqr in L. lra.
Qed.
Lemma one_z : 1 + z <> 0.
Proof. intros E. assert (N := n_pos). assert (A := f_equal fst E). assert (B := f_equal snd E). unfold z in A, B. cbn in A, B. unfold n in N. assert (X : (1 + t * cos d = 0)%R) by lra. assert (Y : (t * sin d = 0)%R) by lra. rewrite X, Y in N. lra. Qed.
Local Lemma quo_parts : (Re quo * n = 1 - t * t /\ Im quo * n = 2 * t * sin d)%R.
Proof.
  assert (N := one_z). assert (E : quo * (1 + z) = 1 - z) by (unfold quo; field; exact N). assert (A := f_equal fst E). assert (B := f_equal snd E). assert (S := sin2_cos2 d). unfold Rsqr in S.
  unfold z in A, B. unfold Re, Im, n. destruct quo as [x y]. cbn in A, B |- *. set (u := (t * cos d)%R) in *. set (v := (t * sin d)%R) in *. assert (UV : (u * u + v * v = t * t)%R) by (unfold u, v; nra). split.
  - transitivity ((x * (1 + u) - y * (0 + - v)) * (1 + u) - (x * (0 + - v) + y * (1 + u)) * v)%R; [ring|]. rewrite A, B. nra.
  - transitivity ((x * (1 + u) - y * (0 + - v)) * v + (x * (0 + - v) + y * (1 + u)) * (1 + u))%R; [ring|]. rewrite A, B. unfold v. ring.
Qed.
Lemma quo_re : (Re quo = (1 - t * t) / n)%R.
Proof. assert (N := n_pos). rewrite <- (proj1 quo_parts). field. lra. Qed.
Lemma quo_im : (Im quo = 2 * t * sin d / n)%R.
Proof. assert (N := n_pos). rewrite <- (proj2 quo_parts). field. lra. Qed.
Lemma quo_pos : (t < 1 -> 0 < Re quo)%R.
Proof. intros L. rewrite quo_re. apply Rdiv_lt_0_compat; [nra|exact n_pos]. Qed.
Lemma quo_re0 : (t <> 1 -> Re quo <> 0)%R.
Proof. intros L. rewrite quo_re. assert (N := n_pos). apply Rmult_integral_contrapositive_currified; [nra|]. apply Rinv_neq_0_compat. lra. Qed.
Lemma quo_sign : (0 <= sin d -> 0 <= Im quo)%R /\ (sin d < 0 -> Im quo < 0)%R /\ (0 < sin d -> 0 < Im quo)%R.
Proof.
  rewrite quo_im. assert (N := n_pos). assert (V := Rinv_0_lt_compat _ N). unfold Rdiv. split; [|split]; intros H; [apply Rmult_le_pos; nra|assert (0 < 2 * t * - sin d)%R by nra; nra|]. apply Rmult_lt_0_compat; nra.
Qed.
Lemma quo_plus : 1 + quo <> 0.
Proof. assert (N := one_z). intros E. apply two_n. transitivity ((1 + quo) * (1 + z)); [unfold quo; field; exact N|]. rewrite E. ring. Qed.
Lemma quo_back : (1 - quo) / (1 + quo) = z.
Proof.
  assert (N := one_z). assert (W := two_n). unfold quo. field. split; [exact N|]. intros E. apply W. transitivity (1 + z + (1 - z)); [ring|exact E].
Qed.
Lemma z_neq : z <> 0.
Proof. intros E. assert (A := f_equal fst E). assert (B := f_equal snd E). unfold z in A, B. cbn in A, B. assert (S := sin2_cos2 d). unfold Rsqr in S. assert (cos d = 0)%R by nra. assert (sin d = 0)%R by nra. nra. Qed.
Lemma quo_minus : 1 - quo <> 0.
Proof.
  intros E. apply z_neq. rewrite <- quo_back, E. unfold Cdiv. ring.
Qed.
End Quotient.
