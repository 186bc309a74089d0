(** C121: averaging over the thickness makes a plate incoherent. *)
From Coq Require Import Reals Lra Psatz Lia String.
From Coquelicot Require Import Complex.
From Coq Require Import List.
From Verif.Base Require Import Py Cx Mat.
From Verif.Model Require Import Units Ellips Structure Solver2 ResultList.
From Verif.Spec Require Import Stack Etalon.
From Verif.Proof Require Import StackP FluxP UnitsP Solver2P Solver2P2 Solver2P3 Solver2P4 SplitP SplitP2 IncoherentP.
From Verif.Props Require Import ResultListT EtalonT.
Import ListNotations.
Open Scope R_scope.

(** The powers of all waves add up to the incoherent transmittance *)
Lemma incoherent_sum (r : R) : 0 <= r < 1 -> forall eta, 0 < eta -> exists n0, forall n, (n0 <= n)%nat ->
  Rabs (fold_right Rplus 0 (map (power_after r) (seq 0 n)) - incoherent r) < eta.
Proof.
  intros H eta He.
  assert (G : forall n s, fold_right Rplus 0 (map (power_after r) (seq s n)) * (1 - r * r) = (1 - r) * (1 - r) * ((r * r) ^ s - (r * r) ^ (s + n))).
  { induction n as [|n IH]; intros s; cbn [seq map fold_right]; [rewrite Nat.add_0_r; ring|].
    rewrite Rmult_plus_distr_r, IH, <- plus_n_Sm. unfold power_after. cbn [Nat.add pow]. ring. }
  destruct (pow_lt_1_zero (r * r)) with (y := eta) as [n0 Hn]; [rewrite Rabs_pos_eq; nra|exact He|].
  exists n0. intros n Hn'. specialize (Hn n Hn'). specialize (G n 0%nat). cbn [Nat.add] in G. change ((r * r) ^ 0) with 1 in G.
  assert (P0 : 0 <= (r * r) ^ n) by (apply pow_le; nra). rewrite Rabs_pos_eq in Hn by exact P0. set (z := (r * r) ^ n) in *. set (s := fold_right _ _ _) in *.
  assert (E : s - incoherent r = - (incoherent r * z)).
  { apply (Rmult_eq_reg_r (1 - r * r)); [|nra]. rewrite Rmult_minus_distr_r, G. unfold incoherent. field. lra. }
  rewrite E, Rabs_Ropp, Rabs_pos_eq.
  - assert (incoherent r <= 1) by (unfold incoherent; apply (Rmult_le_reg_r (1 + r)); [lra|]; unfold Rdiv; rewrite Rmult_assoc, Rinv_l by lra; lra).
    assert (0 < incoherent r) by (unfold incoherent; apply Rdiv_lt_0_compat; lra). nra.
  - apply Rmult_le_pos; [unfold incoherent; left; apply Rdiv_lt_0_compat; lra|exact P0].
Qed.

(** Real sums *)
Lemma csum_real (f : nat -> R) n s : fold_right Cplus (RtoC 0) (map (fun k => RtoC (f k)) (seq s n)) = RtoC (fold_right Rplus 0 (map f (seq s n))).
Proof. revert s. induction n as [|n IH]; intros s; [reflexivity|]. cbn [seq map fold_right]. now rewrite IH, RtoC_plus. Qed.
Lemma fold_snoc (l : list R) x : fold_right Rplus 0 (l ++ [x]) = fold_right Rplus 0 l + x.
Proof. induction l as [|y l IH]; cbn [app fold_right]; [ring|]. rewrite IH. ring. Qed.
Lemma fold_rtotal (f : nat -> R) n : fold_right Rplus 0 (map f (seq 0 n)) = rtotal f n.
Proof. induction n as [|n IH]; [reflexivity|]. rewrite seq_S, map_app. cbn [map rtotal Nat.add]. now rewrite fold_snoc, IH. Qed.

(** C121: the mean over n thicknesses, equally spaced over one period of the interference, differs
    from the incoherent transmittance by a factor between (1 - R^n) / (1 + R^n) and its inverse. *)
Theorem C121_mean : forall theta theta' lbda (x e d : R) n,
  0 < x -> 0 < e -> 0 < lbda -> 0 <= d -> cos (theta * PI / 180) <> 0 -> cos (theta' * PI / 180) <> 0 ->
  sqrt x * sin (theta * PI / 180) = sqrt e * sin (theta' * PI / 180) -> (2 <= n)%nat ->
  let period := lbda / (2 * (sqrt e * Rabs (cos (theta' * PI / 180)))) in
  let plate k := solver2 theta lbda (RtoC x) [(d + INR k * (period / INR n), RtoC e)] (RtoC x) in
  forall pol, pol = rt_s \/ pol = rt_p ->
  forall (rs : list result) name, name <> "mean"%string -> length rs = n ->
  (forall k s, nth_error rs k = Some s -> exists r t, pol (plate k) = Some (r, t) /\ s name = Ok (mkarr [1%nat] [RtoC (Cmod t * Cmod t)])) ->
  exists r1 t1 m, pol (solver2 theta lbda (RtoC x) [] (RtoC e)) = Some (r1, t1) /\
  mean_attr rs name = Ok (mkarr [] [Some (RtoC m)]) /\
  let R1 := Cmod r1 * Cmod r1 in R1 < 1 /\
  incoherent R1 * ((1 - R1 ^ n) / (1 + R1 ^ n)) <= m <= incoherent R1 * ((1 + R1 ^ n) / (1 - R1 ^ n)).
Proof.
  intros th th' lb x e d n Px Pe L Hd Hc Hc' Sn N2 period plate pol Hp rs name Nm Len H.
  assert (ac : 0 < Rabs (cos (th' * PI / 180))) by (now apply Rabs_pos_lt). assert (se : 0 < sqrt e) by (apply sqrt_lt_R0; exact Pe).
  assert (Nn : 0 < INR n) by (apply lt_0_INR; lia).
  assert (kp : 0 < sqrt e * Rabs (cos (th' * PI / 180))) by (now apply Rmult_lt_0_compat).
  assert (Pp : 0 < period) by (unfold period; apply Rdiv_lt_0_compat; lra).
  destruct (C119_etalon th th' lb x e d Px Pe L Hd Hc Hc' Sn pol Hp) as (r1 & t1 & _ & _ & E1 & _ & _ & S1 & _).
  exists r1, t1. set (R1 := Cmod r1 * Cmod r1) in *. assert (R0 : 0 <= R1) by (unfold R1; assert (Z := Cmod_ge_0 r1); nra).
  set (phi := 2 * PI / lb * (sqrt e * Rabs (cos (th' * PI / 180))) * d).
  set (T := fun k => airy R1 (phi + INR k * (PI / INR n))).
  assert (V : forall k s, nth_error rs k = Some s -> s name = Ok (mkarr [1%nat] [RtoC (T k)])).
  { intros k s K. destruct (H k s K) as (r & t & W & E). rewrite E. do 3 f_equal.
    assert (Dk : 0 <= d + INR k * (period / INR n)) by (assert (0 <= INR k) by apply pos_INR; assert (0 < period / INR n) by (apply Rdiv_lt_0_compat; lra); nra).
    destruct (C119_etalon th th' lb x e (d + INR k * (period / INR n)) Px Pe L Dk Hc Hc' Sn pol Hp) as (r1' & t1' & r' & t' & E1' & W' & _ & _ & T' & _).
    rewrite E1 in E1'. injection E1' as <- <-. fold (plate k) in W'. rewrite W in W'. injection W' as <- <-. f_equal.
    rewrite T'. unfold T, airy. fold R1. do 4 f_equal; f_equal; unfold phi, period; field; repeat split; lra. }
  set (l := map (fun k => mkarr [1%nat] [RtoC (T k)]) (seq 0 n)).
  assert (M : map (fun r : result => r name) rs = map Ok l).
  { unfold l. clear - V Len. subst n.
    assert (G : forall m (us : list result) , (forall k s, nth_error us k = Some s -> s name = Ok (mkarr [1%nat] [RtoC (T (m + k)%nat)])) ->
      map (fun r : result => r name) us = map Ok (map (fun k => mkarr [1%nat] [RtoC (T k)]) (seq m (length us)))).
    { intros m us. revert m. induction us as [|u us IH]; intros m G; [reflexivity|]. cbn [map length seq]. f_equal.
      - rewrite (G 0%nat u eq_refl). now rewrite Nat.add_0_r.
      - apply IH. intros k s K. rewrite (G (S k) s K). now rewrite <- plus_n_Sm. }
    apply G. exact V. }
  assert (Ll : length l = n) by (unfold l; now rewrite map_length, seq_length).
  destruct (C47_mean_partial rs name l [1%nat] Nm M) as (v & Ev & Sh & Ln & Val).
  - rewrite Ll. exact N2.
  - unfold l. apply Forall_forall. intros a Ha. apply in_map_iff in Ha. destruct Ha as (k & <- & _). split; reflexivity.
  - exists (rtotal T n / INR n). split; [exact E1|]. split.
    + rewrite Ev. destruct v as [sh dat]. cbn [shape data] in *. subst sh. cbn in Ln. destruct dat as [|y [|z dat]]; try discriminate.
      specialize (Val 0%nat). cbn [nth] in Val. rewrite Val by (cbn; lia). cbn [drop_ones filter Nat.eqb negb]. do 4 f_equal. unfold average.
      rewrite map_length, Ll. unfold l. rewrite map_map. cbn [data nth]. rewrite (csum_real T n 0), fold_rtotal.
      symmetry. apply RtoC_div. lra.
    + cbv zeta. fold R1. split; [exact S1|]. apply (airy_mean R1 phi n); [lra|lia].
Qed.
Print Assumptions C121_mean.

(** C121: with more and more thicknesses the mean converges to the incoherent transmittance, which
    is the sum of the powers of all waves that leave the plate. *)
Theorem C121_limit : forall theta theta' lbda (x e d : R),
  0 < x -> 0 < e -> 0 < lbda -> 0 <= d -> cos (theta * PI / 180) <> 0 -> cos (theta' * PI / 180) <> 0 ->
  sqrt x * sin (theta * PI / 180) = sqrt e * sin (theta' * PI / 180) ->
  let period := lbda / (2 * (sqrt e * Rabs (cos (theta' * PI / 180)))) in
  forall pol, pol = rt_s \/ pol = rt_p ->
  exists r1 t1, pol (solver2 theta lbda (RtoC x) [] (RtoC e)) = Some (r1, t1) /\
  forall eta, 0 < eta -> exists n0, forall n, (n0 <= n)%nat ->
  let plate k := solver2 theta lbda (RtoC x) [(d + INR k * (period / INR n), RtoC e)] (RtoC x) in
  forall (rs : list result) name, name <> "mean"%string -> length rs = n ->
  (forall k s, nth_error rs k = Some s -> exists r t, pol (plate k) = Some (r, t) /\ s name = Ok (mkarr [1%nat] [RtoC (Cmod t * Cmod t)])) ->
  exists m, mean_attr rs name = Ok (mkarr [] [Some (RtoC m)]) /\
  Rabs (m - incoherent (Cmod r1 * Cmod r1)) < eta /\
  Rabs (m - fold_right Rplus 0 (map (power_after (Cmod r1 * Cmod r1)) (seq 0 n))) < eta.
Proof.
  intros th th' lb x e d Px Pe L Hd Hc Hc' Sn period pol Hp.
  destruct (C119_etalon th th' lb x e d Px Pe L Hd Hc Hc' Sn pol Hp) as (r1 & t1 & _ & _ & E1 & _ & _ & S1 & _).
  exists r1, t1. split; [exact E1|]. intros eta He. set (R1 := Cmod r1 * Cmod r1) in *. assert (R0 : 0 <= R1) by (unfold R1; assert (Z := Cmod_ge_0 r1); nra).
  destruct (incoherent_sum R1 ltac:(lra) (eta / 2) ltac:(lra)) as [n1 H1].
  destruct (pow_lt_1_zero R1) with (y := Rmin (1 / 2) (eta / 8)) as [n2 H2]; [rewrite Rabs_pos_eq; lra|apply Rmin_glb_lt; lra|].
  exists (2 + n1 + n2)%nat. intros n Hn plate rs name Nm Len H.
  destruct (C121_mean th th' lb x e d n Px Pe L Hd Hc Hc' Sn ltac:(lia) pol Hp rs name Nm Len H) as (r1' & t1' & m & E1' & Em & B).
  rewrite E1 in E1'. injection E1' as <- <-. fold R1 in B. destruct B as [_ B]. exists m. split; [exact Em|].
  specialize (H1 n ltac:(lia)). specialize (H2 n ltac:(lia)). assert (P := pow_lt1 R1 n ltac:(lra) ltac:(lia)). rewrite Rabs_pos_eq in H2 by lra.
  assert (M1 := Rmin_l (1 / 2) (eta / 8)). assert (M2 := Rmin_r (1 / 2) (eta / 8)). set (a := R1 ^ n) in *.
  assert (I1 : incoherent R1 <= 1) by (unfold incoherent; apply (Rmult_le_reg_r (1 + R1)); [lra|]; unfold Rdiv; rewrite Rmult_assoc, Rinv_l by lra; lra).
  assert (I0 : 0 < incoherent R1) by (unfold incoherent; apply Rdiv_lt_0_compat; lra). set (T0 := incoherent R1) in *.
  assert (Up : (1 + a) / (1 - a) <= 1 + 4 * a).
  { apply (Rmult_le_reg_r (1 - a)); [lra|]. unfold Rdiv. rewrite Rmult_assoc, Rinv_l by lra. nra. }
  assert (Lo : 1 - 4 * a <= (1 - a) / (1 + a)).
  { apply (Rmult_le_reg_r (1 + a)); [lra|]. unfold Rdiv. rewrite Rmult_assoc, Rinv_l by lra. nra. }
  assert (D : Rabs (m - T0) < eta / 2).
  { apply Rabs_def1; destruct B as [B1 B2].
    - apply Rle_lt_trans with (T0 * (1 + 4 * a) - T0); [|nra]. apply Rplus_le_compat_r. eapply Rle_trans; [exact B2|]. apply Rmult_le_compat_l; lra.
    - apply Rlt_le_trans with (T0 * (1 - 4 * a) - T0); [nra|]. apply Rplus_le_compat_r. eapply Rle_trans; [|exact B1]. apply Rmult_le_compat_l; lra. }
  split; [lra|]. set (s := fold_right _ _ _) in *. replace (m - s) with ((m - T0) - (s - T0)) by ring.
  eapply Rle_lt_trans; [apply Rabs_triang|]. rewrite Rabs_Ropp. lra.
Qed.
Print Assumptions C121_limit.

(** Two plates of index 2 in air, of thickness 1/8 and 1/4 of the wavelength: each surface reflects
    1/9, the plates transmit 16/25 and 1, in the mean 41/50. *)
Example C121_example : exists r t r' t',
  rt_s (solver2 0 1 (RtoC 1) [(1 / 8, RtoC 4)] (RtoC 1)) = Some (r, t) /\
  rt_s (solver2 0 1 (RtoC 1) [(1 / 4, RtoC 4)] (RtoC 1)) = Some (r', t') /\
  mean_attr [fun _ => Ok (mkarr [1%nat] [RtoC (Cmod t * Cmod t)]); fun _ => Ok (mkarr [1%nat] [RtoC (Cmod t' * Cmod t')])] "T_ss" =
    Ok (mkarr [] [Some (RtoC (41 / 50))]) /\
  incoherent (1 / 9) * ((1 - (1 / 9) ^ 2) / (1 + (1 / 9) ^ 2)) <= 41 / 50 <= incoherent (1 / 9) * ((1 + (1 / 9) ^ 2) / (1 - (1 / 9) ^ 2)).
Proof.
  assert (z0 : 0 * PI / 180 = 0) by field.
  assert (q4 : sqrt 4 = 2) by (replace 4 with (2 * 2) by ring; apply sqrt_square; lra).
  destruct C119_example as (r & t & E & T & _).
  destruct (C119_etalon 0 0 1 1 4 (1 / 4)) with (pol := rt_s) as (r1 & t1 & r' & t' & _ & E' & _ & _ & T' & _); rewrite ?z0, ?cos_0, ?sin_0; try lra; [left; reflexivity|].
  rewrite z0, cos_0, Rabs_R1, q4 in T'. replace (2 * PI / 1 * (2 * 1) * (1 / 4)) with PI in T' by field. rewrite sin_PI in T'.
  rewrite !Rmult_0_r, Rplus_0_r in T'. exists r, t, r', t'. split; [exact E|]. split; [exact E'|]. split.
  - rewrite T, T'. cbv [mean_attr list_attr rmapM String.eqb Ascii.eqb Bool.eqb rbind np_array forallb list_nat_eqb list_eq_dec]. cbn -[RtoC cdiv INR].
    rewrite cdiv_some by (apply C_of_R_neq; simpl; lra). do 4 f_equal. rewrite <- !RtoC_plus, <- RtoC_div by (simpl; lra). f_equal. simpl. field.
  - unfold incoherent. lra.
Qed.
