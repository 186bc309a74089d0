(** C77, C78 and C79: fitting psi and delta. *)
From Coq Require Import Reals String Lra Lia ZArith Arith Bool Permutation.
From Coquelicot Require Import Complex.
From Coq Require Import List.
From Verif.Base Require Import Py Cx Mat.
From Verif.Model Require Import Ellips FitRho.
From Verif.Spec Require Import Angle Light FitPicture.
From Verif.Proof Require Import EllipsP FitRhoP.
From Verif.Props Require Import EllipsT.
Import ListNotations.
Open Scope R_scope.
Open Scope string_scope.
Open Scope list_scope.

(** C77: what is minimised is the sum of |rho_measured - rho_simulated|^2 over the wavelengths. *)
Theorem C77_squares : forall e s r, List.length (s_rho s) = List.length e -> fit_function e s = Ok r ->
  fold_right Rplus 0 (map (fun x => x * x) r) =
  fold_right Rplus 0 (map (fun p : row * C =>
    let d := ((rho_re (fst p), rho_im (fst p)) - snd p)%C in Cmod d * Cmod d) (combine e (s_rho s))).
Proof.
  intros e s r L H. rewrite fit_function_ok in H by exact L. injection H as <-. rewrite map_app, fold_right_app, !map_map.
  assert (F : forall b m, fold_right Rplus b m = fold_right Rplus 0 m + b).
  { intros b m. induction m; cbn; [ring|]. rewrite IHm. ring. }
  rewrite F. induction (combine e (s_rho s)) as [|[a z] l IH]; [cbn; ring|].
  cbn [map fold_right fst snd] in *. rewrite <- IH. clear IH. cbv zeta.
  assert (M : forall w : C, Cmod w * Cmod w = fst w * fst w + snd w * snd w).
  { intros w. unfold Cmod. rewrite sqrt_sqrt; [ring|]. nra. }
  rewrite M. destruct z as [u v]. unfold Re, Im. cbn [fst snd Cminus Cplus Copp]. ring.
Qed.
Print Assumptions C77_squares.

(** C77: a residual exists exactly for one simulated value for each measured one (or one single value for all). *)
Theorem C77_lengths : forall e s, (1 < List.length e)%nat -> (1 < List.length (s_rho s))%nat ->
  ((exists r, fit_function e s = Ok r) <-> List.length (s_rho s) = List.length e).
Proof.
  intros e s L M. split.
  - intros [r0 H]. unfold fit_function in H. destruct (np_sub _ _) as [r|] eqn:Q; [|discriminate]. clear H.
    unfold np_sub in Q. destruct (Nat.eqb _ _) eqn:B.
    + apply Nat.eqb_eq in B. unfold exp_rho in B. rewrite !map_length in B. symmetry. exact B.
    + exfalso. destruct e as [|a [|b e]]; try (cbn in L; lia). destruct (s_rho s) as [|x [|y l]]; try (cbn in M; lia). discriminate Q.
  - intros H. rewrite fit_function_ok by exact H. eauto.
Qed.

(** C77, for the ranges starting at 0, -180 and -360 (the folded one included): the residual is
    zero exactly when psi and delta are reproduced at every wavelength, delta up to whole turns
    and not at all where psi is zero.  The full claim is for every accepted range; see
    [C77_range_refuted]. *)
Theorem C77_zero_partial : forall (l u : Z) E (Js : list mat) e s r,
  allowed_range l u -> (l = 0 \/ l = -180 \/ l = -360)%Z ->
  sim_of (IZR l, IZR u) E Js = Some s -> List.length Js = List.length e ->
  (forall m, In m e -> 0 <= m_psi m < 90) -> fit_function e s = Ok r ->
  ((forall x, In x r -> x = 0) <->
   Forall2 (fun m (pd : R * R) => m_psi m = fst pd /\ (m_psi m = 0 \/ same_angle (m_delta m) (snd pd)))
     e (combine (s_psi s) (s_delta s))).
Proof.
  intros l u E Js e s r A L S N B H.
  assert (C := sim_of_complete _ _ _ _ _ S N). destruct C as (_ & _ & C).
  rewrite fit_function_ok in H by exact C. injection H as <-.
  rewrite <- Forall_forall, Forall_zero_parts by exact C. clear C.
  apply sim_of_spec in S as (P & D & Z). destruct s as [ps ds zs]. cbn [s_psi s_delta s_rho] in *.
  revert e ps ds zs N B P D Z. induction Js as [|J Js IH]; intros [|m e] [|p ps] [|d ds] [|z zs] N B P D Z; try discriminate.
  - split; intros; apply Forall2_nil.
  - injection N as N. injection P as P1 P2. injection D as D1 D2. injection Z as Z1 Z2.
    assert (B1 : forall m, In m e -> 0 <= m_psi m < 90) by (intros; apply B; now right).
    assert (B0 := B m (or_introl eq_refl)).
    destruct (C03_psi_delta_rho_partial l u J E z A L Z1) as (p' & d' & Q1 & Q2 & Q3 & _ & Q4).
    rewrite P1 in Q1. injection Q1 as <-. rewrite D1 in Q2. injection Q2 as <-.
    apply is_rho_calc in Q4. subst z. specialize (IH e ps ds zs N B1 P2 D2 Z2).
    assert (K := same_rho (m_psi m) (m_delta m) p d B0 Q3). cbn [combine]. split; intros H; inversion H as [|? ? ? ? H1 H2]; subst.
    + apply Forall2_cons; [apply K, H1|apply IH, H2].
    + apply Forall2_cons; [apply K, H1|apply IH, H2].
Qed.
Print Assumptions C77_zero_partial.

(** C77: the part for a psi of 0 <= psi < 90 is not vacuous: rho = i/2 and Delta = 270 or -90. *)
Example C77_example : exists s r, sim_of (IZR (-180), IZR 180) E_ex [J_ex] = Some s /\
  fit_function [Row 500 (psi_of (Ci / 2)) 270] s = Ok r /\ (forall x, In x r -> x = 0).
Proof.
  assert (H := proj1 C03_example).
  destruct (C03_psi_delta_rho_partial (-180) 180 J_ex E_ex (Ci / 2)) as (p & d & A & B & C & T & D); auto; [right; lia|].
  exists (Sim [p] [d] [(Ci / 2)%C]). assert (S : sim_of (IZR (-180), IZR 180) E_ex [J_ex] = Some (Sim [p] [d] [(Ci / 2)%C])).
  { unfold sim_of, map, all_some, obind. now rewrite A, B, H. }
  assert (P : p = psi_of (Ci / 2)) by (unfold psi, obind in A; rewrite H in A; now injection A as <-).
  eexists. split; [exact S|]. split; [now rewrite fit_function_ok|].
  apply Forall_forall. apply Forall_zero_parts; [reflexivity|]. apply Forall2_cons; [|apply Forall2_nil]. cbn [m_psi m_delta].
  assert (M : Cmod (Ci / 2) = / 2).
  { rewrite Cmod_div by (apply C_of_R_neq; lra). unfold Ci. rewrite Cmod_R. unfold Cmod. cbn [fst snd].
    replace (0 ^ 2 + 1 ^ 2) with 1 by ring. rewrite sqrt_1, Rabs_pos_eq; lra. }
  assert (T1 := tan_psi (Ci / 2)). rewrite M in T1.
  unfold calc_rho. rewrite T1, Cexp_mi. unfold cis, deg2rad. rewrite cos_neg, sin_neg.
  replace (270 * PI / 180) with (3 * (PI / 2)) by field. rewrite cos_3PI2, sin_3PI2.
  apply injective_projections; cbn; field.
Qed.

(** Refuted for the other accepted ranges: a perfect fit of rho whose delta is another angle. *)
Theorem C77_range_refuted : exists (l u : Z) E (Js : list mat) e s r,
  allowed_range l u /\ sim_of (IZR l, IZR u) E Js = Some s /\ List.length Js = List.length e /\
  (forall m, In m e -> 0 < m_psi m < 90) /\ fit_function e s = Ok r /\ (forall x, In x r -> x = 0) /\
  ~ Forall2 (fun m d => same_angle (m_delta m) d) e (s_delta s).
Proof.
  destruct C03_psi_delta_rho_refuted as (l & u & J & E & z & p & d & A & Z & N & P & D & K).
  set (D0 := delta_of (0, 360) z).
  assert (Pz : p = psi_of z) by (unfold psi, obind in P; rewrite Z in P; now injection P as <-).
  assert (R0 : z = calc_rho p D0).
  { subst p. apply is_rho_calc. assert (A0 : allowed_range 0 360) by (right; lia). apply (proj2 (consistent_iff 0 360 z A0 N)). now left. }
  exists l, u, E, [J], [Row 500 p D0], (Sim [p] [d] [z]). eexists.
  split; [exact A|]. split; [unfold sim_of, map, all_some, obind; now rewrite P, D, Z|]. split; [reflexivity|].
  assert (B : 0 < p < 90).
  { subst p. split; [|apply psi_range]. unfold psi_of, rad2deg. pose proof PI_RGT_0.
    assert (0 < atan (Cmod z)) by (rewrite <- atan_0; apply atan_increasing, Cmod_gt_0, N).
    apply Rmult_lt_0_compat; [lra|]. now apply Rinv_0_lt_compat. }
  split; [intros m [<-|[]]; exact B|]. split; [now rewrite fit_function_ok|]. split.
  - apply Forall_forall. apply Forall_zero_parts; [reflexivity|]. apply Forall2_cons; [|apply Forall2_nil]. cbn [m_psi m_delta]. now symmetry.
  - intros F. inversion F as [|? ? ? ? F1 _]. cbn [m_delta] in F1. apply K. apply is_rho_calc. etransitivity; [exact R0|].
    apply same_rho; [lra|lra|]. split; [reflexivity|now right].
Qed.
Print Assumptions C77_range_refuted.

(** C78: for every measurement with one angle of incidence and whatever the user does, no step
    fails and the figure shows, up to the order of the lines, the four lines of the chosen display
    for the present parameters, at the right wavelengths. *)
Theorem C78_figure : forall c e angle s l, complete e s -> Forall (complete_event e) l ->
  exists o, events (init c e angle s) l = Ok o /\
    o_display o = last_display PsiDelta l /\ o_sim o = last_sim s l /\
    f_title (o_fig o) = title (last_display PsiDelta l) /\
    Permutation (map curve (f_data (o_fig o))) (picture (last_display PsiDelta l) e angle (last_sim s l)).
Proof.
  intros c e angle s l S W. destruct (initial_shows c e s S) as [F P].
  assert (I : shows (init c e angle s)).
  { split; [exact F|]. split; [exact S|]. split; [now destruct c|exact P]. }
  destruct (events_show l (init c e angle s) I W) as (o & A & B1 & B2 & B3 & B4 & (C1 & C2 & C3 & C4)).
  exists o. rewrite B4, B3, B2, B1 in *. auto 10.
Qed.
Print Assumptions C78_figure.

(** C78: a step fails exactly if simulated values are missing where the display needs them *)
Theorem C78_lengths : forall c e angle s d, (1 < List.length e)%nat -> (1 < List.length (s_rho s))%nat -> (d = PseudoDiel \/ d = Residual) ->
  (exists o, events (init c e angle s) [Select d] = Ok o) -> List.length (s_rho s) = List.length e.
Proof.
  intros c e angle s d L M [-> | ->]; cbn [events on_event]; unfold update_selection; cbn [display_eqb o_display init o_exp o_sim o_fig o_angle].
  - unfold set_pseudo_diel. destruct (Nat.eqb _ _) eqn:B; [intros _; now apply Nat.eqb_eq|intros [o H]; discriminate].
  - unfold set_residual. destruct (np_sub (map m_psi e) _); [|intros [o H]; discriminate]. cbn [rbind]. destruct (np_sub (map m_delta e) _); [|intros [o H]; discriminate]. cbn [rbind].
    destruct (np_sub (map fst (exp_rho e)) _) as [r|] eqn:Q; [|intros [o H]; discriminate]. intros _.
    unfold np_sub in Q. destruct (Nat.eqb _ _) eqn:B.
    + apply Nat.eqb_eq in B. unfold exp_rho in B. rewrite !map_length in B. symmetry. exact B.
    + exfalso. destruct e as [|x [|y e]]; try (cbn in L; lia). destruct (s_rho s) as [|z [|w k]]; try (cbn in M; lia). discriminate Q.
Qed.

(** A measurement of two wavelengths, columns as the Accurion importer returns them; the user looks at
    the residual, changes a parameter and looks at the pseudo dielectric function, which the
    second simulated rho = -1 does not have. *)
Example C78_example :
  let e := [Row 400 45 90; Row 500 0 120] in
  let s := Sim [30; 45] [10; 180] [RtoC 2; RtoC (-1)] in
  exists o, events (init DeltaFirst e 45 (Sim [45; 45] [90; 100] [Ci; Ci])) [Select Residual; Simulate s; Select PseudoDiel] = Ok o /\
    Permutation (map fst (map curve (f_data (o_fig o)))) ["ϵ1"; "ϵ2"; "ϵ1_calc"; "ϵ2_calc"] /\
    exists v, In ("ϵ1_calc", [(400, v)]) (map curve (f_data (o_fig o))).
Proof.
  intros e s. destruct (C78_figure DeltaFirst e 45 (Sim [45; 45] [90; 100] [Ci; Ci]) [Select Residual; Simulate s; Select PseudoDiel]) as (o & A & B & C & D & P).
  - repeat split.
  - repeat (apply Forall_cons; [repeat split|]). apply Forall_nil.
  - exists o. split; [exact A|]. cbn [last_display last_sim] in P. split.
    + apply Permutation_map with (f := fst) in P. exact P.
    + exists (Re (pseudo_diel 45 2)). apply Permutation_sym in P. refine (Permutation_in _ P _). right. right. left.
      unfold s, e. cbn [combine map m_lbda s_rho pseudo_points fst snd RtoC]. f_equal.
      destruct (Req_EM_T 2 (-1)); [lra|]. destruct (Req_EM_T (-1) (-1)); [|lra]. destruct (Req_EM_T 0 0); [reflexivity|lra].
Qed.

(** C79: get_model_data gives the simulated values (with the given or the fitted parameters) under the right names, and
    the measured ones if wanted, for both representations; other representations raise ValueError. *)
Theorem C79_get_model_data : forall c e fitted given append, let s := match given with Some g => g | None => fitted end in
  complete e s ->
  let ending := match given with Some _ => "model" | None => "fit" end in
  let measured := match c with PsiFirst => [(Name "Ψ", Reals (map m_psi e)); (Name "Δ", Reals (map m_delta e))]
                             | DeltaFirst => [(Name "Δ", Reals (map m_delta e)); (Name "Ψ", Reals (map m_psi e))] end in
  get_model_data c e fitted given (Text "psi-delta") append =
    Ok (Frame (map m_lbda e) ((if append then measured else []) ++ [(Name ("Ψ_" ++ ending), Reals (s_psi s)); (Name ("Δ_" ++ ending), Reals (s_delta s))])) /\
  get_model_data c e fitted given (Text "rho") append =
    Ok (Frame (map m_lbda e) ((if append then [(Number 0, Complexes (map (fun m => (rho_re m, rho_im m)) e))] else []) ++
      [(Name ("ρ_" ++ ending), Complexes (s_rho s))])) /\
  forall t, t <> "psi-delta" -> t <> "rho" -> get_model_data c e fitted given (Text t) append = Err ValueError.
Proof.
  intros c e fitted given append s (P & D & Z) ending measured. unfold get_model_data.
  assert (K : (match given with None => (fitted, "fit") | Some g => (g, "model") end) = (s, ending)) by (unfold s, ending; now destruct given).
  rewrite K, P, D, Z, Nat.eqb_refl. cbn [is_text String.eqb orb negb andb]. split; [|split].
  - cbn. unfold exp_columns, measured. destruct append, c; reflexivity.
  - cbn. rewrite exp_rho_eq. destruct append; reflexivity.
  - intros t A B. apply String.eqb_neq in A, B. cbn [is_text]. now rewrite A, B.
Qed.
Print Assumptions C79_get_model_data.

(** Refuted for to_csv of a psi/delta fit: the flag for the measured data is taken for the
    representation, and every call raises ValueError. *)
Theorem C79_to_csv : forall c e fitted given append, to_csv c e fitted given append = Err ValueError.
Proof. reflexivity. Qed.
Theorem C79_to_csv_refuted : exists c e fitted append, complete e fitted /\ e <> [] /\ to_csv c e fitted None append = Err ValueError.
Proof. exists PsiFirst, [Row 500 45 90], (Sim [45] [90] [Ci]), false. repeat split. discriminate. Qed.
Print Assumptions C79_to_csv_refuted.

Example C79_example : get_model_data DeltaFirst [Row 500 45 90] (Sim [44] [91] [Ci]) None (Text "psi-delta") true =
  Ok (Frame [500] [(Name "Δ", Reals [90]); (Name "Ψ", Reals [45]); (Name "Ψ_fit", Reals [44]); (Name "Δ_fit", Reals [91])]).
Proof. reflexivity. Qed.
