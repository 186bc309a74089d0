From Coq Require Import Reals Lra Psatz.
From Coquelicot Require Import Complex.
From Coq Require Import List.
From Verif.Base Require Import Py Cx Mat.
From Verif.Model Require Import Units Ellips Structure Solver2.
From Verif.Spec Require Import Stack.
From Verif.Proof Require Import StackP FluxP UnitsP DispersionsP StructureP Solver2P Solver2P2 Solver2P3 Solver2P4.
Import ListNotations.
Open Scope R_scope.
Open Scope C_scope.
Open Scope py_scope.

Lemma k0_R lb : (lb <> 0)%R -> k0 lb = RtoC (2 * PI / lb).
Proof. intros H. unfold k0. rewrite RtoC_div, RtoC_mult by exact H. reflexivity. Qed.

(** Losses of a layer in terms of its permittivity *)
Lemma loss_layer b (k d kx : R) (eps : C) : eps <> 0 -> kz_layer (RtoC kx) eps <> 0 ->
  loss (char_layer (pc b) (layer_of (RtoC k) (RtoC kx) (d, eps))) =
  if b then (0%R, (k * d * Im eps)%R) else ((k * d * Im eps)%R, (k * d * Im (1 - RtoC kx * RtoC kx / eps)%C)%R).
Proof.
  intros N Z. unfold kz_layer in Z. unfold char_layer, layer_of. cbn [fst snd].
  assert (C2 := layer_cos2 (RtoC kx) eps N). cbv zeta in C2.
  set (n := Csqrt eps) in *. set (c := Ccos _) in *.
  assert (Nn : n <> 0) by (apply Csqrt_neq0; exact N). assert (n2 : n * n = eps) by apply Csqrt_sqr.
  assert (Nc : c <> 0) by (intros E; apply Z; rewrite E; ring).
  destruct b; unfold pc, char_s, char_p, loss; cbn [fst snd]; fold c.
  - f_equal.
    + replace (RtoC k * n * c * RtoC d * (1 / (n * c))) with (RtoC (k * d)) by (rewrite RtoC_mult; Cfield). reflexivity.
    + replace (RtoC k * n * c * RtoC d * (n * c / 1)) with (RtoC (k * d) * (eps - RtoC (kx * kx))).
      * unfold Im. simpl. ring.
      * rewrite !RtoC_mult. transitivity (RtoC k * RtoC d * ((n * n) * (c * c))); [|Cfield]. rewrite C2, n2. Cfield.
  - f_equal.
    + replace (RtoC k * n * c * RtoC d * (n / c)) with (RtoC (k * d) * eps).
      * unfold Im. simpl. ring.
      * rewrite <- n2, RtoC_mult. Cfield.
    + replace (RtoC k * n * c * RtoC d * (c / n)) with (RtoC (k * d) * (1 - RtoC kx * RtoC kx / eps)).
      * set (z := 1 - RtoC kx * RtoC kx / eps). unfold Im. destruct z. simpl. ring.
      * rewrite <- C2, RtoC_mult. Cfield.
Qed.

Lemma loss_passive (b : bool) (k d kx : R) (eps : C) : eps <> 0 -> kz_layer (RtoC kx) eps <> 0 -> (0 <= k * d)%R -> (0 <= Im eps)%R ->
  let l := loss (char_layer (pc b) (layer_of (RtoC k) (RtoC kx) (d, eps))) in (0 <= fst l)%R /\ (0 <= snd l)%R.
Proof.
  intros N Z D I. cbv zeta. rewrite loss_layer by assumption.
  assert (S := passive_sin2 eps kx N I). destruct b; cbn [fst snd]; split; try lra; apply Rmult_le_pos; assumption.
Qed.
Lemma Im_real_sin2 (e kx : R) : (e <> 0)%R -> Im (1 - RtoC kx * RtoC kx / RtoC e)%C = 0%R.
Proof. intros H. unfold Im. simpl. field. nra. Qed.
Lemma loss_real (b : bool) (k d kx e : R) : (e <> 0)%R -> kz_layer (RtoC kx) (RtoC e) <> 0 ->
  loss (char_layer (pc b) (layer_of (RtoC k) (RtoC kx) (d, RtoC e))) = (0%R, 0%R).
Proof.
  intros N Z. rewrite loss_layer; [|now apply C_of_R_neq|exact Z]. rewrite Im_real_sin2 by exact N.
  assert (E : Im (RtoC e) = 0%R) by reflexivity. rewrite E. destruct b; f_equal; ring.
Qed.

(** Power carried by the wave in the back medium *)
Definition back_flux (b : bool) (kx eps : C) : R := Re (fst (pc b (half_of kx eps)) * Cconj (snd (pc b (half_of kx eps))))%C.

Lemma back_flux_s kx eps : back_flux true kx eps = Re (kz_half kx eps).
Proof. unfold back_flux, pc, char_s, kz_half, Re. cbn [fst snd]. simpl. ring. Qed.
Lemma back_flux_p kx eps : back_flux false kx eps =
  (Re (kz_half kx eps) + 2 * Im (fst (half_of kx eps)) * Im (Ccos (snd (half_of kx eps))))%R.
Proof. unfold back_flux, pc, char_p, kz_half, Re, Im. cbn [fst snd]. simpl. ring. Qed.

(** For real permittivity index or cosine is real. *)
Lemma real_eps (kx e : R) : (e <> 0)%R ->
  (Im (Csqrt (RtoC e)) * Im (Ccos (Casin (RtoC kx / Csqrt (RtoC e)))) = 0)%R.
Proof.
  intros N. assert (N' : RtoC e <> 0) by now apply C_of_R_neq.
  destruct (Rlt_dec 0 e) as [P|P].
  - rewrite Csqrt_pos by lra. unfold Im at 1. simpl. ring.
  - assert (C2 := layer_cos2 (RtoC kx) (RtoC e) N'). cbv zeta in C2.
    assert (E : 1 - RtoC kx * RtoC kx / RtoC e = RtoC (1 - kx * kx / e)).
    { apply C_ext; simpl; field; lra. }
    assert (Q : (0 <= kx * kx / - e)%R) by (apply Rmult_le_pos; [nra|left; apply Rinv_0_lt_compat; lra]).
    rewrite Ccos_Casin. replace (1 - RtoC kx / Csqrt (RtoC e) * (RtoC kx / Csqrt (RtoC e))) with (RtoC (1 - kx * kx / e)).
    + rewrite (Csqrt_pos (1 - kx * kx / e)%R); [unfold Im at 2; simpl; ring|]. replace (kx * kx / e)%R with (- (kx * kx / - e))%R by (field; repeat split; lra).
      apply Rle_trans with 1%R; [lra|]. revert Q. generalize (kx * kx / - e)%R. intros; lra.
    + rewrite <- E. rewrite <- (Csqrt_sqr (RtoC e)) at 1. field. now apply Csqrt_neq0.
Qed.
Lemma real_half (kx e : R) : (e <> 0)%R ->
  (Im (fst (half_of (RtoC kx) (RtoC e))) * Im (Ccos (snd (half_of (RtoC kx) (RtoC e)))) = 0)%R.
Proof.
  intros N. assert (Z := real_eps kx e N).
  destruct (kz_half_cases (RtoC kx) (RtoC e)) as [[_ E]|[_ [_ E]]]; rewrite E; unfold half_of; cbn [fst].
  - exact Z.
  - replace (Im (- Ccos (Casin (RtoC kx / Csqrt (RtoC e))))%C) with (- Im (Ccos (Casin (RtoC kx / Csqrt (RtoC e)))))%R by reflexivity.
    lra.
Qed.

Lemma back_flux_real b (kx e : R) : (e <> 0)%R -> back_flux b (RtoC kx) (RtoC e) = Re (kz_half (RtoC kx) (RtoC e)).
Proof.
  intros N. destruct b; [apply back_flux_s|]. rewrite back_flux_p. assert (Z := real_half kx e N).
  rewrite Rmult_assoc, Z. ring.
Qed.

Lemma back_flux_passive b (kx : R) (eps : C) : eps <> 0 -> (0 <= Im eps)%R ->
  (Re (kz_half (RtoC kx) eps) <= back_flux b (RtoC kx) eps)%R.
Proof.
  intros N I. destruct b; [rewrite back_flux_s; lra|]. rewrite back_flux_p.
  enough (0 <= Im (fst (half_of (RtoC kx) eps)) * Im (Ccos (snd (half_of (RtoC kx) eps))))%R by nra.
  destruct (kz_half_cases (RtoC kx) eps) as [[_ E]|[_ [F E]]]; rewrite E; unfold half_of; cbn [fst].
  - apply Rmult_le_pos; [now apply Csqrt_Im_ge0|]. rewrite Ccos_Casin. apply Csqrt_Im_ge0.
    replace (1 - RtoC kx / Csqrt eps * (RtoC kx / Csqrt eps)) with (1 - RtoC kx * RtoC kx / eps); [now apply passive_sin2|].
    rewrite <- (Csqrt_sqr eps) at 1. field. now apply Csqrt_neq0.
  - apply flip_passive in F; [|assumption|assumption]. destruct F as [F _].
    assert (S := kz_layer_sqr (RtoC kx) eps N). apply (f_equal Im) in S.
    assert (Ie : Im eps = 0%R).
    { revert S F. unfold Re, Im. simpl. intros S F. rewrite F in S. lra. }
    assert (Ee : eps = RtoC (Re eps)) by (destruct eps; unfold Im in Ie; simpl in *; now subst).
    assert (Z := real_eps kx (Re eps)). rewrite <- Ee in Z.
    replace (Im (- Ccos (Casin (RtoC kx / Csqrt eps)))%C) with (- Im (Ccos (Casin (RtoC kx / Csqrt eps))))%R by reflexivity.
    rewrite Ropp_mult_distr_r_reverse, Z; [lra|]. intros K. apply N. rewrite Ee, K. reflexivity.
Qed.

(** The front medium *)
Lemma front_flux b th (x : R) : (0 < x)%R -> cos (deg2rad th) <> 0%R ->
  let m := pc b (half_of (kx_of th (RtoC x)) (RtoC x)) in
  Re (fst m * Cconj (snd m))%C = Re (kz_half (kx_of th (RtoC x)) (RtoC x)) /\
  Im (fst m * Cconj (snd m))%C = 0%R /\ (0 < Re (kz_half (kx_of th (RtoC x)) (RtoC x)))%R.
Proof.
  intros P Q. destruct (kz_front th x P Q) as (E1 & E2 & E3). cbv zeta. rewrite E1, E2.
  assert (S := sqrt_lt_R0 x P). assert (A := Rabs_pos_lt _ Q).
  destruct b; unfold pc, char_s, char_p; cbn [fst snd]; rewrite E3; unfold Re, Im; simpl; repeat split; try ring; nra.
Qed.

Definition kz_ok (kx : C) (ls : list (R * C)) : Prop := Forall (fun l => kz_layer kx (snd l) <> RtoC 0) ls.

Lemma nonsing_kz b m k kx ls bk : nonsing m (map (char_layer (pc b)) (map (layer_of k kx) ls)) bk -> kz_ok kx ls.
Proof.
  intros N. apply nonsing_layers in N. unfold layers_ok in N. unfold kz_ok. rewrite Forall_forall in N |- *.
  intros l H. specialize (N (char_layer (pc b) (layer_of k kx l))).
  destruct N as [P Q]; [apply in_map, in_map; exact H|]. unfold kz_layer. intros E.
  unfold char_layer, layer_of in P, Q. cbn [fst snd] in P, Q.
  destruct b; unfold pc, char_s, char_p in P, Q; cbn [fst snd] in P, Q.
  - contradiction.
  - apply C_integral in E. tauto.
Qed.

(** Energy balance at the level of the flux *)
Lemma energy_eq b th lb (x : R) (ls : list (R * R)) (eb : C) r t :
  (0 < x)%R -> cos (deg2rad th) <> 0%R ->
  let ls' := map (fun l => (fst l, RtoC (snd l))) ls in let kx := kx_of th (RtoC x) in
  rt b (solver2 th lb (RtoC x) ls' eb) = Some (r, t) ->
  (Re (kz_half kx (RtoC x)) * (1 - Cnorm2 r) = back_flux b kx eb * Cnorm2 t)%R.
Proof.
  intros P Q. cbv zeta. intros H. apply rt_some in H. destruct H as [(L & _ & Nb & F) H].
  assert (N := proj1 (proj1 (amplitudes_iff (pf b) (pc b) (pf_char b) _ _ _ r t) H)).
  apply (amplitudes_scattering (pf b) (pc b) (pf_char b)) in H. destruct H as [H _]. cbv zeta in H.
  destruct (front_flux b th x P Q) as (F1 & F2 & F3). cbv zeta in F1, F2.
  assert (K := nonsing_kz _ _ _ _ _ _ N).
  unfold scattering in H. apply flux_matched_eq in H; [|now apply nonsing_layers in N|].
  - rewrite flux_front, F1 in H by exact F2. exact H.
  - rewrite kx_real in * by lra. rewrite k0_R by exact L. rewrite Forall_forall in F. unfold kz_ok in K. rewrite Forall_forall in K |- *.
    intros y Hy. apply in_map_iff in Hy. destruct Hy as (y1 & <- & Hy). apply in_map_iff in Hy. destruct Hy as (y2 & <- & Hy).
    assert (K2 := K _ Hy). assert (F' := F _ Hy). apply in_map_iff in Hy. destruct Hy as ([d e] & <- & Hy). cbn [fst snd] in *.
    apply loss_real; [|exact K2]. intros E. apply F'. now rewrite E.
Qed.

Lemma energy_le b th lb (x : R) (ls : list (R * C)) (eb : C) r t :
  (0 < x)%R -> cos (deg2rad th) <> 0%R -> (0 < lb)%R ->
  Forall (fun l => (0 <= fst l)%R /\ (0 <= Im (snd l))%R) ls ->
  let kx := kx_of th (RtoC x) in
  rt b (solver2 th lb (RtoC x) ls eb) = Some (r, t) ->
  (back_flux b kx eb * Cnorm2 t <= Re (kz_half kx (RtoC x)) * (1 - Cnorm2 r))%R.
Proof.
  intros P Q Lp G. cbv zeta. intros H. apply rt_some in H. destruct H as [(L & _ & Nb & F) H].
  assert (N := proj1 (proj1 (amplitudes_iff (pf b) (pc b) (pf_char b) _ _ _ r t) H)).
  apply (amplitudes_scattering (pf b) (pc b) (pf_char b)) in H. destruct H as [H _]. cbv zeta in H.
  destruct (front_flux b th x P Q) as (F1 & F2 & F3). cbv zeta in F1, F2.
  assert (K := nonsing_kz _ _ _ _ _ _ N).
  unfold scattering in H. apply flux_matched in H; [|now apply nonsing_layers in N|].
  - rewrite flux_front, F1 in H by exact F2. exact H.
  - rewrite kx_real in * by lra. rewrite k0_R by exact L. unfold kz_ok in K. rewrite Forall_forall in F, G, K |- *.
    intros y Hy. apply in_map_iff in Hy. destruct Hy as (y1 & <- & Hy). apply in_map_iff in Hy. destruct Hy as ([d e] & <- & Hy).
    assert (K2 := K _ Hy). assert (F' := F _ Hy). destruct (G _ Hy) as [G1 G2]. cbn [fst snd] in *.
    apply loss_passive; try assumption. apply Rmult_le_pos; [|exact G1].
    apply Rmult_le_pos; [|left; apply Rinv_0_lt_compat; exact Lp]. assert (Pi := PI_RGT_0). lra.
Qed.

(** Definedness *)
Lemma matched_zero ls : forall pb qb t : C, layers_ok ls -> matched 0 0 ls pb qb t -> (pb <> 0 \/ qb <> 0) -> t = 0.
Proof.
  induction ls as [|[[p q] d] ls IH]; intros pb qb t L H Z; cbn [matched] in H.
  - destruct H as [H1 H2]. destruct Z as [Z|Z].
    + symmetry in H1. apply C_integral in H1. tauto.
    + symmetry in H2. apply C_integral in H2. tauto.
  - inversion L as [|y l [P Q] L']; subst. cbn [fst snd] in P, Q. destruct H as (A & B & E1 & E2 & H).
    symmetry in E1, E2. apply C_integral in E1, E2. destruct E1 as [|E1]; [contradiction|]. destruct E2 as [|E2]; [contradiction|].
    assert (A0 : A = 0). { replace A with ((A + B + (A - B)) / 2) by Cfield. rewrite E1, E2. Cfield. }
    assert (B0 : B = 0). { replace B with ((A + B - (A - B)) / 2) by Cfield. rewrite E1, E2. Cfield. }
    subst A B. cbv zeta in H. apply (IH pb qb t L'); [|exact Z].
    match type of H with matched ?a ?b _ _ _ _ => replace a with (RtoC 0) in H by ring; replace b with (RtoC 0) in H by ring end. exact H.
Qed.

Lemma defined b th lb (x : R) (ls : list (R * C)) (eb : C) :
  (0 < x)%R -> cos (deg2rad th) <> 0%R -> (0 < lb)%R -> eb <> 0 -> (0 <= Im eb)%R ->
  Forall (fun l => (0 <= fst l)%R /\ (0 <= Im (snd l))%R /\ snd l <> RtoC 0) ls ->
  let kx := kx_of th (RtoC x) in
  nonsing (pc b (half_of kx (RtoC x))) (map (char_layer (pc b)) (map (layer_of (k0 lb) kx) ls)) (pc b (half_of kx eb)) ->
  exists r t, rt b (solver2 th lb (RtoC x) ls eb) = Some (r, t).
Proof.
  intros P Q Lp Nb Ib G kx N. assert (Nx : RtoC x <> 0) by (apply C_of_R_neq; lra).
  rewrite rt_eq.
  2:{ split; [lra|]. split; [exact Nx|]. split; [exact Nb|]. rewrite Forall_forall in G |- *. intros l Hl. apply G. exact Hl. }
  fold kx. set (m := pc b (half_of kx (RtoC x))) in *. set (l := map (char_layer (pc b)) _) in *. set (bk := pc b (half_of kx eb)) in *.
  exists (snd (inc_ref m l bk) / fst (inc_ref m l bk)), (1 / fst (inc_ref m l bk)).
  apply (amplitudes_iff (pf b) (pc b) (pf_char b)). cbv zeta. fold l bk. change (pc b (half_of kx (RtoC x))) with m.
  split; [exact N|]. split; [|split; reflexivity].
  assert (L := nonsing_layers _ _ _ N). assert (M := matched_front l (fst bk) (snd bk) 1 L).
  destruct (front_flux b th x P Q) as (F1 & F2 & F3). cbv zeta in F1, F2. fold kx m in F1, F2. fold kx in F3.
  assert (PQ : fst m <> 0 /\ snd m <> 0) by (destruct l; cbn [nonsing] in N; tauto). destruct PQ as [Pm Qm].
  unfold inc_ref. destruct (front_fields l (fst bk) (snd bk) 1) as [u v]. cbn [fst snd] in *. intros A0.
  assert (U : u = fst m * ((u / fst m - v / snd m) / 2)).
  { transitivity (fst m * ((u / fst m + v / snd m) / 2 + (u / fst m - v / snd m) / 2)); [Cfield|]. rewrite A0. ring. }
  assert (V : v = - (snd m * ((u / fst m - v / snd m) / 2))).
  { transitivity (snd m * ((u / fst m + v / snd m) / 2 - (u / fst m - v / snd m) / 2)); [Cfield|]. rewrite A0. ring. }
  set (r := (u / fst m - v / snd m) / 2) in *. clearbody r.
  assert (FL : (Re (fst bk * Cconj (snd bk))%C * Cnorm2 1 <= flux u v)%R).
  { apply (flux_matched l); [exact L| |exact M].
    assert (K := nonsing_kz _ _ _ _ _ _ N). assert (kxr : kx = RtoC (sqrt x * sin (deg2rad th))) by (apply kx_real; lra).
    unfold l. rewrite k0_R by lra. clear - G K kxr Lp. rewrite kxr in *. unfold kz_ok in K. rewrite Forall_forall in G, K |- *.
    intros y Hy. apply in_map_iff in Hy. destruct Hy as (y1 & <- & Hy). apply in_map_iff in Hy. destruct Hy as ([d e] & <- & Hy).
    assert (K2 := K _ Hy). destruct (G _ Hy) as (G1 & G2 & G3). cbn [fst snd] in *.
    apply loss_passive; try assumption. apply Rmult_le_pos; [|exact G1].
    apply Rmult_le_pos; [|left; apply Rinv_0_lt_compat; exact Lp]. assert (Pi := PI_RGT_0). lra. }
  assert (B0 : (0 <= Re (fst bk * Cconj (snd bk))%C)%R).
  { assert (E : kx = RtoC (sqrt x * sin (deg2rad th))) by (apply kx_real; lra).
    assert (H1 := back_flux_passive b (sqrt x * sin (deg2rad th)) eb Nb Ib). rewrite <- E in H1.
    assert (H2 := kz_half_Re eb (sqrt x * sin (deg2rad th)) Nb Ib). rewrite <- E in H2.
    unfold back_flux in H1. fold bk in H1. lra. }
  assert (FR : flux u v = (- (Re (kz_half kx (RtoC x)) * Cnorm2 r))%R).
  { rewrite <- F1, U, V. unfold flux, Re, Cnorm2. destruct m as [[p1 p2] [q1 q2]], r as [r1 r2]. simpl. ring. }
  assert (R0 : (Cnorm2 r = 0)%R).
  { assert (G0 := Cnorm2_ge0 r). assert (O : Cnorm2 1 = 1%R) by (unfold Cnorm2; simpl; ring). rewrite O in FL. nra. }
  apply Cnorm2_eq0 in R0. subst r.
  assert (U0 : u = 0) by (rewrite U; ring). assert (V0 : v = 0) by (rewrite V; ring). rewrite U0, V0 in M.
  assert (one : RtoC 1 = 0).
  { apply (matched_zero l (fst bk) (snd bk) 1 L M). unfold bk. destruct b; unfold pc, char_s, char_p; cbn [fst snd].
    - left. intros E. apply RtoC_inj in E. lra.
    - left. unfold half_of. cbn [fst]. now apply Csqrt_neq0. }
  apply RtoC_inj in one. lra.
Qed.

(** Interfaces without resonance *)
Lemma quad_sum (a b : C) : first_quadrant a -> first_quadrant b -> a <> 0 -> a + b <> 0.
Proof.
  intros [A1 A2] [B1 B2] N E. apply N. unfold Re, Im in *.
  assert (E1 := f_equal fst E). assert (E2 := f_equal snd E). simpl in E1, E2. apply C_ext; simpl; lra.
Qed.

Lemma nonsing_all (ls : list (C * C * C)) : forall m k : C * C,
  fst m <> 0 -> snd m <> 0 ->
  (forall a c, In a (m :: map fst ls) -> In c (map fst ls ++ [k]) -> snd a * fst c + fst a * snd c <> 0) ->
  Forall (fun l => fst (fst l) <> RtoC 0 /\ snd (fst l) <> RtoC 0) ls -> nonsing m ls k.
Proof.
  induction ls as [|l ls IH]; intros m k P Q H F; cbn [nonsing next_pq].
  - split; [exact P|]. split; [exact Q|]. split; [|exact I]. apply H; simpl; auto.
  - inversion F as [|x y [F1 F2] F']; subst. split; [exact P|]. split; [exact Q|]. split; [apply H; simpl; auto|].
    apply IH; try assumption. intros a c Ha Hc. apply H; simpl in *; tauto.
Qed.
