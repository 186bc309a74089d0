(** C37, C66, C67: energy balance of Solver2x2. *)
From Coq Require Import Reals Lra Psatz ZArith Lia.
From Coquelicot Require Import Complex.
From Coq Require Import List.
From Verif.Base Require Import Py Cx Mat.
From Verif.Model Require Import Units Ellips Structure Solver2.
From Verif.Spec Require Import Stack.
From Verif.Proof Require Import StackP FluxP UnitsP DispersionsP StructureP Solver2P Solver2P2 Solver2P3 Solver2P4 Solver2P5.
Import ListNotations.
Open Scope R_scope.
Open Scope C_scope.

Lemma pc_some th lb ef ls eb x : power_correction (solver2 th lb ef ls eb) = Some x ->
  let kx := kx_of th ef in (Re (kz_half kx ef) <> 0)%R /\ x = (Re (kz_half kx eb) / Re (kz_half kx ef))%R.
Proof.
  destruct (input_dec lb ef ls eb) as [I|I].
  - rewrite solver2_eq by exact I. cbn [power_correction]. intros H. unfold rdiv in H.
    destruct (Req_EM_T _ 0) as [|N]; [discriminate|]. apply Some_eq in H. subst. auto.
  - rewrite solver2_inv by exact I. discriminate.
Qed.

(** C37: reflected and transmitted power of a stack of media with real permittivities of any sign
    sum to one in each polarisation, for any number of layers, any angle other than grazing
    incidence and any real permittivity behind it (also beyond total reflection). *)
Theorem C37_energy : forall theta_i lbda (x y : R) (ls : list (R * R)) r t pc,
  (0 < x)%R -> cos (theta_i * PI / 180) <> 0%R ->
  let res := solver2 theta_i lbda (RtoC x) (map (fun l => (fst l, RtoC (snd l))) ls) (RtoC y) in
  power_correction res = Some pc -> (rt_s res = Some (r, t) \/ rt_p res = Some (r, t)) ->
  (Cmod r * Cmod r + pc * (Cmod t * Cmod t) = 1)%R.
Proof.
  intros th lb x y ls r t pc P Q res E H. apply pc_some in E. cbv zeta in E. destruct E as [N ->].
  assert (G : exists b, rt b res = Some (r, t)) by (destruct H as [H|H]; [exists true|exists false]; exact H).
  destruct G as [b G]. assert (I := G). apply rt_some in I. destruct I as [(_ & _ & Ny & _) _].
  apply energy_eq in G; [|exact P|exact Q]. rewrite kx_real in * by lra.
  rewrite back_flux_real in G by (intros K; apply Ny; now rewrite K).
  rewrite !Cmod_sqr. apply (Rmult_eq_reg_l (Re (kz_half (RtoC (sqrt x * sin (deg2rad th))) (RtoC x)))); [|exact N].
  field_simplify; [|exact N]. lra.
Qed.
Print Assumptions C37_energy.

(** The same in terms of the Result: each polarisation and the totals. *)
Theorem C37_result : forall theta_i lbda (x y : R) (ls : list (R * R)) J_r J_t pc,
  (0 < x)%R -> cos (theta_i * PI / 180) <> 0%R ->
  let res := solver2 theta_i lbda (RtoC x) (map (fun l => (fst l, RtoC (snd l))) ls) (RtoC y) in
  jones2_r res = Some J_r -> jones2_t res = Some J_t -> power_correction res = Some pc ->
  (R_matrix J_r 0 0 + T_matrix pc J_t 0 0 = 1)%R /\ (R_matrix J_r 1 1 + T_matrix pc J_t 1 1 = 1)%R /\
  (R_matrix J_r 0 1 = 0 /\ R_matrix J_r 1 0 = 0 /\ T_matrix pc J_t 0 1 = 0 /\ T_matrix pc J_t 1 0 = 0)%R /\
  (Rtot J_r + Ttot pc J_t = 1)%R.
Proof.
  intros th lb x y ls Jr Jt pc P Q res Hr Ht Hp. unfold jones2_r, jones2_t, jones2 in *.
  destruct (rt_p res) as [[rp tp]|] eqn:Ep; [|discriminate]. destruct (rt_s res) as [[rs ts]|] eqn:Es; [|discriminate].
  cbn [obind fst snd] in *. apply Some_eq in Hr, Ht. subst Jr Jt.
  assert (A := C37_energy th lb x y ls rs ts pc P Q Hp (or_introl Es)).
  assert (B := C37_energy th lb x y ls rp tp pc P Q Hp (or_intror Ep)).
  assert (Z : Cmod (RtoC 0) = 0%R) by apply Cmod_0.
  unfold Rtot, Ttot, R_matrix, T_matrix, mat_of. cbn [nth]. rewrite Z. repeat split; lra.
Qed.
Print Assumptions C37_result.

(** There is a result: for media of real permittivity in front of a back medium with a
    propagating wave, unless the wave is exactly grazing in a layer; in p polarisation if all
    permittivities are positive. *)
Theorem C37_defined : forall theta_i lbda (x y : R) (ls : list (R * R)),
  (0 < x)%R -> cos (theta_i * PI / 180) <> 0%R -> (0 < lbda)%R ->
  let s2 := (x * (sin (theta_i * PI / 180) * sin (theta_i * PI / 180)))%R in
  (s2 < y)%R -> Forall (fun l => (0 <= fst l)%R /\ snd l <> 0%R /\ snd l <> s2) ls ->
  let res := solver2 theta_i lbda (RtoC x) (map (fun l => (fst l, RtoC (snd l))) ls) (RtoC y) in
  (exists r t, rt_s res = Some (r, t)) /\
  (Forall (fun l => (0 < snd l)%R) ls -> exists r t, rt_p res = Some (r, t)) /\
  power_correction res = Some (sqrt (y - s2) / (sqrt x * Rabs (cos (theta_i * PI / 180))))%R.
Proof.
  intros th lb x y ls P Q L s2 Y F res.
  set (s := sin (th * PI / 180)) in *. set (kx := (sqrt x * s)%R).
  assert (kx2 : (kx * kx = s2)%R).
  { unfold kx, s2. replace (sqrt x * s * (sqrt x * s))%R with (sqrt x * sqrt x * (s * s))%R by ring. rewrite sqrt_sqrt by lra. reflexivity. }
  assert (S2 : (0 <= s2)%R) by (rewrite <- kx2; nra).
  assert (Kx : kx_of th (RtoC x) = RtoC kx) by (apply kx_real; lra).
  assert (Ny : RtoC y <> 0) by (apply C_of_R_neq; lra).
  assert (Iy : (0 <= Im (RtoC y))%R) by (apply Req_le; reflexivity).
  assert (Wb : kz_half (RtoC kx) (RtoC y) = RtoC (sqrt (y - s2))).
  { assert (S := kz_half_sqr (RtoC kx) (RtoC y) Ny).
    assert (S' : kz_half (RtoC kx) (RtoC y) * kz_half (RtoC kx) (RtoC y) = RtoC (y - s2)).
    { rewrite S, <- kx2, RtoC_minus, RtoC_mult. reflexivity. }
    assert (R0 := kz_half_Re (RtoC y) kx Ny Iy).
    destruct (kz_half (RtoC kx) (RtoC y)) as [a b]. unfold Re in R0. cbn [fst] in R0.
    assert (S1 := f_equal fst S'). assert (S3 := f_equal snd S'). simpl in S1, S3.
    assert (b0 : (b = 0)%R).
    { destruct (Req_dec a 0) as [->|Na]; [|nra]. nra. }
    subst b. apply C_ext; simpl; [|reflexivity]. symmetry. apply sqrt_lem_1; lra. }
  destruct (kz_front th x P Q) as (Ef & Hf & Cf). rewrite Kx in Ef, Hf.
  set (ls' := map (fun l => (fst l, RtoC (snd l))) ls) in *.
  assert (G : Forall (fun l => (0 <= fst l)%R /\ (0 <= Im (snd l))%R /\ snd l <> RtoC 0) ls').
  { rewrite Forall_forall in F |- *. intros l Hl. apply in_map_iff in Hl. destruct Hl as (a & <- & Ha). cbn [fst snd].
    destruct (F a Ha) as (F1 & F2 & _). split; [exact F1|]. split; [apply Req_le; reflexivity|]. now apply C_of_R_neq. }
  assert (Kz : forall l, In l ls' -> kz_layer (RtoC kx) (snd l) <> 0 /\ first_quadrant (kz_layer (RtoC kx) (snd l))).
  { intros l Hl. rewrite Forall_forall in G. destruct (G l Hl) as (_ & G2 & G3). split; [|now apply kz_layer_quad].
    intros E. assert (S := kz_layer_sqr (RtoC kx) (snd l) G3). rewrite E in S. apply in_map_iff in Hl. destruct Hl as (a & <- & Ha).
    rewrite Forall_forall in F. destruct (F a Ha) as (_ & _ & F3). apply F3. cbn [snd] in S.
    apply (f_equal fst) in S. simpl in S. rewrite <- kx2. lra. }
  assert (Ax : (0 < sqrt x * Rabs (cos (deg2rad th)))%R) by (apply Rmult_lt_0_compat; [now apply sqrt_lt_R0|now apply Rabs_pos_lt]).
  assert (Yb : (0 < sqrt (y - s2))%R) by (apply sqrt_lt_R0; lra).
  split; [|split].
  - apply (defined true th lb x ls' (RtoC y) P Q L Ny Iy G). rewrite Kx. apply nonsing_all.
    + intros K. apply RtoC_inj in K. lra.
    + unfold pc, char_s. cbn [fst snd]. fold (kz_half (RtoC kx) (RtoC x)). rewrite Ef. apply C_of_R_neq. lra.
    + assert (Q1 : forall a, In a (pc true (half_of (RtoC kx) (RtoC x)) :: map fst (map (char_layer (pc true)) (map (layer_of (k0 lb) (RtoC kx)) ls'))) \/
                             In a (map fst (map (char_layer (pc true)) (map (layer_of (k0 lb) (RtoC kx)) ls')) ++ [pc true (half_of (RtoC kx) (RtoC y))]) ->
               fst a = RtoC 1 /\ first_quadrant (snd a) /\ snd a <> 0).
      { intros a [[<-|Ha]|Ha].
        - split; [reflexivity|]. unfold pc, char_s. cbn [fst snd]. fold (kz_half (RtoC kx) (RtoC x)). rewrite Ef.
          split; [split; unfold Re, Im; simpl; lra|apply C_of_R_neq; lra].
        - rewrite !map_map in Ha. apply in_map_iff in Ha. destruct Ha as (l & <- & Hl).
          split; [reflexivity|]. unfold char_layer, layer_of, pc, char_s. cbn [fst snd].
          destruct (Kz l Hl) as [K1 K2]. split; [exact K2|exact K1].
        - apply in_app_or in Ha. destruct Ha as [Ha|[<-|[]]].
          + rewrite !map_map in Ha. apply in_map_iff in Ha. destruct Ha as (l & <- & Hl).
            split; [reflexivity|]. unfold char_layer, layer_of, pc, char_s. cbn [fst snd].
            destruct (Kz l Hl) as [K1 K2]. split; [exact K2|exact K1].
          + split; [reflexivity|]. unfold pc, char_s. cbn [fst snd]. fold (kz_half (RtoC kx) (RtoC y)). rewrite Wb.
            split; [split; unfold Re, Im; simpl; lra|apply C_of_R_neq; lra]. }
      intros a c Ha Hc. destruct (Q1 a (or_introl Ha)) as (-> & A2 & A3). destruct (Q1 c (or_intror Hc)) as (-> & C2 & C3).
      rewrite Cmult_1_r, Cmult_1_l. now apply quad_sum.
    + rewrite Forall_forall. intros a Ha. rewrite map_map in Ha. apply in_map_iff in Ha. destruct Ha as (l & <- & Hl).
      unfold char_layer, layer_of, pc, char_s. cbn [fst snd]. split; [intros K; apply RtoC_inj in K; lra|apply (Kz l Hl)].
  - intros Pos. apply (defined false th lb x ls' (RtoC y) P Q L Ny Iy G). rewrite Kx.
    assert (Sc : forall (n c : C) (e : R), (0 < e)%R -> n = RtoC e -> first_quadrant (n * c) -> n * c <> 0 -> first_quadrant c /\ c <> 0).
    { intros n c e E -> [H1 H2] H3. split.
      - unfold first_quadrant, Re, Im in *. simpl in H1, H2. split; nra.
      - intros K. apply H3. rewrite K. ring. }
    assert (Hl' : forall l, In l ls' -> exists e, (0 < e)%R /\ Csqrt (snd l) = RtoC e /\
               first_quadrant (Ccos (Casin (RtoC kx / Csqrt (snd l)))) /\ Ccos (Casin (RtoC kx / Csqrt (snd l))) <> 0).
    { intros l Hl. destruct (Kz l Hl) as [K1 K2]. unfold kz_layer in K1, K2. apply in_map_iff in Hl. destruct Hl as (a & <- & Ha).
      rewrite Forall_forall in Pos. assert (Pa := Pos a Ha). cbn [snd] in *. exists (sqrt (snd a)).
      assert (E1 : (0 < sqrt (snd a))%R) by now apply sqrt_lt_R0. assert (E2 : Csqrt (RtoC (snd a)) = RtoC (sqrt (snd a))) by (apply Csqrt_pos; lra).
      split; [exact E1|]. split; [exact E2|]. apply (Sc _ _ (sqrt (snd a)) E1 E2 K2 K1). }
    assert (Hx : exists e, (0 < e)%R /\ fst (half_of (RtoC kx) (RtoC x)) = RtoC e /\
               first_quadrant (Ccos (snd (half_of (RtoC kx) (RtoC x)))) /\ Ccos (snd (half_of (RtoC kx) (RtoC x))) <> 0).
    { exists (sqrt x). split; [now apply sqrt_lt_R0|]. assert (E2 : fst (half_of (RtoC kx) (RtoC x)) = RtoC (sqrt x)) by (apply Csqrt_pos; lra).
      split; [exact E2|]. apply (Sc _ _ (sqrt x) (sqrt_lt_R0 _ P) E2); fold (kz_half (RtoC kx) (RtoC x)); rewrite Ef;
        [split; unfold Re, Im; simpl; lra|apply C_of_R_neq; lra]. }
    assert (Hy : exists e, (0 < e)%R /\ fst (half_of (RtoC kx) (RtoC y)) = RtoC e /\
               first_quadrant (Ccos (snd (half_of (RtoC kx) (RtoC y)))) /\ Ccos (snd (half_of (RtoC kx) (RtoC y))) <> 0).
    { exists (sqrt y). assert (Yp : (0 < y)%R) by lra. split; [now apply sqrt_lt_R0|]. assert (E2 : fst (half_of (RtoC kx) (RtoC y)) = RtoC (sqrt y)) by (apply Csqrt_pos; lra).
      split; [exact E2|]. apply (Sc _ _ (sqrt y) (sqrt_lt_R0 _ Yp) E2); fold (kz_half (RtoC kx) (RtoC y)); rewrite Wb;
        [split; unfold Re, Im; simpl; lra|apply C_of_R_neq; lra]. }
    assert (Q1 : forall a, In a (pc false (half_of (RtoC kx) (RtoC x)) :: map fst (map (char_layer (pc false)) (map (layer_of (k0 lb) (RtoC kx)) ls'))) \/
                           In a (map fst (map (char_layer (pc false)) (map (layer_of (k0 lb) (RtoC kx)) ls')) ++ [pc false (half_of (RtoC kx) (RtoC y))]) ->
               exists e, (0 < e)%R /\ fst a = RtoC e /\ first_quadrant (snd a) /\ snd a <> 0).
    { intros a [[<-|Ha]|Ha].
      - unfold pc, char_p. cbn [fst snd]. exact Hx.
      - rewrite !map_map in Ha. apply in_map_iff in Ha. destruct Ha as (l & <- & Hl).
        unfold char_layer, layer_of, pc, char_p. cbn [fst snd]. exact (Hl' l Hl).
      - apply in_app_or in Ha. destruct Ha as [Ha|[<-|[]]].
        + rewrite !map_map in Ha. apply in_map_iff in Ha. destruct Ha as (l & <- & Hl).
          unfold char_layer, layer_of, pc, char_p. cbn [fst snd]. exact (Hl' l Hl).
        + unfold pc, char_p. cbn [fst snd]. exact Hy. }
    assert (NZ : forall a, (exists e, (0 < e)%R /\ fst a = RtoC e /\ first_quadrant (snd a) /\ snd a <> 0) -> fst a <> 0 /\ snd a <> 0).
    { intros a (e & E & -> & _ & K). split; [apply C_of_R_neq; lra|exact K]. }
    apply nonsing_all.
    + apply NZ, Q1. left. left. reflexivity.
    + apply NZ, Q1. left. left. reflexivity.
    + intros a c Ha Hc. destruct (Q1 a (or_introl Ha)) as (ea & A1 & -> & A2 & A3). destruct (Q1 c (or_intror Hc)) as (ec & C1 & -> & C2 & C3).
      apply quad_sum.
      * destruct A2. split; unfold Re, Im in *; simpl; nra.
      * destruct C2. split; unfold Re, Im in *; simpl; nra.
      * intros K. apply C_integral in K. destruct K as [K|K]; [contradiction|]. apply RtoC_inj in K. lra.
    + rewrite Forall_forall. intros a Ha. apply NZ, Q1. left. right. now apply in_map.
  - unfold res. rewrite solver2_eq.
    + cbn [power_correction]. rewrite Kx, Ef, Wb. unfold Re. cbn [fst RtoC]. unfold rdiv, deg2rad in *.
      destruct (Req_EM_T _ 0) as [E|_]; [exfalso; lra|]. reflexivity.
    + split; [lra|]. split; [apply C_of_R_neq; lra|]. split; [exact Ny|]. rewrite Forall_forall in G |- *. intros l Hl. apply (G l Hl).
Qed.
Print Assumptions C37_defined.

(** C66: with passive layers (Im eps >= 0) and a passive back medium, reflected and transmitted
    power never exceed the incident power, in both polarisations. *)
Theorem C66_passive : forall theta_i lbda (x : R) (ls : list (R * C)) (eps_b : C) r t pc,
  (0 < x)%R -> cos (theta_i * PI / 180) <> 0%R -> (0 < lbda)%R ->
  Forall (fun l => (0 <= fst l)%R /\ (0 <= Im (snd l))%R) ls -> (0 <= Im eps_b)%R ->
  let res := solver2 theta_i lbda (RtoC x) ls eps_b in
  power_correction res = Some pc -> (rt_s res = Some (r, t) \/ rt_p res = Some (r, t)) ->
  (0 <= pc /\ Cmod r * Cmod r + pc * (Cmod t * Cmod t) <= 1)%R.
Proof.
  intros th lb x ls eb r t p P Q L F I res E H. apply pc_some in E. cbv zeta in E. destruct E as [N ->].
  assert (G : exists b, rt b res = Some (r, t)) by (destruct H as [H|H]; [exists true|exists false]; exact H).
  destruct G as [b G]. assert (I' := G). apply rt_some in I'. destruct I' as [(_ & _ & Nb & _) _].
  apply energy_le in G; [|assumption|assumption|assumption|assumption].
  destruct (front_flux true th x P Q) as (_ & _ & K). rewrite kx_real in * by lra.
  set (kx := (sqrt x * sin (deg2rad th))%R) in *. assert (K1 := back_flux_passive b kx eb Nb I). assert (K2 := kz_half_Re eb kx Nb I).
  split; [apply Rmult_le_pos; [exact K2|left; apply Rinv_0_lt_compat; exact K]|].
  rewrite !Cmod_sqr. set (q := Re (kz_half (RtoC kx) (RtoC x))) in *. set (p := Re (kz_half (RtoC kx) eb)) in *.
  assert (T := Cnorm2_ge0 t). assert (W : (p * Cnorm2 t <= q * (1 - Cnorm2 r))%R) by nra.
  apply (Rmult_le_reg_l q); [exact K|]. replace (q * (Cnorm2 r + p / q * Cnorm2 t))%R with (q * Cnorm2 r + p * Cnorm2 t)%R by (field; lra). lra.
Qed.
Print Assumptions C66_passive.

(** C67: at a single interface to a passive medium nothing is absorbed.  The reported powers sum
    to one in s polarisation; in p polarisation they miss 2 Im(n) Im(cos) |t|^2 / (n_f cos_f). *)
Theorem C67_interface_partial : forall theta_i lbda (x : R) (eps_b : C) r t pc,
  (0 < x)%R -> cos (theta_i * PI / 180) <> 0%R ->
  let res := solver2 theta_i lbda (RtoC x) [] eps_b in
  power_correction res = Some pc ->
  (rt_s res = Some (r, t) -> (Cmod r * Cmod r + pc * (Cmod t * Cmod t) = 1)%R) /\
  (rt_p res = Some (r, t) -> exists n c : C,
     n * n = eps_b /\ n * n * (1 - c * c) = RtoC (x * (sin (theta_i * PI / 180) * sin (theta_i * PI / 180))) /\
     (Cmod r * Cmod r + pc * (Cmod t * Cmod t) =
      1 - 2 * Im n * Im c * (Cmod t * Cmod t) / (sqrt x * Rabs (cos (theta_i * PI / 180))))%R).
Proof.
  intros th lb x eb r t p P Q res E. apply pc_some in E. cbv zeta in E. destruct E as [N ->].
  destruct (front_flux true th x P Q) as (_ & _ & K). rewrite !Cmod_sqr.
  destruct (kz_front th x P Q) as (Ef & _ & _).
  split; intros H.
  - apply (energy_eq true th lb x [] eb) in H; [|exact P|exact Q]. rewrite back_flux_s in H.
    apply (Rmult_eq_reg_l (Re (kz_half (kx_of th (RtoC x)) (RtoC x)))); [|exact N]. field_simplify; [|exact N]. lra.
  - assert (I := H). apply (rt_some false) in I. destruct I as [(_ & _ & Nb & _) _].
    apply (energy_eq false th lb x [] eb) in H; [|exact P|exact Q]. rewrite back_flux_p in H.
    exists (fst (half_of (kx_of th (RtoC x)) eb)), (Ccos (snd (half_of (kx_of th (RtoC x)) eb))).
    assert (n2 : fst (half_of (kx_of th (RtoC x)) eb) * fst (half_of (kx_of th (RtoC x)) eb) = eb) by (unfold half_of; cbn [fst]; apply Csqrt_sqr).
    split; [exact n2|]. split.
    + rewrite n2. assert (C2 := half_cos2 (kx_of th (RtoC x)) eb Nb). cbv zeta in C2. rewrite C2, kx_real by lra.
      transitivity (RtoC (sqrt x * sin (deg2rad th)) * RtoC (sqrt x * sin (deg2rad th))); [field; exact Nb|].
      rewrite <- RtoC_mult. f_equal. unfold deg2rad. set (s := sin _).
      replace (x * (s * s))%R with (sqrt x * sqrt x * (s * s))%R by (rewrite sqrt_sqrt by lra; ring). ring.
    + assert (Ef' : Re (kz_half (kx_of th (RtoC x)) (RtoC x)) = (sqrt x * Rabs (cos (th * PI / 180)))%R) by (rewrite Ef; reflexivity).
      rewrite <- Ef'. set (q := Re (kz_half (kx_of th (RtoC x)) (RtoC x))) in *.
      apply (Rmult_eq_reg_l q); [|exact N]. field_simplify; [|exact N|exact N]. lra.
Qed.
Print Assumptions C67_interface_partial.

(** Refuted: air at 45 degrees in front of permittivity i. *)
Theorem C67_power_refuted : exists theta_i lbda (x : R) (eps_b : C) r t pc,
  (0 < x)%R /\ (0 < lbda)%R /\ (0 < cos (theta_i * PI / 180))%R /\ (0 < Im eps_b)%R /\
  rt_p (solver2 theta_i lbda (RtoC x) [] eps_b) = Some (r, t) /\
  power_correction (solver2 theta_i lbda (RtoC x) [] eps_b) = Some pc /\
  (Cmod r * Cmod r + pc * (Cmod t * Cmod t) < 1)%R.
Proof.
  assert (C4 : (cos (45 * PI / 180) = 1 / sqrt 2)%R) by (replace (45 * PI / 180)%R with (PI / 4)%R by field; apply cos_PI4).
  assert (S4 : (sin (45 * PI / 180) = 1 / sqrt 2)%R) by (replace (45 * PI / 180)%R with (PI / 4)%R by field; apply sin_PI4).
  assert (s2 : (0 < sqrt 2)%R) by (apply sqrt_lt_R0; lra).
  assert (c0 : (0 < 1 / sqrt 2)%R) by (apply Rdiv_lt_0_compat; lra).
  assert (Nc : cos (deg2rad 45) <> 0%R) by (unfold deg2rad; rewrite C4; lra).
  assert (Ni : Ci <> 0) by apply Ci_neq0. assert (Ii : (0 <= Im Ci)%R) by (unfold Im; simpl; lra).
  set (kx := (sqrt 1 * sin (deg2rad 45))%R).
  assert (Kx : kx_of 45 (RtoC 1) = RtoC kx) by (apply kx_real; lra).
  assert (kx2 : (kx * kx = 1 / 2)%R).
  { unfold kx, deg2rad. rewrite sqrt_1, S4. replace (1 * (1 / sqrt 2) * (1 * (1 / sqrt 2)))%R with (1 / (sqrt 2 * sqrt 2))%R by (field; lra).
    rewrite sqrt_sqrt by lra. reflexivity. }
  assert (P1 : (0 < 1)%R) by lra.
  destruct (kz_front 45 1 P1 Nc) as (Ef & Hf & Cf). rewrite Kx in Ef, Hf. unfold deg2rad in Ef, Hf, Cf. rewrite C4, S4, sqrt_1 in *. rewrite Rabs_pos_eq in * by lra.
  (* the back medium *)
  assert (Z : kz_layer (RtoC kx) Ci <> 0).
  { intros E. assert (S := kz_layer_sqr (RtoC kx) Ci Ni). rewrite E in S. apply (f_equal snd) in S. simpl in S. lra. }
  assert (Fw : half_of (RtoC kx) Ci = (Csqrt Ci, Casin (RtoC kx / Csqrt Ci))).
  { unfold half_of, fix_angle. destruct (is_forward_angle _ _) eqn:F; [reflexivity|]. exfalso.
    apply flip_passive in F; [|exact Ni|exact Ii]. destruct F as [F _]. assert (S := kz_layer_sqr (RtoC kx) Ci Ni).
    revert F S. generalize (kz_layer (RtoC kx) Ci). intros [a b] F S. unfold Re in F. cbn [fst] in F. subst a.
    apply (f_equal snd) in S. simpl in S. lra. }
  set (n := Csqrt Ci) in *. set (c := Ccos (Casin (RtoC kx / n))).
  assert (n2 : n * n = Ci) by apply Csqrt_sqr.
  assert (C2 := layer_cos2 (RtoC kx) Ci Ni). cbv zeta in C2. fold n c in C2.
  assert (nr := Csqrt_Re_ge0 Ci). assert (ni := Csqrt_Im_ge0 Ci Ii). fold n in nr, ni.
  assert (cr : (0 <= Re c)%R) by (unfold c; rewrite Ccos_Casin; apply Csqrt_Re_ge0).
  assert (C2' : c * c = (1%R, (1 / 2)%R)).
  { rewrite C2, <- RtoC_mult, kx2. unfold Ci. apply C_ext; simpl; field. }
  assert (np : (0 < fst n)%R /\ (0 < snd n)%R).
  { revert n2 nr ni. clear. generalize n. intros [a b] n2 nr ni. assert (A := f_equal fst n2). assert (B := f_equal snd n2).
    simpl in A, B. unfold Re, Im in nr, ni. cbn [fst snd] in *. split; nra. }
  assert (cp : (0 < fst c)%R /\ (0 < snd c)%R).
  { revert C2' cr. clear. generalize c. intros [a b] C2' cr. assert (A := f_equal fst C2'). assert (B := f_equal snd C2').
    simpl in A, B. unfold Re in cr. cbn [fst snd] in *. assert (0 < b)%R by nra. split; nra. }
  destruct np as [n_1 n_2], cp as [c_1 c_2].
  assert (D : exists r t, rt_p (solver2 45 1 (RtoC 1) [] Ci) = Some (r, t)).
  { apply (defined false 45 1 1 [] Ci); try assumption; [constructor|]. rewrite Kx. cbn [map nonsing next_pq]. rewrite Hf, Fw.
    unfold pc, char_p. cbn [fst snd]. rewrite Cf. fold c.
    split; [apply C_of_R_neq; lra|]. split; [apply C_of_R_neq; lra|]. split; [|exact I].
    revert n_1 c_1 c0. clear. generalize n c (1 / sqrt 2)%R. intros [n1 n2] [c1 c2] x n_1 c_1 c0 E. cbn [fst] in n_1, c_1.
    apply (f_equal fst) in E. simpl in E. nra. }
  destruct D as (r & t & D).
  assert (PC : power_correction (solver2 45 1 (RtoC 1) [] Ci) = Some (Re (kz_half (RtoC kx) Ci) / (1 * (1 / sqrt 2)))%R).
  { rewrite solver2_eq by (split; [lra|split; [apply C_of_R_neq; lra|split; [exact Ni|constructor]]]). cbn [power_correction].
    rewrite Kx, Ef. unfold rdiv. change (Re (RtoC (1 * (1 / sqrt 2)))) with (1 * (1 / sqrt 2))%R.
    destruct (Req_EM_T _ 0); [lra|reflexivity]. }
  exists 45%R, 1%R, 1%R, Ci, r, t. eexists. split; [lra|]. split; [lra|]. split; [rewrite C4; exact c0|].
  split; [unfold Im; simpl; lra|]. split; [exact D|]. split; [exact PC|].
  assert (EQ := D). apply (energy_eq false 45 1 1 []) in EQ; [|lra|exact Nc]. rewrite Kx, Ef, back_flux_p, Fw in EQ. cbn [fst snd] in EQ. fold c in EQ.
  change (Re (RtoC (1 * (1 / sqrt 2)))) with (1 * (1 / sqrt 2))%R in EQ. rewrite !Cmod_sqr.
  assert (T0 : (0 < Cnorm2 t)%R).
  { apply Cnorm2_gt0. intros E. assert (D' := D). apply (rt_some false) in D'. destruct D' as [_ D'].
    apply (amplitudes_iff (pf false) (pc false) (pf_char false)) in D'. cbv zeta in D'. destruct D' as (_ & I0 & _ & T').
    rewrite E in T'. symmetry in T'. revert T'. apply Cdiv_neq0; [intros O; apply RtoC_inj in O; lra|exact I0]. }
  assert (NC : (0 < Im n * Im c)%R) by (unfold Im; apply Rmult_lt_0_compat; assumption).
  set (q := (1 / sqrt 2)%R) in *. apply (Rmult_lt_reg_l q); [exact c0|].
  replace (q * (Cnorm2 r + Re (kz_half (RtoC kx) Ci) / (1 * q) * Cnorm2 t))%R with (q * Cnorm2 r + Re (kz_half (RtoC kx) Ci) * Cnorm2 t)%R by (field; lra).
  nra.
Qed.
Print Assumptions C67_power_refuted.

(** A concrete stack: glass (4) at normal incidence, one layer of permittivity 9, air. *)
Example C37_example : exists r t pc,
  rt_s (solver2 0 1 (RtoC 4) [(1 / 12, RtoC 9)%R] (RtoC 1)) = Some (r, t) /\
  power_correction (solver2 0 1 (RtoC 4) [(1 / 12, RtoC 9)%R] (RtoC 1)) = Some pc /\
  (Cmod r * Cmod r + pc * (Cmod t * Cmod t) = 1)%R.
Proof.
  assert (c0 : cos (0 * PI / 180) = 1%R) by (replace (0 * PI / 180)%R with 0%R by field; apply cos_0).
  assert (s0 : sin (0 * PI / 180) = 0%R) by (replace (0 * PI / 180)%R with 0%R by field; apply sin_0).
  destruct (C37_defined 0 1 4 1 [(1 / 12, 9)%R]) as ((r & t & H) & _ & K); rewrite ?c0, ?s0; try lra.
  { constructor; [|constructor]. cbn [fst snd]. lra. }
  cbn [map fst snd] in H, K. exists r, t. eexists. split; [exact H|]. split; [exact K|].
  apply (C37_energy 0 1 4 1 [(1 / 12, 9)%R]); [lra|rewrite c0; lra|exact K|left; exact H].
Qed.
