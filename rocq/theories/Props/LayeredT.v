(** C108: many thin periods of a repeated layer act as one homogeneous anisotropic layer. *)
From Coq Require Import Reals Lra Psatz Lia ZArith.
From Coquelicot Require Import Complex.
From Coq Require Import List.
From Verif.Base Require Import Py Cx Mat Mexp Det Approx.
From Verif.Model Require Import Units Ellips Rotation Structure Solver4.
From Verif.Spec Require Import Maxwell Tensor Turned Graded Layered.
From Verif.Proof Require Import UnitsP DispersionsP StructureP Solver4P Solver4P2 Solver4P3 Solver4P5 Solver4P6 GradedP GradedP2 LayeredP.
From Verif.Props Require Import Solver4T GradedT.
Import ListNotations.
Open Scope R_scope.
Open Scope C_scope.
Open Scope py_scope.

(** The layer object for a part: as for C105, or a repeated layer with at least n periods, each of
    them the layers of the period with their shares of the thickness *)
Definition assembled (n : nat) (a : part) (l : layer mat) : Prop :=
  match a with
  | Whole s => divided n s l
  | Periods d p _ => exists N ls, (Z.of_nat n <= N)%Z /\
      Forall2 (fun q l => make_layer (snd q) (fst q * (d / IZR N)) = Ok l) p ls /\ make_repeated ls N 0 0 = Ok l
  end.
Definition thin (a : part) : Prop := match a with Whole (Uniform _ _) => False | _ => True end.
(** The propagators for which this is claimed: the exact ones, and the linear one if the structure
    has no thick homogeneous layers *)
Definition thin_propagator prop (kx : C) (parts : list part) (ls : list (layer mat)) : Prop :=
  exact_propagator prop kx (concat (map profile ls)) \/ prop = propagator_linear /\ Forall thin parts.
Definition tends (theta_i lbda : R) (eps_f eps_b : mat) (parts : list part) (J_r J_t : mat) : Prop :=
  exists K N, forall n prop ls, (N <= n)%nat -> Forall2 (assembled n) parts ls ->
    thin_propagator prop (reduced_k_x theta_i eps_f) parts ls ->
    exists res, solver4_structure prop theta_i lbda (Structure eps_f ls eps_b) = Some res /\
      forall i j, (i < 2)%nat -> (j < 2)%nat ->
        (Cmod (jones_r4 res i j - J_r i j)%C <= K / INR n /\ Cmod (jones_t4 res i j - J_t i j)%C <= K / INR n)%R.

Lemma assembled_stacked n parts ls : (0 < n)%nat -> Forall2 (assembled n) parts ls -> in_order parts n ls.
Proof.
  intros Hn H. induction H as [|a l ps ls H _ IH]; constructor; [|exact IH]. destruct a as [s|d p e]; cbn [assembled] in H.
  - constructor. assert (X := divided_sliced n [s] [l] ltac:(constructor; [exact H|constructor])). inversion X; subst. assumption.
  - destruct H as (N & ms & HN & F & M). unfold make_repeated in M. destruct (N <? 1)%Z; [discriminate|]. cbn [Z.ltb Z.compare] in M. injection M as <-.
    assert (E : ms = map (fun q => Homogeneous (fst q * (d / INR (Z.to_nat N)))%R (snd q)) p).
    { rewrite INR_IZR_INZ, Z2Nat.id by lia. clear - F. induction F as [|q m p ms H _ IH]; [reflexivity|]. cbn [map]. rewrite <- IH. f_equal. unfold make_layer in H. destruct (Rlt_dec _ 0); [discriminate|]. now injection H. }
    rewrite E. apply stacked_periods. lia.
Qed.

(** C108: if no wave leaves the structure unaided, the structure in which every stack of periods is
    replaced by a homogeneous layer with the mean tensor has Jones matrices, and the ones of the
    actual structure come within K / n of them. *)
Theorem C108_converges : forall theta_i lbda eps_f eps_b (e_f e_b n_f c_f n_b c_b : C) parts,
  (lbda <> 0)%R -> isotropic eps_f e_f -> isotropic eps_b e_b -> e_f <> 0 -> e_b <> 0 -> Forall sound parts ->
  let k := (2 * PI / lbda)%R in
  let kx := Csqrt e_f * RtoC (sin (theta_i * PI / 180)) in
  half_wave kx e_f n_f c_f -> half_wave kx e_b n_b c_b -> c_f <> 0 ->
  no_resonance k kx n_f c_f n_b c_b (map smeared parts) ->
  exists J_r J_t, scattering k kx n_f c_f n_b c_b (map smeared parts) J_r J_t /\
    tends theta_i lbda eps_f eps_b parts J_r J_t.
Proof.
  intros th lb ef eb e e' nf cf nb cb ps L If Ib E E' SO k kx Hf Hb Cf NR.
  assert (KX : reduced_k_x th ef = kx) by (rewrite (kx_eq th ef e If); reflexivity).
  destruct (half_wave_eq kx ef e nf cf E If Hf) as [-> ->]. destruct (half_wave_eq kx eb e' nb cb E' Ib Hb) as [-> ->].
  assert (Nf : iso_n ef <> 0) by (rewrite (iso_n_eq ef e If); now apply Csqrt_neq0). assert (Nb : iso_n eb <> 0) by (rewrite (iso_n_eq eb e' Ib); now apply Csqrt_neq0).
  assert (P0 := PI_RGT_0). assert (K0 : (k <> 0)%R) by (apply Rmult_integral_contrapositive_currified; [lra|now apply Rinv_neq_0_compat]).
  assert (S : Forall smooth (map smeared ps)) by (rewrite Forall_map; eapply Forall_impl; [|exact SO]; intros a; apply sound_smooth).
  set (ss := map smeared ps) in *.
  assert (D := resonance_det k kx _ _ _ _ ss K0 S Nf Cf NR).
  set (LK := limit_k k kx (iso_n ef) (iso_cos kx ef) (iso_n eb) (iso_cos kx eb) ss) in *.
  exists (mmul 2 (t_rt LK) (inv2 (t_it LK))), (inv2 (t_it LK)).
  split; [now apply limit_scattering|].
  assert (DD : Forall thin ps \/ ~ Forall thin ps).
  { clear. induction ps as [|a ps [IH|IH]]; [left; constructor| |right; intros H; inversion H; contradiction]. destruct a as [[d x|d x]|d p x]; [right; intros H; inversion H; contradiction| |]; left; constructor; try exact I; exact IH. }
  unfold LK in D |- *. clear LK. rewrite <- KX in *.
  destruct (parts_converge th lb ef eb ps (layer_mat (reduced_k_x th ef) lb) (exp_step lb _) SO) as (K1 & N1 & K10 & N10 & H1); try assumption.
  { rewrite Forall_forall in SO |- *. intros a Ha. destruct a as [[d eps|d eps]|d p x]; try exact I. cbn [exact_part exact_uniform]. symmetry. apply smat_uniform. exact (SO _ Ha). }
  fold k ss in H1. set (LK := limit_k k (reduced_k_x th ef) (iso_n ef) (iso_cos (reduced_k_x th ef) ef) (iso_n eb) (iso_cos (reduced_k_x th ef) eb) ss) in *.
  assert (H2 : exists K2 N2, (0 <= K2)%R /\ (0 < N2)%nat /\ (Forall thin ps -> forall n ls, (N2 <= n)%nat -> in_order ps n ls ->
    exists res, solver4 propagator_linear th lb ef (profiles ls) eb = Some res /\
      bounded_by 2 (msub (jones_t4 res) (inv2 (t_it LK))) (K2 / INR n) /\
      bounded_by 2 (msub (jones_r4 res) (mmul 2 (t_rt LK) (inv2 (t_it LK)))) (K2 / INR n))).
  { destruct DD as [G|G]; [|exists 0%R, 1%nat; split; [lra|]; split; [lia|]; contradiction].
    destruct (parts_converge th lb ef eb ps (lin_mat k (reduced_k_x th ef)) (lin_step _ _) SO) as (K2 & N2 & K20 & N20 & H2); try assumption.
    { rewrite Forall_forall in G |- *. intros a Ha. assert (Q := G a Ha). destruct a as [[d eps|d eps]|d p x]; [contradiction| |]; exact I. }
    exists K2, N2. split; [exact K20|]. split; [exact N20|]. intros _ n ls Hn Ho. apply (H2 n propagator_linear ls Hn Ho). apply linear_gives; [exact L|]. apply (parts_eps n ps ls ltac:(lia) SO Ho). }
  destruct H2 as (K2 & N2 & K20 & N20 & H2). exists (K1 + K2)%R, (N1 + N2)%nat. intros n prop ls Hn Hd HP. assert (Ho := assembled_stacked n ps ls ltac:(lia) Hd).
  assert (IP : (0 < / INR n)%R) by (apply Rinv_0_lt_compat, lt_0_INR; lia). assert (0 <= K1 * / INR n)%R by (apply Rmult_le_pos; lra). assert (0 <= K2 * / INR n)%R by (apply Rmult_le_pos; lra).
  assert (EO := parts_eps n ps ls ltac:(lia) SO Ho). rewrite solver4_structure_eq. unfold thin_propagator in HP. rewrite <- profiles_concat in HP. destruct HP as [HP|[-> HP]].
  - destruct (H1 n prop ls ltac:(lia) Ho) as (res & HR & HT & HJ); [apply good_gives; [exact L|now apply exact_good|exact EO]|]. exists res. split; [exact HR|]. intros i j Hi Hj. specialize (HT i j Hi Hj). specialize (HJ i j Hi Hj).
    unfold msub in HT, HJ. unfold Rdiv in *. rewrite Rmult_plus_distr_r. split; [eapply Rle_trans; [exact HJ|lra]|eapply Rle_trans; [exact HT|lra]].
  - destruct (H2 HP n ls ltac:(lia) Ho) as (res & HR & HT & HJ). exists res. split; [exact HR|]. intros i j Hi Hj. specialize (HT i j Hi Hj). specialize (HJ i j Hi Hj).
    unfold msub in HT, HJ. unfold Rdiv in *. rewrite Rmult_plus_distr_r. split; [eapply Rle_trans; [exact HJ|lra]|eapply Rle_trans; [exact HT|lra]].
Qed.
Print Assumptions C108_converges.

(** C108: for light from a transparent medium, not grazing, on media without gain there is no such
    wave: layers without gain have a mean tensor without gain. *)
Definition lossy (a : part) : Prop :=
  match a with
  | Whole s => forall z, (0 <= z <= depth s)%R -> passive (permittivity s z)
  | Periods _ p _ => Forall (fun q => passive (snd q)) p
  end.
Theorem C108_passive : forall theta_i lbda eps_f eps_b (x : R) (e_b n_f c_f n_b c_b : C) parts,
  (0 < lbda)%R -> isotropic eps_f (RtoC x) -> (0 < x)%R -> cos (theta_i * PI / 180) <> 0%R ->
  isotropic eps_b e_b -> e_b <> 0 -> (0 <= Im e_b)%R -> Forall sound parts -> Forall lossy parts ->
  let k := (2 * PI / lbda)%R in
  let kx := Csqrt (RtoC x) * RtoC (sin (theta_i * PI / 180)) in
  half_wave kx (RtoC x) n_f c_f -> half_wave kx e_b n_b c_b ->
  exists J_r J_t, scattering k kx n_f c_f n_b c_b (map smeared parts) J_r J_t /\
    tends theta_i lbda eps_f eps_b parts J_r J_t.
Proof.
  intros th lb ef eb x e' nf cf nb cb ps L If X Cz Ib E' Pe S P k kx Hf Hb.
  assert (KX : reduced_k_x th ef = kx) by (rewrite (kx_eq th ef _ If); reflexivity). assert (E : RtoC x <> 0) by (apply C_of_R_neq; lra).
  assert (SS : Forall smooth (map smeared ps)) by (rewrite Forall_map; eapply Forall_impl; [|exact S]; intros a; apply sound_smooth).
  assert (PP : Forall passive_slab (map smeared ps)).
  { rewrite Forall_forall in S, P |- *. intros s Hs. apply in_map_iff in Hs. destruct Hs as (a & <- & Ha). specialize (S a Ha). specialize (P a Ha). destruct a as [s|d p y]; [exact P|].
    intros z _. destruct S as (_ & SH & Z & AV). exact (mean_passive p y SH Z AV P). }
  assert (Q := passive_no_resonance th lb ef eb (map smeared ps) x e' L If X Cz Ib E' Pe SS PP). cbv zeta in Q. rewrite KX in Q. destruct Q as (_ & Cf & NR).
  apply (C108_converges th lb ef eb (RtoC x) e'); try assumption; [lra| |].
  - destruct (half_wave_eq kx ef _ nf cf E If Hf) as [_ ->]. exact Cf.
  - destruct (half_wave_eq kx ef _ nf cf E If Hf) as [-> ->]. destruct (half_wave_eq kx eb e' nb cb E' Ib Hb) as [-> ->]. exact NR.
Qed.
Print Assumptions C108_passive.

Lemma inv_twice (c : C) : c <> 0 -> / / c = c.
Proof. intros H. field. split; [exact H|]. apply C_of_R_neq. lra. Qed.
(** C108: unless the mean of the inverse zz components vanishes, there is one such tensor. *)
Theorem C108_mean : forall p, shares p -> Forall (fun q : R * mat => snd q 2%nat 2%nat <> RtoC 0) p ->
  ((exists e, averages p e) <-> mean p (fun q => / snd q 2%nat 2%nat) <> RtoC 0) /\
  forall e e', averages p e -> averages p e' -> meq 3 e e'.
Proof.
  intros p SH Z. set (m := mean p (fun q => / snd q 2%nat 2%nat)).
  set (row := fun j => mean p (fun q => snd q 2%nat j * / snd q 2%nat 2%nat)). set (col := fun i => mean p (fun q => snd q i 2%nat * / snd q 2%nat 2%nat)).
  split; [split|].
  - intros (e & A) M. assert (H := co_zz p e (averages_components p e SH Z A)). fold m in H. rewrite M in H. replace (e 2%nat 2%nat * 0) with (RtoC 0) in H by ring. apply (f_equal fst) in H. cbn in H. lra.
  - intros M. exists (fun i j => match i, j with
      | 2%nat, 2%nat => / m | 2%nat, j => / m * row j | i, 2%nat => / m * col i
      | i, j => mean p (fun q => snd q i j - snd q i 2%nat * snd q 2%nat j * / snd q 2%nat 2%nat) + / m * col i * row j end).
    apply (components_averages p _ SH Z). constructor.
    + fold m. field. exact M.
    + intros j Hj. idx j; reflexivity.
    + intros i Hi. fold m. idx i; unfold col; field; exact M.
    + intros i j Hi Hj. idx i; idx j; unfold row; ring.
  - intros e e' A A'. assert (C1 := averages_components p e SH Z A). assert (C2 := averages_components p e' SH Z A').
    assert (I : e 2%nat 2%nat = e' 2%nat 2%nat).
    { assert (I1 := av_inv p e SH Z A). assert (I2 := av_inv p e' SH Z A'). assert (N1 := av_zz p e SH Z A). assert (N2 := av_zz p e' SH Z A'). rewrite <- I2 in I1. rewrite <- (inv_twice (e 2%nat 2%nat)), I1, inv_twice; [reflexivity|exact N2|exact N1]. }
    assert (CI : forall i, (i < 2)%nat -> e i 2%nat = e' i 2%nat).
    { intros i Hi. assert (I1 := av_col p e SH Z A i Hi). assert (I2 := av_col p e' SH Z A' i Hi). cbv zeta beta in I1, I2. assert (N1 := av_zz p e SH Z A). rewrite <- I2, <- I in I1. transitivity (e i 2%nat / e 2%nat 2%nat * e 2%nat 2%nat); [field; exact N1|]. rewrite I1. field. exact N1. }
    assert (B : forall i j, (i < 2)%nat -> (j < 2)%nat -> e i j = e' i j).
    { intros i j Hi Hj. assert (B1 := co_block p e C1 i j Hi Hj). assert (B2 := co_block p e' C2 i j Hi Hj). cbv zeta beta in B1, B2. rewrite <- B2, <- (CI i Hi) in B1. set (y := e i 2%nat * _) in B1. transitivity (e i j - y + y); [ring|]. rewrite B1. ring. }
    assert (RJ : forall j, (j < 2)%nat -> e 2%nat j = e' 2%nat j) by (intros j Hj; rewrite (co_row p e C1 j Hj), (co_row p e' C2 j Hj), I; reflexivity).
    intros i j Hi Hj. idx i; idx j; try (apply B; lia); try (apply CI; lia); try (apply RJ; lia). exact I.
Qed.
Print Assumptions C108_mean.

(** C108: isotropic layers make a uniaxial medium with its axis along the normal: the ordinary
    permittivity is the mean of the permittivities, the extraordinary one the inverse of the mean
    of their inverses. *)
Theorem C108_isotropic : forall p e, shares p -> Forall (fun q : R * mat => exists x : C, x <> 0 /\ isotropic (snd q) x) p ->
  averages p e ->
  let o := mean p (fun q => snd q 0%nat 0%nat) in
  let x := mean p (fun q => / snd q 0%nat 0%nat) in
  x <> 0 /\ meq 3 e (mat_of [[o; RtoC 0; RtoC 0]; [RtoC 0; o; RtoC 0]; [RtoC 0; RtoC 0; / x]]).
Proof.
  intros p e SH F A o x. assert (G : forall q, In q p -> snd q 0%nat 0%nat <> 0 /\ isotropic (snd q) (snd q 0%nat 0%nat)).
  { rewrite Forall_forall in F. intros q Hq. destruct (F q Hq) as (y & Y & I). assert (E : snd q 0%nat 0%nat = y) by (rewrite (I 0%nat 0%nat) by lia; unfold mscal, mid; cbn; ring). now rewrite E. }
  assert (V : forall q i j, In q p -> (i < 3)%nat -> (j < 3)%nat -> snd q i j = if (i =? j)%nat then snd q 0%nat 0%nat else 0).
  { intros q i j Hq Hi Hj. destruct (G q Hq) as [_ I]. rewrite (I i j Hi Hj). unfold mscal, mid. destruct (i =? j)%nat; ring. }
  assert (Z : Forall (fun q : R * mat => snd q 2%nat 2%nat <> RtoC 0) p).
  { rewrite Forall_forall. intros q Hq. rewrite (V q 2%nat 2%nat Hq) by lia. cbn [Nat.eqb]. now apply G. }
  assert (CO := averages_components p e SH Z A). assert (N := av_zz p e SH Z A). assert (X : / e 2%nat 2%nat = x) by (rewrite (av_inv p e SH Z A); apply mean_ext; intros q Hq; rewrite (V q 2%nat 2%nat Hq) by lia; reflexivity).
  assert (M0 : mean p (fun _ => RtoC 0) = 0) by now apply mean_const.
  assert (RW : forall j, (j < 2)%nat -> mean p (fun q => snd q 2%nat j * / snd q 2%nat 2%nat) = 0).
  { intros j Hj. rewrite <- M0. apply mean_ext. intros q Hq. rewrite (V q 2%nat j Hq) by lia. idx j; cbn [Nat.eqb]; ring. }
  assert (CL : forall i, (i < 2)%nat -> e i 2%nat = 0).
  { intros i Hi. assert (H := av_col p e SH Z A i Hi). cbv zeta beta in H. replace (mean p (fun q => snd q i 2%nat * / snd q 2%nat 2%nat)) with (RtoC 0) in H. 
    - transitivity (e i 2%nat / e 2%nat 2%nat * e 2%nat 2%nat); [field; exact N|]. rewrite H. ring.
    - rewrite <- M0 at 1. apply mean_ext. intros q Hq. rewrite (V q i 2%nat Hq) by lia. idx i; cbn [Nat.eqb]; ring. }
  assert (BL : forall i j, (i < 2)%nat -> (j < 2)%nat -> e i j = if (i =? j)%nat then o else 0).
  { intros i j Hi Hj. assert (H := co_block p e CO i j Hi Hj). cbv zeta beta in H. rewrite (RW j Hj) in H. transitivity (e i j - e i 2%nat * 0); [ring|]. rewrite H.
    destruct (i =? j)%nat eqn:Q; [unfold o|rewrite <- M0]; apply mean_ext; intros q Hq; rewrite (V q i j Hq), (V q i 2%nat Hq), Q by lia; destruct i as [|[|]]; try lia; cbn [Nat.eqb]; ring. }
  split.
  - rewrite <- X. intros H. apply (f_equal (Cmult (e 2%nat 2%nat))) in H. rewrite Cinv_r in H by exact N. apply (f_equal fst) in H. cbn in H. lra.
  - intros i j Hi Hj. unfold mat_of. idx i; idx j; cbn [nth]; try (rewrite BL by lia; reflexivity); try (apply CL; lia); try (rewrite (co_row p e CO), RW by lia; ring). rewrite <- X, inv_twice; [reflexivity|exact N].
Qed.
Print Assumptions C108_isotropic.

(** Layers with the permittivities 9/4 and 4 in equal shares on a metal at an incidence of 60
    degrees: they tend to a uniaxial layer with the permittivities 25/8 and 72/25. *)
Definition glass_pair : period := [((1 / 2)%R, mscal (RtoC (9 / 4)) mid); ((1 / 2)%R, mscal (RtoC 4) mid)].
Definition mean_pair : mat := mat_of [[RtoC (25 / 8); RtoC 0; RtoC 0]; [RtoC 0; RtoC (25 / 8); RtoC 0]; [RtoC 0; RtoC 0; RtoC (72 / 25)]].
Lemma glass_pair_shares : shares glass_pair.
Proof. split; [repeat constructor; cbn [fst]; lra|]. cbn. lra. Qed.
Lemma glass_pair_zz : Forall (fun q : R * mat => snd q 2%nat 2%nat <> RtoC 0) glass_pair.
Proof. repeat constructor; cbn [snd]; unfold mscal, mid; cbn [Nat.eqb]; rewrite <- RtoC_mult; apply C_of_R_neq; lra. Qed.
Lemma mean_pair_averages : averages glass_pair mean_pair.
Proof.
  destruct (C108_mean glass_pair glass_pair_shares glass_pair_zz) as [[_ X] _]. destruct X as [e A].
  { unfold mean, glass_pair, mscal, mid. cbn [fold_right fst snd Nat.eqb]. rewrite <- !RtoC_mult, <- !RtoC_inv by lra. rewrite <- !RtoC_mult, <- !RtoC_plus. apply C_of_R_neq. lra. }
  destruct (C108_isotropic glass_pair e glass_pair_shares) as [_ M]; [|exact A|].
  { repeat constructor; cbn [snd]; eexists; (split; [|intros i j Hi Hj; reflexivity]); apply C_of_R_neq; lra. }
  assert (E : meq 3 e mean_pair).
  { intros i j Hi Hj. rewrite (M i j Hi Hj). unfold mean_pair, mean, glass_pair, mat_of, mscal, mid. cbn [fold_right fst snd Nat.eqb]. idx i; idx j; cbn [nth]; try reflexivity.
    - rewrite <- !RtoC_mult, <- !RtoC_plus. f_equal. lra.
    - rewrite <- !RtoC_mult, <- !RtoC_plus. f_equal. lra.
    - rewrite <- !RtoC_mult, <- !RtoC_inv by lra. rewrite <- !RtoC_mult, <- !RtoC_plus, <- RtoC_inv by lra. f_equal. lra. }
  intros F Ex Ey Dz H i Hi. rewrite (A F Ex Ey Dz H i Hi). unfold mvec, csum. rewrite !(E i) by lia. reflexivity.
Qed.
Example C108_example : exists n_f c_f n_b c_b J_r J_t,
  scattering (2 * PI / 1) (Csqrt (RtoC 1) * RtoC (sin (60 * PI / 180))) n_f c_f n_b c_b [Uniform 5 mean_pair] J_r J_t /\
  exists K N, forall reps, (Z.of_nat N <= reps)%Z -> exists a b l res,
    make_layer (mscal (RtoC (9 / 4)) mid) (1 / 2 * (5 / IZR reps)) = Ok a /\
    make_layer (mscal (RtoC 4) mid) (1 / 2 * (5 / IZR reps)) = Ok b /\ make_repeated [a; b] reps 0 0 = Ok l /\
    solver4_structure propagator_linear 60 1 (Structure mid [l] (mscal (- (9), 1)%R mid)) = Some res /\
    forall i j, (i < 2)%nat -> (j < 2)%nat -> (Cmod (jones_r4 res i j - J_r i j)%C <= K / IZR reps)%R.
Proof.
  assert (E1 : RtoC 1 <> 0) by (apply C_of_R_neq; lra). assert (E2 : (- (9), 1)%R <> RtoC 0) by (intros X; apply (f_equal snd) in X; cbn in X; lra).
  destruct (half_wave_exists (Csqrt (RtoC 1) * RtoC (sin (60 * PI / 180))) (RtoC 1) E1) as (nf & cf & Hf). destruct (half_wave_exists (Csqrt (RtoC 1) * RtoC (sin (60 * PI / 180))) (- (9), 1)%R E2) as (nb & cb & Hb).
  assert (PR : forall y : R, passive (mscal (RtoC y) mid)).
  { intros y E. unfold dissipation, mvec, mscal, mid, csum. cbn [Nat.eqb]. destruct (E 0%nat) as [a b], (E 1%nat) as [a' b'], (E 2%nat) as [a2 b2]. right. cbn. ring. }
  assert (A : cos (60 * PI / 180) <> 0%R) by (replace (60 * PI / 180)%R with (PI / 3)%R by field; rewrite cos_PI3; lra).
  destruct (C108_passive 60 1 mid (mscal (- (9), 1)%R mid) 1 (- (9), 1)%R nf cf nb cb [Periods 5 glass_pair mean_pair]) as (Jr & Jt & SC & K & N & AP); try assumption; try lra.
  - intros i j Hi Hj. unfold mscal. ring.
  - intros i j Hi Hj; reflexivity.
  - cbn. lra.
  - constructor; [|constructor]. split; [lra|]. split; [apply glass_pair_shares|]. split; [apply glass_pair_zz|apply mean_pair_averages].
  - constructor; [|constructor]. constructor; [apply PR|]. constructor; [apply PR|constructor].
  - exists nf, cf, nb, cb, Jr, Jt. split; [exact SC|]. exists K, (N + 1)%nat. intros reps Hr.
    assert (R1 : (1 <= IZR reps)%R) by (apply (IZR_le 1); lia). assert (P : (0 <= 1 / 2 * (5 / IZR reps))%R) by (assert (0 < / IZR reps)%R by (apply Rinv_0_lt_compat; lra); unfold Rdiv; nra).
    assert (ML : forall e : mat, make_layer e (1 / 2 * (5 / IZR reps)) = Ok (Homogeneous (1 / 2 * (5 / IZR reps)) e)) by (intros e; unfold make_layer; destruct (Rlt_dec _ 0); [lra|reflexivity]).
    set (a := Homogeneous (1 / 2 * (5 / IZR reps)) (mscal (RtoC (9 / 4)) mid)). set (b := Homogeneous (1 / 2 * (5 / IZR reps)) (mscal (RtoC 4) mid)).
    assert (MR : make_repeated [a; b] reps 0 0 = Ok (Repeated [a; b] (Z.to_nat reps) 0 0)).
    { unfold make_repeated. destruct (reps <? 1)%Z eqn:Q; [apply Z.ltb_lt in Q; lia|]. reflexivity. }
    destruct (AP (Z.to_nat reps) propagator_linear [Repeated [a; b] (Z.to_nat reps) 0 0]) as (res & HR & HB); [lia| | |].
    + constructor; [|constructor]. exists reps, [a; b]. split; [lia|]. split; [|exact MR]. repeat constructor; cbn [fst snd]; apply ML.
    + right. split; [reflexivity|]. constructor; [exact I|constructor].
    + exists a, b, (Repeated [a; b] (Z.to_nat reps) 0 0), res. split; [apply ML|]. split; [apply ML|]. split; [exact MR|]. split; [exact HR|].
      intros i j Hi Hj. destruct (HB i j Hi Hj) as [B _]. rewrite INR_IZR_INZ, Z2Nat.id in B by lia. exact B.
Qed.
