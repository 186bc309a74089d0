From Coq Require Import Reals Lra Psatz Lia.
From Coquelicot Require Import Coquelicot.
From Coq Require Import List.
From Verif.Base Require Import Py Cx Mat Mexp Det Ode Approx.
From Verif.Model Require Import Units Ellips Rotation Structure Solver4.
From Verif.Spec Require Import Maxwell Tensor Turned Graded.
From Verif.Proof Require Import UnitsP DispersionsP StructureP PoyntingP Solver4P Solver4P2 Solver4P3 Solver4P5 Solver4P6 GradedP.
Import ListNotations.
Open Scope R_scope.
Open Scope C_scope.
Open Scope py_scope.

(** ** The slices get the propagation matrices *)
Lemma sliced_forall (Q : R * mat -> Prop) n s l : (0 < n)%nat -> smooth s -> sliced n s l ->
  (forall d z, (0 <= z <= depth s)%R -> Q (d, permittivity s z)) -> Forall Q (profile l).
Proof.
  intros Hn S H HQ. assert (D := smooth_depth s S). inversion H as [d eps E1 E2|d eps N HN E1 E2]; subst; cbn [depth permittivity] in *.
  - constructor; [|constructor]. apply (HQ d 0%R). lra.
  - assert (NP : (0 < N)%nat) by lia. rewrite inhom_profile by exact NP. apply Forall_forall. intros x Hx. apply in_map_iff in Hx. destruct Hx as (q & <- & Hq). apply in_seq in Hq.
    apply HQ. assert (I : (0 < INR N)%R) by (apply lt_0_INR; lia). assert (h : (0 <= d / INR N)%R) by (apply Rmult_le_pos; [lra|left; now apply Rinv_0_lt_compat]). assert (Q0 := pos_INR q).
    split; [apply Rmult_le_pos; lra|]. replace d with (INR N * (d / INR N))%R at 2 by (field; lra). apply Rmult_le_compat_r; [lra|].
    assert (INR q + 1 <= INR N)%R by (rewrite <- S_INR; apply le_INR; lia). lra.
Qed.
Lemma order_forall (Q : R * mat -> Prop) n ss ls : (0 < n)%nat -> Forall smooth ss -> of_order ss n ls ->
  (forall s d z, In s ss -> (0 <= z <= depth s)%R -> Q (d, permittivity s z)) -> Forall Q (profiles ls).
Proof.
  intros Hn S H. induction H as [|s l ss ls H _ IH]; intros HQ; cbn [profiles]; [constructor|]. inversion S; subst. apply Forall_app. split.
  - apply (sliced_forall Q n s l); try assumption. intros d z Hz. apply HQ; [now left|exact Hz].
  - apply IH; [assumption|]. intros s' d z Hs Hz. apply HQ; [now right|exact Hz].
Qed.
Lemma order_eps n ss ls : (0 < n)%nat -> Forall smooth ss -> of_order ss n ls -> eps_ok (profiles ls).
Proof.
  intros Hn S H. apply (order_forall _ n ss ls Hn S H). intros s d z Hs Hz. cbn [snd]. apply smooth_zz; [|exact Hz]. rewrite Forall_forall in S. now apply S.
Qed.
Lemma good_gives prop kx lb ls : (lb <> 0)%R -> good_prop prop kx lb ls -> eps_ok ls -> Forall (gives prop kx lb (layer_mat kx lb)) ls.
Proof.
  intros L [E T] O. unfold exact, total, eps_ok in *. rewrite Forall_forall in *. intros l Hl. split; [now apply O|]. destruct (T l Hl L) as [P HP]. exists P. split; [exact HP|]. now apply (E l Hl P HP).
Qed.
Lemma linear_gives kx lb ls : (lb <> 0)%R -> eps_ok ls -> Forall (gives propagator_linear kx lb (lin_mat (2 * PI / lb) kx)) ls.
Proof.
  intros L O. unfold eps_ok in *. rewrite Forall_forall in *. intros l Hl. split; [now apply O|]. unfold propagator_linear, wave_number. rewrite rdiv_some by exact L. cbn [obind]. eexists. split; [reflexivity|].
  intros i j Hi Hj. unfold lin_mat, step_matrix, madd, mscal. f_equal. rewrite RtoC_opp. ring.
Qed.
Lemma mappr2 T Ix F L : mappr T Ix 2 F L -> exists E N, (0 <= E)%R /\ (0 < N)%nat /\ forall n a, (N <= n)%nat -> Ix n a -> bounded_by 2 (msub (F a) L) (E / INR n).
Proof.
  intros H. destruct (H 0%nat 0%nat ltac:(lia) ltac:(lia)) as (E1 & N1 & E10 & N10 & H1). destruct (H 0%nat 1%nat ltac:(lia) ltac:(lia)) as (E2 & N2 & E20 & N20 & H2).
  destruct (H 1%nat 0%nat ltac:(lia) ltac:(lia)) as (E3 & N3 & E30 & N30 & H3). destruct (H 1%nat 1%nat ltac:(lia) ltac:(lia)) as (E4 & N4 & E40 & N40 & H4).
  exists (E1 + E2 + E3 + E4)%R, (N1 + N2 + N3 + N4)%nat. split; [lra|]. split; [lia|]. intros n a Hn Ha.
  assert (I : (0 < / INR n)%R) by (apply Rinv_0_lt_compat, lt_0_INR; lia).
  assert (W : forall x y, (0 <= y)%R -> (x <= x + y)%R) by (intros; lra).
  intros i j Hi Hj. unfold msub. unfold Rdiv. rewrite !Rmult_plus_distr_r. specialize (H1 n a ltac:(lia) Ha). specialize (H2 n a ltac:(lia) Ha). specialize (H3 n a ltac:(lia) Ha). specialize (H4 n a ltac:(lia) Ha).
  unfold Rdiv in *. assert (0 <= E1 * / INR n)%R by (apply Rmult_le_pos; lra). assert (0 <= E2 * / INR n)%R by (apply Rmult_le_pos; lra).
  assert (0 <= E3 * / INR n)%R by (apply Rmult_le_pos; lra). assert (0 <= E4 * / INR n)%R by (apply Rmult_le_pos; lra). idx i; idx j; lra.
Qed.
Lemma bounded_meq m A A' B x : meq m A A' -> bounded_by m (msub A B) x -> bounded_by m (msub A' B) x.
Proof. intros E H i j Hi Hj. unfold msub. rewrite <- (E i j Hi Hj). now apply H. Qed.

Section Converge.
Variables (th lb : R) (eps_f eps_b : mat) (ss : list slab) (pmat : R * mat -> mat).
Let kx := reduced_k_x th eps_f.
Let k := (2 * PI / lb)%R.
Hypothesis STEP : forall K D, (0 < K)%R -> (0 <= D)%R -> exists R0, (0 <= R0)%R /\ forall d eps, (0 <= d <= D)%R ->
  bounded_by 4 (mscal (Ci * RtoC k) (delta_of kx eps)) K -> bounded_by 4 (msub (pmat (d, eps)) (step_matrix k kx d eps)) (R0 * (d * d)).
Hypothesis SM : Forall smooth ss.
Hypothesis EU : Forall (exact_uniform k kx pmat) ss.
Hypothesis Nf : iso_n eps_f <> 0.
Hypothesis Cf : iso_cos kx eps_f <> 0.
Hypothesis Nb : iso_n eps_b <> 0.
Let LK := limit_k k kx (iso_n eps_f) (iso_cos kx eps_f) (iso_n eps_b) (iso_cos kx eps_b) ss.
Hypothesis DK : det 2 (t_it LK) <> 0.
Lemma slices_converge : exists E N, (0 <= E)%R /\ (0 < N)%nat /\ forall n prop ls, (N <= n)%nat -> of_order ss n ls -> Forall (gives prop kx lb pmat) (profiles ls) ->
  exists res, solver4 prop th lb eps_f (profiles ls) eps_b = Some res /\
    bounded_by 2 (msub (jones_t4 res) (inv2 (t_it LK))) (E / INR n) /\ bounded_by 2 (msub (jones_r4 res) (mmul 2 (t_rt LK) (inv2 (t_it LK)))) (E / INR n).
Proof.
  set (F := fun ls => kgen (iso_n eps_f) (iso_cos kx eps_f) (pprod pmat ls) (isoL (iso_n eps_b) (iso_cos kx eps_b))).
  assert (A4 : mappr _ (of_order ss) 4 F LK).
  { unfold F, LK, limit_k, kgen. apply mappr_mul; [apply mappr_const|]. apply mappr_mul; [|apply mappr_const]. now apply stack_slices. }
  assert (A2 : mappr _ (of_order ss) 2 (fun ls => t_it (F ls)) (t_it LK)) by (intros i j Hi Hj; unfold t_it, mat_of; idx i; idx j; cbn [nth]; apply A4; lia).
  assert (R2 : mappr _ (of_order ss) 2 (fun ls => t_rt (F ls)) (t_rt LK)) by (intros i j Hi Hj; unfold t_rt, mat_of; idx i; idx j; cbn [nth]; apply A4; lia).
  destruct (mappr_inv2 _ _ _ _ A2 DK) as [(N0 & N00 & HD) AI]. assert (RI := mappr_mul _ _ _ _ _ _ _ R2 AI).
  destruct (mappr2 _ _ _ _ AI) as (E1 & N1 & E10 & N10 & H1). destruct (mappr2 _ _ _ _ RI) as (E2 & N2 & E20 & N20 & H2).
  exists (E1 + E2)%R, (N0 + N1 + N2)%nat. split; [lra|]. split; [lia|]. intros n prop ls Hn Ho G.
  destruct (solver4_gives prop th lb eps_f eps_b (profiles ls) pmat G Nf Cf Nb (HD n ls ltac:(lia) Ho)) as (res & HR & HT & HJ). fold kx in HT, HJ. exists res. split; [exact HR|].
  assert (I : (0 < / INR n)%R) by (apply Rinv_0_lt_compat, lt_0_INR; lia). assert (0 <= E1 * / INR n)%R by (apply Rmult_le_pos; lra). assert (0 <= E2 * / INR n)%R by (apply Rmult_le_pos; lra). split.
  - apply (bounded_meq 2 (inv2 (t_it (F ls)))); [symmetry; exact HT|]. intros i j Hi Hj. assert (X := H1 n ls ltac:(lia) Ho i j Hi Hj). unfold Rdiv in *. rewrite Rmult_plus_distr_r. lra.
  - apply (bounded_meq 2 (mmul 2 (t_rt (F ls)) (inv2 (t_it (F ls))))); [symmetry; exact HJ|]. intros i j Hi Hj. assert (X := H2 n ls ltac:(lia) Ho i j Hi Hj). unfold Rdiv in *. rewrite Rmult_plus_distr_r. lra.
Qed.
End Converge.

(** ** Passive media have no resonances *)
Lemma flux_slab (k kx : R) s F : (0 < k)%R -> (0 <= depth s)%R -> (forall z, (0 <= z <= depth s)%R -> passive (permittivity s z)) ->
  (forall z, (0 <= z <= depth s)%R -> maxwell_at k (RtoC kx) (permittivity s z) F z) -> (flux4 (tangential F (depth s)) <= flux4 (tangential F 0))%R.
Proof.
  intros K D P M. set (d := depth s) in *. destruct (Rle_lt_or_eq_dec 0 d D) as [L|E]; [|rewrite <- E; lra].
  assert (PD : forall z, (0 <= z <= d)%R -> is_derive (fun z => flux4 (tangential F z)) z (- k * dissipation (permittivity s z) (electric F z))%R) by (intros z Hz; apply (poynting_at k kx); [lra|now apply M]).
  destruct (MVT_gen (fun z => flux4 (tangential F z)) 0 d (fun z => - k * dissipation (permittivity s z) (electric F z))%R) as (c & Hc & E); rewrite Rmin_left, Rmax_right in * by lra.
  - intros x Hx. apply PD. lra.
  - intros x Hx. apply continuity_pt_filterlim. apply (ex_derive_continuous (fun z => flux4 (tangential F z))). eexists. apply PD. lra.
  - assert (Q := P c Hc (electric F c)). assert (0 <= k * dissipation (permittivity s c) (electric F c) * (d - 0))%R by (apply Rmult_le_pos; [apply Rmult_le_pos; [lra|exact Q]|lra]); lra.
Qed.
Definition passive_slab (s : slab) : Prop := forall z, (0 <= z <= depth s)%R -> passive (permittivity s z).
Lemma flux_slabs (k kx : R) ss : (0 < k)%R -> Forall smooth ss -> Forall passive_slab ss -> forall u v, in_slabs k (RtoC kx) ss u v -> (flux4 v <= flux4 u)%R.
Proof.
  intros K S P. induction ss as [|s ss IH]; intros u v; cbn [in_slabs].
  - intros E. rewrite (flux4_veq _ _ E). lra.
  - inversion S; subst. inversion P; subst. intros (F & M & U & I). apply IH in I; [|assumption|assumption]. rewrite <- (flux4_veq _ _ U).
    assert (Q := flux_slab k kx s F K ltac:(now apply smooth_depth) ltac:(assumption) M). lra.
Qed.
Lemma slabs_zero k kx ss : (k <> 0)%R -> Forall smooth ss -> forall u v, in_slabs k kx ss u v -> veq 4 u (fun _ => RtoC 0) -> veq 4 v (fun _ => RtoC 0).
Proof.
  intros K S. induction S as [|s ss S _ IH]; intros u v; cbn [in_slabs].
  - intros E U. eapply veq_trans; [apply veq_sym, E|exact U].
  - intros (F & M & E & I) U. apply (IH _ _ I). assert (Y := slab_solves k kx s F K S M). destruct (mlipb_uniform 4 _ _ (amat_lipb k kx s S)) as (B & L & B0 & L0 & HB & HL).
    intros i Hi. apply (nsq_0 4 (tangential F (depth s))); [|exact Hi].
    eapply Rle_trans; [apply (grow_fwd 4 (amat k kx s) (tangential F) 0 (depth s) B ltac:(lra) (smooth_depth s S) HB (fun z q Hz Hq => Y z q Hz Hq))|].
    replace (nsq 4 (tangential F 0)) with 0%R; [lra|]. symmetry. unfold nsq. rewrite (rsum_ext 4 _ (fun _ => 0%R)), rsum_const; [ring|]. intros q Hq. rewrite (E q Hq), (U q Hq), Cmod_0. ring.
Qed.
Lemma passive_no_resonance th lb (eps_f eps_b : mat) ss (x : R) (e : C) :
  (0 < lb)%R -> isotropic eps_f (RtoC x) -> (0 < x)%R -> cos (deg2rad th) <> 0%R -> isotropic eps_b e -> e <> 0 -> (0 <= Im e)%R ->
  Forall smooth ss -> Forall passive_slab ss -> let kx := reduced_k_x th eps_f in
  iso_n eps_f <> 0 /\ iso_cos kx eps_f <> 0 /\ no_resonance (2 * PI / lb) kx (iso_n eps_f) (iso_cos kx eps_f) (iso_n eps_b) (iso_cos kx eps_b) ss.
Proof.
  intros L If X Cz Ib N Pe S P. assert (K : (0 < 2 * PI / lb)%R) by (apply Rdiv_lt_0_compat; [assert (Q := PI_RGT_0); lra|exact L]). set (k := (2 * PI / lb)%R) in *. clearbody k.
  destruct (front_real th eps_f x If X Cz) as (Nf & Kx & Cf & _ & Q). cbv zeta. rewrite Kx in *. set (kx := (sqrt x * sin (deg2rad th))%R) in *.
  destruct (back_passive kx eps_b e Ib N Pe) as (_ & In_ & Ic & Rz & Rc).
  assert (Nb : iso_n eps_b <> 0) by (rewrite (iso_n_eq eps_b e Ib); now apply Csqrt_neq0).
  split; [rewrite Nf; apply C_of_R_neq; assert (Z := sqrt_lt_R0 x X); lra|]. split; [rewrite Cf; apply C_of_R_neq; now apply Rabs_no_R0|].
  intros bp bs tp ts H. assert (W := flux_slabs k kx ss K S P _ _ H).
  assert (HA := half_space_tangential k (RtoC kx) (iso_n eps_f) (iso_cos (RtoC kx) eps_f) 0 0 bp bs). assert (HB := half_space_tangential k (RtoC kx) (iso_n eps_b) (iso_cos (RtoC kx) eps_b) tp ts 0 0).
  rewrite (flux4_veq _ _ HA), (flux4_veq _ _ HB), flux_back4, Nf, Cf, flux_front4 in W.
  assert (P1 := Cnorm2_ge0 tp). assert (P2 := Cnorm2_ge0 ts). assert (P3 := Cnorm2_ge0 bp). assert (P4 := Cnorm2_ge0 bs).
  assert (Z0 : Cnorm2 0 = 0%R) by (unfold Cnorm2; simpl; ring). rewrite Z0 in W.
  assert (B : (Cnorm2 bp + Cnorm2 bs <= 0)%R).
  { set (q := (sqrt x * Rabs (cos (deg2rad th)))%R) in *. clearbody q.
    assert (Y1 : (0 <= Re (iso_cos (RtoC kx) eps_b * Cconj (iso_n eps_b)) * Cnorm2 tp)%R) by (apply Rmult_le_pos; lra).
    assert (Y2 : (0 <= Re (iso_n eps_b * iso_cos (RtoC kx) eps_b) * Cnorm2 ts)%R) by (apply Rmult_le_pos; lra).
    nra. }
  assert (Bp : bp = 0) by (apply Cnorm2_eq0; lra). assert (Bs : bs = 0) by (apply Cnorm2_eq0; lra). subst bp bs.
  apply (back_waves_0 (iso_n eps_b) (iso_cos (RtoC kx) eps_b) tp ts Nb). eapply veq_trans; [apply veq_sym, HB|].
  apply (slabs_zero k (RtoC kx) ss ltac:(lra) S _ _ H). eapply veq_trans; [exact HA|]. apply mvec_0. intros i Hi. unfold waves, vec_of. idx i; reflexivity.
Qed.

(** ** Twisted layers *)
Lemma rotation_z a : meq 3 (rotation_v_theta E_Z a) (z_turn (deg2rad a)).
Proof.
  intros i j Hi Hj. unfold rotation_v_theta, madd, mscal, mid, mpow, m_w, rmat_of, z_turn, mat_of, E_Z, mmul, csum.
  idx i; idx j; cbn [nth Nat.eqb]; apply C_ext; cbn; ring.
Qed.
Lemma Rabs_sin_le a b : (Rabs (sin a - sin b) <= Rabs (a - b))%R.
Proof.
  destruct (MVT_gen sin b a cos) as (c & _ & E); [intros x _; auto_derive; [trivial|ring]|intros x _; apply continuity_sin|]. rewrite E, Rabs_mult.
  rewrite <- (Rmult_1_l (Rabs (a - b))) at 2. apply Rmult_le_compat_r; [apply Rabs_pos|]. apply Rabs_le. assert (B := COS_bound c). lra.
Qed.
Lemma Rabs_cos_le a b : (Rabs (cos a - cos b) <= Rabs (a - b))%R.
Proof.
  destruct (MVT_gen cos b a (fun x => - sin x)%R) as (c & _ & E); [intros x _; auto_derive; [trivial|ring]|intros x _; apply continuity_cos|]. rewrite E, Rabs_mult.
  rewrite <- (Rmult_1_l (Rabs (a - b))) at 2. apply Rmult_le_compat_r; [apply Rabs_pos|]. apply Rabs_le. assert (B := SIN_bound c). lra.
Qed.
Lemma lipb_real D (f : R -> R) B L : (0 <= B)%R -> (0 <= L)%R -> (forall z, (0 <= z <= D)%R -> (Rabs (f z) <= B)%R) ->
  (forall z z', (0 <= z <= D)%R -> (0 <= z' <= D)%R -> (Rabs (f z - f z') <= L * Rabs (z - z'))%R) -> lipb D (fun z => RtoC (f z)).
Proof.
  intros B0 L0 HB HL. exists B, L. split; [exact B0|]. split; [exact L0|]. split; intros.
  - rewrite Cmod_R. now apply HB.
  - rewrite <- RtoC_minus, Cmod_R. now apply HL.
Qed.
Lemma lipb_cos D c : lipb D (fun z => RtoC (cos (c * z))).
Proof.
  apply (lipb_real D _ 1 (Rabs c)); [lra|apply Rabs_pos| |]; intros; [apply Rabs_le; assert (B := COS_bound (c * z)); lra|].
  eapply Rle_trans; [apply Rabs_cos_le|]. rewrite <- Rmult_minus_distr_l, Rabs_mult. lra.
Qed.
Lemma lipb_sin D c : lipb D (fun z => RtoC (sin (c * z))).
Proof.
  apply (lipb_real D _ 1 (Rabs c)); [lra|apply Rabs_pos| |]; intros; [apply Rabs_le; assert (B := SIN_bound (c * z)); lra|].
  eapply Rle_trans; [apply Rabs_sin_le|]. rewrite <- Rmult_minus_distr_l, Rabs_mult. lra.
Qed.
Lemma mlipb_smooth d eps m : (0 <= d)%R -> mlipb 3 d eps -> (0 < m)%R -> (forall z, (0 <= z <= d)%R -> (m <= Cmod (eps z 2%nat 2%nat))%R) -> smooth (Graded d eps).
Proof.
  intros D M m0 H. split; [exact D|]. destruct (mlipb_uniform 3 d eps M) as (K & L & _ & _ & _ & HL). exists m, L. split; [exact m0|]. split; [exact H|].
  intros z z' i j Hz Hz' Hi Hj. now apply HL.
Qed.
Lemma mlipb_meq n D A B : (forall z, (0 <= z <= D)%R -> meq n (A z) (B z)) -> mlipb n D A -> mlipb n D B.
Proof. intros E H i j Hi Hj. apply (lipb_ext D (fun z => A z i j)); [intros z Hz; now apply E|now apply H]. Qed.
(** The tensor turned by q z about the normal *)
Definition helix (e : mat) (q z : R) : mat := mmul 3 (mmul 3 (z_turn (q * z)) e) (mtr (z_turn (q * z))).
Lemma helix_zz e q z : helix e q z 2%nat 2%nat = e 2%nat 2%nat.
Proof. unfold helix, mmul, mtr, z_turn, mat_of, csum. cbn [nth]. ring. Qed.
Lemma helix_mlipb e q d : mlipb 3 d (helix e q).
Proof.
  unfold helix. apply (mlipb_mul 3 d (fun z => mmul 3 (z_turn (q * z)) e) (fun z => mtr (z_turn (q * z)))).
  - apply (mlipb_mul 3 d (fun z => z_turn (q * z)) (fun _ => e)); [|intros i j _ _; apply lipb_const].
    intros i j Hi Hj. unfold z_turn, mat_of. idx i; idx j; cbn [nth]; try apply lipb_const; try apply lipb_cos; try apply lipb_sin.
    apply (lipb_ext d (fun z => - RtoC (sin (q * z)))); [intros; now rewrite RtoC_opp|]. apply lipb_opp, lipb_sin.
  - intros i j Hi Hj. unfold mtr, z_turn, mat_of. idx i; idx j; cbn [nth]; try apply lipb_const; try apply lipb_cos; try apply lipb_sin.
    apply (lipb_ext d (fun z => - RtoC (sin (q * z)))); [intros; now rewrite RtoC_opp|]. apply lipb_opp, lipb_sin.
Qed.
Lemma helix_passive e q z : passive e -> passive (helix e q z).
Proof.
  intros P E. assert (Q := P (mvec 3 (mtr (z_turn (q * z))) E)). unfold dissipation in *.
  replace (csum 3 (fun i => Cconj (E i) * mvec 3 (helix e q z) E i)) with (csum 3 (fun i => Cconj (mvec 3 (mtr (z_turn (q * z))) E i) * mvec 3 e (mvec 3 (mtr (z_turn (q * z))) E) i)); [exact Q|].
  unfold helix. set (c := RtoC (cos (q * z))). set (s := RtoC (sin (q * z))).
  assert (Z : z_turn (q * z) = mat_of [[c; - s; RtoC 0]; [s; c; RtoC 0]; [RtoC 0; RtoC 0; RtoC 1]]) by (unfold z_turn, c, s; now rewrite RtoC_opp). rewrite Z.
  assert (Hc : Cconj c = c) by apply Cconj_R. assert (Hs : Cconj s = s) by apply Cconj_R. clearbody c s.
  assert (H0 : Cconj (RtoC 0) = RtoC 0) by apply Cconj_R. assert (H1 : Cconj (RtoC 1) = RtoC 1) by apply Cconj_R.
  assert (HN : forall w, Cconj (- w) = - Cconj w) by (intros; apply C_ext; cbn; ring).
  unfold mvec, mmul, mtr, mat_of, csum. cbn [nth]. rewrite !Cconj_plus, !Cconj_mult, HN, Hc, Hs, H0, H1. ring.
Qed.
Lemma passive_meq e e' : meq 3 e e' -> passive e -> passive e'.
Proof. intros M P E. specialize (P E). unfold dissipation, mvec, csum in *. rewrite !M in P by lia. exact P. Qed.
Lemma twisted_helix e d angle z t : twisted_tensor e d angle z = Some t -> (d <> 0)%R /\ meq 3 t (helix e (angle * PI / 180 / d) z).
Proof.
  unfold twisted_tensor. destruct (Req_dec d 0) as [->|D]; [rewrite (proj2 (rdiv_None _ 0) eq_refl); discriminate|]. rewrite rdiv_some by exact D. cbn [obind]. intros H. injection H as <-. split; [exact D|].
  unfold helix. replace (angle * PI / 180 / d * z)%R with (deg2rad (angle * z / d)) by (unfold deg2rad; field; exact D). 
  rewrite (rotation_z (angle * z / d)). reflexivity.
Qed.
