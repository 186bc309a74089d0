From Coq Require Import Reals Lra Psatz Lia.
From Coquelicot Require Import Complex.
From Coq Require Import List.
From Verif.Base Require Import Py Cx Mat Mexp Det.
From Verif.Model Require Import Units Ellips Structure Solver2 Solver4.
From Verif.Spec Require Import Maxwell Tensor.
From Verif.Proof Require Import UnitsP DispersionsP Solver2P2 Solver2P3 Solver2P5 PoyntingP Solver4P Solver4P2 Solver4P3 Solver4P5.
Import ListNotations.
Open Scope R_scope.
Open Scope C_scope.
Open Scope py_scope.

(** The fields belonging to a result *)
Definition jones_rel (J : mat) (a0 a1 b0 b1 : C) : Prop :=
  b0 = J 0%nat 0%nat * a0 + J 0%nat 1%nat * a1 /\ b1 = J 1%nat 0%nat * a0 + J 1%nat 1%nat * a1.

Lemma solver4_fields prop th lb (eps_f eps_b : mat) ls res : let kx := reduced_k_x th eps_f in
  exact prop kx lb ls -> solver4 prop th lb eps_f ls eps_b = Some res ->
  eps_ok ls /\ lb_ok lb ls /\ iso_n eps_f <> 0 /\ iso_cos kx eps_f <> 0 /\ iso_n eps_b <> 0 /\
  power_correction4 res = rdiv (Re (get_k_z eps_b kx)) (Re (get_k_z eps_f kx)) /\
  forall ap as_ bp bs tp ts,
    veq 4 (mvec 4 (isoL (iso_n eps_f) (iso_cos kx eps_f)) (waves ap as_ bp bs))
          (mvec 4 (tmat kx lb ls) (mvec 4 (isoL (iso_n eps_b) (iso_cos kx eps_b)) (waves tp ts 0 0))) <->
    jones_rel (jones_r4 res) ap as_ bp bs /\ jones_rel (jones_t4 res) ap as_ tp ts.
Proof.
  intros kx G H. unfold solver4 in H. fold kx in H.
  destruct (transition_matrix_iso_halfspace kx eps_b false) as [X|] eqn:EX; [|discriminate]. cbn [obind] in H.
  apply iso_L_some in EX. destruct EX as (Nb & _ & ->).
  destruct (jones4 prop th lb eps_f ls _) as [[Jr Jt]|] eqn:J; [|discriminate]. cbn [obind] in H. apply Some_eq in H. subst res. cbn [jones_r4 jones_t4 power_correction4].
  apply jones4_inv in J; [|exact G]. destruct J as (O & L & Nf & Cf & I & R). fold kx in Cf, I, R.
  do 5 (split; [assumption|]). split; [reflexivity|]. intros ap as_ bp bs tp ts.
  rewrite (fields_kmat kx lb eps_f ls _ ap as_ bp bs tp ts Nf Cf), (kmat_fields _ Jt ap as_ bp bs tp ts I). unfold jones_rel.
  assert (R' : veq 2 (mvec 2 (mmul 2 (t_rt (kmat kx lb eps_f ls (isoL (iso_n eps_b) (iso_cos kx eps_b)))) Jt) (vec2 ap as_)) (mvec 2 Jr (vec2 ap as_))).
  { apply mvec_meq; [now symmetry|apply veq_refl]. }
  split.
  - intros [Q1 Q2]. assert (Q3 := veq_trans 2 _ _ _ Q2 R'). clear Q2 R'.
    assert (A0 := Q1 0%nat ltac:(lia)). assert (A1 := Q1 1%nat ltac:(lia)). assert (B0 := Q3 0%nat ltac:(lia)). assert (B1 := Q3 1%nat ltac:(lia)).
    unfold mvec, vec2, vec_of, csum in A0, A1, B0, B1. cbn [nth] in *. rewrite A0, A1, B0, B1. repeat split; ring.
  - intros ((B0 & B1) & A0 & A1). split; [|eapply veq_trans; [|apply veq_sym, R']]; intros i Hi; unfold mvec, vec2, vec_of, csum; idx i; cbn [nth];
      [rewrite A0|rewrite A1|rewrite B0|rewrite B1]; ring.
Qed.

(** Flux in the half spaces *)
Lemma flux_front4 (n c : R) ap as_ bp bs :
  flux4 (mvec 4 (isoL (RtoC n) (RtoC c)) (waves ap as_ bp bs)) = (n * c * (Cnorm2 ap + Cnorm2 as_ - Cnorm2 bp - Cnorm2 bs))%R.
Proof.
  unfold flux4, mvec, isoL, waves, vec_of, mat_of, csum. cbn [nth]. unfold Cnorm2.
  destruct ap, as_, bp, bs. simpl. ring.
Qed.
Lemma flux_back4 (n c tp ts : C) :
  flux4 (mvec 4 (isoL n c) (waves tp ts 0 0)) = (Re (c * Cconj n)%C * Cnorm2 tp + Re (n * c)%C * Cnorm2 ts)%R.
Proof.
  unfold flux4, mvec, isoL, waves, vec_of, mat_of, csum. cbn [nth]. unfold Cnorm2.
  destruct tp, ts, n, c. simpl. ring.
Qed.

Lemma front_real th (eps : mat) (x : R) : isotropic eps (RtoC x) -> (0 < x)%R -> cos (deg2rad th) <> 0%R ->
  iso_n eps = RtoC (sqrt x) /\ reduced_k_x th eps = RtoC (sqrt x * sin (deg2rad th)) /\
  iso_cos (reduced_k_x th eps) eps = RtoC (Rabs (cos (deg2rad th))) /\
  get_k_z eps (reduced_k_x th eps) = RtoC (sqrt x * Rabs (cos (deg2rad th))) /\
  (0 < sqrt x * Rabs (cos (deg2rad th)))%R.
Proof.
  intros I P Q. assert (N : RtoC x <> 0) by (apply C_of_R_neq; lra).
  assert (KX := kx_eq th eps (RtoC x) I). destruct (kz_front th x P Q) as (E1 & E2 & E3). assert (F := forward_front th x P Q).
  split; [rewrite (iso_n_eq eps _ I); apply Csqrt_pos; lra|]. split; [rewrite KX; apply kx_real; lra|].
  rewrite KX. split; [rewrite <- (forward_cos _ eps (RtoC x) N I F), E2; exact E3|].
  split; [rewrite <- (forward_kz _ eps (RtoC x) N I F); exact E1|].
  apply Rmult_lt_0_compat; [now apply sqrt_lt_R0|now apply Rabs_pos_lt].
Qed.

Lemma cos_arg (k e : C) : e <> 0 -> 1 - k / Csqrt e * (k / Csqrt e) = 1 - k * k / e.
Proof. intros N. rewrite <- (Csqrt_sqr e) at 3. field. now apply Csqrt_neq0. Qed.

Lemma back_passive (kx : R) (eps : mat) (e : C) : isotropic eps e -> e <> 0 -> (0 <= Im e)%R ->
  let n := iso_n eps in let c := iso_cos (RtoC kx) eps in
  get_k_z eps (RtoC kx) = n * c /\ (0 <= Im n)%R /\ (0 <= Im c)%R /\ (0 <= Re (n * c)%C)%R /\ (Re (n * c) <= Re (c * Cconj n))%R.
Proof.
  intros I N P n c.
  assert (En : n = Csqrt e) by (apply iso_n_eq; exact I).
  assert (Ec : c = Ccos (Casin (RtoC kx / Csqrt e))) by (rewrite Ccos_Casin; unfold c, iso_cos; fold n; now rewrite En).
  assert (Q := kz_layer_quad e kx N P).
  assert (E : n * c = kz_layer (RtoC kx) e) by (rewrite En, Ec; reflexivity).
  assert (A : (0 <= Im n)%R) by (rewrite En; now apply Csqrt_Im_ge0).
  assert (B : (0 <= Im c)%R).
  { unfold c, iso_cos. fold n. rewrite En. apply Csqrt_Im_ge0. rewrite cos_arg by exact N. now apply passive_sin2. }
  split; [|split; [exact A|split; [exact B|split; [rewrite E; apply Q|]]]].
  - rewrite E. symmetry. unfold get_k_z. rewrite (isotropic_00 eps e I), Csqrt_sqr. apply Csqrt_unique; [now apply quadrant_principal|now apply kz_layer_sqr].
  - unfold Re, Im in *. destruct n as [n1 n2], c as [c1 c2]. simpl in *. nra.
Qed.
Lemma back_real4 (kx : R) (eps : mat) (y : R) : isotropic eps (RtoC y) -> (y <> 0)%R ->
  let n := iso_n eps in let c := iso_cos (RtoC kx) eps in Re (n * c) = Re (c * Cconj n).
Proof.
  intros I N n c. assert (En : n = Csqrt (RtoC y)) by (apply iso_n_eq; exact I).
  assert (Ec : c = Ccos (Casin (RtoC kx / Csqrt (RtoC y)))) by (rewrite Ccos_Casin; unfold c, iso_cos; fold n; now rewrite En).
  assert (Z := real_eps kx y N). rewrite <- En in Z, Ec. rewrite <- Ec in Z.
  unfold Re, Im in *. destruct n as [n1 n2], c as [c1 c2]. simpl in *. nra.
Qed.

(** Transfer matrices are invertible. *)
Lemma is_inverse_mul n A B A' B' : is_inverse n A A' -> is_inverse n B B' -> is_inverse n (mmul n A B) (mmul n B' A').
Proof.
  intros [I1 I2] [J1 J2]. split.
  - rewrite <- (mmul_assoc n A B), (mmul_assoc n B B' A'), J1, mmul_1_l. exact I1.
  - rewrite <- (mmul_assoc n B' A'), (mmul_assoc n A' A B), I2, mmul_1_l. exact J2.
Qed.
Lemma tmat_inv kx lb ls : exists V, is_inverse 4 (tmat kx lb ls) V.
Proof.
  induction ls as [|l ls [V IH]]; cbn [tmat].
  - exists mid. split; apply mmul_1_l.
  - eexists. apply is_inverse_mul; [apply mexp_inv|exact IH].
Qed.
Lemma mvec_0 n A v : veq n v (fun _ => RtoC 0) -> veq n (mvec n A v) (fun _ => RtoC 0).
Proof.
  intros H i Hi. unfold mvec. transitivity (csum n (fun _ => RtoC 0)); [|apply csum_0; reflexivity].
  apply csum_ext. intros j Hj. rewrite H by exact Hj. ring.
Qed.
Lemma inv_0 n A V v : is_inverse n A V -> veq n (mvec n A v) (fun _ => RtoC 0) -> veq n v (fun _ => RtoC 0).
Proof. intros I H. apply (mvec_inv n A V v _ I) in H. eapply veq_trans; [exact H|]. apply mvec_0, veq_refl. Qed.

Lemma ker2 (A : mat) : (forall x y : C, veq 2 (mvec 2 A (vec2 x y)) (vec2 0 0) -> x = 0 /\ y = 0) -> exists V, is_inverse 2 A V.
Proof.
  intros H. destruct (minv 2 A) as [V|] eqn:E; [exists V; now apply minv_inverse in E; [|exact good2]|].
  exfalso. apply minv_none in E. rewrite det2 in E.
  assert (K1 := H (- A 0%nat 1%nat) (A 0%nat 0%nat)). assert (K2 := H (A 1%nat 1%nat) (- A 1%nat 0%nat)).
  destruct K1 as [Z1 Z0].
  { intros i Hi. unfold mvec, vec2, vec_of, csum. idx i; cbn [nth]; [ring|]. transitivity (A 0%nat 0%nat * A 1%nat 1%nat - A 0%nat 1%nat * A 1%nat 0%nat); [ring|exact E]. }
  destruct K2 as [Z3 Z2].
  { intros i Hi. unfold mvec, vec2, vec_of, csum. idx i; cbn [nth]; [|ring]. transitivity (A 0%nat 0%nat * A 1%nat 1%nat - A 0%nat 1%nat * A 1%nat 0%nat); [ring|exact E]. }
  assert (Z1' : A 0%nat 1%nat = 0) by (transitivity (- - A 0%nat 1%nat); [ring|rewrite Z1; ring]).
  assert (Z2' : A 1%nat 0%nat = 0) by (transitivity (- - A 1%nat 0%nat); [ring|rewrite Z2; ring]).
  destruct (H 1 0) as [K _].
  { intros i Hi. unfold mvec, vec2, vec_of, csum. idx i; cbn [nth]; rewrite ?Z0, ?Z1', ?Z2', ?Z3; ring. }
  apply RtoC_inj in K. lra.
Qed.

(** The flux through a stack, in terms of the amplitudes *)
Definition passive_layers (ls : list (R * mat)) : Prop := Forall (fun l => (0 <= fst l)%R /\ passive (snd l)) ls.
Definition lossless_layers (ls : list (R * mat)) : Prop := Forall (fun l => hermitian (snd l)) ls.

Lemma stack_flux (kx lb : R) ls u v : (0 < lb)%R -> eps_ok ls -> passive_layers ls ->
  veq 4 u (mvec 4 (tmat (RtoC kx) lb ls) v) -> (flux4 v <= flux4 u)%R.
Proof.
  intros L O P E. apply (flux_stack (2 * PI / lb) kx ls); [|exact P|apply in_stack_iff; [lra|exact O|exact E]].
  apply Rdiv_lt_0_compat; [assert (Q := PI_RGT_0); lra|exact L].
Qed.
Lemma stack_flux_eq (kx lb : R) ls u v : (lb <> 0)%R -> eps_ok ls -> lossless_layers ls ->
  veq 4 u (mvec 4 (tmat (RtoC kx) lb ls) v) -> flux4 v = flux4 u.
Proof.
  intros L O P E. apply (flux_stack_eq (2 * PI / lb) kx ls); [|exact P|apply in_stack_iff; [lra|exact O|exact E]].
  assert (Q := PI_RGT_0). unfold Rdiv. apply Rmult_integral_contrapositive_currified; [lra|now apply Rinv_neq_0_compat].
Qed.

Lemma back_waves_0 (n c tp ts : C) : n <> 0 -> veq 4 (mvec 4 (isoL n c) (waves tp ts 0 0)) (fun _ => RtoC 0) -> tp = 0 /\ ts = 0.
Proof.
  intros N H. assert (H1 := H 1%nat ltac:(lia)). assert (H3 := H 3%nat ltac:(lia)).
  unfold mvec, isoL, waves, vec_of, mat_of, csum in H1, H3. cbn [nth] in H1, H3.
  assert (A : ts = 0) by (rewrite <- H1; ring). split; [|exact A].
  assert (B : n * tp = 0) by (rewrite <- H3; ring). destruct (C_integral _ _ B) as [B0|B0]; [contradiction|exact B0].
Qed.

Lemma solver4_def prop th lb (eps_f eps_b : mat) ls (x : R) (e : C) :
  good_prop prop (reduced_k_x th eps_f) lb ls ->
  isotropic eps_f (RtoC x) -> (0 < x)%R -> cos (deg2rad th) <> 0%R ->
  isotropic eps_b e -> e <> 0 -> (0 <= Im e)%R -> eps_ok ls ->
  (lb <> 0)%R -> ((0 < lb)%R /\ passive_layers ls \/ lossless_layers ls) ->
  exists res, solver4 prop th lb eps_f ls eps_b = Some res.
Proof.
  intros [G1 G2] If X Cz Ib N Pe O L D.
  destruct (front_real th eps_f x If X Cz) as (Nf & Kx & Cf & _ & Q).
  set (kx := (sqrt x * sin (deg2rad th))%R) in *. rewrite Kx in G1, G2, Cf.
  destruct (back_passive kx eps_b e Ib N Pe) as (_ & In & Ic & Rz & Rc).
  assert (Nb : iso_n eps_b <> 0) by (rewrite (iso_n_eq eps_b e Ib); now apply Csqrt_neq0).
  assert (Nf0 : iso_n eps_f <> 0) by (rewrite Nf; apply C_of_R_neq; assert (Z := sqrt_lt_R0 x X); lra).
  assert (Cf0 : iso_cos (RtoC kx) eps_f <> 0) by (rewrite Cf; apply C_of_R_neq; now apply Rabs_no_R0).
  set (K := kmat (RtoC kx) lb eps_f ls (isoL (iso_n eps_b) (iso_cos (RtoC kx) eps_b))).
  assert (I : exists V, is_inverse 2 (t_it K) V).
  { apply ker2. intros tp ts H.
    set (bp := mvec 2 (t_rt K) (vec2 tp ts) 0%nat). set (bs := mvec 2 (t_rt K) (vec2 tp ts) 1%nat).
    assert (F : veq 4 (mvec 4 K (waves tp ts 0 0)) (waves 0 0 bp bs)).
    { assert (H0 := H 0%nat ltac:(lia)). assert (H1 := H 1%nat ltac:(lia)). unfold mvec, vec2, vec_of, t_it, mat_of, csum in H0, H1. cbn [nth] in H0, H1.
      unfold bp, bs. intros i Hi. unfold mvec, waves, vec2, vec_of, t_rt, mat_of, csum. idx i; cbn [nth].
      - transitivity (K 0%nat 2%nat * tp + K 0%nat 0%nat * ts); [ring|]. rewrite <- H1. ring.
      - ring.
      - transitivity (K 2%nat 2%nat * tp + K 2%nat 0%nat * ts); [ring|]. rewrite <- H0. ring.
      - ring. }
    clearbody bp bs. apply fields_kmat in F; [|exact Nf0|exact Cf0].
    assert (W : (flux4 (mvec 4 (isoL (iso_n eps_b) (iso_cos (RtoC kx) eps_b)) (waves tp ts 0 0)) <=
      flux4 (mvec 4 (isoL (iso_n eps_f) (iso_cos (RtoC kx) eps_f)) (waves 0 0 bp bs)))%R).
    { destruct D as [[L0 D]|D]; [now apply (stack_flux kx lb ls)|right; now apply (stack_flux_eq kx lb ls)]. }
    rewrite flux_back4, Nf, Cf, flux_front4 in W.
    assert (P1 := Cnorm2_ge0 tp). assert (P2 := Cnorm2_ge0 ts). assert (P3 := Cnorm2_ge0 bp). assert (P4 := Cnorm2_ge0 bs).
    assert (Z0 : Cnorm2 0 = 0%R) by (unfold Cnorm2; simpl; ring). rewrite Z0 in W.
    assert (B : (Cnorm2 bp + Cnorm2 bs <= 0)%R).
    { set (q := (sqrt x * Rabs (cos (deg2rad th)))%R) in *. clearbody q.
      assert (Y1 : (0 <= Re (iso_cos (RtoC kx) eps_b * Cconj (iso_n eps_b)) * Cnorm2 tp)%R) by (apply Rmult_le_pos; lra).
      assert (Y2 : (0 <= Re (iso_n eps_b * iso_cos (RtoC kx) eps_b) * Cnorm2 ts)%R) by (apply Rmult_le_pos; lra).
      nra. }
    assert (Bp : bp = 0) by (apply Cnorm2_eq0; lra). assert (Bs : bs = 0) by (apply Cnorm2_eq0; lra). subst bp bs.
    apply (back_waves_0 (iso_n eps_b) (iso_cos (RtoC kx) eps_b) tp ts Nb).
    destruct (tmat_inv (RtoC kx) lb ls) as [V IV]. apply (inv_0 4 _ V _ IV).
    eapply veq_trans; [apply veq_sym, F|]. apply mvec_0. intros i Hi. unfold waves, vec_of. idx i; reflexivity. }
  destruct I as [V I].
  assert (LO : lb_ok lb ls) by (unfold lb_ok; tauto).
  rewrite <- Kx in G1, G2, Cf0. unfold K in I. rewrite <- Kx in I.
  destruct (jones4_some prop th lb eps_f ls _ V G1 G2 O LO Nf0 Cf0 I) as (Jr & Jt & J & _).
  unfold solver4. rewrite iso_L_eq by exact Nb. cbn [obind]. rewrite J. cbn [obind]. eauto.
Qed.

(** Power of a Jones matrix column *)
Definition unit_in (j : nat) : C * C := if Nat.eqb j 0 then (RtoC 1, RtoC 0) else (RtoC 0, RtoC 1).

Lemma solver4_energy prop th lb (eps_f eps_b : mat) ls (x : R) (e : C) res :
  exact prop (reduced_k_x th eps_f) lb ls ->
  isotropic eps_f (RtoC x) -> (0 < x)%R -> cos (deg2rad th) <> 0%R ->
  isotropic eps_b e -> e <> 0 -> (0 <= Im e)%R -> (lb <> 0)%R ->
  solver4 prop th lb eps_f ls eps_b = Some res ->
  exists pc, power_correction4 res = Some pc /\ (0 <= pc)%R /\
  forall (ap as_ : C), let J := jones_r4 res in let T := jones_t4 res in
    let bp := J 0%nat 0%nat * ap + J 0%nat 1%nat * as_ in let bs := J 1%nat 0%nat * ap + J 1%nat 1%nat * as_ in
    let tp := T 0%nat 0%nat * ap + T 0%nat 1%nat * as_ in let ts := T 1%nat 0%nat * ap + T 1%nat 1%nat * as_ in
    let total := (Cnorm2 bp + Cnorm2 bs + pc * (Cnorm2 tp + Cnorm2 ts))%R in
    ((0 < lb)%R -> passive_layers ls -> (total <= Cnorm2 ap + Cnorm2 as_)%R) /\
    (lossless_layers ls -> forall y, e = RtoC y -> total = (Cnorm2 ap + Cnorm2 as_)%R).
Proof.
  intros G If X Cz Ib N Pe L H.
  destruct (solver4_fields prop th lb eps_f eps_b ls res G H) as (O & LO & _ & _ & _ & PC & F).
  destruct (front_real th eps_f x If X Cz) as (Nf & Kx & Cf & Kf & Q).
  set (kx := (sqrt x * sin (deg2rad th))%R) in *. rewrite Kx in *. rewrite Kf in PC.
  destruct (back_passive kx eps_b e Ib N Pe) as (Kb & In & Ic & Rz & Rc). rewrite Kb in PC.
  set (q := (sqrt x * Rabs (cos (deg2rad th)))%R) in *. set (n := iso_n eps_b) in *. set (c := iso_cos (RtoC kx) eps_b) in *.
  exists (Re (n * c) / q)%R. split; [rewrite PC; apply rdiv_some; cbn; lra|].
  split; [apply Rmult_le_pos; [exact Rz|apply Rlt_le, Rinv_0_lt_compat, Q]|].
  intros ap as_ J T bp bs tp ts total.
  assert (E := proj2 (F ap as_ bp bs tp ts)). unfold jones_rel in E. fold J T in E. specialize (E ltac:(repeat split)).
  assert (FF := flux_front4 (sqrt x) (Rabs (cos (deg2rad th))) ap as_ bp bs). rewrite <- Nf, <- Cf in FF. fold q in FF.
  assert (FB := flux_back4 n c tp ts).
  assert (P1 := Cnorm2_ge0 tp). assert (P2 := Cnorm2_ge0 ts).
  assert (QT : (q * total = q * (Cnorm2 bp + Cnorm2 bs) + Re (n * c) * (Cnorm2 tp + Cnorm2 ts))%R) by (unfold total; field; lra).
  clearbody total bp bs tp ts.
  split.
  - intros L0 D. assert (W := stack_flux kx lb ls _ _ L0 O D E). rewrite FF, FB in W.
    apply (Rmult_le_reg_l q); [exact Q|]. rewrite QT.
    assert (Y : (Re (n * c) * Cnorm2 tp <= Re (c * Cconj n) * Cnorm2 tp)%R) by (apply Rmult_le_compat_r; lra).
    nra.
  - intros D y Ey. assert (W := stack_flux_eq kx lb ls _ _ L O D E). rewrite FF, FB in W.
    assert (Ny : y <> 0%R) by (intros Zy; apply N; now rewrite Ey, Zy).
    rewrite Ey in Ib. assert (RB := back_real4 kx eps_b y Ib Ny). cbv zeta in RB. fold n c in RB. rewrite <- RB in W.
    apply (Rmult_eq_reg_l q); [|lra]. rewrite QT. nra.
Qed.
