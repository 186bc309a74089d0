From Coq Require Import Reals Lra Psatz Lia.
From Coquelicot Require Import Complex.
From Coq Require Import List.
From Verif.Base Require Import Py Cx Mat Mexp Det.
From Verif.Model Require Import Units Ellips Structure Solver4.
From Verif.Spec Require Import Tensor Turned.
From Verif.Proof Require Import UnitsP DispersionsP Solver4P Solver4P2 Solver4P5 Solver4P6 ModesP Symmetry4P.
Import ListNotations.
Open Scope R_scope.
Open Scope C_scope.
Open Scope py_scope.

(** Jones matrices of stacks whose amplitudes are related by fixed matrices *)
Lemma jones4_conj1 prop prop' th lb (eps_f : mat) ls ls' M M' Jr Jt rho rhoi sigma : let kx := reduced_k_x th eps_f in
  exact prop kx lb ls -> good_prop prop' kx lb ls' -> (eps_ok ls -> eps_ok ls') -> length ls' = length ls -> is_inverse 2 rho rhoi ->
  (iso_n eps_f <> 0 -> iso_cos kx eps_f <> 0 ->
   meq 2 (t_it (kmat kx lb eps_f ls' M')) (mmul 2 (mmul 2 rho (t_it (kmat kx lb eps_f ls M))) rhoi) /\
   meq 2 (t_rt (kmat kx lb eps_f ls' M')) (mmul 2 (mmul 2 sigma (t_rt (kmat kx lb eps_f ls M))) rhoi)) ->
  jones4 prop th lb eps_f ls M = Some (Jr, Jt) ->
  exists Jr' Jt', jones4 prop' th lb eps_f ls' M' = Some (Jr', Jt') /\
    meq 2 Jr' (mmul 2 (mmul 2 sigma Jr) rhoi) /\ meq 2 Jt' (mmul 2 (mmul 2 rho Jt) rhoi).
Proof.
  intros kx E [E' T'] O' LN RI H J. apply jones4_inv in J; [|exact E]. destruct J as (O & L & Nf & Cf & I & R). fold kx in Cf, I, R.
  destruct (H Nf Cf) as [H1 H2]. clear H.
  assert (L' : lb_ok lb ls').
  { destruct L as [->|L]; [left|now right]. destruct ls'; [reflexivity|discriminate]. }
  assert (I' : is_inverse 2 (t_it (kmat kx lb eps_f ls' M')) (mmul 2 (mmul 2 rho Jt) rhoi)).
  { destruct I as [I1 I2], RI as [R1 R2]. set (K := t_it (kmat kx lb eps_f ls M)) in *. split; rewrite H1, <- !mmul_assoc.
    - rewrite (mmul_assoc 2 rhoi rho), R2, mmul_1_l, (mmul_assoc 2 K Jt), I1, mmul_1_l. exact R1.
    - rewrite (mmul_assoc 2 rhoi rho), R2, mmul_1_l, (mmul_assoc 2 Jt K), I2, mmul_1_l. exact R1. }
  destruct (jones4_some prop' th lb eps_f ls' M' _ E' T' (O' O) L' Nf Cf I') as (Jr' & Jt' & J' & A & B). fold kx in B.
  exists Jr', Jt'. split; [exact J'|]. split; [|exact A]. rewrite B, H2, R. destruct RI as [R1 R2]. rewrite <- !mmul_assoc.
  rewrite (mmul_assoc 2 rhoi rho), R2, mmul_1_l. reflexivity.
Qed.

(** The mirror at the plane of incidence *)
Definition Smir : mat := mdiag (vec_of [RtoC 1; - RtoC 1; - RtoC 1; RtoC 1]).
Definition Wmir : mat := mdiag (vec_of [- RtoC 1; - RtoC 1; RtoC 1; RtoC 1]).
Definition flip_s : mat := mdiag (vec_of [RtoC 1; - RtoC 1]).
Lemma diag_inv n d : (forall i, (i < n)%nat -> d i * d i = 1) -> is_inverse n (mdiag d) (mdiag d).
Proof. intros H. split; rewrite mdiag_mul; now apply mdiag_1. Qed.
Lemma Smir_inv : is_inverse 4 Smir Smir.
Proof. apply diag_inv. intros i Hi. unfold vec_of. idx i; cbn [nth]; ring. Qed.
Lemma flip_inv : is_inverse 2 flip_s flip_s.
Proof. apply diag_inv. intros i Hi. unfold vec_of. idx i; cbn [nth]; ring. Qed.

Lemma mirror_elem eps eps' : moved y_mirror eps eps' -> forall i j, (i < 3)%nat -> (j < 3)%nat ->
  eps' i j = if Bool.eqb (Nat.eqb i 1) (Nat.eqb j 1) then eps i j else - eps i j.
Proof.
  intros M i j Hi Hj. rewrite (moved_elem _ _ _ i j M Hi Hj). unfold y_mirror, mat_of, csum.
  replace (RtoC (-1)) with (- RtoC 1) by (apply C_ext; simpl; ring).
  idx i; idx j; cbn [nth Nat.eqb Bool.eqb]; ring.
Qed.
Lemma delta_mirror kx eps eps' : moved y_mirror eps eps' -> eps 2%nat 2%nat <> 0 ->
  meq 4 (delta_of kx eps') (mmul 4 (mmul 4 Smir (delta_of kx eps)) Smir).
Proof.
  intros M N. assert (H := mirror_elem eps eps' M). assert (N' : eps' 2%nat 2%nat <> 0) by (rewrite H by lia; exact N).
  unfold delta_of, build_delta_matrix. destruct (Ceq_dec (eps 2%nat 2%nat) 0); [contradiction|]. destruct (Ceq_dec (eps' 2%nat 2%nat) 0); [contradiction|].
  mexpl; unfold mmul, Smir, mdiag, vec_of, mat_of, csum; cbn [nth Nat.eqb]; rewrite ?H by lia; cbn [Nat.eqb Bool.eqb]; field; exact N.
Qed.
Lemma moved_ok Q ls ls' : (forall eps eps', moved Q eps eps' -> eps 2%nat 2%nat <> 0 -> eps' 2%nat 2%nat <> 0) ->
  moved_layers Q ls ls' -> eps_ok ls -> eps_ok ls'.
Proof. intros H M O. induction M as [|l l' ls ls' [F M] _ IH]; [constructor|]. inversion O; subst. constructor; [now apply (H (snd l))|now apply IH]. Qed.
Lemma moved_length Q ls ls' : moved_layers Q ls ls' -> length ls' = length ls.
Proof. induction 1; cbn [length]; [reflexivity|now f_equal]. Qed.
Lemma moved_similar Q kx lb ls ls' W V : is_inverse 4 W V ->
  (forall eps eps', moved Q eps eps' -> eps 2%nat 2%nat <> 0 -> meq 4 (delta_of kx eps') (mmul 4 (mmul 4 W (delta_of kx eps)) V)) ->
  moved_layers Q ls ls' -> eps_ok ls -> meq 4 (tmat kx lb ls') (mmul 4 (mmul 4 W (tmat kx lb ls)) V).
Proof.
  intros I H M O. apply tmat_similar; [exact I|]. induction M as [|l l' ls ls' [F M] _ IH]; [constructor|]. inversion O; subst.
  constructor; [split; [exact F|now apply H]|now apply IH].
Qed.

Lemma iso_mirror n c : meq 4 (mmul 4 Smir (isoL n c)) (mmul 4 (isoL n c) Wmir).
Proof. mexpl; unfold mmul, Smir, Wmir, isoL, mdiag, vec_of, mat_of, csum; cbn [nth Nat.eqb]; ring. Qed.

(** The transfer matrix between amplitudes *)
Lemma kmat_conj kx lb (eps_f : mat) ls ls' M M' W V U : iso_n eps_f <> 0 -> iso_cos kx eps_f <> 0 -> is_inverse 4 W V ->
  meq 4 (tmat kx lb ls') (mmul 4 (mmul 4 W (tmat kx lb ls)) V) ->
  meq 4 (mmul 4 W (isoL (iso_n eps_f) (iso_cos kx eps_f))) (mmul 4 (isoL (iso_n eps_f) (iso_cos kx eps_f)) U) ->
  forall U', meq 4 (mmul 4 V M') (mmul 4 M U') ->
  meq 4 (kmat kx lb eps_f ls' M') (mmul 4 (mmul 4 U (kmat kx lb eps_f ls M)) U').
Proof.
  intros N Cz I T F U' X. unfold kmat. set (n := iso_n eps_f) in *. set (c := iso_cos kx eps_f) in *.
  destruct (iso_inverse n c N Cz) as [L1 L2].
  assert (F' : meq 4 (mmul 4 (isoLi n c) W) (mmul 4 U (isoLi n c))).
  { transitivity (mmul 4 (isoLi n c) (mmul 4 (mmul 4 W (isoL n c)) (isoLi n c))).
    - rewrite <- (mmul_assoc 4 W), L1, mmul_1_r. reflexivity.
    - rewrite F, <- (mmul_assoc 4 (isoL n c)), (mmul_assoc 4 (isoLi n c)), L2, mmul_1_l. reflexivity. }
  rewrite T, <- !mmul_assoc, X. rewrite (mmul_assoc 4 (isoLi n c) W), F', <- !mmul_assoc. reflexivity.
Qed.


Definition flipped (J : mat) : mat := mmul 2 (mmul 2 flip_s J) flip_s.
Lemma flipped_eq J : meq 2 (flipped J) (mat_of [[J 0%nat 0%nat; - J 0%nat 1%nat]; [- J 1%nat 0%nat; J 1%nat 1%nat]]).
Proof. mexpl; unfold flipped, mmul, flip_s, mdiag, vec_of, mat_of, csum; cbn [nth Nat.eqb]; ring. Qed.

Lemma mirror_jones prop prop' th lb (eps_f : mat) ls ls' n_b c_b Jr Jt : let kx := reduced_k_x th eps_f in
  exact prop kx lb ls -> good_prop prop' kx lb ls' -> moved_layers y_mirror ls ls' ->
  jones4 prop th lb eps_f ls (isoL n_b c_b) = Some (Jr, Jt) ->
  exists Jr' Jt', jones4 prop' th lb eps_f ls' (isoL n_b c_b) = Some (Jr', Jt') /\ meq 2 Jr' (flipped Jr) /\ meq 2 Jt' (flipped Jt).
Proof.
  intros kx E G M J. assert (O : eps_ok ls) by (apply jones4_inv in J; [tauto|exact E]).
  apply (jones4_conj1 prop prop' th lb eps_f ls ls' (isoL n_b c_b) (isoL n_b c_b) Jr Jt flip_s flip_s flip_s E G); fold kx.
  - apply (moved_ok y_mirror); [|exact M]. intros e e' H N. rewrite (mirror_elem e e' H) by lia. exact N.
  - exact (moved_length _ _ _ M).
  - exact flip_inv.
  - intros Nf Cf.
    assert (T := moved_similar y_mirror kx lb ls ls' Smir Smir Smir_inv (fun e e' => delta_mirror kx e e') M O).
    assert (K := kmat_conj kx lb eps_f ls ls' (isoL n_b c_b) (isoL n_b c_b) Smir Smir Wmir Nf Cf Smir_inv T (iso_mirror _ _) Wmir (iso_mirror _ _)).
    rewrite (t_it_meq _ _ K), (t_rt_meq _ _ K). set (X := kmat kx lb eps_f ls (isoL n_b c_b)). clearbody X.
    split; mexpl; unfold t_it, t_rt, mmul, Wmir, flip_s, mdiag, vec_of, mat_of, csum; cbn [nth Nat.eqb]; ring.
  - exact J.
Qed.

(** Turns about z at normal incidence *)
Definition Uz (phi : R) : mat := mat_of
  [[RtoC (cos phi); RtoC (- sin phi); RtoC 0; RtoC 0]; [RtoC (sin phi); RtoC (cos phi); RtoC 0; RtoC 0];
   [RtoC 0; RtoC 0; RtoC (cos phi); RtoC (- sin phi)]; [RtoC 0; RtoC 0; RtoC (sin phi); RtoC (cos phi)]].
(** the same in the amplitudes as, bs, ap, bp *)
Definition Wz (phi : R) : mat := mat_of
  [[RtoC (cos phi); RtoC 0; RtoC (sin phi); RtoC 0]; [RtoC 0; RtoC (cos phi); RtoC 0; RtoC (- sin phi)];
   [RtoC (- sin phi); RtoC 0; RtoC (cos phi); RtoC 0]; [RtoC 0; RtoC (sin phi); RtoC 0; RtoC (cos phi)]].
Lemma cs2 phi : RtoC (cos phi) * RtoC (cos phi) + RtoC (sin phi) * RtoC (sin phi) = 1.
Proof. rewrite <- !RtoC_mult, <- RtoC_plus. f_equal. assert (H := sin2_cos2 phi). unfold Rsqr in H. lra. Qed.
Lemma cs2' phi : RtoC (sin phi) * RtoC (sin phi) = 1 - RtoC (cos phi) * RtoC (cos phi).
Proof. rewrite <- (cs2 phi). ring. Qed.
Lemma Uz_inv phi : is_inverse 4 (Uz phi) (Uz (- phi)).
Proof.
  unfold Uz. rewrite cos_neg, sin_neg, Ropp_involutive. split; mexpl; unfold mmul, mid, mat_of, csum; cbn [nth Nat.eqb]; rewrite ?RtoC_opp;
    match goal with |- _ = RtoC 1 => transitivity (RtoC (cos phi) * RtoC (cos phi) + RtoC (sin phi) * RtoC (sin phi)); [ring|apply cs2] | _ => ring end.
Qed.
Lemma plane_inv phi : is_inverse 2 (plane_turn phi) (plane_turn (- phi)).
Proof.
  unfold plane_turn. rewrite cos_neg, sin_neg, Ropp_involutive. split; mexpl; unfold mmul, mid, mat_of, csum; cbn [nth Nat.eqb]; rewrite ?RtoC_opp;
    match goal with |- _ = RtoC 1 => transitivity (RtoC (cos phi) * RtoC (cos phi) + RtoC (sin phi) * RtoC (sin phi)); [ring|apply cs2] | _ => ring end.
Qed.
Lemma iso_turn n phi : meq 4 (mmul 4 (Uz phi) (isoL n 1)) (mmul 4 (isoL n 1) (Wz phi)).
Proof. mexpl; unfold mmul, Uz, Wz, isoL, mat_of, csum; cbn [nth Nat.eqb]; rewrite ?RtoC_opp; ring. Qed.

Lemma delta_turn phi eps eps' : moved (z_turn phi) eps eps' -> eps 2%nat 2%nat <> 0 ->
  meq 4 (delta_of 0 eps') (mmul 4 (mmul 4 (Uz phi) (delta_of 0 eps)) (Uz (- phi))).
Proof.
  intros M N. elems M.
  assert (E22 : eps' 2%nat 2%nat = eps 2%nat 2%nat) by (rewrite E7; unfold z_turn, mat_of, csum; cbn [nth]; ring).
  assert (N' : eps' 2%nat 2%nat <> 0) by (rewrite E22; exact N).
  unfold delta_of, build_delta_matrix. destruct (Ceq_dec (eps 2%nat 2%nat) 0); [contradiction|]. destruct (Ceq_dec (eps' 2%nat 2%nat) 0); [contradiction|].
  assert (S2 := cs2' phi).
  mexpl; unfold mmul, Uz, mat_of, csum; cbn [nth Nat.eqb]; rewrite ?cos_neg, ?sin_neg, ?Ropp_involutive, ?E22, ?E, ?E0, ?E1, ?E2, ?E3, ?E4, ?E5, ?E6;
    unfold z_turn, mat_of, csum; cbn [nth]; rewrite ?RtoC_opp; try (field_simplify_eq; [|exact N]); try ring [S2].
Qed.
Lemma turn_ok phi eps eps' : moved (z_turn phi) eps eps' -> eps 2%nat 2%nat <> 0 -> eps' 2%nat 2%nat <> 0.
Proof. intros M N. rewrite (moved_elem _ _ _ 2%nat 2%nat M ltac:(lia) ltac:(lia)). unfold z_turn, mat_of, csum. cbn [nth]. intros K. apply N. rewrite <- K. ring. Qed.
Lemma iso_cos_0 (eps : mat) : iso_cos 0 eps = 1.
Proof. unfold iso_cos. replace (1 - 0 / iso_n eps * (0 / iso_n eps)) with (RtoC 1) by (unfold Cdiv; ring). rewrite Csqrt_pos by lra. now rewrite sqrt_1. Qed.

Lemma turn_jones prop prop' th lb phi (eps_f : mat) ls ls' n_b Jr Jt : reduced_k_x th eps_f = 0 ->
  exact prop 0 lb ls -> good_prop prop' 0 lb ls' -> moved_layers (z_turn phi) ls ls' ->
  jones4 prop th lb eps_f ls (isoL n_b 1) = Some (Jr, Jt) ->
  exists Jr' Jt', jones4 prop' th lb eps_f ls' (isoL n_b 1) = Some (Jr', Jt') /\
    meq 2 Jr' (mmul 2 (mmul 2 (plane_turn (- phi)) Jr) (plane_turn (- phi))) /\
    meq 2 Jt' (mmul 2 (mmul 2 (plane_turn phi) Jt) (plane_turn (- phi))).
Proof.
  intros KX E G M J. assert (O : eps_ok ls) by (apply jones4_inv in J; [tauto|rewrite KX; exact E]).
  apply (jones4_conj1 prop prop' th lb eps_f ls ls' (isoL n_b 1) (isoL n_b 1) Jr Jt (plane_turn phi) (plane_turn (- phi)) (plane_turn (- phi))); rewrite ?KX.
  - exact E.
  - exact G.
  - apply (moved_ok (z_turn phi)); [|exact M]. apply turn_ok.
  - exact (moved_length _ _ _ M).
  - apply plane_inv.
  - intros Nf Cf. assert (F := iso_turn (iso_n eps_f) phi). rewrite <- (iso_cos_0 eps_f) in F.
    assert (T := moved_similar (z_turn phi) 0 lb ls ls' (Uz phi) (Uz (- phi)) (Uz_inv phi) (fun e e' => delta_turn phi e e') M O).
    assert (K := kmat_conj 0 lb eps_f ls ls' (isoL n_b 1) (isoL n_b 1) (Uz phi) (Uz (- phi)) (Wz phi) Nf Cf (Uz_inv phi) T F (Wz (- phi)) (iso_turn n_b (- phi))).
    rewrite (t_it_meq _ _ K), (t_rt_meq _ _ K). set (X := kmat 0 lb eps_f ls (isoL n_b 1)). clearbody X.
    split; mexpl; unfold t_it, t_rt, mmul, Wz, plane_turn, mat_of, csum; cbn [nth]; rewrite ?cos_neg, ?sin_neg, ?Ropp_involutive, ?RtoC_opp; ring.
  - exact J.
Qed.

(** The sample turned over *)
Definition Wo : mat := mat_of [[RtoC 0; RtoC 0; RtoC 0; RtoC 1]; [RtoC 0; RtoC 0; RtoC 1; RtoC 0];
  [RtoC 0; RtoC 1; RtoC 0; RtoC 0]; [RtoC 1; RtoC 0; RtoC 0; RtoC 0]].
Lemma Wo_inv : is_inverse 4 Wo Wo.
Proof. split; mexpl; unfold mmul, Wo, mid, mat_of, csum; cbn [nth Nat.eqb]; apply C_ext; simpl; ring. Qed.
Lemma over_elem eps eps' : moved y_half_turn eps eps' -> forall i j, (i < 3)%nat -> (j < 3)%nat ->
  eps' i j = if Bool.eqb (Nat.eqb i 1) (Nat.eqb j 1) then eps i j else - eps i j.
Proof.
  intros M i j Hi Hj. rewrite (moved_elem _ _ _ i j M Hi Hj). unfold y_half_turn, mat_of, csum.
  replace (RtoC (-1)) with (- RtoC 1) by (apply C_ext; simpl; ring).
  idx i; idx j; cbn [nth Nat.eqb Bool.eqb]; ring.
Qed.
Lemma delta_over kx eps eps' : reciprocal eps -> moved y_half_turn eps eps' -> eps 2%nat 2%nat <> 0 ->
  meq 4 (delta_of kx eps') (mmul 4 (mmul 4 Wo (mtr (delta_of kx eps))) Wo).
Proof.
  intros S M N. assert (H := over_elem eps eps' M).
  assert (N' : eps' 2%nat 2%nat <> 0) by (rewrite H by lia; exact N).
  assert (E10 : eps 1%nat 0%nat = eps 0%nat 1%nat) by (symmetry; apply (S 1%nat 0%nat); lia).
  assert (E20 : eps 2%nat 0%nat = eps 0%nat 2%nat) by (symmetry; apply (S 2%nat 0%nat); lia).
  assert (E21 : eps 2%nat 1%nat = eps 1%nat 2%nat) by (symmetry; apply (S 2%nat 1%nat); lia).
  unfold delta_of, build_delta_matrix. destruct (Ceq_dec (eps 2%nat 2%nat) 0); [contradiction|]. destruct (Ceq_dec (eps' 2%nat 2%nat) 0); [contradiction|].
  mexpl; unfold mmul, mtr, Wo, mat_of, csum; cbn [nth]; rewrite ?H by lia; cbn [Nat.eqb Bool.eqb]; rewrite ?E10, ?E20, ?E21; field; exact N.
Qed.
Lemma layer_over kx lb l l' : fst l' = fst l -> reciprocal (snd l) -> moved y_half_turn (snd l) (snd l') -> snd l 2%nat 2%nat <> 0 ->
  meq 4 (layer_mat kx lb l') (mmul 4 (mmul 4 Wo (mtr (layer_mat kx lb l))) Wo).
Proof.
  intros F S M N. unfold layer_mat. rewrite F.
  assert (T : meq 4 (mtr (mexp 4 (mscal (phase lb (- fst l)) (delta_of kx (snd l))))) (mexp 4 (mscal (phase lb (- fst l)) (mtr (delta_of kx (snd l)))))).
  { unfold mexp. rewrite mexpt_tr. apply mexpt_meq. reflexivity. }
  rewrite T. apply mexp_similar; [exact Wo_inv|]. rewrite (delta_over kx _ _ S M N), mmul_scal_r, mmul_scal_l. reflexivity.
Qed.
Lemma tmat_over kx lb ls ls' : moved_layers y_half_turn ls ls' -> Forall (fun l => reciprocal (snd l)) ls -> eps_ok ls ->
  meq 4 (tmat kx lb (rev ls')) (mmul 4 (mmul 4 Wo (mtr (tmat kx lb ls))) Wo).
Proof.
  intros M S O. induction M as [|l l' ls ls' [F M] _ IH]; cbn [tmat rev].
  - rewrite mtr_mid, mmul_1_r. symmetry. apply Wo_inv.
  - inversion S; inversion O; subst. rewrite tmat_app. cbn [tmat]. rewrite mmul_1_r.
    rewrite IH by assumption. rewrite (layer_over kx lb l l') by assumption. rewrite mtr_mul.
    destruct Wo_inv as [W _]. rewrite <- !mmul_assoc. rewrite (mmul_assoc 4 Wo Wo), W, mmul_1_l. reflexivity.
Qed.

Definition gform (u v : nat -> C) : C := u 0%nat * v 3%nat + u 1%nat * v 2%nat + u 2%nat * v 1%nat + u 3%nat * v 0%nat.
Lemma gform_veq u u' v v' : veq 4 u u' -> veq 4 v v' -> gform u v = gform u' v'.
Proof.
  intros A B. unfold gform. rewrite (A 0%nat ltac:(lia)), (A 1%nat ltac:(lia)), (A 2%nat ltac:(lia)), (A 3%nat ltac:(lia)).
  now rewrite (B 0%nat ltac:(lia)), (B 1%nat ltac:(lia)), (B 2%nat ltac:(lia)), (B 3%nat ltac:(lia)).
Qed.
Lemma gform_over T v w : gform v (mvec 4 (mmul 4 (mmul 4 Wo (mtr T)) Wo) w) = gform (mvec 4 T v) w.
Proof. unfold gform, mvec, mmul, mtr, Wo, mat_of, csum. cbn [nth]. ring. Qed.
Lemma gform_iso (n c ap as_ bp bs ap' as' bp' bs' : C) :
  gform (mvec 4 (isoL n c) (waves ap as_ bp bs)) (mvec 4 (isoL n c) (waves ap' as' bp' bs')) =
  2 * (n * c) * ((ap * ap' - bp * bp') - (as_ * as' - bs * bs')).
Proof. unfold gform, mvec, isoL, waves, vec_of, mat_of, csum. cbn [nth]. replace (RtoC 2) with (1 + 1) by (apply C_ext; simpl; ring). ring. Qed.

Lemma eps_ok_over ls ls' : moved_layers y_half_turn ls ls' -> eps_ok ls -> eps_ok (rev ls').
Proof.
  intros M O. unfold eps_ok. apply Forall_rev. apply (moved_ok y_half_turn ls ls'); [|exact M|exact O].
  intros e e' H N. rewrite (over_elem e e' H) by lia. exact N.
Qed.

Lemma turned_over prop prop' th th' lb (eps_f eps_b : mat) ls ls' r r' : let kx := reduced_k_x th eps_f in
  reduced_k_x th' eps_b = kx -> exact prop kx lb ls -> exact prop' kx lb (rev ls') ->
  moved_layers y_half_turn ls ls' -> Forall (fun l => reciprocal (snd l)) ls ->
  solver4 prop th lb eps_f ls eps_b = Some r -> solver4 prop' th' lb eps_b (rev ls') eps_f = Some r' ->
  let f := iso_n eps_f * iso_cos kx eps_f in let b := iso_n eps_b * iso_cos kx eps_b in
  f * jones_t4 r' 0%nat 0%nat = b * jones_t4 r 0%nat 0%nat /\ f * jones_t4 r' 1%nat 1%nat = b * jones_t4 r 1%nat 1%nat /\
  f * jones_t4 r' 0%nat 1%nat = - (b * jones_t4 r 1%nat 0%nat) /\ f * jones_t4 r' 1%nat 0%nat = - (b * jones_t4 r 0%nat 1%nat).
Proof.
  intros kx KX E E' M S H H' f b.
  destruct (solver4_fields prop th lb eps_f eps_b ls r E H) as (O & _ & _ & _ & _ & _ & F).
  assert (E2 : exact prop' (reduced_k_x th' eps_b) lb (rev ls')) by (rewrite KX; exact E').
  destruct (solver4_fields prop' th' lb eps_b eps_f (rev ls') r' E2 H') as (_ & _ & _ & _ & _ & _ & F'). fold kx in F. rewrite KX in F'.
  assert (K : forall ap as_ ip is_,
    b * ((jones_t4 r 0%nat 0%nat * ap + jones_t4 r 0%nat 1%nat * as_) * ip - (jones_t4 r 1%nat 0%nat * ap + jones_t4 r 1%nat 1%nat * as_) * is_) =
    f * (ap * (jones_t4 r' 0%nat 0%nat * ip + jones_t4 r' 0%nat 1%nat * is_) - as_ * (jones_t4 r' 1%nat 0%nat * ip + jones_t4 r' 1%nat 1%nat * is_))).
  { intros ap as_ ip is_.
    destruct (F ap as_ (jones_r4 r 0%nat 0%nat * ap + jones_r4 r 0%nat 1%nat * as_) (jones_r4 r 1%nat 0%nat * ap + jones_r4 r 1%nat 1%nat * as_)
      (jones_t4 r 0%nat 0%nat * ap + jones_t4 r 0%nat 1%nat * as_) (jones_t4 r 1%nat 0%nat * ap + jones_t4 r 1%nat 1%nat * as_)) as [_ G].
    specialize (G ltac:(unfold jones_rel; auto)).
    destruct (F' ip is_ (jones_r4 r' 0%nat 0%nat * ip + jones_r4 r' 0%nat 1%nat * is_) (jones_r4 r' 1%nat 0%nat * ip + jones_r4 r' 1%nat 1%nat * is_)
      (jones_t4 r' 0%nat 0%nat * ip + jones_t4 r' 0%nat 1%nat * is_) (jones_t4 r' 1%nat 0%nat * ip + jones_t4 r' 1%nat 1%nat * is_)) as [_ G'].
    specialize (G' ltac:(unfold jones_rel; auto)).
    set (v := mvec 4 (isoL (iso_n eps_b) (iso_cos kx eps_b)) (waves (jones_t4 r 0%nat 0%nat * ap + jones_t4 r 0%nat 1%nat * as_) (jones_t4 r 1%nat 0%nat * ap + jones_t4 r 1%nat 1%nat * as_) 0 0)) in *.
    assert (T := tmat_over kx lb ls ls' M S O).
    assert (G2 := veq_trans 4 _ _ _ G' (mvec_meq 4 _ _ _ _ T (veq_refl 4 _))).
    assert (Z := gform_veq v v _ _ (veq_refl 4 v) G2). rewrite gform_over in Z.
    rewrite (gform_veq _ _ _ _ (veq_sym 4 _ _ G) (veq_refl 4 _)) in Z. unfold v in Z. rewrite !gform_iso in Z. fold f b in Z.
    assert (T2 : RtoC 2 <> 0) by (apply C_of_R_neq; lra).
    match type of Z with ?a = ?b => assert (Z0 : a - b = 0) by (rewrite Z; ring) end.
    match goal with |- ?a = ?b => assert (Z1 : RtoC 2 * (a - b) = 0) by (rewrite <- Z0; ring); apply C_integral in Z1; destruct Z1 as [Z1|Z1]; [contradiction|];
      transitivity (a - b + b); [ring|rewrite Z1; ring] end. }
  assert (K00 := K 1 0 1 0). assert (K11 := K 0 1 0 1). assert (K01 := K 1 0 0 1). assert (K10 := K 0 1 1 0). clear - K00 K11 K01 K10.
  repeat split.
  - match type of K00 with ?a = ?b => transitivity b; [ring|rewrite <- K00; ring] end.
  - match type of K11 with ?a = ?b => transitivity (- b); [ring|rewrite <- K11; ring] end.
  - match type of K01 with ?a = ?b => transitivity b; [ring|rewrite <- K01; ring] end.
  - match type of K10 with ?a = ?b => transitivity (- b); [ring|rewrite <- K10; ring] end.
Qed.

(** Results at different wavelengths with the same transfer matrix *)
Lemma jones4_lb1 prop prop' th lb lb' (eps_f : mat) ls ls' X Jr Jt : let k_x := reduced_k_x th eps_f in
  exact prop k_x lb ls -> good_prop prop' k_x lb' ls' ->
  (eps_ok ls -> lb_ok lb ls -> eps_ok ls' /\ lb_ok lb' ls' /\ meq 4 (tmat k_x lb ls) (tmat k_x lb' ls')) ->
  jones4 prop th lb eps_f ls X = Some (Jr, Jt) ->
  exists Jr' Jt', jones4 prop' th lb' eps_f ls' X = Some (Jr', Jt') /\ meq 2 Jr Jr' /\ meq 2 Jt Jt'.
Proof.
  intros k_x E [E' T'] H J. apply jones4_inv in J; [|exact E]. destruct J as (O & L & N & K & I & R). fold k_x in I, R, K.
  destruct (H O L) as (O' & L' & M).
  assert (EK : meq 4 (kmat k_x lb eps_f ls X) (kmat k_x lb' eps_f ls' X)) by (unfold kmat; rewrite M; reflexivity).
  assert (I' : is_inverse 2 (t_it (kmat k_x lb' eps_f ls' X)) Jt).
  { destruct I as [I1 I2]. split; rewrite <- (t_it_meq _ _ EK); assumption. }
  destruct (jones4_some prop' th lb' eps_f ls' X Jt E' T' O' L' N K I') as (Jr' & Jt' & J & A & B).
  exists Jr', Jt'. split; [exact J|]. split; [|now symmetry]. fold k_x in B. rewrite R, B, (t_rt_meq _ _ EK). reflexivity.
Qed.
Lemma jones4_lb prop prop' th lb lb' (eps_f : mat) ls ls' X : let k_x := reduced_k_x th eps_f in
  good_prop prop k_x lb ls -> good_prop prop' k_x lb' ls' ->
  (eps_ok ls /\ lb_ok lb ls <-> eps_ok ls' /\ lb_ok lb' ls') ->
  (eps_ok ls -> lb_ok lb ls -> meq 4 (tmat k_x lb ls) (tmat k_x lb' ls')) ->
  same_jones (jones4 prop th lb eps_f ls X) (jones4 prop' th lb' eps_f ls' X).
Proof.
  intros k_x G G' OK M.
  destruct (jones4 prop th lb eps_f ls X) as [[Jr Jt]|] eqn:J.
  - destruct (jones4_lb1 prop prop' th lb lb' eps_f ls ls' X Jr Jt) as (Jr' & Jt' & J' & A & B); auto; [apply G|tauto|].
    rewrite J'. cbn. auto.
  - destruct (jones4 prop' th lb' eps_f ls' X) as [[Jr' Jt']|] eqn:J'; [|exact I].
    destruct (jones4_lb1 prop' prop th lb' lb eps_f ls' ls X Jr' Jt') as (a & b & c & _); auto; [apply G'| |congruence].
    intros O L. destruct (proj2 OK (conj O L)) as [O1 L1]. split; [exact O1|]. split; [exact L1|]. symmetry. now apply M.
Qed.
