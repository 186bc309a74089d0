(** C04: the pseudo dielectric function of a bare substrate. *)
From Coq Require Import Reals Lra Psatz Lia ZArith.
From Coquelicot Require Import Complex.
From Coq Require Import List.
From Verif.Base Require Import Py Cx Mat.
From Verif.Model Require Import Units DeltaRange Ellips Solver2.
From Verif.Spec Require Import Angle Light.
From Verif.Proof Require Import UnitsP DispersionsP EllipsP Solver2P Solver2P2 Solver2P3 Solver2P4.
From Verif.Props Require Import EllipsT Solver2T.
Import ListNotations.
Open Scope R_scope.
Open Scope C_scope.
Open Scope py_scope.

Lemma pseudo_algebra (eps qf qb : C) (s c : R) : (c <> 0)%R -> (s <> 0)%R -> (s * s + c * c = 1)%R -> eps <> 1 ->
  qf * qf = RtoC (c * c) -> qb * qb = eps - RtoC (s * s) ->
  qf + qb <> 0 -> eps * qf + qb <> 0 -> (qf - qb) / (qf + qb) <> 0 ->
  let r := (eps * qf - qb) / (eps * qf + qb) / ((qf - qb) / (qf + qb)) in
  1 + r <> 0 /\ RtoC (s * s) * (1 + RtoC (s / c * (s / c)) * ((1 - r) / (1 + r) * ((1 - r) / (1 + r)))) = eps.
Proof.
  intros Nc Ns P1 N1 F B D1 D2 D3 r.
  assert (Z1 : qf - qb <> 0) by (intros K; apply D3; rewrite K; unfold Cdiv; ring).
  assert (Cs : RtoC s <> 0) by now apply C_of_R_neq. assert (Cc : RtoC c <> 0) by now apply C_of_R_neq.
  assert (Ne : 1 - eps <> 0) by (intros K; apply N1; transitivity (1 - (1 - eps)); [ring|rewrite K; ring]).
  assert (P : RtoC (s * s) + RtoC (c * c) = 1) by (rewrite <- RtoC_plus, P1; reflexivity).
  assert (PL : (qf - qb) * (eps * qf + qb) + (eps * qf - qb) * (qf + qb) = 2 * RtoC (s * s) * (1 - eps)).
  { transitivity (2 * (eps * (qf * qf) - qb * qb)); [ring|]. rewrite F, B.
    replace (RtoC (c * c)) with (1 - RtoC (s * s)) by (rewrite <- P; ring). ring. }
  assert (MI : (qf - qb) * (eps * qf + qb) - (eps * qf - qb) * (qf + qb) = 2 * (qf * qb) * (1 - eps)) by ring.
  set (den := (qf - qb) * (eps * qf + qb)) in *. assert (Nd : den <> 0) by (apply Cmult_neq_0; assumption).
  assert (R1 : 1 + r = 2 * RtoC (s * s) * (1 - eps) / den) by (rewrite <- PL; unfold r, den; field; auto).
  assert (R2 : 1 - r = 2 * (qf * qb) * (1 - eps) / den) by (rewrite <- MI; unfold r, den; field; auto).
  assert (T : RtoC 2 <> 0) by (apply C_of_R_neq; lra).
  assert (SS : RtoC (s * s) <> 0) by (rewrite RtoC_mult; now apply Cmult_neq_0).
  split; [rewrite R1; apply Cdiv_neq0; [|exact Nd]; repeat apply Cmult_neq_0; assumption|].
  assert (Q : (1 - r) / (1 + r) = qf * qb / RtoC (s * s)) by (rewrite R1, R2; Cfield).
  rewrite Q. transitivity (RtoC (s * s) * (1 + RtoC (s / c * (s / c)) * ((qf * qf) * (qb * qb) / (RtoC (s * s) * RtoC (s * s))))); [Cfield|].
  rewrite F, B. rewrite !RtoC_mult, RtoC_div by exact Nc. field. auto.
Qed.

Lemma pseudo_normal (eps qf qb : C) : eps <> 1 -> qf * qf = 1 -> qb * qb = eps ->
  qf + qb <> 0 -> eps * qf + qb <> 0 -> (qf - qb) / (qf + qb) <> 0 ->
  1 + (eps * qf - qb) / (eps * qf + qb) / ((qf - qb) / (qf + qb)) = 0.
Proof.
  intros N1 F B D1 D2 D3.
  assert (Z1 : qf - qb <> 0) by (intros K; apply D3; rewrite K; unfold Cdiv; ring).
  transitivity (2 * (eps * (qf * qf) - qb * qb) / ((qf - qb) * (eps * qf + qb))); [field; auto|].
  rewrite F, B. unfold Cdiv. ring.
Qed.

(** What is known about the Jones matrix and rho of a bare substrate in air *)
Lemma substrate_jones th lb (eps : C) J :
  jones2_r (solver2 th lb (RtoC 1) [] eps) = Some J ->
  let qf := RtoC (Rabs (cos (deg2rad th))) in
  let qb := kz_half (RtoC (sin (deg2rad th))) eps in
  (cos (deg2rad th) <> 0)%R /\ eps <> 0 /\ qf + qb <> 0 /\ eps * qf + qb <> 0 /\
  qb * qb = eps - RtoC (sin (deg2rad th) * sin (deg2rad th)) /\
  (eps = 1 -> qb = qf) /\
  J = mat_of [[(eps * qf - qb) / (eps * qf + qb); RtoC 0]; [RtoC 0; (qf - qb) / (qf + qb)]].
Proof.
  intros HJ qf qb. assert (O1 : RtoC 1 <> 0) by (apply C_of_R_neq; lra).
  destruct (input_dec lb (RtoC 1) [] eps) as [I|I].
  2:{ rewrite solver2_inv in HJ by exact I. discriminate. }
  destruct I as (L & _ & Ne & _).
  assert (M := media_some th lb (RtoC 1) [] eps L O1 Ne (Forall_nil _)). cbv zeta in M. cbn [map] in M.
  assert (KX : kx_of th (RtoC 1) = RtoC (sin (deg2rad th))) by (rewrite kx_real by lra; now rewrite sqrt_1, Rmult_1_l).
  assert (FR := C36_fresnel _ _ _ _ _ _ _ M). cbv zeta in FR. destruct FR as (_ & _ & _ & S & P).
  fold (kz_half (kx_of th (RtoC 1)) (RtoC 1)) in S, P. fold (kz_half (kx_of th (RtoC 1)) eps) in S, P.
  assert (FF := kz_half_sqr (kx_of th (RtoC 1)) (RtoC 1) O1).
  assert (KF : (cos (deg2rad th) <> 0)%R -> kz_half (kx_of th (RtoC 1)) (RtoC 1) = qf).
  { intros Hc. unfold qf. destruct (kz_front th 1) as (-> & _); [lra|exact Hc|]. now rewrite sqrt_1, Rmult_1_l. }
  rewrite KX in S, P, FF, KF. fold qb in S, P.
  set (w := kz_half (RtoC (sin (deg2rad th))) (RtoC 1)) in *.
  unfold jones2_r, jones2 in HJ. rewrite S, P in HJ.
  destruct (Ceq_dec w 0) as [|W]; [discriminate|].
  destruct (Ceq_dec (eps * w + RtoC 1 * qb) 0) as [|D2]; [discriminate|].
  destruct (Ceq_dec (w + qb) 0) as [|D1]; [discriminate|].
  cbn [obind fst snd] in HJ. apply Some_eq in HJ.
  assert (Hc : (cos (deg2rad th) <> 0)%R).
  { intros K. apply W. assert (E : w * w = 0).
    { rewrite FF, <- RtoC_mult, <- RtoC_minus. f_equal. assert (SC := sin2_cos2 (deg2rad th)). unfold Rsqr in SC. nra. }
    apply C_integral in E. tauto. }
  specialize (KF Hc). assert (Q1 : eps = 1 -> qb = qf) by (intros E; rewrite <- KF; unfold qb, w; now rewrite E).
  rewrite KF in *. replace (RtoC 1 * qb) with qb in * by ring.
  do 4 (split; [assumption|]). split; [unfold qb; rewrite kz_half_sqr by exact Ne; now rewrite RtoC_mult|].
  split; [exact Q1|]. now symmetry.
Qed.

Lemma diag_rho (x y a : C) : a <> 0 ->
  rho_raw (mat_of [[x; RtoC 0]; [RtoC 0; y]]) (vec_of [a; a]) = if Ceq_dec y 0 then None else Some (x / y).
Proof.
  intros Na. unfold rho_raw, rho_matrix. change (mat_of _ 1%nat 1%nat) with y.
  destruct (Ceq_dec y 0) as [|E]; [reflexivity|]. cbn [obind]. unfold mvec.
  set (u := csum 2 _). set (v := csum 2 _).
  assert (Eu : u = x / y * a) by (unfold u, vec_of, mat_of; cbn [csum nth]; field; exact E).
  assert (Ev : v = a) by (unfold v, vec_of, mat_of; cbn [csum nth]; field; exact E).
  rewrite Eu, Ev, cdiv_some by exact Na. f_equal. field. auto.
Qed.

Lemma substrate_rho th lb (eps a : C) J z :
  a <> 0 -> jones2_r (solver2 th lb (RtoC 1) [] eps) = Some J -> rho_raw J (vec_of [a; a]) = Some z ->
  let qf := RtoC (Rabs (cos (deg2rad th))) in
  let qb := kz_half (RtoC (sin (deg2rad th))) eps in
  (cos (deg2rad th) <> 0)%R /\ eps <> 0 /\ eps <> 1 /\
  qf + qb <> 0 /\ eps * qf + qb <> 0 /\ (qf - qb) / (qf + qb) <> 0 /\
  qb * qb = eps - RtoC (sin (deg2rad th) * sin (deg2rad th)) /\
  z = (eps * qf - qb) / (eps * qf + qb) / ((qf - qb) / (qf + qb)).
Proof.
  intros Na HJ Hz qf qb. destruct (substrate_jones th lb eps J HJ) as (Hc & Ne & D1 & D2 & QQ & Q1 & ->).
  fold qf in D1, D2, Q1, Hz. fold qb in D1, D2, QQ, Q1, Hz. rewrite diag_rho in Hz by exact Na.
  destruct (Ceq_dec ((qf - qb) / (qf + qb)) 0) as [|D3]; [discriminate|]. apply Some_eq in Hz.
  assert (E1 : eps <> 1) by (intros E; apply D3; rewrite (Q1 E); unfold Cdiv; ring).
  do 7 (split; [assumption|]). now symmetry.
Qed.

Lemma substrate_pseudo th lb (eps a : C) J z :
  a <> 0 -> jones2_r (solver2 th lb (RtoC 1) [] eps) = Some J -> rho_raw J (vec_of [a; a]) = Some z ->
  calc_pseudo_diel z th = if Req_EM_T (sin (th * PI / 180)) 0 then None else Some eps.
Proof.
  intros Na HJ Hz. destruct (substrate_rho th lb eps a J z Na HJ Hz) as (Hc & Ne & N1 & D1 & D2 & D3 & B & ->).
  change (th * PI / 180)%R with (deg2rad th) in *. unfold calc_pseudo_diel. change (th * PI / 180)%R with (deg2rad th).
  set (qb := kz_half _ _) in *. set (s := sin (deg2rad th)) in *. set (c := cos (deg2rad th)) in *.
  assert (SC : (s * s + c * c = 1)%R) by (assert (X := sin2_cos2 (deg2rad th)); unfold Rsqr in X; exact X).
  assert (F : RtoC (Rabs c) * RtoC (Rabs c) = RtoC (c * c)).
  { rewrite <- RtoC_mult, <- Rabs_mult, Rabs_pos_eq; [reflexivity|nra]. }
  destruct (Req_EM_T s 0) as [S0|S0].
  - rewrite S0 in B, SC. unfold cdiv. destruct (Ceq_dec _ 0) as [_|K]; [reflexivity|]. exfalso. apply K. apply pseudo_normal; try assumption.
    + rewrite F. f_equal. lra.
    + rewrite B, Rmult_0_l. ring.
  - destruct (pseudo_algebra eps (RtoC (Rabs c)) qb s c Hc S0 SC N1 F B D1 D2 D3) as [R1 R2].
    rewrite cdiv_some by exact R1. cbn [obind]. f_equal. exact R2.
Qed.

(** C04: for the linearly polarised light at 45 degrees that an Experiment uses by default, and any
    unfolded range of delta that describes rho (C03), the permittivity comes back at every oblique
    angle; at normal incidence calc_pseudo_diel divides by zero. *)
Theorem C04_substrate_partial : forall (l u : Z) theta_i lbda (eps a : C) J z p d,
  allowed_range l u -> (l = 0 \/ l = -180 \/ l = -360)%Z -> (l, u) <> (0, 180)%Z ->
  a <> 0 -> jones2_r (solver2 theta_i lbda (RtoC 1) [] eps) = Some J ->
  rho (IZR l, IZR u) J (vec_of [a; a]) = Some z ->
  psi (IZR l, IZR u) J (vec_of [a; a]) = Some p -> delta (IZR l, IZR u) J (vec_of [a; a]) = Some d ->
  calc_pseudo_diel (calc_rho p d) theta_i =
  if Req_EM_T (sin (theta_i * PI / 180)) 0 then None else Some eps.
Proof.
  intros l u th lb eps a J z p d A L NF Na HJ Hz Hp Hd.
  assert (ER : calc_rho p d = z).
  { destruct (C03_psi_delta_rho_partial l u J _ z A L Hz) as (p' & d' & Ep & Ed & _ & _ & IR).
    rewrite Hp in Ep. rewrite Hd in Ed. apply Some_eq in Ep, Ed. subst p' d'. apply is_rho_calc in IR. now symmetry. }
  rewrite ER. clear ER Hp Hd. apply rho_fold in Hz. destruct Hz as (w & Hw & ->).
  rewrite fold_id; [now apply (substrate_pseudo th lb eps a J)|]. cbn [fst snd].
  destruct (Z.eq_dec l 0) as [->|K]; [|left; intros E; apply K; now apply eq_IZR].
  right. intros E. apply NF. apply eq_IZR in E. now subst.
Qed.
Print Assumptions C04_substrate_partial.

(** The result itself is finite exactly where the substrate reflects s light. *)
Theorem C04_defined : forall rg theta_i lbda (eps a : C) J,
  a <> 0 -> jones2_r (solver2 theta_i lbda (RtoC 1) [] eps) = Some J ->
  (rho rg J (vec_of [a; a]) = None <-> eps = 1).
Proof.
  intros rg th lb eps a J Na HJ. split.
  - intros H. unfold rho in H. destruct (rho_raw J (vec_of [a; a])) as [z|] eqn:Hz; [discriminate|].
    clear H. destruct (substrate_jones th lb eps J HJ) as (Hc & Ne & D1 & D2 & QQ & Q1 & ->).
    rewrite diag_rho in Hz by exact Na. set (qf := RtoC (Rabs _)) in *. set (qb := kz_half _ _) in *.
    destruct (Ceq_dec ((qf - qb) / (qf + qb)) 0) as [E|]; [|discriminate].
    assert (K : qb = qf).
    { transitivity (qf - (qf - qb) / (qf + qb) * (qf + qb)); [field; exact D1|]. rewrite E. ring. }
    assert (SC := sin2_cos2 (deg2rad th)). unfold Rsqr in SC.
    transitivity (qb * qb + RtoC (sin (deg2rad th) * sin (deg2rad th))); [rewrite QQ; ring|].
    rewrite K. unfold qf. rewrite <- RtoC_mult, <- RtoC_plus, <- Rabs_mult, Rabs_pos_eq by nra. f_equal. lra.
  - intros E. destruct (substrate_jones th lb eps J HJ) as (Hc & Ne & D1 & D2 & QQ & Q1 & ->).
    unfold rho. rewrite diag_rho by exact Na. rewrite (Q1 E). destruct (Ceq_dec _ 0) as [|N]; [reflexivity|].
    exfalso. apply N. unfold Cdiv. ring.
Qed.
Print Assumptions C04_defined.

Lemma pseudo_conj (z : C) th : calc_pseudo_diel (Cconj z) th = option_map Cconj (calc_pseudo_diel z th).
Proof.
  unfold calc_pseudo_diel. set (t := (th * PI / 180)%R). unfold cdiv.
  assert (E : 1 + Cconj z = Cconj (1 + z)) by (apply C_ext; simpl; ring).
  destruct (Ceq_dec (1 + z) 0) as [K|K].
  - destruct (Ceq_dec (1 + Cconj z) 0) as [|N]; [reflexivity|]. exfalso. apply N. rewrite E, K. apply C_ext; simpl; ring.
  - destruct (Ceq_dec (1 + Cconj z) 0) as [N|N].
    + exfalso. apply K. rewrite <- (Cconj_conj (1 + z)), <- E, N. apply C_ext; simpl; ring.
    + cbn [obind option_map]. f_equal. rewrite Cconj_mult, Cconj_plus, !Cconj_mult, Cconj_div by exact K.
      rewrite <- E. replace (Cconj (1 - z)) with (1 - Cconj z) by (apply C_ext; simpl; ring).
      replace (Cconj (RtoC (sin t * sin t))) with (RtoC (sin t * sin t)) by (apply C_ext; simpl; ring).
      replace (Cconj (RtoC (tan t * tan t))) with (RtoC (tan t * tan t)) by (apply C_ext; simpl; ring).
      replace (Cconj 1) with (RtoC 1) by (apply C_ext; simpl; ring). reflexivity.
Qed.

(** C04 in the folded range (0, 180): the substrate comes back where the unfolded rho has no
    positive imaginary part, its complex conjugate otherwise. *)
Theorem C04_folded : forall theta_i lbda (eps a : C) J w z p d,
  a <> 0 -> jones2_r (solver2 theta_i lbda (RtoC 1) [] eps) = Some J ->
  rho (-180, 180)%R J (vec_of [a; a]) = Some w ->
  rho (0, 180)%R J (vec_of [a; a]) = Some z ->
  psi (0, 180)%R J (vec_of [a; a]) = Some p -> delta (0, 180)%R J (vec_of [a; a]) = Some d ->
  sin (theta_i * PI / 180) <> 0%R ->
  calc_pseudo_diel (calc_rho p d) theta_i = Some (if Rle_dec (Im w) 0 then eps else Cconj eps).
Proof.
  intros th lb eps a J w z p d Na HJ Hw Hz Hp Hd Hs.
  assert (ER : calc_rho p d = z).
  { destruct (C03_psi_delta_rho_partial 0 180 J (vec_of [a; a]) z) as (p' & d' & Ep & Ed & _ & _ & IR); [unfold allowed_range; lia|lia|exact Hz|].
    rewrite Hp in Ep. rewrite Hd in Ed. apply Some_eq in Ep, Ed. subst p' d'. apply is_rho_calc in IR. now symmetry. }
  rewrite ER. clear ER Hp Hd. apply rho_fold in Hz. destruct Hz as (w' & Hw' & ->).
  apply rho_fold in Hw. destruct Hw as (w2 & Hw2 & E). rewrite Hw' in Hw2. apply Some_eq in Hw2. subst w2.
  rewrite fold_id in E by (left; cbn [fst]; lra). subst w'.
  assert (SP := substrate_pseudo th lb eps a J w Na HJ Hw'). destruct (Req_EM_T _ 0) as [|_] in SP; [contradiction|].
  unfold fold_rho, Reqb. cbn [fst snd]. destruct (Req_EM_T 0 0) as [_|K]; [|lra]. destruct (Req_EM_T 180 180) as [_|K]; [|lra].
  cbn [andb]. destruct (Rle_dec (Im w) 0) as [N|N]; unfold Im in N.
  - rewrite <- SP. f_equal. apply C_ext; cbn [fst snd]; [reflexivity|]. rewrite Rabs_left1 by exact N. ring.
  - replace (fst w, (- Rabs (snd w))%R) with (Cconj w).
    + rewrite pseudo_conj, SP. reflexivity.
    + apply C_ext; simpl; [reflexivity|]. rewrite Rabs_pos_eq by lra. reflexivity.
Qed.
Print Assumptions C04_folded.

(** The sign of the imaginary part of rho *)
Lemma rho_side (w eps q : C) (c s : R) :
  w = (eps * RtoC c - q) / (eps * RtoC c + q) / ((RtoC c - q) / (RtoC c + q)) ->
  q * q = eps - RtoC (s * s) -> (s * s + c * c = 1)%R ->
  RtoC c + q <> 0 -> eps * RtoC c + q <> 0 -> (RtoC c - q) / (RtoC c + q) <> 0 ->
  (-2 * Im w * (s * s) = Cnorm2 (1 + w) * (c * Im q))%R.
Proof.
  intros E B SC D1 D2 D3.
  assert (Z1 : RtoC c - q <> 0) by (intros K; apply D3; rewrite K; unfold Cdiv; ring).
  assert (W : (1 - w) * RtoC (s * s) = (1 + w) * (RtoC c * q)).
  { assert (MI : (1 - w) * ((RtoC c - q) * (eps * RtoC c + q)) = 2 * (RtoC c * q) * (1 - eps)) by (rewrite E; field; auto).
    assert (PL : (1 + w) * ((RtoC c - q) * (eps * RtoC c + q)) = 2 * RtoC (s * s) * (1 - eps)).
    { transitivity (2 * (eps * (RtoC c * RtoC c) - q * q)); [rewrite E; field; auto|]. rewrite B.
      replace (RtoC c * RtoC c) with (1 - RtoC (s * s)) by (rewrite <- RtoC_mult, <- RtoC_minus; f_equal; lra). ring. }
    apply (Cmult_cancel ((RtoC c - q) * (eps * RtoC c + q))); [now apply Cmult_neq_0|].
    transitivity ((1 - w) * ((RtoC c - q) * (eps * RtoC c + q)) * RtoC (s * s)); [ring|]. rewrite MI.
    transitivity ((1 + w) * ((RtoC c - q) * (eps * RtoC c + q)) * (RtoC c * q)); [rewrite PL; ring|ring]. }
  clear - W. assert (W1 := f_equal fst W). assert (W2 := f_equal snd W). unfold Im, Cnorm2, Re, Im in *.
  cbn [fst snd Cmult Cminus Cplus Copp RtoC] in *.
  set (x := fst w) in *. set (y := snd w) in *. set (u := fst q) in *. set (v := snd q) in *.
  transitivity ((1 + x) * (- y * (s * s)) - y * ((1 - x) * (s * s)))%R; [ring|].
  replace (- y * (s * s))%R with (c * v + c * v * x + c * u * y)%R by lra.
  replace ((1 - x) * (s * s))%R with (c * u + c * u * x - c * v * y)%R by lra. ring.
Qed.

(** For a substrate without gain the imaginary part of rho is never positive, so that the folded
    range works too; the band of the solver's forward rule around total reflection is excluded. *)
Theorem C04_folded_passive : forall theta_i lbda (eps a : C) J z p d,
  a <> 0 -> jones2_r (solver2 theta_i lbda (RtoC 1) [] eps) = Some J ->
  rho (0, 180)%R J (vec_of [a; a]) = Some z ->
  psi (0, 180)%R J (vec_of [a; a]) = Some p -> delta (0, 180)%R J (vec_of [a; a]) = Some d ->
  let s := sin (theta_i * PI / 180) in
  s <> 0%R -> (0 <= Im eps)%R ->
  ~ (Im eps = 0 /\ s * s - 1 / 10 ^ 20 <= Re eps < s * s)%R ->
  calc_pseudo_diel (calc_rho p d) theta_i = Some eps.
Proof.
  intros th lb eps a J z p d Na HJ Hz Hp Hd s Hs Ie Band.
  assert (Hw := Hz). apply rho_fold in Hw. destruct Hw as (w & Hw & _).
  assert (Hw' : rho (-180, 180)%R J (vec_of [a; a]) = Some w).
  { unfold rho. rewrite Hw. cbn [obind]. rewrite fold_id by (left; cbn [fst]; lra). reflexivity. }
  rewrite (C04_folded th lb eps a J w z p d Na HJ Hw' Hz Hp Hd Hs).
  destruct (Rle_dec (Im w) 0) as [|N]; [reflexivity|]. exfalso. apply N.
  destruct (substrate_rho th lb eps a J w Na HJ Hw) as (Hc & Ne & N1 & D1 & D2 & D3 & B & E).
  change (th * PI / 180)%R with (deg2rad th) in *. fold s in B, D1, D2, D3, E.
  set (c := Rabs (cos (deg2rad th))) in *.
  assert (c0 : (0 < c)%R) by (apply Rabs_pos_lt; exact Hc).
  assert (SC : (s * s + c * c = 1)%R).
  { assert (X := sin2_cos2 (deg2rad th)). unfold Rsqr in X. unfold c. rewrite <- Rabs_mult, Rabs_pos_eq by nra. exact X. }
  assert (Q : first_quadrant (kz_half (RtoC s) eps)).
  { apply kz_half_passive; [assumption|assumption|]. intros [K1 K2]. apply Band.
    set (q := kz_half (RtoC s) eps) in *. unfold Re, Im in *.
    assert (B1 := f_equal fst B). assert (B2 := f_equal snd B). cbn [fst snd Cmult Cminus Cplus Copp RtoC] in B1, B2.
    rewrite K1 in B1, B2. split; [lra|]. destruct K2 as [K2 K3].
    assert (KK : (0 < snd q * snd q <= 1 / 10 ^ 20)%R).
    { replace (snd q * snd q)%R with (Rabs (snd q) * Rabs (snd q))%R by (rewrite <- Rabs_mult, Rabs_pos_eq; nra).
      assert (T10 : (0 < 10 ^ 10)%R) by (apply pow_lt; lra).
      replace (1 / 10 ^ 20)%R with ((1 / 10 ^ 10) * (1 / 10 ^ 10))%R by (change 20%nat with (10 + 10)%nat; rewrite pow_add; field; lra).
      split; [nra|]. apply Rmult_le_compat; lra. }
    lra. }
  set (q := kz_half (RtoC s) eps) in *. destruct Q as [_ Q2].
  assert (H := rho_side w eps q c s E B SC D1 D2 D3).
  assert (ss : (0 < s * s)%R) by nra. assert (V : (0 <= Cnorm2 (1 + w) * (c * Im q))%R).
  { apply Rmult_le_pos; [apply Cnorm2_ge0|apply Rmult_le_pos; lra]. }
  rewrite <- H in V. nra.
Qed.
Print Assumptions C04_folded_passive.

(** The Jones matrix of a substrate whose wave vector component is known *)
Lemma substrate_some th lb (eps : C) :
  let qf := RtoC (Rabs (cos (deg2rad th))) in
  let qb := kz_half (RtoC (sin (deg2rad th))) eps in
  (lb <> 0)%R -> (cos (deg2rad th) <> 0)%R -> eps <> 0 -> qf + qb <> 0 -> eps * qf + qb <> 0 ->
  jones2_r (solver2 th lb (RtoC 1) [] eps) =
  Some (mat_of [[(eps * qf - qb) / (eps * qf + qb); RtoC 0]; [RtoC 0; (qf - qb) / (qf + qb)]]).
Proof.
  intros qf qb L Hc Ne D1 D2. assert (O1 : RtoC 1 <> 0) by (apply C_of_R_neq; lra).
  assert (M := media_some th lb (RtoC 1) [] eps L O1 Ne (Forall_nil _)). cbv zeta in M. cbn [map] in M.
  assert (KX : kx_of th (RtoC 1) = RtoC (sin (deg2rad th))) by (rewrite kx_real by lra; now rewrite sqrt_1, Rmult_1_l).
  assert (FR := C36_fresnel _ _ _ _ _ _ _ M). cbv zeta in FR. destruct FR as (_ & _ & _ & S & P).
  fold (kz_half (kx_of th (RtoC 1)) (RtoC 1)) in S, P. fold (kz_half (kx_of th (RtoC 1)) eps) in S, P.
  assert (KF : kz_half (kx_of th (RtoC 1)) (RtoC 1) = qf).
  { unfold qf. destruct (kz_front th 1) as (-> & _); [lra|exact Hc|]. now rewrite sqrt_1, Rmult_1_l. }
  rewrite KF, KX in S, P. fold qb in S, P. replace (RtoC 1 * qb) with qb in P by ring.
  unfold jones2_r, jones2. rewrite S, P.
  assert (W : qf <> 0) by (apply C_of_R_neq; now apply Rabs_no_R0).
  destruct (Ceq_dec qf 0) as [|_]; [contradiction|]. destruct (Ceq_dec (eps * qf + qb) 0) as [|_]; [contradiction|].
  destruct (Ceq_dec (qf + qb) 0) as [|_]; [contradiction|]. reflexivity.
Qed.

(** The square root picked where its imaginary part is in the band of the forward rule *)
Lemma kz_small (kx eps q : C) : eps <> 0 -> q * q = eps - kx * kx ->
  (0 < Re q)%R -> (Rabs (Im q) <= 1 / 10 ^ 10)%R -> kz_half kx eps = q.
Proof.
  intros Ne Q R I. assert (E : kz_half kx eps * kz_half kx eps = q * q) by (rewrite Q; now apply kz_half_sqr).
  apply Csqr_eq in E. destruct E as [E|E]; [exact E|]. exfalso.
  destruct (half_rule kx eps) as [_ H]. fold (kz_half kx eps) in H. rewrite E in H.
  change (Im (- q)) with (- Im q)%R in H. rewrite Rabs_Ropp in H. specialize (H I).
  change (0 <= - Re q)%R in H. lra.
Qed.

Lemma deg45 : sin (deg2rad 45) = (1 / sqrt 2)%R /\ cos (deg2rad 45) = (1 / sqrt 2)%R.
Proof. unfold deg2rad. replace (45 * PI / 180)%R with (PI / 4)%R by field. split; [apply sin_PI4|apply cos_PI4]. Qed.
Lemma half2 : (1 / sqrt 2 * (1 / sqrt 2) = 1 / 2)%R.
Proof. assert (H := sqrt_sqrt 2). assert (H0 := sqrt_lt_R0 2). apply (Rmult_eq_reg_r (sqrt 2 * sqrt 2)); [|rewrite H; lra]. rewrite H at 2 by lra. field. apply Rgt_not_eq, H0. lra. Qed.

(** A case: permittivity 5/2 at 45 degrees *)
Example C04_example : exists J p d,
  jones2_r (solver2 45 1 (RtoC 1) [] (RtoC (5 / 2))) = Some J /\
  rho (-180, 180)%R J (vec_of [RtoC 1; RtoC 1]) = Some (RtoC (- 1 / 3)) /\
  psi (-180, 180)%R J (vec_of [RtoC 1; RtoC 1]) = Some p /\ delta (-180, 180)%R J (vec_of [RtoC 1; RtoC 1]) = Some d /\
  calc_pseudo_diel (calc_rho p d) 45 = Some (RtoC (5 / 2)).
Proof.
  destruct deg45 as [S K]. assert (H2 : (0 < sqrt 2)%R) by (apply sqrt_lt_R0; lra).
  assert (H0 : (0 < 1 / sqrt 2)%R) by (apply Rdiv_lt_0_compat; lra).
  assert (HS := half2). set (h := (1 / sqrt 2)%R) in *. clearbody h.
  assert (Ne : RtoC (5 / 2) <> 0) by (apply C_of_R_neq; lra).
  assert (KB : kz_half (RtoC (sin (deg2rad 45))) (RtoC (5 / 2)) = RtoC (2 * h)).
  { apply kz_small; [exact Ne| |unfold Re; cbn [fst RtoC]; lra|].
    - rewrite S, <- !RtoC_mult, <- RtoC_minus. f_equal. lra.
    - unfold Im. cbn [snd RtoC]. rewrite Rabs_R0. apply Rlt_le, Rdiv_lt_0_compat; [lra|apply pow_lt; lra]. }
  assert (JJ := substrate_some 45 1 (RtoC (5 / 2))). cbv zeta in JJ. rewrite KB, K, (Rabs_pos_eq h) in JJ by lra.
  rewrite <- !RtoC_mult, <- !RtoC_plus, <- !RtoC_minus in JJ.
  rewrite <- !RtoC_div in JJ by lra.
  assert (HJ : jones2_r (solver2 45 1 (RtoC 1) [] (RtoC (5 / 2))) =
     Some (mat_of [[RtoC ((5 / 2 * h - 2 * h) / (5 / 2 * h + 2 * h)); RtoC 0]; [RtoC 0; RtoC ((h - 2 * h) / (h + 2 * h))]])).
  { apply JJ; [lra|lra|exact Ne|apply C_of_R_neq; lra|apply C_of_R_neq; lra]. }
  clear JJ. assert (O1 : RtoC 1 <> 0) by (apply C_of_R_neq; lra).
  eexists. 
  assert (HR : rho (-180, 180)%R (mat_of [[RtoC ((5 / 2 * h - 2 * h) / (5 / 2 * h + 2 * h)); RtoC 0]; [RtoC 0; RtoC ((h - 2 * h) / (h + 2 * h))]]) (vec_of [RtoC 1; RtoC 1]) = Some (RtoC (- 1 / 3))).
  { unfold rho. rewrite diag_rho by exact O1. destruct (Ceq_dec _ 0) as [E|_].
    - exfalso. apply (f_equal fst) in E. cbn [fst RtoC] in E. replace ((h - 2 * h) / (h + 2 * h))%R with (- 1 / 3)%R in E by (field; lra). lra.
    - cbn [obind]. rewrite fold_id by (left; cbn [fst]; lra). f_equal.
      replace ((h - 2 * h) / (h + 2 * h))%R with (- 1 / 3)%R by (field; lra).
      replace ((5 / 2 * h - 2 * h) / (5 / 2 * h + 2 * h))%R with (1 / 9)%R by (field; lra).
      rewrite <- RtoC_div by lra. f_equal. field. }
  destruct (C03_psi_delta_rho_partial (-180) 180 _ _ _ ltac:(unfold allowed_range; lia) ltac:(lia) HR) as (p & d & Hp & Hd & _).
  exists p, d. split; [exact HJ|]. split; [exact HR|]. split; [exact Hp|]. split; [exact Hd|].
  rewrite (C04_substrate_partial (-180) 180 45 1 (RtoC (5 / 2)) (RtoC 1) _ _ p d ltac:(unfold allowed_range; lia) ltac:(lia) ltac:(congruence) O1 HJ HR Hp Hd).
  change (45 * PI / 180)%R with (deg2rad 45). rewrite S. destruct (Req_EM_T h 0); [lra|reflexivity].
Qed.

(** C04 refuted at normal incidence: everything up to rho is finite, but not the pseudo
    dielectric function. *)
Theorem C04_normal_refuted : exists theta_i lbda (eps : C) J z p d,
  jones2_r (solver2 theta_i lbda (RtoC 1) [] eps) = Some J /\
  rho (-180, 180)%R J (vec_of [RtoC 1; RtoC 1]) = Some z /\
  psi (-180, 180)%R J (vec_of [RtoC 1; RtoC 1]) = Some p /\ delta (-180, 180)%R J (vec_of [RtoC 1; RtoC 1]) = Some d /\
  calc_pseudo_diel (calc_rho p d) theta_i = None.
Proof.
  exists 0%R, 1%R, (RtoC 4). assert (Z : deg2rad 0 = 0%R) by (unfold deg2rad; field).
  assert (Ne : RtoC 4 <> 0) by (apply C_of_R_neq; lra). assert (O1 : RtoC 1 <> 0) by (apply C_of_R_neq; lra).
  assert (KB : kz_half (RtoC (sin (deg2rad 0))) (RtoC 4) = RtoC 2).
  { apply kz_small; [exact Ne| |unfold Re; cbn [fst RtoC]; lra|].
    - rewrite Z, sin_0, <- !RtoC_mult, <- RtoC_minus. f_equal. lra.
    - unfold Im. cbn [snd RtoC]. rewrite Rabs_R0. apply Rlt_le, Rdiv_lt_0_compat; [lra|apply pow_lt; lra]. }
  assert (JJ := substrate_some 0 1 (RtoC 4)). cbv zeta in JJ. rewrite KB, Z, cos_0, (Rabs_pos_eq 1) in JJ by lra.
  assert (HJ := JJ ltac:(lra) ltac:(lra) Ne). clear JJ. rewrite <- !RtoC_mult, <- !RtoC_plus, <- !RtoC_minus in HJ.
  rewrite <- !RtoC_div in HJ by lra. specialize (HJ ltac:(apply C_of_R_neq; lra) ltac:(apply C_of_R_neq; lra)).
  set (J := mat_of _) in HJ. exists J.
  destruct (rho (-180, 180)%R J (vec_of [RtoC 1; RtoC 1])) as [z|] eqn:HR.
  2:{ exfalso. apply (C04_defined _ _ _ _ _ _ O1 HJ) in HR. apply (f_equal fst) in HR. cbn [fst RtoC] in HR. lra. }
  destruct (C03_psi_delta_rho_partial (-180) 180 _ _ _ ltac:(unfold allowed_range; lia) ltac:(lia) HR) as (p & d & Hp & Hd & _).
  exists z, p, d. split; [exact HJ|]. split; [reflexivity|]. split; [exact Hp|]. split; [exact Hd|].
  rewrite (C04_substrate_partial (-180) 180 0 1 (RtoC 4) (RtoC 1) _ _ p d ltac:(unfold allowed_range; lia) ltac:(lia) ltac:(congruence) O1 HJ HR Hp Hd).
  change (0 * PI / 180)%R with (deg2rad 0). rewrite Z, sin_0. destruct (Req_EM_T 0 0); [reflexivity|lra].
Qed.
Print Assumptions C04_normal_refuted.

(** C04 refuted in the folded range for a substrate with a tiny gain. *)
Theorem C04_folded_refuted : exists theta_i lbda (eps : C) J z p d e,
  jones2_r (solver2 theta_i lbda (RtoC 1) [] eps) = Some J /\
  rho (0, 180)%R J (vec_of [RtoC 1; RtoC 1]) = Some z /\
  psi (0, 180)%R J (vec_of [RtoC 1; RtoC 1]) = Some p /\ delta (0, 180)%R J (vec_of [RtoC 1; RtoC 1]) = Some d /\
  calc_pseudo_diel (calc_rho p d) theta_i = Some e /\ e <> eps.
Proof.
  destruct deg45 as [S K]. assert (H2 : (0 < sqrt 2)%R) by (apply sqrt_lt_R0; lra).
  assert (H0 : (0 < 1 / sqrt 2)%R) by (apply Rdiv_lt_0_compat; lra).
  assert (HS := half2). set (h := (1 / sqrt 2)%R) in *. clearbody h. clear H2.
  assert (T0 : (0 < 1 / 10 ^ 10)%R) by (apply Rdiv_lt_0_compat; [lra|apply pow_lt; lra]).
  assert (T1 : (1 / 10 ^ 10 < 1 / 2)%R).
  { apply Rmult_lt_compat_l; [lra|]. apply Rinv_lt_contravar; [apply Rmult_lt_0_compat; [lra|apply pow_lt; lra]|].
    simpl. lra. }
  set (t := (1 / 10 ^ 10)%R) in *. assert (TT : (1 / 10 ^ 10 = t)%R) by reflexivity. clearbody t.
  set (q := (1%R, (- t)%R) : C). set (eps := (3 / 2 - t * t, - 2 * t)%R : C).
  assert (Ne : eps <> 0) by (intros E; apply (f_equal snd) in E; cbn [snd eps RtoC] in E; lra).
  assert (O1 : RtoC 1 <> 0) by (apply C_of_R_neq; lra).
  assert (KB : kz_half (RtoC (sin (deg2rad 45))) eps = q).
  { apply kz_small; [exact Ne| |unfold Re, q; cbn [fst]; lra|].
    - rewrite S. apply C_ext; unfold q, eps; simpl; [|ring]. nra.
    - unfold Im, q. cbn [snd]. rewrite Rabs_Ropp, Rabs_pos_eq by lra. rewrite TT. lra. }
  assert (JJ := substrate_some 45 1 eps). cbv zeta in JJ. rewrite KB, K, (Rabs_pos_eq h) in JJ by lra.
  assert (D1 : RtoC h + q <> 0) by (intros E; apply (f_equal fst) in E; cbn [fst Cplus q RtoC] in E; lra).
  assert (D2 : eps * RtoC h + q <> 0).
  { intros E; apply (f_equal snd) in E; unfold eps, q in E; cbn [fst snd Cplus Cmult RtoC] in E. nra. }
  assert (HJ := JJ ltac:(lra) ltac:(lra) Ne D1 D2). clear JJ.
  set (J := mat_of _) in HJ. exists 45%R, 1%R, eps, J.
  destruct (rho_raw J (vec_of [RtoC 1; RtoC 1])) as [w|] eqn:HW.
  2:{ exfalso. assert (HR : rho (0, 180)%R J (vec_of [RtoC 1; RtoC 1]) = None) by (unfold rho; now rewrite HW).
      apply (C04_defined _ _ _ _ _ _ O1 HJ) in HR. apply (f_equal snd) in HR. cbn [snd eps RtoC] in HR. lra. }
  assert (HR : rho (0, 180)%R J (vec_of [RtoC 1; RtoC 1]) = Some (fold_rho (0, 180)%R w)) by (unfold rho; now rewrite HW).
  assert (HR' : rho (-180, 180)%R J (vec_of [RtoC 1; RtoC 1]) = Some w).
  { unfold rho. rewrite HW. cbn [obind]. rewrite fold_id by (left; cbn [fst]; lra). reflexivity. }
  destruct (C03_psi_delta_rho_partial 0 180 _ _ _ ltac:(unfold allowed_range; lia) ltac:(lia) HR) as (p & d & Hp & Hd & _).
  exists (fold_rho (0, 180)%R w), p, d, (Cconj eps). split; [exact HJ|]. split; [exact HR|]. split; [exact Hp|]. split; [exact Hd|].
  split; [|intros E; apply (f_equal snd) in E; unfold eps in E; cbn [snd Cconj] in E; lra].
  rewrite (C04_folded 45 1 eps (RtoC 1) J w _ p d O1 HJ HR' HR Hp Hd) by (change (45 * PI / 180)%R with (deg2rad 45); rewrite S; lra).
  destruct (Rle_dec (Im w) 0) as [N|]; [exfalso|reflexivity].
  unfold J in HW. rewrite diag_rho in HW by exact O1. destruct (Ceq_dec _ 0) as [|D3]; [discriminate|]. apply Some_eq in HW.
  assert (HH : q * q = eps - RtoC (h * h)) by (apply C_ext; unfold q, eps; simpl; [nra|ring]).
  assert (H := rho_side w eps q h h (eq_sym HW) HH ltac:(lra) D1 D2 D3). rewrite HS in H.
  assert (W0 : 1 + w <> 0).
  { intros E. assert (Ew : Im w = 0%R) by (apply (f_equal snd) in E; cbn [snd Cplus RtoC] in E; unfold Im; lra).
    rewrite E in H. clear - E HW D1 D2 D3 HH HS T0.
    assert (Z1 : RtoC h - q <> 0) by (intros K; apply D3; rewrite K; unfold Cdiv; ring).
    assert (P : (1 + w) * ((eps * RtoC h + q) * (RtoC h - q)) = 2 * (eps * (RtoC h * RtoC h) - q * q)) by (rewrite <- HW; field; auto).
    rewrite E, HH, <- RtoC_mult, HS in P. apply (f_equal snd) in P. unfold eps in P. simpl in P. lra. }
  assert (G := Cnorm2_gt0 _ W0). change (Im q) with (- t)%R in H.
  assert (0 < Cnorm2 (1 + w) * (h * t))%R by (apply Rmult_lt_0_compat; [exact G|apply Rmult_lt_0_compat; lra]). nra.
Qed.
Print Assumptions C04_folded_refuted.
