(** C118: the light of an experiment and what its results say about it. *)
From Coq Require Import Reals List Lra Lia.
From Coquelicot Require Import Complex.
From Verif.Base Require Import Py Cx Mat.
From Verif.Model Require Import Units DeltaRange Polar Ellips Experiment.
From Verif.Spec Require Import Angle Light Incident.
From Verif.Proof Require Import PolarP EllipsP.
From Verif.Props Require Import EllipsT PolarT.
Import ListNotations.
Open Scope R_scope.

(** Only the direction of the polarised part matters *)
Lemma stokes_to_jones_eq s0 s1 s2 s3 : s0 <> 0 -> stokes_to_jones s0 s1 s2 s3 =
  let P := sqrt (s1 ^ 2 + s2 ^ 2 + s3 ^ 2) in
  if Req_EM_T P 0 then None else
  if Req_EM_T (s1 / P) (-1) then Some (RtoC 0, RtoC 1)
  else let a := sqrt ((1 + s1 / P) / 2) in
    obind (rdiv (s2 / P) (2 * a)) (fun u => obind (rdiv (s3 / P) (2 * a)) (fun v => Some (RtoC a, (RtoC u + Ci * RtoC v)%C))).
Proof.
  intro N. unfold stokes_to_jones. set (P := sqrt _). cbv zeta. rewrite rdiv_some by exact N. cbn [obind].
  replace (s0 * (P / s0)) with P by (field; exact N). unfold rdiv at 1. destruct (Req_EM_T P 0) as [E|E]; [reflexivity|]. cbn [obind].
  rewrite !(rdiv_some _ P E). cbn [obind]. reflexivity.
Qed.

Lemma stokes_to_jones_scale s0 s0' k s1 s2 s3 : s0 <> 0 -> s0' <> 0 -> 0 < k ->
  stokes_to_jones s0 (k * s1) (k * s2) (k * s3) = stokes_to_jones s0' s1 s2 s3.
Proof.
  intros N N' K. rewrite !stokes_to_jones_eq by assumption. cbv zeta.
  replace ((k * s1) ^ 2 + (k * s2) ^ 2 + (k * s3) ^ 2) with (k ^ 2 * (s1 ^ 2 + s2 ^ 2 + s3 ^ 2)) by ring.
  rewrite sqrt_mult_alt by apply pow2_ge_0. rewrite sqrt_pow2 by lra. set (P := sqrt _).
  destruct (Req_EM_T P 0) as [E|E].
  - rewrite E, Rmult_0_r. destruct (Req_EM_T 0 0); [reflexivity|lra].
  - destruct (Req_EM_T (k * P) 0) as [E'|_]; [apply Rmult_integral in E'; lra|].
    replace (k * s1 / (k * P)) with (s1 / P) by (field; lra). replace (k * s2 / (k * P)) with (s2 / P) by (field; lra).
    replace (k * s3 / (k * P)) with (s3 / P) by (field; lra). reflexivity.
Qed.

Lemma stokes_model (a b : C) : jones_to_stokes a b = (stokes a b 0, stokes a b 1, stokes a b 2, stokes a b 3).
Proof.
  unfold jones_to_stokes, stokes. assert (M : forall z : C, Cmod z ^ 2 = Cnorm2 z) by (intros z; simpl; rewrite Rmult_1_r; apply Cmod_sqr).
  now rewrite !M.
Qed.

Lemma stokes_pos (a b : C) : a <> RtoC 0 \/ b <> RtoC 0 -> 0 < stokes a b 0.
Proof.
  intro N. cbn [stokes]. pose proof (Cnorm2_ge0 a). pose proof (Cnorm2_ge0 b).
  destruct N as [N|N]; apply Cnorm2_gt0 in N; lra.
Qed.

(** The Jones vector of the experiment is that of the light, up to power and phase *)
Lemma describes_jones old v a b : a <> RtoC 0 \/ b <> RtoC 0 -> describes v a b ->
  exists l k, set_vector old v = Some l /\ k <> RtoC 0 /\ jones_vector l = Some (k * a, k * b)%C.
Proof.
  intros N D. destruct D as [k a b K|s0 k a b K S|a].
  - exists (Light (Some (k * a, k * b)%C) (jones_to_stokes (k * a) (k * b))), k. split; [reflexivity|]. split; [exact K|reflexivity].
  - assert (P := stokes_pos a b N). destruct (C34_round_trip old a b N) as (l & E & H). cbn [set_vector] in E. injection E as <-. cbn [stokes_vector] in H.
    rewrite stokes_model in H. destruct H as (l' & c & E & C0 & J). cbn [set_vector] in E. injection E as <-. cbn [jones_vector] in J.
    eexists. exists c. split; [reflexivity|]. split; [exact C0|]. cbn [jones_vector]. rewrite <- J. apply stokes_to_jones_scale; [|now apply Rgt_not_eq|exact K].
    apply Rgt_not_eq. apply Rlt_le_trans with (k * stokes a b 0); [now apply Rmult_lt_0_compat|exact S].
  - assert (A : a <> RtoC 0) by tauto.
    destruct (C34_round_trip old (RtoC 1) (RtoC 1)) as (l & E & H); [left; intro H; apply RtoC_inj in H; lra|]. cbn [set_vector] in E. injection E as <-. cbn [stokes_vector] in H.
    rewrite stokes_model in H. destruct H as (l' & c & E & C0 & J). cbn [set_vector] in E. injection E as <-. cbn [jones_vector] in J.
    eexists. exists (c / a)%C. split; [reflexivity|]. split; [now apply Cdiv_neq0|]. cbn [jones_vector].
    replace (c / a * a)%C with (c * RtoC 1)%C by (field; exact A). rewrite <- J.
    transitivity (stokes_to_jones 2 (2 * 0) (2 * 1) (2 * 0)); [symmetry; apply stokes_to_jones_scale; lra|f_equal; unfold Cnorm2; cbn; ring].
Qed.

Lemma rho_raw_scale J k a b : k <> RtoC 0 -> rho_raw J (vec_of [(k * a)%C; (k * b)%C]) = rho_raw J (vec_of [a; b]).
Proof.
  intro K. unfold rho_raw. destruct (rho_matrix J) as [m|]; [|reflexivity]. cbn [obind].
  assert (V : forall i, mvec 2 m (vec_of [(k * a)%C; (k * b)%C]) i = (k * mvec 2 m (vec_of [a; b]) i)%C).
  { intro i. unfold mvec, vec_of. cbn. ring. }
  rewrite !V. unfold cdiv. destruct (Ceq_dec (mvec 2 m (vec_of [a; b]) 1%nat) 0) as [E|E].
  - rewrite E, Cmult_0_r. destruct (Ceq_dec 0 0); [reflexivity|tauto].
  - destruct (Ceq_dec (k * mvec 2 m (vec_of [a; b]) 1%nat) 0) as [E'|_]; [destruct (Cmult_neq_0 _ _ K E E')|].
    f_equal. field. split; assumption.
Qed.

(** The result only depends on the light, not on how it was described, and on no earlier vector. *)
Theorem C118_same_light : forall Str (solver : Str -> R -> R -> mat) rg e e' v v' a b,
  a <> RtoC 0 \/ b <> RtoC 0 -> describes v a b -> describes v' a b ->
  structure e = structure e' -> theta_i e = theta_i e' -> lbda e = lbda e' ->
  result_rho solver rg (apply e (SetVector v)) = result_rho solver rg (apply e' (SetVector v')) /\
  result_psi solver rg (apply e (SetVector v)) = result_psi solver rg (apply e' (SetVector v')) /\
  result_delta solver rg (apply e (SetVector v)) = result_delta solver rg (apply e' (SetVector v')).
Proof.
  intros Str solver rg e e' v v' a b N D D' ES ET EL.
  destruct (describes_jones (incident e) v a b N D) as (l & k & E & K & J).
  destruct (describes_jones (incident e') v' a b N D') as (l' & k' & E' & K' & J').
  unfold result_rho, result_psi, result_delta, with_light, evaluate. cbn [apply incident structure theta_i lbda].
  rewrite E, E', J, J', ES, ET, EL. cbn [obind]. unfold psi, delta, rho.
  repeat split; f_equal; apply map_ext; intro m; now rewrite !rho_raw_scale by assumption.
Qed.
Print Assumptions C118_same_light.

(** rho is the ratio of the two components of the reflected light, wherever r_ss is not zero. *)
Theorem C118_rho : forall Str (solver : Str -> R -> R -> mat) e v a b,
  a <> RtoC 0 \/ b <> RtoC 0 -> describes v a b ->
  exists zs, result_rho solver (IZR (-180), IZR 180) (apply e (SetVector v)) = Ok zs /\
    Forall2 (fun w z => let J := solver (structure e) (theta_i e) w in
       J 1%nat 1%nat <> RtoC 0 -> forall x, z = Some x <-> field_ratio J a b x) (lbda e) zs.
Proof.
  intros Str solver e v a b N D. destruct (describes_jones (incident e) v a b N D) as (l & k & E & K & J).
  unfold result_rho, with_light, evaluate. cbn [apply incident structure theta_i lbda]. rewrite E, J. cbn [obind].
  eexists. split; [reflexivity|]. rewrite map_map. induction (lbda e) as [|w ws IH]; constructor; [|exact IH]. clear IH.
  cbv zeta. set (M := solver _ _ w). intros S x. unfold rho. rewrite rho_raw_scale by exact K. fold (rho (IZR (-180), IZR 180) M (vec_of [a; b])).
  rewrite C03_rho_is_field_ratio. unfold field_ratio, vec_of. cbn. split.
  - intros (_ & Z & ->). split; [exact Z|]. field. exact Z.
  - intros (Z & Q). split; [exact S|]. split; [exact Z|]. rewrite <- Q. field. exact Z.
Qed.
Print Assumptions C118_rho.

(** The usual measurement: for a sample that does not mix p and s, evaluated without a vector, rho is r_pp / r_ss. *)
Theorem C118_default : forall Str (solver : Str -> R -> R -> mat) s l t,
  (forall w, In w (as_wavelengths l) -> solver s t w 0%nat 1%nat = RtoC 0 /\ solver s t w 1%nat 0%nat = RtoC 0 /\ solver s t w 1%nat 1%nat <> RtoC 0) ->
  result_rho solver (IZR (-180), IZR 180) (structure_evaluate s l t) =
  Ok (map (fun w => Some (solver s t w 0%nat 0%nat / solver s t w 1%nat 1%nat)%C) (as_wavelengths l)).
Proof.
  intros Str solver s l t H. assert (ONE : RtoC 1 <> RtoC 0) by (intro X; apply RtoC_inj in X; lra).
  destruct (describes_jones None VNone (RtoC 1) (RtoC 1) (or_introl ONE) (by_default _)) as (li & k & E & K & J).
  unfold result_rho, with_light, evaluate, structure_evaluate, init. cbn [incident structure theta_i lbda]. rewrite E, J. cbn [obind]. f_equal.
  rewrite map_map. apply map_ext_in. intros w I. destruct (H w I) as (A & B & S). unfold rho. rewrite rho_raw_scale by exact K.
  apply (C03_rho_is_field_ratio (solver s t w) (vec_of [RtoC 1; RtoC 1])). unfold vec_of. cbn. rewrite A, B. split; [exact S|]. split.
  - intro X. apply S. rewrite <- X. ring.
  - field. exact S.
Qed.
Print Assumptions C118_default.

(** psi and delta are those of the light that the Mueller matrix of the same result makes of the stored Stokes vector:
    for polarised light, and ranges of delta for which C03 holds without folding. *)
Definition covered (l u : Z) : Prop := (l = 0 /\ u = 360 \/ l = -180 /\ u = 180 \/ l = -360 /\ u = 0)%Z.

Lemma covered_allowed l u : covered l u -> allowed_range l u /\ (l = 0 \/ l = -180 \/ l = -360)%Z.
Proof. unfold covered, allowed_range. lia. Qed.

Lemma fold_covered l u z : covered l u -> fold_rho (IZR l, IZR u) z = z.
Proof.
  intro H. unfold fold_rho, Reqb. cbn [fst snd]. destruct (Req_EM_T (IZR l) 0) as [E|_]; [|reflexivity]. destruct (Req_EM_T (IZR u) 180) as [E'|_]; [|reflexivity].
  exfalso. apply eq_IZR in E, E'. unfold covered in H. lia.
Qed.

Lemma angles_reflected p d (x y z : C) : 0 <= p < 90 -> is_rho p d z -> (y <> 0)%C -> x = (z * y)%C ->
  forall i, (i < 4)%nat -> stokes x y i = stokes x y 0 * angles_stokes p d i.
Proof.
  intros B [Rz Iz] N -> i L. set (t := tan (p * PI / 180)) in *.
  assert (C0 : cos (p * PI / 180) <> 0).
  { apply Rgt_not_eq, cos_gt_0; pose proof PI_RGT_0.
    - apply Rlt_le_trans with 0%R; [lra|]. apply Rmult_le_pos; [|lra]. apply Rmult_le_pos; lra.
    - replace (PI / 2)%R with (90 * PI / 180)%R by field. apply Rmult_lt_compat_r; [lra|]. apply Rmult_lt_compat_r; lra. }
  assert (T : t * cos (p * PI / 180) = sin (p * PI / 180)) by (unfold t, tan; field; exact C0).
  assert (S1 := sin2_cos2 (p * PI / 180)). assert (S2 := sin2_cos2 (d * PI / 180)). unfold Rsqr in S1, S2.
  set (c := cos (p * PI / 180)) in *. set (s := sin (p * PI / 180)) in *.
  set (cd := cos (d * PI / 180)) in *. set (sd := sin (d * PI / 180)) in *.
  assert (NZ : Cnorm2 (z * y) = t * t * Cnorm2 y).
  { rewrite Cnorm2_mult. f_equal. unfold Cnorm2. unfold Re in Rz. unfold Im in Iz. rewrite Rz, Iz. transitivity (t * t * (sd * sd + cd * cd)); [ring|rewrite S2; ring]. }
  assert (RZ : Re (z * y * Cconj y)%C = t * cd * Cnorm2 y).
  { rewrite <- Rz. unfold Re, Cnorm2. cbn. ring. }
  assert (IZ : Im (z * y * Cconj y)%C = - (t * sd) * Cnorm2 y).
  { rewrite <- Iz. unfold Im, Cnorm2. cbn. ring. }
  assert (TT : c * c * (t * t + 1) = 1) by (transitivity ((t * c) * (t * c) + c * c); [ring|rewrite T; lra]).
  set (n := Cnorm2 y) in *.
  assert (S2p : sin (2 * (p * PI / 180)) = 2 * s * c) by (rewrite sin_2a; reflexivity).
  assert (C2p : cos (2 * (p * PI / 180)) = c * c - s * s) by (rewrite cos_2a; reflexivity).
  destruct i as [|[|[|[|i]]]]; [| | | |lia]; cbn [stokes angles_stokes]; rewrite ?NZ, ?RZ, ?IZ, ?S2p, ?C2p; fold cd; fold sd; fold n; clearbody t c s cd sd n.
  - ring.
  - transitivity (n * (t * t - 1)); [ring|]. transitivity (n * (t * t + 1) * (t * t * (c * c) - c * c)); [|rewrite <- T; ring].
    transitivity (n * (t * t - 1) * (c * c * (t * t + 1))); [rewrite TT; ring|ring].
  - rewrite <- T. transitivity (2 * (t * cd * n) * (c * c * (t * t + 1))); [rewrite TT; ring|ring].
  - rewrite <- T. transitivity (2 * (t * sd * n) * (c * c * (t * t + 1))); [rewrite TT; ring|ring].
Qed.

Theorem C118_polarimeter : forall Str (solver : Str -> R -> R -> mat) l u e v a b ps ds,
  covered l u -> a <> RtoC 0 \/ b <> RtoC 0 ->
  v = VJones a b \/ v = VStokes (stokes a b 0) (stokes a b 1) (stokes a b 2) (stokes a b 3) ->
  let e' := apply e (SetVector v) in
  result_psi solver (IZR l, IZR u) e' = Ok ps -> result_delta solver (IZR l, IZR u) e' = Ok ds ->
  exists light S, incident e' = Some light /\ stokes_vector light = (S 0%nat, S 1%nat, S 2%nat, S 3%nat) /\
  forall j w M p d, nth_error (lbda e) j = Some w -> nth_error (result_mueller solver e') j = Some (Some M) ->
    nth_error ps j = Some (Some p) -> nth_error ds j = Some (Some d) ->
    exists power, 0 < power /\ forall i, (i < 4)%nat ->
      sum_f_R0 (fun j => M i j * S j) 3 = power * angles_stokes p d i.
Proof.
  intros Str solver l u e v a b ps ds CV N V e' EP ED. destruct (covered_allowed l u CV) as [AR L].
  assert (D : describes v a b).
  { destruct V as [->| ->].
    - replace a with (RtoC 1 * a)%C at 1 by ring. replace b with (RtoC 1 * b)%C at 1 by ring. constructor. intro X. apply RtoC_inj in X. lra.
    - pose proof (by_stokes (stokes a b 0) 1 a b Rlt_0_1 ltac:(lra)) as X. rewrite !Rmult_1_l in X. exact X. }
  destruct (describes_jones (incident e) v a b N D) as (li & k & E & K & J).
  exists li, (fun i => stokes a b i). split; [exact E|]. split.
  { destruct V as [->| ->]; cbn [set_vector] in E; injection E as <-; cbn [stokes_vector]; [apply stokes_model|reflexivity]. }
  intros j w M p d Lw LM Lp Ld. unfold result_mueller, evaluate, e' in LM. cbn [apply structure theta_i lbda] in LM.
  rewrite map_map, (map_nth_error _ _ _ Lw) in LM. injection LM as LM. set (Jm := solver (structure e) (theta_i e) w) in *.
  unfold result_psi, result_delta, with_light, evaluate, e' in EP, ED. cbn [apply structure theta_i lbda incident] in EP, ED. rewrite E, J in EP, ED. cbn [obind] in EP, ED.
  apply (f_equal (fun x => match x with Ok y => y | Err _ => [] end)) in EP. apply (f_equal (fun x => match x with Ok y => y | Err _ => [] end)) in ED. cbv beta iota in EP, ED. subst ps ds.
  rewrite map_map, (map_nth_error _ _ _ Lw) in Lp. rewrite map_map, (map_nth_error _ _ _ Lw) in Ld. fold Jm in Lp, Ld.
  assert (Lp' : psi (IZR l, IZR u) Jm (vec_of [(k * a)%C; (k * b)%C]) = Some p) by congruence. assert (Ld' : delta (IZR l, IZR u) Jm (vec_of [(k * a)%C; (k * b)%C]) = Some d) by congruence. clear Lp Ld.
  assert (Z : exists z, rho (IZR l, IZR u) Jm (vec_of [a; b]) = Some z).
  { unfold psi, rho in Lp'. rewrite rho_raw_scale in Lp' by exact K. unfold rho. destruct (rho_raw Jm (vec_of [a; b])) as [z|]; [cbn [obind]; eauto|discriminate Lp']. }
  destruct Z as (z & Z).
  destruct (C03_psi_delta_rho_partial l u Jm (vec_of [a; b]) z AR L Z) as (p' & d' & P' & D' & B & _ & Q).
  assert (p' = p) by (unfold psi, rho in Lp', P'; rewrite rho_raw_scale in Lp' by exact K; congruence). subst p'.
  assert (d' = d) by (unfold delta, rho in Ld', D'; rewrite rho_raw_scale in Ld' by exact K; congruence). subst d'.
  assert (F : rho (IZR (-180), IZR 180) Jm (vec_of [a; b]) = Some z).
  { unfold rho in Z |- *. destruct (rho_raw Jm (vec_of [a; b])) as [y|]; [|discriminate Z]. cbn [obind] in *. rewrite fold_covered in Z by exact CV. rewrite fold_covered; [exact Z|]. unfold covered. lia. }
  apply C03_rho_is_field_ratio in F. unfold vec_of in F. cbn in F. destruct F as (SS & NS & FZ).
  set (x := (Jm 0%nat 0%nat * a + Jm 0%nat 1%nat * b)%C) in *. set (y := (Jm 1%nat 0%nat * a + Jm 1%nat 1%nat * b)%C) in *.
  assert (X : x = (z * y)%C) by (rewrite FZ; field; exact NS).
  set (U := unpolarised_power (Jm 0 0)%nat (Jm 0 1)%nat (Jm 1 0)%nat (Jm 1 1)%nat).
  assert (UP : 0 < U).
  { unfold U, unpolarised_power. pose proof (Cnorm2_ge0 (Jm 0 0)%nat). pose proof (Cnorm2_ge0 (Jm 0 1)%nat). pose proof (Cnorm2_ge0 (Jm 1 0)%nat). apply Cnorm2_gt0 in SS. lra. }
  exists (stokes x y 0 / U). split; [apply Rdiv_lt_0_compat; [apply stokes_pos; now right|exact UP]|].
  intros i Li. rewrite (C43_stokes Jm M a b i LM Li). fold x y U. rewrite (angles_reflected p d x y z B Q NS X i Li). unfold Rdiv. ring.
Qed.
Print Assumptions C118_polarimeter.

(** Histories: every attribute is what the last setter call that understood its argument made of it. *)
Definition sets_vector {Str} (c : call Str) : bool := match c with SetVector v => understood v | _ => false end.
Definition sets_structure {Str} (c : call Str) : bool := match c with SetStructure _ => true | _ => false end.
Definition sets_theta {Str} (c : call Str) : bool := match c with SetTheta _ => true | _ => false end.
Definition sets_lbda {Str} (c : call Str) : bool := match c with SetLbda _ => true | _ => false end.
Definition never {Str} (p : call Str -> bool) (calls : list (call Str)) : Prop := Forall (fun c => p c = false) calls.

Lemma unchanged Str (calls : list (call Str)) : forall e,
  (never sets_vector calls -> incident (fold_left apply calls e) = incident e) /\
  (never sets_structure calls -> structure (fold_left apply calls e) = structure e) /\
  (never sets_theta calls -> theta_i (fold_left apply calls e) = theta_i e) /\
  (never sets_lbda calls -> lbda (fold_left apply calls e) = lbda e).
Proof.
  induction calls as [|c calls IH]; intro e; [repeat split|]. cbn [fold_left]. destruct (IH (apply e c)) as (A & B & C & D).
  repeat split; intro N; inversion N as [|? ? H N']; subst; [rewrite (A N')|rewrite (B N')|rewrite (C N')|rewrite (D N')]; destruct c as [|v| |]; try reflexivity; try discriminate H.
  destruct v; try discriminate H. reflexivity.
Qed.

Theorem C118_history : forall Str (before after : list (call Str)) e,
  (forall v, understood v = true -> never sets_vector after ->
     incident (fold_left apply (before ++ SetVector v :: after) e) = set_vector None v /\ set_vector None v <> None) /\
  (forall s, never sets_structure after -> structure (fold_left apply (before ++ SetStructure s :: after) e) = s) /\
  (forall t, never sets_theta after -> theta_i (fold_left apply (before ++ SetTheta t :: after) e) = t) /\
  (forall ws, never sets_lbda after -> lbda (fold_left apply (before ++ SetLbda (Several ws) :: after) e) = ws) /\
  (forall w, never sets_lbda after -> lbda (fold_left apply (before ++ SetLbda (Single w) :: after) e) = [w]) /\
  (never sets_vector after -> incident (fold_left apply after e) = incident e).
Proof.
  intros Str before after e. repeat split; intros; rewrite ?fold_left_app; cbn [fold_left].
  - rewrite (proj1 (unchanged Str after _)) by assumption. destruct v; reflexivity || discriminate.
  - now destruct v.
  - now rewrite (proj1 (proj2 (unchanged Str after _))).
  - now rewrite (proj1 (proj2 (proj2 (unchanged Str after _)))).
  - now rewrite (proj2 (proj2 (proj2 (unchanged Str after _)))).
  - now rewrite (proj2 (proj2 (proj2 (unchanged Str after _)))).
  - now apply unchanged.
Qed.
Print Assumptions C118_history.

(** A vector of another shape is no error where it is given: an experiment made with one has no light, and its rho, psi
    and delta raise TypeError until a vector is set. *)
Theorem C118_no_light : forall Str (solver : Str -> R -> R -> mat) rg s l t calls, never sets_vector calls ->
  let e := fold_left apply calls (init s l t VOther) in
  result_rho solver rg e = Err TypeError /\ result_psi solver rg e = Err TypeError /\ result_delta solver rg e = Err TypeError /\
  length (result_mueller solver e) = length (lbda e).
Proof.
  intros Str solver rg s l t calls N e. assert (I : incident e = None) by (unfold e; rewrite (proj1 (unchanged Str calls _) N); reflexivity).
  unfold result_rho, result_psi, result_delta, with_light. rewrite I. repeat split. unfold result_mueller, evaluate. now rewrite !map_length.
Qed.
Print Assumptions C118_no_light.

(** A sample with r_pp = i and r_ss = 2 in light with the components 1 and i *)
Example C118_example : let solver := fun (_ : unit) (_ _ : R) => J_ex in
  let e := init tt (Several [400; 500]) 70 VNone in
  describes (VJones (RtoC 1) Ci) (RtoC 1) Ci /\ describes (VStokes 4 0 0 3) (RtoC 1) Ci /\
  result_rho solver (IZR (-180), IZR 180) (apply e (SetVector (VStokes 4 0 0 3))) = Ok [Some (RtoC (1 / 2)); Some (RtoC (1 / 2))] /\
  result_rho solver (IZR (-180), IZR 180) e = Ok [Some (Ci / RtoC 2)%C; Some (Ci / RtoC 2)%C].
Proof.
  intros solver e. assert (ONE : RtoC 1 <> RtoC 0) by (intro X; apply RtoC_inj in X; lra). assert (TWO : RtoC 2 <> RtoC 0) by (intro X; apply RtoC_inj in X; lra).
  assert (S : describes (VStokes 4 0 0 3) (RtoC 1) Ci).
  { pose proof (by_stokes 4 (3 / 2) (RtoC 1) Ci ltac:(lra)) as X.
    replace (3 / 2 * stokes (RtoC 1) Ci 1) with 0 in X by (unfold stokes, Cnorm2; cbn; field).
    replace (3 / 2 * stokes (RtoC 1) Ci 2) with 0 in X by (unfold stokes, Re; cbn; field).
    replace (3 / 2 * stokes (RtoC 1) Ci 3) with 3 in X by (unfold stokes, Im; cbn; field). apply X. unfold stokes, Cnorm2; cbn. lra. }
  split; [|split; [exact S|split]].
  - pose proof (by_jones (RtoC 1) (RtoC 1) Ci ONE) as X. replace (RtoC 1 * RtoC 1)%C with (RtoC 1) in X by ring. replace (RtoC 1 * Ci)%C with Ci in X by ring. exact X.
  - destruct (C118_rho unit solver e _ (RtoC 1) Ci (or_introl ONE) S) as (zs & E & F). rewrite E. f_equal.
    assert (G : field_ratio J_ex (RtoC 1) Ci (RtoC (1 / 2))).
    { unfold field_ratio, J_ex, mat_of. cbn. split.
      - intro X. apply (f_equal snd) in X. cbn in X. lra.
      - apply C_ext; cbn; field. }
    cbn [lbda e init as_wavelengths] in F. inversion F as [|w z ws zs' H F']; subst. inversion F' as [|w' z' ws' zs'' H' F'']; subst. inversion F''; subst.
    assert (T : J_ex 1%nat 1%nat <> RtoC 0) by exact TWO. rewrite (proj2 (H T _) G), (proj2 (H' T _) G). reflexivity.
  - apply (C118_default unit solver tt (Several [400; 500]) 70). intros w _. unfold solver, J_ex, mat_of. cbn. auto.
Qed.
