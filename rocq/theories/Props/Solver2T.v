(** C35, C36, C37, C66, C67 and the response clause of C31 for Solver2x2. *)
From Coq Require Import Reals Lra Psatz ZArith Lia.
From Coquelicot Require Import Complex.
From Coq Require Import List.
From Verif.Base Require Import Py Cx Mat.
From Verif.Model Require Import Units Ellips Structure Solver2.
From Verif.Spec Require Import Stack.
From Verif.Proof Require Import StackP FluxP UnitsP DispersionsP StructureP Solver2P Solver2P2 Solver2P3 Solver2P4 Solver2P5.
Import ListNotations.
Open Scope R_scope.
Open Scope C_scope.

(** C35: n sin(angle) is the same in the front medium, every layer and the back medium. *)
Theorem C35_snell : forall theta_i (n_f n_b : C) ns a_f angles a_b,
  list_snell theta_i n_f ns n_b = Some (a_f, angles, a_b) ->
  let K := n_f * RtoC (sin (theta_i * PI / 180)) in
  n_f * Csin a_f = K /\ n_b * Csin a_b = K /\ Forall2 (fun n a => n * Csin a = K) ns angles.
Proof.
  intros theta_i n_f n_b ns a_f al a_b H. apply list_snell_inv in H. cbv zeta in H.
  destruct H as (N0 & N1 & F & -> & -> & ->). unfold deg2rad. cbv zeta. set (K := n_f * RtoC _).
  rewrite !fix_angle_sin, !Csin_Casin. split; [field; exact N0|]. split; [field; exact N1|].
  induction F as [|n ns Hn F IH]; [constructor|]. cbn [map]. constructor; [|exact IH].
  rewrite Csin_Casin. field. exact Hn.
Qed.
Print Assumptions C35_snell.

(** It has angles for all media unless one of the indices is zero. *)
Theorem C35_defined : forall theta_i (n_f n_b : C) ns,
  (exists angles, list_snell theta_i n_f ns n_b = Some angles) <->
  n_f <> 0 /\ n_b <> 0 /\ Forall (fun n => n <> RtoC 0) ns.
Proof.
  intros theta_i n_f n_b ns. split.
  - intros [[[a l] b] H]. apply list_snell_inv in H. cbv zeta in H. tauto.
  - intros (A & B & F). destruct (list_snell_some theta_i n_f ns n_b A B F) as (a & l & b & H). eauto.
Qed.
Print Assumptions C35_defined.

(** C35: the rule for the half spaces, for any permittivities: where the wave decays or grows by
    more than the tolerance, it decays; otherwise it does not travel backward. *)
Theorem C35_rule : forall theta_i (eps_f eps : C),
  let kx := Csqrt eps_f * RtoC (sin (theta_i * PI / 180)) in
  let a := fix_angle (Csqrt eps) (Casin (kx / Csqrt eps)) in
  let w := Csqrt eps * Ccos a in
  ((1 / 10 ^ 10 < Rabs (Im w))%R -> (0 < Im w)%R) /\
  ((Rabs (Im w) <= 1 / 10 ^ 10)%R -> (0 <= Re w)%R).
Proof. intros. apply half_rule. Qed.
Print Assumptions C35_rule.

(** C35: a lossless front medium has a wave travelling towards the structure. *)
Theorem C35_front : forall theta_i lbda (x : R) ls eps_b front layers back,
  (0 < x)%R -> cos (theta_i * PI / 180) <> 0%R ->
  solver2_media theta_i lbda (RtoC x) ls eps_b = Some (front, layers, back) ->
  fst front = RtoC (sqrt x) /\
  Csin (snd front) = RtoC (sin (theta_i * PI / 180)) /\
  Ccos (snd front) = RtoC (Rabs (cos (theta_i * PI / 180))).
Proof.
  intros th lb x ls eb f l b P Q H. apply media_inv in H. cbv zeta in H.
  destruct H as (_ & _ & _ & _ & -> & _ & _). destruct (kz_front th x P Q) as (_ & -> & E).
  cbn [fst snd]. split; [reflexivity|]. split; [apply Csin_Casin|exact E].
Qed.
Print Assumptions C35_front.

(** C35: passive back media behind a lossless front medium.  With w = n cos(angle) of the back
    medium, a wave exp(i k w z) travels or stands (Re w >= 0), and its amplitude does not grow
    (Im w >= 0).  Missing: evanescent waves with decay constants up to 1e-10, see
    [C35_growing_refuted]. *)
Theorem C35_forward_partial : forall theta_i lbda (x : R) ls (eps_b : C) front layers back,
  (0 < x)%R -> (0 <= Im eps_b)%R ->
  solver2_media theta_i lbda (RtoC x) ls eps_b = Some (front, layers, back) ->
  let w := fst back * Ccos (snd back) in
  ~ (Re w = 0%R /\ (0 < Rabs (Im w) <= 1 / 10 ^ 10)%R) ->
  w * w = eps_b - RtoC (x * (sin (theta_i * PI / 180) * sin (theta_i * PI / 180))) /\
  (0 <= Re w)%R /\ (0 <= Im w)%R.
Proof.
  intros th lb x ls eb f l b P I H. apply media_inv in H. cbv zeta in H.
  destruct H as (_ & _ & N & _ & _ & -> & _). cbv zeta. intros E.
  rewrite kx_real in * by lra. split; [|exact (kz_half_passive eb _ N I E)].
  rewrite half_kz by exact N. rewrite <- RtoC_mult. f_equal. f_equal. unfold deg2rad.
  set (s := sin _). replace (x * (s * s))%R with (sqrt x * sqrt x * (s * s))%R by (rewrite sqrt_sqrt by lra; ring). ring.
Qed.
Print Assumptions C35_forward_partial.

(** Refuted: below the tolerance of 1e-10 the growing evanescent wave is chosen.  Glass of
    permittivity 4 at 30 degrees, in front of permittivity 1 - 1e-22. *)
Theorem C35_growing_refuted : exists theta_i lbda (x y : R) front layers back,
  (0 < x)%R /\ (0 < y)%R /\ (0 < lbda)%R /\
  solver2_media theta_i lbda (RtoC x) [] (RtoC y) = Some (front, layers, back) /\
  Re (fst back * Ccos (snd back))%C = 0%R /\ (Im (fst back * Ccos (snd back))%C < 0)%R.
Proof.
  set (e := (/ 10 ^ 11)%R). assert (e0 : (0 < e)%R) by (apply Rinv_0_lt_compat, pow_lt; lra).
  assert (e1 : (e < 1 / 10 ^ 10)%R).
  { unfold e, Rdiv. rewrite Rmult_1_l. apply Rinv_lt_contravar; [|simpl; lra]. apply Rmult_lt_0_compat; apply pow_lt; lra. }
  assert (e2 : (1 / 10 ^ 10 < 1)%R) by (simpl; lra).
  exists 30%R, 1%R, 4%R, (1 - e * e)%R.
  assert (y0 : (0 < 1 - e * e)%R) by nra.
  assert (N : RtoC (1 - e * e) <> 0) by (apply C_of_R_neq; lra).
  do 3 eexists. split; [lra|]. split; [exact y0|]. split; [lra|].
  split; [apply media_some; [lra|apply C_of_R_neq; lra|exact N|constructor]|].
  assert (K : kx_of 30 (RtoC 4) = RtoC 1).
  { rewrite kx_real by lra. f_equal. unfold deg2rad. replace (30 * PI / 180)%R with (PI / 6)%R by field.
    rewrite sin_PI6. replace 4%R with (2 * 2)%R by ring. rewrite sqrt_square by lra. lra. }
  rewrite K. change (fst (half_of (RtoC 1) (RtoC (1 - e * e))) * Ccos (snd (half_of (RtoC 1) (RtoC (1 - e * e)))))
    with (kz_half (RtoC 1) (RtoC (1 - e * e))).
  assert (Q := kz_layer_quad (RtoC (1 - e * e)) 1 N (Req_le 0 _ eq_refl)).
  assert (S := kz_layer_sqr (RtoC 1) (RtoC (1 - e * e)) N).
  assert (W : kz_layer (RtoC 1) (RtoC (1 - e * e)) = (0%R, e)).
  { destruct Q as [Q1 Q2]. destruct (kz_layer (RtoC 1) (RtoC (1 - e * e))) as [a b]. unfold Re, Im in *. cbn [fst snd] in *.
    assert (S1 := f_equal fst S). assert (S2 := f_equal snd S). simpl in S1, S2. ring_simplify in S2.
    assert (a0 : (a = 0)%R) by (destruct Q1 as [Q1|]; [|lra]; assert (b = 0)%R by nra; subst; nra).
    subst a. f_equal. nra. }
  assert (F : is_forward_angle (Csqrt (RtoC (1 - e * e))) (Casin (RtoC 1 / Csqrt (RtoC (1 - e * e)))) = false).
  { unfold is_forward_angle. fold (kz_layer (RtoC 1) (RtoC (1 - e * e))). rewrite W. unfold Re, Im. cbn [fst snd].
    rewrite Rabs_pos_eq by lra. destruct (Rlt_dec (1 / 10 ^ 10) e); [lra|]. destruct (Rlt_dec 0 0); [lra|reflexivity]. }
  assert (E : kz_half (RtoC 1) (RtoC (1 - e * e)) = - kz_layer (RtoC 1) (RtoC (1 - e * e))).
  { unfold kz_half, half_of, fix_angle. cbn [fst snd]. rewrite F, Ccos_PI_minus. unfold kz_layer. ring. }
  rewrite E, W. unfold Re, Im. simpl. split; [ring|lra].
Qed.
Print Assumptions C35_growing_refuted.

(** C36: the amplitudes are the solution, and the only one, of the wave equations of the stack
    with an incident wave of amplitude 1 and no wave incident from behind. *)
Theorem C36_boundary : forall theta_i lbda (eps_f eps_b : C) ls front layers back r t,
  solver2_media theta_i lbda eps_f ls eps_b = Some (front, layers, back) ->
  let cs (m : medium) := (RtoC 1, fst m * Ccos (snd m)) in
  let cp (m : medium) := (fst m, Ccos (snd m)) in
  let stack (c : medium -> C * C) := map (fun l : phase_layer => (c (fst l), snd l)) layers in
  (rt_s (solver2 theta_i lbda eps_f ls eps_b) = Some (r, t) ->
     scattering 1 (snd (cs front)) (stack cs) 1 (snd (cs back)) 1 r t /\
     forall r' t', scattering 1 (snd (cs front)) (stack cs) 1 (snd (cs back)) 1 r' t' -> r' = r /\ t' = t) /\
  (rt_p (solver2 theta_i lbda eps_f ls eps_b) = Some (r, t) ->
     scattering (fst (cp front)) (snd (cp front)) (stack cp) (fst (cp back)) (snd (cp back)) 1 r t /\
     forall r' t', scattering (fst (cp front)) (snd (cp front)) (stack cp) (fst (cp back)) (snd (cp back)) 1 r' t' -> r' = r /\ t' = t).
Proof.
  intros th lb ef eb ls f l b r t H. cbv zeta. unfold solver2. rewrite H. cbn [rt_s rt_p].
  split; intros A.
  - apply (amplitudes_scattering _ _ fresnel_s_g) in A. cbv zeta in A. destruct A as [A U]. split; [exact A|].
    intros r' t' S. destruct (U 1 r' t' S) as [-> ->]. split; ring.
  - apply (amplitudes_scattering _ _ fresnel_p_g) in A. cbv zeta in A. destruct A as [A U]. split; [exact A|].
    intros r' t' S. destruct (U 1 r' t' S) as [-> ->]. split; ring.
Qed.
Print Assumptions C36_boundary.

(** C36: without layers these are the Fresnel coefficients, in terms of the normal wave numbers
    q_f, q_b; nothing is returned exactly where the formulas have no value or nothing is
    transmitted. *)
Theorem C36_fresnel : forall theta_i lbda (eps_f eps_b : C) front layers back,
  solver2_media theta_i lbda eps_f [] eps_b = Some (front, layers, back) ->
  let q_f := fst front * Ccos (snd front) in
  let q_b := fst back * Ccos (snd back) in
  layers = [] /\ fst front * fst front = eps_f /\ fst back * fst back = eps_b /\
  rt_s (solver2 theta_i lbda eps_f [] eps_b) =
    (if Ceq_dec q_f 0 then None else if Ceq_dec (q_f + q_b) 0 then None
     else Some ((q_f - q_b) / (q_f + q_b), 2 * q_f / (q_f + q_b))) /\
  rt_p (solver2 theta_i lbda eps_f [] eps_b) =
    (if Ceq_dec q_f 0 then None else if Ceq_dec (eps_b * q_f + eps_f * q_b) 0 then None
     else Some ((eps_b * q_f - eps_f * q_b) / (eps_b * q_f + eps_f * q_b),
                2 * fst front * fst back * q_f / (eps_b * q_f + eps_f * q_b))).
Proof.
  intros th lb ef eb f l b H. cbv zeta. assert (H' := H). apply media_inv in H'. cbv zeta in H'.
  destruct H' as (L & N0 & N1 & _ & Ef & Eb & El). cbn [map] in El. subst l. unfold solver2. rewrite H. cbn [rt_s rt_p].
  assert (F2 : fst f * fst f = ef) by (subst f; apply Csqrt_sqr). assert (B2 : fst b * fst b = eb) by (subst b; apply Csqrt_sqr).
  destruct f as [n a], b as [n' a']. cbn [fst snd] in *.
  assert (Nn : n <> 0) by (intros E; apply N0; rewrite <- F2, E; ring).
  assert (Nn' : n' <> 0) by (intros E; apply N1; rewrite <- B2, E; ring). clear Ef Eb H.
  split; [reflexivity|]. split; [exact F2|]. split; [exact B2|]. split.
  - unfold amplitudes. cbn [next_medium loop]. unfold fresnel_s, cdiv.
    set (q := n * Ccos a). set (q' := n' * Ccos a'). replace (2 * n * Ccos a) with (2 * q) by (unfold q; ring).
    destruct (Ceq_dec (q + q') 0) as [E|E]; [cbn [obind]; destruct (Ceq_dec q 0); reflexivity|]. cbn [obind interface_matrix]. unfold mdivc.
    destruct (Ceq_dec q 0) as [Z|Z].
    + destruct (Ceq_dec (2 * q / (q + q')) 0) as [|K]; [reflexivity|]. exfalso. apply K. rewrite Z. unfold Cdiv. ring.
    + destruct (Ceq_dec (2 * q / (q + q')) 0) as [K|K].
      { exfalso. revert K. apply Cdiv_neq0; [|exact E]. intros K. apply C_integral in K. destruct K as [K|K]; [apply RtoC_inj in K; lra|contradiction]. }
      cbn [obind mat_of nth]. simpl.
      assert (Z2 : 1 / (2 * q / (q + q')) <> 0).
      { intros K'. apply (Cdiv_neq0 1 (2 * q / (q + q'))); [intros O; apply RtoC_inj in O; lra|exact K|exact K']. }
      destruct (Ceq_dec (1 / (2 * q / (q + q'))) 0) as [K'|_]; [contradiction|]. cbn [obind]. f_equal. f_equal; Cfield.
  - unfold amplitudes. cbn [next_medium loop]. unfold fresnel_p, cdiv.
    set (c := Ccos a). set (c' := Ccos a'). set (D := n' * c + n * c').
    assert (ED : eb * (n * c) + ef * (n' * c') = n * n' * D) by (rewrite <- F2, <- B2; unfold D; ring).
    assert (ER : eb * (n * c) - ef * (n' * c') = n * n' * (n' * c - n * c')) by (rewrite <- F2, <- B2; ring).
    rewrite ED, ER.
    assert (NN : n * n' <> 0) by (intros K; apply C_integral in K; tauto).
    destruct (Ceq_dec D 0) as [E|E].
    { cbn [obind]. destruct (Ceq_dec (n * c) 0); [reflexivity|]. destruct (Ceq_dec (n * n' * D) 0) as [|K]; [reflexivity|].
      exfalso. apply K. rewrite E. ring. }
    cbn [obind interface_matrix]. unfold mdivc. destruct (Ceq_dec (n * c) 0) as [Z|Z].
    + destruct (Ceq_dec (2 * n * c / D) 0) as [|K]; [reflexivity|]. exfalso. apply K.
      replace (2 * n * c / D) with (2 * (n * c) / D) by (unfold Cdiv; ring). rewrite Z. unfold Cdiv. ring.
    + assert (T0 : 2 * n * c <> 0).
      { intros K. replace (2 * n * c) with (2 * (n * c)) in K by ring. apply C_integral in K.
        destruct K as [K|K]; [apply RtoC_inj in K; lra|contradiction]. }
      destruct (Ceq_dec (2 * n * c / D) 0) as [K|K]; [exfalso; revert K; now apply Cdiv_neq0|].
      destruct (Ceq_dec (n * n' * D) 0) as [K'|_]; [exfalso; apply C_integral in K'; tauto|].
      cbn [obind mat_of nth]. simpl.
      destruct (Ceq_dec (1 / (2 * n * c / D)) 0) as [K'|_].
      { exfalso. revert K'. apply Cdiv_neq0; [intros O; apply RtoC_inj in O; lra|exact K]. }
      cbn [obind]. assert (c <> 0) by (intros O; apply Z; rewrite O; ring). f_equal. f_equal; Cfield.
Qed.
Print Assumptions C36_fresnel.

(** C36: the same in the two Jones matrices, p first and s second, without mixing. *)
Theorem C36_jones : forall theta_i lbda (eps_f eps_b : C) front layers back J_r J_t,
  solver2_media theta_i lbda eps_f [] eps_b = Some (front, layers, back) ->
  jones2_r (solver2 theta_i lbda eps_f [] eps_b) = Some J_r ->
  jones2_t (solver2 theta_i lbda eps_f [] eps_b) = Some J_t ->
  let q_f := fst front * Ccos (snd front) in
  let q_b := fst back * Ccos (snd back) in
  J_r 0%nat 0%nat = (eps_b * q_f - eps_f * q_b) / (eps_b * q_f + eps_f * q_b) /\
  J_r 1%nat 1%nat = (q_f - q_b) / (q_f + q_b) /\
  J_r 0%nat 1%nat = 0 /\ J_r 1%nat 0%nat = 0 /\
  J_t 0%nat 0%nat = 2 * fst front * fst back * q_f / (eps_b * q_f + eps_f * q_b) /\
  J_t 1%nat 1%nat = 2 * q_f / (q_f + q_b) /\
  J_t 0%nat 1%nat = 0 /\ J_t 1%nat 0%nat = 0.
Proof.
  intros th lb ef eb f l b Jr Jt M Hr Ht. destruct (C36_fresnel th lb ef eb f l b M) as (_ & _ & _ & S & P). cbv zeta in *.
  unfold jones2_r, jones2_t, jones2 in *. rewrite S, P in Hr, Ht.
  destruct (Ceq_dec (fst f * Ccos (snd f)) 0); [discriminate|].
  destruct (Ceq_dec (eb * (fst f * Ccos (snd f)) + ef * (fst b * Ccos (snd b))) 0); [discriminate|].
  destruct (Ceq_dec (fst f * Ccos (snd f) + fst b * Ccos (snd b)) 0); [discriminate|].
  cbn [obind fst snd] in Hr, Ht. apply Some_eq in Hr, Ht. subst Jr Jt. unfold mat_of. cbn [nth].
  repeat split; reflexivity.
Qed.
Print Assumptions C36_jones.

(** C36: between identical media nothing is reflected. *)
Theorem C36_same_media : forall theta_i lbda (eps : C) r t,
  (rt_s (solver2 theta_i lbda eps [] eps) = Some (r, t) \/ rt_p (solver2 theta_i lbda eps [] eps) = Some (r, t)) ->
  r = 0 /\ t = 1.
Proof.
  intros th lb e r t H. destruct (input_dec lb e [] e) as [I|I].
  2:{ rewrite solver2_inv in H by exact I. destruct H; discriminate. }
  destruct I as (L & N & _ & _).
  destruct (C36_fresnel th lb e e _ _ _ (media_some th lb e [] e L N N (Forall_nil _))) as (_ & F & _ & S & P).
  set (h := half_of (kx_of th e) e) in *. set (q := fst h * Ccos (snd h)) in *.
  rewrite S, P in H. destruct (Ceq_dec q 0) as [|Q]; [destruct H; discriminate|].
  assert (NN : fst h <> 0) by (intros K; apply N; rewrite <- F, K; ring).
  destruct H as [H|H].
  - destruct (Ceq_dec (q + q) 0) as [|D]; [discriminate|]. apply Some_eq in H. injection H as <- <-.
    split; [unfold Cdiv; ring|]. replace (2 * q) with (q + q) by ring. field. exact D.
  - destruct (Ceq_dec (e * q + e * q) 0) as [|D]; [discriminate|]. apply Some_eq in H. injection H as <- <-.
    split; [unfold Cdiv; ring|]. replace (2 * Csqrt e * Csqrt e * q) with (Csqrt e * Csqrt e * q + Csqrt e * Csqrt e * q) by ring.
    rewrite !Csqrt_sqr. field. exact D.
Qed.
Print Assumptions C36_same_media.

(** C36: a layer of thickness zero changes nothing, wherever both structures have a result. *)
Theorem C36_zero_thickness : forall theta_i lbda (eps_f eps eps_b : C) pre post x y,
  let with_layer := solver2 theta_i lbda eps_f (pre ++ (0%R, eps) :: post) eps_b in
  let without := solver2 theta_i lbda eps_f (pre ++ post) eps_b in
  (rt_s with_layer = Some x -> rt_s without = Some y -> x = y) /\
  (rt_p with_layer = Some x -> rt_p without = Some y -> x = y) /\
  (eps <> 0 -> power_correction with_layer = power_correction without).
Proof.
  intros th lb ef e eb pre post x y. cbv zeta. split; [apply (rt_zero true)|]. split; [apply (rt_zero false)|].
  intros N. apply pc_eq. split; intros I.
  - apply (ok_replace lb ef eb pre [(0%R, e)] [] post I). constructor.
  - apply (ok_replace lb ef eb pre [] [(0%R, e)] post I). intros _. constructor; [exact N|constructor].
Qed.
Print Assumptions C36_zero_thickness.

(** C36: an interface inside a layer changes nothing, including whether there is a result. *)
Theorem C36_split : forall theta_i lbda (eps_f eps eps_b : C) pre d1 d2 post,
  solver2 theta_i lbda eps_f (pre ++ (d1, eps) :: (d2, eps) :: post) eps_b =
  solver2 theta_i lbda eps_f (pre ++ ((d1 + d2)%R, eps) :: post) eps_b.
Proof. intros. apply solver2_split. Qed.
Print Assumptions C36_split.

(** C36: the other solution of n sin(angle) = K in one layer, with the phase that belongs to it,
    gives the same amplitudes. *)
Theorem C36_branch : forall front back pre (k n th : C) (d : R) post x y,
  let other := RtoC PI - th in
  let stack th := pre ++ (n, th, k * n * Ccos th * RtoC d) :: post in
  n * Csin other = n * Csin th /\
  (amplitudes fresnel_s front (stack th) back = Some x -> amplitudes fresnel_s front (stack other) back = Some y -> x = y) /\
  (amplitudes fresnel_p front (stack th) back = Some x -> amplitudes fresnel_p front (stack other) back = Some y -> x = y).
Proof.
  intros f b pre k n th d post x y. cbv zeta. split; [now rewrite Csin_PI_minus|].
  replace (k * n * Ccos (RtoC PI - th) * RtoC d) with (- (k * n * Ccos th * RtoC d)) by (rewrite Ccos_PI_minus; ring).
  split; [apply (amplitudes_flip true)|apply (amplitudes_flip false)].
Qed.
Print Assumptions C36_branch.

(** C31: an inhomogeneous layer of constant composition gives the same result as a homogeneous
    layer, for every number of divisions and anywhere in a structure. *)
Lemma inner_some (p : list (R * mat)) :
  inner_layers (map (fun p => (Some (fst p), snd p)) p) = Some (map (fun l => (fst l, snd l 0%nat 0%nat)) p).
Proof. induction p as [|[d e] p IH]; [reflexivity|]. cbn [map]. unfold inner_layers in *. cbn [fold_right fst snd]. now rewrite IH. Qed.
Lemma solver2_structure_eq th lb f ls b : solver2_structure th lb (Structure f ls b) =
  Some (solver2 th lb (f 0%nat 0%nat) (map (fun l => (fst l, snd l 0%nat 0%nat)) (profiles ls)) (b 0%nat 0%nat)).
Proof.
  unfold solver2_structure. rewrite structure_profile_eq. rewrite removelast_last, inner_some. cbn [obind]. now rewrite last_last.
Qed.
Theorem C31_response : forall theta_i lbda f pre (eps : mat) d div post b l,
  make_inhomogeneous (fun _ => eps) d div = Ok l ->
  make_layer eps d = Ok (Homogeneous d eps) /\
  solver2_structure theta_i lbda (Structure f (pre ++ l :: post) b) =
  solver2_structure theta_i lbda (Structure f (pre ++ Homogeneous d eps :: post) b).
Proof.
  intros th lb f pre eps d div post b l H. unfold make_inhomogeneous in H. unfold make_layer.
  destruct (Rlt_dec d 0) as [|D]; [discriminate|]. destruct (div <? 1)%Z eqn:E; [discriminate|]. apply Z.ltb_ge in E.
  injection H as <-. split; [reflexivity|].
  rewrite !solver2_structure_eq, !profiles_app. cbn [profiles]. f_equal.
  set (n := Z.to_nat div). assert (Hn : (0 < n)%nat) by lia.
  rewrite inhom_profile by exact Hn. cbn [profile]. rewrite !map_app. cbn [map fst snd app].
  rewrite map_map. cbn [fst snd].
  replace (map (fun _ : nat => ((d / INR n)%R, eps 0%nat 0%nat)) (seq 0 n))
    with (map (fun x => (x, eps 0%nat 0%nat)) (map (fun _ : nat => (d / INR n)%R) (seq 0 n))) by (rewrite map_map; reflexivity).
  rewrite solver2_slices.
  - rewrite Rsum_const, seq_length. replace (INR n * (d / INR n))%R with d by (field; apply not_0_INR; lia). reflexivity.
  - destruct n; [lia|discriminate].
Qed.
Print Assumptions C31_response.

(** Normal incidence from permittivity a^2 to b^2 *)
Lemma normal_half (a : R) : (0 < a)%R -> fst (half_of 0 (RtoC (a * a))) = RtoC a /\ Ccos (snd (half_of 0 (RtoC (a * a)))) = RtoC 1.
Proof.
  intros P. unfold half_of. cbn [fst snd].
  assert (E : Csqrt (RtoC (a * a)) = RtoC a) by (rewrite Csqrt_pos by nra; now rewrite sqrt_square by lra).
  rewrite E. split; [reflexivity|].
  assert (C1 : Ccos (Casin (0 / RtoC a)) = RtoC 1).
  { rewrite Ccos_Casin. replace (1 - 0 / RtoC a * (0 / RtoC a)) with (RtoC 1) by (unfold Cdiv; ring).
    rewrite Csqrt_pos by lra. now rewrite sqrt_1. }
  unfold fix_angle, is_forward_angle. rewrite C1. replace (RtoC a * RtoC 1) with (RtoC a) by ring.
  unfold Re, Im. cbn [fst snd RtoC]. rewrite Rabs_R0.
  destruct (Rlt_dec (1 / 10 ^ 10) 0) as [K|_].
  - exfalso. assert (0 < 1 / 10 ^ 10)%R by (apply Rdiv_lt_0_compat; [lra|apply pow_lt; lra]). lra.
  - destruct (Rlt_dec 0 a); [exact C1|lra].
Qed.
Example C36_example : exists front back,
  solver2_media 0 1 (RtoC 1) [] (RtoC 4) = Some (front, [], back) /\
  rt_s (solver2 0 1 (RtoC 1) [] (RtoC 4)) = Some (RtoC (- 1 / 3), RtoC (2 / 3)) /\
  rt_p (solver2 0 1 (RtoC 1) [] (RtoC 4)) = Some (RtoC (1 / 3), RtoC (2 / 3)).
Proof.
  assert (N1 : RtoC 1 <> 0) by (apply C_of_R_neq; lra). assert (N4 : RtoC 4 <> 0) by (apply C_of_R_neq; lra).
  assert (L : (1 <> 0)%R) by lra.
  assert (M := media_some 0 1 (RtoC 1) [] (RtoC 4) L N1 N4 (Forall_nil _)). cbv zeta in M. cbn [map] in M.
  do 2 eexists. split; [exact M|]. apply C36_fresnel in M. cbv zeta in M. destruct M as (_ & _ & _ & S & P).
  assert (K : kx_of 0 (RtoC 1) = 0).
  { unfold kx_of, deg2rad. replace (0 * PI / 180)%R with 0%R by field. rewrite sin_0. ring. }
  rewrite K in S, P. assert (Q1 : (0 < 1)%R) by lra. assert (Q2 : (0 < 2)%R) by lra.
  destruct (normal_half 1 Q1) as [A1 A2]. destruct (normal_half 2 Q2) as [B1 B2].
  replace (1 * 1)%R with 1%R in A1, A2 by ring. replace (2 * 2)%R with 4%R in B1, B2 by ring.
  rewrite A1, A2, B1, B2 in S, P. rewrite S, P. clear.
  split; (destruct (Ceq_dec (RtoC 1 * RtoC 1) 0) as [E|_]; [exfalso; apply (f_equal fst) in E; simpl in E; lra|]).
  - destruct (Ceq_dec (RtoC 1 * RtoC 1 + RtoC 2 * RtoC 1) 0) as [E|_]; [exfalso; apply (f_equal fst) in E; simpl in E; lra|].
    f_equal. f_equal; apply C_ext; simpl; field.
  - destruct (Ceq_dec (RtoC 4 * (RtoC 1 * RtoC 1) + RtoC 1 * (RtoC 2 * RtoC 1)) 0) as [E|_]; [exfalso; apply (f_equal fst) in E; simpl in E; lra|].
    f_equal. f_equal; apply C_ext; simpl; field.
Qed.

(** Light falling from glass under 60 degrees, a film, and an absorbing substrate. *)
Example C35_example : exists front layers back,
  solver2_media 60 500 (RtoC (9 / 4)) [(100%R, RtoC 4)] (2, 1)%R = Some (front, layers, back) /\
  (let w := fst back * Ccos (snd back) in
   w * w = (2, 1)%R - RtoC (9 / 4 * (sin (60 * PI / 180) * sin (60 * PI / 180))) /\ (0 <= Re w)%R /\ (0 < Im w)%R).
Proof.
  assert (N1 : RtoC (9 / 4) <> 0) by (apply C_of_R_neq; lra).
  assert (N2 : ((2, 1)%R : C) <> 0) by (intros K; apply (f_equal fst) in K; simpl in K; lra).
  assert (M : exists front layers back, solver2_media 60 500 (RtoC (9 / 4)) [(100%R, RtoC 4)] (2, 1)%R = Some (front, layers, back)).
  { rewrite media_some; [eauto|lra|exact N1|exact N2|]. constructor; [|constructor]. cbn [snd]. apply C_of_R_neq. lra. }
  destruct M as (f & l & b & M). exists f, l, b. split; [exact M|]. cbv zeta.
  set (w := fst b * Ccos (snd b)).
  assert (W : w * w = (2, 1)%R - RtoC (9 / 4 * (sin (60 * PI / 180) * sin (60 * PI / 180)))).
  { assert (M' := M). apply media_inv in M'. cbv zeta in M'. destruct M' as (_ & _ & _ & _ & _ & Hb & _).
    unfold w. rewrite Hb. rewrite half_kz by exact N2. rewrite kx_real by lra. rewrite <- RtoC_mult. f_equal. f_equal. unfold deg2rad.
    set (s := sin _). replace (9 / 4 * (s * s))%R with (sqrt (9 / 4) * sqrt (9 / 4) * (s * s))%R by (rewrite sqrt_sqrt by lra; ring). ring. }
  assert (I : (2 * (Re w * Im w) = 1)%R).
  { apply (f_equal snd) in W. clear -W. unfold Re, Im. destruct w as [a b']. simpl in W |- *. ring_simplify in W. lra. }
  destruct (C35_forward_partial 60 500 (9 / 4) [(100%R, RtoC 4)] (2, 1)%R f l b) as (_ & P & Q); [lra|unfold Im; simpl; lra|exact M| |].
  { intros [Z _]. fold w in Z. rewrite Z in I. lra. }
  fold w in P, Q. split; [exact W|]. split; [exact P|]. destruct Q as [Q|Q]; [exact Q|]. rewrite <- Q in I. lra.
Qed.
