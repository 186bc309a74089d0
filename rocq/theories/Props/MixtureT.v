(** C25 - C30, C61, C62, C64: materials, their rotation and mixtures of them. *)
From Coq Require Import Reals Lra Lia List Psatz.
From Coquelicot Require Import Complex.
From Verif.Base Require Import Py Cx Mat.
From Verif.Model Require Import Units Rotation Materials Mixture.
From Verif.Spec Require Import Rot Effective.
From Verif.Proof Require Import RotationP DispersionsP MixtureP MixtureP2 MixtureP3.
Import ListNotations.
Open Scope R_scope.
Open Scope C_scope.
Open Scope py_scope.

(** A material made by one of the three constructors. *)
Definition made (m : material) : Prop :=
  (exists d, isotropic d = Ok m) \/ (exists o e, uniaxial o e = Ok m) \/
  (exists x y z, biaxial x y z = Ok m).

Lemma made_fresh m : made m -> exists x y z, m = fresh x y z.
Proof.
  intros [[d H]|[(o & e & H)|(x & y & z & H)]].
  - destruct d; inversion H. eauto.
  - destruct o, e; inversion H. eauto.
  - destruct x, y, z; inversion H. eauto.
Qed.

Lemma mrefl A : meq 3 A A.
Proof. intros i j _ _. reflexivity. Qed.

(** C25: the tensor has the permittivities of the axes on its diagonal. *)
Theorem C25_axes : forall x y z : C,
  (exists m, isotropic (Disp x) = Ok m /\ meq 3 (get_tensor m) (iso x)) /\
  (exists m, uniaxial (Disp x) (Disp z) = Ok m /\
     meq 3 (get_tensor m) (mat_of [[x; RtoC 0; RtoC 0]; [RtoC 0; x; RtoC 0]; [RtoC 0; RtoC 0; z]])) /\
  (exists m, biaxial (Disp x) (Disp y) (Disp z) = Ok m /\
     meq 3 (get_tensor m) (mat_of [[x; RtoC 0; RtoC 0]; [RtoC 0; y; RtoC 0]; [RtoC 0; RtoC 0; z]])).
Proof.
  intros x y z. split; [|split]; eexists; (split; [reflexivity|]); mexpl; reflexivity.
Qed.
Print Assumptions C25_axes.

Theorem C25_rejects : forall d, (isotropic NoDisp = Err TypeError /\
  uniaxial NoDisp d = Err TypeError /\ uniaxial d NoDisp = Err TypeError)%type.
Proof. intros [e|]; repeat split; reflexivity. Qed.
Print Assumptions C25_rejects.

Theorem C25_symmetric : forall m r, made m ->
  symmetric3 (get_tensor m) /\ symmetric3 (get_tensor (set_rotation m r)).
Proof.
  intros m r H. apply made_fresh in H. destruct H as (x & y & z & ->). split.
  - apply diag_sym.
  - rewrite get_tensor_rotated. apply seen_sym, diag_sym.
Qed.
Print Assumptions C25_symmetric.

Theorem C25_invariants : forall m r, made m -> proper_rotation r ->
  trace3 (get_tensor (set_rotation m r)) = trace3 (get_tensor m) /\
  det3 (get_tensor (set_rotation m r)) = det3 (get_tensor m).
Proof.
  intros m r H (_ & I & _). apply made_fresh in H. destruct H as (x & y & z & ->).
  rewrite get_tensor_rotated. split; [now apply seen_trace|now apply seen_det].
Qed.
Print Assumptions C25_invariants.

(** A material rotated by the product shows the tensor of the material rotated by A, rotated
    once more by B. *)
Theorem C25_product : forall m A B, made m ->
  meq 3 (get_tensor (set_rotation m (mmul 3 B A)))
        (mmul 3 (mmul 3 B (get_tensor (set_rotation m A))) (mtr B)).
Proof.
  intros m A B H. apply made_fresh in H. destruct H as (x & y & z & ->). apply seen_seen.
Qed.
Print Assumptions C25_product.

Theorem C25_isotropic : forall d m r, isotropic d = Ok m -> proper_rotation r ->
  meq 3 (get_tensor (set_rotation m r)) (get_tensor m).
Proof.
  intros d m r H (_ & I & _). destruct d; inversion H.
  change (meq 3 (seen r (mdiag (fun i => nth i [eps; eps; eps] (RtoC 0)))) (mdiag (fun i => nth i [eps; eps; eps] (RtoC 0)))).
  rewrite (seen_meq r r _ _ (mrefl r) (diag_iso eps)), diag_iso. now apply seen_iso.
Qed.
Print Assumptions C25_isotropic.

(** A second call of set_rotation does not add to the first one but replaces it ... *)
Theorem C25_last_rotation_wins : forall m A B,
  get_tensor (set_rotation (set_rotation m A) B) = get_tensor (set_rotation m B).
Proof. reflexivity. Qed.
Print Assumptions C25_last_rotation_wins.

(** A rotation about z with cosine 3/5. *)
Definition r345 : mat :=
  mat_of [[RtoC (3 / 5); RtoC (- (4 / 5)); RtoC 0]; [RtoC (4 / 5); RtoC (3 / 5); RtoC 0]; [RtoC 0; RtoC 0; RtoC 1]].

Lemma r345_proper : proper_rotation r345.
Proof.
  split; [|split].
  - intros i j Hi Hj. idx i; idx j; reflexivity.
  - split; mexpl; unfold mmul, mtr, mid; cbn [csum Nat.eqb]; unfold r345, mat_of; cbn [nth]; Ccomp; lra.
  - unfold det3, r345, mat_of; cbn [nth]. Ccomp; lra.
Qed.

(** ... so that two calls do not rotate by the product. *)
Theorem C25_two_calls_refuted : exists m A B, made m /\ proper_rotation A /\ proper_rotation B /\
  ~ meq 3 (get_tensor (set_rotation (set_rotation m A) B)) (get_tensor (set_rotation m (mmul 3 B A))).
Proof.
  exists (fresh 1 2 3), r345, r345.
  split; [right; right; exists (Disp 1), (Disp 2), (Disp 3); reflexivity|].
  split; [apply r345_proper|]. split; [apply r345_proper|].
  intros H. specialize (H 0%nat 0%nat ltac:(lia) ltac:(lia)).
  unfold get_tensor, set_rotation, fresh, mmul, mtr, mdiag in H; cbn [csum Nat.eqb rotated rotation_matrix
    dispersion_x dispersion_y dispersion_z nth] in H.
  unfold r345, mat_of in H; cbn [nth] in H. apply (f_equal fst) in H. simpl in H. lra.
Qed.
Print Assumptions C25_two_calls_refuted.

Example C25_example : exists m, uniaxial (Disp 2) (Disp (RtoC 3 + Ci)) = Ok m /\
  trace3 (get_tensor (set_rotation m (rotation_euler 10 20 30))) = RtoC 7 + Ci.
Proof.
  eexists. split; [reflexivity|].
  rewrite get_tensor_rotated, seen_trace by apply euler_inv_tr.
  unfold trace3, mdiag; cbn. Ccomp; lra.
Qed.

(** C26: VCAMaterial. *)
Theorem C26_host_guest : forall h g, (forall i j, mix vca 0 h g i j = h i j) /\ (forall i j, mix vca 1 h g i j = g i j).
Proof. intros. split; intros; rewrite mix_vca; unfold madd, mscal; ring. Qed.
Print Assumptions C26_host_guest.

(** Linear: the mixture at a weighted mean of two fractions is that mean of the mixtures. *)
Theorem C26_linear : forall (f1 f2 t : R) h g i j,
  mix vca ((1 - t) * f1 + t * f2) h g i j = RtoC (1 - t) * mix vca f1 h g i j + RtoC t * mix vca f2 h g i j.
Proof. intros. unfold mix, vca. rewrite !RtoC_plus, !RtoC_mult, RtoC_minus. ring. Qed.
Print Assumptions C26_linear.

Theorem C26_exchange : forall f h g i j, mix vca f h g i j = mix vca (1 - f) g h i j.
Proof. intros. unfold mix, vca. rewrite RtoC_minus. ring. Qed.
Print Assumptions C26_exchange.

Theorem C26_rotation : forall f r m1 m2, made m1 -> made m2 ->
  meq 3 (mix vca f (get_tensor (set_rotation m1 r)) (get_tensor (set_rotation m2 r)))
        (mmul 3 (mmul 3 r (mix vca f (get_tensor m1) (get_tensor m2))) (mtr r)).
Proof.
  intros f r m1 m2 H1 H2. apply made_fresh in H1, H2.
  destruct H1 as (x1 & y1 & z1 & ->), H2 as (x2 & y2 & z2 & ->).
  rewrite !get_tensor_rotated, !get_tensor_plain.
  set (A := mdiag _). set (B := mdiag _).
  transitivity (seen r (madd (mscal (1 - RtoC f) A) (mscal (RtoC f) B))).
  - rewrite seen_linear. intros i j _ _. apply mix_vca.
  - apply seen_meq; [reflexivity|]. intros i j _ _. now rewrite mix_vca.
Qed.
Print Assumptions C26_rotation.

Example C26_example : mix vca (1 / 4) (iso 1) (iso 5) 1%nat 1%nat = 2.
Proof. unfold mix, vca, iso; cbn. Ccomp; lra. Qed.

(** C27: MaxwellGarnettEMA, element by element. *)
Theorem C27_equation : forall f h g e, maxwell_garnett f h g = Some e ->
  (e - h) * (g + 2 * h) = RtoC f * (g - h) * (e + 2 * h).
Proof. exact mg_equation_holds. Qed.
Print Assumptions C27_equation.

(** The same with quotients. *)
Theorem C27_quotients : forall f (h g e : C), maxwell_garnett f h g = Some e ->
  g + 2 * h <> 0 -> e + 2 * h <> 0 ->
  (e - h) / (e + 2 * h) = RtoC f * ((g - h) / (g + 2 * h)).
Proof.
  intros f h g e H N1 N2. apply mg_equation_holds in H. unfold mg_equation in H.
  transitivity ((e - h) * (g + 2 * h) / ((e + 2 * h) * (g + 2 * h))); [field; auto|].
  rewrite H. field. auto.
Qed.
Print Assumptions C27_quotients.

Theorem C27_defined : forall f (h g : C), (0 <= f <= 1)%R -> passive h -> passive g -> h <> 0 ->
  ~ lossless_opposite h g -> exists e, maxwell_garnett f h g = Some e.
Proof.
  intros f h g Hf Ph Pg h0 N. pose proof (mg_defined f h g Hf Ph Pg h0 N).
  destruct (maxwell_garnett f h g); [eauto|contradiction].
Qed.
Print Assumptions C27_defined.

Theorem C27_limits_partial : forall h g : C,
  (2 * h + g <> 0 -> maxwell_garnett 0 h g = Some h) /\ (h <> 0 -> maxwell_garnett 1 h g = Some g).
Proof. intros. split; [apply mg_host|apply mg_guest]. Qed.
Print Assumptions C27_limits_partial.

(** A guest element that is not zero where the host element is (an off-diagonal element of an
    anisotropic guest): no guest at fraction one. *)
Theorem C27_guest_refuted : exists h g : C, g <> 0 /\ maxwell_garnett 1 h g = None.
Proof.
  exists 0, 1. split; [apply C_of_R_neq; lra|]. apply mg_none. split; [ring|].
  intros [_ K]. apply (f_equal fst) in K. simpl in K. lra.
Qed.
Print Assumptions C27_guest_refuted.

Theorem C27_host_refuted : exists h g : C, h <> 0 /\ maxwell_garnett 0 h g = None.
Proof.
  exists 1, (- (2)). split; [apply C_of_R_neq; lra|]. apply mg_none. split; [ring|].
  intros [K _]. apply (f_equal fst) in K. simpl in K. lra.
Qed.
Print Assumptions C27_host_refuted.

Lemma iso_mix_some (fm : R -> C -> C -> option C) f h g e : fm f 0 0 = Some (0 : C) -> fm f h g = Some e ->
  forall i j, mix fm f (iso h) (iso g) i j = Some (iso e i j).
Proof. intros H0 H i j. unfold mix, iso. destruct (Nat.eqb i j); assumption. Qed.

(** Isotropic constituents give an isotropic mixture. *)
Theorem C27_isotropic : forall f h g e, maxwell_garnett f h g = Some e ->
  forall i j, mix maxwell_garnett f (iso h) (iso g) i j = Some (iso e i j).
Proof.
  intros f h g e H. apply iso_mix_some; [|exact H]. unfold maxwell_garnett.
  destruct (Ceq_dec 0 0); [reflexivity|contradiction].
Qed.
Print Assumptions C27_isotropic.

Example C27_example : maxwell_garnett (1 / 2) 1 4 = Some (2 : C).
Proof.
  unfold maxwell_garnett. destruct (Ceq_dec 1 0) as [K|_]; [apply (f_equal fst) in K; simpl in K; lra|].
  rewrite cdiv_nz.
  - f_equal. transitivity (RtoC 9 / RtoC (9 / 2)).
    + f_equal; Ccomp; lra.
    + rewrite <- RtoC_div by lra. f_equal. field.
  - intros K. apply (f_equal fst) in K. simpl in K. lra.
Qed.

(** C28: BruggemanEMA, element by element; f is the fraction of the guest. *)
Theorem C28_equation : forall f h g e, bruggeman f h g = Some e ->
  RtoC (1 - f) * ((h - e) * (g + 2 * e)) + RtoC f * ((g - e) * (h + 2 * e)) = 0.
Proof. exact brugg_equation_holds. Qed.
Print Assumptions C28_equation.

Theorem C28_quotients : forall f (h g e : C), bruggeman f h g = Some e -> h + 2 * e <> 0 -> g + 2 * e <> 0 ->
  RtoC (1 - f) * ((h - e) / (h + 2 * e)) + RtoC f * ((g - e) / (g + 2 * e)) = 0.
Proof.
  intros f h g e H N1 N2. apply brugg_equation_holds in H. unfold bruggeman_equation in H.
  transitivity ((RtoC (1 - f) * ((h - e) * (g + 2 * e)) + RtoC f * ((g - e) * (h + 2 * e))) / ((h + 2 * e) * (g + 2 * e))).
  - field. auto.
  - rewrite H. field. auto.
Qed.
Print Assumptions C28_quotients.

Theorem C28_exchange : forall f h g, bruggeman f h g = bruggeman (1 - f) g h.
Proof. exact brugg_swap. Qed.
Print Assumptions C28_exchange.

Theorem C28_limits_partial : forall h g : C, passive h -> passive g -> h <> 0 -> g <> 0 ->
  ~ lossless_opposite h g -> bruggeman 0 h g = Some h /\ bruggeman 1 h g = Some g.
Proof. intros. split; [apply brugg_host|apply brugg_guest]; assumption. Qed.
Print Assumptions C28_limits_partial.

(** The formula fails exactly where one of two different elements is zero. *)
Theorem C28_undefined : forall f (h g : C), bruggeman f h g = None <-> h <> g /\ (h = 0 \/ g = 0).
Proof. exact brugg_none. Qed.
Print Assumptions C28_undefined.

(** Glass with no silver in it: a lossless metal (-1) as guest of fraction 0 in a host with
    permittivity 1 makes a permittivity of 1/2. *)
Theorem C28_host_refuted : exists h g : C, passive h /\ passive g /\ h <> 0 /\ g <> 0 /\
  exists e, bruggeman 0 h g = Some e /\ e <> h.
Proof.
  exists 1, (- (1)).
  assert (D : (1 : C) <> - (1)) by (intros K; apply (f_equal fst) in K; simpl in K; lra).
  assert (D1 : (1 : C) <> 0) by (apply C_of_R_neq; lra).
  assert (D2 : - (1) <> (0 : C)) by (intros K; apply (f_equal fst) in K; simpl in K; lra).
  split; [unfold passive; simpl; lra|]. split; [unfold passive; simpl; lra|].
  split; [exact D1|split; [exact D2|]].
  exists (RtoC (1 / 2)). split; [|intros K; apply (f_equal fst) in K; simpl in K; lra].
  rewrite (brugg_some 0 1 (- (1)) D D1 D2).
  assert (S1 : Csqrt 1 = 1).
  { change (1 : C) with (RtoC 1). rewrite Csqrt_pos by lra. now rewrite sqrt_1. }
  assert (S2 : Csqrt (- (1)) = Ci).
  { replace (- (1) : C) with (RtoC (- (1))) by (Ccomp; lra). rewrite Csqrt_neg by lra. rewrite sqrt_1. reflexivity. }
  rewrite S1, S2.
  assert (P : 1 / Ci = - Ci) by (Ccomp; field).
  rewrite P.
  assert (IP : / - Ci = Ci) by (Ccomp; field).
  rewrite IP.
  set (b := RtoC (1 / 4) * _).
  assert (Eb : b = (0%R, (- (3 / 4))%R)) by (unfold b; Ccomp; field).
  rewrite Eb.
  replace ((0%R, (- (3 / 4))%R) * (0%R, (- (3 / 4))%R) + RtoC (1 / 2)) with (RtoC (- (1 / 16))) by (Ccomp; field).
  rewrite Csqrt_neg by lra.
  replace (sqrt (1 / 16)) with (1 / 4)%R.
  - f_equal. Ccomp; field.
  - symmetry. apply sqrt_lem_1; lra.
Qed.
Print Assumptions C28_host_refuted.

Theorem C28_isotropic : forall f h g e, bruggeman f h g = Some e ->
  forall i j, mix bruggeman f (iso h) (iso g) i j = Some (iso e i j).
Proof.
  intros f h g e H. apply iso_mix_some; [|exact H]. unfold bruggeman.
  destruct (Ceq_dec 0 0); [reflexivity|contradiction].
Qed.
Print Assumptions C28_isotropic.

Example C28_example : bruggeman 0 (RtoC 2 + Ci) (RtoC 4) = Some (RtoC 2 + Ci).
Proof.
  apply C28_limits_partial; unfold passive, lossless_opposite; simpl; try lra;
    intros K; first [destruct K as (K & _); lra | apply (f_equal fst) in K; simpl in K; lra].
Qed.

(** C29: LooyengaEMA, element by element.  cube_root w z : w is the cube root of z with
    argument in (-60, 60] degrees, which exists and is unique. *)
Theorem C29_cube_root : forall z, exists w, cube_root w z /\ forall w', cube_root w' z -> w' = w.
Proof.
  intros z. exists (Cpowr z (1 / 3)). split; [apply Cpowr_third|].
  intros w' H. exact (cube_root_unique _ _ _ H (Cpowr_third z)).
Qed.
Print Assumptions C29_cube_root.

Theorem C29_average : forall f h g wh wg, (0 <= f <= 1)%R -> cube_root wh h -> cube_root wg g ->
  cube_root (RtoC (1 - f) * wh + RtoC f * wg) (looyenga f h g).
Proof. exact looyenga_root. Qed.
Print Assumptions C29_average.

Theorem C29_limits : forall h g, looyenga 0 h g = h /\ looyenga 1 h g = g.
Proof.
  intros. split; [apply looyenga_0|]. rewrite looyenga_swap. replace (1 - 1)%R with 0%R by ring. apply looyenga_0.
Qed.
Print Assumptions C29_limits.

Theorem C29_exchange : forall f h g, looyenga f h g = looyenga (1 - f) g h.
Proof. exact looyenga_swap. Qed.
Print Assumptions C29_exchange.

Theorem C29_isotropic : forall f h g i j, mix looyenga f (iso h) (iso g) i j = iso (looyenga f h g) i j.
Proof.
  intros. unfold mix, iso. destruct (Nat.eqb i j); [reflexivity|].
  unfold looyenga, Cpowr. destruct (Ceq_dec 0 0) as [_|]; [|contradiction].
  destruct (Req_EM_T (1 / 3) 0); [lra|]. simpl. ring.
Qed.
Print Assumptions C29_isotropic.

Lemma looyenga_half_8 : looyenga (1 / 2) 1 8 = RtoC (27 / 8).
Proof.
  assert (K1 : cube_root 1 1). { split; [ring|right]. simpl. pose proof sqrt3_pos. lra. }
  assert (K2 : cube_root 2 8). { split; [Ccomp; lra|right]. simpl. pose proof sqrt3_pos. lra. }
  assert (K := looyenga_root (1 / 2) 1 8 1 2 ltac:(lra) K1 K2).
  destruct K as [K _]. rewrite <- K. Ccomp; field.
Qed.

Example C29_example : looyenga (1 / 2) 1 8 = RtoC (27 / 8).
Proof. exact looyenga_half_8. Qed.

(** C30: the stored fraction. *)
Lemma nth_error_upd {A} (l : list A) k x i : nth_error (upd l k x) i =
  if Nat.eqb i k then (match nth_error l k with Some _ => Some x | None => None end) else nth_error l i.
Proof.
  revert k i. induction l as [|a l IH]; intros [|k] [|i]; simpl; auto.
  destruct (Nat.eqb i k); reflexivity.
Qed.

Lemma upd_same {A} (l : list A) k x : nth_error l k = Some x -> upd l k x = l.
Proof.
  revert k. induction l as [|a l IH]; intros [|k] H; simpl in *; auto; [congruence|]. now rewrite IH.
Qed.

Lemma set_fraction_cases m f : (exists x, f = FNum x /\ 0 <= x <= 1 /\
    set_fraction m f = (Mixture (host_material m) (guest_material m) (Some x), None))%R \/
  (exists e, (forall x, f = FNum x -> ~ 0 <= x <= 1)%R /\ set_fraction m f = (m, Some e)).
Proof.
  destruct f as [x| |]; simpl.
  - destruct (Rle_dec 0 x) as [A|A]; [destruct (Rle_dec x 1) as [B|B]|].
    + left. exists x. auto.
    + right. exists ValueError. split; [|reflexivity]. intros y E; injection E as <-; lra.
    + right. exists ValueError. split; [|reflexivity]. intros y E; injection E as <-; lra.
  - right. exists ValueError. split; [discriminate|reflexivity].
  - right. exists TypeError. split; [discriminate|reflexivity].
Qed.

Definition in_range (m : mixture) : Prop := exists x, fraction m = Some x /\ (0 <= x <= 1)%R.

Lemma In_upd {A} (l : list A) k x y : In y (upd l k x) -> y = x \/ In y l.
Proof.
  revert k. induction l as [|a l IH]; intros [|k] H; simpl in *; auto.
  - destruct H; auto.
  - destruct H as [|H]; auto. destruct (IH _ H); auto.
Qed.

Lemma step_range s o : (forall m, In m s -> in_range m) -> forall m, In m (fst (step s o)) -> in_range m.
Proof.
  intros H m. destruct o as [h g f|k h g|k f]; simpl.
  - unfold new_mixture. destruct (set_constituents _ h g) as [m0 [e|]]; [apply H|].
    destruct (set_fraction_cases m0 f) as [(x & _ & Hx & ->)|(e & _ & ->)]; simpl; [|apply H].
    intros K. apply in_app_or in K. destruct K as [K|[<-|[]]]; [auto|]. exists x. auto.
  - destruct (nth_error s k) as [m0|] eqn:E; [|apply H].
    assert (Hm : in_range m0) by (apply H; eapply nth_error_In; eauto).
    destruct (set_constituents m0 h g) as [m1 e] eqn:E1. simpl. intros K. apply In_upd in K.
    destruct K as [->|K]; [|auto].
    assert (F : fraction m1 = fraction m0) by (destruct h, g; simpl in E1; inversion E1; reflexivity).
    unfold in_range. rewrite F. exact Hm.
  - destruct (nth_error s k) as [m0|] eqn:E; [|apply H].
    assert (Hm : in_range m0) by (apply H; eapply nth_error_In; eauto).
    destruct (set_fraction_cases m0 f) as [(x & _ & Hx & ->)|(e & _ & ->)]; simpl; intros K; apply In_upd in K;
      destruct K as [->|K]; auto. exists x; auto.
Qed.

Theorem C30_always_in_range : forall ops m, In m (run ops) ->
  exists x, fraction m = Some x /\ (0 <= x <= 1)%R.
Proof.
  intros ops. unfold run. assert (G : forall s, (forall m, In m s -> in_range m) ->
    forall m, In m (fold_left (fun s o => fst (step s o)) ops s) -> in_range m).
  { induction ops as [|o ops IH]; intros s H; [exact H|]. simpl. apply IH. now apply step_range. }
  apply (G []). simpl. tauto.
Qed.
Print Assumptions C30_always_in_range.

(** set_fraction accepts exactly the numbers in [0, 1], stores them in this object and changes
    nothing else; everything else raises and changes nothing. *)
Theorem C30_set_fraction : forall s k m f, nth_error s k = Some m ->
  match f with
  | FNum x =>
      ((0 <= x <= 1)%R -> exists s' m', step s (SetFraction k f) = (s', None) /\
         nth_error s' k = Some m' /\ fraction m' = Some x /\
         host_material m' = host_material m /\ guest_material m' = guest_material m /\
         forall i, i <> k -> nth_error s' i = nth_error s i) /\
      (~ (0 <= x <= 1)%R -> step s (SetFraction k f) = (s, Some ValueError))
  | FNan => step s (SetFraction k f) = (s, Some ValueError)
  | FBad => step s (SetFraction k f) = (s, Some TypeError)
  end.
Proof.
  intros s k m f E. destruct f as [x| |]; simpl; rewrite E.
  - split.
    + intros [A B]. destruct (Rle_dec 0 x) as [_|]; [|contradiction]. destruct (Rle_dec x 1) as [_|]; [|contradiction].
      eexists. eexists. split; [reflexivity|]. split.
      * rewrite nth_error_upd, PeanoNat.Nat.eqb_refl, E. reflexivity.
      * split; [reflexivity|]. split; [reflexivity|]. split; [reflexivity|].
        intros i Hi. rewrite nth_error_upd. apply PeanoNat.Nat.eqb_neq in Hi. now rewrite Hi.
    + intros N. destruct (Rle_dec 0 x) as [A|A]; [destruct (Rle_dec x 1) as [B|B]|]; [tauto| |];
        now rewrite (upd_same _ _ _ E).
  - now rewrite (upd_same _ _ _ E).
  - now rewrite (upd_same _ _ _ E).
Qed.
Print Assumptions C30_set_fraction.

Example C30_example : map fraction (run [New (IsMat 1) (IsMat 2) (FNum (1 / 2)); SetFraction 0 (FNum 2);
   New NotMat (IsMat 2) (FNum 0); SetFraction 0 FNan]) = [Some (1 / 2)%R].
Proof.
  unfold run; cbn [fold_left step new_mixture set_constituents set_fraction fst app nth_error].
  destruct (Rle_dec 0 (1 / 2)); [|lra]. destruct (Rle_dec (1 / 2) 1); [|lra].
  destruct (Rle_dec 0 2); [|lra]. cbn. destruct (Rle_dec 2 1); [lra|]. reflexivity.
Qed.

(** C61: effective media of media without gain have no gain. *)
Theorem C61_passive : forall f h g, (0 <= f <= 1)%R -> passive h -> passive g ->
  passive (vca f h g) /\ passive (looyenga f h g) /\
  (forall e, maxwell_garnett f h g = Some e -> passive e) /\
  (forall e, bruggeman f h g = Some e -> passive e).
Proof.
  intros f h g Hf Ph Pg. split; [|split; [|split]].
  - unfold passive, vca in *. destruct h, g; simpl in *. nra.
  - now apply looyenga_passive.
  - intros e. now apply mg_passive.
  - intros e. now apply brugg_passive.
Qed.
Print Assumptions C61_passive.

(** The Bruggeman root even lies between host and guest in the complex plane. *)
Theorem C61_bruggeman_between : forall f h g e, (0 <= f <= 1)%R -> passive h -> passive g ->
  ~ lossless_opposite h g -> bruggeman f h g = Some e ->
  exists x y : R, (0 <= x)%R /\ (0 <= y)%R /\ e = RtoC x * h + RtoC y * g.
Proof. exact brugg_cone. Qed.
Print Assumptions C61_bruggeman_between.

Example C61_example : passive (RtoC 2 + Ci) /\ passive (RtoC (-20) + Ci) /\ bruggeman (1 / 3) (RtoC 2 + Ci) (RtoC (-20) + Ci) <> None.
Proof.
  split; [unfold passive; simpl; lra|]. split; [unfold passive; simpl; lra|].
  intros K. apply brugg_none in K. destruct K as [_ [K|K]]; apply (f_equal fst) in K; simpl in K; lra.
Qed.

(** C62: VCA mixtures do not depend on the frame (C26_rotation); the effective medium formulas
    act on single elements and do. *)
Definition host62 : material := fresh 1 1 1.
Definition guest62 : material := fresh 1 8 1.

Lemma made62 : made host62 /\ made guest62.
Proof.
  split; [left; exists (Disp 1); reflexivity|right; right; exists (Disp 1), (Disp 8), (Disp 1); reflexivity].
Qed.

Lemma host62_01 : get_tensor (set_rotation host62 r345) 0%nat 1%nat = 0.
Proof.
  unfold host62. rewrite get_tensor_rotated. unfold seen, mmul, mtr, mdiag; cbn [csum Nat.eqb nth].
  unfold r345, mat_of; cbn [nth]. Ccomp; lra.
Qed.
Lemma guest62_01 : get_tensor (set_rotation guest62 r345) 0%nat 1%nat = RtoC (- (84 / 25)).
Proof.
  unfold guest62. rewrite get_tensor_rotated. unfold seen, mmul, mtr, mdiag; cbn [csum Nat.eqb nth].
  unfold r345, mat_of; cbn [nth]. Ccomp; lra.
Qed.

Lemma seen_01 (A : mat) (a b d : C) : meq 3 A (mdiag (fun i => nth i [a; b; d] (RtoC 0))) ->
  seen r345 A 0%nat 1%nat = RtoC (12 / 25) * (a - b).
Proof.
  intros H. rewrite (seen_meq r345 r345 _ _ (mrefl r345) H 0%nat 1%nat ltac:(lia) ltac:(lia)).
  unfold seen, mmul, mtr, mdiag; cbn [csum Nat.eqb nth].
  unfold r345, mat_of; cbn [nth]. destruct a, b, d. Ccomp; field.
Qed.

Theorem C62_looyenga_refuted : exists f r m1 m2, (0 < f < 1)%R /\ proper_rotation r /\ made m1 /\ made m2 /\
  ~ meq 3 (mix looyenga f (get_tensor (set_rotation m1 r)) (get_tensor (set_rotation m2 r)))
          (mmul 3 (mmul 3 r (mix looyenga f (get_tensor m1) (get_tensor m2))) (mtr r)).
Proof.
  exists (1 / 2)%R, r345, host62, guest62.
  split; [lra|]. split; [apply r345_proper|]. split; [apply made62|]. split; [apply made62|].
  intros H. specialize (H 0%nat 1%nat ltac:(lia) ltac:(lia)).
  fold (seen r345 (mix looyenga (1 / 2) (get_tensor host62) (get_tensor guest62))) in H.
  rewrite (seen_01 _ 1 (RtoC (27 / 8)) 1) in H.
  - unfold mix in H. rewrite host62_01, guest62_01 in H.
    destruct (Cpowr_third (RtoC (- (84 / 25)))) as [E _].
    unfold looyenga in H. set (w := Cpowr (RtoC (- (84 / 25))) (1 / 3)) in *.
    assert (Z : Cpowr 0 (1 / 3) = 0).
    { unfold Cpowr. destruct (Ceq_dec 0 0) as [_|]; [|contradiction]. destruct (Req_EM_T (1 / 3) 0); [lra|reflexivity]. }
    rewrite Z in H.
    assert (X : Cpow (0 * (1 - RtoC (1 / 2)) + w * RtoC (1 / 2)) 3 = RtoC (1 / 8) * (w * w * w)).
    { replace (RtoC (1 / 8)) with (RtoC (1 / 2) * RtoC (1 / 2) * RtoC (1 / 2)) by (Ccomp; lra). simpl. ring. }
    rewrite X, E in H. apply (f_equal fst) in H. simpl in H. lra.
  - assert (L1 : looyenga (1 / 2) 1 1 = 1).
    { assert (K1 : cube_root 1 1). { split; [ring|right]. simpl. pose proof sqrt3_pos. lra. }
      destruct (looyenga_root (1 / 2) 1 1 1 1 ltac:(lra) K1 K1) as [K _]. rewrite <- K. Ccomp; field. }
    assert (L0 : looyenga (1 / 2) 0 0 = 0).
    { pose proof (C29_isotropic (1 / 2) 0 0 0%nat 1%nat) as K. exact K. }
    pose proof looyenga_half_8 as L8.
    unfold mix, host62, guest62. rewrite !get_tensor_plain.
    mexpl; unfold mdiag; cbn [Nat.eqb nth]; first [exact L0 | exact L1 | exact L8].
Qed.
Print Assumptions C62_looyenga_refuted.

(** A formula that divides by zero on the off-diagonal elements, or gives zero there although
    the rotated mixture is not diagonal. *)
Theorem C62_maxwell_garnett_refuted : exists f r m1 m2 (T : mat), (0 < f < 1)%R /\ proper_rotation r /\ made m1 /\ made m2 /\
  (forall i j, (i < 3)%nat -> (j < 3)%nat -> mix maxwell_garnett f (get_tensor m1) (get_tensor m2) i j = Some (T i j)) /\
  mix maxwell_garnett f (get_tensor (set_rotation m1 r)) (get_tensor (set_rotation m2 r)) 0%nat 1%nat
    <> Some (mmul 3 (mmul 3 r T) (mtr r) 0%nat 1%nat).
Proof.
  exists (1 / 2)%R, r345, host62, guest62, (mdiag (fun i => nth i [RtoC 1; RtoC (34 / 13); RtoC 1] (RtoC 0))).
  split; [lra|]. split; [apply r345_proper|]. split; [apply made62|]. split; [apply made62|].
  assert (N1 : (1 : C) <> 0) by (apply C_of_R_neq; lra).
  split.
  - assert (M1 : maxwell_garnett (1 / 2) 1 1 = Some (RtoC 1)).
    { unfold maxwell_garnett. destruct (Ceq_dec 1 0); [contradiction|]. rewrite cdiv_nz.
      - f_equal. transitivity (RtoC 3 / RtoC 3); [f_equal; Ccomp; lra|]. rewrite <- RtoC_div by lra. f_equal; field.
      - intros K. apply (f_equal fst) in K. simpl in K. lra. }
    assert (M8 : maxwell_garnett (1 / 2) 1 8 = Some (RtoC (34 / 13))).
    { unfold maxwell_garnett. destruct (Ceq_dec 1 0); [contradiction|]. rewrite cdiv_nz.
      - f_equal. transitivity (RtoC 17 / RtoC (13 / 2)); [f_equal; Ccomp; lra|]. rewrite <- RtoC_div by lra. f_equal; field.
      - intros K. apply (f_equal fst) in K. simpl in K. lra. }
    assert (M0 : maxwell_garnett (1 / 2) 0 0 = Some (RtoC 0)).
    { unfold maxwell_garnett. destruct (Ceq_dec 0 0); [reflexivity|contradiction]. }
    intros i j Hi Hj. unfold mix, host62, guest62. rewrite !get_tensor_plain.
    idx i; idx j; unfold mdiag; cbn [Nat.eqb nth]; first [exact M0 | exact M1 | exact M8].
  - fold (seen r345 (mdiag (fun i => nth i [RtoC 1; RtoC (34 / 13); RtoC 1] (RtoC 0)))).
    rewrite (seen_01 _ (RtoC 1) (RtoC (34 / 13)) (RtoC 1) (mrefl _)).
    unfold mix. rewrite host62_01, guest62_01. intros K.
    apply mg_cases in K. destruct K as [(_ & K & _)|[N K]].
    + apply (f_equal fst) in K. simpl in K. lra.
    + apply (f_equal fst) in K. simpl in K. lra.
Qed.
Print Assumptions C62_maxwell_garnett_refuted.

Theorem C62_bruggeman_refuted : exists f r m1 m2, (0 < f < 1)%R /\ proper_rotation r /\ made m1 /\ made m2 /\
  (forall i j, (i < 3)%nat -> (j < 3)%nat -> mix bruggeman f (get_tensor m1) (get_tensor m2) i j <> None) /\
  mix bruggeman f (get_tensor (set_rotation m1 r)) (get_tensor (set_rotation m2 r)) 0%nat 1%nat = None.
Proof.
  exists (1 / 2)%R, r345, host62, guest62.
  split; [lra|]. split; [apply r345_proper|]. split; [apply made62|]. split; [apply made62|]. split.
  - intros i j Hi Hj K. unfold mix in K. apply brugg_none in K. destruct K as [D K].
    unfold host62, guest62 in *. rewrite !get_tensor_plain in *.
    idx i; idx j; unfold mdiag in *; cbn [Nat.eqb nth] in *; try (now apply D);
      destruct K as [K|K]; apply (f_equal fst) in K; simpl in K; lra.
  - unfold mix. rewrite host62_01, guest62_01. apply brugg_none. split; [|left; reflexivity].
    intros K. apply (f_equal fst) in K. simpl in K. lra.
Qed.
Print Assumptions C62_bruggeman_refuted.

(** With isotropic constituents there is nothing to rotate: all three formulas commute. *)
Theorem C62_isotropic_partial : forall f r h g, proper_rotation r ->
  meq 3 (mix looyenga f (seen r (iso h)) (seen r (iso g))) (seen r (mix looyenga f (iso h) (iso g))) /\
  (forall e, maxwell_garnett f h g = Some e ->
     forall i j, (i < 3)%nat -> (j < 3)%nat ->
     mix maxwell_garnett f (seen r (iso h)) (seen r (iso g)) i j = Some (seen r (iso e) i j)) /\
  (forall e, bruggeman f h g = Some e ->
     forall i j, (i < 3)%nat -> (j < 3)%nat ->
     mix bruggeman f (seen r (iso h)) (seen r (iso g)) i j = Some (seen r (iso e) i j)).
Proof.
  intros f r h g (_ & I & _).
  pose proof (seen_iso r h I) as Ih. pose proof (seen_iso r g I) as Ig.
  split; [|split].
  - transitivity (iso (looyenga f h g)).
    + intros i j Hi Hj. unfold mix. rewrite Ih, Ig by assumption. apply C29_isotropic.
    + transitivity (seen r (iso (looyenga f h g))); [symmetry; now apply seen_iso|]. apply seen_meq; [reflexivity|].
      intros i j _ _. symmetry. apply C29_isotropic.
  - intros e H i j Hi Hj. unfold mix. rewrite Ih, Ig, (seen_iso r e I) by assumption. now apply C27_isotropic.
  - intros e H i j Hi Hj. unfold mix. rewrite Ih, Ig, (seen_iso r e I) by assumption. now apply C28_isotropic.
Qed.
Print Assumptions C62_isotropic_partial.

(** C64: the square of the refractive index tensor is the permittivity tensor: so for
    unrotated materials, not for rotated ones. *)
Theorem C64_unrotated_partial : forall m, made m ->
  meq 3 (mmul 3 (index_tensor (get_tensor m)) (index_tensor (get_tensor m))) (get_tensor m).
Proof.
  intros m H. apply made_fresh in H. destruct H as (x & y & z & ->). rewrite get_tensor_plain.
  mexpl; unfold mmul, index_tensor, mdiag; cbn [csum Nat.eqb nth]; rewrite ?Csqrt_0, ?Csqrt_sqr; ring.
Qed.
Print Assumptions C64_unrotated_partial.

Theorem C64_rotated_refuted : exists m r, made m /\ proper_rotation r /\
  let eps := get_tensor (set_rotation m r) in
  ~ meq 3 (mmul 3 (index_tensor eps) (index_tensor eps)) eps.
Proof.
  exists guest62, r345. split; [apply made62|]. split; [apply r345_proper|]. cbv zeta.
  intros H. specialize (H 0%nat 0%nat ltac:(lia) ltac:(lia)).
  pose proof guest62_01 as E1.
  assert (E2 : get_tensor (set_rotation guest62 r345) 1%nat 0%nat = RtoC (- (84 / 25))).
  { rewrite <- E1. apply (C25_symmetric guest62 r345); [apply made62|lia|lia]. }
  assert (E3 : get_tensor (set_rotation guest62 r345) 0%nat 2%nat = 0).
  { unfold guest62. rewrite get_tensor_rotated. unfold seen, mmul, mtr, mdiag; cbn [csum Nat.eqb nth].
    unfold r345, mat_of; cbn [nth]. Ccomp; lra. }
  unfold mmul, index_tensor in H; cbn [csum] in H. rewrite E1, E2, E3, Csqrt_sqr, Csqrt_sqr, Csqrt_0 in H.
  destruct (get_tensor (set_rotation guest62 r345) 0%nat 0%nat) as [a b].
  apply (f_equal fst) in H. simpl in H. lra.
Qed.
Print Assumptions C64_rotated_refuted.

Example C64_example : made (fresh 1 8 1) /\ index_tensor (get_tensor (fresh 4 9 1)) 1%nat 1%nat = 3.
Proof.
  split; [right; right; exists (Disp 1), (Disp 8), (Disp 1); reflexivity|].
  unfold index_tensor, get_tensor, mdiag; cbn. symmetry. apply Csqrt_unique; [left; simpl; lra|Ccomp; lra].
Qed.

Example C62_example : proper_rotation r345 /\ forall i j, (i < 3)%nat -> (j < 3)%nat ->
  mix maxwell_garnett (1 / 2) (seen r345 (iso 1)) (seen r345 (iso 4)) i j = Some (seen r345 (iso 2) i j).
Proof.
  split; [apply r345_proper|]. apply (C62_isotropic_partial (1 / 2) r345 1 4 r345_proper). apply C27_example.
Qed.
