(** C100: Solver4x4 computes a spectrum wavelength by wavelength, except that one wavelength can spoil
    the spectrum *)
From Coq Require Import Reals Lra Lia Arith.
From Coquelicot Require Import Complex.
From Coq Require Import List.
From Verif.Base Require Import Py Cx Mat Det.
From Verif.Model Require Import Units Ellips Structure Mixture Solver2 Solver4 Spectrum Spectrum4.
From Verif.Spec Require Import Pointwise Pointwise4.
From Verif.Proof Require Import SpectrumP SpectrumP2 SpectrumP3 Spectrum4P Spectrum4P2 Spectrum4P3.
Import ListNotations.
Open Scope R_scope.
Open Scope py_scope.

Lemma nth_map {A B} (f : A -> B) l i x : nth_error l i = Some x -> nth_error (map f l) i = Some (f x).
Proof. intros H. rewrite nth_error_map, H. reflexivity. Qed.

(** The entries of the result at one wavelength are those of the computation for this wavelength alone. *)
Theorem C100_pointwise eig p iso th s L r i x : evaluate4 eig p iso th s L = Ok r -> nth_error L i = Some x ->
  exists jr jt pw, evaluate4 eig p iso th s [x] = Ok (Result4Arrays [jr] [jt] [pw]) /\
    nth_error (jones_r_arr r) i = Some jr /\ nth_error (jones_t_arr r) i = Some jt /\ nth_error (power_arr r) i = Some pw.
Proof.
  intros E N. assert (S := evaluate4_spec eig p iso th s L). rewrite E in S. destruct S as (O & a & A & JR & JT & P).
  assert (Hx := nth_error_In _ _ N). eexists _, _, _. split; [apply single_ok; [apply O, Hx|apply A, Hx]|].
  rewrite JR, JT, P, !(nth_map _ _ _ _ N). repeat split; reflexivity.
Qed.
Print Assumptions C100_pointwise.

(** The arrays have one entry for every wavelength. *)
Theorem C100_length eig p iso th s L r : evaluate4 eig p iso th s L = Ok r ->
  length (jones_r_arr r) = length L /\ length (jones_t_arr r) = length L /\ length (power_arr r) = length L.
Proof.
  intros E. assert (S := evaluate4_spec eig p iso th s L). rewrite E in S. destruct S as (_ & a & _ & -> & -> & ->). now rewrite !map_length.
Qed.
Print Assumptions C100_length.

(** The spectrum raises exactly if one of its wavelengths raises alone. *)
Theorem C100_raises eig p iso th s L :
  is_ok (evaluate4 eig p iso th s L) <-> (forall x, In x L -> is_ok (evaluate4 eig p iso th s [x])).
Proof.
  assert (S := evaluate4_spec eig p iso th s L). destruct (evaluate4 eig p iso th s L) as [r|].
  - split; [intros _ x Hx|intros _; eexists; reflexivity]. destruct S as (O & a & A & _). eexists. apply single_ok; [apply O, Hx|apply A, Hx].
  - split; [intros [? ?]; discriminate|]. intros H. exfalso.
    destruct S as [(x & Hx & N)|(_ & x & Hx & N)]; destruct (H x Hx) as [r E]; assert (Q := single_spec eig p iso th s x); rewrite E in Q; destruct Q as (Q1 & a & Q2 & _); [contradiction|congruence].
Qed.
Print Assumptions C100_raises.

(** Spectra of adjacent ranges can be put together. *)
Theorem C100_concat eig p iso th s L1 L2 r1 r2 : evaluate4 eig p iso th s L1 = Ok r1 -> evaluate4 eig p iso th s L2 = Ok r2 ->
  evaluate4 eig p iso th s (L1 ++ L2) =
  Ok (Result4Arrays (jones_r_arr r1 ++ jones_r_arr r2) (jones_t_arr r1 ++ jones_t_arr r2) (power_arr r1 ++ power_arr r2)).
Proof.
  intros E1 E2. assert (S1 := evaluate4_spec eig p iso th s L1). assert (S2 := evaluate4_spec eig p iso th s L2). assert (S := evaluate4_spec eig p iso th s (L1 ++ L2)).
  rewrite E1 in S1. rewrite E2 in S2. destruct S1 as (O1 & a1 & A1 & R1 & T1 & P1), S2 as (O2 & a2 & A2 & R2 & T2 & P2).
  destruct (evaluate4 eig p iso th s (L1 ++ L2)) as [r|].
  - destruct S as (_ & a & A & JR & JT & P). destruct r as [u v w]. cbn [jones_r_arr jones_t_arr power_arr] in *.
    assert (H1 : forall x, In x L1 -> a x = a1 x) by (intros x Hx; assert (B := A x ltac:(apply in_app_iff; now left)); assert (B' := A1 x Hx); congruence).
    assert (H2 : forall x, In x L2 -> a x = a2 x) by (intros x Hx; assert (B := A x ltac:(apply in_app_iff; now right)); assert (B' := A2 x Hx); congruence).
    rewrite R1, R2, T1, T2, P1, P2, JR, JT, P, !map_app. f_equal. f_equal; f_equal; apply map_ext_in; intros x Hx; rewrite ?H1, ?H2 by exact Hx; reflexivity.
  - exfalso. destruct S as [(x & Hx & N)|(_ & x & Hx & N)]; apply in_app_iff in Hx.
    + apply N. destruct Hx; [now apply O1|now apply O2].
    + destruct Hx as [Hx|Hx]; [assert (B := A1 x Hx)|assert (B := A2 x Hx)]; congruence.
Qed.
Print Assumptions C100_concat.

(** The wavelengths may be given in any order, repeated or left out. *)
Theorem C100_select eig p iso th s L r idx L' : evaluate4 eig p iso th s L = Ok r ->
  map (fun i => nth_error L i) idx = map Some L' ->
  exists r', evaluate4 eig p iso th s L' = Ok r' /\
    map (fun i => nth_error (jones_r_arr r) i) idx = map Some (jones_r_arr r') /\
    map (fun i => nth_error (jones_t_arr r) i) idx = map Some (jones_t_arr r') /\
    map (fun i => nth_error (power_arr r) i) idx = map Some (power_arr r').
Proof.
  intros E H. assert (S := evaluate4_spec eig p iso th s L). rewrite E in S. destruct S as (O & a & A & JR & JT & P).
  assert (I : forall x, In x L' -> In x L).
  { intros x Hx. apply (in_map Some) in Hx. rewrite <- H in Hx. apply in_map_iff in Hx. destruct Hx as (i & Hi & _). eapply nth_error_In. exact Hi. }
  assert (S' := evaluate4_spec eig p iso th s L'). destruct (evaluate4 eig p iso th s L') as [r'|].
  2:{ exfalso. destruct S' as [(x & Hx & N)|(_ & x & Hx & N)]; [apply N, O, I, Hx|]. assert (B := A x (I x Hx)). congruence. }
  exists r'. split; [reflexivity|]. destruct S' as (_ & a' & A' & -> & -> & ->).
  assert (EA : forall x, In x L' -> a' x = a x) by (intros x Hx; assert (B := A x (I x Hx)); assert (B' := A' x Hx); congruence).
  assert (G : forall {B} (f : R -> B), map (fun i => nth_error (map f L) i) idx = map Some (map f L')).
  { clear - H. intros B f. revert L' H. induction idx as [|i idx IH]; intros [|x L'] H; try discriminate; [reflexivity|]. cbn [map] in *.
    injection H as H1 H2. rewrite (nth_map _ _ _ _ H1). f_equal. apply IH. exact H2. }
  rewrite JR, JT, P, !G. repeat split; f_equal; apply map_ext_in; intros x Hx; rewrite EA by exact Hx; reflexivity.
Qed.
Print Assumptions C100_select.

(** Before an IsotropicMaterial: the entry of a wavelength is the result of the solver for the tensors at
    this wavelength.  It raises at most where the solver has no result. *)
Theorem C100_value eig p th s x f ls b : (p = Eig -> elementwise eig) -> sample_at s x f ls b ->
  match evaluate4 eig p true th s [x] with
  | Ok r => entry_of r (solver4 (single eig p) th x f ls b)
  | Err e => e = LinAlgError /\ solver4 (single eig p) th x f ls b = None
  end.
Proof. apply iso_value. Qed.
Print Assumptions C100_value.

(** Before any other material *)
Theorem C100_value_aniso eig p th s x f ls b : elementwise eig -> sample_at s x f ls b ->
  match evaluate4 eig p false th s [x] with
  | Ok r => entry_of r (let? d := build_delta_matrix (reduced_k_x th f) b in let? qp := eig d in solver4_aniso (single eig p) th x f ls b qp)
  | Err e => e = LinAlgError /\ (let? d := build_delta_matrix (reduced_k_x th f) b in let? qp := eig d in solver4_aniso (single eig p) th x f ls b qp) = None
  end.
Proof. apply aniso_value. Qed.
Print Assumptions C100_value_aniso.

(** PropagatorLinear and PropagatorExpm raise exactly if the block of the transfer matrix is singular. *)
Theorem C100_singular eig p th s x f ls b : p <> Eig -> sample_at s x f ls b ->
  (evaluate4 eig p true th s [x] = Err LinAlgError <->
   exists m, transfer (single eig p) th x f ls b = Some m /\ det 2 (incident_block m) = RtoC 0).
Proof.
  intros NE H. rewrite (iso_singular eig p th s x f ls b NE H). unfold minv.
  split; intros (m & T & D); exists m; (split; [exact T|]); destruct (Ceq_dec (det 2 (incident_block m)) 0); [assumption|discriminate|reflexivity|contradiction].
Qed.
Print Assumptions C100_singular.

(** With them a permittivity that is nan at a wavelength makes the amplitudes at this wavelength nan. *)
Theorem C100_nan_entry eig p th s x : p <> Eig -> computable s x ->
  is_nan (front_material s) x 0 0 \/ is_nan (back_material s) x 0 0 \/
  (exists m i j, inner_in s m /\ (i < 3)%nat /\ (j < 3)%nat /\ is_nan m x i j) ->
  exists r, evaluate4 eig p true th s [x] = Ok r /\ entry_of r None.
Proof. apply nan_entry. Qed.
Print Assumptions C100_nan_entry.

(** With PropagatorEig, or in a back material that is not isotropic, it makes every spectrum that
    contains this wavelength raise. *)
Theorem C100_nan_raises eig p iso th s x L : (forall y, In y L -> computable s y) -> In x L ->
  (p = Eig /\ exists m i j, inner_in s m /\ (i < 3)%nat /\ (j < 3)%nat /\ is_nan m x i j) \/
  (iso = false /\ exists i j, (i < 3)%nat /\ (j < 3)%nat /\ is_nan (back_material s) x i j) ->
  evaluate4 eig p iso th s L = Err LinAlgError.
Proof.
  intros O Hx H. assert (E := nan_raises eig p iso th s x (O x Hx) H).
  assert (S := evaluate4_spec eig p iso th s L). destruct (evaluate4 eig p iso th s L) as [r|e] eqn:Q.
  - exfalso. assert (K : is_ok (evaluate4 eig p iso th s L)) by (eexists; exact Q). rewrite C100_raises in K. destruct (K x Hx) as [r' E']. congruence.
  - destruct S as [(y & Hy & N)|(-> & _)]; [|reflexivity]. exfalso. apply N, computable_ok, O, Hy.
Qed.
Print Assumptions C100_nan_raises.

(** A film with gain in vacuum, one unit thick, at normal incidence, with PropagatorLinear: it oscillates
    at the wavelength 2 pi, where the amplitudes are infinite. *)
Definition const (c : C) : material := Single (Const c) (Const c) (Const c).
Definition laser : structure material := Structure (const (RtoC 1)) [Homogeneous 1 (const (-1, -2))] (const (RtoC 1)).
Definition scalar (c : C) : mat := fun i j => match i, j with 0%nat, 0%nat | 1%nat, 1%nat | 2%nat, 2%nat => c | _, _ => RtoC 0 end.

Lemma const_tensor c x : has_tensor (const c) x (scalar c).
Proof. eexists. split; [reflexivity|]. intros [|[|[|i]]] [|[|[|j]]] Hi Hj; try lia; reflexivity. Qed.
Lemma laser_at x : sample_at laser x (scalar (RtoC 1)) [(1, scalar (-1, -2))] (scalar (RtoC 1)).
Proof.
  unfold sample_at, laser, structure_profile. cbn [front_material layers back_material profile fold_left map app fst snd].
  constructor; [|constructor; [|constructor; [|constructor]]]; (split; [reflexivity|apply const_tensor]).
Qed.
Lemma Csqrt1 : Csqrt (RtoC 1) = RtoC 1.
Proof. rewrite Csqrt_pos by lra. now rewrite sqrt_1. Qed.
Lemma block_det m : det 2 (incident_block m) = (m 2%nat 2%nat * m 0%nat 0%nat - m 2%nat 0%nat * m 0%nat 2%nat)%C.
Proof. rewrite det2. reflexivity. Qed.
Lemma laser_block eig x : x <> 0 -> exists m, transfer (single eig Linear) 0 x (scalar (RtoC 1)) [(1, scalar (-1, -2))] (scalar (RtoC 1)) = Some m /\
  det 2 (incident_block m) = RtoC ((1 - 2 * PI / x) * (1 - 2 * PI / x)).
Proof.
  intros X. unfold transfer.
  assert (K : reduced_k_x 0 (scalar (RtoC 1)) = RtoC 0).
  { unfold reduced_k_x, deg2rad. replace (0 * PI / 180) with 0 by field. rewrite sin_0. apply Cmult_0_r. }
  assert (N : iso_n (scalar (RtoC 1)) = RtoC 1) by (unfold iso_n; cbn [scalar]; apply Csqrt1).
  assert (Cc : iso_cos (RtoC 0) (scalar (RtoC 1)) = RtoC 1).
  { unfold iso_cos. rewrite N. replace (RtoC 1 - RtoC 0 / RtoC 1 * (RtoC 0 / RtoC 1))%C with (RtoC 1); [apply Csqrt1|]. field. intros Q. apply RtoC_inj in Q. lra. }
  assert (N1 : RtoC 1 <> RtoC 0) by (intros Q; apply RtoC_inj in Q; lra).
  rewrite K. unfold transition_matrix_iso_halfspace. rewrite N, Cc.
  destruct (Ceq_dec (RtoC 1) 0) as [Q|_]; [contradiction|]. cbn [obind]. unfold layer_product. cbn [fold_right fst snd obind].
  assert (B : build_delta_matrix (RtoC 0) (scalar (-1, -2)) = Some (mat_of [[RtoC 0; RtoC 0; RtoC 0; RtoC 1]; [RtoC 0; RtoC 0; (- (1))%C; RtoC 0]; [RtoC 0; (- (-1, -2))%C; RtoC 0; RtoC 0]; [(-1, -2)%C; RtoC 0; RtoC 0; RtoC 0]])).
  { unfold build_delta_matrix. cbn [scalar]. assert (E : ((-1, -2) : C) <> RtoC 0) by (intros Q; apply (f_equal fst) in Q; cbn in Q; lra).
    destruct (Ceq_dec (-1, -2)%C 0) as [Q|_]; [contradiction|]. f_equal. f_equal.
    repeat (apply f_equal2); try reflexivity; field; exact E. }
  rewrite B. cbn [obind single]. unfold propagator_linear, wave_number, rdiv. destruct (Req_EM_T x 0) as [Q|_]; [contradiction|]. cbn [obind].
  eexists. split; [reflexivity|]. rewrite block_det.
  set (k := 2 * PI / x). clearbody k.
  assert (D1 : forall z : C, (z / RtoC 1 = z)%C) by (intros z; field; exact N1).
  rewrite !D1.
  match goal with |- context [mmul 4 (mscal _ ?F) (mmul 4 ?Q ?E)] => set (Fm := F); set (Em := E); set (P := Q) end.
  assert (M : forall i j, mmul 4 (mscal (RtoC (1 / 2)) Fm) (mmul 4 P Em) i j = (RtoC (1 / 2) * mmul 4 Fm (mmul 4 P Em) i j)%C).
  { intros i j. unfold mmul, mscal, csum. ring. }
  rewrite !M. clear M.
  assert (E22 : mmul 4 Fm (mmul 4 P Em) 2%nat 2%nat = (RtoC 1 + RtoC 1 - Ci * RtoC k * (RtoC 1 + (-1, -2)))%C).
  { unfold mmul, csum, Fm, P, Em, madd, mscal, mid, mat_of. cbn [nth Nat.eqb]. rewrite RtoC_opp. ring. }
  assert (E00 : mmul 4 Fm (mmul 4 P Em) 0%nat 0%nat = (RtoC 1 + RtoC 1 - Ci * RtoC k * (RtoC 1 + (-1, -2)))%C).
  { unfold mmul, csum, Fm, P, Em, madd, mscal, mid, mat_of. cbn [nth Nat.eqb]. rewrite RtoC_opp. ring. }
  assert (E02 : mmul 4 Fm (mmul 4 P Em) 0%nat 2%nat = RtoC 0).
  { unfold mmul, csum, Fm, P, Em, madd, mscal, mid, mat_of. cbn [nth Nat.eqb]. rewrite RtoC_opp. ring. }
  rewrite E22, E00, E02.
  replace (RtoC 1 + RtoC 1 - Ci * RtoC k * (RtoC 1 + (-1, -2)))%C with (RtoC (2 - 2 * k)); [|unfold Ci; clear; apply injective_projections; unfold Cminus, Cplus, Cmult, Copp, RtoC; cbn [fst snd]; ring].
  rewrite !Cmult_0_r. unfold Cminus. rewrite Copp_0, Cplus_0_r, <- !RtoC_mult. f_equal. field.
Qed.

Lemma laser_fine eig x : x <> 0 -> x <> 2 * PI -> is_ok (evaluate4 eig Linear true 0 laser [x]).
Proof.
  intros X N. destruct (laser_block eig x X) as (m & T & D).
  assert (S := C100_singular eig Linear 0 laser x _ _ _ ltac:(discriminate) (laser_at x)).
  assert (V := C100_value eig Linear 0 laser x _ _ _ ltac:(discriminate) (laser_at x)).
  destruct (evaluate4 eig Linear true 0 laser [x]) as [r|e]; [eexists; reflexivity|]. exfalso. destruct V as [-> _].
  destruct (proj1 S eq_refl) as (m' & T' & D'). rewrite T in T'. injection T' as <-. rewrite D in D'. apply RtoC_inj in D'.
  assert (Q : 1 - 2 * PI / x = 0) by nra. apply N. replace (2 * PI) with (2 * PI / x * x) by (field; exact X). replace (2 * PI / x) with 1 by lra. ring.
Qed.

(** The spectrum raises although the amplitudes exist at one of its wavelengths: the other wavelength
    takes the result away. *)
Theorem C100_refuted : exists p th s x y, forall eig, is_ok (evaluate4 eig p true th s [x]) /\
  evaluate4 eig p true th s [x; y] = Err LinAlgError.
Proof.
  exists Linear, 0, laser, (4 * PI), (2 * PI). intros eig. assert (P := PI_RGT_0).
  assert (F : is_ok (evaluate4 eig Linear true 0 laser [4 * PI])) by (apply laser_fine; lra). split; [exact F|].
  assert (E : evaluate4 eig Linear true 0 laser [2 * PI] = Err LinAlgError).
  { apply (C100_singular eig Linear 0 laser (2 * PI) _ _ _ ltac:(discriminate) (laser_at _)). destruct (laser_block eig (2 * PI)) as (m & T & D); [lra|].
    exists m. split; [exact T|]. rewrite D. f_equal. field. lra. }
  assert (S := evaluate4_spec eig Linear true 0 laser [4 * PI; 2 * PI]). destruct (evaluate4 eig Linear true 0 laser [4 * PI; 2 * PI]) as [r|e] eqn:Q.
  - exfalso. assert (K : is_ok (evaluate4 eig Linear true 0 laser [4 * PI; 2 * PI])) by (eexists; exact Q). rewrite C100_raises in K. destruct (K (2 * PI) ltac:(cbn; tauto)) as [r' E']. congruence.
  - destruct S as [(y & Hy & N)|(-> & _)]; [|reflexivity]. exfalso. apply N. destruct (sample_split _ _ _ _ _ (laser_at y)) as (O & _). exact O.
Qed.
Print Assumptions C100_refuted.

Example C100_example eig : is_ok (evaluate4 eig Linear true 0 laser [4 * PI; 8 * PI; 4 * PI]).
Proof.
  assert (P := PI_RGT_0). apply C100_raises. intros x [<-|[<-|[<-|[]]]]; apply laser_fine; lra.
Qed.

(** A film whose permittivity is nan below 400 nm *)
Definition film : material := let d := Fun (fun x => Ok (if Rlt_dec x 400 then None else Some (RtoC 2))) in Single d d d.
Definition coated : structure material := Structure (const (RtoC 1)) [Homogeneous 100 film] (const (RtoC 2.25)).
Example C100_nan_example eig : evaluate4 eig Eig true 70 coated [500; 300] = Err LinAlgError /\
  exists r, evaluate4 eig Expm true 70 coated [300] = Ok r /\ entry_of r None.
Proof.
  assert (O : forall y, computable coated y).
  { intros y l Hl. unfold coated, structure_profile in Hl. cbn [front_material layers back_material profile fold_left map app fst snd In] in Hl.
    destruct Hl as [<-|[<-|[<-|[]]]]; eexists; reflexivity. }
  assert (N : exists m i j, inner_in coated m /\ (i < 3)%nat /\ (j < 3)%nat /\ is_nan m 300 i j).
  { exists film, 0%nat, 0%nat. split; [exists 100; right; left; reflexivity|]. split; [lia|]. split; [lia|]. eexists. split; [reflexivity|]. cbn. destruct (Rlt_dec 300 400); [reflexivity|lra]. }
  split.
  - apply (C100_nan_raises eig Eig true 70 coated 300); [auto|cbn; tauto|left; split; [reflexivity|exact N]].
  - apply C100_nan_entry; [discriminate|apply O|right; right; exact N].
Qed.
