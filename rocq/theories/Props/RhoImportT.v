(** C117: rho from measured files. *)
From Coq Require Import Reals String List Arith Bool Lia Lra Permutation Sorted.
From Coquelicot Require Import Complex.
From Verif.Base Require Import Py Cx.
From Verif.Model Require Import FormulaText Regex TextTable SpectraRayPsi Woollam NexusPsiDelta Ellips RhoImport.
From Verif.Spec Require Import Angle Light SpectraRayFile SpectraRayData WoollamFile NexusData.
From Verif.Proof Require Import EllipsP NexusPsiDeltaP.
From Verif.Props Require Import SpectraRayPsiT WoollamT NexusPsiDeltaT.
From Coq Require Import List.
Import ListNotations.
Open Scope list_scope.

(** psi has a tangent *)
Definition below_90 (p : R) : Prop := (0 <= p < 90)%R.

Lemma below_90_cos p : below_90 p -> cos (deg2rad p) <> 0%R.
Proof.
  intros [A B]. apply Rgt_not_eq, cos_gt_0; unfold deg2rad; pose proof PI_RGT_0.
  - apply Rlt_le_trans with 0%R; [lra|]. apply Rmult_le_pos; [|lra]. now apply Rmult_le_pos; [|lra].
  - replace (PI / 2)%R with (90 * PI / 180)%R by field. apply Rmult_lt_compat_r; [lra|]. now apply Rmult_lt_compat_r.
Qed.

Lemma rho_number_ok p d : below_90 p -> exists z, rho_number p d = Some z /\ is_rho p d z.
Proof.
  intro B. exists (calc_rho p d). split; [|now apply is_rho_calc]. unfold rho_number. destruct Req_EM_T as [E|_]; [|reflexivity].
  now apply below_90_cos in B.
Qed.

(** Whole turns of delta do not matter *)
Lemma is_rho_turn p d d' z : same_angle d d' -> is_rho p d' z -> is_rho p d z.
Proof.
  intros [k ->] [A B]. unfold is_rho. rewrite A, B.
  assert (E : ((d + 360 * IZR k) * PI / 180)%R = (d * PI / 180 + 2 * IZR k * PI)%R) by field. rewrite E.
  destruct (Z_le_gt_dec 0 k) as [P|P].
  - rewrite <- (Z2Nat.id k P), <- INR_IZR_INZ, cos_period, sin_period. now split.
  - replace (IZR k) with (- IZR (- k))%R by (rewrite opp_IZR; ring).
    rewrite <- (Z2Nat.id (- k)) by lia. rewrite <- INR_IZR_INZ. set (n := Z.to_nat (- k)).
    rewrite <- (cos_period (d * PI / 180 + 2 * - INR n * PI) n), <- (sin_period (d * PI / 180 + 2 * - INR n * PI) n).
    replace (d * PI / 180 + 2 * - INR n * PI + 2 * INR n * PI)%R with (d * PI / 180)%R by ring. now split.
Qed.

Lemma rmapM_rel {A B D} (f : B -> res D) (R1 : A -> B -> Prop) (R2 : A -> D -> Prop) (l : list A) (rows : list B) :
  Forall2 R1 l rows -> (forall a b, In a l -> R1 a b -> exists c, f b = Ok c /\ R2 a c) ->
  exists out, rmapM f rows = Ok out /\ Forall2 R2 l out.
Proof.
  induction 1 as [|a b l rows Hd F IH]; intro G; [exists []; split; [reflexivity|constructor]|].
  destruct (G a b (or_introl eq_refl) Hd) as (c & E & Rc). destruct IH as (out & Eo & Fo); [intros; apply G; [now right|assumption]|].
  exists (c :: out). cbn [rmapM]. rewrite E, Eo. split; [reflexivity|now constructor].
Qed.

(** Whatever file the readers of psi and delta read, with numbers for psi and delta *)
Definition rho_of_cells (p d : cell) (z : option C) : Prop := exists x y c, p = Num x /\ d = Num y /\ z = Some c /\ is_rho x y c.
Definition measured_cells (p d : cell) : Prop := exists x y, p = Num x /\ d = Num y /\ below_90 x.

Lemma rho_cells p d : measured_cells p d -> exists z, rho_cell p d = Ok z /\ rho_of_cells p d z.
Proof.
  intros (x & y & -> & -> & B). destruct (rho_number_ok x y B) as (z & Z & Q). exists (Some z). cbn [rho_cell]. rewrite Z.
  split; [reflexivity|]. exists x, y, z. auto.
Qed.

Lemma same_rows {A} (l : list A) : Forall2 eq l l.
Proof. induction l; constructor; auto. Qed.

Theorem C117_any_file : forall num pyfloat to_nm le_index lines,
  (forall rows, SpectraRayPsi.read_psi_delta num pyfloat le_index lines = Ok rows ->
     Forall (fun r => measured_cells (SpectraRayPsi.psi r) (SpectraRayPsi.delta r)) rows ->
     exists out, read_spectraray_rho num pyfloat le_index lines = Ok out /\
       Forall2 (fun r '(a, w, z) => a = SpectraRayPsi.aoi r /\ w = SpectraRayPsi.wavelength r /\
                  rho_of_cells (SpectraRayPsi.psi r) (SpectraRayPsi.delta r) z) rows out) /\
  (forall rows, read_woollam_psi_delta num to_nm lines = Ok rows ->
     Forall (fun r => measured_cells (Woollam.psi r) (Woollam.delta r)) rows ->
     exists out, read_woollam_rho num to_nm lines = Ok out /\
       Forall2 (fun r '(a, w, z) => a = Woollam.aoi r /\ w = Woollam.wavelength r /\
                  rho_of_cells (Woollam.psi r) (Woollam.delta r) z) rows out).
Proof.
  intros num pyfloat to_nm le_index lines. split; intros rows E F; unfold read_spectraray_rho, read_woollam_rho; rewrite E; cbn [rbind];
    (apply (rmapM_rel _ eq); [apply same_rows|]); intros r r' I <-; rewrite Forall_forall in F; destruct (rho_cells _ _ (F r I)) as (z & Z & Q);
    rewrite Z; cbn [rbind]; eexists; (split; [reflexivity|]); (split; [reflexivity|]); (split; [reflexivity|exact Q]).
Qed.
Print Assumptions C117_any_file.

(** SpectraRay: the rho of the psi and delta that are written in the file, whatever the range of delta. *)
Theorem C117_spectraray_partial : forall num pyfloat le_index file angles data,
  (forall a b, le_index (Num a) (Num b) = true <-> (a <= b)%R) ->
  psi_delta_file num pyfloat file angles data -> NoDup angles -> angles <> [] -> data <> [] ->
  Forall (fun m => Forall (fun '(p, _) => below_90 p) (snd m)) data ->
  exists rows values, read_spectraray_rho num pyfloat le_index file = Ok rows /\
    Permutation (all_values angles data) values /\ StronglySorted before values /\
    Forall2 (fun '(a, w, p, d) row => exists z, row = (a, Num w, Some z) /\ is_rho p d z) values rows.
Proof.
  intros num pyfloat le_index file angles data O F N NA ND B.
  destruct (C83_psi_delta_partial num pyfloat le_index file angles data O F N NA ND) as (rows & values & E & P & S & V).
  assert (BV : Forall (fun '(_, _, p, _) => below_90 p) values).
  { apply (Permutation_Forall P). unfold all_values. apply Forall_forall. intros [[[a w] p] d] I.
    apply in_flat_map in I. destruct I as (m & IM & I). apply in_map_iff in I. destruct I as ([a' [p' d']] & Q & I). injection Q as -> _ -> ->.
    apply in_combine_r in I. rewrite Forall_forall in B. specialize (B _ IM). rewrite Forall_forall in B. exact (B _ I). }
  unfold read_spectraray_rho. rewrite E. cbn [rbind].
  enough (X : exists out, rmapM (fun r => rbind (rho_cell (SpectraRayPsi.psi r) (SpectraRayPsi.delta r))
              (fun z => Ok (SpectraRayPsi.aoi r, SpectraRayPsi.wavelength r, z))) rows = Ok out /\
            Forall2 (fun '(a, w, p, d) row => exists z, row = (a, Num w, Some z) /\ is_rho p d z) values out)
    by (destruct X as (out & X1 & X2); exists out, values; auto).
  apply (rmapM_rel _ row_of _ values rows V). intros [[[a w] p] d] r I (A & W & Ps & d' & D & _ & T).
  rewrite Forall_forall in BV. specialize (BV _ I). cbn in BV. destruct (rho_number_ok p d' BV) as (z & Z & Q).
  exists (a, Num w, Some z). rewrite Ps, D, A, W. cbn [rho_cell rbind]. rewrite Z. split; [reflexivity|]. exists z. split; [reflexivity|]. now apply is_rho_turn with d'.
Qed.
Print Assumptions C117_spectraray_partial.

(** Woollam: what the psi and delta readers read (C54) becomes rho. *)
Definition rho_row (v : line -> R) (k : R) (r : record) (row : cell * cell * option C) : Prop :=
  exists z, row = (Num (v (r_aoi r)), Num (v (r_wavelength r) * k)%R, Some z) /\ is_rho (v (r_psi r)) (v (r_delta r)) z.

Lemma woollam_rho num to_nm v k lines rs : read_woollam_psi_delta num to_nm lines = Ok (map (WoollamT.measured v k) rs) ->
  Forall (fun r => below_90 (v (r_psi r))) rs ->
  exists rows, read_woollam_rho num to_nm lines = Ok rows /\ Forall2 (rho_row v k) rs rows.
Proof.
  intros E B. unfold read_woollam_rho. rewrite E. cbn [rbind].
  apply (rmapM_rel _ (fun r row => row = WoollamT.measured v k r)).
  - clear. induction rs as [|r rs IH]; constructor; auto.
  - intros r row I ->. rewrite Forall_forall in B. destruct (rho_number_ok (v (r_psi r)) (v (r_delta r)) (B r I)) as (z & Z & Q).
    eexists. unfold WoollamT.measured. cbn [Woollam.psi Woollam.delta Woollam.aoi Woollam.wavelength rho_cell rbind]. rewrite Z. cbn [rbind]. split; [reflexivity|]. exists z. split; [reflexivity|exact Q].
Qed.

Theorem C117_wvase_partial : forall num to_nm v head unit first rest r0 fs0 ks k,
  Forall header (head ++ [unit]) ->
  Forall2 (fun l '(o, fs) => wvase_line l o fs) (first :: rest) ((Some r0, fs0) :: ks) ->
  Forall decimal [r_wavelength r0; r_aoi r0; r_psi r0; r_delta r0; r_psi_err r0] -> unsigned (r_delta_err r0) ->
  Forall (wvase_values num v) ((Some r0, fs0) :: ks) ->
  (forall r s, In r (r0 :: measurements (map fst ks)) -> In s (r0 :: measurements (map fst ks)) ->
     v (r_wavelength r) = v (r_wavelength s) -> r_wavelength r = r_wavelength s) ->
  to_nm unit = Some k -> k <> 0%R ->
  Forall (fun r => below_90 (v (r_psi r))) (r0 :: measurements (map fst ks)) ->
  exists rows, read_woollam_rho num to_nm (head ++ unit :: first :: rest) = Ok rows /\
    Forall2 (rho_row v k) (r0 :: measurements (map fst ks)) rows.
Proof.
  intros num to_nm v head unit first rest r0 fs0 ks k H F D U V W K NK B. apply woollam_rho; [|exact B].
  now apply (C54_wvase_partial num to_nm v head unit first rest r0 fs0 ks k).
Qed.
Print Assumptions C117_wvase_partial.

Theorem C117_complete_ease_partial : forall num to_nm v head unit first rest r0 fs0 ks k,
  num (letters "E") = None ->
  Forall header (head ++ [unit]) ->
  Forall2 (fun l '(o, fs) => ease_line l o fs) (first :: rest) ((Some r0, fs0) :: ks) ->
  Forall full_decimal (fields r0) ->
  Forall (ease_values num v) ((Some r0, fs0) :: ks) ->
  to_nm unit = Some k -> k <> 0%R ->
  Forall (fun r => below_90 (v (r_psi r))) (r0 :: measurements (map fst ks)) ->
  exists rows, read_woollam_rho num to_nm (head ++ unit :: first :: rest) = Ok rows /\
    Forall2 (rho_row v k) (r0 :: measurements (map fst ks)) rows.
Proof.
  intros num to_nm v head unit first rest r0 fs0 ks k N H F D V K NK B. apply woollam_rho; [|exact B].
  now apply (C54_complete_ease_partial num to_nm v head unit first rest r0 fs0 ks k).
Qed.
Print Assumptions C117_complete_ease_partial.

(** NeXus, both versions, with the default names of the groups *)
Definition rho_table (m : measurement) (rows : list (R * R * option C)) : Prop :=
  length rows = (length (angles m) * length (angstrom m))%nat /\
  forall i j a w ps ds p d,
    nth_error (angles m) i = Some a -> nth_error (angstrom m) j = Some w ->
    nth_error (psis m) i = Some ps -> nth_error ps j = Some p ->
    nth_error (deltas m) i = Some ds -> nth_error ds j = Some d ->
    exists z, nth_error rows (i * length (angstrom m) + j) = Some (a, (w / 10)%R, Some z) /\ is_rho p d z.

Lemma nexus_rho f m rows : read_nexus_psi_delta f NoNames = Ok rows -> table_of m rows ->
  Forall (Forall below_90) (psis m) -> exists out, read_nexus_rho f = Ok out /\ rho_table m out.
Proof.
  intros E (L & T) B. unfold read_nexus_rho. rewrite E. cbn [rbind]. eexists. split; [reflexivity|]. split; [now rewrite map_length|].
  intros i j a w ps ds p d A W P1 P2 D1 D2. rewrite (map_nth_error _ _ _ (T i j a w ps ds p d A W P1 P2 D1 D2)).
  cbn [NexusPsiDelta.psi NexusPsiDelta.delta NexusPsiDelta.aoi NexusPsiDelta.wavelength].
  assert (Bp : below_90 p). { rewrite Forall_forall in B. apply nth_error_In in P1, P2. specialize (B _ P1). rewrite Forall_forall in B. now apply B. }
  destruct (rho_number_ok p d Bp) as (z & Z & Q). exists z. rewrite Z. split; [reflexivity|exact Q].
Qed.

Theorem C117_nexus : forall f m, complete m -> NoDup (angles m) -> Forall (Forall below_90) (psis m) ->
  (stored f "entry" "instrument" m /\ f "entry/sample/data_type"%string = None) \/ stored_legacy f "entry" "sample" "instrument" m ->
  exists rows, read_nexus_rho f = Ok rows /\ rho_table m rows.
Proof.
  intros f m C N B [[S D]|S].
  - destruct (C82_present f (Names "entry" "sample" "instrument") m C N S D) as (rows & E & T). exact (nexus_rho f m rows E T B).
  - destruct (C82_legacy_partial f (Names "entry" "sample" "instrument") m C N S eq_refl) as (rows & E & T). exact (nexus_rho f m rows E T B).
Qed.
Print Assumptions C117_nexus.

(** rho determines psi, and delta up to whole turns: nothing that was measured is lost. *)
Lemma tan_below_90 p : below_90 p -> (0 <= tan (deg2rad p))%R.
Proof.
  intros B. assert (X := B). destruct X as [A L]. destruct A as [A| <-].
  - apply Rlt_le, tan_gt_0; unfold deg2rad; pose proof PI_RGT_0; [|replace (PI / 2)%R with (90 * PI / 180)%R by field; apply Rmult_lt_compat_r; [lra|]; now apply Rmult_lt_compat_r].
    apply Rmult_lt_0_compat; [|lra]. now apply Rmult_lt_0_compat.
  - unfold deg2rad. rewrite Rmult_0_l. unfold Rdiv. rewrite Rmult_0_l, tan_0. lra.
Qed.

Lemma is_rho_tan p d z : below_90 p -> is_rho p d z -> tan (deg2rad p) = Cmod z.
Proof.
  intros B [X Y]. unfold Cmod. unfold Re in X. unfold Im in Y. rewrite X, Y. fold (deg2rad p). symmetry.
  pose proof (sin2_cos2 (d * PI / 180)) as S. unfold Rsqr in S.
  replace (_ + _)%R with (Rsqr (tan (deg2rad p))); [apply sqrt_Rsqr, tan_below_90, B|]. unfold Rsqr.
  transitivity (tan (deg2rad p) * tan (deg2rad p) * (sin (d * PI / 180) * sin (d * PI / 180) + cos (d * PI / 180) * cos (d * PI / 180)))%R; [rewrite S; ring|ring].
Qed.

Lemma deg_half_turn p : below_90 p -> (- PI / 2 < deg2rad p < PI / 2)%R.
Proof.
  intros [A L]. unfold deg2rad. pose proof PI_RGT_0. split.
  - apply Rlt_le_trans with 0%R; [lra|]. apply Rmult_le_pos; [|lra]. now apply Rmult_le_pos; [|lra].
  - replace (PI / 2)%R with (90 * PI / 180)%R by field. apply Rmult_lt_compat_r; [lra|]. now apply Rmult_lt_compat_r.
Qed.

Theorem C117_determined : forall p d p' d' z, below_90 p -> below_90 p' -> is_rho p d z -> is_rho p' d' z ->
  p = p' /\ ((0 < p)%R -> same_angle d d').
Proof.
  intros p d p' d' z B B' I I'.
  assert (E : p = p').
  { assert (T : tan (deg2rad p) = tan (deg2rad p')) by (rewrite (is_rho_tan p d z B I); symmetry; exact (is_rho_tan p' d' z B' I')).
    assert (Q : deg2rad p = deg2rad p').
    { pose proof (deg_half_turn p B) as H. pose proof (deg_half_turn p' B') as H'.
      rewrite <- (atan_tan (deg2rad p)) by lra. rewrite T. apply atan_tan. lra. }
    unfold deg2rad in Q. pose proof PI_RGT_0. apply (Rmult_eq_reg_r (PI / 180)); [|apply Rgt_not_eq; lra]. lra. }
  subst p'. split; [reflexivity|]. intro P.
  assert (T : (0 < tan (deg2rad p))%R).
  { apply tan_gt_0; [|apply (deg_half_turn p B)]. unfold deg2rad. pose proof PI_RGT_0. apply Rmult_lt_0_compat; [|lra]. now apply Rmult_lt_0_compat. }
  destruct I as [X Y], I' as [X' Y']. fold (deg2rad p) in *. 
  assert (Co : cos (d * PI / 180) = cos (d' * PI / 180)) by (apply (Rmult_eq_reg_l (tan (deg2rad p))); lra).
  assert (Si : sin (d * PI / 180) = sin (d' * PI / 180)) by (apply (Rmult_eq_reg_l (tan (deg2rad p))); lra).
  destruct (cis_eq1 (d' * PI / 180 - d * PI / 180)) as [k K].
  { unfold cis. rewrite cos_minus, sin_minus, Co, Si. pose proof (sin2_cos2 (d' * PI / 180)) as S. unfold Rsqr in S.
    apply C_ext; cbn; lra. }
  exists k. pose proof PI_RGT_0. apply (Rmult_eq_reg_r (PI / 180)); [|apply Rgt_not_eq; lra]. lra.
Qed.
Print Assumptions C117_determined.

(** What the readers of psi and delta raise is raised here, too; strings among psi and delta raise TypeError. *)
Theorem C117_errors : forall num pyfloat to_nm le_index lines f e,
  (SpectraRayPsi.read_psi_delta num pyfloat le_index lines = Err e -> read_spectraray_rho num pyfloat le_index lines = Err e) /\
  (read_woollam_psi_delta num to_nm lines = Err e -> read_woollam_rho num to_nm lines = Err e) /\
  (read_nexus_psi_delta f NoNames = Err e -> read_nexus_rho f = Err e) /\
  (forall rows r t, read_woollam_psi_delta num to_nm lines = Ok rows -> In r rows ->
     Woollam.psi r = Txt t \/ Woollam.delta r = Txt t -> read_woollam_rho num to_nm lines = Err TypeError).
Proof.
  intros num pyfloat to_nm le_index lines f e. unfold read_spectraray_rho, read_woollam_rho, read_nexus_rho.
  split; [now intros ->|]. split; [now intros ->|]. split; [now intros ->|].
  intros rows r t -> I T. cbn [rbind]. induction rows as [|s rows IH]; [destruct I|]. cbn [rmapM]. destruct I as [->|I].
  - assert (X : rho_cell (Woollam.psi r) (Woollam.delta r) = Err TypeError) by (destruct T as [-> | ->]; [reflexivity|now destruct (Woollam.psi r)]).
    now rewrite X.
  - rewrite (IH I). destruct (rho_cell (Woollam.psi s) (Woollam.delta s)) as [z|x] eqn:E; cbn [rbind]; [reflexivity|].
    destruct (Woollam.psi s), (Woollam.delta s); try discriminate E; injection E as <-; reflexivity.
Qed.
Print Assumptions C117_errors.

(** Files *)
Lemma small_below n : (n < 90)%nat -> below_90 (INR n).
Proof. intro L. split; [apply pos_INR|]. replace 90%R with (INR 90) by (rewrite INR_IZR_INZ; reflexivity). now apply lt_INR. Qed.

Example C117_spectraray_example : forall le_index, (forall a b, le_index (Num a) (Num b) = true <-> (a <= b)%R) ->
  exists rows, read_spectraray_rho digit_of digit_of le_index two_angle_file = Ok rows /\ length rows = 4%nat /\
    exists z, In (INR 6, Num (INR 5), Some z) rows /\ is_rho (INR 3) (INR 4) z.
Proof.
  intros le_index O. destruct C83_example as (F & N & A).
  destruct (C117_spectraray_partial digit_of digit_of le_index two_angle_file _ _ O F N) as (rows & values & E & P & _ & V); [discriminate|discriminate| |].
  - unfold two_angle_data. repeat match goal with |- Forall _ _ => constructor end; apply small_below; lia.
  - exists rows. split; [exact E|]. assert (L := Permutation_length P). rewrite A in L, P. cbn [length] in L.
    split; [assert (X : length values = length rows) by (clear -V; induction V; cbn; auto); now rewrite <- X, <- L|].
    assert (I : In (INR 6, INR 5, INR 3, INR 4) values) by (apply (Permutation_in _ P); right; now left).
    clear -V I. induction V as [|v r values rows H V IH]; [destruct I|]. destruct I as [->|I].
    + destruct H as (z & -> & Q). exists z. split; [now left|exact Q].
    + destruct (IH I) as (z & J & Q). exists z. split; [now right|exact Q].
Qed.

Example C117_nexus_example : exists f rows, stored_legacy f "entry" "sample" "instrument" two_angles /\ read_nexus_rho f = Ok rows /\ rho_table two_angles rows.
Proof.
  destruct C82_legacy_example as (f & S). exists f. destruct two_angles_ok as (C & N).
  destruct (C117_nexus f two_angles C N) as (rows & E & T); [|now right|exists rows; auto].
  unfold two_angles, below_90. cbn [psis]. repeat constructor; lra.
Qed.

Example C117_wvase_example : exists z z',
  read_woollam_rho small nanometres
    [chars "nm" ++ [newline];
     WoollamFile.join (fields (rec "3.0" "7.0" "2.0" "-4.0")) ++ [newline];
     WoollamFile.join [chars "dpolE"; chars "3.0"; chars "7.0"; chars "-2.0"; chars "1.0"] ++ [newline];
     WoollamFile.join (fields (rec "4.0" "7.0" "2.0" "-5.0"))] =
  Ok [(Num (INR 7), Num (INR 3 * 1)%R, Some z); (Num (INR 7), Num (INR 4 * 1)%R, Some z')] /\
  is_rho (INR 2) (- INR 4) z /\ is_rho (INR 2) (- INR 5) z'.
Proof.
  destruct (woollam_rho small nanometres value 1 _ [rec "3.0" "7.0" "2.0" "-4.0"; rec "4.0" "7.0" "2.0" "-5.0"] C54_wvase_example) as (rows & E & F).
  - repeat match goal with |- Forall _ _ => constructor end; apply (small_below 2); lia.
  - inversion F as [|r row rs rows' (z & -> & Q) F']; subst. inversion F' as [|r row rs rows'' (z' & -> & Q') F'']; subst. inversion F''; subst.
    exists z, z'. split; [exact E|]. split; [exact Q|exact Q'].
Qed.
