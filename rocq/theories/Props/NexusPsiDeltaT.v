(** C82: psi and delta from NeXus files. *)
From Coq Require Import Reals String List Arith Bool Lia Lra.
From Verif.Base Require Import Py.
From Verif.Model Require Import NexusPsiDelta.
From Verif.Spec Require Import NexusData.
From Verif.Proof Require Import NexusPsiDeltaP.
Import ListNotations.
Open Scope R_scope.
Open Scope string_scope.
Open Scope list_scope.

Lemma append_assoc a b c : (a ++ (b ++ c) = (a ++ b) ++ c)%string.
Proof. induction a as [|x a IH]; [reflexivity|]. cbn. now rewrite IH. Qed.

Lemma nth_combine {A B} (l : list A) (m : list B) i : nth_error (combine l m) i =
  match nth_error l i, nth_error m i with Some a, Some b => Some (a, b) | _, _ => None end.
Proof. revert m i. induction l as [|a l IH]; intros [|b m] [|i]; cbn; auto. now destruct (nth_error l i). Qed.

Lemma zip_fst {A B} (l : list A) (m : list B) : length m = length l -> map fst (combine l m) = l.
Proof. revert m. induction l as [|a l IH]; intros [|b m] E; cbn in *; try discriminate; auto. f_equal. apply IH. lia. Qed.

(** The parts of a complete measurement *)
Definition parts (m : measurement) : list (R * (list R * list R)) := combine (angles m) (combine (psis m) (deltas m)).

Lemma parts_angles m : complete m -> map fst (parts m) = angles m.
Proof. intros (P & D & _). apply zip_fst. rewrite combine_length. lia. Qed.

Lemma parts_len m : complete m -> Forall (fun '(_, (ps, ds)) => length ps = length (angstrom m) /\ length ds = length (angstrom m)) (parts m).
Proof.
  intros (_ & _ & P & D). apply Forall_forall. intros [a [ps ds]] I. apply in_combine_r in I. assert (J := in_combine_l _ _ _ _ I). apply in_combine_r in I.
  rewrite Forall_forall in P, D. auto.
Qed.

Lemma entries_table m : complete m -> table_of m (entries (angstrom m) (parts m)).
Proof.
  intro C. split.
  - rewrite entries_length by now apply parts_len. f_equal. now rewrite <- (parts_angles m C), map_length.
  - intros i j a w ps ds p d A W P P2 D D2. apply entries_nth with ps ds; auto; [now apply parts_len|]. unfold parts. now rewrite !nth_combine, A, P, D.
Qed.

Lemma by_angle_index m i a ps ds : nth_error (parts m) i = Some (a, (ps, ds)) ->
  index [i; 0%nat] (by_angle m) = Ok (arr ps) /\ index [i; 1%nat] (by_angle m) = Ok (arr ds).
Proof.
  unfold parts. rewrite nth_combine. destruct (nth_error (angles m) i); [|discriminate]. destruct (nth_error (combine (psis m) (deltas m)) i) as [[q e]|] eqn:N; [|discriminate]. intros [= <- -> ->].
  unfold by_angle. cbn [index]. rewrite (map_nth_error _ _ _ N). split; reflexivity.
Qed.

(** C82: files of the present version, whatever the names of the groups. *)
Theorem C82_present : forall f g m, complete m -> NoDup (angles m) -> stored f (entry g) (instrument g) m ->
  f (entry g ++ "/sample/data_type")%string = None ->
  exists rows, read_nexus_psi_delta f (Given g) = Ok rows /\ table_of m rows.
Proof.
  intros f g m C N (T & D & A & W) S. exists (entries (angstrom m) (parts m)). split; [|now apply entries_table].
  unfold read_nexus_psi_delta, data_type. cbn [rbind]. rewrite S, T. cbn [rbind]. change ("Psi/Delta" =? "psi/delta") with false. change ("Psi/Delta" =? "Psi/Delta") with true. cbv iota.
  unfold read_nx_opt_def. apply (read_data_spec f _ _ _ _ (by_angle m)).
  - unfold full_instrument_path. rewrite (parts_angles m C). rewrite <- !append_assoc. exact A.
  - exact W.
  - exact D.
  - intros i a ps ds I. destruct (by_angle_index m i a ps ds I) as [X Y]. split; [exact X|]. split; [exact Y|].
    assert (L := parts_len m C). rewrite Forall_forall in L. exact (L _ (nth_error_In _ _ I)).
  - now rewrite (parts_angles m C).
Qed.
Print Assumptions C82_present.

(** C82, files of the first version whose sample has the name sample. *)
Theorem C82_legacy_partial : forall f g m, complete m -> NoDup (angles m) -> stored_legacy f (entry g) (sample g) (instrument g) m ->
  sample g = "sample" ->
  exists rows, read_nexus_psi_delta f (Given g) = Ok rows /\ table_of m rows.
Proof.
  intros f g m C N (T & D & A & W) S. exists (entries (angstrom m) (parts m)). split; [|now apply entries_table].
  unfold read_nexus_psi_delta, data_type. cbn [rbind]. rewrite S in *. change (entry g ++ "/sample/data_type")%string with (entry g ++ "/" ++ "sample" ++ "/data_type")%string. rewrite T. cbn [rbind].
  change ("psi/delta" =? "psi/delta") with true. cbv iota.
  unfold read_legacy. apply (read_data_spec f _ _ _ _ (Arr [Arr [by_angle m]])).
  - unfold full_instrument_path. rewrite (parts_angles m C). rewrite <- !append_assoc. exact A.
  - unfold full_instrument_path. rewrite <- !append_assoc. exact W.
  - unfold full_sample_path. rewrite S, <- !append_assoc. exact D.
  - intros i a ps ds I. destruct (by_angle_index m i a ps ds I) as [X Y]. split; [exact X|]. split; [exact Y|].
    assert (L := parts_len m C). rewrite Forall_forall in L. exact (L _ (nth_error_In _ _ I)).
  - now rewrite (parts_angles m C).
Qed.
Print Assumptions C82_legacy_partial.

(** Without the argument the groups have their default names. *)
Theorem C82_default : forall f, read_nexus_psi_delta f NoNames = read_nexus_psi_delta f (Given (Names "entry" "sample" "instrument")).
Proof. reflexivity. Qed.
Print Assumptions C82_default.

(** What is not read raises: the argument has a wrong type, there is no data type, or one that is not known. *)
Theorem C82_errors : forall f g,
  read_nexus_psi_delta f WrongType = Err ValueError /\
  (f (entry g ++ "/sample/data_type")%string = None -> f (entry g ++ "/data_collection/data_type")%string = None ->
     read_nexus_psi_delta f (Given g) = Err ValueError) /\
  (forall s, f (entry g ++ "/sample/data_type")%string = Some (Text s) -> s <> "psi/delta" -> s <> "Psi/Delta" ->
     read_nexus_psi_delta f (Given g) = Err NotImplementedError) /\
  (forall s, f (entry g ++ "/sample/data_type")%string = None -> f (entry g ++ "/data_collection/data_type")%string = Some (Text s) -> s <> "psi/delta" -> s <> "Psi/Delta" ->
     read_nexus_psi_delta f (Given g) = Err NotImplementedError).
Proof.
  intros f g. split; [reflexivity|]. unfold read_nexus_psi_delta, data_type. cbn [rbind]. split; [|split].
  - intros -> ->. reflexivity.
  - intros s -> A B. cbn [rbind]. apply String.eqb_neq in A, B. now rewrite A, B.
  - intros s -> -> A B. cbn [rbind]. apply String.eqb_neq in A, B. now rewrite A, B.
Qed.
Print Assumptions C82_errors.

(** A file from a list of its datasets *)
Definition file_of (l : list (string * dataset)) : file :=
  fun path => match find (fun p => fst p =? path) l with Some p => Some (snd p) | None => None end.
Definition two_angles : measurement := Measurement [50; 60] [4000; 5000; 6000] [[10; 11; 12]; [20; 21; 22]] [[100; 101; 102]; [200; 201; 202]].

Lemma two_angles_ok : complete two_angles /\ NoDup (angles two_angles).
Proof.
  split; [repeat split; repeat constructor|]. cbn. constructor; [intros [H|[]]; lra|]. constructor; [intros []|constructor].
Qed.

Example C82_example : exists f, stored f "measurement" "tool" two_angles /\ f "measurement/sample/data_type" = None /\
  read_nexus_psi_delta f (Given (Names "measurement" "film" "tool")) =
    Ok [Row 50 (4000 / 10) (Some 10) (Some 100); Row 50 (5000 / 10) (Some 11) (Some 101); Row 50 (6000 / 10) (Some 12) (Some 102);
        Row 60 (4000 / 10) (Some 20) (Some 200); Row 60 (5000 / 10) (Some 21) (Some 201); Row 60 (6000 / 10) (Some 22) (Some 202)].
Proof.
  exists (file_of [("measurement/data_collection/data_type", Text "Psi/Delta"); ("measurement/data_collection/measured_data", Data (by_angle two_angles));
    ("measurement/tool/angle_of_incidence", numbers [50; 60]); ("measurement/data_collection/wavelength_spectrum", numbers [4000; 5000; 6000])]).
  set (f := file_of _). assert (S : stored f "measurement" "tool" two_angles) by (repeat split; reflexivity). split; [exact S|]. split; [reflexivity|].
  destruct (C82_present f (Names "measurement" "film" "tool") two_angles) as (rows & E & _); [apply two_angles_ok|apply two_angles_ok|exact S|reflexivity|].
  rewrite E. f_equal. unfold read_nexus_psi_delta, data_type in E. cbn [rbind] in E.
  change (f "measurement/sample/data_type") with (@None dataset) in E.
  assert (X : Ok (entries (angstrom two_angles) (parts two_angles)) = Ok rows).
  { rewrite <- E. symmetry. change (read_nx_opt_def f (Names "measurement" "film" "tool") = Ok (entries (angstrom two_angles) (parts two_angles))).
    apply (read_data_spec f _ _ _ _ (by_angle two_angles)); try reflexivity; [|apply two_angles_ok].
    intros [|[|i]] a ps ds I; cbn in I; try (injection I as <- <- <-; repeat split; reflexivity). now destruct i. }
  injection X as <-. reflexivity.
Qed.

Example C82_legacy_example : exists f, stored_legacy f "entry" "sample" "instrument" two_angles.
Proof.
  exists (file_of [("entry/sample/data_type", Text "psi/delta"); ("entry/sample/measured_data", Data (Arr [Arr [by_angle two_angles]]));
    ("entry/instrument/angle_of_incidence", numbers [50; 60]); ("entry/instrument/spectrometer/wavelength", numbers [4000; 5000; 6000])]).
  repeat split; reflexivity.
Qed.

(** C82 is false for a sample with another name in a file of the first version: its data type is looked up under the
    name sample. *)
Theorem C82_sample_refuted : exists f g m, complete m /\ NoDup (angles m) /\ stored_legacy f (entry g) (sample g) (instrument g) m /\
  read_nexus_psi_delta f (Given g) = Err ValueError.
Proof.
  exists (file_of [("entry/film/data_type", Text "psi/delta"); ("entry/film/measured_data", Data (Arr [Arr [by_angle two_angles]]));
    ("entry/instrument/angle_of_incidence", numbers [50; 60]); ("entry/instrument/spectrometer/wavelength", numbers [4000; 5000; 6000])]),
    (Names "entry" "film" "instrument"), two_angles.
  split; [apply two_angles_ok|]. split; [apply two_angles_ok|]. split; [repeat split; reflexivity|reflexivity].
Qed.
Print Assumptions C82_sample_refuted.

(** The documented exception for other data is ValueError. *)
Theorem C82_documented_refuted : exists f s, f "entry/data_collection/data_type" = Some (Text s) /\ s <> "psi/delta" /\ s <> "Psi/Delta" /\
  read_nexus_psi_delta f NoNames <> Err ValueError.
Proof.
  exists (file_of [("entry/data_collection/data_type", Text "Mueller matrix")]), "Mueller matrix". repeat split; discriminate.
Qed.
Print Assumptions C82_documented_refuted.

(** Two measurements with the same angle cannot be read. *)
Theorem C82_repeated_refuted : exists f m, complete m /\ stored f "entry" "instrument" m /\ f "entry/sample/data_type" = None /\
  read_nexus_psi_delta f NoNames = Err ValueError.
Proof.
  exists (file_of [("entry/data_collection/data_type", Text "Psi/Delta"); ("entry/data_collection/measured_data", Data (by_angle (Measurement [50; 50] [4000; 5000] [[10; 20]; [11; 21]] [[100; 200]; [101; 201]])));
    ("entry/instrument/angle_of_incidence", numbers [50; 50]); ("entry/data_collection/wavelength_spectrum", numbers [4000; 5000])]), (Measurement [50; 50] [4000; 5000] [[10; 20]; [11; 21]] [[100; 200]; [101; 201]]).
  split; [repeat split; repeat constructor|]. split; [repeat split; reflexivity|]. split; [reflexivity|].
  set (f := file_of _). unfold read_nexus_psi_delta, data_type. cbn [rbind]. change (f (entry default_names ++ "/sample/data_type")%string) with (@None dataset).
  change (f (entry default_names ++ "/data_collection/data_type")%string) with (Some (Text "Psi/Delta")). cbn [rbind].
  change ("Psi/Delta" =? "psi/delta") with false. change ("Psi/Delta" =? "Psi/Delta") with true. cbv iota. unfold read_nx_opt_def, read_data, get_array.
  change (f (full_instrument_path default_names ++ "/angle_of_incidence")%string) with (Some (numbers [50; 50])).
  change (f (entry default_names ++ "/data_collection/wavelength_spectrum")%string) with (Some (numbers [4000; 5000])).
  change (f (entry default_names ++ "/data_collection/measured_data")%string) with (Some (Data (by_angle (Measurement [50; 50] [4000; 5000] [[10; 20]; [11; 21]] [[100; 200]; [101; 201]])))).
  unfold numbers. cbn. destruct (Req_EM_T 50 50) as [_|N]; [|now destruct N]. reflexivity.
Qed.
Print Assumptions C82_repeated_refuted.
