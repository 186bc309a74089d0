(** What a NeXus file of psi and delta says *)
From Coq Require Import Reals String List.
From Verif.Model Require Import NexusPsiDelta.
Import ListNotations.
Open Scope R_scope.
Open Scope string_scope.
Open Scope list_scope.

(** The angles of incidence, the wavelengths in Angstrom, and psi and delta for each angle and wavelength *)
Record measurement := Measurement { angles : list R; angstrom : list R; psis : list (list R); deltas : list (list R) }.

Definition complete (m : measurement) : Prop :=
  length (psis m) = length (angles m) /\ length (deltas m) = length (angles m) /\
  Forall (fun l => length l = length (angstrom m)) (psis m) /\ Forall (fun l => length l = length (angstrom m)) (deltas m).

Definition numbers (l : list R) : dataset := Data (Arr (map Scalar l)).
(** An array with the axes angle, observable (psi, delta), wavelength *)
Definition by_angle (m : measurement) : nd :=
  Arr (map (fun '(p, d) => Arr [Arr (map Scalar p); Arr (map Scalar d)]) (combine (psis m) (deltas m))).

(** The first version of NXellipsometry: two more axes, of length one *)
Definition stored_legacy (f : file) (entry sample instrument : string) (m : measurement) : Prop :=
  f (entry ++ "/" ++ sample ++ "/data_type")%string = Some (Text "psi/delta") /\
  f (entry ++ "/" ++ sample ++ "/measured_data")%string = Some (Data (Arr [Arr [by_angle m]])) /\
  f (entry ++ "/" ++ instrument ++ "/angle_of_incidence")%string = Some (numbers (angles m)) /\
  f (entry ++ "/" ++ instrument ++ "/spectrometer/wavelength")%string = Some (numbers (angstrom m)).

(** The present version *)
Definition stored (f : file) (entry instrument : string) (m : measurement) : Prop :=
  f (entry ++ "/data_collection/data_type")%string = Some (Text "Psi/Delta") /\
  f (entry ++ "/data_collection/measured_data")%string = Some (Data (by_angle m)) /\
  f (entry ++ "/" ++ instrument ++ "/angle_of_incidence")%string = Some (numbers (angles m)) /\
  f (entry ++ "/data_collection/wavelength_spectrum")%string = Some (numbers (angstrom m)).

(** The rows of the table: by angle and wavelength (in nm), every combination once *)
Definition table_of (m : measurement) (rows : list row) : Prop :=
  length rows = (length (angles m) * length (angstrom m))%nat /\
  forall i j a w ps ds p d,
    nth_error (angles m) i = Some a -> nth_error (angstrom m) j = Some w ->
    nth_error (psis m) i = Some ps -> nth_error ps j = Some p ->
    nth_error (deltas m) i = Some ds -> nth_error ds j = Some d ->
    nth_error rows (i * length (angstrom m) + j) = Some (Row a (w / 10) (Some p) (Some d)).
