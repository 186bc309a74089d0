(** What an Accurion file says *)
From Coq Require Import Ascii String List Reals.
From Verif.Spec Require Import SpectraRayFile WoollamFile.
Import ListNotations.
Open Scope list_scope.

(** Lines of fields that are separated by tabs: the first field is not empty *)
Definition tabbed (l : line) (fs : list line) : Prop :=
  exists f r nl, fs = f :: r /\ a_word f /\ Forall solid r /\ line_end nl /\ l = join fs ++ nl.

(** The names of the columns, their units, and a line for each measurement *)
Definition accurion_file (num : line -> option R) (file : list line) (names : list line) (data : list (list R)) : Prop :=
  exists head units lines us,
    file = head :: units :: lines /\ tabbed head names /\ NoDup names /\ tabbed units us /\ length us = length names /\
    Forall2 (fun l rs => exists fs, tabbed l fs /\ Forall2 (fun f r => f <> [] /\ num f = Some r) fs rs /\ length rs = length names) lines data.

(** The value of a measurement in the column of this name *)
Definition value_at (names : list line) (rs : list R) (name : string) (r : R) : Prop :=
  exists j, nth_error names j = Some (letters name) /\ nth_error rs j = Some r.
(** A measurement: angle of incidence, wavelength, delta and psi *)
Definition says (names : list line) (rs : list R) : R * R * R * R -> Prop := fun '(a, w, d, p) =>
  value_at names rs "AOI" a /\ value_at names rs "Lambda" w /\ value_at names rs "Delta" d /\ value_at names rs "Psi" p.

(** Angle and wavelength *)
Definition place : R * R * R * R -> R * R := fun '(a, w, _, _) => (a, w).
(** The sum of a quantity over the measurements at this angle and wavelength *)
Fixpoint sum_at (f : R * R * R * R -> R) (k : R * R) (l : list (R * R * R * R)) : R :=
  match l with
  | [] => 0%R
  | v :: l' => ((if Req_EM_T (fst k) (fst (place v)) then if Req_EM_T (snd k) (snd (place v)) then f v else 0 else 0) + sum_at f k l')%R
  end.
(** By angle, then by wavelength *)
Definition place_before (k l : R * R) : Prop := (fst k < fst l \/ fst k = fst l /\ snd k < snd l)%R.
