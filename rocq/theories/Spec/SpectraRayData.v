(** What a SpectraRay file of psi and delta or of Mueller matrices says *)
From Coq Require Import Ascii String List Reals.
From Verif.Spec Require Import SpectraRayFile.
Import ListNotations.
Open Scope char_scope.
Open Scope list_scope.

(** A line of words *)
Inductive spaced : line -> list line -> Prop :=
| spaced_last b w b' nl : Forall blank b -> a_word w -> Forall blank b' -> nl = [] \/ nl = ["010"] -> spaced (b ++ w ++ b' ++ nl) [w]
| spaced_word b w c l ws : Forall blank b -> a_word w -> blank c -> spaced l ws -> spaced (b ++ w ++ c :: l) (w :: ws).

(** The first line: it begins with a word and ends with a newline *)
Definition first_line (l : line) (ws : list line) : Prop :=
  spaced l ws /\ (exists c r, l = c :: r /\ ~ blank c) /\ exists r, l = r ++ ["010"].

(** A measurement at a wavelength: psi and delta for each angle *)
Definition measured : Type := R * list (R * R).
Definition in_line (m : measured) : list R := fst m :: flat_map (fun '(p, d) => [p; d]) (snd m).

(** The numbers that the words of a line are *)
Definition numbers_of (num : line -> option R) (ws : list line) (rs : list R) : Prop := Forall2 (fun w r => num w = Some r) ws rs.

(** A semicolon and the word WAVELENGTH, and every angle twice, for psi and delta; then a line for each wavelength.
    num and head_num: how the numbers of the lines and of the first line are written *)
Definition psi_delta_file (num head_num : line -> option R) (file : list line) (angles : list R) (data : list measured) : Prop :=
  exists head lines semicolon name texts,
    file = head :: lines /\ first_line head (semicolon :: name :: flat_map (fun t => [t; t]) texts) /\ numbers_of head_num texts angles /\
    Forall2 (fun l m => exists ws, spaced l ws /\ numbers_of num ws (in_line m) /\ length (snd m) = length angles) lines data.

(** All measured values: angle, wavelength, psi and delta *)
Definition all_values (angles : list R) (data : list measured) : list (R * R * R * R) :=
  flat_map (fun m => map (fun '(a, (p, d)) => (a, fst m, p, d)) (combine angles (snd m))) data.

(** Mueller matrices: a semicolon, the word WAVELENGTH and sixteen names for each of the entries; then a line for each
    wavelength with sixteen numbers for each entry *)
Definition mueller_file (num : line -> option R) (file : list line) (entries : nat) (data : list (R * list (list R))) : Prop :=
  exists head lines ws,
    file = head :: lines /\ spaced head ws /\ length ws = (2 + 16 * entries)%nat /\
    Forall2 (fun l m => exists ws, spaced l ws /\ numbers_of num ws (fst m :: concat (snd m)) /\
               length (snd m) = entries /\ Forall (fun e => length e = 16%nat) (snd m)) lines data.
