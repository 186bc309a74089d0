(** What Woollam files of psi and delta say *)
From Coq Require Import Ascii String List Reals.
From Verif.Spec Require Import SpectraRayFile.
Import ListNotations.
Open Scope char_scope.
Open Scope list_scope.

Definition a_digit (c : ascii) : Prop := In c (letters "0123456789").
Definition a_letter (c : ascii) : Prop := In c (letters "abcdefghijklmnopqrstuvwxyzABCDEFGHIJKLMNOPQRSTUVWXYZ").

(** The strings that Python's float accepts, but for the names of infinity and nan, underscores and white space around *)
Definition digits (s : line) : Prop := s <> [] /\ Forall a_digit s.
Definition a_sign (s : line) : Prop := s = [] \/ s = ["+"] \/ s = ["-"].
Definition mantissa (s : line) : Prop :=
  digits s \/ (exists a b, s = a ++ "." :: b /\ Forall a_digit a /\ Forall a_digit b /\ (a <> [] \/ b <> [])).
Definition an_exponent (s : line) : Prop :=
  s = [] \/ exists e sg d, s = e :: sg ++ d /\ (e = "e" \/ e = "E") /\ a_sign sg /\ digits d.
Definition a_float (s : line) : Prop := exists sg m e, s = sg ++ m ++ e /\ a_sign sg /\ mantissa m /\ an_exponent e.

(** Numbers as they are written in the tables *)
Definition unsigned (s : line) : Prop := exists a b, s = a ++ "." :: b /\ Forall a_digit a /\ Forall a_digit b.
Definition decimal (s : line) : Prop := unsigned s \/ exists t, s = "-" :: t /\ unsigned t.
Definition full_decimal (s : line) : Prop := exists a b, s = a ++ "." :: b /\ digits a /\ digits b.

(** A line before the table: it has a letter, and after the first word comes no number and no TRIG *)
Definition header (l : line) : Prop :=
  (exists c, In c l /\ a_letter c) /\
  forall w b c x, l = w ++ b ++ c :: x -> Forall a_letter w -> Forall white b -> b <> [] -> ~ a_digit c /\ c <> "T".

(** Fields separated by tabs *)
Fixpoint join (l : list line) : line :=
  match l with [] => [] | [f] => f | f :: l' => f ++ "009" :: join l' end.
Definition line_end (nl : line) : Prop := nl = [] \/ nl = ["010"].
Definition solid (f : line) : Prop := Forall (fun c => ~ white c) f.

(** A measurement: wavelength, angle of incidence, psi, delta and their errors *)
Record record := Rec { r_wavelength : line; r_aoi : line; r_psi : line; r_delta : line; r_psi_err : line; r_delta_err : line }.
Definition fields (r : record) : list line := [r_wavelength r; r_aoi r; r_psi r; r_delta r; r_psi_err r; r_delta_err r].

(** A line of a WVASE table with its fields: a measurement, or a label without a digit and other values *)
Inductive wvase_line : line -> option record -> list line -> Prop :=
| wvase_data r nl : Forall a_word (fields r) -> line_end nl -> (exists c, In c (r_wavelength r) /\ a_digit c) ->
    wvase_line (join (fields r) ++ nl) (Some r) (fields r)
| wvase_other label fs nl : a_word label -> (forall c, In c label -> ~ a_digit c) -> Forall solid fs -> (length fs <= 5)%nat -> line_end nl ->
    wvase_line (join (label :: fs) ++ nl) None (label :: fs).

(** A line of a CompleteEASE table with its fields: a measurement with the label E, or another label and other values *)
Inductive ease_line : line -> option record -> list line -> Prop :=
| ease_data r nl : Forall a_word (fields r) -> line_end nl -> ease_line (join (letters "E" :: fields r) ++ nl) (Some r) (letters "E" :: fields r)
| ease_other label fs nl : a_word label -> label <> letters "E" -> Forall solid fs -> (length fs <= 6)%nat -> line_end nl ->
    ease_line (join (label :: fs) ++ nl) None (label :: fs).

(** The measurements among the lines *)
Fixpoint measurements (l : list (option record)) : list record :=
  match l with [] => [] | Some r :: l' => r :: measurements l' | None :: l' => measurements l' end.
