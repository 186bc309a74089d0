(** Dispersions whose text can be understood, independent of how it is written. *)
From Coq Require Import String Ascii List.
From Verif.Model Require Import DispRepr.
Import ListNotations.
Open Scope string_scope.

(** The character does not occur in the text. *)
Fixpoint free (c : ascii) (s : string) : Prop :=
  match s with "" => True | String a s => a <> c /\ free c s end.

(** Names and values on one line, without the signs that separate them *)
Definition word (s : string) : Prop := free (ascii_of_nat 10) s /\ free "," s /\ free "=" s.
Definition words (d : dict) : Prop := Forall (fun item => word (fst item) /\ word (snd item)) d.

(** Classes have names on one line and are not called like the headline of the oscillators; every
    oscillator has at least one parameter. *)
Definition plain (d : disp) : Prop :=
  free (ascii_of_nat 10) (class d) /\ class d <> "Oscillators" /\
  words (single_params d) /\ Forall (fun o => words o /\ o <> []) (rep_params d).

Definition shown (p : printed) : Prop :=
  match p with
  | One d => plain d /\ class d <> "DispersionSum" /\ class d <> "IndexDispersionSum"
  | Sum _ l => Forall plain l
  end.
