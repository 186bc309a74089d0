(** Which dispersions accept lists of wavelengths: the parts are tables, or constants that do not
    compute with the wavelength. *)
From Coq Require Import List Bool.
From Verif.Model Require Import Frames.
Import ListNotations.

Fixpoint takes_lists (d : disp) : bool :=
  match d with
  | One _ (Const t _) => negb t
  | One _ (Arith _) => false
  | One _ (Tab _ _ _ _) => true
  | Total _ ps => (fix go (ps : list disp) := match ps with [] => true | p :: ps => takes_lists p && go ps end) ps
  | AsIndex d => takes_lists d
  end.
