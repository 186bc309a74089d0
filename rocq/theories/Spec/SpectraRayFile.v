(** What a SpectraRay file of a dielectric function says *)
From Coq Require Import Ascii String List Reals.
Import ListNotations.
Open Scope char_scope.
Open Scope list_scope.

Definition line := list ascii.
Definition letters (s : string) : line := list_ascii_of_string s.

Definition blank (c : ascii) : Prop := c = " " \/ c = "009".
Definition white (c : ascii) : Prop := blank c \/ In c ["010"; "011"; "012"; "013"; "028"; "029"; "030"; "031"].

(** A line with this text and white space around it *)
Definition says (w : string) (l : line) : Prop :=
  exists a b, l = a ++ letters w ++ b /\ Forall white a /\ Forall white b.

(** A line of three words *)
Definition a_word (w : line) : Prop := w <> [] /\ Forall (fun c => ~ white c) w.
Definition three (l x y z : line) : Prop :=
  a_word x /\ a_word y /\ a_word z /\
  exists b0 b1 b2 b3 nl, l = b0 ++ x ++ b1 ++ y ++ b2 ++ z ++ b3 ++ nl /\ Forall blank b0 /\ Forall blank b1 /\ Forall blank b2 /\ Forall blank b3 /\
    b1 <> [] /\ b2 <> [] /\ (nl = [] \/ nl = ["010"]).

(** The line that names the unit of the first column *)
Definition names (l name : line) : Prop :=
  exists more, l = letters "Units=" ++ name ++ "," :: more /\ ~ In "=" name /\ ~ In "," name.
Definition other (l : line) : Prop := ~ exists more, l = letters "Units=" ++ more.

(** One begin and one end marker, three words in each line between them; the unit is named by the last such line, which
    is not the first line of the file *)
Definition spectraray (file : list line) (unit : line) (rows : list (line * line * line)) : Prop :=
  (exists head b data e tail, file = head ++ b :: data ++ e :: tail /\ says "Begin of array" b /\ says "End of array" e /\
     Forall (fun l => ~ says "Begin of array" l /\ ~ says "End of array" l) (head ++ data ++ tail) /\
     Forall2 (fun l '(x, y, z) => three l x y z) data rows) /\
  (exists pre u post, file = pre ++ u :: post /\ pre <> [] /\ names u unit /\ Forall other post).
