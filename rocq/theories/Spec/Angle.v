(** Angles in degrees, independent of the model. *)
From Coq Require Import Reals ZArith.
Open Scope R_scope.

(** Two angles are the same direction when they differ by whole turns. *)
Definition same_angle (a b : R) : Prop := exists k : Z, b = a + 360 * IZR k.

(** The half-open turn that starts at [l]. *)
Definition in_turn (l a : R) : Prop := l <= a < l + 360.

(** The ranges that the documentation allows:
    "Range must be (0, 180) or a 360 degree range" with the lower bound between
    -360 and 0 and the upper bound between 0 and 360. *)
Definition allowed_range (l u : Z) : Prop :=
  (l = 0 /\ u = 180)%Z \/ (u = l + 360 /\ -360 <= l <= 0)%Z.

Definition rad (d : R) : R := d * PI / 180.
