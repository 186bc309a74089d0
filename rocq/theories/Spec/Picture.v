(** The index along a direction and the picture of a stack (C56, C75). *)
From Coq Require Import Reals List.
From Coquelicot Require Import Complex.
From Verif.Base Require Import Cx Mat.
Import ListNotations.
Open Scope R_scope.

(** v . eps . v *)
Definition along (v : nat -> R) (eps : mat) : C :=
  csum 3 (fun i => csum 3 (fun j => RtoC (v i) * eps i j * RtoC (v j))%C).
Definition unit_vector (v : nat -> R) : Prop := v 0%nat * v 0%nat + v 1%nat * v 1%nat + v 2%nat * v 2%nat = 1.
(** The refractive index is the principal root *)
Definition index_along (v : nat -> R) (eps : mat) (n : C) : Prop := principal n /\ (n * n)%C = along v eps.

(** The layers of a picture, one below the other, from the depth z on *)
Fixpoint stacked (z : R) (layers : list (R * R)) (pieces : list (R * R * R)) : Prop :=
  match layers, pieces with
  | [], [] => True
  | (h, n) :: layers', (a, b, m) :: pieces' => a = z /\ b = z + h /\ m = n /\ stacked (z + h) layers' pieces'
  | _, _ => False
  end.
Fixpoint total (layers : list (R * R)) : R := match layers with [] => 0 | (h, _) :: l => h + total l end.
