(** What a NeXus file with optical materials means (C55). *)
From Coq Require Import Reals String List.
From Coquelicot Require Import Complex.
From Verif.Base Require Import Py Cx.
From Verif.Model Require Import DispAdd Tables Nexus.
From Verif.Spec Require Import Adding.
Import ListNotations.
Open Scope R_scope.

Section File.
Variable Fn : Type.
Variable formula : kind -> Fn -> res (R -> option C).

(** The child describes a dispersion of this kind with these values, as a table or not *)
Inductive gives : child Fn -> kind -> bool -> (R -> option C) -> Prop :=
| gives_eps d v : formula KEps d = Ok v -> gives (Function (NxFunction true true false (Some "eps"%string) (Some d))) KEps false v
| gives_n d v : formula KIdx d = Ok v -> gives (Function (NxFunction true true false (Some "n"%string) (Some d))) KIdx false v
| gives_table_n w n e l : table w n = Ok l -> gives (Tabulated (NxTable (Some w) None (Some n) e)) KIdx true (interpolated l)
| gives_table_eps w e l : table w e = Ok l -> gives (Tabulated (NxTable (Some w) None None (Some e))) KEps true (interpolated l).

(** The group describes dispersions of one kind, with these values; children of other classes do not count *)
Inductive describes : list (child Fn) -> kind -> list (bool * (R -> option C)) -> Prop :=
| describes_nil k : describes [] k []
| describes_other g k vs : describes g k vs -> describes (OtherClass :: g) k vs
| describes_more c g k b v vs : gives c k b v -> describes g k vs -> describes (c :: g) k ((b, v) :: vs).

(** Two tables first *)
Definition two_tables (vs : list (bool * (R -> option C))) : Prop :=
  match vs with (true, _) :: (true, _) :: _ => True | _ => False end.

(** The permittivity of the sum: permittivities or refractive indices are added *)
Definition permittivity (k : kind) (vs : list (bool * (R -> option C))) (lbda : R) : option C :=
  let s := total (map (fun v => snd v lbda) vs) in
  match k with KEps => s | KIdx => match s with Some n => Some (n * n)%C | None => None end end.

(** The group has this permittivity *)
Definition has_permittivity (g : list (child Fn)) (f : R -> option C) : Prop :=
  exists k vs, describes g k vs /\ vs <> [] /\ ~ two_tables vs /\ forall lbda, f lbda = permittivity k vs lbda.

(** An entry with its material: the class and the permittivities along the axes *)
Inductive shape := IsIsotropic | IsUniaxial | IsBiaxial.
Inductive means : entry Fn -> shape -> (R -> option C) -> (R -> option C) -> (R -> option C) -> Prop :=
| means_isotropic x fx : has_permittivity x fx -> means (Entry (Some x) None None) IsIsotropic fx fx fx
| means_uniaxial x z fx fz : has_permittivity x fx -> has_permittivity z fz -> means (Entry (Some x) None (Some z)) IsUniaxial fx fx fz
| means_biaxial x y z fx fy fz : has_permittivity x fx -> has_permittivity y fy -> has_permittivity z fz ->
    means (Entry (Some x) (Some y) (Some z)) IsBiaxial fx fy fz.
End File.
Definition shape_of (m : material) : shape :=
  match m with Isotropic _ => IsIsotropic | Uniaxial _ _ => IsUniaxial | Biaxial _ _ _ => IsBiaxial end.
