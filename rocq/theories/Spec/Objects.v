(** Well-formed samples and programs that build them, for the objects of [Model/Sample.v]. *)
From Coq Require Import Reals List ZArith.
From Verif.Base Require Import Py.
From Verif.Model Require Import Structure Sample.
Import ListNotations.
Open Scope R_scope.

(** What an address refers to *)
Definition material (h : heap) (a : nat) := exists b, nth_error h a = Some (OMat b).
Definition mixture (h : heap) (a : nat) := nth_error h a = Some (OMat true).
Definition a_list (h : heap) (a : nat) := exists items, nth_error h a = Some (OList items).
Definition layer_at (h : heap) (a : nat) :=
  (exists m t, nth_error h a = Some (OLayer m t)) \/ (exists l r b n, nth_error h a = Some (ORep l r b n)) \/
  (exists m t d angle, nth_error h a = Some (OTwist m t d angle)) \/ (exists m t d f, nth_error h a = Some (OVary m t d f)).
(** A list of layers *)
Definition layer_list (h : heap) (l : nat) :=
  exists items, nth_error h l = Some (OList items) /\ forall i, In i items -> layer_at h i.

(** Thicknesses that are not negative; nan is none *)
Definition not_negative (t : option R) := match t with Some x => 0 <= x | None => True end.
Definition valid_obj (h : heap) (o : obj) : Prop :=
  match o with
  | OMat _ | OOther => True
  | OList items => forall i, In i items -> (i < length h)%nat
  | OLayer m t => material h m /\ not_negative t
  | ORep l r b n => a_list h l /\ (1 <= r)%Z /\ (0 <= b)%Z /\ (0 <= n)%Z
  | OTwist m t d _ => material h m /\ not_negative t /\ (1 <= d)%Z
  | OVary m t d _ => mixture h m /\ not_negative t /\ (1 <= d)%Z
  | OStruct f l b => material h f /\ a_list h l /\ material h b
  end.
(** The lists in use hold layers *)
Definition tidy_obj (h : heap) (o : obj) : Prop :=
  match o with ORep l _ _ _ | OStruct _ l _ => layer_list h l | _ => True end.

(** The arguments that a statement should accept *)
Definition good_thickness (t : number) := match t with Num t => not_negative t | NoNum => False end.
Definition good_integer (low : Z) (d : integer) := match d with Int z => (low <= z)%Z | NoInt => False end.
Definition acceptable (h : heap) (o : op) : Prop :=
  match o with
  | NewMat _ | NewOther => True
  | NewList items => forall i, In i items -> (i < length h)%nat
  | NewLayer m t => material h m /\ good_thickness t
  | NewRep l r b a => layer_list h l /\ good_integer 1 r /\ good_integer 0 b /\ good_integer 0 a
  | NewTwist m t d _ => material h m /\ good_thickness t /\ good_integer 1 d
  | NewVary m t d _ => mixture h m /\ good_thickness t /\ good_integer 1 d
  | NewStruct f l b => material h f /\ layer_list h l /\ material h b
  | SetThickness x t => layer_at h x /\ (forall l r b n, nth_error h x <> Some (ORep l r b n)) /\ good_thickness t
  | SetMaterial x m => layer_at h x /\ (forall l r b n, nth_error h x <> Some (ORep l r b n)) /\ material h m /\
      ((exists m' t d f, nth_error h x = Some (OVary m' t d f)) -> mixture h m)
  | SetDivisions x d => good_integer 1 d /\
      ((exists m t n angle, nth_error h x = Some (OTwist m t n angle)) \/ exists m t n f, nth_error h x = Some (OVary m t n f))
  | SetRepetitions x r b a => (exists l p q s, nth_error h x = Some (ORep l p q s)) /\
      good_integer 1 r /\ good_integer 0 b /\ good_integer 0 a
  | SetLayers x l => layer_list h l /\
      ((exists k p q s, nth_error h x = Some (ORep k p q s)) \/ exists f k b, nth_error h x = Some (OStruct f k b))
  | SetFront x m | SetBack x m => material h m /\ exists f k b, nth_error h x = Some (OStruct f k b)
  | Append l i => a_list h l /\ (i < length h)%nat
  end.

(** Programs: a condition on every statement in the heap in which it runs *)
Fixpoint always (P : heap -> op -> Prop) (h : heap) (ops : list op) : Prop :=
  match ops with [] => True | o :: ops => P h o /\ always P (fst (step h o)) ops end.
(** Only layers are appended to lists *)
Definition appends_layers (h : heap) (o : op) : Prop := match o with Append _ i => layer_at h i | _ => True end.
(** ... that are older than the list, and repeated layers get lists that are older than themselves *)
Definition in_order (h : heap) (o : op) : Prop :=
  match o with
  | Append l i => layer_at h i /\ (i < l)%nat
  | SetLayers x l => (l < x)%nat \/ exists f k b, nth_error h x = Some (OStruct f k b)
  | _ => True
  end.

(** Thickness of a layer *)
Definition thickness_of (h : heap) (a : nat) : option (option R) :=
  match nth_error h a with Some (OLayer _ t | OTwist _ t _ _ | OVary _ t _ _) => Some t | _ => None end.
Definition material_of (h : heap) (a : nat) : option nat :=
  match nth_error h a with Some (OLayer m _ | OTwist m _ _ _ | OVary m _ _ _) => Some m | _ => None end.

Section Profile.
Variable T : Type.
Variable tensor : nat -> T.
Variable twisted : nat -> option R -> R -> option R -> T.
Variable varied : nat -> option R -> (R -> R) -> option R -> T.

(** The [k]-th of [n] equal slices: its thickness and the depth of its middle *)
Definition slice (t : option R) (n : Z) (k : nat) (tn : option R -> T) : option (option R * T) :=
  if lt_dec k (Z.to_nat n) then
    Some (option_map (fun d => d / IZR n) t, tn (option_map (fun d => (INR k + 1 / 2) * (d / IZR n)) t))
  else None.
(** Slice [k] of the layer at [x], a layer that is no repetition *)
Definition piece (h : heap) (xk : nat * nat) : option (option R * T) :=
  let (x, k) := xk in
  match nth_error h x with
  | Some (OLayer m t) => match k with O => Some (t, tensor m) | S _ => None end
  | Some (OTwist m t n angle) => slice t n k (twisted m t angle)
  | Some (OVary m t n f) => slice t n k (varied m t f)
  | _ => None
  end.

(** The layer as a value, with everything it refers to written out *)
Inductive unfolds (h : heap) : nat -> layer T -> Prop :=
| U_layer a m d : nth_error h a = Some (OLayer m (Some d)) -> unfolds h a (Homogeneous d (tensor m))
| U_twist a m d n angle : nth_error h a = Some (OTwist m (Some d) n angle) ->
    unfolds h a (Inhomogeneous d (Z.to_nat n) (fun z => twisted m (Some d) angle (Some z)))
| U_vary a m d n f : nth_error h a = Some (OVary m (Some d) n f) ->
    unfolds h a (Inhomogeneous d (Z.to_nat n) (fun z => varied m (Some d) f (Some z)))
| U_rep a l r b n items ls : nth_error h a = Some (ORep l r b n) -> nth_error h l = Some (OList items) ->
    Forall2 (unfolds h) items ls -> unfolds h a (Repeated ls (Z.to_nat r) (Z.to_nat b) (Z.to_nat n)).
End Profile.

(** ** Attributes *)
Inductive field := Thickness | MaterialOf | Div | Angle | Modulation | Repetitions | Layers | Front | Back | Items | IsMixture.
Inductive value := VNum (x : option R) | VRef (a : nat) | VInt (z : Z) | VInts (r b a : Z) | VReal (x : R) | VFun (f : R -> R)
| VItems (l : list nat) | VBool (b : bool).
(** The value of an attribute *)
Definition get (h : heap) (a : nat) (f : field) : option value :=
  match nth_error h a with
  | Some (OMat b) => match f with IsMixture => Some (VBool b) | _ => None end
  | Some (OList l) => match f with Items => Some (VItems l) | _ => None end
  | Some (OLayer m t) => match f with MaterialOf => Some (VRef m) | Thickness => Some (VNum t) | _ => None end
  | Some (ORep l r b n) => match f with Layers => Some (VRef l) | Repetitions => Some (VInts r b n) | _ => None end
  | Some (OTwist m t d x) => match f with MaterialOf => Some (VRef m) | Thickness => Some (VNum t) | Div => Some (VInt d) | Angle => Some (VReal x) | _ => None end
  | Some (OVary m t d g) => match f with MaterialOf => Some (VRef m) | Thickness => Some (VNum t) | Div => Some (VInt d) | Modulation => Some (VFun g) | _ => None end
  | Some (OStruct m l n) => match f with Front => Some (VRef m) | Layers => Some (VRef l) | Back => Some (VRef n) | _ => None end
  | _ => None
  end.
(** The attribute that a setter changes and its new value *)
Definition assigns (h : heap) (o : op) : option (nat * field * value) :=
  match o with
  | SetThickness x (Num t) => Some (x, Thickness, VNum t)
  | SetMaterial x m => Some (x, MaterialOf, VRef m)
  | SetDivisions x (Int d) => Some (x, Div, VInt d)
  | SetRepetitions x (Int r) (Int b) (Int a) => Some (x, Repetitions, VInts r b a)
  | SetLayers x l => Some (x, Layers, VRef l)
  | SetFront x m => Some (x, Front, VRef m)
  | SetBack x m => Some (x, Back, VRef m)
  | Append l i => match nth_error h l with Some (OList items) => Some (l, Items, VItems (items ++ [i])) | _ => None end
  | _ => None
  end.
(** The attributes of a new object *)
Definition attributes (o : op) : option (list (field * value)) :=
  match o with
  | NewMat b => Some [(IsMixture, VBool b)]
  | NewOther => Some []
  | NewList l => Some [(Items, VItems l)]
  | NewLayer m (Num t) => Some [(MaterialOf, VRef m); (Thickness, VNum t)]
  | NewRep l (Int r) (Int b) (Int a) => Some [(Layers, VRef l); (Repetitions, VInts r b a)]
  | NewTwist m (Num t) (Int d) x => Some [(MaterialOf, VRef m); (Thickness, VNum t); (Div, VInt d); (Angle, VReal x)]
  | NewVary m (Num t) (Int d) f => Some [(MaterialOf, VRef m); (Thickness, VNum t); (Div, VInt d); (Modulation, VFun f)]
  | NewStruct f l b => Some [(Front, VRef f); (Layers, VRef l); (Back, VRef b)]
  | _ => None
  end.
