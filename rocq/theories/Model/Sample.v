(** Samples as objects that refer to one another: src/elli/structure.py:53-486.  Materials, Python
    lists, layers and structures live in a heap and are named by their address; a program calls
    constructors and setters and may change its own lists.  [Model/Structure.v] has the layers as values. *)
From Coq Require Import Reals List ZArith Bool.
From Verif.Base Require Import Py.
From Verif.Model Require Import Structure.
Import ListNotations.
Open Scope py_scope.

(** An object.  A thickness [None] is nan; infinite thicknesses and divisions that are no integers
    are not modelled.
    [OMat]: a Material, with True for MixtureMaterials; [OList]: a list; [OOther]: anything else;
    [OLayer]: Layer (147-198); [ORep]: RepeatedLayers (53-144); [OTwist]: TwistedLayer (277-322);
    [OVary]: VaryingMixtureLayer (325-397); [OStruct]: Structure (404-486). *)
Inductive obj :=
| OMat (mixture : bool)
| OList (items : list nat)
| OOther
| OLayer (material : nat) (thickness : option R)
| ORep (layers : nat) (repetitions before after : Z)
| OTwist (material : nat) (thickness : option R) (div : Z) (angle : R)
| OVary (material : nat) (thickness : option R) (div : Z) (fraction_modulation : R -> R)
| OStruct (front layers back : nat).
Definition heap := list obj.

(** isinstance *)
Definition is_material (h : heap) (a : nat) : bool := match nth_error h a with Some (OMat _) => true | _ => false end.
Definition is_mixture (h : heap) (a : nat) : bool := match nth_error h a with Some (OMat b) => b | _ => false end.
Definition is_layer (h : heap) (a : nat) : bool :=
  match nth_error h a with Some (OLayer _ _ | ORep _ _ _ _ | OTwist _ _ _ _ | OVary _ _ _ _) => true | _ => false end.

(** Arguments: a number or nan, an integer, or something that cannot be compared with 0 *)
Inductive number := Num (x : option R) | NoNum.
Inductive integer := Int (z : Z) | NoInt.

(** structure.py:165-174, 212-221 the check of set_thickness: [thickness < 0]; nan passes *)
Definition check_thickness (t : number) : res (option R) :=
  match t with
  | NoNum => Err TypeError
  | Num None => Ok None
  | Num (Some x) => if Rlt_dec x 0 then Err ValueError else Ok (Some x)
  end.
(** structure.py:236-245 set_divisions *)
Definition check_divisions (d : integer) : res Z :=
  match d with NoInt => Err TypeError | Int z => if (z <? 1)%Z then Err ValueError else Ok z end.
(** structure.py:176-187, 223-234 set_material, 351-362 for mixtures, 426-450 of structures *)
Definition check_material (h : heap) (m : nat) : res nat := if is_material h m then Ok m else Err TypeError.
Definition check_mixture (h : heap) (m : nat) : res nat := if is_mixture h m then Ok m else Err TypeError.
(** structure.py:82-105 set_repetitions *)
Definition check_int (low : Z) (d : integer) : res Z :=
  match d with NoInt => Err TypeError | Int z => if (z <? low)%Z then Err ValueError else Ok z end.
Definition check_repetitions (r b a : integer) : res (Z * Z * Z) :=
  let* r := check_int 1 r in let* b := check_int 0 b in let* a := check_int 0 a in Ok (r, b, a).
(** structure.py:107-120, 452-466 set_layers: the list itself is stored, not a copy *)
Definition check_layers (h : heap) (l : nat) : res nat :=
  match nth_error h l with
  | Some (OList items) => if forallb (is_layer h) items then Ok l else Err TypeError
  | _ => Err TypeError
  end.

(** The statements of a program.  The first group creates objects (the new object has the next free
    address), the second calls setters, [Append] changes a list that the program has. *)
Inductive op :=
| NewMat (mixture : bool) | NewOther | NewList (items : list nat)
| NewLayer (m : nat) (t : number) | NewRep (l : nat) (r b a : integer)
| NewTwist (m : nat) (t : number) (d : integer) (angle : R) | NewVary (m : nat) (t : number) (d : integer) (f : R -> R)
| NewStruct (front l back : nat)
| SetThickness (x : nat) (t : number) | SetMaterial (x m : nat) | SetDivisions (x : nat) (d : integer)
| SetRepetitions (x : nat) (r b a : integer) | SetLayers (x l : nat)
| SetFront (x m : nat) | SetBack (x m : nat)
| Append (l item : nat).

(** The object that a constructor returns: structure.py:61-80, 152-163, 281-295, 327-349, 413-424;
    an unbound name in a list is an error of the program *)
Definition construct (h : heap) (o : op) : option (res obj) :=
  match o with
  | NewMat b => Some (Ok (OMat b))
  | NewOther => Some (Ok OOther)
  | NewList items => Some (if forallb (fun i => i <? length h)%nat items then Ok (OList items) else Err UnboundLocalError)
  | NewLayer m t => Some (let* m := check_material h m in let* t := check_thickness t in Ok (OLayer m t))
  | NewRep l r b a => Some (let* (r, b, a) := check_repetitions r b a in let* l := check_layers h l in Ok (ORep l r b a))
  | NewTwist m t d angle => Some (let* m := check_material h m in let* t := check_thickness t in
      let* d := check_divisions d in Ok (OTwist m t d angle))
  | NewVary m t d f => Some (let* m := check_mixture h m in let* t := check_thickness t in
      let* d := check_divisions d in Ok (OVary m t d f))
  | NewStruct f l b => Some (let* f := check_material h f in let* l := check_layers h l in let* b := check_material h b in Ok (OStruct f l b))
  | _ => None
  end.

(** The object that a statement changes and what it becomes; AttributeError if its class has no such
    method (the setters cited above) *)
Definition change (h : heap) (o : op) : option (nat * res obj) :=
  match o with
  | SetThickness x t => Some (x, match nth_error h x with
      | Some (OLayer m _) => let* t := check_thickness t in Ok (OLayer m t)
      | Some (OTwist m _ d angle) => let* t := check_thickness t in Ok (OTwist m t d angle)
      | Some (OVary m _ d f) => let* t := check_thickness t in Ok (OVary m t d f)
      | _ => Err AttributeError end)
  | SetMaterial x m => Some (x, match nth_error h x with
      | Some (OLayer _ t) => let* m := check_material h m in Ok (OLayer m t)
      | Some (OTwist _ t d angle) => let* m := check_material h m in Ok (OTwist m t d angle)
      | Some (OVary _ t d f) => let* m := check_mixture h m in Ok (OVary m t d f)
      | _ => Err AttributeError end)
  | SetDivisions x d => Some (x, match nth_error h x with
      | Some (OTwist m t _ angle) => let* d := check_divisions d in Ok (OTwist m t d angle)
      | Some (OVary m t _ f) => let* d := check_divisions d in Ok (OVary m t d f)
      | _ => Err AttributeError end)
  | SetRepetitions x r b a => Some (x, match nth_error h x with
      | Some (ORep l _ _ _) => let* (r, b, a) := check_repetitions r b a in Ok (ORep l r b a)
      | _ => Err AttributeError end)
  | SetLayers x l => Some (x, match nth_error h x with
      | Some (ORep _ r b a) => let* l := check_layers h l in Ok (ORep l r b a)
      | Some (OStruct f _ b) => let* l := check_layers h l in Ok (OStruct f l b)
      | _ => Err AttributeError end)
  | SetFront x m => Some (x, match nth_error h x with
      | Some (OStruct _ l b) => let* m := check_material h m in Ok (OStruct m l b)
      | _ => Err AttributeError end)
  | SetBack x m => Some (x, match nth_error h x with
      | Some (OStruct f l _) => let* m := check_material h m in Ok (OStruct f l m)
      | _ => Err AttributeError end)
  | Append l i => Some (l, match nth_error h l with
      | Some (OList items) => if (i <? length h)%nat then Ok (OList (items ++ [i])) else Err UnboundLocalError
      | _ => Err AttributeError end)
  | _ => None
  end.

Fixpoint put (h : heap) (a : nat) (o : obj) : heap :=
  match h, a with
  | [], _ => []
  | _ :: h, O => o :: h
  | x :: h, S a => x :: put h a o
  end.

(** One statement inside try / except *)
Definition step (h : heap) (o : op) : heap * option exn :=
  match construct h o with
  | Some (Ok x) => (h ++ [x], None)
  | Some (Err e) => (h, Some e)
  | None => match change h o with
            | Some (a, Ok x) => (put h a x, None)
            | Some (_, Err e) => (h, Some e)
            | None => (h, None)
            end
  end.
Definition run (ops : list op) : heap := fold_left (fun h o => fst (step h o)) ops [].

(** ** get_permittivity_profile *)
Section Profile.
Variable T : Type.
(** The tensor of a material, of a twisted material (thickness, angle, depth) and of a mixture with
    varying fraction; [None] is nan *)
Variable tensor : nat -> T.
Variable twisted : nat -> option R -> R -> option R -> T.
Variable varied : nat -> option R -> (R -> R) -> option R -> T.

(** structure.py:247-274 get_slices and get_permittivity_profile of inhomogeneous layers *)
Definition slices (thickness : option R) (div : nat) (tn : option R -> T) : list (option R * T) :=
  match thickness with
  | Some d => let z := get_slices d div in combine (map Some (diff z)) (map (fun x => tn (Some x)) (zmid z))
  | None => repeat (None, tn None) div
  end.

Definition items_of (h : heap) (l : nat) : list nat := match nth_error h l with Some (OList items) => items | _ => [] end.

(** structure.py:122-144, 189-203, 260-274: calls nested at most [depth] deep; [None] means that more
    are needed (CPython stops with a RecursionError at its limit).  Objects without the method raise
    AttributeError. *)
Fixpoint layer_profile (depth : nat) (h : heap) (a : nat) : option (res (list (option R * T))) :=
  match depth with
  | O => None
  | S depth =>
    match nth_error h a with
    | Some (OLayer m t) => Some (Ok [(t, tensor m)])
    | Some (OTwist m t d angle) => Some (Ok (slices t (Z.to_nat d) (twisted m t angle)))
    | Some (OVary m t d f) => Some (Ok (slices t (Z.to_nat d) (varied m t f)))
    | Some (ORep l r b n) =>
      let? all := (fix go (items : list nat) : option (res (list (option R * T))) :=
        match items with
        | [] => Some (Ok [])
        | i :: items => let? p := layer_profile depth h i in
            match p with
            | Err e => Some (Err e)
            | Ok p => let? q := go items in Some (rmap (app p) q)
            end
        end) (items_of h l) in
      Some (let* layers := all in
        Ok ((if (0 <? b)%Z then last_n (Z.to_nat b) layers else []) ++ times (Z.to_nat r) layers ++ firstn (Z.to_nat n) layers))
    | _ => Some (Err AttributeError)
    end
  end.
Fixpoint layers_profile (depth : nat) (h : heap) (items : list nat) : option (res (list (option R * T))) :=
  match items with
  | [] => Some (Ok [])
  | i :: items => let? p := layer_profile depth h i in
      match p with
      | Err e => Some (Err e)
      | Ok p => let? q := layers_profile depth h items in Some (rmap (app p) q)
      end
  end.
(** structure.py:467-486 Structure.get_permittivity_profile without the half spaces, which are
    returned with infinite thickness before and after *)
Definition sample_profile (depth : nat) (h : heap) (s : nat) : option (res (T * list (option R * T) * T)) :=
  match nth_error h s with
  | Some (OStruct f l b) => let? p := layers_profile depth h (items_of h l) in
      Some (rmap (fun p => (tensor f, p, tensor b)) p)
  | _ => Some (Err AttributeError)
  end.
End Profile.
