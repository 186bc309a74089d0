(** src/elli/result.py: attribute access of a Result.  Names are strings of bytes (UTF-8), so that
    a Greek letter has two of them.  What an attribute contains is not computed here (see
    Model/Ellips.v): a value says which array, and which element of it at every wavelength. *)
From Coq Require Import String Ascii List Arith Bool.
From Coquelicot Require Import Complex.
From Verif.Base Require Import Py Mat.
From Verif.Model Require Import Ellips.
Import ListNotations.
Open Scope string_scope.
Open Scope py_scope.

(** What a name of the object is bound to: an array of n x n matrices, an array of numbers, or
    something that cannot be indexed *)
Inductive kind := KMat (n : nat) | KVec | KObj.

(** result.py:57-342 the properties and 363-368 the attributes of the object, 344-455 the methods *)
Definition members : list (string * kind) :=
  [("rho", KVec); ("rho_t", KVec); ("psi", KVec); ("psi_t", KVec); ("delta", KVec); ("delta_t", KVec);
   ("rho_matrix", KMat 2); ("rho_matrix_t", KMat 2); ("psi_matrix", KMat 2); ("psi_matrix_t", KMat 2);
   ("delta_matrix", KMat 2); ("delta_matrix_t", KMat 2); ("mueller_matrix", KMat 4);
   ("jones_matrix_r", KMat 2); ("jones_matrix_t", KMat 2); ("jones_matrix_rc", KMat 2); ("jones_matrix_tc", KMat 2);
   ("R", KVec); ("R_matrix", KMat 2); ("T", KVec); ("T_matrix", KMat 2); ("Rc_matrix", KMat 2); ("Tc_matrix", KMat 2);
   ("experiment", KObj); ("_jones_matrix_r", KMat 2); ("_jones_matrix_t", KMat 2); ("_delta_range", KObj); ("_power_correction", KVec);
   ("get", KObj); ("as_delta_range", KObj)].

Inductive value :=
| Whole (name : string)                 (* the attribute itself *)
| Elem (name : string) (i j : nat).     (* its element [:, i, j] *)

(** result.py:35-52 _convert_index *)
Definition convert_index (c : ascii) : res nat :=
  if (c =? "1")%char then Ok 0 else if (c =? "2")%char then Ok 1
  else if (c =? "3")%char then Ok 2 else if (c =? "4")%char then Ok 3
  else if ((c =? "p")%char || (c =? "L")%char)%bool then Ok 0
  else if ((c =? "s")%char || (c =? "R")%char)%bool then Ok 1
  else Err ValueError.

(** name.rsplit("_", 1): the two parts around the last underscore *)
Fixpoint rsplit (s : string) : option (string * string) :=
  match s with
  | EmptyString => None
  | String c s' =>
      match rsplit s' with
      | Some (a, b) => Some (String c a, b)
      | None => if (c =? "_")%char then Some (EmptyString, s') else None
      end
  end.

(** (i, j) = map(_convert_index, names[1]) *)
Definition unpack (s : string) : res (nat * nat) :=
  match s with
  | String a (String b EmptyString) =>
      let* i := convert_index a in let* j := convert_index b in Ok (i, j)
  | _ => Err ValueError
  end.

Section Dir.
(** The names that every object has (__class__, __init__, ...); they differ between versions of
    Python. *)
Variable dunders : list string.

Definition lookup (name : string) : option kind :=
  match find (fun m => fst m =? name) members with
  | Some m => Some (snd m)
  | None => if existsb (String.eqb name) dunders then Some KObj else None
  end.

(** self.__getattribute__(name) *)
Definition getattribute (name : string) : res value :=
  match lookup name with Some _ => Ok (Whole name) | None => Err AttributeError end.

(** self.__getattribute__(name)[:, i, j]; that an object is not subscriptable is a TypeError
    (for __dict__ it is a KeyError since Python 3.12, not modelled) *)
Definition element (name : string) (ij : nat * nat) : res value :=
  match lookup name with
  | None => Err AttributeError
  | Some (KMat n) => if ((fst ij <? n)%nat && (snd ij <? n)%nat)%bool then Ok (Elem name (fst ij) (snd ij)) else Err IndexError
  | Some KVec => Err IndexError
  | Some KObj => Err TypeError
  end.

Definition mem (s : string) (l : list string) : bool := existsb (String.eqb s) l.

(** result.py:389-439 __getattr__.  In the last line i and j are not bound for a name without an
    underscore. *)
Definition dunder_getattr (name : string) : res value :=
  let (n0, suffix) := match rsplit name with Some (a, b) => (a, Some b) | None => (name, None) end in
  let n0 := if n0 =? "Ψ" then "psi" else if n0 =? "Δ" then "delta" else if n0 =? "ρ" then "rho" else n0 in
  if negb (mem n0 ["psi"; "delta"; "rho"; "r"; "t"; "rc"; "tc"; "Rc"; "Tc"]
           || match lookup n0 with Some _ => true | None => false end)%bool
  then Err AttributeError else
  let* ij := match suffix with Some s => rmap Some (unpack s) | None => Ok None end in
  if mem n0 ["psi"; "delta"; "rho"; "R"; "T"] then
    match ij with None => getattribute n0 | Some ij => element (n0 ++ "_matrix") ij end
  else if mem n0 ["r"; "rc"; "t"; "tc"] then
    match ij with None => getattribute ("jones_matrix_" ++ n0) | Some ij => element ("jones_matrix_" ++ n0) ij end
  else if mem n0 ["Rc"; "Tc"] then
    match ij with None => getattribute (n0 ++ "_matrix") | Some ij => element (n0 ++ "_matrix") ij end
  else match ij with None => Err UnboundLocalError | Some ij => element n0 ij end.

(** getattr(result, name): __getattr__ is only called where the normal lookup fails *)
Definition get_attr (name : string) : res value :=
  match lookup name with Some _ => Ok (Whole name) | None => dunder_getattr name end.

(** result.py:370-387 get: self[name] on a class without __getitem__ *)
Definition get (name : string) : res value := Err TypeError.
End Dir.

(** The numbers behind the amplitude coefficients, for one wavelength; Jr and Jt are the stored
    Jones matrices (result.py:237-288) *)
Definition amplitude (Jr Jt : mat) (v : value) : option C :=
  match v with
  | Elem "jones_matrix_r" i j => Some (Jr i j)
  | Elem "jones_matrix_t" i j => Some (Jt i j)
  | Elem "jones_matrix_rc" i j => Some (jones_matrix_rc Jr i j)
  | Elem "jones_matrix_tc" i j => Some (jones_matrix_tc Jt i j)
  | _ => None
  end.
