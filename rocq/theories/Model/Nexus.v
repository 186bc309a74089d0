(** src/elli/importer/nexus.py:159-273 read_nexus_materials.  A group of the file is represented by what is read from
    it; h5py's iteration gives the children of a group in a fixed order, here the order of the list. *)
From Coq Require Import Reals String List Arith Bool.
From Coquelicot Require Import Complex.
From Verif.Base Require Import Py Cx.
From Verif.Model Require Import DispAdd Tables.
Import ListNotations.
Open Scope R_scope.
Open Scope string_scope.
Open Scope list_scope.
Open Scope py_scope.

Section Nexus.
(** The formula and the parameters of a group (180-181, 170-178), and Formula(...) or FormulaIndex(...) made of
    them (dispersions/formula.py, Model/Formula.v): an exception or the function of the wavelength *)
Variable Fn : Type.
Variable formula : kind -> Fn -> res (R -> option C).

(** 167-203: the fields of a group of class NXdispersion_function that are looked up *)
Record nx_function := NxFunction {
  wavelength_identifier : bool;        (* present? *)
  wavelength_unit : bool;              (* present? *)
  energy_identifier : bool;            (* present? *)
  representation : option string;
  formula_data : option Fn }.

(** 205-227: the datasets of a group of class NXdispersion_table *)
Record nx_table := NxTable {
  tb_wavelength : option (list R);
  tb_energy : option (list R);
  refractive_index : option (list C);
  dielectric_function : option (list C) }.

Inductive child := Function (f : nx_function) | Tabulated (t : nx_table) | OtherClass.

(** 167-203 get_dispersion_function.  [unit] is a local variable that only the first branch sets. *)
Definition get_dispersion_function (f : nx_function) : res obj :=
  let* unit := (if wavelength_identifier f
                then (if wavelength_unit f then Ok true else Err KeyError) else Ok false) in
  if energy_identifier f then Err NotImplementedError else
  let* rep := match representation f with Some r => Ok r | None => Err KeyError end in
  let* data := match formula_data f with Some d => Ok d | None => Err KeyError end in
  let construct k := if unit : bool then let* v := formula k data in Ok (Leaf k LPlain v) else Err UnboundLocalError in
  if String.eqb rep "eps" then construct KEps
  else if String.eqb rep "n" then construct KIdx
  else Err ValueError.

(** The function of a table (Model/Tables.v); outside of it the call raises *)
Definition interpolated (l : list point) : R -> option C :=
  fun x => match table_value l x with Ok v => v | Err _ => None end.

(** 205-227 get_dispersion_table.  In 211 conversion_wavelength_energy multiplies an h5py Dataset by a number, which
    h5py does not support. *)
Definition get_dispersion_table (t : nx_table) : res obj :=
  match tb_energy t with
  | Some _ => Err TypeError
  | None =>
      match tb_wavelength t with
      | None => Err ValueError
      | Some w =>
          match refractive_index t, dielectric_function t with
          | Some n, _ => let* l := table w n in Ok (Leaf KIdx LTable (interpolated l))
          | None, Some e => let* l := table w e in Ok (Leaf KEps LTable (interpolated l))
          | None, None => Err ValueError
          end
      end
  end.

(** 232, 239: the children of the two classes; others are skipped *)
Definition read_child (c : child) : option (res obj) :=
  match c with
  | Function f => Some (get_dispersion_function f)
  | Tabulated t => Some (get_dispersion_table t)
  | OtherClass => None
  end.

(** 229-246 get_dispersion: the first dispersion, and dispersion + next *)
Fixpoint get_dispersion (h : heap) (dispersion : option nat) (g : list child) : heap * res (option nat) :=
  match g with
  | [] => (h, Ok dispersion)
  | c :: g' =>
      match read_child c with
      | None => get_dispersion h dispersion g'
      | Some (Err e) => (h, Err e)
      | Some (Ok o) =>
          let h1 := h ++ [o] in
          match dispersion with
          | None => get_dispersion h1 (Some (length h)) g'
          | Some d =>
              match py_add h1 (ORef d) (ORef (length h)) with
              | (h2, Ok (ORef s)) => get_dispersion h2 (Some s) g'
              | (h2, Ok _) => (h2, Err TypeError)
              | (h2, Err e) => (h2, Err e)
              end
          end
      end
  end.

(** An entry: its groups dispersion_x, dispersion_y, dispersion_z *)
Record entry := Entry { group_x : option (list child); group_y : option (list child); group_z : option (list child) }.

(** materials.py: the material classes with their dispersions *)
Inductive material := Isotropic (x : nat) | Uniaxial (o e : nat) | Biaxial (x y z : nat).
(** materials.py:137-140, 177-181, 216-220: None is no dispersion *)
Definition is_dispersion (d : option nat) : res nat := match d with Some r => Ok r | None => Err TypeError end.

(** 251-256: one pass of the loop; [None] if the group is missing *)
Definition axis (h : heap) (g : option (list child)) : heap * res (option (option nat)) :=
  match g with
  | None => (h, Ok None)
  | Some l => match get_dispersion h None l with (h', Ok d) => (h', Ok (Some d)) | (h', Err e) => (h', Err e) end
  end.

(** 258-266: the class depends on the number of dispersions *)
Definition build (x : option nat) (y z : option (option nat)) : res material :=
  match y, z with
  | None, None => let* a := is_dispersion x in Ok (Isotropic a)
  | None, Some c => let* a := is_dispersion x in let* b := is_dispersion c in Ok (Uniaxial a b)
  | Some _, None => Err KeyError
  | Some b, Some c => let* a := is_dispersion x in let* b' := is_dispersion b in let* c' := is_dispersion c in Ok (Biaxial a b' c')
  end.

(** 248-266 get_material *)
Definition get_material (h : heap) (e : entry) : heap * res material :=
  match group_x e with
  | None => (h, Err ValueError)
  | Some _ =>
      match axis h (group_x e) with
      | (h1, Err x) => (h1, Err x)
      | (h1, Ok None) => (h1, Err ValueError)
      | (h1, Ok (Some dx)) =>
          match axis h1 (group_y e) with
          | (h2, Err x) => (h2, Err x)
          | (h2, Ok dy) =>
              match axis h2 (group_z e) with
              | (h3, Err x) => (h3, Err x)
              | (h3, Ok dz) => (h3, build dx dy dz)
              end
          end
      end
  end.

(** 268-273 *)
Fixpoint read_materials (h : heap) (entries : list (string * entry)) : heap * res (list (string * material)) :=
  match entries with
  | [] => (h, Ok [])
  | (name, e) :: rest =>
      match get_material h e with
      | (h1, Err x) => (h1, Err x)
      | (h1, Ok m) =>
          match read_materials h1 rest with
          | (h2, Ok ms) => (h2, Ok ((name, m) :: ms))
          | (h2, Err x) => (h2, Err x)
          end
      end
  end.

(** materials.py:88-115 the diagonal of the permittivity tensor at a wavelength *)
Definition diagonal (h : heap) (m : material) (lbda : R) : option C * option C * option C :=
  match m with
  | Isotropic x => (get_dielectric h x lbda, get_dielectric h x lbda, get_dielectric h x lbda)
  | Uniaxial o e => (get_dielectric h o lbda, get_dielectric h o lbda, get_dielectric h e lbda)
  | Biaxial x y z => (get_dielectric h x lbda, get_dielectric h y lbda, get_dielectric h z lbda)
  end.
End Nexus.
Arguments NxFunction {Fn}. Arguments Function {Fn}. Arguments Tabulated {Fn}. Arguments OtherClass {Fn}. Arguments Entry {Fn}.
Arguments group_x {Fn}. Arguments group_y {Fn}. Arguments group_z {Fn}.
Arguments wavelength_identifier {Fn}. Arguments wavelength_unit {Fn}. Arguments energy_identifier {Fn}.
Arguments representation {Fn}. Arguments formula_data {Fn}.
