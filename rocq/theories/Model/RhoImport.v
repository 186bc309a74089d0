(** The readers of rho: src/elli/importer/spectraray.py:114-129, woollam.py:214-225, nexus.py:145-157, and
    utils.py:87-105 calc_rho on their data frames. *)
From Coq Require Import Reals String List.
From Coquelicot Require Import Complex.
From Verif.Base Require Import Py Cx.
From Verif.Model Require Import FormulaText TextTable SpectraRayPsi Woollam NexusPsiDelta Ellips.
Import ListNotations.
Open Scope list_scope.
Open Scope py_scope.

(** utils.py:103-105 for a row of numbers.  [None] is nan or infinite; a psi of 90 degrees has no tangent (numpy's is
    a large number or infinite). *)
Definition rho_number (p d : R) : option C :=
  if Req_EM_T (cos (deg2rad p)) 0 then None else Some (calc_rho p d).

(** The same for the cells of a data frame: np.deg2rad of a string raises TypeError *)
Definition rho_cell (p d : cell) : res (option C) :=
  match p, d with
  | Txt _, _ | _, Txt _ => Err TypeError
  | Num p, Num d => Ok (rho_number p d)
  | _, _ => Ok None
  end.

(** spectraray.py:114-129: angle of incidence, wavelength and rho *)
Definition read_spectraray_rho (num pyfloat : text -> option R) (le_index : cell -> cell -> bool) (lines : list text)
  : res (list (R * cell * option C)) :=
  let* rows := SpectraRayPsi.read_psi_delta num pyfloat le_index lines in
  rmapM (fun r => let* z := rho_cell (SpectraRayPsi.psi r) (SpectraRayPsi.delta r) in
                  Ok (SpectraRayPsi.aoi r, SpectraRayPsi.wavelength r, z)) rows.

(** woollam.py:214-225.  DataFrame.apply returns an empty frame and no empty series for an empty table; this is not
    modelled. *)
Definition read_woollam_rho (num to_nm : text -> option R) (lines : list text) : res (list (cell * cell * option C)) :=
  let* rows := read_woollam_psi_delta num to_nm lines in
  rmapM (fun r => let* z := rho_cell (Woollam.psi r) (Woollam.delta r) in
                  Ok (Woollam.aoi r, Woollam.wavelength r, z)) rows.

(** nexus.py:145-157: there is no argument for the names of the groups *)
Definition read_nexus_rho (f : file) : res (list (R * R * option C)) :=
  let* rows := read_nexus_psi_delta f NoNames in
  Ok (map (fun r => (NexusPsiDelta.aoi r, NexusPsiDelta.wavelength r,
        match NexusPsiDelta.psi r, NexusPsiDelta.delta r with Some p, Some d => rho_number p d | _, _ => None end)) rows).
