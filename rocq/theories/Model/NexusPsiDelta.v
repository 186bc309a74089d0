(** src/elli/importer/nexus.py:28-142 NexusGroupNames and read_nexus_psi_delta.  A NeXus file is what h5py finds under
    the paths that are looked up.  The units of the datasets are attributes, which the code does not look at. *)
From Coq Require Import Reals String List Arith Bool.
From Verif.Base Require Import Py.
Import ListNotations.
Open Scope R_scope.
Open Scope string_scope.
Open Scope list_scope.
Open Scope py_scope.

(** np.array(dataset): arrays of any dimension *)
Inductive nd := Scalar (r : R) | Arr (l : list nd).
(** What h5file[path][()] is: text or numbers *)
Inductive dataset := Text (s : string) | Data (d : nd).
Definition file := string -> option dataset.

(** nexus.py:28-45 *)
Record group_names := Names { entry : string; sample : string; instrument : string }.
Definition default_names := Names "entry" "sample" "instrument".
Definition full_instrument_path (g : group_names) : string := entry g ++ "/" ++ instrument g.
Definition full_sample_path (g : group_names) : string := entry g ++ "/" ++ sample g.

(** The argument group_names: None, an instance of NexusGroupNames or something else *)
Inductive names_arg := NoNames | Given (g : group_names) | WrongType.

(** h5file[path] and np.array *)
Definition get_array (f : file) (path : string) : res nd :=
  match f path with
  | None => Err KeyError
  | Some (Data d) => Ok d
  | Some (Text _) => Err TypeError
  end.

(** A one-dimensional array; MultiIndex.from_product and the assignment of a column do not take others *)
Definition scalar (d : nd) : res R := match d with Scalar r => Ok r | Arr _ => Err ValueError end.
Definition vector (d : nd) : res (list R) :=
  match d with Arr l => rmapM scalar l | Scalar _ => Err ValueError end.

(** data[i, j, ..., :] *)
Fixpoint index (l : list nat) (d : nd) : res nd :=
  match l with
  | [] => Ok d
  | i :: l' =>
      match d with
      | Scalar _ => Err IndexError
      | Arr x => match nth_error x i with Some e => index l' e | None => Err IndexError end
      end
  end.

(** A row of the data frame; nan before it is set *)
Record row := Row { aoi : R; wavelength : R; psi : option R; delta : option R }.
Definition put_psi (v : R) (r : row) : row := Row (aoi r) (wavelength r) (Some v) (delta r).
Definition put_delta (v : R) (r : row) : row := Row (aoi r) (wavelength r) (psi r) (Some v).

(** df.loc[aoi, column] = values: the rows with this angle; ValueError if their number is not that of the values
    (pandas spreads a single value over all rows; this is not modelled). *)
Fixpoint assign (put : R -> row -> row) (a : R) (vs : list R) (rows : list row) : res (list row) :=
  match rows with
  | [] => match vs with [] => Ok [] | _ => Err ValueError end
  | r :: rows' =>
      if Req_EM_T (aoi r) a then
        match vs with
        | [] => Err ValueError
        | v :: vs' => let* t := assign put a vs' rows' in Ok (put v r :: t)
        end
      else let* t := assign put a vs rows' in Ok (r :: t)
  end.

(** nexus.py:83-85: the loop over the angles *)
Fixpoint fill (data : nd) (indexing : nat -> nat -> list nat) (i : nat) (aois : list R) (rows : list row) : res (list row) :=
  match aois with
  | [] => Ok rows
  | a :: aois' =>
      let* p := (let* d := index (indexing i 0%nat) data in vector d) in
      let* rows1 := assign put_psi a p rows in
      let* q := (let* d := index (indexing i 1%nat) data in vector d) in
      let* rows2 := assign put_delta a q rows1 in
      fill data indexing (S i) aois' rows2
  end.

(** nexus.py:64-87 read_data *)
Definition read_data (f : file) (wavelength_path aois_path data_path : string) (indexing : nat -> nat -> list nat) : res (list row) :=
  let* aois := (let* d := get_array f aois_path in vector d) in
  let* wavelengths := (let* d := get_array f wavelength_path in vector d) in
  let empty := flat_map (fun a => map (fun w => Row a (w / 10) None None) wavelengths) aois in
  let* data := get_array f data_path in
  fill data indexing 0 aois empty.

(** nexus.py:89-97 *)
Definition read_legacy (f : file) (g : group_names) : res (list row) :=
  read_data f (full_instrument_path g ++ "/spectrometer/wavelength") (full_instrument_path g ++ "/angle_of_incidence")
    (full_sample_path g ++ "/measured_data") (fun i o => [0; 0; i; o])%nat.

(** nexus.py:99-105 *)
Definition read_nx_opt_def (f : file) (g : group_names) : res (list row) :=
  read_data f (entry g ++ "/data_collection/wavelength_spectrum") (full_instrument_path g ++ "/angle_of_incidence")
    (entry g ++ "/data_collection/measured_data") (fun i o => [i; o]).

(** nexus.py:117-128; [()].decode of numbers raises AttributeError *)
Definition data_type (f : file) (g : group_names) : res string :=
  let decode d := match d with Text s => Ok s | Data _ => Err AttributeError end in
  match f (entry g ++ "/sample/data_type")%string with
  | Some d => decode d
  | None =>
      match f (entry g ++ "/data_collection/data_type")%string with
      | Some d => decode d
      | None => Err ValueError
      end
  end.

(** nexus.py:47-142 read_nexus_psi_delta *)
Definition read_nexus_psi_delta (f : file) (arg : names_arg) : res (list row) :=
  let* g := match arg with WrongType => Err ValueError | NoNames => Ok default_names | Given g => Ok g end in
  let* t := data_type f g in
  if t =? "psi/delta" then read_legacy f g
  else if t =? "Psi/Delta" then read_nx_opt_def f g
  else Err NotImplementedError.
