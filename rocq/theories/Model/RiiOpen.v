(** src/elli/database/refractive_index_info.py:279-290, 425-482: data sets selected by book and page.

    [files] is the content of the file at a path below rii_path.  Not modelled: files that do not exist
    or are no yaml, detect_encoding (utils.py:367-377), and get_mat (266-277), which hands the result of
    get_dispersion on to IsotropicMaterial (Model/Materials.v). *)
From Coq Require Import Reals String List Bool.
From Verif.Base Require Import Py.
From Verif.Model Require Import FormulaText DispAdd.
From Verif.Model Require Rii.
From Verif.Model Require Import RiiCatalog.
Import ListNotations.
Open Scope py_scope.

(** The keys of a file that are read; [None] for a key that is missing *)
Record content := { y_data : option (list Rii.entry); y_references : option string; y_comments : option string }.

Section Open.
Variable rows : list row.
Variable files : string -> content.

(** 464-466: the rows with this book and this page *)
Definition selected (book page : string) : list row :=
  filter (fun r => String.eqb (r_book r) book && String.eqb (r_page r) page) rows.

(** 453-482 _open_file; the index of the catalog has no label twice *)
Definition open_file (book page : string) : res content :=
  match selected book page with
  | [r] => Ok (files (r_path r))
  | _ => Err ValueError
  end.

(** yml_file["…"] *)
Definition key {A} (x : option A) : res A := match x with Some a => Ok a | None => Err KeyError end.

(** 425-437 *)
Definition get_reference (book page : string) : res string := let* y := open_file book page in key (y_references y).
(** 439-451 *)
Definition get_comment (book page : string) : res string := let* y := open_file book page in key (y_comments y).
(** 279-423 *)
Definition get_dispersion (float : text -> option R) (h : heap) (book page : string) : heap * res operand :=
  match (let* y := open_file book page in key (y_data y)) with
  | Ok data => Rii.get_dispersion float h data
  | Err x => (h, Err x)
  end.
End Open.
