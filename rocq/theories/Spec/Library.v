(** Where the pages of a library are, and what matches a search (C52). *)
From Coq Require Import Reals String List Sorted.
From Verif.Model Require Import RiiCatalog.
Import ListNotations.
Open Scope R_scope.

Definition item_at {A} (l : list (item A)) (n : nat) : option A :=
  match nth_error l n with Some (Item a) => Some a | _ => None end.

(** The name of the last divider before the place n *)
Definition divider_before {A} (l : list (item A)) (n : nat) (d : option string) : Prop :=
  match d with
  | Some name => exists m, (m < n)%nat /\ nth_error l m = Some (Divider name) /\
      forall k x, (m < k < n)%nat -> nth_error l k <> Some (Divider x)
  | None => forall k x, (k < n)%nat -> nth_error l k <> Some (Divider x)
  end.

(** A place: numbers of the shelf, of the book in the shelf and of the page in the book *)
Definition place : Type := nat * nat * nat.
Inductive page_at (lib : library) : place -> shelf -> book -> page -> Prop :=
| at_place i j k sh b p : item_at lib i = Some sh -> item_at (s_content sh) j = Some b -> item_at (b_content b) k = Some p ->
    page_at lib (i, j, k) sh b p.
Definition before (x y : place) : Prop :=
  let '(i, j, k) := x in let '(i', j', k') := y in
  (i < i' \/ i = i' /\ (j < j' \/ j = j' /\ k < k'))%nat.

(** What the name of the page tells: [info] takes it apart, [number] reads a number *)
Definition tells (info : string -> option page_info) (number : string -> option R) (p : page) (r : row) : Prop :=
  match info (p_name p) with
  | None => r_author r = None /\ r_year r = None /\ r_comment r = p_name p /\ r_lower r = None /\ r_upper r = None
  | Some i => r_author r = Some (authors i) /\ r_year r = number (year_text i) /\
      (comment2 i = None -> comment1 i = None -> r_comment r = ""%string) /\
      (forall c, c <> ""%string -> comment1 i = Some c -> comment2 i = None -> r_comment r = c) /\
      (forall c, c <> ""%string -> comment2 i = Some c -> comment1 i = None -> r_comment r = c) /\
      (forall c d, c <> ""%string -> d <> ""%string -> comment1 i = Some c -> comment2 i = Some d -> r_comment r = (c ++ " " ++ d)%string) /\
      (forall l, r_lower r = Some l <-> exists m, number (lower_text i) = Some m /\ l = 1000 * m) /\
      (forall u, r_upper r = Some u <-> exists m, number (upper_text i) = Some m /\ u = 1000 * m)
  end.

(** The row of the page at a place *)
Definition describes info number (lib : library) (x : place) (r : row) : Prop :=
  let '(i, j, k) := x in
  exists sh b p, page_at lib x sh b p /\
    r_shelf r = s_shelf sh /\ r_shelf_longname r = s_name sh /\ r_book r = b_book b /\ r_book_longname r = b_name b /\
    r_page r = p_page p /\ tells info number p r /\
    divider_before (s_content sh) j (r_book_divider r) /\ divider_before (b_content b) k (r_page_type r).

(** The text in a column, if there is one *)
Definition text_in (r : row) (c t : string) : Prop := column r c = Some (Text (Some t)).

Definition listed {A} (x : one_or_many A) (a : A) : Prop := match x with One b => a = b | Many l => In a l end.
(** The columns that are searched *)
Definition searched (col : one_or_many string) (fuzzy : bool) (c : string) : Prop :=
  match col with
  | One "all"%string => In c (if fuzzy then ["book_divider"; "book"; "book_longname"; "page"; "author"; "comment"]
                              else ["shelf"; "shelf_longname"; "book_divider"; "book"; "book_longname"; "page"; "page_type";
                                    "author"; "year"; "comment"; "lower_range"; "upper_range"; "path"])%string
  | One c' => c = c'
  | Many l => In c l
  end.

(** No missing value in the columns that are searched *)
Definition complete_in (col : one_or_many string) (fuzzy : bool) (r : row) : Prop :=
  forall c, searched col fuzzy c -> column r c <> Some (Text None) /\ column r c <> Some (Number None).
Definition known (fuzzy : bool) (c : string) : Prop :=
  In c (if fuzzy then ["book_divider"; "book"; "book_longname"; "page"; "author"; "comment"]
        else ["shelf"; "shelf_longname"; "book_divider"; "book"; "book_longname"; "page"; "page_type"; "author"; "year"; "comment";
              "lower_range"; "upper_range"; "path"])%string.

(** A row matches exactly, or matches one of the texts found among the choices of the column *)
Definition matches (query col : one_or_many string) (r : row) : Prop :=
  exists c q, searched col false c /\ listed query q /\ text_in r c q.
Definition matches_fuzzily (suggest : string -> list string -> list string) (choices : string -> list string)
    (query col : one_or_many string) (r : row) : Prop :=
  exists c q t, searched col true c /\ listed query q /\ In t (suggest q (choices c)) /\ text_in r c t.

(** The rows of l for which P holds, in their order *)
Inductive those {A} (P : A -> Prop) : list A -> list A -> Prop :=
| those_nil : those P [] []
| those_keep x l m : P x -> those P l m -> those P (x :: l) (x :: m)
| those_skip x l m : ~ P x -> those P l m -> those P (x :: l) m.

Definition in_range (r : row) (w : R) : Prop :=
  exists a b, r_lower r = Some a /\ r_upper r = Some b /\ a <= w <= b.
