(** src/elli/database/refractive_index_info.py:94-198 RII.__init__ and 200-264 RII.search.

    The library is the content of catalog-nk.yml.  Not modelled: reading the file, the regular expression
    for the names of pages ([info] gives its groups), os.path.normpath ([norm]; its result is taken to be relative), pandas.to_numeric
    ([number], [None] where it coerces to a missing value) and rapidfuzz ([suggest], the texts of
    process.extract(q, choices, limit=10, score_cutoff=80)). *)
From Coq Require Import Reals String List Bool.
From Verif.Base Require Import Py.
Import ListNotations.
Open Scope R_scope.
Open Scope string_scope.
Open Scope list_scope.
Open Scope py_scope.

(** An element of a list of the library: a divider, or a shelf, book or page *)
Inductive item (A : Type) := Divider (name : string) | Item (a : A).
Arguments Divider {A} name.
Arguments Item {A} a.

Record page := { p_page : string; p_name : string; p_data : string }.
Record book := { b_book : string; b_name : string; b_content : list (item page) }.
Record shelf := { s_shelf : string; s_name : string; s_content : list (item book) }.
Definition library := list (item shelf).

(** The groups of the regular expression 100-107 *)
Record page_info := { authors : string; year_text : string; comment1 : option string; comment2 : option string;
  lower_text : string; upper_text : string }.

(** A row of the catalog: refractive_index_info.py:37-54; missing values are [None] *)
Record row := {
  r_shelf : string; r_shelf_longname : string; r_book_divider : option string; r_book : string;
  r_book_longname : string; r_page : string; r_page_type : option string; r_author : option string;
  r_year : option R; r_comment : string; r_lower : option R; r_upper : option R; r_path : string }.

Section Catalog.
Variable info : string -> option page_info.
Variable norm : string -> string.
Variable number : string -> option R.

(** 154-162: " ".join(filter(None, (comment1, comment2))): empty texts are left out, too *)
Definition join_comments (a b : option string) : string :=
  match a, b with
  | Some ((String _ _) as x), Some ((String _ _) as y) => x ++ " " ++ y
  | Some ((String _ _) as x), _ => x
  | _, Some y => y
  | _, _ => ""
  end%string.

(** 177-182: 1000 * pd.to_numeric(…) *)
Definition nanometres (t : string) : option R := let? x := number t in Some (1000 * x).

(** 118-166: the entry of a page, with the conversions of 174-182 *)
Definition entry (sh : shelf) (b_div : option string) (b : book) (p_div : option string) (p : page) : row :=
  let path := ("data/" ++ norm (p_data p))%string in
  match info (p_name p) with
  | None => {| r_shelf := s_shelf sh; r_shelf_longname := s_name sh; r_book_divider := b_div; r_book := b_book b;
               r_book_longname := b_name b; r_page := p_page p; r_page_type := p_div; r_author := None;
               r_year := None; r_comment := p_name p; r_lower := None; r_upper := None; r_path := path |}
  | Some i => {| r_shelf := s_shelf sh; r_shelf_longname := s_name sh; r_book_divider := b_div; r_book := b_book b;
                 r_book_longname := b_name b; r_page := p_page p; r_page_type := p_div; r_author := Some (authors i);
                 r_year := number (year_text i); r_comment := join_comments (comment1 i) (comment2 i);
                 r_lower := nanometres (lower_text i); r_upper := nanometres (upper_text i); r_path := path |}
  end.

(** 115-168 for p in b["content"] *)
Fixpoint pages_loop (sh : shelf) (b_div : option string) (b : book) (p_div : option string)
    (content : list (item page)) (entries : list row) : list row :=
  match content with
  | [] => entries
  | Item p :: rest => pages_loop sh b_div b p_div rest (entries ++ [entry sh b_div b p_div p])
  | Divider d :: rest => pages_loop sh b_div b (Some d) rest entries
  end.
(** 112-170 for b in sh["content"] *)
Fixpoint books_loop (sh : shelf) (b_div : option string) (content : list (item book)) (entries : list row) : list row :=
  match content with
  | [] => entries
  | Item b :: rest => books_loop sh b_div rest (pages_loop sh b_div b None (b_content b) entries)
  | Divider d :: rest => books_loop sh (Some d) rest entries
  end.
(** 110-170 for sh in yml_file *)
Fixpoint shelves_loop (lib : library) (entries : list row) : list row :=
  match lib with
  | [] => entries
  | Item sh :: rest => shelves_loop rest (books_loop sh None (s_content sh) entries)
  | Divider _ :: rest => shelves_loop rest entries
  end.

(** 109-182 self.catalog; a data frame without entries has no column "year" *)
Definition catalog (lib : library) : res (list row) :=
  match shelves_loop lib [] with [] => Err KeyError | rows => Ok rows end.
End Catalog.

(** 37-54: the columns of the catalog.  A text column has a text or a missing value in each row; the others
    hold numbers. *)
Inductive cell := Text (t : option string) | Number (x : option R).
Definition columns : list string :=
  ["shelf"; "shelf_longname"; "book_divider"; "book"; "book_longname"; "page"; "page_type"; "author"; "year";
   "comment"; "lower_range"; "upper_range"; "path"].
Definition column (r : row) (c : string) : option cell :=
  if String.eqb c "shelf" then Some (Text (Some (r_shelf r))) else
  if String.eqb c "shelf_longname" then Some (Text (Some (r_shelf_longname r))) else
  if String.eqb c "book_divider" then Some (Text (r_book_divider r)) else
  if String.eqb c "book" then Some (Text (Some (r_book r))) else
  if String.eqb c "book_longname" then Some (Text (Some (r_book_longname r))) else
  if String.eqb c "page" then Some (Text (Some (r_page r))) else
  if String.eqb c "page_type" then Some (Text (r_page_type r)) else
  if String.eqb c "author" then Some (Text (r_author r)) else
  if String.eqb c "year" then Some (Number (r_year r)) else
  if String.eqb c "comment" then Some (Text (Some (r_comment r))) else
  if String.eqb c "lower_range" then Some (Number (r_lower r)) else
  if String.eqb c "upper_range" then Some (Number (r_upper r)) else
  if String.eqb c "path" then Some (Text (Some (r_path r))) else None.

(** 239, 242: catalog[c] == q in one row: [None] is a missing truth value, which a text column and the column
    "year" have for a missing value; a number is never equal to a text *)
Definition equals (r : row) (c q : string) : option bool :=
  match column r c with
  | Some (Text (Some t)) => Some (String.eqb t q)
  | Some (Text None) => None
  | Some (Number x) => match x with None => if String.eqb c "year" then None else Some false | Some _ => Some false end
  | None => None
  end.

(** 184-198: drop_duplicates().dropna() of the columns that can be searched approximately *)
Definition fuzzy_columns : list string := ["book_divider"; "book"; "book_longname"; "page"; "author"; "comment"].
Definition present (r : row) (c : string) : list string :=
  match column r c with Some (Text (Some t)) => [t] | _ => [] end.
Fixpoint drop_duplicates (seen l : list string) : list string :=
  match l with
  | [] => []
  | x :: l' => if existsb (String.eqb x) seen then drop_duplicates seen l' else x :: drop_duplicates (x :: seen) l'
  end.
Definition filter_list (rows : list row) (c : string) : list string := drop_duplicates [] (flat_map (fun r => present r c) rows).

Inductive one_or_many (A : Type) := One (a : A) | Many (l : list A).
Arguments One {A} a.
Arguments Many {A} l.
Inductive wavelengths := NoFilter | Wavelengths (w : one_or_many R) | NotNumeric.

Section Search.
Variable suggest : string -> list string -> list string.
(** 239, 242: numpy.logical_or of two columns of truth values: whether "true or missing" is true, or missing as for
    a ufunc without an implementation of its own in pandas *)
Variable kleene : bool.
Definition logical_or (a b : option bool) : option bool :=
  match a, b with
  | Some x, Some y => Some (x || y)
  | Some true, None | None, Some true => if kleene then Some true else None
  | _, _ => None
  end.

(** 239, 242 *)
Definition mark (rows : list row) (c q : string) (index : list (option bool)) : list (option bool) :=
  map (fun '(r, i) => logical_or i (equals r c q)) (combine rows index).

(** 231-242: one column and one query *)
Definition search_step (rows : list row) (fuzzy : bool) (c q : string) (index : list (option bool)) : res (list (option bool)) :=
  if fuzzy then
    if existsb (String.eqb c) fuzzy_columns
    then Ok (fold_left (fun i s => mark rows c s i) (suggest q (filter_list rows c)) index)
    else Err KeyError
  else if existsb (String.eqb c) columns then Ok (mark rows c q index) else Err KeyError.
Fixpoint search_queries (rows : list row) (fuzzy : bool) (c : string) (qs : list string) (index : list (option bool)) :=
  match qs with
  | [] => Ok index
  | q :: qs' => let* i := search_step rows fuzzy c q index in search_queries rows fuzzy c qs' i
  end.
Fixpoint search_columns (rows : list row) (fuzzy : bool) (cs qs : list string) (index : list (option bool)) :=
  match cs with
  | [] => Ok index
  | c :: cs' => let* i := search_queries rows fuzzy c qs index in search_columns rows fuzzy cs' qs i
  end.

(** 244 catalog.loc[index]: a missing truth value counts as false *)
Definition select (rows : list row) (index : list (option bool)) : list row :=
  map fst (filter (fun '(_, i) => match i with Some b => b | None => false end) (combine rows index)).

(** 248-257 (lower_range <= w) & (upper_range >= w), false for missing values *)
Definition covers (r : row) (w : R) : bool :=
  match r_lower r, r_upper r with
  | Some a, Some b => (if Rle_dec a w then true else false) && (if Rle_dec w b then true else false)
  | _, _ => false
  end.

(** 217-218, 225-226: a single value stands for a list of one *)
Definition as_list {A} (x : one_or_many A) : list A := match x with One a => [a] | Many l => l end.

(** 200-264 *)
Definition search (rows : list row) (query : one_or_many string) (col : one_or_many string) (w : wavelengths) (fuzzy : bool)
  : res (list row) :=
  let cs := match col with
            | One c => if String.eqb c "all" then (if fuzzy then fuzzy_columns else columns) else [c]
            | Many l => l
            end in
  let* index := search_columns rows fuzzy cs (as_list query) (map (fun r => equals r "shelf" "") rows) in
  let result := select rows index in
  match w with
  | NoFilter => Ok result
  | Wavelengths ws => Ok (fold_left (fun l x => filter (fun r => covers r x) l) (as_list ws) result)
  | NotNumeric => Err ValueError
  end.
End Search.
