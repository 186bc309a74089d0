(** C52: the catalog of the refractiveindex.info library and its search. *)
From Coq Require Import Reals String List Sorted Arith Bool Lia Lra.
From Verif.Base Require Import Py.
From Verif.Model Require Import RiiCatalog.
From Verif.Spec Require Import Library.
From Verif.Proof Require Import RiiCatalogP.
Import ListNotations.
Open Scope R_scope.
Open Scope string_scope.
Open Scope list_scope.

Lemma entry_tells info norm number sh bd b d p : tells info number p (entry info norm number sh bd b d p).
Proof.
  unfold tells, entry. destruct (info (p_name p)) as [i|]; [|cbn; auto]. cbn. split; [reflexivity|]. split; [reflexivity|].
  assert (N : forall t l, nanometres number t = Some l <-> exists m, number t = Some m /\ l = 1000 * m).
  { intros t l. unfold nanometres. destruct (number t) as [m|]; cbn; split; try discriminate.
    - intros [= <-]. eauto.
    - intros (m' & [= <-] & ->). reflexivity.
    - intros (m' & [=] & _). }
  split; [intros -> ->; reflexivity|]. split; [|split; [|split; [|split; apply N]]].
  - intros [|x c] NE -> ->; [contradiction|reflexivity].
  - intros [|x c] NE -> ->; [contradiction|reflexivity].
  - intros [|x c] [|y e] NE NE' -> ->; try contradiction. reflexivity.
Qed.

(** Every page appears once, in the order of the library, under its shelf, book and dividers *)
Theorem C52_catalog : forall info norm number (lib : library),
  (exists x sh b p, page_at lib x sh b p) ->
  exists rows places, catalog info norm number lib = Ok rows /\ StronglySorted before places /\
    (forall x, In x places <-> exists sh b p, page_at lib x sh b p) /\
    Forall2 (describes info number lib) places rows.
Proof.
  intros info norm number lib (x0 & sh0 & b0 & p0 & X0).
  destruct (shelves_spec info norm number lib lib [] [] eq_refl) as (ps & rows & E & S & P & F).
  assert (IN : forall x, In x ps <-> exists sh b p, page_at lib x sh b p).
  { intros x. rewrite P. split.
    - intros (i & j & k & sh & b & p & -> & _ & Q). eauto.
    - intros (sh & b & p & Q). destruct x as [[i j] k]. exists i, j, k, sh, b, p. split; [reflexivity|]. split; [cbn; lia|exact Q]. }
  exists rows, ps. split; [|split; [exact S|split; [exact IN|]]].
  - unfold catalog. rewrite E. cbn [app]. destruct rows as [|r rows]; [|reflexivity].
    inversion F; subst. exfalso. apply (proj2 (IN x0)). eauto.
  - clear -F. induction F as [|x r ps rows (i & sh & ISH & j & k & b & p & bd & d & -> & IB & IP & DB & DP & ->) F IH]; constructor; [|exact IH].
    exists sh, b, p. split; [now constructor|].
    pose proof (entry_tells info norm number sh bd b d p) as T. unfold entry in *.
    destruct (info (p_name p)); cbn in *; auto 10.
Qed.
Print Assumptions C52_catalog.

(** A library without pages cannot be loaded *)
Theorem C52_no_pages : forall info norm number (lib : library),
  (forall x sh b p, ~ page_at lib x sh b p) -> catalog info norm number lib = Err KeyError.
Proof.
  intros info norm number lib N. destruct (shelves_spec info norm number lib lib [] [] eq_refl) as (ps & rows & E & _ & P & F).
  unfold catalog. rewrite E. destruct rows as [|r rows]; [reflexivity|]. inversion F as [|x ? ps' ? _ _]; subst.
  destruct (proj1 (P x) (or_introl eq_refl)) as (i & j & k & sh & b & p & _ & _ & Q). now elim (N _ _ _ _ Q).
Qed.
Print Assumptions C52_no_pages.

Definition the_columns (col : one_or_many string) (fuzzy : bool) : list string :=
  match col with
  | One c => if String.eqb c "all" then (if fuzzy then fuzzy_columns else columns) else [c]
  | Many l => l
  end.
Lemma searched_in col fuzzy c : searched col fuzzy c <-> In c (the_columns col fuzzy).
Proof.
  destruct col as [a|l]; [|reflexivity]. unfold the_columns. destruct (String.eqb_spec a "all") as [->|N]; [reflexivity|].
  cbn [searched]. assert (E : searched (One a) fuzzy c <-> c = a).
  { unfold searched. destruct a as [|[[] [] [] [] [] [] [] []] a]; try reflexivity.
    destruct a as [|[[] [] [] [] [] [] [] []] a]; try reflexivity.
    destruct a as [|[[] [] [] [] [] [] [] []] a]; try reflexivity.
    destruct a; try reflexivity. now elim N. }
  unfold searched in E. rewrite E. cbn. split; [now left|intros [->|[]]; reflexivity].
Qed.
Lemma listed_in {A} (x : one_or_many A) a : listed x a <-> In a (as_list x).
Proof. destruct x; cbn; [|reflexivity]. split; [now left|intros [->|[]]; reflexivity]. Qed.

Lemma column_known r c : In c columns -> column r c <> None.
Proof. intros H. repeat (destruct H as [<-|H]; [discriminate|]). destruct H. Qed.
Lemma fuzzy_sub c : In c fuzzy_columns -> In c columns.
Proof. cbn. tauto. Qed.

Lemma search_core suggest kleene rows query col fuzzy :
  (forall r, In r rows -> r_shelf r <> "") -> (forall c, searched col fuzzy c -> known fuzzy c) ->
  (kleene = true \/ forall r, In r rows -> complete_in col fuzzy r) ->
  exists result, search suggest kleene rows query col NoFilter fuzzy = Ok result /\
    those (fun r => exists c q t, searched col fuzzy c /\ listed query q /\ In t (texts suggest rows fuzzy c q) /\ text_in r c t) rows result.
Proof.
  intros SH KN KL. unfold search. fold (the_columns col fuzzy).
  assert (AL : forall c, In c (the_columns col fuzzy) -> allowed fuzzy c) by (intros c C; apply KN; now apply searched_in).
  rewrite (columns_ok suggest kleene rows fuzzy (as_list query) _ AL (fun r => equals r "shelf" "")). cbn [rbind].
  eexists. split; [reflexivity|]. apply (select_those _ rows (fun r => folded kleene r (tests suggest rows fuzzy (the_columns col fuzzy) (as_list query)) (equals r "shelf" ""))).
  intros r R. rewrite (folded_true suggest).
  - rewrite equals_text. split.
    + intros [E|(c & t & I & E)]; [exfalso; apply (SH r R); now injection E|].
      apply tests_in in I. destruct I as (C & q & Q & T). exists c, q, t. rewrite searched_in, listed_in. apply equals_text in E. auto.
    + intros (c & q & t & C & Q & T & E). right. exists c, t. rewrite equals_text. split; [|exact E]. apply tests_in.
      rewrite searched_in in C. rewrite listed_in in Q. eauto.
  - destruct KL as [K|K]; [now left|]. right. split; [discriminate|]. intros c t I. apply tests_in in I. destruct I as (C & _).
    specialize (AL c C). apply searched_in in C. destruct (K r R c C) as [A B].
    assert (CK : column r c <> None) by (apply column_known; destruct fuzzy; [now apply fuzzy_sub|exact AL]).
    unfold equals. destruct (column r c) as [[[u|]|[x|]]|]; congruence.
Qed.

(** The exact search *)
Theorem C52_search_partial : forall suggest kleene (rows : list row) (query col : one_or_many string),
  (forall r, In r rows -> r_shelf r <> "") -> (forall c, searched col false c -> known false c) ->
  (kleene = true \/ forall r, In r rows -> complete_in col false r) ->
  exists result, search suggest kleene rows query col NoFilter false = Ok result /\ those (matches query col) rows result.
Proof.
  intros suggest kleene rows query col SH KN KL. destruct (search_core suggest kleene rows query col false SH KN KL) as (result & E & T).
  exists result. split; [exact E|]. assert (W : forall (P Q : row -> Prop) l m, (forall r, P r <-> Q r) -> those P l m -> those Q l m).
  { intros P Q l m H TH. induction TH; [constructor|constructor; [now apply H|assumption]|apply those_skip; [now rewrite <- H|assumption]]. }
  eapply W; [|exact T]. intros r. cbn. split.
  - intros (c & q & t & C & Q & [<-|[]] & X). now exists c, q.
  - intros (c & q & C & Q & X). exists c, q, q. cbn. auto.
Qed.
Print Assumptions C52_search_partial.

(** The approximate search; the choices of a column are its texts, each once *)
Theorem C52_fuzzy_partial : forall suggest kleene (rows : list row) (query col : one_or_many string),
  (forall r, In r rows -> r_shelf r <> "") -> (forall c, searched col true c -> known true c) ->
  (kleene = true \/ forall r, In r rows -> complete_in col true r) ->
  exists result choices, search suggest kleene rows query col NoFilter true = Ok result /\
    (forall c, NoDup (choices c) /\ forall t, In t (choices c) <-> exists r, In r rows /\ text_in r c t) /\
    those (matches_fuzzily suggest choices query col) rows result.
Proof.
  intros suggest kleene rows query col SH KN KL. destruct (search_core suggest kleene rows query col true SH KN KL) as (result & E & T).
  exists result, (filter_list rows). split; [exact E|]. split; [|exact T]. intros c. split; [apply drop_nodup|]. intros t. apply filter_list_in.
Qed.
Print Assumptions C52_fuzzy_partial.

(** The wavelength filter keeps the rows whose range contains all wavelengths *)
Theorem C52_filter : forall suggest kleene (rows : list row) query col fuzzy ws base,
  search suggest kleene rows query col NoFilter fuzzy = Ok base ->
  (exists result, search suggest kleene rows query col (Wavelengths ws) fuzzy = Ok result /\
     those (fun r => forall w, listed ws w -> in_range r w) base result) /\
  search suggest kleene rows query col NotNumeric fuzzy = Err ValueError.
Proof.
  intros suggest kleene rows query col fuzzy ws base E. unfold search in *.
  destruct (search_columns _ _ _ _ _ _ _) as [index|x]; cbn [rbind] in *; [|discriminate]. injection E as ->. split; [|reflexivity].
  eexists. split; [reflexivity|]. rewrite filters_all. apply filter_those. intros r _. rewrite forallb_forall. split.
  - intros H w W. apply covers_range, H. now apply listed_in.
  - intros H w W. apply covers_range, H. now apply listed_in.
Qed.
Print Assumptions C52_filter.

(** A column that cannot be searched; an approximate search knows only six columns *)
Theorem C52_column_error : forall suggest kleene (rows : list row) query c w fuzzy,
  c <> "all" -> ~ known fuzzy c -> (exists q, listed query q) ->
  search suggest kleene rows query (One c) w fuzzy = Err KeyError.
Proof.
  intros suggest kleene rows query c w fuzzy NA NK (q0 & Q). unfold search. destruct (String.eqb_spec c "all"); [contradiction|].
  apply listed_in in Q. destruct (as_list query) as [|q qs]; [destruct Q|].
  pose proof (columns_err suggest kleene rows fuzzy q qs [] c [] (fun c H => match H with end) NK (fun r => equals r "shelf" "")) as E.
  cbn [app] in E. rewrite E. reflexivity.
Qed.
Print Assumptions C52_column_error.

(** A row with a missing divider is not found by its book in an exact search of all columns if a missing
    truth value makes the disjunction missing *)
Definition gold (page : string) (divider : option string) (range : option (R * R)) : row :=
  {| r_shelf := "main"; r_shelf_longname := "MAIN"; r_book_divider := divider; r_book := "Au"; r_book_longname := "Gold"; r_page := page;
     r_page_type := Some "Bulk"; r_author := Some "Johnson and Christy"; r_year := Some 1972; r_comment := "n,k";
     r_lower := option_map fst range; r_upper := option_map snd range; r_path := "data/main/Au/Johnson.yml" |}.
Definition sample : list row := [gold "Johnson" (Some "Au - Gold") (Some (188, 1937)); gold "Olmon" None (Some (300, 24930)); gold "Other" (Some "x") None].

Theorem C52_missing_refuted : exists (rows : list row) (r : row) (result : list row),
  In r rows /\ matches (One "Au") (One "all") r /\
  search (fun _ l => l) false rows (One "Au") (One "all") NoFilter false = Ok result /\ ~ In r result.
Proof.
  exists sample, (gold "Olmon" None (Some (300, 24930))), [gold "Johnson" (Some "Au - Gold") (Some (188, 1937)); gold "Other" (Some "x") None].
  split; [right; now left|]. split.
  - exists "book", "Au". repeat split. cbn. auto.
  - split; [reflexivity|]. intros [H|[H|[]]]; apply (f_equal r_page) in H; discriminate.
Qed.
Print Assumptions C52_missing_refuted.

(** A row without a known range is removed by every wavelength filter with a wavelength *)
Theorem C52_unknown_range_refuted : exists (rows : list row) (r : row) (base result : list row),
  search (fun _ l => l) true rows (One "Au") (One "book") NoFilter false = Ok base /\
  search (fun _ l => l) true rows (One "Au") (One "book") (Wavelengths (One 500)) false = Ok result /\
  In r base /\ r_lower r = None /\ r_upper r = None /\ ~ In r result.
Proof.
  destruct (C52_search_partial (fun _ l => l) true sample (One "Au") (One "book")) as (base & B & T).
  - intros r [<-|[<-|[<-|[]]]]; discriminate.
  - intros c ->. cbn. auto 10.
  - now left.
  - destruct (C52_filter _ _ _ _ _ _ (One 500) _ B) as ((result & E & F) & _).
    exists sample, (gold "Other" (Some "x") None), base, result. split; [exact B|]. split; [exact E|].
    assert (IT : forall {A} (P : A -> Prop) l m x, those P l m -> (In x m <-> In x l /\ P x)).
    { clear. intros A P l m x H. induction H; cbn; [tauto| |]; rewrite IHthose; split; intuition (subst; auto); contradiction. }
    rewrite (IT _ _ _ _ _ T), (IT _ _ _ _ _ F). split; [split; [cbn; auto|]|].
    + exists "book", "Au". repeat split.
    + split; [reflexivity|]. split; [reflexivity|]. intros [_ H]. destruct (H 500 eq_refl) as (a & b & [=] & _).
Qed.
Print Assumptions C52_unknown_range_refuted.

(** A library: a divider, a shelf with a divided list of books, pages before and after a divider *)
Definition johnson : page := {| p_page := "Johnson"; p_name := "Johnson and Christy 1972: n,k 0.188-1.937 m"; p_data := "main/Au/Johnson.yml" |}.
Definition small : library :=
  [Divider "ignored";
   Item {| s_shelf := "main"; s_name := "MAIN"; s_content :=
     [Divider "Ag - Silver"; Divider "Au - Gold";
      Item {| b_book := "Au"; b_name := "Gold"; b_content := [Item johnson; Divider "Thin film"; Item johnson] |}] |}].
Example C52_example : exists rows, catalog (fun _ => None) (fun s => s) (fun _ => None) small = Ok rows /\
  map r_book_divider rows = [Some "Au - Gold"; Some "Au - Gold"] /\ map r_page_type rows = [None; Some "Thin film"].
Proof. eexists. split; [reflexivity|]. split; reflexivity. Qed.
Example C52_example_page : exists x sh b p, page_at small x sh b p.
Proof. exists (1, 2, 0)%nat. do 3 eexists. now constructor. Qed.
Example C52_example_search : complete_in (One "book") false (gold "Olmon" None None) /\
  search (fun _ l => l) false sample (One "Johnson") (One "page") NoFilter false = Ok [gold "Johnson" (Some "Au - Gold") (Some (188, 1937))].
Proof. split; [|reflexivity]. intros c ->. split; discriminate. Qed.
