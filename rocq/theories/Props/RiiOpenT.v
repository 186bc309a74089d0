(** C107: data sets of the refractiveindex.info library selected by book and page. *)
From Coq Require Import Reals String List Sorted Arith Bool Lia.
From Verif.Base Require Import Py.
From Verif.Model Require Import FormulaText DispAdd.
From Verif.Model Require Rii.
From Verif.Model Require Import RiiCatalog RiiOpen.
From Verif.Spec Require Import Library.
From Verif.Proof Require Import RiiCatalogP.
From Verif.Props Require Import RiiCatalogT.
Import ListNotations.
Open Scope string_scope.
Open Scope list_scope.

Lemma page_at_same lib x sh b p sh' b' p' : page_at lib x sh b p -> page_at lib x sh' b' p' -> sh = sh' /\ b = b' /\ p = p'.
Proof.
  intros H. inversion H as [i j k ? ? ? A B C]. subst. intros H'. inversion H' as [? ? ? ? ? ? A' B' C']. subst.
  rewrite A in A'. injection A' as <-. rewrite B in B'. injection B' as <-. rewrite C in C'. injection C' as <-. auto.
Qed.
Lemma before_irrefl x : ~ before x x.
Proof. destruct x as [[i j] k]. cbn. lia. Qed.
Lemma sorted_nodup l : StronglySorted before l -> NoDup l.
Proof.
  induction 1 as [|x l S IH F]; constructor; [|exact IH]. intros I. rewrite Forall_forall in F. exact (before_irrefl _ (F _ I)).
Qed.

(** The row of the page at a place, as far as it is used for loading *)
Definition holds norm (lib : library) (x : place) (r : row) : Prop :=
  exists sh b p, page_at lib x sh b p /\ r_book r = b_book b /\ r_page r = p_page p /\ r_path r = ("data/" ++ norm (p_data p))%string.
Lemma catalog_holds info norm number lib rows : catalog info norm number lib = Ok rows ->
  exists places, NoDup places /\ (forall x, In x places <-> exists sh b p, page_at lib x sh b p) /\ Forall2 (holds norm lib) places rows.
Proof.
  intros H. destruct (shelves_spec info norm number lib lib [] [] eq_refl) as (ps & rows' & E & S & P & F). unfold catalog in H. rewrite E in H. cbn [app] in H. assert (rows' = rows) as -> by (destruct rows'; [discriminate|congruence]).
  exists ps. split; [now apply sorted_nodup|]. split.
  - intros x. rewrite P. split.
    + intros (i & j & k & sh & b & p & -> & _ & Q). eauto.
    + intros (sh & b & p & Q). destruct x as [[i j] k]. exists i, j, k, sh, b, p. split; [reflexivity|]. split; [cbn; lia|exact Q].
  - clear -F. induction F as [|x r ps rows (i & sh & ISH & j & k & b & p & bd & d & -> & IB & IP & DB & DP & ->) F IH]; constructor; [|exact IH].
    exists sh, b, p. split; [now constructor|]. unfold entry. destruct (info (p_name p)); cbn; auto.
Qed.

Lemma filter_none {A B} (P : A -> B -> Prop) f l m : Forall2 P l m -> (forall y r, In y l -> P y r -> f r = false) -> filter f m = [].
Proof.
  induction 1 as [|y r l m H F IH]; intros N; [reflexivity|]. cbn. rewrite (N y r (or_introl eq_refl) H). apply IH. intros z s I. apply N. now right.
Qed.
Lemma filter_one {A B} (P : A -> B -> Prop) f l m x : Forall2 P l m -> NoDup l -> In x l ->
  (forall y r, In y l -> P y r -> (f r = true <-> y = x)) -> exists r, P x r /\ filter f m = [r].
Proof.
  induction 1 as [|y r l m H F IH]; intros D I N; [destruct I|]. apply NoDup_cons_iff in D. destruct D as [D1 D2]. cbn. destruct I as [->|I].
  - rewrite (proj2 (N x r (or_introl eq_refl) H) eq_refl). exists r. split; [exact H|]. f_equal. apply (filter_none P f l m F). intros z s Z Q.
    destruct (f s) eqn:E; [|reflexivity]. apply (N z s (or_intror Z) Q) in E. now subst.
  - destruct (f r) eqn:E; [apply (N y r (or_introl eq_refl) H) in E; now subst|]. apply IH; auto. intros z s Z. apply N. now right.
Qed.
Lemma filter_some {A B} (P : A -> B -> Prop) f l m x : Forall2 P l m -> In x l -> (forall r, P x r -> f r = true) -> filter f m <> [].
Proof.
  induction 1 as [|y r l m H F IH]; intros I N; [destruct I|]. cbn. destruct I as [->|I]; [now rewrite (N r H)|]. destruct (f r); [discriminate|]. now apply IH.
Qed.
Lemma filter_two {A B} (P : A -> B -> Prop) f l m x y : Forall2 P l m -> In x l -> In y l -> x <> y ->
  (forall r, P x r -> f r = true) -> (forall r, P y r -> f r = true) -> forall r, filter f m <> [r].
Proof.
  induction 1 as [|z r l m H F IH]; intros I J NE NX NY s; [destruct I|]. cbn. destruct I as [->|I], J as [->|J].
  - contradiction.
  - rewrite (NX r H). intros [= _ E]. exact (filter_some P f l m y F J NY E).
  - rewrite (NY r H). intros [= _ E]. exact (filter_some P f l m x F I NX E).
  - destruct (f r); [|now apply IH]. intros [= _ E]. exact (filter_some P f l m x F I NX E).
Qed.

(** Another page of the library with the same names of book and page *)
Definition only_page (lib : library) (x : place) (book page : string) : Prop :=
  forall y sh b p, page_at lib y sh b p -> b_book b = book -> p_page p = page -> y = x.
Lemma named norm lib y r book page : holds norm lib y r ->
  ((String.eqb (r_book r) book && String.eqb (r_page r) page)%bool = true <-> exists sh b p, page_at lib y sh b p /\ b_book b = book /\ p_page p = page).
Proof.
  intros (sh & b & p & Q & B & P & _). rewrite B, P, andb_true_iff, !String.eqb_eq. split; [intros [<- <-]; eauto 6|].
  intros (sh' & b' & p' & Q' & <- & <-). destruct (page_at_same _ _ _ _ _ _ _ _ Q Q') as (-> & -> & ->). auto.
Qed.

(** C107: a page whose names occur once is loaded, from the file of this page; its data, reference and
    comment are those of the file. *)
Theorem C107_loads_partial : forall info norm number lib rows files float h x sh b p,
  catalog info norm number lib = Ok rows -> page_at lib x sh b p -> only_page lib x (b_book b) (p_page p) ->
  let y := files ("data/" ++ norm (p_data p))%string in
  open_file rows files (b_book b) (p_page p) = Ok y /\
  (forall t, y_references y = Some t -> get_reference rows files (b_book b) (p_page p) = Ok t) /\
  (forall t, y_comments y = Some t -> get_comment rows files (b_book b) (p_page p) = Ok t) /\
  (forall d, y_data y = Some d -> get_dispersion rows files float h (b_book b) (p_page p) = Rii.get_dispersion float h d) /\
  (y_references y = None -> get_reference rows files (b_book b) (p_page p) = Err KeyError) /\
  (y_comments y = None -> get_comment rows files (b_book b) (p_page p) = Err KeyError).
Proof.
  intros info norm number lib rows files float h x sh b p C Q U y. destruct (catalog_holds _ _ _ _ _ C) as (ps & D & I & F).
  assert (O : open_file rows files (b_book b) (p_page p) = Ok y).
  { destruct (filter_one (holds norm lib) (fun r => (String.eqb (r_book r) (b_book b) && String.eqb (r_page r) (p_page p))%bool) ps rows x F D) as (r & (sh' & b' & p' & Q' & _ & _ & E) & S).
    - apply I. eauto.
    - intros z r Z H. rewrite (named norm lib z r _ _ H). split; [intros (sh' & b' & p' & Q' & B & P); exact (U _ _ _ _ Q' B P)|intros ->; eauto 6].
    - destruct (page_at_same _ _ _ _ _ _ _ _ Q Q') as (-> & -> & ->). unfold open_file, selected. rewrite S, E. reflexivity. }
  split; [exact O|]. unfold get_reference, get_comment, get_dispersion. rewrite O. cbn [rbind]. unfold key. repeat split; intros; now rewrite H.
Qed.
Print Assumptions C107_loads_partial.

(** C107: names that no page has are rejected *)
Theorem C107_unknown : forall info norm number lib rows files float h book page,
  catalog info norm number lib = Ok rows -> (forall x sh b p, page_at lib x sh b p -> ~ (b_book b = book /\ p_page p = page)) ->
  open_file rows files book page = Err ValueError /\ get_dispersion rows files float h book page = (h, Err ValueError).
Proof.
  intros info norm number lib rows files float h book page C N. destruct (catalog_holds _ _ _ _ _ C) as (ps & D & I & F).
  assert (S : selected rows book page = []).
  { apply (filter_none (holds norm lib) _ ps rows F). intros y r Y H. destruct (String.eqb (r_book r) book && String.eqb (r_page r) page)%bool eqn:E; [|reflexivity].
    apply (named norm lib y r _ _ H) in E. destruct E as (sh & b & p & Q & BP). now elim (N _ _ _ _ Q). }
  unfold get_dispersion, open_file. rewrite S. auto.
Qed.
Print Assumptions C107_unknown.

(** C107: names that occur twice are rejected, too, with the same exception "No entry found." *)
Theorem C107_twice : forall info norm number lib rows files float h book page x sh b p x' sh' b' p',
  catalog info norm number lib = Ok rows -> page_at lib x sh b p -> page_at lib x' sh' b' p' -> x <> x' ->
  b_book b = book -> p_page p = page -> b_book b' = book -> p_page p' = page ->
  open_file rows files book page = Err ValueError /\ get_dispersion rows files float h book page = (h, Err ValueError).
Proof.
  intros info norm number lib rows files float h book page x sh b p x' sh' b' p' C Q Q' NE B P B' P'. destruct (catalog_holds _ _ _ _ _ C) as (ps & D & I & F).
  assert (S : forall r, selected rows book page <> [r]).
  { apply (filter_two (holds norm lib) _ ps rows x x' F); [apply I; eauto|apply I; eauto|exact NE| |]; intros r H; apply (named norm lib _ r _ _ H); eauto 6. }
  assert (O : open_file rows files book page = Err ValueError).
  { unfold open_file. destruct (selected rows book page) as [|r [|r' l]]; try reflexivity. now elim (S r). }
  unfold get_dispersion. rewrite O. auto.
Qed.
Print Assumptions C107_twice.

(** C107 refuted: a page that is found by the search and cannot be loaded, because another shelf has a
    book and a page of the same names *)
Definition twin (name : string) : item shelf :=
  Item {| s_shelf := name; s_name := name; s_content :=
    [Item {| b_book := "Au"; b_name := "Gold"; b_content := [Item johnson; Item {| p_page := name; p_name := name; p_data := "x.yml" |}] |}] |}.
Definition twins : library := [twin "main"; twin "other"].
Theorem C107_loads_refuted : exists lib rows x sh b p found r, catalog (fun _ => None) (fun s => s) (fun _ => None) lib = Ok rows /\
  page_at lib x sh b p /\ search (fun _ l => l) false rows (One (p_page p)) (One "page") NoFilter false = Ok found /\ In r found /\
  r_book r = b_book b /\ r_page r = p_page p /\ r_shelf r = s_shelf sh /\
  forall files, open_file rows files (b_book b) (p_page p) = Err ValueError.
Proof.
  exists twins. eexists. exists (0, 0, 0)%nat. do 3 eexists. eexists. eexists. split; [reflexivity|]. split; [now constructor|]. split; [reflexivity|]. split; [left; reflexivity|]. repeat split.
Qed.
Print Assumptions C107_loads_refuted.

(** C107 example: the page of the other shelf whose names occur once *)
Example C107_example : exists rows x sh b p, catalog (fun _ => None) (fun s => s) (fun _ => None) twins = Ok rows /\
  page_at twins x sh b p /\ only_page twins x (b_book b) (p_page p) /\ s_shelf sh = "other" /\
  forall files, open_file rows files "Au" "other" = Ok (files "data/x.yml").
Proof.
  eexists. exists (1, 0, 1)%nat. do 3 eexists. split; [reflexivity|]. split; [now constructor|]. split; [|split; reflexivity].
  intros y sh b p Q _ P. inversion Q as [i j k ? ? ? A B C]. subst. cbn in P.
  destruct i as [|[|i]]; cbn in A; [| |destruct i; discriminate A]; injection A as <-; (destruct j as [|j]; cbn in B; [|destruct j; discriminate B]); injection B as <-;
    (destruct k as [|[|k]]; cbn in C; [| |destruct k; discriminate C]); injection C as <-; cbn in P; try discriminate P; reflexivity.
Qed.
Print Assumptions C107_example.
