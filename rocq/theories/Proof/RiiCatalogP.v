(** Lemmas for Props/RiiCatalogT.v. *)
From Coq Require Import Reals String List Sorted Arith Bool Lia Lra.
From Verif.Base Require Import Py.
From Verif.Model Require Import RiiCatalog.
From Verif.Spec Require Import Library.
Import ListNotations.
Open Scope nat_scope.
Open Scope list_scope.

Lemma sorted_app {A} (R : A -> A -> Prop) l m : StronglySorted R l -> StronglySorted R m ->
  (forall x y, In x l -> In y m -> R x y) -> StronglySorted R (l ++ m).
Proof.
  intros S T H. induction S as [|x l S IH F]; [exact T|]. cbn. constructor.
  - apply IH. intros; apply H; [now right|assumption].
  - apply Forall_app. split; [exact F|]. apply Forall_forall. intros y Y. apply H; [now left|exact Y].
Qed.
Lemma Forall2_app' {A B} (P : A -> B -> Prop) l m l' m' : Forall2 P l m -> Forall2 P l' m' -> Forall2 P (l ++ l') (m ++ m').
Proof. intros F G. induction F; cbn; [exact G|]. now constructor. Qed.

Lemma div_next {A} (pre rest : list (item A)) d : divider_before (pre ++ Divider d :: rest) (length pre + 1) (Some d).
Proof.
  exists (length pre). split; [lia|]. split; [rewrite nth_error_app2, Nat.sub_diag; auto|]. intros k x K. lia.
Qed.
Lemma div_keep {A} (pre rest : list (item A)) a d : divider_before (pre ++ Item a :: rest) (length pre) d ->
  divider_before (pre ++ Item a :: rest) (length pre + 1) d.
Proof.
  assert (E : nth_error (pre ++ Item a :: rest) (length pre) = Some (Item a)) by (rewrite nth_error_app2, Nat.sub_diag; auto).
  destruct d as [d|]; cbn.
  - intros (m & L & H & N). exists m. split; [lia|]. split; [exact H|]. intros k x K. destruct (Nat.eq_dec k (length pre)) as [->|NE]; [congruence|].
    apply N. lia.
  - intros N k x K. destruct (Nat.eq_dec k (length pre)) as [->|NE]; [congruence|]. apply N. lia.
Qed.
Lemma div_start {A} (l : list (item A)) : divider_before l 0 None.
Proof. intros k x K. lia. Qed.
Lemma app_cons {A} (pre : list A) x rest : pre ++ x :: rest = (pre ++ [x]) ++ rest.
Proof. now rewrite <- app_assoc. Qed.
Lemma length_snoc {A} (pre : list A) x : length (pre ++ [x]) = length pre + 1.
Proof. rewrite app_length. reflexivity. Qed.

Lemma item_here {A} (pre rest : list (item A)) x : nth_error (pre ++ x :: rest) (length pre) = Some x.
Proof. rewrite nth_error_app2, Nat.sub_diag; auto. Qed.
Lemma item_past {A} (l : list (item A)) k a : item_at l k = Some a -> k < length l.
Proof. unfold item_at. intros H. apply nth_error_Some. destruct (nth_error l k); congruence. Qed.

Section Catalog.
Variable info : string -> option page_info.
Variable norm : string -> string.
Variable number : string -> option R.
Local Notation entry := (entry info norm number).
Local Notation pages_loop := (pages_loop info norm number).
Local Notation books_loop := (books_loop info norm number).
Local Notation shelves_loop := (shelves_loop info norm number).

Lemma pages_spec sh bd b i j l : forall rest pre pd entries, l = pre ++ rest -> divider_before l (length pre) pd ->
  exists ps rows, pages_loop sh bd b pd rest entries = entries ++ rows /\ StronglySorted before ps /\
    (forall x, In x ps <-> exists k p, x = (i, j, k) /\ length pre <= k /\ item_at l k = Some p) /\
    Forall2 (fun x r => exists k p d, x = (i, j, k) /\ item_at l k = Some p /\ divider_before l k d /\ r = entry sh bd b d p) ps rows.
Proof.
  induction rest as [|x rest IH]; intros pre pd entries -> D.
  - exists [], []. cbn. split; [now rewrite app_nil_r|]. split; [constructor|]. split; [|constructor].
    intros x. split; [intros []|]. intros (k & p & -> & K & E). apply item_past in E. rewrite app_length in E. cbn in E. lia.
  - destruct x as [d|p].
    + cbn [pages_loop]. destruct (IH (pre ++ [Divider d]) (Some d) entries) as (ps & rows & E & S & P & F).
      { apply app_cons. }
      { rewrite length_snoc. apply div_next. }
      exists ps, rows. split; [exact E|]. split; [exact S|]. split; [|exact F].
      intros x. rewrite P, length_snoc. split; intros (k & p & -> & K & Q); exists k, p; (split; [reflexivity|]; split; [|exact Q]); [lia|].
      destruct (Nat.eq_dec k (length pre)) as [->|NE]; [|lia]. unfold item_at in Q. rewrite item_here in Q. discriminate.
    + cbn [pages_loop]. destruct (IH (pre ++ [Item p]) pd (entries ++ [entry sh bd b pd p])) as (ps & rows & E & S & P & F).
      { apply app_cons. }
      { rewrite length_snoc. now apply div_keep. }
      assert (H : item_at (pre ++ Item p :: rest) (length pre) = Some p) by (unfold item_at; now rewrite item_here).
      exists ((i, j, length pre) :: ps), (entry sh bd b pd p :: rows). split; [rewrite E, <- app_assoc; reflexivity|].
      split; [|split].
      * constructor; [exact S|]. apply Forall_forall. intros x X. apply P in X. destruct X as (k & q & -> & K & _).
        rewrite length_snoc in K. cbn. right. split; [reflexivity|]. right. split; [reflexivity|]. lia.
      * intros x. split.
        -- intros [<-|X]; [exists (length pre), p; auto|]. apply P in X. destruct X as (k & q & -> & K & Q). rewrite length_snoc in K.
           exists k, q. split; [reflexivity|]. split; [lia|exact Q].
        -- intros (k & q & -> & K & Q). destruct (Nat.eq_dec k (length pre)) as [->|NE]; [now left|]. right. apply P.
           rewrite length_snoc. exists k, q. split; [reflexivity|]. split; [lia|exact Q].
      * constructor; [|exact F]. exists (length pre), p, pd. auto.
Qed.

Definition row_at (sh : shelf) (i : nat) (x : place) (r : row) : Prop :=
  exists j k b p bd d, x = (i, j, k) /\ item_at (s_content sh) j = Some b /\ item_at (b_content b) k = Some p /\
    divider_before (s_content sh) j bd /\ divider_before (b_content b) k d /\ r = entry sh bd b d p.

Lemma books_spec sh i l : l = s_content sh -> forall rest pre bd entries, l = pre ++ rest -> divider_before l (length pre) bd ->
  exists ps rows, books_loop sh bd rest entries = entries ++ rows /\ StronglySorted before ps /\
    (forall x, In x ps <-> exists j k b p, x = (i, j, k) /\ length pre <= j /\ item_at l j = Some b /\ item_at (b_content b) k = Some p) /\
    Forall2 (row_at sh i) ps rows.
Proof.
  intros SL. induction rest as [|x rest IH]; intros pre bd entries E D.
  - exists [], []. cbn. split; [now rewrite app_nil_r|]. split; [constructor|]. split; [|constructor].
    intros x. split; [intros []|]. intros (j & k & b & p & -> & K & Q & _). apply item_past in Q. rewrite E, app_length in Q. cbn in Q. lia.
  - destruct x as [d|b].
    + cbn [books_loop]. destruct (IH (pre ++ [Divider d]) (Some d) entries) as (ps & rows & EQ & S & P & F).
      { rewrite E. apply app_cons. }
      { rewrite length_snoc, E. apply div_next. }
      exists ps, rows. split; [exact EQ|]. split; [exact S|]. split; [|exact F].
      intros x. rewrite P, length_snoc. split; intros (j & k & b & p & -> & K & Q & Q'); exists j, k, b, p; (split; [reflexivity|]; split; [|split; assumption]); [lia|].
      destruct (Nat.eq_dec j (length pre)) as [->|NE]; [|lia]. unfold item_at in Q. rewrite E, item_here in Q. discriminate.
    + cbn [books_loop].
      destruct (pages_spec sh bd b i (length pre) (b_content b) (b_content b) [] None entries eq_refl (div_start _)) as (ps1 & rows1 & E1 & S1 & P1 & F1).
      rewrite E1. destruct (IH (pre ++ [Item b]) bd (entries ++ rows1)) as (ps & rows & EQ & S & P & F).
      { rewrite E. apply app_cons. }
      { rewrite length_snoc. rewrite E in *. now apply div_keep. }
      assert (H : item_at l (length pre) = Some b) by (unfold item_at; rewrite E; now rewrite item_here).
      exists (ps1 ++ ps), (rows1 ++ rows). split; [rewrite EQ; now rewrite <- app_assoc|]. split; [|split].
      * apply sorted_app; [exact S1|exact S|]. intros x y X Y. apply P1 in X. apply P in Y.
        destruct X as (k & p & -> & _), Y as (j & k' & b' & p' & -> & K & _). rewrite length_snoc in K. cbn. right. split; [reflexivity|]. left. lia.
      * intros x. rewrite in_app_iff, P1, P, length_snoc. split.
        -- intros [(k & p & -> & _ & Q)|(j & k & b' & p & -> & K & Q & Q')].
           ++ exists (length pre), k, b, p. auto.
           ++ exists j, k, b', p. split; [reflexivity|]. split; [lia|auto].
        -- intros (j & k & b' & p & -> & K & Q & Q'). destruct (Nat.eq_dec j (length pre)) as [->|NE].
           ++ left. assert (b' = b) as -> by congruence. exists k, p. split; [reflexivity|]. split; [cbn; lia|exact Q'].
           ++ right. exists j, k, b', p. split; [reflexivity|]. split; [lia|auto].
      * apply Forall2_app'; [|exact F]. clear -F1 H D E SL. induction F1; constructor; auto.
        destruct H0 as (k & p & d & -> & Q & DD & ->). exists (length pre), k, b, p, bd, d.
        subst l. auto 8.
Qed.

Lemma shelves_spec lib : forall rest pre entries, lib = pre ++ rest ->
  exists ps rows, shelves_loop rest entries = entries ++ rows /\ StronglySorted before ps /\
    (forall x, In x ps <-> exists i j k sh b p, x = (i, j, k) /\ length pre <= i /\ page_at lib x sh b p) /\
    Forall2 (fun x r => exists i sh, item_at lib i = Some sh /\ row_at sh i x r) ps rows.
Proof.
  induction rest as [|x rest IH]; intros pre entries E.
  - exists [], []. cbn. split; [now rewrite app_nil_r|]. split; [constructor|]. split; [|constructor].
    intros x. split; [intros []|]. intros (i & j & k & sh & b & p & -> & K & Q). inversion Q as [? ? ? ? ? ? Q' _ _]; subst.
    apply item_past in Q'. rewrite app_length in Q'. cbn in Q'. lia.
  - destruct x as [d|sh].
    + cbn [shelves_loop]. destruct (IH (pre ++ [Divider d]) entries) as (ps & rows & EQ & S & P & F).
      { rewrite E. apply app_cons. }
      exists ps, rows. split; [exact EQ|]. split; [exact S|]. split; [|exact F].
      intros x. rewrite P, length_snoc. split; intros (i & j & k & sh & b & p & -> & K & Q); exists i, j, k, sh, b, p; (split; [reflexivity|]; split; [|exact Q]); [lia|].
      destruct (Nat.eq_dec i (length pre)) as [->|NE]; [|lia]. inversion Q as [? ? ? ? ? ? Q' _ _]; subst. unfold item_at in Q'. rewrite item_here in Q'. discriminate.
    + cbn [shelves_loop].
      destruct (books_spec sh (length pre) (s_content sh) eq_refl (s_content sh) [] None entries eq_refl (div_start _)) as (ps1 & rows1 & E1 & S1 & P1 & F1).
      rewrite E1. destruct (IH (pre ++ [Item sh]) (entries ++ rows1)) as (ps & rows & EQ & S & P & F).
      { rewrite E. apply app_cons. }
      assert (H : item_at lib (length pre) = Some sh) by (unfold item_at; rewrite E; now rewrite item_here).
      exists (ps1 ++ ps), (rows1 ++ rows). split; [rewrite EQ; now rewrite <- app_assoc|]. split; [|split].
      * apply sorted_app; [exact S1|exact S|]. intros x y X Y. apply P1 in X. apply P in Y.
        destruct X as (j & k & b & p & -> & _), Y as (i' & j' & k' & sh' & b' & p' & -> & K & _). rewrite length_snoc in K. cbn. left. lia.
      * intros x. rewrite in_app_iff, P1, P, length_snoc. split.
        -- intros [(j & k & b & p & -> & _ & Q & Q')|(i & j & k & sh' & b' & p & -> & K & Q)].
           ++ exists (length pre), j, k, sh, b, p. split; [reflexivity|]. split; [lia|]. now constructor.
           ++ exists i, j, k, sh', b', p. split; [reflexivity|]. split; [lia|auto].
        -- intros (i & j & k & sh' & b' & p & -> & K & Q). destruct (Nat.eq_dec i (length pre)) as [->|NE].
           ++ left. assert (Q3 : sh' = sh /\ item_at (s_content sh') j = Some b' /\ item_at (b_content b') k = Some p).
              { clear -Q H. inversion Q; subst. split; [congruence|auto]. }
              destruct Q3 as (-> & Q1 & Q2).
              exists j, k, b', p. split; [reflexivity|]. split; [cbn; lia|auto].
           ++ right. exists i, j, k, sh', b', p. split; [reflexivity|]. split; [lia|auto].
      * apply Forall2_app'; [|exact F]. clear -F1 H. induction F1; constructor; auto. now exists (length pre), sh.
Qed.
End Catalog.

(** ** Search *)
Lemma equals_text r c t : equals r c t = Some true <-> text_in r c t.
Proof.
  unfold equals, text_in. destruct (column r c) as [[[u|]|[x|]]|].
  - split; [intros [= E]; apply String.eqb_eq in E; now subst u|intros [= ->]; now rewrite String.eqb_refl].
  - split; discriminate.
  - split; discriminate.
  - split; [|discriminate]. destruct (String.eqb c "year"); discriminate.
  - split; discriminate.
Qed.

Lemma drop_in seen l x : In x (drop_duplicates seen l) <-> In x l /\ ~ In x seen.
Proof.
  revert seen; induction l as [|y l IH]; intros seen; cbn; [tauto|]. destruct (existsb (String.eqb y) seen) eqn:E.
  - rewrite IH. apply existsb_exists in E. destruct E as (z & Z & E). apply String.eqb_eq in E. subst z.
    split; [tauto|]. intros [[->|H] N]; tauto.
  - assert (NS : ~ In y seen).
    { intros H. assert (existsb (String.eqb y) seen = true) by (apply existsb_exists; exists y; split; [exact H|apply String.eqb_refl]). congruence. }
    cbn. rewrite IH. cbn. split.
    + intros [->|[H N]]; [tauto|]. tauto.
    + intros [[->|H] N]; [tauto|]. destruct (string_dec y x) as [->|NE]; tauto.
Qed.
Lemma drop_nodup seen l : NoDup (drop_duplicates seen l).
Proof.
  revert seen; induction l as [|y l IH]; intros seen; cbn; [constructor|]. destruct (existsb (String.eqb y) seen); [apply IH|].
  constructor; [|apply IH]. rewrite drop_in. cbn. tauto.
Qed.
Lemma filter_list_in rows c t : In t (filter_list rows c) <-> exists r, In r rows /\ text_in r c t.
Proof.
  unfold filter_list. rewrite drop_in, in_flat_map. unfold present, text_in. split.
  - intros [(r & R & T) _]. exists r. split; [exact R|]. destruct (column r c) as [[[u|]|]|]; cbn in T; try contradiction. destruct T as [T|[]]. now subst u.
  - intros (r & R & T). split; [|intros []]. exists r. split; [exact R|]. rewrite T. now left.
Qed.

Section Search.
Variable suggest : string -> list string -> list string.
Variable kleene : bool.
Local Notation lor := (logical_or kleene).

Lemma mark_map rows c q g : mark kleene rows c q (map g rows) = map (fun r => lor (g r) (equals r c q)) rows.
Proof. unfold mark. induction rows as [|r rows IH]; cbn; [reflexivity|]. now rewrite IH. Qed.
Lemma marks_map rows c ts : forall g, fold_left (fun i s => mark kleene rows c s i) ts (map g rows) =
  map (fun r => fold_left (fun i t => lor i (equals r c t)) ts (g r)) rows.
Proof. induction ts as [|t ts IH]; intros g; cbn; [reflexivity|]. rewrite mark_map. apply (IH (fun r => lor (g r) (equals r c t))). Qed.

(** All texts looked for in a column *)
Definition texts (rows : list row) (fuzzy : bool) (c q : string) : list string :=
  if fuzzy then suggest q (filter_list rows c) else [q].
Definition tests (rows : list row) (fuzzy : bool) (cs qs : list string) : list (string * string) :=
  flat_map (fun c => flat_map (fun q => map (pair c) (texts rows fuzzy c q)) qs) cs.
Definition folded (r : row) (ts : list (string * string)) (a : option bool) : option bool :=
  fold_left (fun i '(c, t) => lor i (equals r c t)) ts a.
Definition allowed (fuzzy : bool) (c : string) : Prop := In c (if fuzzy then fuzzy_columns else columns).

Lemma folded_pair r c ts a : folded r (map (pair c) ts) a = fold_left (fun i t => lor i (equals r c t)) ts a.
Proof. revert a; induction ts as [|t ts IH]; intros a; cbn; [reflexivity|]. apply IH. Qed.
Lemma folded_app r l m a : folded r (l ++ m) a = folded r m (folded r l a).
Proof. unfold folded. now rewrite fold_left_app. Qed.

Lemma in_eqb c l : existsb (String.eqb c) l = true <-> In c l.
Proof.
  rewrite existsb_exists. split; [intros (x & X & E); apply String.eqb_eq in E; now subst|]. intros H. exists c. split; [exact H|apply String.eqb_refl].
Qed.
Lemma step_ok rows fuzzy c q g : allowed fuzzy c ->
  search_step suggest kleene rows fuzzy c q (map g rows) = Ok (map (fun r => folded r (map (pair c) (texts rows fuzzy c q)) (g r)) rows).
Proof.
  unfold allowed, search_step, texts. destruct fuzzy; intros H; apply in_eqb in H; rewrite H; f_equal.
  - rewrite marks_map. apply map_ext. intros r. now rewrite folded_pair.
  - now rewrite mark_map.
Qed.
Lemma queries_ok rows fuzzy c qs : allowed fuzzy c -> forall g,
  search_queries suggest kleene rows fuzzy c qs (map g rows) =
  Ok (map (fun r => folded r (flat_map (fun q => map (pair c) (texts rows fuzzy c q)) qs) (g r)) rows).
Proof.
  intros A. induction qs as [|q qs IH]; intros g; cbn [search_queries flat_map]; [reflexivity|].
  rewrite step_ok by exact A. cbn [rbind]. rewrite IH. f_equal. apply map_ext. intros r. now rewrite folded_app.
Qed.
Lemma columns_ok rows fuzzy qs cs : (forall c, In c cs -> allowed fuzzy c) -> forall g,
  search_columns suggest kleene rows fuzzy cs qs (map g rows) = Ok (map (fun r => folded r (tests rows fuzzy cs qs) (g r)) rows).
Proof.
  induction cs as [|c cs IH]; intros A g; cbn [search_columns]; [reflexivity|].
  rewrite queries_ok by (apply A; now left). cbn [rbind]. rewrite IH by (intros; apply A; now right).
  f_equal. apply map_ext. intros r. unfold tests. cbn [flat_map]. now rewrite folded_app.
Qed.

(** The first column that is not allowed *)
Lemma columns_err rows fuzzy q qs pre c post : (forall c, In c pre -> allowed fuzzy c) -> ~ allowed fuzzy c -> forall g,
  search_columns suggest kleene rows fuzzy (pre ++ c :: post) (q :: qs) (map g rows) = Err KeyError.
Proof.
  induction pre as [|d pre IH]; intros A N g; cbn [app search_columns].
  - cbn [search_queries]. unfold search_step, allowed in *. destruct fuzzy.
    + destruct (existsb (String.eqb c) fuzzy_columns) eqn:E; [apply in_eqb in E; contradiction|reflexivity].
    + destruct (existsb (String.eqb c) columns) eqn:E; [apply in_eqb in E; contradiction|reflexivity].
  - rewrite queries_ok by (apply A; now left). cbn [rbind]. apply IH; [|exact N]. intros; apply A; now right.
Qed.

(** When a row is marked *)
Lemma folded_true r ts a : (kleene = true \/ (a <> None /\ forall c t, In (c, t) ts -> equals r c t <> None)) ->
  folded r ts a = Some true <-> a = Some true \/ exists c t, In (c, t) ts /\ equals r c t = Some true.
Proof.
  revert a; induction ts as [|[c t] ts IH]; intros a H.
  - cbn. split; [now left|]. intros [E|(c & t & [] & _)]. exact E.
  - change (folded r ((c, t) :: ts) a) with (folded r ts (lor a (equals r c t))). rewrite IH.
    + assert (L : lor a (equals r c t) = Some true <-> a = Some true \/ equals r c t = Some true).
      { destruct H as [K|[NA H]].
        - rewrite K. destruct a as [[]|], (equals r c t) as [[]|]; cbn; intuition congruence.
        - specialize (H c t (or_introl eq_refl)). destruct a as [[]|], (equals r c t) as [[]|]; cbn; intuition congruence. }
      rewrite L. split.
      * intros [[E|E]|(c' & t' & I & E)]; [now left|right; exists c, t; split; [now left|exact E]|right; exists c', t'; split; [now right|exact E]].
      * intros [E|(c' & t' & [[= <- <-]|I] & E)]; [left; now left|left; now right|right; eauto].
    + destruct H as [K|[NA H]]; [now left|]. right. split.
      * specialize (H c t (or_introl eq_refl)). destruct a as [[]|], (equals r c t) as [[]|]; cbn; congruence.
      * intros c' t' I. apply H. now right.
Qed.
Lemma tests_in rows fuzzy cs qs c t : In (c, t) (tests rows fuzzy cs qs) <-> In c cs /\ exists q, In q qs /\ In t (texts rows fuzzy c q).
Proof.
  unfold tests. rewrite in_flat_map. split.
  - intros (c' & C & H). apply in_flat_map in H. destruct H as (q & Q & H). apply in_map_iff in H. destruct H as (t' & [= <- <-] & T). eauto.
  - intros (C & q & Q & T). exists c. split; [exact C|]. apply in_flat_map. exists q. split; [exact Q|]. now apply in_map.
Qed.

Lemma select_those (P : row -> Prop) rows g : (forall r, In r rows -> (g r = Some true <-> P r)) ->
  those P rows (select rows (map g rows)).
Proof.
  unfold select. induction rows as [|r rows IH]; intros H; cbn; [constructor|].
  specialize (IH (fun r R => H r (or_intror R))). specialize (H r (or_introl eq_refl)).
  destruct (g r) as [[]|] eqn:E; cbn.
  - constructor; [now apply H|exact IH].
  - apply those_skip; [|exact IH]. intros Q. apply H in Q. discriminate.
  - apply those_skip; [|exact IH]. intros Q. apply H in Q. discriminate.
Qed.
End Search.

Lemma covers_range r w : covers r w = true <-> in_range r w.
Proof.
  unfold covers, in_range. destruct (r_lower r) as [a|], (r_upper r) as [b|];
    try (split; [discriminate|intros (? & ? & ? & ? & _); discriminate]).
  destruct (Rle_dec a w), (Rle_dec w b); cbn; split; try discriminate; try (intros (? & ? & [= <-] & [= <-] & ? & ?); contradiction); auto.
  intros _. exists a, b. auto.
Qed.
Lemma filter_those {A} (f : A -> bool) (P : A -> Prop) l : (forall x, In x l -> (f x = true <-> P x)) -> those P l (filter f l).
Proof.
  induction l as [|x l IH]; intros H; cbn; [constructor|]. specialize (IH (fun y Y => H y (or_intror Y))). specialize (H x (or_introl eq_refl)).
  destruct (f x) eqn:E; [apply those_keep; [now apply H|exact IH]|apply those_skip; [|exact IH]]. intros Q. apply H in Q. discriminate.
Qed.
Lemma filters_all ws : forall l, fold_left (fun l x => filter (fun r => covers r x) l) ws l =
  filter (fun r => forallb (covers r) ws) l.
Proof.
  induction ws as [|w ws IH]; intros l; cbn.
  - induction l; cbn; congruence.
  - rewrite IH. induction l as [|r l IHl]; cbn; [reflexivity|]. destruct (covers r w); cbn; [|exact IHl].
    destruct (forallb (covers r) ws); congruence.
Qed.
