From Coq Require Import Ascii String List Arith Bool Reals Lia Lra.
From Verif.Base Require Import Py.
From Verif.Model Require Import FormulaText Regex TextTable Woollam.
From Verif.Spec Require Import Language SpectraRayFile WoollamFile.
From Verif.Proof Require Import RegexP SpectraRayP.
Import ListNotations.
Open Scope char_scope.
Open Scope list_scope.

Lemma is_digit_iff c : is_digit c = true <-> a_digit c.
Proof.
  unfold a_digit. split.
  - intros H. destruct c as [[] [] [] [] [] [] [] []]; try discriminate H; cbn; auto 12.
  - cbn. intros H. repeat (destruct H as [<-|H]; [reflexivity|]). destruct H.
Qed.

Lemma is_alpha_iff c : is_alpha c = true <-> a_letter c.
Proof.
  unfold a_letter. split.
  - intros H. destruct (in_dec ascii_dec c (letters "abcdefghijklmnopqrstuvwxyzABCDEFGHIJKLMNOPQRSTUVWXYZ")) as [I|N]; [exact I|exfalso].
    destruct c as [[] [] [] [] [] [] [] []]; try discriminate H; apply N; vm_compute; repeat ((left; reflexivity) || right).
  - intros H. unfold letters in H. cbn in H. repeat (destruct H as [<-|H]; [reflexivity|]). destruct H.
Qed.

(** Every character of the language satisfies P *)
Fixpoint over (P : ascii -> Prop) (r : regex) : Prop :=
  match r with
  | Nothing | Empty => True
  | Chr p => forall c, p c = true -> P c
  | Cat r s | Alt r s => over P r /\ over P s
  | Star r => over P r
  end.
Lemma over_lang P r s : over P r -> lang r s -> Forall P s.
Proof.
  intros O L. induction L as [|p c E|r s a b A IA B IB|r s a A IA|r s a A IA|r|r a b A IA B IB]; cbn in O.
  - constructor.
  - repeat constructor. auto.
  - apply Forall_app. split; [apply IA|apply IB]; tauto.
  - apply IA. tauto.
  - apply IA. tauto.
  - constructor.
  - apply Forall_app. split; [apply IA|apply IB]; auto.
Qed.

(** is_float *)
Lemma float_has_digit s : lang is_float_regex s -> exists c, In c s /\ is_digit c = true.
Proof.
  intros L. apply cat_lang in L as (sg & m & -> & _ & M).
  assert (P : forall d r, lang (plus digit) d -> exists c, In c (d ++ r) /\ is_digit c = true).
  { intros d r D. apply plus_chr in D as [N F]. destruct d as [|c d]; [congruence|]. inversion F; subst. exists c. split; [now left|auto]. }
  assert (Q : exists c, In c m /\ is_digit c = true).
  { apply alt_lang in M as [M|M].
    - apply cat_lang in M as (d & r & -> & D & _). now apply P.
    - apply cat_lang in M as (p & x & -> & _ & X). apply cat_lang in X as (d & r & -> & D & _).
      destruct (P d r D) as (c & I & C). exists c. split; [apply in_or_app; now right|exact C]. }
  destruct Q as (c & I & C). exists c. split; [apply in_or_app; now right|exact C].
Qed.

Lemma digit_is_float c : is_digit c = true -> lang is_float_regex [c].
Proof.
  intros D. change [c] with ([] ++ [c] : text). constructor; [apply lang_right; constructor|]. apply lang_left.
  change [c] with ([c] ++ [] : text). constructor; [apply plus_chr; split; [discriminate|now repeat constructor]|].
  change (@nil ascii) with (@nil ascii ++ []). constructor; apply lang_right; constructor.
Qed.

Lemma is_float_str_digit s : is_float_str s = true <-> exists c, In c s /\ a_digit c.
Proof.
  unfold is_float_str. rewrite search_lang. split.
  - intros (a & m & b & -> & M). destruct (float_has_digit m M) as (c & I & D). exists c. split; [|now apply is_digit_iff].
    apply in_or_app. right. apply in_or_app. now left.
  - intros (c & I & D). apply in_split in I as (a & b & ->). exists a, [c], b. split; [reflexivity|]. apply digit_is_float. now apply is_digit_iff.
Qed.

(** The lines before the table *)
Lemma white_no_letter c : white c -> ~ a_letter c.
Proof. intros W A. apply is_space_iff in W. apply is_alpha_iff in A. destruct c as [[] [] [] [] [] [] [] []]; discriminate. Qed.

Definition table_char (c : ascii) : Prop := a_digit c \/ c = "." \/ c = "-" \/ white c.
Lemma table_no_letter c : table_char c -> ~ a_letter c.
Proof.
  intros [D|[->|[->|W]]] A; [|apply is_alpha_iff in A; discriminate|apply is_alpha_iff in A; discriminate|now apply (white_no_letter c)].
  apply is_digit_iff in D. apply is_alpha_iff in A. destruct c as [[] [] [] [] [] [] [] []]; discriminate.
Qed.

Lemma not_wvase l : (exists c, In c l /\ a_letter c) -> is_wvase_tabular l = false.
Proof.
  intros (c & I & A). apply not_true_iff_false. intros W. apply search_line_lang in W.
  assert (F : Forall table_char l).
  { assert (O : over table_char (Cat (times 5 (Cat (optional (char "-")) (Cat wvase_number (plus space)))) wvase_number)).
    { assert (D : forall c, is_digit c = true -> table_char c) by (intros d H; left; now apply is_digit_iff).
      assert (Dot : forall c, (c =? ".") = true -> table_char c) by (intros d H; apply Ascii.eqb_eq in H as ->; right; now left).
      assert (Minus : forall c, (c =? "-") = true -> table_char c) by (intros d H; apply Ascii.eqb_eq in H as ->; right; right; now left).
      assert (Sp : forall c, is_space c = true -> table_char c) by (intros d H; right; right; right; now apply is_space_iff).
      cbn. repeat split; assumption. }
    destruct W as [W|(l' & -> & W)]; [now apply (over_lang _ _ _ O)|]. apply Forall_app. split; [now apply (over_lang _ _ _ O)|].
    constructor; [|constructor]. right. right. right. right. cbn. auto. }
  rewrite Forall_forall in F. exact (table_no_letter c (F c I) A).
Qed.

Lemma header_next l w b c x : header l -> lang (plus alpha) w -> lang (plus space) b -> l = w ++ b ++ c :: x -> ~ a_digit c /\ c <> "T".
Proof.
  intros [_ H] W B E. apply plus_chr in W as [_ W]. apply plus_chr in B as [NB B]. apply (H w b c x E).
  - eapply Forall_impl; [|exact W]. intros d. apply is_alpha_iff.
  - eapply Forall_impl; [|exact B]. intros d. apply is_space_iff.
  - exact NB.
Qed.

Lemma not_ease l : header l -> is_complete_ease_tabular l = false.
Proof.
  intros H. apply not_true_iff_false. intros E. apply search_line_lang in E.
  assert (G : forall s nl, l = s ++ nl -> lang (Cat (plus alpha) (Cat (plus space) (Cat (times 5 (Cat ease_number (plus space))) ease_number))) s -> False).
  { intros s nl E' L. apply cat_lang in L as (w & y & -> & W & Y). apply cat_lang in Y as (b & z & -> & B & Z).
    apply cat_lang in Z as (t & u & -> & T & _). cbn [times] in T. apply cat_lang in T as (n & v & -> & N & _).
    apply cat_lang in N as (n1 & n2 & -> & N & _). apply cat_lang in N as (d & n3 & -> & D & _).
    apply plus_chr in D as [ND D]. destruct d as [|c d]; [congruence|]. inversion D as [|? ? DC _]; subst.
    destruct (header_next (((w ++ b ++ (((c :: d) ++ n3) ++ n2) ++ v ++ u)) ++ nl) w b c (d ++ n3 ++ n2 ++ v ++ u ++ nl)) as [X _].
    - replace (w ++ b ++ (((c :: d) ++ n3) ++ n2) ++ v ++ u) with (w ++ b ++ ((((c :: d) ++ n3) ++ n2) ++ v) ++ u) by now rewrite <- !app_assoc.
      exact H.
    - exact W.
    - exact B.
    - cbn. rewrite <- !app_assoc. cbn. rewrite <- !app_assoc. reflexivity.
    - apply X. now apply is_digit_iff. }
  destruct E as [E|(s & -> & E)]; [apply (G l []); [now rewrite app_nil_r|exact E]|now apply (G s [newline])].
Qed.

Lemma not_trig l : header l -> is_tan_cos_format l = false.
Proof.
  intros H. apply not_true_iff_false. intros E. apply search_start_lang in E as (m & r & -> & M).
  apply cat_lang in M as (w & y & -> & W & Y). apply cat_lang in Y as (b & z & -> & B & Z). apply cat_lang in Z as (t & u & -> & T & _).
  apply chr_lang in T as (c & -> & C). apply Ascii.eqb_eq in C as ->.
  destruct (header_next ((w ++ b ++ ["T"] ++ u) ++ r) w b "T" (u ++ r) H W B) as [_ X]; [|congruence].
  rewrite <- !app_assoc. reflexivity.
Qed.

Lemma find_header m head rest : Forall header head -> find_table m (head ++ rest) = find_table (m ++ head) rest.
Proof.
  intros F. revert m. induction F as [|l head H _ IH]; intros m; [now rewrite app_nil_r|].
  cbn [app find_table]. rewrite (not_wvase l (proj1 H)), (not_ease l H), (not_trig l H), IH, <- app_assoc. reflexivity.
Qed.

(** The first line of the tables *)
Lemma tab_space : lang (plus space) ["009"].
Proof. apply plus_chr. split; [discriminate|]. now repeat constructor. Qed.
Lemma unsigned_lang s : unsigned s -> lang wvase_number s.
Proof.
  intros (a & b & -> & A & B). constructor.
  - apply star_chr. eapply Forall_impl; [|exact A]. intros c. apply is_digit_iff.
  - apply (lang_cat _ _ ["."] b); [now constructor|]. apply star_chr. eapply Forall_impl; [|exact B]. intros c. apply is_digit_iff.
Qed.
Lemma decimal_lang s : decimal s -> lang (Cat (optional (char "-")) (Cat wvase_number (plus space))) (s ++ ["009"]).
Proof.
  intros [U|(t & -> & U)].
  - change (s ++ ["009"]) with ([] ++ s ++ ["009"]). constructor; [apply lang_right; constructor|]. constructor; [now apply unsigned_lang|apply tab_space].
  - change (("-" :: t) ++ ["009"]) with (["-"] ++ t ++ ["009"]). constructor; [apply lang_left; now constructor|].
    constructor; [now apply unsigned_lang|apply tab_space].
Qed.
Lemma full_lang s : full_decimal s -> lang ease_number s.
Proof.
  intros (a & b & -> & [NA A] & [NB B]). constructor.
  - apply plus_chr. split; [exact NA|]. eapply Forall_impl; [|exact A]. intros c. apply is_digit_iff.
  - apply (lang_cat _ _ ["."] b); [now constructor|]. apply plus_chr. split; [exact NB|]. eapply Forall_impl; [|exact B]. intros c. apply is_digit_iff.
Qed.

Lemma five r f1 f2 f3 f4 f5 : lang r f1 -> lang r f2 -> lang r f3 -> lang r f4 -> lang r f5 -> lang (times 5 r) (f1 ++ f2 ++ f3 ++ f4 ++ f5 ++ []).
Proof. intros. cbn [times]. repeat (constructor; [assumption|]). constructor. Qed.

Lemma search_line_end r s nl : lang r s -> line_end nl -> search_line r (s ++ nl) = true.
Proof. intros L [->| ->]; apply search_line_lang; [left; now rewrite app_nil_r|right; now exists s]. Qed.

Lemma wvase_first a b c d e f nl : Forall decimal [a; b; c; d; e] -> unsigned f -> line_end nl -> is_wvase_tabular (join [a; b; c; d; e; f] ++ nl) = true.
Proof.
  intros F U NL. repeat match goal with H : Forall _ (_ :: _) |- _ => inversion H; clear H; subst end.
  apply search_line_end; [|exact NL].
  replace (join [a; b; c; d; e; f]) with (((a ++ ["009"]) ++ (b ++ ["009"]) ++ (c ++ ["009"]) ++ (d ++ ["009"]) ++ (e ++ ["009"]) ++ []) ++ f)
    by (cbn; rewrite <- !app_assoc; reflexivity).
  constructor; [|now apply unsigned_lang]. apply five; now apply decimal_lang.
Qed.

Lemma ease_first label a b c d e f nl : label <> [] -> Forall a_letter label -> Forall full_decimal [a; b; c; d; e; f] -> line_end nl ->
  is_complete_ease_tabular (join [label; a; b; c; d; e; f] ++ nl) = true.
Proof.
  intros NL LL F E. repeat match goal with H : Forall full_decimal (_ :: _) |- _ => inversion H; clear H; subst end.
  apply search_line_end; [|exact E].
  replace (join [label; a; b; c; d; e; f]) with (label ++ ["009"] ++ ((a ++ ["009"]) ++ (b ++ ["009"]) ++ (c ++ ["009"]) ++ (d ++ ["009"]) ++ (e ++ ["009"]) ++ []) ++ f)
    by (cbn; rewrite <- !app_assoc; reflexivity).
  constructor; [apply plus_chr; split; [exact NL|eapply Forall_impl; [|exact LL]; intros x; apply is_alpha_iff]|].
  constructor; [apply tab_space|]. constructor; [|now apply full_lang]. apply five; (constructor; [now apply full_lang|apply tab_space]).
Qed.

(** The fields of a line *)
Lemma solid_app f g : solid f -> solid g -> solid (f ++ g).
Proof. intros F G. now apply Forall_app. Qed.
Lemma solid_tab f : solid f -> Forall (fun c => is_tab c = false) f.
Proof. apply Forall_impl. intros c W. apply Ascii.eqb_neq. intros ->. apply W. now left; right. Qed.
Lemma split_join fs : fs <> [] -> Forall solid fs -> split is_tab (join fs) = fs.
Proof.
  intros N F. induction F as [|f fs S F IH]; [congruence|]. destruct fs as [|g fs].
  - cbn. apply split_none. now apply solid_tab.
  - change (join (f :: g :: fs)) with (f ++ "009" :: join (g :: fs)). rewrite split_app; [|now apply solid_tab|reflexivity]. f_equal. apply IH. discriminate.
Qed.
Lemma join_no_newline fs : Forall solid fs -> Forall (fun c => c <> "010") (join fs).
Proof.
  intros F. assert (S : forall f, solid f -> Forall (fun c => c <> "010") f).
  { intros f. apply Forall_impl. intros c W ->. apply W. right. now left. }
  induction F as [|f fs H F IH]; [constructor|]. destruct fs as [|g fs]; [cbn; auto|].
  change (join (f :: g :: fs)) with (f ++ "009" :: join (g :: fs)). apply Forall_app. split; [auto|]. constructor; [discriminate|exact IH].
Qed.
Lemma join_fields fs nl : fs <> [] -> Forall solid fs -> line_end nl -> tab_fields (join fs ++ nl) = fs.
Proof. intros N F E. unfold tab_fields. rewrite content_line; [now apply split_join|now apply join_no_newline|exact E]. Qed.
Lemma join_not_blank f fs nl : a_word f -> Forall solid fs -> line_end nl -> tab_blank (join (f :: fs) ++ nl) = false.
Proof.
  intros [N S] F E. unfold tab_blank. rewrite content_line; [|apply join_no_newline; constructor; assumption|exact E].
  destruct f as [|c f]; [congruence|]. apply not_true_iff_false. intros H. rewrite forallb_forall in H.
  inversion S as [|? ? W _]; subst. apply W. left. left. apply Ascii.eqb_eq. apply H. destruct fs; cbn; now left.
Qed.

Lemma word_solid f : a_word f -> solid f.
Proof. now intros [_ F]. Qed.

(** Rows of a frame *)
Lemma zip_map {A} (fa fw fp fd : A -> cell) l :
  zip_rows (map fa l) (map fw l) (map fp l) (map fd l) = map (fun x => Row (fa x) (fw x) (fp x) (fd x)) l.
Proof. unfold zip_rows. induction l as [|x l IH]; [reflexivity|]. cbn. now rewrite IH. Qed.

Lemma rmapM_ok {A B} (f : A -> res B) g l : (forall a, In a l -> f a = Ok (g a)) -> rmapM f l = Ok (map g l).
Proof.
  induction l as [|a l IH]; intros H; [reflexivity|]. cbn. rewrite (H a) by now left. rewrite IH; [reflexivity|]. intros b I. apply H. now right.
Qed.

Lemma unique_map (g : cell -> cell) l : NoDup l -> (forall a b, In a l -> In b l -> g a = g b -> a = b) -> unique (map g l) = true.
Proof.
  intros N G. unfold unique. apply Nat.eqb_eq. f_equal. apply nodup_fixed_point.
  clear -N G. induction N as [|a l I N IH]; [constructor|]. cbn. constructor.
  - intros H. apply in_map_iff in H as (b & E & J). apply G in E; [|now right|now left]. congruence.
  - apply IH. intros x y X Y. apply G; now right.
Qed.

Lemma in_levels v l : In v (levels l) -> In v l /\ v <> Nan.
Proof.
  unfold levels. rewrite nodup_In, filter_In. intros [I H]. split; [exact I|]. now intros ->.
Qed.

(** scale_to_nm when every wavelength is known *)
Lemma scale_ok num to_nm unit k all (rows : list row) (val : cell -> R) :
  to_nm unit = Some k ->
  (forall v, In v all -> v <> Nan -> as_float num v = Ok (Num (val v))) ->
  (forall v w, In v all -> In w all -> v <> Nan -> w <> Nan -> (val v * k = val w * k)%R -> v = w) ->
  (forall r, In r rows -> In (wavelength r) all /\ wavelength r <> Nan) ->
  scale_to_nm num to_nm unit all rows = Ok (map (fun r => Row (aoi r) (Num (val (wavelength r) * k)) (psi r) (delta r)) rows).
Proof.
  intros K A I R. unfold scale_to_nm. rewrite K.
  rewrite (rmapM_ok _ (fun v => Num (val v * k))).
  - cbn [rbind]. rewrite unique_map.
    + apply rmapM_ok. intros r H. destruct (R r H) as [J N]. rewrite (A _ J N). reflexivity.
    + apply NoDup_nodup.
    + intros a b Ia Ib E. apply in_levels in Ia as [Ia Na], Ib as [Ib Nb]. apply I; auto. congruence.
  - intros v H. apply in_levels in H as [H N]. rewrite (A _ H N). reflexivity.
Qed.
