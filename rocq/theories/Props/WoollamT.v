(** C54: files of Woollam ellipsometers. *)
From Coq Require Import Ascii String List Arith Bool Reals Lia Lra.
From Verif.Base Require Import Py.
From Verif.Model Require Import FormulaText Regex TextTable Woollam.
From Verif.Spec Require Import Language SpectraRayFile WoollamFile.
From Verif.Proof Require Import RegexP SpectraRayP WoollamP.
Import ListNotations.
Open Scope char_scope.
Open Scope list_scope.

(** A string is taken for a float exactly if there is a digit in it *)
Theorem C54_is_float : forall s, is_float_str s = true <-> exists c, In c s /\ a_digit c.
Proof. exact is_float_str_digit. Qed.
Print Assumptions C54_is_float.

(** So every float is recognised *)
Theorem C54_is_float_partial : forall s, a_float s -> is_float_str s = true.
Proof.
  intros s (sg & m & e & -> & _ & M & _). apply is_float_str_digit.
  assert (P : exists c, In c m /\ a_digit c).
  { destruct M as [[N F]|(a & b & -> & A & B & N)].
    - destruct m as [|c m]; [congruence|]. inversion F; subst. exists c. split; [now left|auto].
    - destruct N as [N|N].
      + destruct a as [|c a]; [congruence|]. inversion A; subst. exists c. split; [now left|auto].
      + destruct b as [|c b]; [congruence|]. inversion B; subst. exists c. split; [|auto]. apply in_or_app. right. right. now left. }
  destruct P as (c & I & D). exists c. split; [|exact D]. apply in_or_app. right. apply in_or_app. now left.
Qed.
Print Assumptions C54_is_float_partial.

(** But other strings are, too *)
Theorem C54_is_float_refuted : exists s, is_float_str s = true /\ ~ a_float s.
Proof.
  exists (chars "dpolE1"). split; [reflexivity|]. intros (sg & m & e & E & S & M & _).
  destruct S as [->|[->| ->]]; [|discriminate E|discriminate E]. cbn [app] in E.
  assert (NM : forall c r, m = c :: r -> a_digit c \/ c = ".").
  { intros c r ->. destruct M as [[_ F]|(a & b & X & A & _)]; [inversion F; auto|]. destruct a as [|d a]; cbn in X.
    - injection X as -> _. auto.
    - injection X as -> _. inversion A; auto. }
  destruct m as [|c m].
  - destruct M as [[N _]|([|a0 a] & b & X & _)]; [congruence|discriminate X|discriminate X].
  - injection E as <- _. destruct (NM _ _ eq_refl) as [D|D]; [|discriminate D]. apply is_digit_iff in D. discriminate D.
Qed.
Print Assumptions C54_is_float_refuted.

Section C54.
Variable num : text -> option R.
Variable to_nm : text -> option R.
(** The values of the fields *)
Variable v : text -> R.

Definition measured (k : R) (r : record) : row :=
  Row (Num (v (r_aoi r))) (Num (v (r_wavelength r) * k)) (Num (v (r_psi r))) (Num (v (r_delta r))).
Definition numeric (f : text) : Prop := f = [] \/ num f = Some (v f).

Lemma numeric_cell f : numeric f -> f <> [] -> as_number num f = Num (v f).
Proof. intros [->|E] N; [congruence|]. unfold as_number. destruct f; [congruence|]. now rewrite E. Qed.
Lemma column_all l : Forall numeric l -> column num l = map (as_number num) l.
Proof.
  intros F. unfold column. assert (E : forallb (fun t => is_nil t || is_number num t) l = true).
  { apply forallb_forall. rewrite Forall_forall in F. intros t I. destruct (F t I) as [->|E]; [reflexivity|].
    unfold is_number. rewrite E. apply orb_true_r. }
  now rewrite E.
Qed.
Lemma filter_map_eq {A B} (g : A -> B) p l : filter p (map g l) = map g (filter (fun a => p (g a)) l).
Proof. induction l as [|a l IH]; [reflexivity|]. cbn. destruct (p (g a)); cbn; now rewrite IH. Qed.

Lemma nth_numeric j fs : Forall numeric fs -> numeric (nth j fs []).
Proof.
  intros F. destruct (Nat.lt_ge_cases j (length fs)) as [L|L]; [|rewrite nth_overflow by exact L; now left].
  rewrite Forall_forall in F. apply F. now apply nth_In.
Qed.

(** WVASE: all fields are numbers but for the labels of other lines *)
Definition wvase_values (k : option record * list line) : Prop :=
  match fst k with
  | Some _ => Forall (fun f => num f = Some (v f)) (snd k)
  | None => num (hd [] (snd k)) = None /\ Forall numeric (tl (snd k))
  end.

Lemma wvase_rows lines ks : Forall2 (fun l '(o, fs) => wvase_line l o fs) lines ks ->
  data_rows lines = map snd ks /\ wide 6 (map snd ks) = false.
Proof.
  intros F. induction F as [|l [o fs] lines ks W F [IH1 IH2]]; [split; reflexivity|].
  assert (P : tab_blank l = false /\ tab_fields l = fs /\ (6 <? length fs)%nat = false).
  { inversion W as [r nl A NL D|label gs nl A ND S L NL]; subst.
    - assert (S : Forall solid (fields r)) by (eapply Forall_impl; [|exact A]; intros f; apply word_solid).
      split; [|split; [apply join_fields; [discriminate|exact S|exact NL]|reflexivity]].
      apply join_not_blank; [now inversion A|now inversion S|exact NL].
    - split; [now apply join_not_blank|]. split; [apply join_fields; [discriminate| |exact NL]|cbn [length]; apply Nat.ltb_ge; lia].
      constructor; [now apply word_solid|exact S]. }
  destruct P as (P1 & P2 & P3). unfold data_rows. cbn [filter]. rewrite P1. cbn [negb map]. fold (data_rows lines). rewrite P2, IH1.
  split; [reflexivity|]. unfold wide; cbn [map existsb snd]. apply orb_false_iff. split; [exact P3|exact IH2].
Qed.

Theorem C54_wvase_partial : forall head unit first rest r0 fs0 ks k,
  Forall header (head ++ [unit]) ->
  Forall2 (fun l '(o, fs) => wvase_line l o fs) (first :: rest) ((Some r0, fs0) :: ks) ->
  Forall decimal [r_wavelength r0; r_aoi r0; r_psi r0; r_delta r0; r_psi_err r0] -> unsigned (r_delta_err r0) ->
  Forall wvase_values ((Some r0, fs0) :: ks) ->
  (forall r s, In r (r0 :: measurements (map fst ks)) -> In s (r0 :: measurements (map fst ks)) ->
     v (r_wavelength r) = v (r_wavelength s) -> r_wavelength r = r_wavelength s) ->
  to_nm unit = Some k -> k <> 0%R ->
  read_woollam_psi_delta num to_nm (head ++ unit :: first :: rest) = Ok (map (measured k) (r0 :: measurements (map fst ks))).
Proof.
  intros head unit first rest r0 fs0 ks k H F D U V I K NK. unfold read_woollam_psi_delta.
  change (head ++ unit :: first :: rest) with (head ++ [unit] ++ first :: rest). rewrite app_assoc, find_header by exact H.
  cbn [app find_table].
  assert (T : is_wvase_tabular first = true).
  { inversion F as [|? ? ? ? W _]; subst. inversion W; subst. apply wvase_first; assumption. }
  rewrite T. cbn [rbind]. unfold read_wvase. destruct (wvase_rows _ _ F) as [R1 R2]. rewrite R1, R2. cbn [rbind]. rewrite rev_app_distr. cbn [rev app].
  change (r0 :: measurements (map fst ks)) with (measurements (map fst ((Some r0, fs0) :: ks))) in *.
  assert (W : Forall (fun '(o, fs) => exists l, wvase_line l o fs) ((Some r0, fs0) :: ks)).
  { clear -F. remember (first :: rest) as ls. remember ((Some r0, fs0) :: ks) as ks'. clear -F. induction F as [|l [o fs] ls ks X F IH]; constructor; eauto. }
  set (all := (Some r0, fs0) :: ks) in *. clearbody all. clear F D U T R1 R2 first rest fs0 ks r0 H head.
  (* the columns *)
  assert (C : forall j, (j <> 0)%nat -> nth_column num j (map snd all) = map (fun fs => as_number num (nth j fs [])) (map snd all)).
  { intros j J. unfold nth_column. rewrite column_all; [now rewrite map_map|]. apply Forall_forall. intros f X. apply in_map_iff in X as (fs & <- & X).
    apply in_map_iff in X as ([o fs'] & <- & X). rewrite Forall_forall in V. specialize (V _ X). unfold wvase_values in V. cbn [fst snd] in *. destruct o.
    - apply nth_numeric. eapply Forall_impl; [|exact V]. intros g E. now right.
    - destruct V as [_ V]. destruct fs' as [|g fs']; [destruct j; now left|]. destruct j as [|j]; [congruence|]. cbn [nth tl] in *. now apply nth_numeric. }
  rewrite (C 1%nat), (C 2%nat), (C 3%nat) by discriminate. 
  set (b := forallb (fun t => is_nil t || is_number num t) (map (fun r => nth 0 r []) (map snd all))).
  assert (C0 : nth_column num 0 (map snd all) = map (fun fs => if b then as_number num (nth 0 fs []) else as_text (nth 0 fs [])) (map snd all)).
  { unfold nth_column, column. fold b. destruct b; now rewrite map_map. }
  rewrite C0. cbn [fst snd]. rewrite zip_map, map_map, filter_map_eq.
  set (w := fun t : text => if b then Num (v t) else Txt t).
  (* the rows that are kept *)
  assert (Kept : map (fun x => Row (as_number num (nth 1 (snd x) [])) (if b then as_number num (nth 0 (snd x) []) else as_text (nth 0 (snd x) []))
      (as_number num (nth 2 (snd x) [])) (as_number num (nth 3 (snd x) [])))
      (filter (fun a => is_float (wavelength (Row (as_number num (nth 1 (snd a) [])) (if b then as_number num (nth 0 (snd a) []) else as_text (nth 0 (snd a) []))
      (as_number num (nth 2 (snd a) [])) (as_number num (nth 3 (snd a) []))))) all) =
      map (fun r => Row (Num (v (r_aoi r))) (w (r_wavelength r)) (Num (v (r_psi r))) (Num (v (r_delta r)))) (measurements (map fst all))).
  { assert (B : b = true -> Forall (fun x => numeric (nth 0 (snd x) []) ) all /\ forall x, In x all -> fst x = None -> False).
    { intros B. unfold b in B. rewrite forallb_forall in B.
      assert (Q : forall x, In x all -> nth 0 (snd x) [] = [] \/ is_number num (nth 0 (snd x) []) = true).
      { intros x X. assert (Y : In (nth 0 (snd x) []) (map (fun r => nth 0 r []) (map snd all))).
        { apply (in_map (fun r => nth 0 r [])). now apply in_map. }
        specialize (B _ Y). apply orb_true_iff in B as [B|B]; [|now right]. left. destruct (nth 0 (snd x) []); [reflexivity|discriminate B]. }
      assert (Z : forall x, In x all -> fst x = None -> False).
      { intros [o fs] X E. cbn in E. subst o. rewrite Forall_forall in V, W. specialize (V _ X). specialize (W _ X). specialize (Q _ X).
        destruct W as (l & W). inversion W as [|label gs nl A ND S L NL]; subst. cbn in *. destruct V as [V _].
        destruct Q as [->|Q]; [now destruct A|]. unfold is_number in Q. rewrite V in Q. discriminate Q. }
      split; [|exact Z]. apply Forall_forall. intros x X. destruct x as [[r|] fs]; [|exfalso; now apply (Z _ X)].
      rewrite Forall_forall in V. specialize (V _ X). cbn [wvase_values fst snd] in *. apply nth_numeric. eapply Forall_impl; [|exact V]. intros g E. now right. }
    clear C C0 I. clearbody b. induction all as [|[o fs] all IH]; [reflexivity|].
    assert (IH' := IH (Forall_inv_tail V) (Forall_inv_tail W)). clear IH.
    assert (B' : b = true -> Forall (fun x => numeric (nth 0 (snd x) [])) all /\ forall x, In x all -> fst x = None -> False).
    { intros E. destruct (B E) as [B1 B2]. split; [now apply Forall_inv_tail in B1|]. intros x X. apply B2. now right. }
    specialize (IH' B'). pose proof (Forall_inv V) as V0. pose proof (Forall_inv W) as (l & W0). cbn [map fst snd filter].
    inversion W0 as [r nl A NL DG|label gs nl A ND S L NL]; subst.
    - cbn [fields nth wavelength measurements map]. cbn in V0.
      assert (G : forall f, In f (fields r) -> as_number num f = Num (v f)).
      { intros f X. rewrite Forall_forall in V0, A. apply numeric_cell; [right; now apply V0|now apply A]. }
      rewrite !G by (cbn; auto 8).
      assert (E : (if b then Num (v (r_wavelength r)) else as_text (r_wavelength r)) = w (r_wavelength r)).
      { unfold w. destruct b; [reflexivity|]. inversion A as [|? ? [N _] _]; subst. destruct (r_wavelength r); [congruence|reflexivity]. }
      rewrite E. assert (FL : is_float (w (r_wavelength r)) = true).
      { unfold w. destruct b; [reflexivity|]. cbn. now apply is_float_str_digit. }
      rewrite FL. cbn [map]. cbn [snd nth fields]. rewrite !G by (cbn; auto 8). rewrite E. f_equal. exact IH'.
    - cbn [nth wavelength measurements]. assert (b = false) as ->.
      { destruct b; [|reflexivity]. destruct (B eq_refl) as [_ Z]. exfalso. apply (Z (None, label :: gs)); [now left|reflexivity]. }
      assert (E : as_text label = Txt label) by (destruct A as [N _]; destruct label; [congruence|reflexivity]). rewrite E.
      assert (FL : is_float (Txt label) = false).
      { cbn. apply not_true_iff_false. intros X. apply is_float_str_digit in X as (c & X & Y). exact (ND c X Y). }
      rewrite FL. exact IH'. }
  unfold line, text in *. rewrite Kept. rewrite !map_map. cbn [wavelength].
  rewrite (scale_ok num to_nm unit k _ _ (fun c => match c with Num r => r | Txt t => v t | Nan => 0%R end)).
  - f_equal. rewrite map_map. apply map_ext. intros r. unfold measured, w. cbn. now destruct b.
  - exact K.
  - intros c X _. apply in_map_iff in X as (r & <- & X). unfold w. destruct b; cbn; [reflexivity|].
    assert (E : num (r_wavelength r) = Some (v (r_wavelength r))).
    { clear -X V W. induction all as [|[o fs] all IH]; [destruct X|]. pose proof (Forall_inv V) as V0. pose proof (Forall_inv W) as (l & W0).
      inversion W0; subst; cbn in X.
      - destruct X as [<-|X]; [cbn in V0; now inversion V0|]. apply IH; auto. now apply Forall_inv_tail in V. now apply Forall_inv_tail in W.
      - apply IH; auto. now apply Forall_inv_tail in V. now apply Forall_inv_tail in W. }
    now rewrite E.
  - intros c d X Y _ _ E. apply in_map_iff in X as (r & <- & X). apply in_map_iff in Y as (s & <- & Y).
    assert (E' : v (r_wavelength r) = v (r_wavelength s)) by (unfold w in E; destruct b; now apply Rmult_eq_reg_r in E).
    now rewrite (I r s X Y E').
  - intros r X. apply in_map_iff in X as (s & <- & X). cbn. split; [apply (in_map (fun x => w (r_wavelength x))); exact X|]. unfold w. now destruct b.
Qed.

(** CompleteEASE: all fields are numbers but for the labels *)
Definition ease_values (k : option record * list line) : Prop := Forall numeric (tl (snd k)).

Lemma ease_rows lines ks : Forall2 (fun l '(o, fs) => ease_line l o fs) lines ks ->
  data_rows lines = map snd ks /\ wide 7 (map snd ks) = false.
Proof.
  intros F. induction F as [|l [o fs] lines ks W F [IH1 IH2]]; [split; reflexivity|].
  assert (P : tab_blank l = false /\ tab_fields l = fs /\ (7 <? length fs)%nat = false).
  { inversion W as [r nl A NL|label gs nl A ND S L NL]; subst.
    - assert (S : Forall solid (fields r)) by (eapply Forall_impl; [|exact A]; intros f; apply word_solid).
      assert (SE : a_word (letters "E")) by (split; [discriminate|]; constructor; [|constructor]; intros X; apply is_space_iff in X; discriminate X).
      split; [apply join_not_blank; assumption|]. split; [|reflexivity]. apply join_fields; [discriminate| |exact NL].
      constructor; [now apply word_solid|exact S].
    - split; [now apply join_not_blank|]. split; [apply join_fields; [discriminate| |exact NL]|cbn [length]; apply Nat.ltb_ge; lia].
      constructor; [now apply word_solid|exact S]. }
  destruct P as (P1 & P2 & P3). unfold data_rows. cbn [filter]. rewrite P1. cbn [negb map]. fold (data_rows lines). rewrite P2, IH1.
  split; [reflexivity|]. unfold wide; cbn [map existsb snd]. apply orb_false_iff. split; [exact P3|exact IH2].
Qed.

Lemma letter_header_line c l : In c l -> a_letter c -> is_wvase_tabular l = false.
Proof. intros I A. apply not_wvase. eauto. Qed.

(** The first line of the table must not have a negative number *)
Theorem C54_complete_ease_partial : forall head unit first rest r0 fs0 ks k,
  num (letters "E") = None ->
  Forall header (head ++ [unit]) ->
  Forall2 (fun l '(o, fs) => ease_line l o fs) (first :: rest) ((Some r0, fs0) :: ks) ->
  Forall full_decimal (fields r0) ->
  Forall ease_values ((Some r0, fs0) :: ks) ->
  to_nm unit = Some k -> k <> 0%R ->
  read_woollam_psi_delta num to_nm (head ++ unit :: first :: rest) = Ok (map (measured k) (r0 :: measurements (map fst ks))).
Proof.
  intros head unit first rest r0 fs0 ks k NE H F D V K NK. unfold read_woollam_psi_delta.
  change (head ++ unit :: first :: rest) with (head ++ [unit] ++ first :: rest). rewrite app_assoc, find_header by exact H.
  cbn [app find_table].
  assert (T : is_wvase_tabular first = false /\ is_complete_ease_tabular first = true /\ fs0 = letters "E" :: fields r0).
  { inversion F as [|? ? ? ? W _]; subst. inversion W as [r nl A NL|]; subst. split; [|split; [|reflexivity]].
    - apply (letter_header_line "E"); [now left|]. now apply is_alpha_iff.
    - apply ease_first; [discriminate| |assumption|assumption]. constructor; [|constructor]. now apply is_alpha_iff. }
  destruct T as (T1 & T2 & T3). rewrite T1, T2. cbn [rbind]. unfold read_complete_ease. destruct (ease_rows _ _ F) as [R1 R2]. rewrite R1.
  assert (L7 : length (hd [] (map snd ((Some r0, fs0) :: ks))) = 7%nat) by (subst fs0; reflexivity). unfold line, text in *. rewrite L7, R2.
  change ((7 =? 7)%nat) with true. cbn [negb rbind fst snd]. rewrite rev_app_distr. cbn [rev app].
  change (r0 :: measurements (map fst ks)) with (measurements (map fst ((Some r0, fs0) :: ks))).
  assert (W : Forall (fun '(o, fs) => exists l, ease_line l o fs) ((Some r0, fs0) :: ks)).
  { clear -F. remember (first :: rest) as ls. remember ((Some r0, fs0) :: ks) as ks'. clear -F. induction F as [|l [o fs] ls ks X F IH]; constructor; eauto. }
  assert (E0 : exists fs, In (Some r0, letters "E" :: fs) ((Some r0, fs0) :: ks)) by (exists (fields r0); left; now rewrite T3).
  set (all := (Some r0, fs0) :: ks) in *. clearbody all. clear F D T1 T2 T3 L7 R1 R2 first rest fs0 ks H head.
  assert (N : forall j x, In x all -> (j <> 0)%nat -> numeric (nth j (snd x) [])).
  { intros j x X J. rewrite Forall_forall in V. assert (V' := V _ X). unfold ease_values in V'. destruct x as [o [|g fs]]; cbn [snd] in *; [destruct j; now left|].
    destruct j as [|j]; [congruence|]. cbn [nth tl] in *. exact (nth_numeric j fs V'). }
  assert (C : forall j, (j <> 0)%nat -> nth_column num j (map snd all) = map (fun x => as_number num (nth j (snd x) [])) all).
  { intros j J. unfold nth_column. rewrite column_all; [now rewrite !map_map|]. apply Forall_forall. intros f X. rewrite map_map in X.
    apply in_map_iff in X as (x & <- & X). now apply N. }
  assert (C0 : nth_column num 0 (map snd all) = map (fun x => as_text (nth 0 (snd x) [])) all).
  { unfold nth_column, column. rewrite map_map.
    assert (B : forallb (fun t => is_nil t || is_number num t) (map (fun x => nth 0 (snd x) []) all) = false).
    { apply not_true_iff_false. intros B. rewrite forallb_forall in B. destruct E0 as (fs & E0).
      specialize (B _ (in_map (fun x => nth 0 (snd x) []) _ _ E0)). cbn in B. unfold is_number in B.
      change (letters "E") with ["E"] in NE. rewrite NE in B. discriminate B. }
    unfold line, text in *. rewrite B. now rewrite map_map. }
  rewrite C0, (C 1%nat), (C 2%nat), (C 3%nat), (C 4%nat) by discriminate. rewrite zip_map.
  assert (Kept : forall l : list (option record * list line), incl l all ->
    map snd (filter (fun p : cell * row => match fst p with Txt t => same t (chars "E") | _ => false end)
      (combine (map (fun x => as_text (nth 0 (snd x) [])) l)
        (map (fun x => Row (as_number num (nth 2 (snd x) [])) (as_number num (nth 1 (snd x) [])) (as_number num (nth 3 (snd x) [])) (as_number num (nth 4 (snd x) []))) l))) =
    map (fun r => Row (Num (v (r_aoi r))) (Num (v (r_wavelength r))) (Num (v (r_psi r))) (Num (v (r_delta r)))) (measurements (map fst l))).
  { induction l as [|[o fs] l IH]; intros I; [reflexivity|]. cbn [map combine filter fst snd].
    assert (I' : incl l all) by (intros x X; apply I; now right). specialize (IH I').
    assert (X : In (o, fs) all) by (apply I; now left). rewrite Forall_forall in W. destruct (W _ X) as (ln & W0).
    inversion W0 as [r nl A NL|label gs nl A ND S L NL]; subst; cbn [nth fields].
    - assert (G : forall j f, (j <> 0)%nat -> nth j (letters "E" :: fields r) [] = f -> In f (fields r) -> as_number num f = Num (v f)).
      { intros j f J E Q. rewrite Forall_forall in A. apply numeric_cell; [|now apply A]. rewrite <- E. exact (N j _ X J). }
      rewrite (G 1%nat (r_wavelength r)), (G 2%nat (r_aoi r)), (G 3%nat (r_psi r)), (G 4%nat (r_delta r)) by (try discriminate; try reflexivity; cbn; auto 8).
      change (as_text (letters "E")) with (Txt (chars "E")). change (same (chars "E") (chars "E")) with true. cbn [map snd measurements]. change (same (chars "E") (chars "E")) with true. cbv iota. cbn [map snd]. f_equal. exact IH.
    - assert (Q : match as_text label with Txt t => same t (chars "E") | _ => false end = false).
      { destruct A as [NL' _]. destruct label as [|c label]; [congruence|]. cbn [as_text]. apply not_true_iff_false. intros Y. apply same_iff in Y. now apply ND. }
      rewrite Q. cbn [measurements]. exact IH. }
  unfold line, text in *. rewrite (Kept all (incl_refl all)).
  rewrite (scale_ok num to_nm unit k _ _ (fun c => match c with Num r => r | _ => 0%R end)).
  - f_equal. rewrite map_map. apply map_ext. intros r. reflexivity.
  - exact K.
  - intros c X NN. apply in_map_iff in X as (x & <- & X). destruct (nth 1 (snd x) []) as [|d f] eqn:Q; [now elim NN|].
    rewrite numeric_cell; [reflexivity| |discriminate]. rewrite <- Q. now apply N.
  - intros c d X Y NC ND E. apply in_map_iff in X as (x & <- & X). apply in_map_iff in Y as (y & <- & Y).
    assert (G : forall z, In z all -> as_number num (nth 1 (snd z) []) <> Nan -> exists r, as_number num (nth 1 (snd z) []) = Num r).
    { intros z Z NZ. destruct (nth 1 (snd z) []) as [|d f] eqn:Q; [now elim NZ|]. exists (v (d :: f)). apply numeric_cell; [|discriminate]. rewrite <- Q. now apply N. }
    destruct (G x X NC) as (a & A), (G y Y ND) as (b & B). rewrite A, B in *. f_equal. now apply Rmult_eq_reg_r in E.
  - intros r X. apply in_map_iff in X as (m & <- & X). cbn [wavelength]. split; [|discriminate].
    clear -X W N V. assert (Q : exists fs, In (Some m, fs) all).
    { clear -X. induction all as [|[[r|] fs] all IH]; cbn in X; [destruct X| |].
      - destruct X as [->|X]; [exists fs; now left|]. destruct (IH X) as (g & G). exists g. now right.
      - destruct (IH X) as (g & G). exists g. now right. }
    destruct Q as (fs & Q). apply in_map_iff. exists (Some m, fs). split; [|exact Q]. rewrite Forall_forall in W. destruct (W _ Q) as (l & W0).
    inversion W0 as [r nl A NL|]; subst. cbn [snd nth fields]. rewrite Forall_forall in A. apply numeric_cell.
    + exact (N 1%nat _ Q ltac:(discriminate)).
    + apply (A (r_wavelength m)). now left.
Qed.
End C54.
Print Assumptions C54_wvase_partial.
Print Assumptions C54_complete_ease_partial.

(** Files without a table *)
Theorem C54_no_table : forall num to_nm lines, Forall header lines -> read_woollam_psi_delta num to_nm lines = Err ValueError.
Proof.
  intros num to_nm lines H. unfold read_woollam_psi_delta. rewrite <- (app_nil_r lines), find_header by exact H. reflexivity.
Qed.
Print Assumptions C54_no_table.

(** Files of tan psi and cos delta *)
Lemma same_next w b c x w' b' c' x' : Forall a_letter w -> Forall white b -> b <> [] -> ~ white c ->
  Forall a_letter w' -> Forall white b' -> b' <> [] -> ~ white c' -> w ++ b ++ c :: x = w' ++ b' ++ c' :: x' -> c = c'.
Proof.
  intros W B NB NC W' B' NB' NC'. revert w' W'. induction W as [|a w A W IH]; intros w' W' E.
  - destruct w' as [|a' w'].
    + cbn in E. clear -B B' NC NC' E. revert b' B' E. induction B as [|d b D B IH]; intros [|d' b'] B' E; cbn in E.
      * congruence.
      * injection E as -> _. now inversion B'.
      * injection E as -> _. contradiction.
      * injection E as _ E. apply (IH b'); [now inversion B'|exact E].
    + exfalso. destruct b as [|d b]; [congruence|]. cbn in E. injection E as -> _. apply (white_no_letter a'); [now inversion B|now inversion W'].
  - destruct w' as [|a' w'].
    + exfalso. destruct b' as [|d b']; [congruence|]. cbn in E. injection E as -> _. apply (white_no_letter d); [now inversion B'|exact A].
    + cbn in E. injection E as _ E. apply (IH w'); [now inversion W'|exact E].
Qed.

Theorem C54_trig : forall num to_nm head w b x rest, Forall header head -> w <> [] -> Forall a_letter w -> b <> [] -> Forall white b ->
  read_woollam_psi_delta num to_nm (head ++ (w ++ b ++ letters "TRIG" ++ x) :: rest) = Err NotImplementedError.
Proof.
  intros num to_nm head w b x rest H NW W NB B. unfold read_woollam_psi_delta. rewrite find_header by exact H. cbn [find_table].
  assert (T1 : is_wvase_tabular (w ++ b ++ letters "TRIG" ++ x) = false).
  { destruct w as [|c w]; [congruence|]. apply (letter_header_line c); [now left|now inversion W]. }
  assert (T3 : is_tan_cos_format (w ++ b ++ letters "TRIG" ++ x) = true).
  { apply search_start_lang. exists (w ++ b ++ letters "TRIG"), x. split; [now rewrite <- !app_assoc|].
    constructor; [apply plus_chr; split; [exact NW|]; eapply Forall_impl; [|exact W]; intros d; apply is_alpha_iff|].
    constructor; [apply plus_chr; split; [exact NB|]; eapply Forall_impl; [|exact B]; intros d; apply is_space_iff|].
    apply (lang_cat _ _ ["T"] ["R"; "I"; "G"]); [now constructor|]. apply (lang_cat _ _ ["R"] ["I"; "G"]); [now constructor|].
    apply (lang_cat _ _ ["I"] ["G"]); now constructor. }
  assert (T2 : is_complete_ease_tabular (w ++ b ++ letters "TRIG" ++ x) = false).
  { apply not_true_iff_false. intros E. apply search_line_lang in E.
    assert (G : forall s nl, w ++ b ++ letters "TRIG" ++ x = s ++ nl ->
      lang (Cat (plus alpha) (Cat (plus space) (Cat (times 5 (Cat ease_number (plus space))) ease_number))) s -> False).
    { intros s nl E' L. apply cat_lang in L as (w' & y & -> & W' & Y). apply cat_lang in Y as (b' & z & -> & B' & Z).
      apply cat_lang in Z as (t & u & -> & T & _). cbn [times] in T. apply cat_lang in T as (n & v & -> & N & _).
      apply cat_lang in N as (n1 & n2 & -> & N & _). apply cat_lang in N as (d & n3 & -> & D & _).
      apply plus_chr in D as [ND D]. destruct d as [|c d]; [congruence|]. inversion D as [|? ? DC _]; subst.
      apply plus_chr in W' as [_ W']. apply plus_chr in B' as [NB' B'].
      assert (X : "T" = c).
      { apply (same_next w b "T" (letters "RIG" ++ x) w' b' c (d ++ n3 ++ n2 ++ v ++ u ++ nl)); auto.
        - intros X. apply is_space_iff in X. discriminate X.
        - eapply Forall_impl; [|exact W']. intros a. apply is_alpha_iff.
        - eapply Forall_impl; [|exact B']. intros a. apply is_space_iff.
        - intros X. apply is_space_iff in X. destruct c as [[] [] [] [] [] [] [] []]; discriminate.
        - change (w ++ b ++ "T" :: letters "RIG" ++ x) with (w ++ b ++ letters "TRIG" ++ x). rewrite E'. rewrite <- !app_assoc. cbn. rewrite <- ?app_assoc. reflexivity. }
      subst c. discriminate DC. }
    destruct E as [E|(s & E1 & E)]; [apply (G (w ++ b ++ letters "TRIG" ++ x) []); [now rewrite app_nil_r|exact E]|now apply (G s [newline])]. }
  rewrite T1, T2, T3. reflexivity.
Qed.
Print Assumptions C54_trig.

(** Concrete files with numbers of one digit before and a zero after the point *)
Definition small (t : text) : option R :=
  match t with
  | [d; p; z] => if is_digit d && (p =? ".") && (z =? "0") then Some (INR (nat_of_ascii d - 48)) else None
  | [m; d; p; z] => if (m =? "-") && is_digit d && (p =? ".") && (z =? "0") then Some (- INR (nat_of_ascii d - 48))%R else None
  | _ => None
  end.
Definition nanometres (t : text) : option R := if same t (chars "nm" ++ [newline]) then Some 1%R else None.
Definition entry (d : R) (a w p : R) : row := Row (Num a) (Num w) (Num p) (Num d).
Definition rec (w a p d : string) : record := Rec (chars w) (chars a) (chars p) (chars d) (chars "1.0") (chars "1.0").

Lemma header_word a b : a_letter a -> a_letter b -> header [a; b; newline].
Proof.
  intros A B. split; [exists a; split; [now left|exact A]|]. intros w s c x E W S NS. exfalso.
  assert (NLA : ~ white a) by (intros X; exact (white_no_letter a X A)). assert (NLB : ~ white b) by (intros X; exact (white_no_letter b X B)).
  assert (NN : ~ a_letter newline) by (intros X; apply is_alpha_iff in X; discriminate X).
  destruct w as [|w1 w]; [destruct s as [|s1 s]; [congruence|]; cbn in E; injection E as <- _; now inversion S|].
  cbn in E. injection E as _ E. destruct w as [|w2 w]; [destruct s as [|s1 s]; [congruence|]; cbn in E; injection E as <- _; now inversion S|].
  cbn in E. injection E as _ E. destruct w as [|w3 w]; [destruct s as [|s1 s]; [congruence|]; cbn in E; injection E as _ E; destruct s; discriminate E|].
  cbn in E. injection E as <- _. inversion W as [|? ? _ W2]; subst. inversion W2 as [|? ? _ W3]; subst. now inversion W3.
Qed.

Definition ease_negative : list text :=
  [chars "nm" ++ [newline];
   join (letters "E" :: fields (rec "3.0" "7.0" "2.0" "-4.0")) ++ [newline];
   join (letters "E" :: fields (rec "4.0" "7.0" "2.0" "5.0")) ++ [newline]].

(** CompleteEASE: a first row with negative delta is lost, and the wavelengths are not scaled *)
Theorem C54_negative_refuted : exists unit first second rs,
  header unit /\ ease_line first (Some (rec "3.0" "7.0" "2.0" "-4.0")) (letters "E" :: fields (rec "3.0" "7.0" "2.0" "-4.0")) /\
  read_woollam_psi_delta small nanometres [unit; first; second] = Ok rs /\ ~ In (Num (- INR 4)) (map delta rs) /\ small (chars "-4.0") = Some (- INR 4)%R.
Proof.
  exists (chars "nm" ++ [newline]), (join (letters "E" :: fields (rec "3.0" "7.0" "2.0" "-4.0")) ++ [newline]),
    (join (letters "E" :: fields (rec "4.0" "7.0" "2.0" "5.0")) ++ [newline]), [entry (INR 5) (INR 7) (INR 4) (INR 2)].
  split; [apply header_word; apply is_alpha_iff; reflexivity|]. split; [|split; [|split]].
  - constructor; [|right; reflexivity]. assert (P : forall s, forallb (fun c => negb (is_space c)) (chars s) = true -> chars s <> [] -> a_word (chars s)).
    { intros s F N. split; [exact N|]. apply Forall_forall. intros c I W. rewrite forallb_forall in F. specialize (F _ I). apply is_space_iff in W. rewrite W in F. discriminate F. }
    repeat (apply Forall_cons; [apply P; [reflexivity|discriminate]|]). constructor.
  - reflexivity.
  - cbn [map delta entry]. intros [E|[]]. injection E. intros X. cbn in X. lra.
  - reflexivity.
Qed.
Print Assumptions C54_negative_refuted.

(** CompleteEASE: no row with positive delta *)
Theorem C54_all_negative_refuted : exists unit first,
  header unit /\ ease_line first (Some (rec "3.0" "7.0" "2.0" "-4.0")) (letters "E" :: fields (rec "3.0" "7.0" "2.0" "-4.0")) /\
  read_woollam_psi_delta small nanometres [unit; first] = Err ValueError.
Proof.
  destruct C54_negative_refuted as (unit & first & second & rs & H & E & _).
  exists (chars "nm" ++ [newline]), (join (letters "E" :: fields (rec "3.0" "7.0" "2.0" "-4.0")) ++ [newline]).
  split; [apply header_word; apply is_alpha_iff; reflexivity|]. split; [|reflexivity].
  inversion E as [r nl A NL E1 E2 E3|]; subst. constructor; [exact A|now right].
Qed.
Print Assumptions C54_all_negative_refuted.

(** A table without lines before it *)
Theorem C54_no_header_refuted : exists first,
  wvase_line first (Some (rec "3.0" "7.0" "2.0" "-4.0")) (fields (rec "3.0" "7.0" "2.0" "-4.0")) /\
  read_woollam_psi_delta small nanometres [first] = Err IndexError.
Proof.
  exists (join (fields (rec "3.0" "7.0" "2.0" "-4.0")) ++ [newline]). split; [|reflexivity].
  destruct C54_negative_refuted as (unit & first & second & rs & H & E & _). inversion E as [r nl A NL E1 E2 E3|]; subst.
  constructor; [exact A|now right|]. exists "3". split; [now left|now apply is_digit_iff].
Qed.
Print Assumptions C54_no_header_refuted.

(** Both kinds of files, with rows of negative delta and other rows *)
Definition value (t : text) : R := match small t with Some r => r | None => 0%R end.
Lemma word_of s : forallb (fun c => negb (is_space c)) (chars s) = true -> chars s <> [] -> a_word (chars s).
Proof.
  intros F N. split; [exact N|]. apply Forall_forall. intros c I W. rewrite forallb_forall in F. specialize (F _ I).
  apply is_space_iff in W. rewrite W in F. discriminate F.
Qed.
Ltac words := repeat (apply Forall_cons; [apply word_of; [reflexivity|discriminate]|]); apply Forall_nil.

Example C54_wvase_example :
  read_woollam_psi_delta small nanometres
    [chars "nm" ++ [newline];
     join (fields (rec "3.0" "7.0" "2.0" "-4.0")) ++ [newline];
     join [chars "dpolE"; chars "3.0"; chars "7.0"; chars "-2.0"; chars "1.0"] ++ [newline];
     join (fields (rec "4.0" "7.0" "2.0" "-5.0"))] =
  Ok [entry (- INR 4) (INR 7) (INR 3 * 1) (INR 2); entry (- INR 5) (INR 7) (INR 4 * 1) (INR 2)].
Proof.
  apply (C54_wvase_partial small nanometres value [] (chars "nm" ++ [newline]) _ _ (rec "3.0" "7.0" "2.0" "-4.0") (fields (rec "3.0" "7.0" "2.0" "-4.0"))
    [(None, [chars "dpolE"; chars "3.0"; chars "7.0"; chars "-2.0"; chars "1.0"]); (Some (rec "4.0" "7.0" "2.0" "-5.0"), fields (rec "4.0" "7.0" "2.0" "-5.0"))] 1).
  - constructor; [|constructor]. apply header_word; apply is_alpha_iff; reflexivity.
  - constructor; [|constructor; [|constructor; [|constructor]]].
    + constructor; [words|now right|]. exists "3". split; [now left|now apply is_digit_iff].
    + apply wvase_other; [apply word_of; [reflexivity|discriminate]| | |cbn; lia|now right].
      * intros c I D. apply is_digit_iff in D. cbn in I. repeat (destruct I as [<-|I]; [discriminate D|]). destruct I.
      * assert (W : Forall a_word [chars "3.0"; chars "7.0"; chars "-2.0"; chars "1.0"]) by words. eapply Forall_impl; [|exact W]. intros f. apply word_solid.
    + rewrite <- (app_nil_r (join (fields (rec "4.0" "7.0" "2.0" "-5.0")))). constructor; [words|now left|]. exists "4". split; [now left|now apply is_digit_iff].
  - assert (U : forall d, is_digit d = true -> unsigned [d; "."; "0"]).
    { intros d D. exists [d], ["0"]. split; [reflexivity|]. split; (constructor; [|constructor]); apply is_digit_iff; [exact D|reflexivity]. }
    repeat (apply Forall_cons; [(left; now apply U) || (right; eexists; split; [reflexivity|now apply U])|]). constructor.
  - exists ["1"], ["0"]. split; [reflexivity|]. split; (constructor; [|constructor]); now apply is_digit_iff.
  - apply Forall_cons; [|apply Forall_cons; [|apply Forall_cons; [|apply Forall_nil]]].
    + repeat (apply Forall_cons; [reflexivity|]); apply Forall_nil.
    + split; [reflexivity|]. repeat (apply Forall_cons; [right; reflexivity|]); apply Forall_nil.
    + repeat (apply Forall_cons; [reflexivity|]); apply Forall_nil.
  - intros r s R S. cbn in R, S. destruct R as [<-|[<-|[]]], S as [<-|[<-|[]]]; intros E; try reflexivity; exfalso.
    + apply (INR_eq 3 4) in E. discriminate E.
    + apply (INR_eq 4 3) in E. discriminate E.
  - reflexivity.
  - lra.
Qed.

Example C54_complete_ease_example :
  read_woollam_psi_delta small nanometres
    [chars "nm" ++ [newline];
     join (letters "E" :: fields (rec "3.0" "7.0" "2.0" "4.0")) ++ [newline];
     join (letters "E" :: fields (rec "3.0" "8.0" "2.0" "-5.0")) ++ [newline];
     join [chars "dPolE"; chars "3.0"; chars "7.0"; chars "-2.0"; chars "1.0"]] =
  Ok [entry (INR 4) (INR 7) (INR 3 * 1) (INR 2); entry (- INR 5) (INR 8) (INR 3 * 1) (INR 2)].
Proof.
  apply (C54_complete_ease_partial small nanometres value [] (chars "nm" ++ [newline]) _ _ (rec "3.0" "7.0" "2.0" "4.0") (letters "E" :: fields (rec "3.0" "7.0" "2.0" "4.0"))
    [(Some (rec "3.0" "8.0" "2.0" "-5.0"), letters "E" :: fields (rec "3.0" "8.0" "2.0" "-5.0")); (None, [chars "dPolE"; chars "3.0"; chars "7.0"; chars "-2.0"; chars "1.0"])] 1).
  - reflexivity.
  - constructor; [|constructor]. apply header_word; apply is_alpha_iff; reflexivity.
  - constructor; [|constructor; [|constructor; [|constructor]]].
    + constructor; [words|now right].
    + constructor; [words|now right].
    + rewrite <- (app_nil_r (join [chars "dPolE"; chars "3.0"; chars "7.0"; chars "-2.0"; chars "1.0"])).
      apply ease_other; [apply word_of; [reflexivity|discriminate]|discriminate| |cbn; lia|now left].
      assert (W : Forall a_word [chars "3.0"; chars "7.0"; chars "-2.0"; chars "1.0"]) by words. eapply Forall_impl; [|exact W]. intros f. apply word_solid.
  - assert (U : forall d, is_digit d = true -> full_decimal [d; "."; "0"]).
    { intros d D. exists [d], ["0"]. split; [reflexivity|]. split; (split; [discriminate|]); (constructor; [|constructor]); apply is_digit_iff; [exact D|reflexivity]. }
    repeat (apply Forall_cons; [now apply U|]). constructor.
  - apply Forall_cons; [|apply Forall_cons; [|apply Forall_cons; [|apply Forall_nil]]]; unfold ease_values; cbn [snd tl fields];
      repeat (apply Forall_cons; [right; reflexivity|]); apply Forall_nil.
  - reflexivity.
  - lra.
Qed.
