(** C83, C85: psi and delta, and Mueller matrices of SpectraRay. *)
From Coq Require Import Ascii String List Arith Bool Reals Lia Lra Permutation Sorted.
From Verif.Base Require Import Py.
From Verif.Model Require Import FormulaText Regex TextTable DeltaRange SpectraRayPsi.
From Verif.Spec Require Import Angle SpectraRayFile SpectraRayData.
From Verif.Proof Require Import DeltaRangeP SpectraRayP SpectraRayPsiP.
From Verif.Props Require Import DeltaRangeT.
Import ListNotations.
Open Scope char_scope.
Open Scope nat_scope.
Open Scope list_scope.

(** A row of the result for measured values: delta is the same angle, between -180 and 180 degrees *)
Definition row_of : R * R * R * R -> row -> Prop := fun '(a, w, p, d) r =>
  aoi r = a /\ wavelength r = Num w /\ psi r = Num p /\ exists d', delta r = Num d' /\ in_turn (-180) d' /\ same_angle d d'.
(** By angle, then by wavelength *)
Definition before : R * R * R * R -> R * R * R * R -> Prop := fun '(a, w, _, _) '(a', w', _, _) => (a < a' \/ a = a' /\ w <= w')%R.

Lemma table_of_lines num lines (angles : list R) (data : list measured) :
  Forall2 (fun l m => exists ws, spaced l ws /\ numbers_of num ws (in_line m) /\ length (snd m) = length angles) lines data ->
  exists rows, Forall2 spaced lines rows /\ table num rows (map in_line data) /\ Forall (fun m => length (snd m) = length angles) data.
Proof.
  induction 1 as [|l m lines data (ws & S & N & L) F (rows & FS & T & FL)]; [exists []; repeat constructor|].
  exists (ws :: rows). split; [now constructor|]. split; [|now constructor]. cbn [map]. constructor; [|exact T]. split; [exact N|]. now apply spaced_words in S.
Qed.

Lemma convert_row v : exists r, convert (cells v) = Ok r /\ row_of v r.
Proof.
  destruct v as [[[a w] p] d]. assert (AR : allowed_range (-180) 180) by (right; lia). destruct (C02_total d (-180) 180 AR) as [d' E].
  unfold convert, cells. cbn [delta]. rewrite E. cbn [rbind aoi wavelength psi]. eexists. split; [reflexivity|]. repeat split. exists d'. split; [reflexivity|].
  split; [exact (C02_result_in_turn _ _ _ _ E)|]. apply (proj2 (C02_angle_preserved_iff (-180) 180 AR)) with (2 := E). auto.
Qed.

Lemma convert_all l : exists rows, rmapM convert (map cells l) = Ok rows /\ Forall2 row_of l rows.
Proof.
  induction l as [|v l (rows & E & F)]; [exists []; split; [reflexivity|constructor]|]. destruct (convert_row v) as (r & C & V). exists (r :: rows). cbn [map rmapM]. rewrite C, E. split; [reflexivity|now constructor].
Qed.

Section Order.
Variable le_index : cell -> cell -> bool.
Hypothesis numeric : forall a b, le_index (Num a) (Num b) = true <-> (a <= b)%R.

Definition le_values (u v : R * R * R * R) : bool := le_row le_index (cells u) (cells v).
Lemma le_values_total u v : if le_values u v then before u v else before v u.
Proof.
  destruct u as [[[a w] p] d], v as [[[a' w'] p'] d']. unfold le_values, le_row, cells, before. cbn [aoi wavelength].
  destruct (Rlt_dec a a') as [L|L]; [now left|]. destruct (Req_EM_T a a') as [E|E].
  - destruct (le_index (Num w) (Num w')) eqn:Q; [apply numeric in Q; now right|]. right. split; [congruence|]. destruct (Rle_dec w w') as [X|X]; [|lra]. apply numeric in X. congruence.
  - left. lra.
Qed.
Lemma before_trans u v x : before u v -> before v x -> before u x.
Proof. destruct u as [[[a w] p] d], v as [[[a' w'] p'] d'], x as [[[a'' w''] p''] d'']. unfold before. lra. Qed.

Lemma isort_map l : isort (le_row le_index) (map cells l) = map cells (isort le_values l).
Proof.
  induction l as [|v l IH]; [reflexivity|]. cbn [map isort fold_right]. fold (isort (le_row le_index) (map cells l)). fold (isort le_values l). rewrite IH. clear IH.
  generalize (isort le_values l). intro m. induction m as [|u m IH]; [reflexivity|]. cbn [map insert]. unfold le_values at 1. destruct (le_row le_index (cells v) (cells u)); [reflexivity|]. now rewrite IH.
Qed.
End Order.

Lemma nodup_distinct l : NoDup l -> distinct l = true.
Proof. intro N. unfold distinct. rewrite nodup_fixed_point by exact N. apply Nat.eqb_refl. Qed.

(** C83, for different angles and numbers whose notation Python's float understands: the values of all angles and
    wavelengths are read, and sorted. *)
Theorem C83_psi_delta_partial : forall num pyfloat le_index file angles data,
  (forall a b, le_index (Num a) (Num b) = true <-> (a <= b)%R) ->
  psi_delta_file num pyfloat file angles data -> NoDup angles -> angles <> [] -> data <> [] ->
  exists rows values, read_psi_delta num pyfloat le_index file = Ok rows /\
    Permutation (all_values angles data) values /\ StronglySorted before values /\ Forall2 row_of values rows.
Proof.
  intros num pyfloat le_index file angles data O (head & lines & s & n & texts & -> & FL & NT & F) ND NA NDA.
  destruct (table_of_lines _ _ _ _ F) as (rows & FS & T & FL2). set (k := length angles) in *.
  assert (LEN : Forall (fun rs => length rs = 1 + 2 * k) (map in_line data)).
  { apply Forall_forall. intros rs I. apply in_map_iff in I. destruct I as ([w vals] & <- & I). rewrite in_line_length. rewrite Forall_forall in FL2. assert (X := FL2 _ I). cbn [snd] in X. now rewrite X. }
  unfold read_psi_delta. cbn [tl hd]. rewrite (body_spec _ _ FS). destruct rows as [|first rows]; [inversion T as [E|]; destruct data; [congruence|discriminate]|].
  assert (LF : length first = 1 + 2 * k).
  { inversion T as [|? rs ? vs [NF _] T' E1 E2]. subst. etransitivity; [exact (numbers_len _ _ _ NF)|]. rewrite Forall_forall in LEN. apply LEN. rewrite <- E2. now left. }
  set (R0 := first :: rows) in *. cbv zeta. match goal with |- context [too_wide ?n _] => change n with (length first) end. replace (length first) with (1 + 2 * k) by (symmetry; exact LF).
  rewrite (not_too_wide num R0 (map in_line data)); [|exact T|eapply Forall_impl; [|exact LEN]; cbn; intros; lia].
  rewrite (columns_num num R0 (map in_line data) 1 (1 + 2 * k) T LEN). replace (1 + 2 * k - 1) with (2 * k) by lia.
  rewrite filter_all; [|apply Forall_forall; intros c I; apply in_map_iff in I; destruct I as (j & <- & _); apply (not_empty_num (fun rs => nth j rs 0%R)); destruct data; discriminate || congruence].
  rewrite (aois_spec pyfloat head s n texts angles FL NT). cbn [rbind]. rewrite map_length, seq_length. fold k. rewrite Nat.eqb_refl. cbn [negb].
  rewrite (nodup_distinct angles ND). cbn [negb].
  rewrite (nth_column_num num R0 (map in_line data) 0 T); [|eapply Forall_impl; [|exact LEN]; cbn; intros; lia].
  rewrite (unpivot_spec angles data k FL2 eq_refl). rewrite isort_map.
  destruct (convert_all (isort (le_values le_index) (all_values angles data))) as (res & E & FR). exists res, (isort (le_values le_index) (all_values angles data)).
  split; [exact E|]. split; [apply isort_perm|]. split; [|exact FR].
  apply (isort_sorted (le_values le_index) (fun _ => True) before).
  - intros u v _ _. now apply le_values_total.
  - intros u v x _ _ _. apply before_trans.
  - apply Forall_forall. auto.
Qed.
Print Assumptions C83_psi_delta_partial.

(** Concrete files, with numbers of one digit *)
Definition digit_of (t : text) : option R :=
  match t with [d] => if is_digit d then Some (INR (nat_of_ascii d - 48)) else None | _ => None end.
(** Numbers with a decimal comma *)
Definition comma_of (t : text) : option R :=
  match t with
  | [d; ","; e] => if is_digit d && is_digit e then Some (INR (nat_of_ascii d - 48) + INR (nat_of_ascii e - 48) / 10)%R else None
  | _ => digit_of t
  end.
Definition file_lines (l : list string) : list text := map (fun s => chars s ++ [newline]) l.

Lemma digit_word d : is_digit d = true -> a_word [d].
Proof.
  intros H. split; [discriminate|]. constructor; [|constructor]. intros W. apply is_space_iff in W. destruct d as [[] [] [] [] [] [] [] []]; discriminate.
Qed.

Lemma word_chars w : w <> [] -> forallb (fun c => negb (is_space c)) w = true -> a_word w.
Proof.
  intros N F. split; [exact N|]. apply Forall_forall. intros c I W. rewrite forallb_forall in F. specialize (F c I). apply is_space_iff in W. now rewrite W in F.
Qed.

(** A line of words with one blank between them *)
Fixpoint blanks (ws : list text) : text := match ws with [] => [] | [w] => w | w :: ws' => w ++ " " :: blanks ws' end.
Lemma spaced_blanks ws : ws <> [] -> Forall (fun w => w <> [] /\ forallb (fun c => negb (is_space c)) w = true) ws -> spaced (blanks ws ++ [newline]) ws.
Proof.
  intros N F. induction F as [|w ws [A B] F IH]; [congruence|]. destruct ws as [|v ws].
  - exact (spaced_last [] w [] [newline] (Forall_nil _) (word_chars w A B) (Forall_nil _) (or_intror eq_refl)).
  - cbn [blanks]. rewrite <- app_assoc. cbn [app]. apply (spaced_word [] w " " (blanks (v :: ws) ++ [newline]) (v :: ws)); [constructor|now apply word_chars|now left|]. apply IH. discriminate.
Qed.

Definition two_angle_words : list text := [chars ";"; chars "WAVELENGTH"; chars "7"; chars "7"; chars "6"; chars "6"].
Definition two_angle_file : list text :=
  file_lines ["; WAVELENGTH 7 7 6 6"%string; "5 1 2 3 4"%string; "4 5 6 7 8"%string].
Definition two_angle_data : list measured := [(INR 5, [(INR 1, INR 2); (INR 3, INR 4)]); (INR 4, [(INR 5, INR 6); (INR 7, INR 8)])].

Lemma words_ok ws : forallb (fun w => negb (is_nil w) && forallb (fun c => negb (is_space c)) w) ws = true -> Forall (fun w => w <> [] /\ forallb (fun c => negb (is_space c)) w = true) ws.
Proof.
  intro F. apply Forall_forall. intros w I. rewrite forallb_forall in F. specialize (F w I). apply andb_true_iff in F. destruct F as [A B]. split; [|exact B]. now destruct w.
Qed.

Lemma first_blanks w ws c r : w = c :: r -> is_space c = false -> Forall (fun w => w <> [] /\ forallb (fun c => negb (is_space c)) w = true) (w :: ws) -> first_line (blanks (w :: ws) ++ [newline]) (w :: ws).
Proof.
  intros E C F. split; [apply spaced_blanks; [discriminate|exact F]|]. split; [|now exists (blanks (w :: ws))].
  exists c. subst w. destruct ws as [|v ws]; cbn [blanks app]; eexists; (split; [reflexivity|]); intro B; assert (W : white c) by (now left); apply is_space_iff in W; congruence.
Qed.

Example C83_example : psi_delta_file digit_of digit_of two_angle_file [INR 7; INR 6] two_angle_data /\ NoDup [INR 7; INR 6] /\
  all_values [INR 7; INR 6] two_angle_data = [(INR 7, INR 5, INR 1, INR 2); (INR 6, INR 5, INR 3, INR 4); (INR 7, INR 4, INR 5, INR 6); (INR 6, INR 4, INR 7, INR 8)].
Proof.
  split; [|split; [|reflexivity]].
  - exists (blanks two_angle_words ++ [newline]), (file_lines ["5 1 2 3 4"%string; "4 5 6 7 8"%string]), (chars ";"), (chars "WAVELENGTH"), [chars "7"; chars "6"].
    split; [reflexivity|]. split; [apply (first_blanks (chars ";") _ ";" []); [reflexivity|reflexivity|apply words_ok; reflexivity]|]. split; [repeat constructor|].
    constructor; [|constructor; [|constructor]].
    + exists [chars "5"; chars "1"; chars "2"; chars "3"; chars "4"]. split; [apply (spaced_blanks [chars "5"; chars "1"; chars "2"; chars "3"; chars "4"]); [discriminate|apply words_ok; reflexivity]|]. split; [repeat constructor|reflexivity].
    + exists [chars "4"; chars "5"; chars "6"; chars "7"; chars "8"]. split; [apply (spaced_blanks [chars "4"; chars "5"; chars "6"; chars "7"; chars "8"]); [discriminate|apply words_ok; reflexivity]|]. split; [repeat constructor|reflexivity].
  - constructor; [intros [H|[]]; apply INR_eq in H; discriminate|]. constructor; [intros []|constructor].
Qed.

(** C83 is false for a decimal comma, whatever the argument decimal: the angles are not read with it. *)
Theorem C83_decimal_refuted : exists file angles data, psi_delta_file comma_of comma_of file angles data /\ NoDup angles /\ angles <> [] /\ data <> [] /\
  forall le_index, read_psi_delta comma_of digit_of le_index file = Err ValueError.
Proof.
  exists (file_lines ["; WAVELENGTH 7,5 7,5"%string; "5,5 1,5 2,5"%string]), [(INR 7 + INR 5 / 10)%R], [((INR 5 + INR 5 / 10)%R, [((INR 1 + INR 5 / 10)%R, (INR 2 + INR 5 / 10)%R)])].
  split; [|split; [|split; [discriminate|split; [discriminate|]]]].
  - exists (blanks [chars ";"; chars "WAVELENGTH"; chars "7,5"; chars "7,5"] ++ [newline]), (file_lines ["5,5 1,5 2,5"%string]), (chars ";"), (chars "WAVELENGTH"), [chars "7,5"].
    split; [reflexivity|]. split; [apply (first_blanks (chars ";") _ ";" []); [reflexivity|reflexivity|apply words_ok; reflexivity]|]. split; [repeat constructor|].
    constructor; [|constructor]. exists [chars "5,5"; chars "1,5"; chars "2,5"]. split; [apply (spaced_blanks [chars "5,5"; chars "1,5"; chars "2,5"]); [discriminate|apply words_ok; reflexivity]|]. split; [repeat constructor|reflexivity].
  - constructor; [intros []|constructor].
  - intro le_index. reflexivity.
Qed.
Print Assumptions C83_decimal_refuted.

(** An angle that was measured twice cannot be read. *)
Theorem C83_repeated_refuted : exists file angles data, psi_delta_file digit_of digit_of file angles data /\ angles <> [] /\ data <> [] /\
  forall le_index, read_psi_delta digit_of digit_of le_index file = Err ValueError.
Proof.
  exists (file_lines ["; WAVELENGTH 7 7 7 7"%string; "5 1 2 3 4"%string]), [INR 7; INR 7], [(INR 5, [(INR 1, INR 2); (INR 3, INR 4)])].
  split; [|split; [discriminate|split; [discriminate|]]].
  - exists (blanks [chars ";"; chars "WAVELENGTH"; chars "7"; chars "7"; chars "7"; chars "7"] ++ [newline]), (file_lines ["5 1 2 3 4"%string]), (chars ";"), (chars "WAVELENGTH"), [chars "7"; chars "7"].
    split; [reflexivity|]. split; [apply (first_blanks (chars ";") _ ";" []); [reflexivity|reflexivity|apply words_ok; reflexivity]|]. split; [repeat constructor|].
    constructor; [|constructor]. exists [chars "5"; chars "1"; chars "2"; chars "3"; chars "4"]. split; [apply (spaced_blanks [chars "5"; chars "1"; chars "2"; chars "3"; chars "4"]); [discriminate|apply words_ok; reflexivity]|]. split; [repeat constructor|reflexivity].
  - intro le_index. unfold read_psi_delta. cbn [tl hd file_lines map].
    change (body [chars "5 1 2 3 4" ++ [newline]]) with [[chars "5"; chars "1"; chars "2"; chars "3"; chars "4"]]. cbv iota zeta. cbn [length].
    change (too_wide 5 [[chars "5"; chars "1"; chars "2"; chars "3"; chars "4"]]) with false. cbv iota.
    change (aois digit_of (chars "; WAVELENGTH 7 7 7 7" ++ [newline])) with (Ok [INR 7; INR 7]). cbn [rbind].
    change (length (filter not_empty (columns digit_of 1 5 [[chars "5"; chars "1"; chars "2"; chars "3"; chars "4"]]))) with 4. cbn [length Nat.mul Nat.add Nat.eqb negb].
    unfold distinct. cbn [nodup in_dec]. destruct (in_dec Req_EM_T (INR 7) [INR 7]) as [_|N]; [reflexivity|]. destruct N. now left.
Qed.
Print Assumptions C83_repeated_refuted.

(** C85 *)
Lemma firstn_seq_ n : forall a k, k <= n -> firstn k (seq a n) = seq a k.
Proof. induction n as [|n IH]; intros a [|k] L; try reflexivity; [lia|]. cbn [seq firstn]. f_equal. apply IH. lia. Qed.
Lemma skipn_seq_ k : forall a n, k <= n -> skipn k (seq a n) = seq (a + k) (n - k).
Proof. induction k as [|k IH]; intros a n L; [now rewrite Nat.add_0_r, Nat.sub_0_r|]. destruct n as [|n]; [lia|]. cbn [seq skipn Nat.sub]. rewrite IH by lia. f_equal. lia. Qed.
Lemma concat_length16 (l : list (list R)) : Forall (fun e => length e = 16) l -> length (concat l) = 16 * length l.
Proof. induction 1 as [|e l E F IH]; [reflexivity|]. cbn [concat length]. rewrite app_length, E, IH. lia. Qed.
Lemma nth_concat_last (l : list (list R)) e j : Forall (fun e => length e = 16) l -> nth (16 * length l + j) (concat (l ++ [e])) 0%R = nth j e 0%R.
Proof. intro F. rewrite concat_app. cbn [concat]. rewrite app_nil_r, app_nth2; rewrite concat_length16 by exact F; [f_equal; lia|lia]. Qed.

Lemma mueller_table num k lines (data : list (R * list (list R))) :
  Forall2 (fun l m => exists ws, spaced l ws /\ numbers_of num ws (fst m :: concat (snd m)) /\ length (snd m) = k /\ Forall (fun e => length e = 16) (snd m)) lines data ->
  exists rows, Forall2 spaced lines rows /\ table num rows (map (fun m => fst m :: concat (snd m)) data) /\
    Forall (fun m => length (snd m) = k /\ Forall (fun e => length e = 16) (snd m)) data.
Proof.
  induction 1 as [|l m lines data (ws & S & N & L) F (rows & FS & T & FL)]; [exists []; repeat constructor|].
  exists (ws :: rows). split; [now constructor|]. split; [|now constructor]. cbn [map]. constructor; [|exact T]. split; [exact N|]. now apply spaced_words in S.
Qed.

(** Whatever the number of entries, the last one is read. *)
Theorem C85_last : forall num file entries data,
  mueller_file num file entries data -> entries <> 0 ->
  read_mmatrix num file = Ok (map (fun m => (Num (fst m), map Num (last (snd m) []))) data).
Proof.
  intros num file entries data (head & lines & ws & -> & SH & L & F) NE. destruct entries as [|k]; [congruence|]. clear NE.
  destruct (mueller_table _ _ _ _ F) as (rows & FS & T & FL). unfold read_mmatrix. rewrite (body_spec (head :: lines) (ws :: rows)) by now constructor.
  cbv zeta. match goal with |- context [too_wide ?n _] => replace n with (2 + 16 * S k) by (symmetry; exact L) end.
  assert (LEN : Forall (fun rs => length rs = 1 + 16 * S k) (map (fun m : R * list (list R) => fst m :: concat (snd m)) data)).
  { apply Forall_forall. intros rs I. apply in_map_iff in I. destruct I as ([w es] & <- & I). rewrite Forall_forall in FL. destruct (FL _ I) as [X Y]. cbn [fst snd length] in *. rewrite concat_length16 by exact Y. lia. }
  rewrite (not_too_wide num rows _ _ T); [|eapply Forall_impl; [|exact LEN]; cbv beta; intros; lia].
  unfold last_columns, columns. rewrite !map_length, seq_length.
  replace (2 + 16 * S k - 1 - 1 - (2 + 16 * S k - 1 - 17)) with 16 by lia. replace (2 + 16 * S k - 1 - 17) with (16 * k) by lia.
  rewrite skipn_map, firstn_map, skipn_seq_ by lia. rewrite firstn_seq_ by lia. rewrite map_length, seq_length. cbn [Nat.eqb negb].
  rewrite (nth_column_num num rows _ 0 T); [|eapply Forall_impl; [|exact LEN]; cbv beta; intros; lia].
  f_equal. assert (LR : length rows = length data) by (clear -T; unfold table in T; revert T; generalize rows; induction data as [|m data IH]; intros r T; inversion T; subst; cbn; auto). match goal with |- context [seq 0 ?n] => replace n with (length data) by (symmetry; exact LR) end.
  transitivity (map (fun m : R * list (list R) => (Num (fst m), map Num (last (snd m) []))) (map (fun i => nth i data (0%R, [])) (seq 0 (length data)))); [|now rewrite list_nth].
  rewrite (map_map (fun i => nth i data (0%R, []))). apply map_ext_in. intros i I. apply in_seq in I. cbn [Nat.add] in I. destruct I as [_ I].
  assert (NI : forall j, nth i (map (fun rs => Num (nth j rs 0%R)) (map (fun m : R * list (list R) => fst m :: concat (snd m)) data)) Nan = Num (nth j (fst (nth i data (0%R, [])) :: concat (snd (nth i data (0%R, [])))) 0%R)).
  { intro j. rewrite map_map. rewrite (nth_indep _ Nan ((fun m : R * list (list R) => Num (nth j (fst m :: concat (snd m)) 0%R)) (0%R, []))) by now rewrite map_length. now rewrite (map_nth (fun m : R * list (list R) => Num (nth j (fst m :: concat (snd m)) 0%R))). }
  rewrite NI. assert (LM : length (snd (nth i data (0%R, []))) = S k /\ Forall (fun e => length e = 16) (snd (nth i data (0%R, [])))) by (rewrite Forall_forall in FL; apply FL, nth_In, I).
  destruct (nth i data (0%R, [])) as [w es]. cbn [fst snd] in *. destruct LM as [LE FE]. cbn [nth]. f_equal.
  destruct es as [|e es _] using rev_ind; [discriminate|]. rewrite app_length in LE. cbn in LE. assert (LK : length es = k) by lia. apply Forall_app in FE. destruct FE as [FE E16]. apply Forall_inv in E16.
  rewrite last_last. transitivity (map Num (map (fun j => nth j e 0%R) (seq 0 16))); [|rewrite <- E16; now rewrite list_nth]. replace (seq (1 + 16 * k) 16) with (map (fun j => 1 + (16 * k + j)) (seq 0 16)) by (cbn [seq map]; repeat (f_equal; try lia)).
  rewrite !map_map. apply map_ext_in. intros j J. apply in_seq in J.
  rewrite (nth_column_num num rows _ _ T); [|eapply Forall_impl; [|exact LEN]; cbv beta; intros; lia]. rewrite NI. f_equal. cbn [nth Nat.add]. subst k. now apply nth_concat_last.
Qed.
Print Assumptions C85_last.

(** C85, for a file with one entry: all of it is read. *)
Theorem C85_one_partial : forall num file data,
  mueller_file num file 1 (map (fun m => (fst m, [snd m])) data) ->
  read_mmatrix num file = Ok (map (fun m => (Num (fst m), map Num (snd m))) data).
Proof. intros num file data F. rewrite (C85_last _ _ _ _ F) by discriminate. now rewrite map_map. Qed.
Print Assumptions C85_one_partial.

Lemma numbers_map num ws rs : map num ws = map Some rs -> numbers_of num ws rs.
Proof. revert rs. induction ws as [|w ws IH]; intros [|r rs] E; try discriminate; [constructor|]. injection E as E F. constructor; [exact E|now apply IH]. Qed.
Definition names16 : string := "A B C D E F G H I J K L M N O P".
Lemma line_of_words (s : string) ws : chars s = blanks ws -> ws <> [] -> forallb (fun w => negb (is_nil w) && forallb (fun c => negb (is_space c)) w) ws = true -> spaced (chars s ++ [newline]) ws.
Proof. intros -> N F. apply spaced_blanks; [exact N|now apply words_ok]. Qed.

Definition matrix_a : list R := map INR [1; 0; 0; 0; 0; 1; 0; 0; 0; 0; 1; 0; 0; 0; 0; 2].
Definition matrix_b : list R := map INR [3; 0; 0; 0; 0; 3; 0; 0; 0; 0; 3; 0; 0; 0; 0; 4].
Definition one_matrix_file : list text :=
  file_lines [("; WAVELENGTH " ++ names16)%string; "5 1 0 0 0 0 1 0 0 0 0 1 0 0 0 0 2"%string].
Definition two_matrix_file : list text :=
  file_lines [("; WAVELENGTH " ++ names16 ++ " " ++ names16)%string; "5 1 0 0 0 0 1 0 0 0 0 1 0 0 0 0 2 3 0 0 0 0 3 0 0 0 0 3 0 0 0 0 4"%string].

Example C85_example : mueller_file digit_of one_matrix_file 1 (map (fun m => (fst m, [snd m])) [(INR 5, matrix_a)]).
Proof.
  exists (hd [] one_matrix_file), (tl one_matrix_file), (words_of (chars ("; WAVELENGTH " ++ names16))). split; [reflexivity|].
  split; [apply line_of_words; [reflexivity|discriminate|reflexivity]|]. split; [reflexivity|]. constructor; [|constructor].
  exists (words_of (chars "5 1 0 0 0 0 1 0 0 0 0 1 0 0 0 0 2")). split; [apply line_of_words; [reflexivity|discriminate|reflexivity]|]. split; [apply numbers_map; vm_compute; reflexivity|]. split; [reflexivity|]. repeat constructor.
Qed.

(** C85 is false for more than one entry: the docstring says that the first entry is read. *)
Theorem C85_first_refuted : exists file data result, mueller_file digit_of file 2 data /\ read_mmatrix digit_of file = Ok result /\
  result <> map (fun m => (Num (fst m), map Num (hd [] (snd m)))) data.
Proof.
  exists two_matrix_file, [(INR 5, [matrix_a; matrix_b])], [(Num (INR 5), map Num matrix_b)].
  assert (F : mueller_file digit_of two_matrix_file 2 [(INR 5, [matrix_a; matrix_b])]).
  { exists (hd [] two_matrix_file), (tl two_matrix_file), (words_of (chars ("; WAVELENGTH " ++ names16 ++ " " ++ names16))). split; [reflexivity|].
    split; [apply line_of_words; [reflexivity|discriminate|reflexivity]|]. split; [reflexivity|]. constructor; [|constructor].
    exists (words_of (chars "5 1 0 0 0 0 1 0 0 0 0 1 0 0 0 0 2 3 0 0 0 0 3 0 0 0 0 3 0 0 0 0 4")). split; [apply line_of_words; [reflexivity|discriminate|reflexivity]|]. split; [apply numbers_map; vm_compute; reflexivity|]. split; [reflexivity|]. repeat constructor. }
  split; [exact F|]. split; [now rewrite (C85_last _ _ _ _ F) by discriminate|]. cbn [map fst snd hd]. intro E. apply (f_equal (fun l => match l with (_, Num a :: _) :: _ => a | _ => 0%R end)) in E. unfold matrix_a, matrix_b in E. cbn [map] in E. apply INR_eq in E. discriminate.
Qed.
Print Assumptions C85_first_refuted.

(** A table whose first line has a name for every column, without the semicolon, is not read. *)
Theorem C85_names_refuted : exists head lines ws (data : list (R * list R)), spaced head ws /\ length ws = 17 /\
  Forall2 (fun l m => exists ws, spaced l ws /\ numbers_of digit_of ws (fst m :: snd m) /\ length (snd m) = 16) lines data /\ data <> [] /\
  read_mmatrix digit_of (head :: lines) = Err ValueError.
Proof.
  exists (chars ("WAVELENGTH " ++ names16) ++ [newline]), (tl one_matrix_file), (words_of (chars ("WAVELENGTH " ++ names16))), [(INR 5, matrix_a)].
  split; [apply line_of_words; [reflexivity|discriminate|reflexivity]|]. split; [reflexivity|]. split; [|split; [discriminate|reflexivity]].
  constructor; [|constructor]. exists (words_of (chars "5 1 0 0 0 0 1 0 0 0 0 1 0 0 0 0 2")). split; [apply line_of_words; [reflexivity|discriminate|reflexivity]|]. split; [apply numbers_map; vm_compute; reflexivity|reflexivity].
Qed.
Print Assumptions C85_names_refuted.
