(** Lemmas on the reader of psi and delta and Mueller matrices of SpectraRay. *)
From Coq Require Import Ascii String List Arith Bool Reals Lia Lra Permutation Sorted.
From Verif.Base Require Import Py.
From Verif.Model Require Import FormulaText Regex TextTable DeltaRange SpectraRayPsi.
From Verif.Spec Require Import SpectraRayFile SpectraRayData.
From Verif.Proof Require Import SpectraRayP.
Import ListNotations.
Open Scope char_scope.
Open Scope nat_scope.
Open Scope list_scope.

(** Lines of words *)
Lemma word_plain w : a_word w -> Forall (fun c => c <> "010") w.
Proof. intros [_ F]. eapply Forall_impl; [|exact F]. cbn. intros c N ->. apply N. right. cbn. auto. Qed.
Lemma blank_plain b : Forall blank b -> Forall (fun c => c <> "010") b.
Proof. intro F. eapply Forall_impl; [|exact F]. cbn. intros c [->| ->]; discriminate. Qed.

(** The line without its newline *)
Lemma spaced_content l ws : spaced l ws -> exists s nl, l = s ++ nl /\ (nl = [] \/ nl = ["010"]) /\ Forall (fun c => c <> "010") s /\ words_of s = ws.
Proof.
  induction 1 as [b w b' nl B W B' N|b w c l ws B W C S IH].
  - exists (b ++ w ++ b'), nl. split; [now rewrite <- !app_assoc|]. split; [exact N|]. split.
    + apply Forall_app; split; [now apply blank_plain|]. apply Forall_app; split; [now apply word_plain|now apply blank_plain].
    + rewrite words_blank by exact B. now apply words_last.
  - destruct IH as (s & nl & -> & N & P & E). exists (b ++ w ++ c :: s), nl. split; [now rewrite <- !app_assoc|]. split; [exact N|]. split.
    + apply Forall_app; split; [now apply blank_plain|]. apply Forall_app; split; [now apply word_plain|]. constructor; [|exact P]. destruct C as [->| ->]; discriminate.
    + rewrite words_blank by exact B. change (c :: s) with ([c] ++ s). rewrite words_word; [now rewrite E|exact W|auto|discriminate].
Qed.

Lemma spaced_fields l ws : spaced l ws -> space_fields l = ws.
Proof. intro S. destruct (spaced_content l ws S) as (s & nl & -> & N & P & E). unfold space_fields. now rewrite content_line. Qed.

Lemma spaced_words l ws : spaced l ws -> Forall a_word ws /\ ws <> [].
Proof. induction 1 as [b w b' nl B W B' N|b w c l ws B W C S [IH _]]; split; try discriminate; constructor; auto. Qed.

Lemma spaced_not_blank l ws : spaced l ws -> space_blank l = false.
Proof.
  intro S. destruct (spaced_content l ws S) as (s & nl & -> & N & P & E). unfold space_blank. rewrite content_line by assumption. destruct (forallb is_blank s) eqn:F; [|reflexivity].
  exfalso. destruct (spaced_words _ _ S) as [_ NE]. apply NE. rewrite <- E. clear -F. unfold words_of. induction s as [|c s IH]; [reflexivity|]. cbn in F. apply andb_true_iff in F. destruct F as [C F]. cbn. rewrite C. cbn. now apply IH.
Qed.

(** re.split *)
Lemma re_split_not_nil s : re_split s <> [].
Proof.
  induction s as [|c s IH]; [discriminate|]. cbn [re_split]. destruct (is_space c).
  - destruct s as [|d s]; [discriminate|]. destruct (is_space d); [exact IH|discriminate].
  - destruct (re_split s); discriminate.
Qed.

Lemma re_split_white a s c : Forall (fun d => is_space d = true) a -> a <> [] -> is_space c = false -> re_split (a ++ c :: s) = [] :: re_split (c :: s).
Proof.
  intros F N C. destruct F as [|d a D F]; [congruence|]. clear N. revert d D. induction F as [|e a E F IH]; intros d D.
  - cbn [app]. cbn [re_split]. now rewrite D, C.
  - transitivity (re_split (e :: a ++ c :: s)); [|exact (IH e E)]. cbn [app re_split]. now rewrite D, E.
Qed.

Lemma re_split_end a : Forall (fun d => is_space d = true) a -> a <> [] -> re_split a = [[]; []].
Proof.
  intros F N. destruct F as [|d a D F]; [congruence|]. clear N. revert d D. induction F as [|e a E F IH]; intros d D.
  - cbn [re_split]. now rewrite D.
  - transitivity (re_split (e :: a)); [|exact (IH e E)]. cbn [re_split]. now rewrite D, E.
Qed.

Lemma re_split_word w s : Forall (fun d => is_space d = false) w -> re_split (w ++ s) = match re_split s with f :: fs => (w ++ f) :: fs | [] => [w] end.
Proof.
  induction 1 as [|c w C F IH]; [assert (N := re_split_not_nil s); cbn; now destruct (re_split s)|].
  cbn [app re_split]. rewrite C, IH. now destruct (re_split s).
Qed.

Lemma word_space w : a_word w -> Forall (fun d => is_space d = false) w /\ exists c r, w = c :: r /\ is_space c = false.
Proof.
  intros [N F]. assert (G : Forall (fun d => is_space d = false) w).
  { eapply Forall_impl; [|exact F]. cbn. intros c W. destruct (is_space c) eqn:E; [|reflexivity]. destruct W. now apply is_space_iff. }
  split; [exact G|]. destruct G as [|c r C G]; [congruence|eauto].
Qed.

Lemma blank_space b : Forall blank b -> Forall (fun d => is_space d = true) b.
Proof. intro F. eapply Forall_impl; [|exact F]. cbn. intros c B. apply is_space_iff. now left. Qed.

Lemma re_split_spaced l ws : spaced l ws -> (exists r, l = r ++ ["010"]) -> forall a, Forall (fun d => is_space d = true) a ->
  re_split (a ++ l) = match a, l with [], c :: _ => if is_space c then [] :: ws ++ [[]] else ws ++ [[]] | _, _ => [] :: ws ++ [[]] end.
Proof.
  induction 1 as [b w b' nl B W B' N|b w c l ws B W C S IH]; intros (r & E) a A.
  - destruct (word_space w W) as (WS & c & w' & Ew & Cw).
    assert (NL : nl = ["010"]).
    { destruct N as [->|]; [|assumption]. exfalso. rewrite app_nil_r in E. assert (L : last (b ++ w ++ b') "000" = "010") by (rewrite E; apply last_last).
      assert (X : Forall (fun c => c <> "010") (b ++ w ++ b')) by (apply Forall_app; split; [now apply blank_plain|]; apply Forall_app; split; [now apply word_plain|now apply blank_plain]).
      rewrite Forall_forall in X. apply (X "010"); [|reflexivity]. rewrite E. apply in_or_app. right. now left. }
    subst nl. assert (T : re_split (w ++ b' ++ ["010"]) = [w; []]).
    { rewrite re_split_word by exact WS. rewrite re_split_end; [now rewrite app_nil_r| |destruct b'; discriminate]. apply Forall_app. split; [now apply blank_space|]. constructor; [reflexivity|constructor]. }
    rewrite app_assoc. assert (AB : Forall (fun d => is_space d = true) (a ++ b)) by (apply Forall_app; split; [exact A|now apply blank_space]).
    destruct (a ++ b) as [|x y] eqn:Q.
    + apply app_eq_nil in Q. destruct Q as [-> ->]. cbn [app]. rewrite T. rewrite Ew. cbn [app]. now rewrite Cw.
    + assert (R : re_split ((x :: y) ++ w ++ b' ++ ["010"]) = [] :: [w; []]).
      { rewrite <- T, Ew. cbn [app]. exact (re_split_white (x :: y) (w' ++ b' ++ ["010"]) c AB ltac:(discriminate) Cw). }
      rewrite R. destruct a as [|x' a]; [|reflexivity]. cbn [app] in Q. subst b. cbn [app]. now rewrite (Forall_inv AB).
  - destruct (word_space w W) as (WS & d & w' & Ew & Dw).
    assert (EL : exists r, l = r ++ ["010"]).
    { destruct l as [|x l] using rev_ind; [exfalso; clear -S; inversion S as [b0 w0 b1 nl0 B0 W0 B1 N0 E0|b0 w0 c0 l0 ws0 B0 W0 C0 S0 E0]; apply app_eq_nil in E0; destruct E0 as [_ E0]; apply app_eq_nil in E0; destruct W0, E0; congruence|].
      exists l. change (c :: l ++ [x]) with ((c :: l) ++ [x]) in E. rewrite !app_assoc in E. apply app_inj_tail in E. destruct E as [_ ->]. reflexivity. }
    specialize (IH EL [c]). assert (C' : is_space c = true) by (apply is_space_iff; now left). specialize (IH ltac:(now constructor)). cbn [app] in IH.
    assert (T : re_split (w ++ c :: l) = w :: ws ++ [[]]).
    { rewrite re_split_word by exact WS. rewrite IH. now rewrite app_nil_r. }
    rewrite app_assoc. assert (AB : Forall (fun d => is_space d = true) (a ++ b)) by (apply Forall_app; split; [exact A|now apply blank_space]).
    destruct (a ++ b) as [|x y] eqn:Q.
    + apply app_eq_nil in Q. destruct Q as [-> ->]. cbn [app]. rewrite T. rewrite Ew. cbn [app]. now rewrite Dw.
    + assert (R : re_split ((x :: y) ++ w ++ c :: l) = [] :: w :: ws ++ [[]]).
      { rewrite <- T, Ew. cbn [app]. exact (re_split_white (x :: y) (w' ++ c :: l) d AB ltac:(discriminate) Dw). }
      rewrite R. destruct a as [|x' a]; [|reflexivity]. cbn [app] in Q. subst b. cbn [app]. now rewrite (Forall_inv AB).
Qed.

Lemma re_split_first l ws : first_line l ws -> re_split l = ws ++ [[]].
Proof.
  intros (S & (c & r & -> & B) & E). rewrite <- (app_nil_l (c :: r)). rewrite (re_split_spaced _ _ S E []) by constructor.
  destruct (is_space c) eqn:C; [|reflexivity]. exfalso. apply B.
  inversion S as [b w b' nl FB W FB' N EQ|b w d l' ws' FB W D S' EQ]; (destruct b as [|x b]; [|injection EQ as -> _; exact (Forall_inv FB)]);
    destruct (word_space w W) as (_ & y & w' & -> & Y); injection EQ as -> _; congruence.
Qed.

(** The angles *)
Lemma every_second_head {A} (x y z : A) l : every_second (skipn 3 (x :: y :: flat_map (fun t => [t; t]) l ++ [z])) = l.
Proof.
  destruct l as [|b l]; [reflexivity|]. cbn [flat_map app skipn]. revert b. induction l as [|c l IH]; intro b; [reflexivity|].
  cbn [flat_map app every_second]. f_equal. exact (IH c).
Qed.

Lemma numbers_rmapM num texts angles : numbers_of num texts angles -> rmapM (fun t => match num t with Some r => Ok r | None => Err ValueError end) texts = Ok angles.
Proof. induction 1 as [|t r texts angles E N IH]; [reflexivity|]. cbn. now rewrite E, IH. Qed.

Lemma aois_spec num head s n texts angles : first_line head (s :: n :: flat_map (fun t => [t; t]) texts) -> numbers_of num texts angles -> aois num head = Ok angles.
Proof. intros F N. unfold aois. rewrite (re_split_first _ _ F). cbn [app]. rewrite every_second_head. now apply numbers_rmapM. Qed.

(** The table *)
Lemma column_num num l v : Forall2 (fun t r => t <> [] /\ num t = Some r) l v -> column num l = map Num v.
Proof.
  intro F. unfold column. assert (G : forallb (fun t => is_nil t || is_number num t) l = true).
  { apply forallb_forall. intros t I. apply orb_true_iff. right. unfold is_number. induction F as [|a r l v [N E] F IH]; [destruct I|]. destruct I as [->|I]; [now rewrite E|auto]. }
  rewrite G. clear G. induction F as [|a r l v [N E] F IH]; [reflexivity|]. cbn. rewrite IH. f_equal. unfold as_number. destruct a; [congruence|]. now rewrite E.
Qed.

Lemma body_spec (lines : list text) (rows : list (list text)) : Forall2 spaced lines rows -> body lines = rows.
Proof.
  induction 1 as [|l ws lines rows S F IH]; [reflexivity|]. unfold body in *. cbn [filter]. rewrite (spaced_not_blank _ _ S). cbn [negb map]. now rewrite IH, (spaced_fields _ _ S).
Qed.

(** Rows of words and of numbers *)
Definition table (num : text -> option R) (rows : list (list text)) (vs : list (list R)) : Prop :=
  Forall2 (fun ws rs => numbers_of num ws rs /\ Forall a_word ws) rows vs.

Lemma nth_column_num num rows vs j : table num rows vs -> Forall (fun rs => j < length rs) vs -> nth_column num j rows = map (fun rs => Num (nth j rs 0%R)) vs.
Proof.
  intros T L. unfold nth_column. rewrite (column_num num _ (map (fun rs => nth j rs 0%R) vs)); [now rewrite map_map|].
  induction T as [|ws rs rows vs [N W] T IH]; cbn [map]; [apply Forall2_nil|]. apply Forall2_cons; [|apply IH; now apply Forall_inv_tail in L].
  apply Forall_inv in L. clear T IH. revert j L W. induction N as [|w r ws rs E N IH]; intros [|j] L W; cbn in *; try lia.
  - split; [exact (proj1 (Forall_inv W))|exact E].
  - apply IH; [lia|exact (Forall_inv_tail W)].
Qed.

Lemma numbers_len num ws rs : numbers_of num ws rs -> length ws = length rs.
Proof. induction 1; cbn; congruence. Qed.

Lemma not_too_wide num rows vs n : table num rows vs -> Forall (fun rs => length rs <= n) vs -> too_wide n rows = false.
Proof.
  intros T L. unfold too_wide. apply not_true_iff_false. intro E. apply existsb_exists in E. destruct E as (r & I & E). apply Nat.ltb_lt in E.
  induction T as [|ws rs rows vs [N W] T IH]; [destruct I|]. destruct I as [I|I]; [|now apply IH; apply Forall_inv_tail in L]. apply Forall_inv in L. rewrite <- I in E.
  apply (Nat.lt_irrefl n). eapply Nat.lt_le_trans; [exact E|]. etransitivity; [|exact L]. apply Nat.eq_le_incl. exact (numbers_len _ _ _ N).
Qed.

Lemma columns_num num rows vs a n : table num rows vs -> Forall (fun rs => length rs = n) vs ->
  columns num a n rows = map (fun j => map (fun rs => Num (nth j rs 0%R)) vs) (seq a (n - a)).
Proof.
  intros T L. unfold columns. apply map_ext_in. intros j J. apply in_seq in J. apply (nth_column_num num rows vs j T).
  eapply Forall_impl; [|exact L]. cbn. intros rs E. lia.
Qed.

Lemma not_empty_num {A} (f : A -> R) vs : vs <> [] -> not_empty (map (fun v => Num (f v)) vs) = true.
Proof. destruct vs; [congruence|reflexivity]. Qed.

Lemma pairs_seq {A} (f : nat -> A) n : forall a, pairs (map f (seq a (2 * n))) = map (fun k => (f (a + 2 * k), f (a + 2 * k + 1))) (seq 0 n).
Proof.
  induction n as [|n IH]; intro a; [reflexivity|]. replace (2 * S n) with (S (S (2 * n))) by lia. cbn [seq map pairs]. rewrite IH. f_equal.
  - f_equal; f_equal; lia.
  - rewrite <- seq_shift, map_map. apply map_ext. intro k. f_equal; f_equal; lia.
Qed.

Lemma flat_map_nth {A B} (g : A -> list B) l d : flat_map (fun i => g (nth i l d)) (seq 0 (length l)) = flat_map g l.
Proof.
  induction l as [|a l IH]; [reflexivity|]. cbn [length seq flat_map nth]. f_equal. rewrite <- IH. rewrite <- seq_shift. rewrite !flat_map_concat_map, map_map. reflexivity.
Qed.

Lemma combine_map_r {A B D} (f : B -> D) (l : list A) m : combine l (map f m) = map (fun '(a, b) => (a, f b)) (combine l m).
Proof. revert m. induction l as [|a l IH]; intros [|b m]; cbn; auto. now rewrite IH. Qed.

Lemma list_nth {A} (l : list A) d : map (fun k => nth k l d) (seq 0 (length l)) = l.
Proof. induction l as [|a l IH]; [reflexivity|]. cbn. f_equal. rewrite <- seq_shift, map_map. exact IH. Qed.

Lemma in_line_nth w (vals : list (R * R)) k : k < length vals -> nth (1 + 2 * k) (in_line (w, vals)) 0%R = fst (nth k vals (0, 0)%R) /\ nth (1 + 2 * k + 1) (in_line (w, vals)) 0%R = snd (nth k vals (0, 0)%R).
Proof.
  unfold in_line. cbn [fst snd]. revert k. induction vals as [|[p d] vals IH]; intros k L; cbn in L; [lia|]. destruct k as [|k]; [split; reflexivity|].
  destruct (IH k) as [A B]; [lia|]. replace (1 + 2 * S k) with (S (S (1 + 2 * k))) by lia. cbn [flat_map app] in *. cbn [nth fst snd Nat.add] in *. exact (conj A B).
Qed.

Lemma in_line_length w (vals : list (R * R)) : length (in_line (w, vals)) = 1 + 2 * length vals.
Proof. unfold in_line. cbn [fst snd length]. f_equal. induction vals as [|[p d] vals IH]; [reflexivity|]. cbn. rewrite IH. lia. Qed.

Definition cells : R * R * R * R -> row := fun '(a, w, p, d) => Row a (Num w) (Num p) (Num d).

Lemma unpivot_spec (angles : list R) (data : list measured) n : Forall (fun m => length (snd m) = n) data -> length angles = n ->
  unpivot angles (map (fun rs => Num (nth 0 rs 0%R)) (map in_line data))
    (map (fun j => map (fun rs => Num (nth j rs 0%R)) (map in_line data)) (seq 1 (2 * n))) = map cells (all_values angles data).
Proof.
  intros L LA. unfold unpivot. rewrite pairs_seq. rewrite !map_length.
  set (dm := ((0, []) : measured)%R).
  transitivity (flat_map (fun i => (fun m : measured => map (fun '(a, (p, d)) => Row a (Num (fst m)) (Num p) (Num d)) (combine angles (snd m))) (nth i data dm)) (seq 0 (length data))).
  - rewrite !flat_map_concat_map. f_equal. apply map_ext_in. intros i I. apply in_seq in I. cbn [Nat.add] in I. destruct I as [_ I].
    assert (NI : forall j, nth i (map (fun rs => Num (nth j rs 0%R)) (map in_line data)) Nan = Num (nth j (in_line (nth i data dm)) 0%R)).
    { intro j. rewrite map_map. rewrite (nth_indep _ Nan ((fun x => Num (nth j (in_line x) 0%R)) dm)) by now rewrite map_length. now rewrite (map_nth (fun x => Num (nth j (in_line x) 0%R))). }
    rewrite NI. assert (LM : length (snd (nth i data dm)) = n) by (rewrite Forall_forall in L; apply L, nth_In, I).
    destruct (nth i data dm) as [w vals]. cbn [fst snd] in *. rewrite <- LM. rewrite combine_map_r, map_map.
    transitivity (map (fun '(a, k) => (fun '(a, (p, d)) => Row a (Num w) (Num p) (Num d)) (a, nth k vals (0, 0)%R)) (combine angles (seq 0 (length vals)))).
    + apply map_ext_in. intros [a k] K. apply in_combine_r, in_seq in K. cbn [Nat.add] in K. destruct (in_line_nth w vals k) as [A B]; [lia|].
      rewrite !NI. rewrite A, B. now destruct (nth k vals (0, 0)%R).
    + assert (EV : combine angles vals = combine angles (map (fun k => nth k vals (0, 0)%R) (seq 0 (length vals)))) by now rewrite list_nth. rewrite EV, combine_map_r, map_map. apply map_ext. intros [a k]. reflexivity.
  - rewrite (flat_map_nth (fun m : measured => map (fun '(a, (p, d)) => Row a (Num (fst m)) (Num p) (Num d)) (combine angles (snd m)))).
    unfold all_values. rewrite !flat_map_concat_map, concat_map, map_map. f_equal. apply map_ext. intros [w vals]. cbn [fst snd]. rewrite map_map. apply map_ext. intros [a [p d]]. reflexivity.
Qed.

(** Sorting *)
Section Sorting.
Context {A : Type}.
Variable le : A -> A -> bool.
Lemma insert_perm a l : Permutation (a :: l) (insert le a l).
Proof. induction l as [|b l IH]; [reflexivity|]. cbn. destruct (le a b); [reflexivity|]. etransitivity; [apply perm_swap|]. now apply perm_skip. Qed.
Lemma isort_perm l : Permutation l (isort le l).
Proof. induction l as [|a l IH]; [reflexivity|]. cbn. etransitivity; [apply perm_skip, IH|apply insert_perm]. Qed.

Variable P : A -> Prop.
Variable ord : A -> A -> Prop.
Hypothesis total : forall a b, P a -> P b -> if le a b then ord a b else ord b a.
Hypothesis trans : forall a b c, P a -> P b -> P c -> ord a b -> ord b c -> ord a c.

Lemma insert_sorted a l : P a -> Forall P l -> StronglySorted ord l -> StronglySorted ord (insert le a l) /\ Forall P (insert le a l).
Proof.
  intros PA F S. induction S as [|b l S IH FB]; cbn; [repeat constructor; auto|]. assert (PB := Forall_inv F). assert (FL := Forall_inv_tail F). assert (T := total a b PA PB). destruct (le a b).
  - split; [|now constructor]. constructor; [now constructor|]. constructor; [exact T|]. rewrite Forall_forall in *. intros c I. apply (trans a b c); auto.
  - destruct (IH FL) as [S2 F2]. split; [|now constructor]. constructor; [exact S2|]. rewrite Forall_forall. intros c I.
    apply (Permutation_in _ (Permutation_sym (insert_perm a l))) in I. destruct I as [<-|I]; [exact T|]. rewrite Forall_forall in FB. now apply FB.
Qed.
Lemma isort_sorted l : Forall P l -> StronglySorted ord (isort le l) /\ Forall P (isort le l).
Proof.
  induction 1 as [|a l PA F [S FS]]; [split; constructor|]. cbn. now apply insert_sorted.
Qed.
End Sorting.
