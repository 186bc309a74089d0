From Coq Require Import Ascii String List Arith Bool Reals Lia.
From Coquelicot Require Import Complex.
From Coq Require Import List.
From Verif.Base Require Import Py Cx.
From Verif.Model Require Import FormulaText Regex TextTable Units Tables SpectraRayTable.
From Verif.Spec Require Import SpectraRayFile.
Import ListNotations.
Open Scope char_scope.
Open Scope list_scope.

Lemma is_blank_iff c : is_blank c = true <-> blank c.
Proof. unfold is_blank, blank. rewrite orb_true_iff, !Ascii.eqb_eq. reflexivity. Qed.

Lemma is_space_iff c : is_space c = true <-> white c.
Proof.
  unfold white, blank. split.
  - intros H. destruct c as [[] [] [] [] [] [] [] []]; try discriminate H; cbn; auto 12.
  - intros [[->| ->]|H]; [reflexivity|reflexivity|]. cbn in H. repeat destruct H as [<-|H]; try reflexivity. destruct H.
Qed.

Lemma same_iff a b : same a b = true <-> a = b.
Proof.
  revert b. induction a as [|c a IH]; intros [|d b]; cbn; try (split; congruence).
  rewrite andb_true_iff, Ascii.eqb_eq, IH. split; [intros [-> ->]; reflexivity|intros [= -> ->]; auto].
Qed.

Lemma strip_iff w s r : strip w s = Some r <-> s = w ++ r.
Proof.
  revert s. induction w as [|a w IH]; intros s; cbn; [split; congruence|]. destruct s as [|b s]; [split; discriminate|].
  destruct (Ascii.eqb_spec a b) as [->|N]; [rewrite IH; split; congruence|split; congruence].
Qed.

Lemma starts_with_iff w s : starts_with w s = true <-> exists r, s = w ++ r.
Proof.
  unfold starts_with. destruct (strip w s) as [r|] eqn:E.
  - apply strip_iff in E. split; [eauto|reflexivity].
  - split; [discriminate|]. intros (r & H). apply strip_iff in H. congruence.
Qed.

Lemma strip_left_app s : exists a, s = a ++ strip_left s /\ Forall white a.
Proof.
  induction s as [|c s (a & E & F)]; [exists []; auto|]. cbn. destruct (is_space c) eqn:W.
  - exists (c :: a). cbn. split; [congruence|]. constructor; [now apply is_space_iff|auto].
  - exists []. auto.
Qed.
Lemma strip_left_white a s : Forall white a -> strip_left (a ++ s) = strip_left s.
Proof. induction 1 as [|c a W _ IH]; [reflexivity|]. cbn. apply is_space_iff in W. now rewrite W. Qed.
Lemma strip_left_id c s : is_space c = false -> strip_left (c :: s) = c :: s.
Proof. cbn. now intros ->. Qed.

Lemma strip_both_iff c w d s : is_space c = false -> is_space d = false ->
  strip_both s = c :: w ++ [d] <-> exists a b, s = a ++ (c :: w ++ [d]) ++ b /\ Forall white a /\ Forall white b.
Proof.
  intros C D. unfold strip_both. split.
  - intros E. destruct (strip_left_app s) as (a & Ea & A). destruct (strip_left_app (rev (strip_left s))) as (b & Eb & B).
    exists a, (rev b). split.
    + rewrite Ea at 1. f_equal. rewrite <- E. rewrite <- (rev_involutive (strip_left s)) at 1. rewrite Eb at 1. now rewrite rev_app_distr.
    + split; [exact A|]. now apply Forall_rev.
  - intros (a & b & -> & A & B). rewrite strip_left_white by exact A. cbn [app]. rewrite strip_left_id by exact C.
    change (c :: (w ++ [d]) ++ b) with ((c :: w ++ [d]) ++ b). rewrite rev_app_distr, strip_left_white by now apply Forall_rev.
    cbn [rev]. rewrite rev_app_distr. cbn [rev app]. rewrite strip_left_id by exact D. cbn [rev]. rewrite rev_app_distr, rev_involutive. cbn. reflexivity.
Qed.

Lemma is_begin_iff l : is_begin l = true <-> says "Begin of array" l.
Proof. unfold is_begin. rewrite same_iff. exact (strip_both_iff "B" (chars "egin of arra") "y" l eq_refl eq_refl). Qed.
Lemma is_end_iff l : is_end l = true <-> says "End of array" l.
Proof. unfold is_end. rewrite same_iff. exact (strip_both_iff "E" (chars "nd of arra") "y" l eq_refl eq_refl). Qed.

Lemma split_none p s : Forall (fun c => p c = false) s -> split p s = [s].
Proof. induction 1 as [|c s P _ IH]; [reflexivity|]. cbn. now rewrite P, IH. Qed.
Lemma split_app p s c r : Forall (fun c => p c = false) s -> p c = true -> split p (s ++ c :: r) = s :: split p r.
Proof. intros F P. induction F as [|d s Q _ IH]; cbn; [now rewrite P|]. now rewrite Q, IH. Qed.
Lemma split_not_nil p s : split p s <> [].
Proof. destruct s as [|c s]; cbn; [discriminate|]. destruct (p c); [discriminate|]. destruct (split p s); discriminate. Qed.

Lemma not_in c l : ~ In c l -> Forall (fun d => (d =? c) = false) l.
Proof. intros N. apply Forall_forall. intros d I. apply Ascii.eqb_neq. now intros ->. Qed.

Lemma hd_split p s r : Forall (fun c => p c = false) s -> hd [] (split p (s ++ r)) = s ++ hd [] (split p r).
Proof.
  induction 1 as [|c s P _ IH]; [reflexivity|]. cbn. rewrite P. destruct (split p (s ++ r)) eqn:E; [now apply split_not_nil in E|].
  cbn in *. now rewrite IH.
Qed.

Lemma names_unit u n : names u n -> is_units u = true /\ unit_name u = n.
Proof.
  intros (more & -> & NE & NC). split; [apply starts_with_iff; eauto|]. unfold unit_name.
  change (letters "Units=" ++ n ++ "," :: more) with (chars "Units" ++ "=" :: (n ++ "," :: more)).
  rewrite split_app; [|repeat constructor|reflexivity]. cbn [nth].
  set (more' := hd [] (split (fun c => c =? "=") ("," :: more))).
  assert (E : nth 0 (split (fun c => c =? "=") (n ++ "," :: more)) [] = n ++ more').
  { unfold more'. rewrite <- hd_split by now apply not_in. generalize (split (fun c => c =? "=") (n ++ "," :: more)). intros [|? ?]; reflexivity. }
  rewrite E. assert (M : exists r, more' = "," :: r).
  { unfold more'. cbn. destruct (split (fun c => c =? "=") more); cbn; eauto. }
  destruct M as (r & ->). rewrite split_app; [reflexivity|now apply not_in|reflexivity].
Qed.

Lemma other_units l : other l -> is_units l = false.
Proof. intros O. destruct (is_units l) eqn:E; [|reflexivity]. apply starts_with_iff in E. now elim O. Qed.

(** The three results of the loop *)
Fixpoint starts (ls : list text) (cnt s : nat) : nat :=
  match ls with [] => s | l :: r => starts r (S cnt) (if is_begin l then S cnt else s) end.
Fixpoint stops (ls : list text) (cnt s : nat) : nat :=
  match ls with [] => s | l :: r => stops r (S cnt) (if is_end l then cnt else s) end.
Fixpoint unit_of (ls : list text) (u : option text) : option text :=
  match ls with [] => u | l :: r => unit_of r (if is_units l then Some (unit_name l) else u) end.

Lemma scan_parts rest : forall l cnt s e u, scan l rest cnt s e u = (starts (l :: rest) cnt s, stops (l :: rest) cnt e, unit_of rest u).
Proof. induction rest as [|k rest IH]; intros; [reflexivity|]. cbn [scan]. rewrite IH. reflexivity. Qed.

Lemma starts_app a b : forall cnt s, starts (a ++ b) cnt s = starts b (cnt + length a) (starts a cnt s).
Proof. induction a as [|l a IH]; intros; cbn; [now rewrite Nat.add_0_r|]. rewrite IH. f_equal. lia. Qed.
Lemma stops_app a b : forall cnt s, stops (a ++ b) cnt s = stops b (cnt + length a) (stops a cnt s).
Proof. induction a as [|l a IH]; intros; cbn; [now rewrite Nat.add_0_r|]. rewrite IH. f_equal. lia. Qed.
Lemma unit_of_app a b : forall u, unit_of (a ++ b) u = unit_of b (unit_of a u).
Proof. induction a as [|l a IH]; intros; cbn; [reflexivity|]. apply IH. Qed.
Lemma starts_none ls : Forall (fun l => is_begin l = false) ls -> forall cnt s, starts ls cnt s = s.
Proof. induction 1 as [|l ls B _ IH]; intros; cbn; [reflexivity|]. now rewrite B. Qed.
Lemma stops_none ls : Forall (fun l => is_end l = false) ls -> forall cnt s, stops ls cnt s = s.
Proof. induction 1 as [|l ls B _ IH]; intros; cbn; [reflexivity|]. now rewrite B. Qed.
Lemma unit_none ls : Forall other ls -> forall u, unit_of ls u = u.
Proof. induction 1 as [|l ls B _ IH]; intros; cbn; [reflexivity|]. now rewrite other_units. Qed.

Lemma says_not v w l : says v l -> v = "Begin of array"%string -> w = "End of array"%string -> ~ says w l.
Proof.
  intros V -> -> W. apply is_begin_iff in V. apply is_end_iff in W. unfold is_begin, is_end in *. rewrite same_iff in V, W. rewrite V in W. discriminate W.
Qed.

Lemma markers_file head b data e tail :
  says "Begin of array" b -> says "End of array" e ->
  Forall (fun l => ~ says "Begin of array" l /\ ~ says "End of array" l) (head ++ data ++ tail) ->
  fst (markers (head ++ b :: data ++ e :: tail)) = (S (length head), S (length head) + length data)%nat.
Proof.
  intros B E F. set (file := head ++ b :: data ++ e :: tail).
  assert (P : fst (markers file) = (starts file 0 0, stops file 0 0)%nat).
  { destruct file as [|l r]; [reflexivity|]. unfold markers. now rewrite scan_parts. }
  rewrite P. unfold file. clear file P.
  assert (NB : forall l, ~ says "Begin of array" l -> is_begin l = false).
  { intros l N. destruct (is_begin l) eqn:Q; [|reflexivity]. apply is_begin_iff in Q. contradiction. }
  assert (NE : forall l, ~ says "End of array" l -> is_end l = false).
  { intros l N. destruct (is_end l) eqn:Q; [|reflexivity]. apply is_end_iff in Q. contradiction. }
  apply Forall_app in F as [FH F]. apply Forall_app in F as [FD FT].
  assert (G : forall ls, Forall (fun l => ~ says "Begin of array" l /\ ~ says "End of array" l) ls ->
    Forall (fun l => is_begin l = false) ls /\ Forall (fun l => is_end l = false) ls).
  { intros ls X. split; (eapply Forall_impl; [|exact X]); cbn; intros ? [? ?]; auto. }
  destruct (G _ FH) as [H1 H2], (G _ FD) as [D1 D2], (G _ FT) as [T1 T2].
  assert (EB : is_end b = false) by (apply NE; now apply (says_not "Begin of array" "End of array")).
  assert (BE : is_begin e = false) by (apply NB; intros X; now apply (says_not "Begin of array" "End of array" e X)).
  apply is_begin_iff in B. apply is_end_iff in E. f_equal.
  - rewrite starts_app. cbn. rewrite B, starts_app. cbn. rewrite BE. rewrite !starts_none by assumption. reflexivity.
  - rewrite stops_app. cbn. rewrite EB, stops_app. cbn. rewrite E. rewrite !stops_none by assumption. cbn. reflexivity.
Qed.

Lemma markers_unit pre u post n : pre <> [] -> names u n -> Forall other post -> snd (markers (pre ++ u :: post)) = Some n.
Proof.
  intros P N O. destruct pre as [|l pre]; [congruence|]. cbn [app markers]. rewrite scan_parts. cbn [snd].
  rewrite unit_of_app. cbn. destruct (names_unit u n N) as [-> ->]. now apply unit_none.
Qed.

(** The fields of a line *)
Lemma content_line s nl : Forall (fun c => c <> "010") s -> nl = [] \/ nl = ["010"] -> content (s ++ nl) = s.
Proof.
  intros F N. assert (G : Forall (fun c => is_newline c = false) s).
  { eapply Forall_impl; [|exact F]. cbn. intros c H. now apply Ascii.eqb_neq. }
  unfold content. destruct N as [->| ->].
  - rewrite app_nil_r, split_none by exact G. reflexivity.
  - rewrite split_app by (auto; reflexivity). reflexivity.
Qed.

Definition words_of (s : text) : list text := filter (fun f => negb (is_nil f)) (split is_blank s).
Lemma words_blank b s : Forall blank b -> words_of (b ++ s) = words_of s.
Proof.
  unfold words_of. induction 1 as [|c b B _ IH]; [reflexivity|]. cbn. apply is_blank_iff in B. rewrite B. cbn. exact IH.
Qed.
Lemma words_word w b s : a_word w -> Forall blank b -> b <> [] -> words_of (w ++ b ++ s) = w :: words_of s.
Proof.
  intros [N F] B NB. destruct b as [|c b]; [congruence|]. inversion B as [|? ? C B']; subst. unfold words_of. cbn [app].
  rewrite split_app.
  - cbn. destruct w; [congruence|]. cbn. f_equal. now apply words_blank.
  - eapply Forall_impl; [|exact F]. cbn. intros d W. destruct (is_blank d) eqn:X; [|reflexivity]. apply is_blank_iff in X. elim W. now left.
  - now apply is_blank_iff.
Qed.
Lemma words_last w b : a_word w -> Forall blank b -> words_of (w ++ b) = [w].
Proof.
  intros A B. destruct b as [|c b].
  - rewrite app_nil_r. destruct A as [N F]. unfold words_of. rewrite split_none.
    + cbn. destruct w; [congruence|reflexivity].
    + eapply Forall_impl; [|exact F]. cbn. intros d W. destruct (is_blank d) eqn:X; [|reflexivity]. apply is_blank_iff in X. elim W. now left.
  - rewrite <- (app_nil_r (c :: b)). rewrite words_word; [reflexivity|exact A|exact B|discriminate].
Qed.

Lemma three_fields l x y z : three l x y z -> space_fields l = [x; y; z] /\ space_blank l = false.
Proof.
  intros (X & Y & Z & b0 & b1 & b2 & b3 & nl & -> & B0 & B1 & B2 & B3 & N1 & N2 & NL).
  assert (NB : forall b, Forall blank b -> Forall (fun c => c <> "010") b).
  { intros b. apply Forall_impl. intros c [->| ->]; discriminate. }
  assert (NW : forall w, a_word w -> Forall (fun c => c <> "010") w).
  { intros w [_ F]. eapply Forall_impl; [|exact F]. cbn. intros c W ->. apply W. right. cbn. auto. }
  assert (E : content (b0 ++ x ++ b1 ++ y ++ b2 ++ z ++ b3 ++ nl) = b0 ++ x ++ b1 ++ y ++ b2 ++ z ++ b3).
  { replace (b0 ++ x ++ b1 ++ y ++ b2 ++ z ++ b3 ++ nl) with ((b0 ++ x ++ b1 ++ y ++ b2 ++ z ++ b3) ++ nl) by now rewrite <- !app_assoc.
    apply content_line; [|exact NL]. repeat (apply Forall_app; split); auto. }
  unfold space_fields, space_blank. rewrite E. split.
  - change (words_of (b0 ++ x ++ b1 ++ y ++ b2 ++ z ++ b3) = [x; y; z]).
    rewrite words_blank by exact B0. rewrite words_word by assumption. rewrite words_word by assumption. now rewrite words_last.
  - apply not_true_iff_false. intros H. rewrite forallb_forall in H. destruct X as [NX FX]. destruct x as [|d x]; [congruence|].
    inversion FX as [|? ? W _]; subst. apply W. left. apply is_blank_iff. apply H. apply in_or_app. right. now left.
Qed.

Lemma filter_all {A} (p : A -> bool) l : Forall (fun a => p a = true) l -> filter p l = l.
Proof. induction 1 as [|a l P _ IH]; [reflexivity|]. cbn. now rewrite P, IH. Qed.

Lemma data_fields data rows tail :
  Forall2 (fun l '(x, y, z) => three l x y z) data rows ->
  map space_fields (firstn (length data) (filter (fun l => negb (space_blank l)) (data ++ tail))) = map (fun '(x, y, z) => [x; y; z]) rows.
Proof.
  intros F. assert (G : Forall (fun l => negb (space_blank l) = true) data).
  { induction F as [|l [[x y] z] data rows T F IH]; constructor; auto. destruct (three_fields _ _ _ _ T) as [_ ->]. reflexivity. }
  rewrite filter_app, (filter_all _ data G), firstn_app, Nat.sub_diag, firstn_O, app_nil_r, firstn_all.
  clear G. induction F as [|l [[x y] z] data rows T F IH]; [reflexivity|]. cbn. destruct (three_fields _ _ _ _ T) as [-> _]. now rewrite IH.
Qed.

(** Columns of numbers *)
Lemma column_numbers num l v : Forall2 (fun t r => t <> [] /\ num t = Some r) l v -> numbers (column num l) = Ok (Some v).
Proof.
  intros F. unfold column. assert (G : forallb (fun t => is_nil t || is_number num t) l = true).
  { apply forallb_forall. intros t I. apply orb_true_iff. right. induction F as [|a r l v [N E] F IH]; [destruct I|].
    destruct I as [->|I]; [unfold is_number; now rewrite E|auto]. }
  rewrite G. clear G. induction F as [|a r l v [N E] F IH]; [reflexivity|]. cbn [map numbers as_number]. destruct a as [|d a]; [congruence|].
  cbn [as_number]. rewrite E. cbn [numbers]. rewrite IH. reflexivity.
Qed.

Lemma to_wavelengths_ok c h l : Forall (fun e => e <> 0%R) l -> to_wavelengths c h l = Some (map (fun e => (c * h / (e * / 10 ^ 9))%R) l).
Proof.
  induction 1 as [|e l N _ IH]; [reflexivity|]. cbn. unfold wavelength_energy, rdiv.
  destruct (Req_EM_T (e * / 10 ^ 9) 0) as [Z|_].
  - exfalso. apply Rmult_integral in Z as [Z|Z]; [auto|]. apply Rinv_neq_0_compat in Z; [auto|]. apply pow_nonzero. apply not_0_IZR. discriminate.
  - cbn. now rewrite IH.
Qed.
