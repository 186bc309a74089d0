(** Lemmas on Mueller matrix frames and figures for C57 and C76. *)
From Coq Require Import Reals String List Arith Bool Lia Lra.
From Verif.Base Require Import Py.
From Verif.Model Require Import MMatrixFit.
From Verif.Spec Require Import Labels.
Import ListNotations.
Open Scope R_scope.
Open Scope list_scope.

Ltac four i := destruct i as [|[|[|[|i]]]]; [| | | |lia].

Lemma label_at i j : (i < 4)%nat -> (j < 4)%nat -> nth_error labels (4 * i + j) = Some (label i j).
Proof. intros I J. four i; four j; reflexivity. Qed.
Lemma labels_nodup : NoDup labels.
Proof.
  assert (D : forall l : list string, (forall a b, (a < b < length l)%nat -> nth a l ""%string <> nth b l ""%string) -> NoDup l).
  { induction l as [|x l IH]; intros H; constructor.
    - intros I. destruct (In_nth _ _ ""%string I) as (n & L & E). apply (H 0%nat (S n)); cbn; [lia|]. now rewrite E.
    - apply IH. intros a b L. apply (H (S a) (S b)). cbn. lia. }
  apply D. change (length labels) with 16%nat. intros a b L.
  do 16 (destruct a as [|a]; [do 16 (destruct b as [|b]; [first [lia|discriminate]|]); lia|]). lia.
Qed.
Lemma nodup_at {A} (l : list A) c x : NoDup l -> nth_error l c = Some x -> forall c', nth_error l c' = Some x -> c' = c.
Proof.
  intros N E c' E'. apply (proj1 (NoDup_nth_error l) N); [|congruence]. apply nth_error_Some. congruence.
Qed.
Lemma flatten_at m i j : (i < 4)%nat -> (j < 4)%nat -> nth_error (flatten m) (4 * i + j) = Some (m i j).
Proof. intros I J. four i; four j; reflexivity. Qed.
Lemma flatten_length m : length (flatten m) = 16%nat.
Proof. reflexivity. Qed.
Lemma position_label i j : (i < 4)%nat -> (j < 4)%nat -> position (label i j) labels = Some (4 * i + j)%nat.
Proof. intros I J. four i; four j; reflexivity. Qed.

Lemma index_of k : (k < 16)%nat -> exists i j, (i < 4)%nat /\ (j < 4)%nat /\ k = (4 * i + j)%nat.
Proof.
  intros K. exists (k / 4)%nat, (k mod 4)%nat. split; [apply Nat.div_lt_upper_bound; lia|]. split; [apply Nat.mod_upper_bound; lia|].
  apply Nat.div_mod. lia.
Qed.

(** Cells *)
Lemma holds_cell df k i j x : f_columns df = labels -> (i < 4)%nat -> (j < 4)%nat ->
  holds_at df k (label i j) x <-> exists row, nth_error (f_rows df) k = Some row /\ nth_error row (4 * i + j) = Some x.
Proof.
  intros F I J. unfold holds_at. rewrite F. split.
  - intros (c & row & _ & U & R & X). rewrite <- (U _ (label_at i j I J)) in X. eauto.
  - intros (row & R & X). exists (4 * i + j)%nat, row. split; [now apply label_at|]. split; [|tauto].
    apply nodup_at; [apply labels_nodup|now apply label_at].
Qed.

(** reshape *)
Lemma chunks_rows rows : Forall (fun row => length row = 16%nat) rows ->
  length (concat rows) = (16 * length rows)%nat /\
  forall k row, nth_error rows k = Some row -> exists m, nth_error (chunks (length rows) (concat rows)) k = Some m /\
    forall i j, (i < 4)%nat -> (j < 4)%nat -> m i j = nth (4 * i + j) row 0.
Proof.
  induction 1 as [|r rows L F (IL & IH)]; cbn [concat].
  - split; [reflexivity|]. intros [|k] row; discriminate.
  - rewrite app_length, L. cbn [length]. split; [lia|]. intros [|k] row E; cbn [nth_error] in E.
    + injection E as <-. eexists. split; [reflexivity|]. intros i j I J. cbn beta. rewrite app_nth1; [reflexivity|rewrite L; lia].
    + destruct (IH k row E) as (m & M & Q). exists m. split; [|exact Q]. cbn [chunks nth_error].
      rewrite <- M. f_equal. f_equal. rewrite skipn_app, L, skipn_all2 by lia. cbn. reflexivity.
Qed.
Lemma chunks_length n : forall l, length (chunks n l) = n.
Proof. induction n as [|n IH]; intros l; cbn; [reflexivity|now rewrite IH]. Qed.

Lemma nth_error_combine {A B} (a : list A) : forall (b : list B) k x y,
  nth_error a k = Some x -> nth_error b k = Some y -> nth_error (combine a b) k = Some (x, y).
Proof.
  induction a as [|p a IH]; intros [|q b] [|k] x y E F; cbn in *; try discriminate; [congruence|now apply IH].
Qed.
Lemma combine_nth_error {A B} (a : list A) : forall (b : list B) k p,
  nth_error (combine a b) k = Some p -> nth_error a k = Some (fst p) /\ nth_error b k = Some (snd p).
Proof.
  induction a as [|x a IH]; intros [|y b] [|k] p E; cbn in *; try discriminate; [injection E as <-; auto|now apply IH].
Qed.

Lemma residual_values exp mm : f_columns exp = labels -> well_formed exp -> length (f_index exp) = length mm ->
  exists r, fit_function exp mm = Ok r /\ length r = length mm /\
    forall k m row, nth_error mm k = Some m -> nth_error (f_rows exp) k = Some row ->
      exists d, nth_error r k = Some d /\ forall i j, (i < 4)%nat -> (j < 4)%nat -> d i j = nth (4 * i + j) row 0 - m i j.
Proof.
  intros F [WL WF] LN. rewrite F in WF. change (length labels) with 16%nat in WF.
  destruct (chunks_rows _ WF) as (L & H). unfold fit_function, reshape44. rewrite L, Nat.mul_comm, Nat.mod_mul, Nat.div_mul by lia.
  cbn [Nat.eqb rbind]. unfold subtract. rewrite chunks_length, WL, LN, Nat.eqb_refl. eexists. split; [reflexivity|]. split.
  - rewrite map_length, combine_length, chunks_length. lia.
  - intros k m row M R. destruct (H k row R) as (c & C & Q). rewrite nth_error_map.
    rewrite WL, LN in C. rewrite (nth_error_combine _ _ _ _ _ C M). eexists. split; [reflexivity|].
    intros i j I J. unfold minus. cbn. now rewrite Q.
Qed.

Lemma nth_error_ext {A} (a : list A) : forall b, (forall k, nth_error a k = nth_error b k) -> a = b.
Proof.
  induction a as [|x a IH]; intros [|y b] H; [reflexivity|discriminate (H 0%nat)|discriminate (H 0%nat)|].
  f_equal; [injection (H 0%nat); auto|]. apply IH. intros k. exact (H (S k)).
Qed.

(** The columns of a frame with the standard labels *)
Lemma column_values df i j (v : nat -> R) n : f_columns df = labels -> (i < 4)%nat -> (j < 4)%nat -> length (f_rows df) = n ->
  (forall k, (k < n)%nat -> holds_at df k (label i j) (v k)) -> column df (label i j) = Ok (map v (seq 0 n)).
Proof.
  intros F I J L V. unfold column. rewrite F, position_label by assumption. f_equal.
  apply nth_error_ext. intros k. rewrite !nth_error_map.
  destruct (le_lt_dec n k) as [G|G].
  - rewrite (proj2 (nth_error_None _ _)) by lia. rewrite (proj2 (nth_error_None _ _)) by (rewrite seq_length; lia). reflexivity.
  - destruct (proj1 (holds_cell df k i j _ F I J) (V k G)) as (row & R & X). rewrite R.
    rewrite (nth_error_nth' _ 0%nat) by (rewrite seq_length; lia). rewrite seq_nth by lia. cbn. f_equal.
    apply nth_error_nth with (d := 0) in X. exact X.
Qed.

(** Figures *)
Lemma set_trace_spec name y : forall k l t, nth_error l k = Some t ->
  exists m, set_trace k name y l = Ok m /\ length m = length l /\ nth_error m k = Some (Trace name (t_x t) y (t_place t)) /\
    forall k', k' <> k -> nth_error m k' = nth_error l k'.
Proof.
  induction k as [|k IH]; intros [|t0 l] t E; cbn in E; try discriminate.
  - injection E as ->. cbn. eexists. split; [reflexivity|]. split; [reflexivity|]. split; [reflexivity|].
    intros [|k'] N; [contradiction|reflexivity].
  - destruct (IH l t E) as (m & M & L & A & B). cbn. rewrite M. cbn. eexists. split; [reflexivity|]. cbn. split; [lia|].
    split; [exact A|]. intros [|k'] N; [reflexivity|]. apply B. lia.
Qed.

Lemma set_traces_spec df residual (y : string -> list R) : forall cols i l, (forall c, In c cols -> column df c = Ok (y c)) ->
  (2 * (i + length cols) <= length l)%nat ->
  exists m, set_traces i df residual cols l = Ok m /\ length m = length l /\
    (forall k, (forall a, k <> 2 * a + 1 \/ a < i \/ i + length cols <= a)%nat -> nth_error m k = nth_error l k) /\
    (forall a c t, nth_error cols a = Some c -> nth_error l (2 * (i + a) + 1) = Some t ->
       nth_error m (2 * (i + a) + 1) = Some (Trace (c ++ (if residual then " Residual" else " theory"))%string (t_x t) (y c) (t_place t))).
Proof.
  induction cols as [|c cols IH]; intros i l Y L.
  - exists l. split; [reflexivity|]. split; [reflexivity|]. split; [reflexivity|]. intros [|a] c t; discriminate.
  - cbn [length] in L. cbn [set_traces]. rewrite (Y c (or_introl eq_refl)). cbn [rbind].
    destruct (nth_error l (2 * i + 1)) as [t|] eqn:T; [|exfalso; apply nth_error_None in T; lia].
    destruct (set_trace_spec (c ++ (if residual then " Residual" else " theory"))%string (y c) _ _ _ T) as (m1 & M1 & L1 & A1 & B1).
    rewrite M1. cbn [rbind]. destruct (IH (S i) m1) as (m & M & LM & A & B); [intros c' C'; apply Y; now right|lia|].
    exists m. split; [exact M|]. split; [lia|]. split.
    + intros k K. rewrite A.
      * apply B1. specialize (K i). cbn [length] in K. lia.
      * intros a. destruct (K a) as [K'|[K'|K']]; [now left|right; left; lia|]. cbn [length] in K'. right; right. lia.
    + intros [|a] c' t' C T'; cbn [nth_error] in C.
      * injection C as <-. rewrite Nat.add_0_r in *. rewrite T in T'. injection T' as <-. rewrite A; [exact A1|].
        intros a. destruct (Nat.eq_dec a i) as [->|N]; [right; left; lia|left; lia].
      * replace (i + S a)%nat with (S i + a)%nat in * by lia. apply B; [exact C|]. rewrite B1 by lia. exact T'.
Qed.
