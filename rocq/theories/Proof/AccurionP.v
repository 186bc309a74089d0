(** Lemmas on the reader of Accurion files. *)
From Coq Require Import Ascii String List Arith Bool Reals Lia Lra Permutation Sorted.
From Verif.Base Require Import Py.
From Verif.Model Require Import FormulaText Regex TextTable DeltaRange SpectraRayPsi Accurion.
From Verif.Spec Require Import Angle SpectraRayFile WoollamFile AccurionFile.
From Verif.Proof Require Import SpectraRayP WoollamP SpectraRayPsiP.
Import ListNotations.
Open Scope nat_scope.
Open Scope list_scope.

Lemma tabbed_fields l fs : tabbed l fs -> tab_fields l = fs /\ tab_blank l = false.
Proof.
  intros (f & r & nl & -> & W & S & N & ->). split; [apply join_fields; [discriminate|constructor; [now apply word_solid|exact S]|exact N]|now apply join_not_blank].
Qed.

Lemma tabbed_lines lines (rows : list (list line)) : Forall2 tabbed lines rows -> map tab_fields (filter (fun l => negb (tab_blank l)) lines) = rows.
Proof. induction 1 as [|l fs lines rows T F IH]; [reflexivity|]. destruct (tabbed_fields l fs T) as [A B]. cbn [filter]. rewrite B. cbn [negb map]. now rewrite A, IH. Qed.

(** The columns *)
Definition rows_of (num : text -> option R) (rows : list (list text)) (data : list (list R)) : Prop :=
  Forall2 (fun fs rs => Forall2 (fun f r => f <> [] /\ num f = Some r) fs rs) rows data.

Lemma rows_wide num rows data n : rows_of num rows data -> Forall (fun rs => length rs = n) data -> Forall (fun fs => length fs = n) rows.
Proof.
  intro F. induction F as [|fs rs rows data E F IH]; intro L; constructor; [|apply IH; now apply Forall_inv_tail in L].
  apply Forall_inv in L. rewrite <- L. clear -E. induction E; cbn; congruence.
Qed.

Lemma not_wide n (rows : list (list text)) : Forall (fun fs => length fs = n) rows -> too_wide n rows = false.
Proof. intro F. unfold too_wide. apply not_true_iff_false. intro E. apply existsb_exists in E. destruct E as (r & I & E). rewrite Forall_forall in F. rewrite (F _ I) in E. now rewrite Nat.ltb_irrefl in E. Qed.

Lemma column_texts num rows data j n : rows_of num rows data -> Forall (fun rs => length rs = n) data -> j < n ->
  Forall2 (fun t r => t <> [] /\ num t = Some r) (map (fun r => nth j r []) rows) (map (fun rs => nth j rs 0%R) data).
Proof.
  intros F. induction F as [|fs rs rows data E F IH]; intros L J; cbn [map]; [apply Forall2_nil|]. apply Forall2_cons; [|apply IH; [now apply Forall_inv_tail in L|exact J]].
  apply Forall_inv in L. rewrite <- L in J. clear -E J. revert j J. induction E as [|f r fs rs H E IH]; intros [|j] J; cbn in *; try lia; [exact H|]. apply IH. lia.
Qed.

Lemma to_float_spec num l v (numeric : bool) : Forall2 (fun t r => t <> [] /\ num t = Some r) l v ->
  rmapM (to_float num) (if numeric then map (as_number num) l else map as_text l) = Ok (map Num v).
Proof.
  intro F. destruct numeric; induction F as [|t r l v [N E] F IH]; try reflexivity; cbn [map rmapM].
  - rewrite IH. unfold as_number. destruct t; [congruence|]. now rewrite E.
  - rewrite IH. unfold as_text. destruct t; [congruence|]. cbn [to_float]. now rewrite E.
Qed.

Lemma rmapM_ok {A B} (f : A -> res B) g l : (forall a, In a l -> f a = Ok (g a)) -> rmapM f l = Ok (map g l).
Proof. induction l as [|a l IH]; intro H; [reflexivity|]. cbn. rewrite (H a) by now left. rewrite IH; [reflexivity|]. intros b I. apply H. now right. Qed.

Lemma float_columns_spec num us rows data n : rows_of num rows data -> Forall (fun rs => length rs = n) data ->
  float_columns num n (us :: rows) = Ok (map (fun j => map (fun rs => Num (nth j rs 0%R)) data) (seq 0 n)).
Proof.
  intros F L. unfold float_columns. apply rmapM_ok. intros j J. apply in_seq in J. unfold nth_column, column. cbn [map].
  transitivity (rmapM (to_float num) (if forallb (fun t => is_nil t || is_number num t) (nth j us [] :: map (fun r => nth j r []) rows) then map (as_number num) (map (fun r => nth j r []) rows) else map as_text (map (fun r => nth j r []) rows))).
  - match goal with |- rmapM _ (tl (if ?b then _ else _)) = _ => change b with (forallb (fun t => is_nil t || is_number num t) (nth j us [] :: map (fun r => nth j r []) rows)) end.
    destruct (forallb (fun t => is_nil t || is_number num t) (nth j us [] :: map (fun r => nth j r []) rows)); reflexivity.
  - rewrite (to_float_spec num _ (map (fun rs => nth j rs 0%R) data)); [now rewrite map_map|]. apply (column_texts num rows data j n); auto. lia.
Qed.

(** The frame *)
Lemma index_of_spec names name j : NoDup names -> nth_error names j = Some name -> index_of name names = Some j.
Proof.
  intro N. revert j. induction N as [|n names NI N IH]; intros j E; [destruct j; discriminate|]. cbn [index_of]. destruct j as [|j].
  - injection E as ->. now rewrite (proj2 (same_iff name name) eq_refl).
  - destruct (same n name) eqn:Q; [|now rewrite (IH j E)]. apply same_iff in Q. subst. exfalso. apply NI. eapply nth_error_In, E.
Qed.

Definition numeric : R * R * R * R -> values := fun '(a, w, d, p) => (Num a, Num w, Num d, Num p).

Lemma frame_spec names data n vals : NoDup names -> length names = n -> Forall (fun rs => length rs = n) data -> Forall2 (says names) data vals ->
  frame names (map (fun j => map (fun rs => Num (nth j rs 0%R)) data) (seq 0 n)) (length data) = map numeric vals.
Proof.
  intros ND LN L SY.
  assert (G : forall name i rs r, nth_error data i = Some rs -> value_at names rs name r -> nth i (reindexed names (map (fun j => map (fun rs => Num (nth j rs 0%R)) data) (seq 0 n)) name) Nan = Num r).
  { intros name i rs r I (j & J & V). unfold reindexed. rewrite (index_of_spec names (chars name) j ND J).
    assert (JN : j < n) by (rewrite <- LN; apply nth_error_Some; congruence).
    rewrite (nth_indep _ [] ((fun j => map (fun rs => Num (nth j rs 0%R)) data) 0)) by now rewrite map_length, seq_length.
    rewrite (map_nth (fun j => map (fun rs => Num (nth j rs 0%R)) data)). rewrite seq_nth by exact JN. cbn [Nat.add].
    apply nth_error_nth. rewrite (map_nth_error (fun rs => Num (nth j rs 0%R)) _ _ I). do 2 f_equal. now apply nth_error_nth. }
  unfold frame. clear L. assert (K : forall k vals, length data = k + length vals -> (forall i v, nth_error vals i = Some v -> exists rs, nth_error data (k + i) = Some rs /\ says names rs v) ->
    map (fun i => let get name := nth i (reindexed names (map (fun j => map (fun rs => Num (nth j rs 0%R)) data) (seq 0 n)) name) Nan in (get "AOI"%string, get "Lambda"%string, get "Delta"%string, get "Psi"%string)) (seq k (length vals)) = map numeric vals).
  { intros k vals0. revert k. induction vals0 as [|v vals0 IH]; intros k LK H; [reflexivity|]. cbn [length seq map]. apply (f_equal2 (@cons values)).
    - destruct (H 0 v eq_refl) as (rs & I & SV). rewrite Nat.add_0_r in I. destruct v as [[[a w] d] p]. destruct SV as (A & W & D & P). cbv zeta. cbn [numeric]. rewrite (G _ _ _ _ I A), (G _ _ _ _ I W), (G _ _ _ _ I D), (G _ _ _ _ I P). reflexivity.
    - apply IH; [cbn in LK; lia|]. intros i u E. destruct (H (S i) u E) as (rs & I & SV). exists rs. split; [|exact SV]. now replace (S k + i) with (k + S i) by lia. }
  assert (LV : length data = length vals) by (clear -SY; induction SY; cbn; congruence). rewrite LV. apply (K 0); [exact LV|].
  clear -SY. intros i v E. cbn [Nat.add]. revert i v E. induction SY as [|rs u data vals H SY IH]; intros [|i] v E; try discriminate; [injection E as ->; now exists rs|]. cbn [nth_error] in *. now apply IH.
Qed.

(** Sums *)
Definition akey : R * R * R * R -> R * R := fun '(a, w, _, _) => (a, w).
Lemma keys_numeric vals : keys (map numeric vals) = map akey vals.
Proof. unfold keys. induction vals as [|[[[a w] d] p] vals IH]; [reflexivity|]. cbn [map flat_map numeric key_of app akey]. now rewrite IH. Qed.

Definition sum (l : list R) : R := fold_right Rplus 0%R l.
Lemma fold_sum {A} (f : A -> R) l : forall s, fold_left (fun s v => (s + f v)%R) l s = (s + sum (map f l))%R.
Proof. induction l as [|a l IH]; intro s; cbn; [ring|]. rewrite IH. unfold sum. ring. Qed.

Definition same_key (k : R * R) (v : R * R * R * R) : bool := if key_dec k (akey v) then true else false.
Lemma filter_numeric k vals : filter (in_group k) (map numeric vals) = map numeric (filter (same_key k) vals).
Proof. induction vals as [|[[[a w] d] p] vals IH]; [reflexivity|]. cbn [map filter]. unfold in_group at 1, same_key at 1. cbn [numeric key_of akey]. destruct (key_dec k (a, w)); cbn [map]; now rewrite IH. Qed.

Lemma total_psi k vals : total psi_of k (map numeric vals) = sum (map (fun '(_, _, _, p) => p) (filter (same_key k) vals)).
Proof. unfold total. rewrite filter_numeric, (fold_sum (fun v => amount (psi_of v))), map_map. replace (map (fun x => amount (psi_of (numeric x))) (filter (same_key k) vals)) with (map (fun v : R * R * R * R => let '(_, _, _, p) := v in p) (filter (same_key k) vals)); [ring|]. apply map_ext. now intros [[[a w] d] p]. Qed.
Lemma total_delta k vals : total delta_of k (map numeric vals) = sum (map (fun '(_, _, d, _) => d) (filter (same_key k) vals)).
Proof. unfold total. rewrite filter_numeric, (fold_sum (fun v => amount (delta_of v))), map_map. replace (map (fun x => amount (delta_of (numeric x))) (filter (same_key k) vals)) with (map (fun v : R * R * R * R => let '(_, _, d, _) := v in d) (filter (same_key k) vals)); [ring|]. apply map_ext. now intros [[[a w] d] p]. Qed.

(** Order of the keys *)
Definition key_before (k l : R * R) : Prop := (fst k < fst l \/ fst k = fst l /\ snd k <= snd l)%R.
Lemma le_key_total k l : if le_key k l then key_before k l else key_before l k.
Proof. unfold le_key, key_before. destruct (Rlt_dec (fst k) (fst l)); [lra|]. destruct (Req_EM_T (fst k) (fst l)); [|lra]. destruct (Rle_dec (snd k) (snd l)); lra. Qed.
Lemma key_before_trans k l m : key_before k l -> key_before l m -> key_before k m.
Proof. unfold key_before. lra. Qed.

Lemma isort_akey vals : isort le_key (map akey vals) = map akey (isort (fun u v => le_key (akey u) (akey v)) vals).
Proof.
  induction vals as [|v l IH]; [reflexivity|]. cbn [map isort fold_right]. fold (isort le_key (map akey l)). fold (isort (fun u v => le_key (akey u) (akey v)) l). rewrite IH. clear IH.
  generalize (isort (fun u v => le_key (akey u) (akey v)) l). intro m. induction m as [|u m IH]; [reflexivity|]. cbn [map insert]. destruct (le_key (akey v) (akey u)); [reflexivity|]. now rewrite IH.
Qed.

Lemma filter_key vals v : NoDup (map akey vals) -> In v vals -> filter (same_key (akey v)) vals = [v].
Proof.
  induction vals as [|u vals IH]; intros N I; [destruct I|]. cbn [map] in N. inversion N as [|? ? NI N']. subst. cbn [filter]. unfold same_key at 1. destruct (key_dec (akey v) (akey u)) as [E|E].
  - destruct I as [->|I]; [|exfalso; apply NI; rewrite <- E; now apply in_map]. f_equal. clear -NI. induction vals as [|w vals IH]; [reflexivity|]. cbn [filter]. unfold same_key at 1.
    destruct (key_dec (akey v) (akey w)) as [E|E]; [exfalso; apply NI; rewrite E; now left|]. apply IH. intro I. apply NI. now right.
  - destruct I as [->|I]; [congruence|]. now apply IH.
Qed.
