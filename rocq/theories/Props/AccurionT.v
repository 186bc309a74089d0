(** C84: psi and delta of Accurion. *)
From Coq Require Import Ascii String List Arith Bool Reals Lia Lra Permutation Sorted.
From Verif.Base Require Import Py.
From Verif.Model Require Import FormulaText Regex TextTable DeltaRange SpectraRayPsi Accurion.
From Verif.Spec Require Import Angle SpectraRayFile WoollamFile AccurionFile.
From Verif.Proof Require Import SpectraRayP WoollamP SpectraRayPsiP AccurionP.
From Verif.Props Require Import DeltaRangeT SpectraRayPsiT.
Import ListNotations.
Open Scope nat_scope.
Open Scope list_scope.

Definition psi_value : R * R * R * R -> R := fun '(_, _, _, p) => p.
Definition delta_value : R * R * R * R -> R := fun '(_, _, d, _) => d.

(** A row of the result for a measurement: delta is the same angle, between -180 and 180 degrees *)
Definition row_for : R * R * R * R -> R * R * R * R -> Prop := fun '(a, w, d, p) '(a', w', d', p') =>
  a' = a /\ w' = w /\ p' = p /\ in_turn (-180) d' /\ same_angle d d'.

Lemma read_frame num file names data vals : accurion_file num file names data -> Forall2 (says names) data vals ->
  read_accurion num file = rmapM (result_row (map numeric vals)) (groups (map numeric vals)).
Proof.
  intros (head & units & lines & us & -> & TH & ND & TU & LU & F) SY.
  assert (X : exists rows, Forall2 tabbed lines rows /\ rows_of num rows data /\ Forall (fun rs => length rs = length names) data).
  { clear -F. induction F as [|l rs lines data (fs & T & N & L) F (rows & A & B & C)]; [exists []; repeat constructor|]. exists (fs :: rows). repeat split; constructor; auto. }
  destruct X as (rows & TR & RW & L). unfold read_accurion.
  rewrite (tabbed_lines (head :: units :: lines) (names :: us :: rows)) by (constructor; [exact TH|constructor; [exact TU|exact TR]]).
  assert (W : Forall (fun fs : list line => length fs = length names) (us :: rows)) by (constructor; [exact LU|exact (rows_wide _ _ _ _ RW L)]).
  match goal with |- context [too_wide ?n ?r] => replace (too_wide n r) with false by (symmetry; exact (not_wide _ _ W)) end.
  assert (FC := float_columns_spec num us rows data _ RW L).
  match type of FC with _ = ?y => match goal with |- context [float_columns ?a ?n ?r] => replace (float_columns a n r) with y by (symmetry; exact FC) end end. cbn [rbind tl].
  assert (LR : length rows = length data) by (clear -RW; induction RW; cbn; congruence).
  match goal with |- context [frame _ _ ?n] => replace n with (length data) by (symmetry; exact LR) end.
  now rewrite (frame_spec names data _ vals ND eq_refl L SY).
Qed.

Lemma place_akey v : place v = akey v. Proof. now destruct v as [[[a w] d] p]. Qed.
Lemma sum_same f k vals : sum (map f (filter (same_key k) vals)) = sum_at f k vals.
Proof.
  induction vals as [|v vals IH]; [reflexivity|]. cbn [filter sum_at]. rewrite <- IH. unfold same_key at 1. change place with akey. destruct k as [a w], (akey v) as [a' w']. cbn [fst snd].
  destruct (key_dec (a, w) (a', w')) as [E|E], (Req_EM_T a a'); try destruct (Req_EM_T w w'); try congruence; cbn [map]; unfold sum; cbn [fold_right]; ring.
Qed.

Lemma result_row_spec vals k : exists r, result_row (map numeric vals) k = Ok r /\ place r = k /\ psi_value r = sum_at psi_value k vals /\ in_turn (-180) (delta_value r) /\ same_angle (sum_at delta_value k vals) (delta_value r).
Proof.
  unfold result_row. rewrite total_delta, total_psi. rewrite (sum_same delta_value), (sum_same psi_value). assert (AR : allowed_range (-180) 180) by (right; lia).
  destruct (C02_total (sum_at delta_value k vals) (-180) 180 AR) as [d' E]. rewrite E. cbn [rbind]. eexists. split; [reflexivity|]. split; [now destruct k|]. split; [reflexivity|].
  split; [exact (C02_result_in_turn _ _ _ _ E)|]. apply (proj2 (C02_angle_preserved_iff (-180) 180 AR)) with (2 := E). auto.
Qed.

Lemma rows_spec vals ks : exists rows, rmapM (result_row (map numeric vals)) ks = Ok rows /\ map place rows = ks /\
  Forall (fun r => psi_value r = sum_at psi_value (place r) vals /\ in_turn (-180) (delta_value r) /\ same_angle (sum_at delta_value (place r) vals) (delta_value r)) rows.
Proof.
  induction ks as [|k ks (rows & E & P & F)]; [exists []; repeat constructor|]. destruct (result_row_spec vals k) as (r & RE & RP & RS & RT). exists (r :: rows). cbn [rmapM map].
  rewrite RE, E. split; [reflexivity|]. split; [now rewrite RP, P|]. constructor; [|exact F]. rewrite RP. auto.
Qed.

Lemma strict_sorted l : NoDup l -> StronglySorted key_before l -> StronglySorted place_before l.
Proof.
  induction l as [|k l IH]; intros N SS; constructor; inversion N as [|? ? NI ND]; inversion SS as [|? ? S1 F1]; subst; [now apply IH|].
  apply Forall_forall. intros m I. rewrite Forall_forall in F1. assert (B := F1 m I). unfold key_before in B. unfold place_before. destruct B as [B|[B C]]; [now left|]. right. split; [exact B|].
  destruct C as [C|C]; [exact C|]. exfalso. apply NI. replace k with m; [exact I|]. destruct k, m. cbn in *. congruence.
Qed.

(** The result has one row for every angle and wavelength, in order, with the sums of the measurements there. *)
Theorem C84_sums : forall num file names data vals,
  accurion_file num file names data -> Forall2 (says names) data vals ->
  exists rows, read_accurion num file = Ok rows /\ StronglySorted place_before (map place rows) /\
    (forall k, In k (map place rows) <-> In k (map place vals)) /\
    Forall (fun r => psi_value r = sum_at psi_value (place r) vals /\ in_turn (-180) (delta_value r) /\ same_angle (sum_at delta_value (place r) vals) (delta_value r)) rows.
Proof.
  intros num file names data vals F SY. rewrite (read_frame _ _ _ _ _ F SY). destruct (rows_spec vals (groups (map numeric vals))) as (rows & E & P & FR). exists rows. split; [exact E|]. rewrite P. unfold groups. rewrite keys_numeric.
  assert (PE := isort_perm le_key (nodup key_dec (map akey vals))). split; [|split; [|exact FR]].
  - apply strict_sorted; [apply (Permutation_NoDup PE), NoDup_nodup|]. apply (isort_sorted le_key (fun _ => True) key_before).
    + intros u v _ _. apply le_key_total.
    + intros u v x _ _ _. apply key_before_trans.
    + apply Forall_forall. auto.
  - intro k. change place with akey. split; intro I.
    + apply (Permutation_in _ (Permutation_sym PE)) in I. now apply nodup_In in I.
    + apply (Permutation_in _ PE). now apply nodup_In.
Qed.
Print Assumptions C84_sums.

Lemma sum_at_none f k vals : ~ In k (map place vals) -> sum_at f k vals = 0%R.
Proof.
  induction vals as [|v vals IH]; intro N; [reflexivity|]. cbn [sum_at]. rewrite IH by (intro I; apply N; now right). destruct (Req_EM_T (fst k) (fst (place v))); [|ring]. destruct (Req_EM_T (snd k) (snd (place v))); [|ring].
  exfalso. apply N. left. destruct k, (place v). cbn in *. congruence.
Qed.
Lemma sum_at_one f v vals : NoDup (map place vals) -> In v vals -> sum_at f (place v) vals = f v.
Proof.
  induction vals as [|u vals IH]; intros N I; [destruct I|]. cbn [map] in N. inversion N as [|? ? NI N']. subst. cbn [sum_at]. destruct I as [->|I].
  - rewrite sum_at_none by exact NI. destruct (Req_EM_T (fst (place v)) (fst (place v))); [|congruence]. destruct (Req_EM_T (snd (place v)) (snd (place v))); [ring|congruence].
  - rewrite IH by assumption. destruct (Req_EM_T (fst (place v)) (fst (place u))); [|ring]. destruct (Req_EM_T (snd (place v)) (snd (place u))); [|ring].
    exfalso. apply NI. replace (place u) with (place v) by (destruct (place u), (place v); cbn in *; congruence). now apply in_map.
Qed.

(** C84, if no angle and wavelength occurs twice: all measurements are read, and sorted. *)
Theorem C84_distinct_partial : forall num file names data vals,
  accurion_file num file names data -> Forall2 (says names) data vals -> NoDup (map place vals) ->
  exists rows sorted, read_accurion num file = Ok rows /\ Permutation vals sorted /\ StronglySorted place_before (map place sorted) /\ Forall2 row_for sorted rows.
Proof.
  intros num file names data vals F SY ND. destruct (C84_sums num file names data vals F SY) as (rows & E & SS & IN & FR).
  assert (X : forall rows, (forall r, In r rows -> In (place r) (map place vals)) -> exists s, map place s = map place rows /\ Forall (fun v => In v vals) s).
  { clear. induction rows as [|r rows IH]; intro H; [exists []; repeat constructor|]. destruct IH as (s & A & B); [intros q I; apply H; now right|]. destruct (proj1 (in_map_iff place vals (place r)) (H r (or_introl eq_refl))) as (v & V & I).
    exists (v :: s). cbn [map]. split; [now rewrite V, A|]. now constructor. }
  destruct (X rows) as (s & PS & FI); [intros r I; apply IN; now apply in_map|]. exists rows, s. split; [exact E|].
  assert (NS : NoDup (map place s)).
  { rewrite PS. clear -SS. induction SS as [|k l S1 IH FA]; constructor; [|exact IH]. intro I. rewrite Forall_forall in FA. specialize (FA k I). unfold place_before in FA. lra. }
  split; [|split; [now rewrite PS|]].
  - apply NoDup_Permutation; [exact (NoDup_map_inv _ _ ND)|exact (NoDup_map_inv _ _ NS)|]. intro v. split; intro I.
    + assert (J : In (place v) (map place s)) by (rewrite PS; apply IN; now apply in_map). apply in_map_iff in J. destruct J as (u & U & J). rewrite Forall_forall in FI. specialize (FI u J).
      replace v with u; [exact J|]. clear -ND U FI I. induction vals as [|x vals IH]; [destruct I|]. cbn [map] in ND. inversion ND as [|? ? NI ND']. subst. destruct I as [->|I], FI as [->|J]; auto; exfalso; apply NI; [rewrite <- U|rewrite U]; now apply in_map.
    + rewrite Forall_forall in FI. now apply FI.
  - clear -PS FI FR ND. revert rows PS FR. induction FI as [|v s I FI IH]; intros [|r rows] PS FR; cbn [map] in PS; try discriminate; constructor.
    + injection PS as PV PS. apply Forall_inv in FR. rewrite <- PV in FR. rewrite !sum_at_one in FR by assumption. destruct v as [[[a w] d] p], r as [[[a' w'] d'] p']. cbn in *. injection PV as -> ->. destruct FR as (A & B & C). auto.
    + injection PS as PV PS. apply IH; [exact PS|now apply Forall_inv_tail in FR].
Qed.
Print Assumptions C84_distinct_partial.

(** Files of numbers with one digit *)
Fixpoint tabs (ws : list string) : text := match ws with [] => [] | [w] => chars w | w :: ws' => chars w ++ "009"%char :: tabs ws' end.
Definition tab_line (ws : list string) : text := tabs ws ++ [newline].
Lemma tabs_join ws : tabs ws = join (map chars ws).
Proof. induction ws as [|w ws IH]; [reflexivity|]. destruct ws as [|v ws]; [reflexivity|]. change (tabs (w :: v :: ws)) with (chars w ++ "009"%char :: tabs (v :: ws)). rewrite IH. reflexivity. Qed.
Lemma tab_tabbed ws : ws <> [] -> forallb (fun w => negb (is_nil w) && forallb (fun c => negb (is_space c)) w) (map chars ws) = true -> tabbed (tab_line ws) (map chars ws).
Proof.
  intros N F. apply words_ok in F. destruct ws as [|w ws]; [congruence|]. exists (chars w), (map chars ws), [newline]. split; [reflexivity|]. cbn [map] in F. split; [destruct (Forall_inv F); now apply word_chars|].
  split; [apply Forall_inv_tail in F; eapply Forall_impl; [|exact F]; cbv beta; intros v [A B]; apply word_solid; now apply word_chars|]. split; [now right|]. unfold tab_line. now rewrite tabs_join.
Qed.

Lemma numbers_all (ws : list text) rs : map digit_of ws = map Some rs -> Forall2 (fun f r => f <> [] /\ digit_of f = Some r) ws rs.
Proof. revert rs. induction ws as [|w ws IH]; intros [|r rs] E; try discriminate; constructor; injection E as E F; [|now apply IH]. split; [|exact E]. now intros ->. Qed.

Definition accurion_names : list string := ["#ROIidx"; "AOI"; "Lambda"; "Delta"; "Psi"]%string.
Definition accurion_units : list string := ["#-"; "deg"; "nm"; "deg"; "deg"]%string.
Lemma small_file names us (rows : list (list string)) (data : list (list R)) : names <> [] -> us <> [] -> length us = length names -> NoDup (map chars names) ->
  forallb (fun ws => negb (length ws =? 0) && forallb (fun w => negb (is_nil w) && forallb (fun c => negb (is_space c)) w) (map chars ws)) (names :: us :: rows) = true ->
  Forall2 (fun ws rs => map digit_of (map chars ws) = map Some rs /\ length rs = length names) rows data ->
  accurion_file digit_of (tab_line names :: tab_line us :: map tab_line rows) (map chars names) data.
Proof.
  intros NN NU LU ND FB F2. rewrite forallb_forall in FB. assert (FT : forall ws, In ws (names :: us :: rows) -> tabbed (tab_line ws) (map chars ws)).
  { intros ws I. specialize (FB ws I). apply andb_true_iff in FB. destruct FB as [A B]. apply tab_tabbed; [|exact B]. now destruct ws. }
  exists (tab_line names), (tab_line us), (map tab_line rows), (map chars us). split; [reflexivity|]. split; [apply FT; now left|]. split; [exact ND|]. split; [apply FT; now right; left|]. rewrite !map_length. split; [exact LU|].
  assert (FR : forall ws, In ws rows -> tabbed (tab_line ws) (map chars ws)) by (intros ws I; apply FT; now right; right). clear -FR F2. induction F2 as [|ws rs rows data [A B] F2 IH]; constructor.
  - exists (map chars ws). split; [apply FR; now left|]. split; [now apply numbers_all|exact B].
  - apply IH. intros v I. apply FR. now right.
Qed.

Lemma names_distinct : NoDup (map chars accurion_names).
Proof. repeat constructor; cbn; intros H; repeat (destruct H as [H|H]; [discriminate|]); destruct H. Qed.

Definition accurion_example : list text := tab_line accurion_names :: tab_line accurion_units :: map tab_line [["0"; "7"; "5"; "1"; "2"]; ["0"; "6"; "5"; "3"; "4"]]%string.
Example C84_example :
  let data := [map INR [0; 7; 5; 1; 2]; map INR [0; 6; 5; 3; 4]] in let vals := [(INR 7, INR 5, INR 1, INR 2); (INR 6, INR 5, INR 3, INR 4)] in
  accurion_file digit_of accurion_example (map chars accurion_names) data /\ Forall2 (says (map chars accurion_names)) data vals /\ NoDup (map place vals).
Proof.
  cbv zeta. split; [|split].
  - apply small_file; [discriminate|discriminate|reflexivity|apply names_distinct|reflexivity|]. constructor; [split; [vm_compute; reflexivity|reflexivity]|]. constructor; [split; [vm_compute; reflexivity|reflexivity]|constructor].
  - repeat constructor; [exists 1|exists 2|exists 3|exists 4|exists 1|exists 2|exists 3|exists 4]; split; reflexivity.
  - constructor; [|repeat constructor; intros []]. intros [H|[]]. cbn [place] in H. injection H as H. apply (INR_eq 6 7) in H. discriminate.
Qed.

(** C84 is false for the same angle and wavelength in two regions: the values are added. *)
Theorem C84_regions_refuted : exists file names data vals rows,
  accurion_file digit_of file names data /\ Forall2 (says names) data vals /\ read_accurion digit_of file = Ok rows /\
  exists r, In r rows /\ ~ exists v, In v vals /\ psi_value r = psi_value v.
Proof.
  set (file := tab_line accurion_names :: tab_line accurion_units :: map tab_line [["0"; "7"; "5"; "1"; "2"]; ["1"; "7"; "5"; "1"; "3"]]%string).
  assert (F : accurion_file digit_of file (map chars accurion_names) [map INR [0; 7; 5; 1; 2]; map INR [1; 7; 5; 1; 3]]).
  { apply small_file; [discriminate|discriminate|reflexivity|apply names_distinct|reflexivity|]. constructor; [split; [vm_compute; reflexivity|reflexivity]|]. constructor; [split; [vm_compute; reflexivity|reflexivity]|constructor]. }
  assert (SY : Forall2 (says (map chars accurion_names)) [map INR [0; 7; 5; 1; 2]; map INR [1; 7; 5; 1; 3]] [(INR 7, INR 5, INR 1, INR 2); (INR 7, INR 5, INR 1, INR 3)]).
  { repeat constructor; [exists 1|exists 2|exists 3|exists 4|exists 1|exists 2|exists 3|exists 4]; split; reflexivity. }
  destruct (C84_sums _ _ _ _ _ F SY) as (rows & E & _ & IN & FR). exists file, (map chars accurion_names), [map INR [0; 7; 5; 1; 2]; map INR [1; 7; 5; 1; 3]], [(INR 7, INR 5, INR 1, INR 2); (INR 7, INR 5, INR 1, INR 3)], rows.
  split; [exact F|]. split; [exact SY|]. split; [exact E|].
  assert (I : In (INR 7, INR 5) (map place rows)) by (apply IN; now left). apply in_map_iff in I. destruct I as (r & P & I). exists r. split; [exact I|]. rewrite Forall_forall in FR. destruct (FR r I) as [S1 _]. rewrite P in S1. cbn [sum_at place fst snd psi_value] in S1.
  destruct (Req_EM_T (INR 7) (INR 7)) as [_|]; [|congruence]. destruct (Req_EM_T (INR 5) (INR 5)) as [_|]; [|congruence]. rewrite S1. intros (v & [<-|[<-|[]]] & Q); cbn [psi_value] in Q; apply (f_equal (fun x => x - INR 2)%R) in Q.
  - assert (Z := lt_0_INR 3 ltac:(lia)). lra.
  - assert (Z := lt_INR 2 3 ltac:(lia)). assert (Z2 := lt_0_INR 2 ltac:(lia)). lra.
Qed.
Print Assumptions C84_regions_refuted.

(** A file without one of the columns is not refused: psi is 0 everywhere. *)
Theorem C84_missing_refuted : exists file names data rows, accurion_file digit_of file names data /\ ~ In (letters "Psi") names /\
  read_accurion digit_of file = Ok rows /\ rows <> [] /\ Forall (fun r => psi_value r = 0%R) rows.
Proof.
  set (names := ["#ROIidx"; "AOI"; "Lambda"; "Delta"]%string).
  set (file := tab_line names :: tab_line ["#-"; "deg"; "nm"; "deg"]%string :: map tab_line [["0"; "7"; "5"; "1"]]%string).
  exists file, (map chars names), [map INR [0; 7; 5; 1]].
  destruct (C02_total (0 + INR 1) (-180) 180 ltac:(right; lia)) as [d D]. exists [(INR 7, INR 5, d, 0%R)]. split; [|split; [|split; [|split; [discriminate|repeat constructor]]]].
  - apply small_file; [discriminate|discriminate|reflexivity| |reflexivity|constructor; [split; [vm_compute; reflexivity|reflexivity]|constructor]].
    repeat constructor; cbn; intros H; repeat (destruct H as [H|H]; [discriminate|]); destruct H.
  - cbn. intros H; repeat (destruct H as [H|H]; [discriminate|]); destruct H.
  - unfold read_accurion. change (map tab_fields (filter (fun l => negb (tab_blank l)) file)) with (map chars names :: map chars ["#-"; "deg"; "nm"; "deg"]%string :: [map chars ["0"; "7"; "5"; "1"]%string]). cbv iota.
    assert (RW : rows_of digit_of [map chars ["0"; "7"; "5"; "1"]%string] [map INR [0; 7; 5; 1]]) by (constructor; [apply numbers_all; vm_compute; reflexivity|constructor]).
    match goal with |- context [too_wide ?n ?r] => change (too_wide n r) with false end. cbv iota. rewrite (float_columns_spec digit_of _ _ _ _ RW) by (repeat constructor). cbn [rbind tl].
    set (f := frame _ _ _). assert (FE : f = [(Num (INR 7), Num (INR 5), Num (INR 1), Nan)]) by reflexivity. rewrite FE. clear f FE.
    unfold groups. cbn [keys flat_map key_of app nodup]. destruct (in_dec key_dec (INR 7, INR 5) []) as [[]|_]. cbn [isort fold_right insert].
    cbn [rmapM]. unfold result_row, total. cbn [filter in_group key_of]. destruct (key_dec (INR 7, INR 5) (INR 7, INR 5)) as [_|N]; [|congruence]. cbn [fold_left delta_of psi_of amount fst snd].
    match goal with |- context [convert_delta_range ?x ?l ?h] => change (convert_delta_range x l h) with (convert_delta_range (0 + INR 1) (PyInt (-180)) (PyInt 180)) end. rewrite D. cbn [rbind]. now rewrite Rplus_0_r.
Qed.
Print Assumptions C84_missing_refuted.

(** A value that is no number raises ValueError. *)
Lemma rmapM_err {A B} (f : A -> res B) e l a : (forall b, In b l -> f b = Err e \/ exists c, f b = Ok c) -> In a l -> f a = Err e -> rmapM f l = Err e.
Proof.
  induction l as [|b l IH]; intros H I E; [destruct I|]. cbn [rmapM]. destruct (H b (or_introl eq_refl)) as [X|[c X]]; rewrite X; [reflexivity|]. cbn [rbind]. destruct I as [->|I]; [congruence|]. rewrite IH; auto. intros d J. apply H. now right.
Qed.

Theorem C84_errors : forall num head units lines names us rows j fs f,
  tabbed head names -> tabbed units us -> Forall2 tabbed lines rows -> length us <= length names -> Forall (fun fs => length fs <= length names) rows ->
  In fs rows -> nth_error fs j = Some f -> f <> [] -> num f = None ->
  read_accurion num (head :: units :: lines) = Err ValueError.
Proof.
  intros num head units lines names us rows j fs f TH TU TR LU LR I J NE NN. unfold read_accurion. rewrite (tabbed_lines (head :: units :: lines) (names :: us :: rows)) by (constructor; [exact TH|constructor; [exact TU|exact TR]]).
  assert (W : too_wide (length names) (us :: rows) = false).
  { unfold too_wide. apply not_true_iff_false. intro E. apply existsb_exists in E. destruct E as (r & K & E). apply Nat.ltb_lt in E. rewrite Forall_forall in LR. destruct K as [<-|K]; [exact (Nat.lt_irrefl _ (Nat.lt_le_trans _ _ _ E LU))|]. exact (Nat.lt_irrefl _ (Nat.lt_le_trans _ _ _ E (LR r K))). }
  match goal with |- context [too_wide ?n ?r] => replace (too_wide n r) with false by (symmetry; exact W) end. assert (JN : j < length names).
  { rewrite Forall_forall in LR. specialize (LR fs I). cbv beta in LR. eapply Nat.lt_le_trans; [|exact LR]. apply nth_error_Some. congruence. }
  unfold float_columns. assert (TF : forall c, to_float num c = Err ValueError \/ exists c', to_float num c = Ok c') by (intros [r|t|]; cbn [to_float]; eauto; destruct (num t); eauto).
  assert (TFS : forall l, rmapM (to_float num) l = Err ValueError \/ exists l', rmapM (to_float num) l = Ok l').
  { induction l as [|c l [IH|[l' IH]]]; [right; now exists []| |]; cbn [rmapM]; destruct (TF c) as [X|[c' X]]; rewrite X; cbn [rbind]; auto; rewrite IH; cbn; eauto. }
  rewrite (rmapM_err _ ValueError _ j); [reflexivity|intros k _; apply TFS|apply in_seq; split; [lia|exact JN]|].
  unfold nth_column, column. assert (NB : forallb (fun t => is_nil t || is_number num t) (map (fun r => nth j r []) (us :: rows)) = false).
  { apply not_true_iff_false. intro E. rewrite forallb_forall in E. specialize (E f). rewrite orb_true_iff in E. destruct E as [E|E]; [|destruct f; [congruence|discriminate]|unfold is_number in E; now rewrite NN in E].
    apply in_map_iff. exists fs. split; [now apply nth_error_nth|now right]. }
  rewrite NB. cbn [map tl]. apply (rmapM_err _ ValueError _ (Txt f)); [intros c _; apply TF| |cbn; now rewrite NN].
  apply in_map_iff. exists f. split; [destruct f; [congruence|reflexivity]|]. apply in_map_iff. exists fs. split; [now apply nth_error_nth|exact I].
Qed.
Print Assumptions C84_errors.
