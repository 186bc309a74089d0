(** C58: the kinds of interpolation, tables of one row and repeated wavelengths. *)
From Coq Require Import Reals String List Lra Lia Sorted Permutation Bool.
From Coquelicot Require Import Complex.
From Verif.Base Require Import Py Cx.
From Verif.Model Require Import Units Tables Spline TableKinds.
From Verif.Spec Require Import Table SplineDoc TableKind.
From Verif.Proof Require Import TablesP TableKindsP SplineP.
Import ListNotations.
Open Scope R_scope.
Open Scope py_scope.

Definition known_kinds : list string :=
  ["linear"; "nearest"; "nearest-up"; "previous"; "next"; "zero"; "slinear"; "quadratic"; "cubic"]%string.

Lemma table_shape lbda n rows : table lbda n = Ok rows -> rows = combine lbda n /\ map fst rows = lbda /\ lbda <> [] /\ length n = length lbda.
Proof.
  unfold table. destruct lbda as [|x l] eqn:EL; [discriminate|]. rewrite <- EL. destruct (Nat.eqb_spec (length n) (length lbda)) as [L|]; [|discriminate].
  intros H. injection H as <-. split; [reflexivity|]. split; [|split; [congruence|exact L]].
  clear - L. revert n L. induction lbda as [|x l IH]; intros [|c n] L; try discriminate; [reflexivity|]. cbn. now rewrite IH by (now injection L).
Qed.
Lemma kind_shape s lbda n k rows : table_kind s lbda n = Ok (k, rows) ->
  kind_of s = Ok k /\ rows = sorted (combine lbda n) /\ map fst (combine lbda n) = lbda /\ lbda <> [] /\ length n = length lbda /\
  (forall o, spline_order k = Some o -> (o + 1 <= length rows)%nat /\ increasing rows = true).
Proof.
  unfold table_kind. destruct (table lbda n) as [r|] eqn:T; [|discriminate]. cbn [rbind]. destruct (table_shape _ _ _ T) as (-> & M & NE & L).
  destruct (kind_of s) as [k'|]; [|discriminate]. cbn [rbind]. destruct (spline_order k') as [o|] eqn:SO.
  - destruct (Nat.ltb_spec (length (sorted (combine lbda n))) (o + 1)); [discriminate|]. destruct (increasing (sorted (combine lbda n))) eqn:I; [|discriminate].
    intros H0. injection H0 as <- <-. repeat (split; [first [reflexivity|assumption]|]). intros o' E. rewrite SO in E. injection E as <-. split; [lia|exact I].
  - intros H. injection H as <- <-. repeat (split; [first [reflexivity|assumption]|]). intros o' E. congruence.
Qed.
Lemma kind_strict s lbda n k rows : table_kind s lbda n = Ok (k, rows) -> NoDup lbda -> StronglySorted strictly rows.
Proof.
  intros H N. destruct (kind_shape _ _ _ _ _ H) as (_ & -> & M & _). apply strict; [apply sorted_sorted|].
  eapply Permutation_NoDup; [apply Permutation_map, sorted_perm|]. now rewrite M.
Qed.

(** The bounds are those of the table *)
Lemma kind_inside s lbda n k rows x : table_kind s lbda n = Ok (k, rows) -> inside (combine lbda n) x ->
  exists p r, rows = p :: r /\ fst p <= x /\ (exists q, In q (p :: r) /\ x <= fst q) /\ ~ x < fst p /\ ~ fst (last (p :: r) p) < x.
Proof.
  intros H ((a & Ha & La) & (b & Hb & Lb)). destruct (kind_shape _ _ _ _ _ H) as (_ & E & _).
  assert (P := sorted_perm (combine lbda n)). assert (S := sorted_sorted (combine lbda n)). rewrite <- E in P, S.
  apply (Permutation_in _ P) in Ha. apply (Permutation_in _ P) in Hb. destruct rows as [|p r]; [destruct Ha|]. exists p, r. split; [reflexivity|].
  assert (LO : fst p <= x).
  { destruct Ha as [<-|Ha]; [exact La|]. inversion S as [|? ? _ F]; subst. rewrite Forall_forall in F. specialize (F a Ha). unfold below in F. lra. }
  split; [exact LO|]. split; [exists b; split; assumption|]. split; [lra|]. assert (T := last_top _ _ _ S Hb). lra.
Qed.

(** All kinds raise outside of the wavelengths of the table. *)
Theorem C58_kind_outside : forall s lbda n t complex x,
  table_kind s lbda n = Ok t -> ~ inside (combine lbda n) x -> kind_value complex t x = Err ValueError.
Proof.
  intros s lbda n [k rows] c x H NI. destruct (kind_shape _ _ _ _ _ H) as (_ & E & _).
  assert (P := sorted_perm (combine lbda n)). assert (S := sorted_sorted (combine lbda n)). rewrite <- E in P, S.
  unfold kind_value. destruct rows as [|p r]; [reflexivity|]. destruct (Rlt_dec x (fst p)) as [|LO]; [reflexivity|].
  destruct (Rlt_dec (fst (last (p :: r) p)) x) as [|HI]; [reflexivity|]. exfalso. apply NI. split.
  - exists p. split; [apply (Permutation_in _ (Permutation_sym P)); now left|lra].
  - exists (last (p :: r) p). split; [apply (Permutation_in _ (Permutation_sym P)); apply last_in|lra].
Qed.
Print Assumptions C58_kind_outside.

(** Other kinds are rejected; the splines need different wavelengths and one row more than their order. *)
Theorem C58_kind_rejected : forall s lbda n, lbda <> [] -> length n = length lbda -> ~ In s known_kinds ->
  table_kind s lbda n = Err NotImplementedError.
Proof.
  intros s lbda n NE L H. unfold table_kind, table. destruct lbda as [|x l] eqn:EL; [contradiction|]. rewrite <- EL in *.
  rewrite L, Nat.eqb_refl. cbn [rbind]. unfold kind_of.
  repeat match goal with |- context [String.eqb s ?t] => destruct (String.eqb_spec s t) as [->|_]; [exfalso; apply H; cbn; tauto|] end. reflexivity.
Qed.
Print Assumptions C58_kind_rejected.
Theorem C58_kind_accepted : forall s lbda n, lbda <> [] -> length n = length lbda -> NoDup lbda -> In s known_kinds ->
  (s = "slinear"%string -> (2 <= length lbda)%nat) -> (s = "quadratic"%string -> (3 <= length lbda)%nat) -> (s = "cubic"%string -> (4 <= length lbda)%nat) ->
  is_ok (table_kind s lbda n).
Proof.
  intros s lbda n NE L N H H1 H2 H3. unfold table_kind.
  assert (T : table lbda n = Ok (combine lbda n)) by (unfold table; destruct lbda; [contradiction|]; now rewrite L, Nat.eqb_refl).
  rewrite T. cbn [rbind]. destruct (table_shape _ _ _ T) as (_ & M & _).
  assert (I : increasing (sorted (combine lbda n)) = true).
  { apply strict_increasing, strict; [apply sorted_sorted|]. eapply Permutation_NoDup; [apply Permutation_map, sorted_perm|]. now rewrite M. }
  assert (LE : length (sorted (combine lbda n)) = length lbda) by (transitivity (length (combine lbda n)); [symmetry; apply Permutation_length, sorted_perm|rewrite <- (map_length fst), M; reflexivity]).
  assert (L0 : (1 <= length lbda)%nat) by (destruct lbda; [contradiction|cbn; lia]).
  repeat (destruct H as [<-|H]; [cbn [kind_of String.eqb Ascii.eqb Bool.eqb rbind spline_order]; rewrite ?LE, ?I;
    try (match goal with |- context [Nat.ltb ?a ?b] => destruct (Nat.ltb_spec a b) as [LT|_]; [exfalso; first [specialize (H1 eq_refl)|specialize (H2 eq_refl)|specialize (H3 eq_refl)|idtac]; lia|] end);
    eexists; reflexivity|]). destruct H.
Qed.
Print Assumptions C58_kind_accepted.

Lemma unique_row (rows : list point) p q : NoDup (map fst rows) -> In p rows -> In q rows -> fst p = fst q -> p = q.
Proof.
  intros N HP HQ EF. induction rows as [|r rows IH]; [destruct HP|]. cbn in N. inversion N as [|? ? NI N']; subst.
  destruct HP as [->|HP], HQ as [HQ|HQ]; auto.
  - exfalso. apply NI. rewrite EF. now apply in_map.
  - exfalso. subst r. apply NI. rewrite <- EF. now apply in_map.
Qed.
Lemma in_neighbours (rows : list point) x a b r : NoDup (map fst rows) -> neighbours rows a b -> fst a <= x <= fst b -> In r rows -> fst r = x -> r = a \/ r = b.
Proof.
  intros N (A & B & LT & NB) I Hr E. destruct (NB r Hr) as [Q|Q]; [left|right]; apply (unique_row rows); auto; lra.
Qed.

(** The splines take the only values that a spline through the rows can have. *)
Lemma splined_cubic (rows l : list point) x : Permutation rows l -> StronglySorted strictly l -> (4 <= length l)%nat ->
  exists v, cubic_spline l x = Some v /\ splined 3 cubic_knots rows x v.
Proof.
  intros P S L. destruct (cubic_exists l S L) as (f & A & B & V). exists (f x). split; [apply V|]. exists (map fst l), f. split; [|split; [now apply Permutation_map|]].
  - clear - S. induction S as [|p l S IH F]; cbn; constructor; [exact IH|]. rewrite Forall_forall in *. intros y Y. apply in_map_iff in Y. destruct Y as (q & <- & Q). exact (F q Q).
  - split; [exact A|]. split; [intros p Hp; apply B, (Permutation_in _ P), Hp|]. split; [reflexivity|]. intros g G T y.
    assert (K := cubic_unique l g S L G ltac:(intros p Hp; apply T, (Permutation_in _ (Permutation_sym P)), Hp) y). rewrite V in K. now injection K.
Qed.
Lemma splined_quad (rows l : list point) x : Permutation rows l -> StronglySorted strictly l -> (3 <= length l)%nat ->
  exists v, quad_spline l x = Some v /\ splined 2 quadratic_knots rows x v.
Proof.
  intros P S L. destruct (quad_exists l S L) as (f & A & B & V). exists (f x). split; [apply V|]. exists (map fst l), f. split; [|split; [now apply Permutation_map|]].
  - clear - S. induction S as [|p l S IH F]; cbn; constructor; [exact IH|]. rewrite Forall_forall in *. intros y Y. apply in_map_iff in Y. destruct Y as (q & <- & Q). exact (F q Q).
  - split; [exact A|]. split; [intros p Hp; apply B, (Permutation_in _ P), Hp|]. split; [reflexivity|]. intros g G T y.
    assert (K := quad_unique l g S L G ltac:(intros p Hp; apply T, (Permutation_in _ (Permutation_sym P)), Hp) y). rewrite V in K. now injection K.
Qed.
Lemma splined_row k knots (rows : list point) x y v : splined k knots rows x v -> In (x, y) rows -> v = y.
Proof. intros (xs & f & _ & _ & _ & T & -> & _) H. exact (T _ H). Qed.

(** Every kind has the tabulated value at every tabulated wavelength. *)
Theorem C58_kind_tabulated : forall s lbda n t complex x y,
  table_kind s lbda n = Ok t -> NoDup lbda -> (complex = true -> s = "linear"%string -> (2 <= length lbda)%nat) ->
  In (x, y) (combine lbda n) -> kind_value complex t x = Ok (Some y).
Proof.
  intros s lbda n [k rows] c x y H N L2 Hin. destruct (kind_shape _ _ _ _ _ H) as (K & ER & M & NE & LN & SP).
  assert (S := kind_strict _ _ _ _ _ H N).
  assert (I : inside (combine lbda n) x) by (split; exists (x, y); (split; [exact Hin|cbn; lra])).
  destruct (kind_inside _ _ _ _ _ _ H I) as (p & r & EP & LO & HI & B1 & B2).
  assert (P := sorted_perm (combine lbda n)). rewrite <- ER, EP in P. assert (Hin' := Permutation_in _ P Hin).
  assert (ND : NoDup (map fst (p :: r))) by (eapply Permutation_NoDup; [apply Permutation_map; exact P|]; now rewrite M).
  rewrite EP in S, SP. unfold kind_value. rewrite EP.
  destruct (Rlt_dec x (fst p)); [contradiction|]. destruct (Rlt_dec (fst (last (p :: r) p)) x); [contradiction|].
  assert (NP : np_interp p r x = y).
  { destruct (np_spec r p x S LO HI) as [(q & A & B & E)|(a & b & NB & R & E)].
    - rewrite E. now rewrite (unique_row _ _ _ ND A Hin' B).
    - rewrite E. destruct (in_neighbours _ x a b (x, y) ND NB ltac:(lra) Hin' eq_refl) as [<-|<-]; cbn [fst snd] in *; [|lra].
      unfold Rdiv. rewrite Rminus_eq_0, Rmult_0_l. ring. }
  assert (NR : forall up, snd (nearest_row up p r x) = y).
  { intros up. destruct (nearest_spec up r p x S) as [A B]. destruct (B _ Hin') as [B' _]. clear B. rename B' into B. cbn [fst] in B. rewrite (Rminus_eq_0 x), Rabs_R0 in B.
    assert (E : fst (nearest_row up p r x) = x).
    { destruct (Req_dec (fst (nearest_row up p r x)) x) as [E|E]; [exact E|]. assert (0 < Rabs (x - fst (nearest_row up p r x))) by (apply Rabs_pos_lt; lra). lra. }
    now rewrite (unique_row _ _ _ ND A Hin' E). }
  assert (PR : snd (previous_row p r x) = y).
  { destruct (previous_spec r p x S LO) as (A & B & D). assert (E : fst (previous_row p r x) = x) by (destruct (D _ Hin'); cbn [fst] in *; lra).
    now rewrite (unique_row _ _ _ ND A Hin' E). }
  assert (NX : snd (next_row p r x) = y).
  { destruct (next_spec r p x S HI) as (A & B & D). assert (E : fst (next_row p r x) = x) by (destruct (D _ Hin'); cbn [fst] in *; lra).
    now rewrite (unique_row _ _ _ ND A Hin' E). }
  destruct k; try now rewrite ?NR, ?PR, ?NX, ?NP.
  - destruct c; [|now rewrite NP]. f_equal.
    assert (E : s = "linear"%string).
    { unfold kind_of in K. destruct (String.eqb_spec s "linear") as [E|]; [exact E|].
      repeat match type of K with context [String.eqb s ?t] => destruct (String.eqb s t); [discriminate|] end. discriminate. }
    assert (LP : length (combine lbda n) = length (p :: r)) by exact (Permutation_length P). rewrite combine_length, LN, Nat.min_id in LP. assert (L : (2 <= length (p :: r))%nat) by (assert (Q := L2 eq_refl E); lia).
    destruct (segment_spec (p :: r) x S L) as (a & b & E1 & NB & R); [intros q Q; injection Q as <-; exact LO|exact HI|].
    change ((let? s0 := segment (p :: r) x in on_segment s0 x) = Some y). rewrite E1. cbn [obind]. destruct a as [xa ya], b as [xb yb]. unfold on_segment, rdiv. cbn [fst snd] in R. pose proof NB as (_ & _ & LT & _). cbn [fst] in LT.
    destruct (Req_EM_T (xb - xa) 0); [lra|]. cbn [obind]. f_equal.
    destruct (in_neighbours _ x _ _ (x, y) ND NB ltac:(cbn; lra) Hin' eq_refl) as [E2|E2]; injection E2 as -> ->.
    + rewrite Rminus_eq_0. ring.
    + unfold Rdiv. rewrite Rmult_1_l, RtoC_inv by lra. field. intros Q. apply RtoC_inj in Q. lra.
  - destruct (SP _ eq_refl) as [LS _]. destruct (splined_quad _ _ x P S ltac:(lia)) as (v & -> & V). now rewrite (splined_row _ _ _ _ _ _ V Hin).
  - destruct (SP _ eq_refl) as [LS _]. destruct (splined_cubic _ _ x P S ltac:(lia)) as (v & -> & V). now rewrite (splined_row _ _ _ _ _ _ V Hin).
Qed.
Print Assumptions C58_kind_tabulated.

Lemma end_point (rows : list point) x a b r : NoDup (map fst rows) -> neighbours rows a b -> fst a <= x <= fst b -> r = a \/ r = b ->
  between_neighbours rows x (snd r).
Proof.
  intros N NB I [->| ->]; exists a, b; [exists 0|exists 1]; (split; [exact NB|]; split; [exact I|]; split; [lra|]); unfold at_fraction; ring.
Qed.
Lemma line_value (rows : list point) x a b : neighbours rows a b -> fst a <= x <= fst b ->
  let v := (snd a + RtoC ((x - fst a) / (fst b - fst a)) * (snd b - snd a))%C in on_table rows x v /\ between_neighbours rows x v.
Proof.
  intros NB I v. pose proof NB as (_ & _ & LT & _).
  assert (T : 0 <= (x - fst a) / (fst b - fst a) <= 1).
  { split; [apply Rmult_le_pos; [lra|]; apply Rlt_le, Rinv_0_lt_compat; lra|].
    apply Rmult_le_reg_r with (fst b - fst a); [lra|]. unfold Rdiv. rewrite Rmult_assoc, Rinv_l by lra. lra. }
  split; exists a, b, ((x - fst a) / (fst b - fst a)); (split; [exact NB|]).
  - split; [exact T|]. split; [field; lra|reflexivity].
  - split; [exact I|]. split; [exact T|reflexivity].
Qed.

(** What the kinds mean; only the splines leave the values between those of the neighbours. *)
Theorem C58_kind_meaning : forall s lbda n t complex x,
  table_kind s lbda n = Ok t -> NoDup lbda -> (2 <= length lbda)%nat -> inside (combine lbda n) x ->
  exists v, kind_value complex t x = Ok (Some v) /\ kind_meaning s (combine lbda n) x v /\
    (s <> "quadratic"%string -> s <> "cubic"%string -> between_neighbours (combine lbda n) x v).
Proof.
  intros s lbda n [k rows] c x H N L2 I. destruct (kind_shape _ _ _ _ _ H) as (K & ER & M & NE & LN & SP).
  assert (S := kind_strict _ _ _ _ _ H N).
  destruct (kind_inside _ _ _ _ _ _ H I) as (p & r & EP & LO & HI & B1 & B2).
  assert (P := sorted_perm (combine lbda n)). rewrite <- ER, EP in P. assert (P' := Permutation_sym P).
  assert (LP : length (combine lbda n) = length (p :: r)) by exact (Permutation_length P). rewrite combine_length, LN, Nat.min_id in LP.
  assert (ND : NoDup (map fst (combine lbda n))) by now rewrite M.
  rewrite EP in S, SP. unfold kind_value. rewrite EP.
  destruct (Rlt_dec x (fst p)); [contradiction|]. destruct (Rlt_dec (fst (last (p :: r) p)) x); [contradiction|].
  destruct (segment_spec (p :: r) x S ltac:(lia)) as (a & b & E1 & NB0 & R); [intros q Q; injection Q as <-; exact LO|exact HI|].
  assert (NB := neighbours_perm _ _ _ _ P' NB0). pose proof NB as (A & B & LT & NO).
  assert (LV := line_value _ x a b NB R). cbv zeta in LV.
  assert (NP : on_table (combine lbda n) x (np_interp p r x) /\ between_neighbours (combine lbda n) x (np_interp p r x)).
  { destruct (np_spec r p x S LO HI) as [(q & Q1 & Q2 & Q3)|(a' & b' & Q1 & Q2 & Q3)].
    - rewrite Q3. apply (Permutation_in _ P') in Q1.
      replace (snd q) with (snd a + RtoC ((x - fst a) / (fst b - fst a)) * (snd b - snd a))%C; [exact LV|].
      destruct (in_neighbours _ x a b q ND NB R Q1 Q2) as [->| ->]; rewrite <- Q2.
      + unfold Rdiv. rewrite Rminus_eq_0, Rmult_0_l. ring.
      + unfold Rdiv. rewrite Rinv_r by lra. ring.
    - rewrite Q3. apply line_value; [exact (neighbours_perm _ _ _ _ P' Q1)|lra]. }
  assert (LC : exists v, (let? s := segment (p :: r) x in on_segment s x) = Some v /\ on_table (combine lbda n) x v /\ between_neighbours (combine lbda n) x v).
  { rewrite E1. cbn [obind]. destruct a as [xa ya], b as [xb yb]. cbn [fst snd] in *. unfold on_segment, rdiv. destruct (Req_EM_T (xb - xa) 0); [lra|]. cbn [obind].
    eexists. split; [reflexivity|]. match goal with |- on_table _ _ ?w /\ _ => replace w with (ya + RtoC ((x - xa) / (xb - xa)) * (yb - ya))%C; [exact LV|] end.
    unfold Rdiv. rewrite !RtoC_mult. rewrite RtoC_inv by lra. ring. }
  assert (NR : forall up, closest up (combine lbda n) x (snd (nearest_row up p r x)) /\ between_neighbours (combine lbda n) x (snd (nearest_row up p r x))).
  { intros up. destruct (nearest_spec up r p x S) as [Q1 Q2]. apply (Permutation_in _ P') in Q1.
    assert (Q3 : forall q, In q (combine lbda n) -> Rabs (x - fst (nearest_row up p r x)) <= Rabs (x - fst q)) by (intros q Hq; apply Q2, (Permutation_in _ P), Hq).
    split; [eexists; split; [exact Q1|]; split; [reflexivity|intros q Hq; apply Q2, (Permutation_in _ P), Hq]|]. apply (end_point _ x a b); auto.
    assert (QA := Q3 a A). assert (QB := Q3 b B). destruct (NO _ Q1) as [G|G].
    - left. apply (unique_row _ _ _ ND Q1 A). unfold Rabs in QA. destruct (Rcase_abs (x - fst (nearest_row up p r x))), (Rcase_abs (x - fst a)); lra.
    - right. apply (unique_row _ _ _ ND Q1 B). unfold Rabs in QB. destruct (Rcase_abs (x - fst (nearest_row up p r x))), (Rcase_abs (x - fst b)); lra. }
  assert (PR : before (combine lbda n) x (snd (previous_row p r x)) /\ between_neighbours (combine lbda n) x (snd (previous_row p r x))).
  { destruct (previous_spec r p x S LO) as (Q1 & Q2 & Q3). apply (Permutation_in _ P') in Q1. split.
    - eexists. split; [exact Q1|]. split; [reflexivity|]. split; [exact Q2|]. intros q Hq L. destruct (Q3 q (Permutation_in _ P Hq)); lra.
    - apply (end_point _ x a b); auto. destruct (Q3 a (Permutation_in _ P A)) as [G|G]; [|lra]. destruct (NO _ Q1) as [G'|G'].
      + left. apply (unique_row _ _ _ ND Q1 A). lra.
      + right. apply (unique_row _ _ _ ND Q1 B). lra. }
  assert (NX : behind (combine lbda n) x (snd (next_row p r x)) /\ between_neighbours (combine lbda n) x (snd (next_row p r x))).
  { destruct (next_spec r p x S HI) as (Q1 & Q2 & Q3). apply (Permutation_in _ P') in Q1. split.
    - eexists. split; [exact Q1|]. split; [reflexivity|]. split; [exact Q2|]. intros q Hq L. destruct (Q3 q (Permutation_in _ P Hq)); lra.
    - apply (end_point _ x a b); auto. destruct (Q3 b (Permutation_in _ P B)) as [G|G]; [|lra]. destruct (NO _ Q1) as [G'|G'].
      + left. apply (unique_row _ _ _ ND Q1 A). lra.
      + right. apply (unique_row _ _ _ ND Q1 B). lra. }
  unfold kind_of in K. unfold kind_meaning.
  destruct (String.eqb_spec s "linear") as [->|_].
  { injection K as <-. destruct c; [destruct LC as (v & E & G)|]; eexists; (split; [first [rewrite E; reflexivity|reflexivity]|]); (split; [apply G || apply NP|intros _ _; apply G || apply NP]). }
  destruct (String.eqb_spec s "nearest") as [->|_]; [injection K as <-; eexists; split; [reflexivity|]; split; [apply NR|intros _ _; apply NR]|].
  destruct (String.eqb_spec s "nearest-up") as [->|_]; [injection K as <-; eexists; split; [reflexivity|]; split; [apply NR|intros _ _; apply NR]|].
  destruct (String.eqb_spec s "previous") as [->|_]; [injection K as <-; eexists; split; [reflexivity|]; split; [apply PR|intros _ _; apply PR]|].
  destruct (String.eqb_spec s "next") as [->|_]; [injection K as <-; eexists; split; [reflexivity|]; split; [apply NX|intros _ _; apply NX]|].
  destruct (String.eqb_spec s "zero") as [->|_]; [injection K as <-; eexists; split; [reflexivity|]; split; [apply PR|intros _ _; apply PR]|].
  destruct (String.eqb_spec s "slinear") as [->|_]; [injection K as <-; eexists; split; [reflexivity|]; split; [apply NP|intros _ _; apply NP]|].
  destruct (String.eqb_spec s "quadratic") as [->|_].
  { injection K as <-. destruct (SP _ eq_refl) as [LS _]. destruct (splined_quad _ _ x P S ltac:(lia)) as (v & E & V). exists v. rewrite E. split; [reflexivity|]. split; [exact V|]. intros Q. now contradiction Q. }
  destruct (String.eqb_spec s "cubic") as [->|_]; [|discriminate].
  injection K as <-. destruct (SP _ eq_refl) as [LS _]. destruct (splined_cubic _ _ x P S ltac:(lia)) as (v & E & V). exists v. rewrite E. split; [reflexivity|]. split; [exact V|]. intros _ Q. now contradiction Q.
Qed.
Print Assumptions C58_kind_meaning.

(** Polynomials of the degree of the spline come back. *)
Lemma no_jumps k bs x : jumps k bs (repeat (RtoC 0) (length bs)) x = RtoC 0.
Proof. induction bs as [|b bs IH]; [reflexivity|]. cbn [length repeat jumps]. rewrite IH. ring. Qed.
Lemma poly_spline P k bs : length P = S k -> spline k bs (polynomial P).
Proof. intros L. exists P, (repeat (RtoC 0) (length bs)). split; [exact L|]. split; [apply repeat_length|]. intros x. rewrite no_jumps. ring. Qed.
Theorem C58_polynomial : forall s d P lbda t complex x,
  In (s, d) [("quadratic"%string, 2%nat); ("cubic"%string, 3%nat)] -> length P = S d ->
  table_kind s lbda (map (polynomial P) lbda) = Ok t -> NoDup lbda -> inside (combine lbda (map (polynomial P) lbda)) x ->
  kind_value complex t x = Ok (Some (polynomial P x)).
Proof.
  intros s d P lbda t c x Hs LP T N I.
  assert (TH : through (combine lbda (map (polynomial P) lbda)) (polynomial P)).
  { intros [a b] H. cbn [fst snd]. clear - H. induction lbda as [|y l IH]; [destruct H|]. cbn [map combine] in H. destruct H as [H|H]; [now injection H as <- <-|now apply IH]. }
  assert (L2 : (2 <= length lbda)%nat).
  { destruct t as [k rows]. destruct (kind_shape _ _ _ _ _ T) as (K & ER & M & _ & LN & SP). assert (LE : length (combine lbda (map (polynomial P) lbda)) = length rows) by (rewrite ER; exact (Permutation_length (sorted_perm _))).
    rewrite combine_length, LN, Nat.min_id in LE. destruct Hs as [E|[E|[]]]; injection E as <- <-; cbn in K; injection K as <-; destruct (SP _ eq_refl); lia. }
  destruct (C58_kind_meaning s lbda _ t c x T N L2 I) as (v & V & K & _). rewrite V. do 2 f_equal.
  destruct Hs as [E|[E|[]]]; injection E as <- <-; cbn in K; destruct K as (xs & f & _ & _ & _ & _ & -> & U); symmetry; (apply U; [now apply poly_spline|exact TH]).
Qed.
Print Assumptions C58_polynomial.

(** A table of one row has its value at its wavelength, unless its value is complex and the kind is linear. *)
Theorem C58_single_row : forall s x y complex, In s ["linear"; "nearest"; "nearest-up"; "previous"; "next"; "zero"]%string ->
  exists t, table_kind s [x] [y] = Ok t /\
    kind_value complex t x = Ok (if (complex && String.eqb s "linear")%bool then None else Some y).
Proof.
  intros s x y c H. assert (B : ~ x < x) by lra.
  assert (G : forall k, table_kind s [x] [y] = Ok (k, [(x, y)]) -> (k = Linear -> s = "linear"%string) -> In k [Linear; Nearest; NearestUp; Previous; Next; Zero] -> (k <> Linear -> String.eqb s "linear" = false) ->
    exists t, table_kind s [x] [y] = Ok t /\ kind_value c t x = Ok (if (c && String.eqb s "linear")%bool then None else Some y)).
  { intros k T E1 K E2. exists (k, [(x, y)]). split; [exact T|]. unfold kind_value. cbn [last fst]. destruct (Rlt_dec x x); [contradiction|].
    destruct K as [<-|[<-|[<-|[<-|[<-|[<-|[]]]]]]]; [rewrite (E1 eq_refl); destruct c; reflexivity| | | | |]; rewrite E2 by discriminate; rewrite andb_false_r; reflexivity. }
  repeat (destruct H as [<-|H]; [eapply G; [reflexivity|intros E; first [reflexivity|discriminate E]|cbn; tauto|intros E; first [reflexivity|exfalso; apply E; reflexivity]]|]).
  destruct H.
Qed.
Print Assumptions C58_single_row.
Theorem C58_single_refuted : exists s lbda n t x y, table_kind s lbda n = Ok t /\ NoDup lbda /\ In (x, y) (combine lbda n) /\
  kind_value true t x = Ok None.
Proof.
  destruct (C58_single_row "linear" 500 (1.5, 0.1)%R true (or_introl eq_refl)) as (t & T & V).
  exists "linear"%string, [500], [(1.5, 0.1)%R], t, 500, (1.5, 0.1)%R. split; [exact T|]. split; [repeat constructor; intros []|]. split; [now left|exact V].
Qed.
Print Assumptions C58_single_refuted.

(** A repeated wavelength: the values 2 and 3 at 500 nm.  A real table has the later value there, a
    complex one the earlier; if it is the smallest wavelength, a complex table has no value. *)
Lemma sort4 : sorted [(400, RtoC 1); (500, RtoC 2); (500, RtoC 3); (600, RtoC 4)] = [(400, RtoC 1); (500, RtoC 2); (500, RtoC 3); (600, RtoC 4)].
Proof.
  unfold sorted. cbn [fold_right insert fst]. destruct (Rlt_dec 600 500); [lra|]. cbn [insert fst]. destruct (Rlt_dec 500 500); [lra|]. cbn [insert fst].
  destruct (Rlt_dec 500 400); [lra|]. reflexivity.
Qed.
Theorem C58_duplicate_refuted : exists lbda n t x y1 y2, table_kind "linear" lbda n = Ok t /\
  In (x, y1) (combine lbda n) /\ In (x, y2) (combine lbda n) /\ y1 <> y2 /\
  kind_value false t x = Ok (Some y2) /\ kind_value true t x = Ok (Some y1).
Proof.
  exists [400; 500; 500; 600], [RtoC 1; RtoC 2; RtoC 3; RtoC 4], (Linear, [(400, RtoC 1); (500, RtoC 2); (500, RtoC 3); (600, RtoC 4)]), 500, (RtoC 2), (RtoC 3).
  split; [unfold table_kind; cbn [table length Nat.eqb rbind combine kind_of String.eqb Ascii.eqb Bool.eqb spline_order]; now rewrite sort4|].
  split; [cbn; tauto|]. split; [cbn; tauto|]. split; [intros E; apply RtoC_inj in E; lra|].
  unfold kind_value. cbn [last fst]. destruct (Rlt_dec 500 400); [lra|]. destruct (Rlt_dec 600 500); [lra|]. split.
  - cbn [np_interp fst snd]. destruct (Rle_dec 500 500); [|lra]. destruct (Rle_dec 600 500); [lra|]. do 2 f_equal. unfold Cdiv. rewrite Rminus_eq_0. ring.
  - unfold segment, segment_from. cbn [fst]. destruct (Rle_dec 500 500); [|lra]. cbn [obind on_segment]. unfold rdiv. destruct (Req_EM_T (500 - 400) 0); [lra|]. cbn [obind].
    do 2 f_equal. rewrite <- !RtoC_minus, <- !RtoC_mult, <- RtoC_plus. f_equal. field.
Qed.
Print Assumptions C58_duplicate_refuted.

(** The kind "cubic" leaves the values of the neighbours: the indices 1, 1, 2, 2 give 0.75 between the
    first two. *)
Theorem C58_cubic_refuted : exists lbda n t x v, table_kind "cubic" lbda n = Ok t /\ NoDup lbda /\ inside (combine lbda n) x /\
  kind_value false t x = Ok (Some v) /\ ~ between_neighbours (combine lbda n) x v.
Proof.
  set (rows := [(400, RtoC 1); (500, RtoC 1); (600, RtoC 2); (700, RtoC 2)]).
  assert (E : sorted rows = rows).
  { unfold sorted, rows. cbn [fold_right insert fst]. destruct (Rlt_dec 700 600); [lra|]. cbn [insert fst]. destruct (Rlt_dec 600 500); [lra|]. cbn [insert fst].
    destruct (Rlt_dec 500 400); [lra|]. reflexivity. }
  exists [400; 500; 600; 700], [RtoC 1; RtoC 1; RtoC 2; RtoC 2], (Cubic, rows), 450, (RtoC 0.75).
  split; [unfold table_kind; cbn [table length Nat.eqb rbind combine kind_of String.eqb Ascii.eqb Bool.eqb spline_order]; fold rows; rewrite E; cbn [rows length Nat.ltb Nat.leb Nat.add increasing fst]|].
  { destruct (Rlt_dec 400 500); [|lra]. destruct (Rlt_dec 500 600); [|lra]. destruct (Rlt_dec 600 700); [|lra]. reflexivity. }
  split; [repeat constructor; cbn; intros K; repeat destruct K as [K|K]; lra|]. cbn [combine]. fold rows.
  split; [split; [exists (400, RtoC 1)|exists (700, RtoC 2)]; (split; [cbn; tauto|cbn; lra])|]. split.
  - unfold kind_value. cbn [rows]. unfold rows at 1. cbn [last fst]. destruct (Rlt_dec 450 400); [lra|]. destruct (Rlt_dec 700 450); [lra|]. f_equal.
    set (P := [RtoC 51; RtoC (- (7 / 24)); RtoC (11 / 20000); RtoC (- (1 / 3000000))]).
    rewrite (cubic_unique rows (polynomial P)).
    + f_equal. unfold P. cbn [polynomial]. rewrite <- ?RtoC_mult, <- ?RtoC_plus. repeat rewrite <- ?RtoC_mult, <- ?RtoC_plus. f_equal. lra.
    + unfold rows. repeat constructor; cbn; lra.
    + cbn. lia.
    + now apply poly_spline.
    + intros y Y. unfold rows in Y. unfold P. cbn [polynomial]. repeat destruct Y as [<-|Y]; [..|destruct Y]; cbn [fst snd]; repeat rewrite <- ?RtoC_mult, <- ?RtoC_plus; f_equal; lra.
  - intros (a & b & t & (A & B & LT & NO) & I & T & V). unfold at_fraction in V.
    assert (VA : snd a = RtoC 1).
    { unfold rows in A. destruct A as [<-|[<-|[<-|[<-|[]]]]]; cbn [fst snd] in *; try reflexivity; lra. }
    assert (VB : snd b = RtoC 1).
    { destruct (NO (400, RtoC 1) ltac:(cbn; tauto)) as [G|G], (NO (500, RtoC 1) ltac:(cbn; tauto)) as [G'|G']; cbn [fst] in *; try lra;
        unfold rows in B; destruct B as [<-|[<-|[<-|[<-|[]]]]]; cbn [fst snd] in *; try reflexivity; lra. }
    rewrite VA, VB in V. apply (f_equal Re) in V. cbn in V. lra.
Qed.
Print Assumptions C58_cubic_refuted.

Example C58_kind_example : exists t, table_kind "nearest" [600; 400; 500] [RtoC 3; RtoC 1; RtoC 2] = Ok t /\
  NoDup [600; 400; 500] /\ inside (combine [600; 400; 500] [RtoC 3; RtoC 1; RtoC 2]) 460 /\
  kind_value false t 460 = Ok (Some (RtoC 2)).
Proof.
  assert (E : sorted [(600, RtoC 3); (400, RtoC 1); (500, RtoC 2)] = [(400, RtoC 1); (500, RtoC 2); (600, RtoC 3)]).
  { unfold sorted. cbn [fold_right insert fst]. destruct (Rlt_dec 500 400); [lra|]. cbn [insert fst]. destruct (Rlt_dec 400 600); [|lra]. destruct (Rlt_dec 500 600); [|lra]. reflexivity. }
  exists (Nearest, [(400, RtoC 1); (500, RtoC 2); (600, RtoC 3)]).
  split; [unfold table_kind; cbn [table length Nat.eqb rbind combine kind_of String.eqb Ascii.eqb Bool.eqb spline_order]; now rewrite E|].
  split; [repeat constructor; cbn; intros K; repeat destruct K as [K|K]; lra|].
  split; [split; [exists (400, RtoC 1)|exists (600, RtoC 3)]; (split; [cbn; tauto|cbn; lra])|].
  unfold kind_value. cbn [last fst]. destruct (Rlt_dec 460 400); [lra|]. destruct (Rlt_dec 600 460); [lra|]. cbn [nearest_row fst snd].
  destruct (Rlt_dec (400 / 2 + 500 / 2) 460); [|lra]. destruct (Rlt_dec (500 / 2 + 600 / 2) 460); [lra|]. reflexivity.
Qed.
(** Five rows on the cubic spline which is 0 up to 600 nm and ((x - 600)/100)^3 behind *)
Example C58_spline_example : exists t, table_kind "cubic" [400; 500; 600; 700; 800] [RtoC 0; RtoC 0; RtoC 0; RtoC 1; RtoC 8] = Ok t /\
  kind_value false t 450 = Ok (Some (RtoC 0)) /\ kind_value false t 750 = Ok (Some (RtoC 3.375)).
Proof.
  set (rows := [(400, RtoC 0); (500, RtoC 0); (600, RtoC 0); (700, RtoC 1); (800, RtoC 8)]).
  assert (E : sorted rows = rows).
  { unfold sorted, rows. cbn [fold_right insert fst]. repeat (match goal with |- context [Rlt_dec ?a ?b] => destruct (Rlt_dec a b); [lra|] end; cbn [insert fst]). reflexivity. }
  exists (Cubic, rows). split.
  { unfold table_kind. cbn [table length Nat.eqb rbind combine kind_of String.eqb Ascii.eqb Bool.eqb spline_order]. fold rows. rewrite E. cbn [rows length Nat.ltb Nat.leb Nat.add increasing fst].
    repeat (match goal with |- context [Rlt_dec ?a ?b] => destruct (Rlt_dec a b); [|lra] end). reflexivity. }
  set (g := fun x : R => (RtoC (/ 1000000) * RtoC (trunc 3 600 x))%C).
  assert (G : forall x, cubic_spline rows x = Some (g x)).
  { apply cubic_unique.
    - unfold rows. repeat constructor; cbn; lra.
    - cbn. lia.
    - exists [RtoC 0; RtoC 0; RtoC 0; RtoC 0], [RtoC (/ 1000000)]. split; [reflexivity|]. split; [reflexivity|]. intros x. unfold g. cbn. ring.
    - intros y Y. unfold g, trunc. repeat destruct Y as [<-|Y]; [..|destruct Y]; cbn [fst snd]; (destruct (Rlt_dec _ _); [try lra|try lra]); rewrite <- RtoC_mult; f_equal; lra. }
  unfold kind_value, rows at 1 3. cbn [last fst].
  repeat (match goal with |- context [Rlt_dec ?a ?b] => destruct (Rlt_dec a b); [lra|] end). rewrite !G. unfold g, trunc.
  split; (destruct (Rlt_dec _ _); [try lra|try lra]); rewrite <- RtoC_mult; do 3 f_equal; lra.
Qed.
