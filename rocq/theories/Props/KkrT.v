(** C48, C72, C73: the Kramers-Kronig transforms of src/elli/kkr/kkr.py. *)
From Coq Require Import Reals Lra Psatz Lia List Arith.
From Verif.Base Require Import Py.
From Verif.Model Require Import Units Kkr.
From Verif.Spec Require Import KK.
From Verif.Proof Require Import UnitsP DispersionsP KkrP.
Import ListNotations.
Open Scope R_scope.
Open Scope py_scope.

(** The four functions with the integrands they stand for and the smallest admissible axis value *)
Definition transforms :=
  [(re2im, g_re, Rle 0); (im2re, g_im, Rle 0);
   (re2im_reciprocal, g_re_reciprocal, Rlt 0); (im2re_reciprocal, g_im_reciprocal, Rlt 0)].

Lemma transform_point f g adm t x h : In (f, g, adm) transforms ->
  equidistant x h -> 0 < h -> adm (nth 0 x 0) -> length t = length x -> (2 <= length x)%nat ->
  exists out, f t x = Ok out /\ length out = length x /\
  forall i, (i < length x)%nat ->
    nth i out None = Some (4 / PI * weight x i * rsum (fun j => g (nth j t 0) (nth j x 0) (nth i x 0)) (opposite (length x) i)).
Proof.
  intros F E h0 A L N.
  assert (K : exists term, f = (fun t x => calc_kkr t x term) /\ forall i j, (i < length x)%nat -> In j (opposite (length x) i) ->
      term (nth j t 0) (nth j x 0) (nth i x 0) = Some (g (nth j t 0) (nth j x 0) (nth i x 0))).
  { assert (SQ : 0 <= nth 0 x 0 -> forall i j, (i < length x)%nat -> In j (opposite (length x) i) -> nth j x 0 ^ 2 <> nth i x 0 ^ 2).
    { intros P i j Hi Hj. assert (Q := Hj). apply opposite_In in Q. apply (axis_sqr x h); try tauto. now apply opposite_neq in Hj. }
    assert (NZ : 0 < nth 0 x 0 -> forall i j, (i < length x)%nat -> In j (opposite (length x) i) -> nth j x 0 <> 0 /\ nth i x 0 <> 0).
    { intros P i j Hi Hj. apply opposite_In in Hj. split; apply (axis_pos x h); tauto. }
    unfold transforms in F. cbn [In] in F. destruct F as [F|[F|[F|[F|[]]]]]; injection F as <- <- <-.
    - exists term_re. split; [reflexivity|]. intros i j Hi Hj. apply term_re_some. now apply SQ.
    - exists term_im. split; [reflexivity|]. intros i j Hi Hj. apply term_im_some. now apply SQ.
    - exists term_re_reciprocal. split; [reflexivity|]. intros i j Hi Hj. destruct (NZ A i j Hi Hj). apply term_rer_some; auto. apply SQ; auto. lra.
    - exists term_im_reciprocal. split; [reflexivity|]. intros i j Hi Hj. destruct (NZ A i j Hi Hj). apply term_imr_some; auto. apply SQ; auto. lra. }
  destruct K as (term & -> & K). destruct (calc_kkr_some t x term L N) as (out & H & HL & HN).
  exists out. split; [exact H|]. split; [exact HL|]. intros i Hi. rewrite HN by exact Hi. rewrite (point_some term g); [reflexivity|]. intros j Hj. now apply K.
Qed.

(** C48: on an ascending equidistant axis every output point but the first is Maclaurin's sum; the
    first one has the weight x_0 - h instead of h. *)
Theorem C48_maclaurin_partial : forall f g adm t x h, In (f, g, adm) transforms ->
  equidistant x h -> 0 < h -> adm (nth 0 x 0) -> length t = length x -> (2 <= length x)%nat ->
  let sum := maclaurin (length x) h (fun j => nth j t 0) (fun j => nth j x 0) g in
  exists out, f t x = Ok out /\ length out = length x /\
  (forall i, (1 <= i < length x)%nat -> nth i out None = Some (sum i)) /\
  nth 0 out None = Some ((nth 0 x 0 - h) / h * sum 0%nat).
Proof.
  intros f g adm t x h F E h0 A L N sum. destruct (transform_point f g adm t x h F E h0 A L N) as (out & H & HL & HN).
  exists out. split; [exact H|]. split; [exact HL|]. assert (Pp := PI_RGT_0). split.
  - intros i Hi. rewrite HN by lia. f_equal. rewrite (weight_equi x h) by (try assumption; lia). unfold sum, maclaurin. field. lra.
  - rewrite HN by lia. f_equal. rewrite (weight_0 x h) by assumption. unfold sum, maclaurin. field. split; lra.
Qed.
Print Assumptions C48_maclaurin_partial.

(** C48 refuted for the first point, on an axis that starts at zero. *)
Theorem C48_first_refuted : exists t x h out,
  equidistant x h /\ 0 < h /\ 0 <= nth 0 x 0 /\ im2re t x = Ok out /\
  nth 0 out None <> Some (maclaurin (length x) h (fun j => nth j t 0) (fun j => nth j x 0) g_im 0).
Proof.
  set (x := [0; 1]). set (t := [0; 1]).
  assert (E : equidistant x 1) by (intros [|i] Hi; simpl in *; [lra|lia]).
  destruct (C48_maclaurin_partial im2re g_im (Rle 0) t x 1) as (out & H & _ & _ & H0); simpl; auto; try lra; try lia.
  exists t, x, 1, out. split; [exact E|]. split; [lra|]. split; [simpl; lra|]. split; [exact H|]. rewrite H0.
  intros K. apply Some_eq in K. assert (Pp := PI_RGT_0).
  assert (S : maclaurin (length x) 1 (fun j => nth j t 0) (fun j => nth j x 0) g_im 0 = 4 / PI).
  { unfold maclaurin, opposite, x, t. cbn [length seq filter Nat.odd Nat.even negb Nat.add rsum fold_right nth]. unfold g_im. field. lra. }
  rewrite S in K. cbn [x nth] in K. assert (0 < 4 / PI) by (apply Rdiv_lt_0_compat; lra). lra.
Qed.
Print Assumptions C48_first_refuted.

(** C48: linear in the values, also where a value is not finite, on every axis. *)
Definition lincomb (a b : R) (t t' : list R) : list R := map (fun '(p, q) => a * p + b * q) (combine t t').
Definition calc_terms := [term_re; term_im; term_re_reciprocal; term_im_reciprocal].

Lemma term_lin term a b p q x y : In term calc_terms ->
  term (a * p + b * q) x y = (let? u := term p x y in let? v := term q x y in Some (a * u + b * v)).
Proof.
  intros H. unfold calc_terms in H. cbn [In] in H. destruct H as [<-|[<-|[<-|[<-|[]]]]].
  - unfold term_re, rdiv. destruct (Req_EM_T _ 0); [reflexivity|]. cbn [obind]. f_equal. field. assumption.
  - unfold term_im, rdiv. destruct (Req_EM_T _ 0); [reflexivity|]. cbn [obind]. f_equal. field. assumption.
  - unfold term_re_reciprocal. destruct (Req_EM_T y 0); [destruct (Req_EM_T x 0); [reflexivity|]; cbn [obind]; f_equal; ring|].
    unfold rdiv. destruct (Req_EM_T _ 0) as [|K]; [reflexivity|]. cbn [obind]. f_equal. unfold Rdiv. ring.
  - unfold term_im_reciprocal. destruct (Req_EM_T y 0); [destruct (Req_EM_T x 0); [reflexivity|]; cbn [obind]; f_equal; ring|].
    unfold rdiv. destruct (Req_EM_T _ 0) as [|K]; [reflexivity|]. cbn [obind]. f_equal. unfold Rdiv. ring.
Qed.
Lemma np_sum_lin a b (f g : nat -> option R) l :
  np_sum (map (fun j => let? u := f j in let? v := g j in Some (a * u + b * v)) l) =
  (let? u := np_sum (map f l) in let? v := np_sum (map g l) in Some (a * u + b * v)).
Proof.
  induction l as [|c l IH]; cbn [map np_sum obind]; [f_equal; ring|]. rewrite IH.
  destruct (f c), (g c), (np_sum (map f l)), (np_sum (map g l)); cbn [obind]; try reflexivity. f_equal. ring.
Qed.
Lemma lincomb_nth a b t t' j : length t = length t' -> nth j (lincomb a b t t') 0 = a * nth j t 0 + b * nth j t' 0.
Proof.
  intros L. unfold lincomb. set (f := fun '(p, q) => a * p + b * q).
  assert (F0 : f (0, 0) = 0) by (unfold f; ring). rewrite <- F0 at 1.
  rewrite map_nth, combine_nth by exact L. reflexivity.
Qed.
Lemma lincomb_length a b t t' : length t = length t' -> length (lincomb a b t t') = length t.
Proof. intros L. unfold lincomb. rewrite map_length, combine_length. lia. Qed.

Theorem C48_linear : forall term a b t t' x, In term calc_terms ->
  length t = length x -> length t' = length x -> (2 <= length x)%nat ->
  exists u u' w, calc_kkr t x term = Ok u /\ calc_kkr t' x term = Ok u' /\ calc_kkr (lincomb a b t t') x term = Ok w /\
  forall i, nth i w None = (let? p := nth i u None in let? q := nth i u' None in Some (a * p + b * q)).
Proof.
  intros term a b t t' x T L L' N. destruct (calc_kkr_some t x term L N) as (u & H1 & L1 & N1).
  destruct (calc_kkr_some t' x term L' N) as (u' & H2 & L2 & N2).
  assert (L3 : length (lincomb a b t t') = length x) by (rewrite lincomb_length; congruence).
  destruct (calc_kkr_some (lincomb a b t t') x term L3 N) as (w & H3 & L3' & N3).
  exists u, u', w. do 3 (split; [assumption|]). intros i. destruct (Nat.lt_ge_cases i (length x)) as [Hi|Hi].
  - rewrite N1, N2, N3 by exact Hi. unfold point.
    rewrite (map_ext _ (fun j => let? p := term (nth j t 0) (nth j x 0) (nth i x 0) in let? q := term (nth j t' 0) (nth j x 0) (nth i x 0) in Some (a * p + b * q))).
    + rewrite np_sum_lin. destruct (np_sum (map (fun j => term (nth j t 0) _ _) _)); [|reflexivity]. destruct (np_sum (map _ _)); [|reflexivity].
      cbn [obind]. f_equal. ring.
    + intros j. rewrite lincomb_nth by congruence. now apply term_lin.
  - rewrite !nth_overflow by lia. reflexivity.
Qed.
Print Assumptions C48_linear.

(** C48: an output point does not depend on the values at points of the same parity. *)
Theorem C48_parity : forall term t t' x i, length t = length x -> length t' = length x -> (2 <= length x)%nat ->
  (forall j, (j < length x)%nat -> Nat.odd (i + j) = true -> nth j t 0 = nth j t' 0) ->
  exists u u', calc_kkr t x term = Ok u /\ calc_kkr t' x term = Ok u' /\ nth i u None = nth i u' None.
Proof.
  intros term t t' x i L L' N H. destruct (calc_kkr_some t x term L N) as (u & H1 & L1 & N1).
  destruct (calc_kkr_some t' x term L' N) as (u' & H2 & L2 & N2).
  exists u, u'. do 2 (split; [assumption|]). destruct (Nat.lt_ge_cases i (length x)) as [Hi|Hi].
  - rewrite N1, N2 by exact Hi. f_equal. unfold point. f_equal. apply map_ext_in. intros j Hj. apply opposite_In in Hj.
    rewrite (H j) by tauto. reflexivity.
  - rewrite !nth_overflow by lia. reflexivity.
Qed.
Print Assumptions C48_parity.

(** C48: arrays of different length are rejected; one point is not enough. *)
Theorem C48_reject : forall f g adm t x, In (f, g, adm) transforms ->
  (f t x = Err ValueError <-> length t <> length x) /\
  (f t x = Err IndexError <-> length t = length x /\ (length x < 2)%nat) /\
  (is_ok (f t x) <-> length t = length x /\ (2 <= length x)%nat).
Proof.
  intros f g adm t x F. assert (K : exists term, f = (fun t x => calc_kkr t x term)).
  { unfold transforms in F. cbn [In] in F. destruct F as [F|[F|[F|[F|[]]]]]; injection F as <- <- <-; eexists; reflexivity. }
  destruct K as [term ->]. destruct (Nat.eq_dec (length t) (length x)) as [L|L].
  - destruct (Nat.lt_ge_cases (length x) 2) as [N|N].
    + assert (E : calc_kkr t x term = Err IndexError).
      { unfold calc_kkr. rewrite L, Nat.eqb_refl. cbn [negb]. destruct x as [|a [|b x]]; [reflexivity|reflexivity|simpl in N; lia]. }
      rewrite E. split; [split; [discriminate|congruence]|]. split; [tauto|]. split; [intros [? ?]; discriminate|lia].
    + destruct (calc_kkr_some t x term L N) as (out & E & _). rewrite E.
      split; [split; [discriminate|congruence]|]. split; [split; [discriminate|lia]|]. split; [tauto|]. intros _. eexists; reflexivity.
  - assert (E : calc_kkr t x term = Err ValueError).
    { unfold calc_kkr. apply Nat.eqb_neq in L. now rewrite L. }
    rewrite E. split; [tauto|]. split; [split; [discriminate|tauto]|]. split; [intros [? ?]; discriminate|tauto].
Qed.
Print Assumptions C48_reject.

Example C48_example : exists out, im2re [1; 2; 0; 5] [2; 3; 4; 5] = Ok out /\ nth 1 out None = Some (4 / PI * (- 2 / 5)).
Proof.
  destruct (C48_maclaurin_partial im2re g_im (Rle 0) [1; 2; 0; 5] [2; 3; 4; 5] 1) as (out & H & _ & H1 & _); simpl; auto; try lra; try lia.
  { intros [|[|[|i]]] Hi; simpl in *; try lra. lia. }
  exists out. split; [exact H|]. rewrite (H1 1%nat) by (simpl; lia). f_equal. assert (Pp := PI_RGT_0).
  unfold maclaurin, opposite. cbn [length seq filter Nat.odd Nat.even negb Nat.add rsum fold_right nth]. unfold g_im. field. lra.
Qed.

(** C72: with the sign of re2im, going to the real part and back turns the spectrum around: the
    product with the original is never positive.  (The first value is taken to be zero, as the
    first output point has a different weight, C48.) *)
Theorem C72_roundtrip_sign : forall t x h,
  equidistant x h -> 0 < h -> h <= nth 0 x 0 -> length t = length x -> (2 <= length x)%nat -> nth 0 t 0 = 0 ->
  exists u v, im2re t x = Ok (map Some u) /\ re2im u x = Ok (map Some v) /\ length v = length t /\
  rsum (fun i => nth i t 0 * nth i v 0) (seq 0 (length t)) <= 0.
Proof.
  intros t x h E h0 x0 L N T0.
  destruct (transform_point im2re g_im (Rle 0) t x h) as (o1 & H1 & L1 & P1); [simpl; auto|assumption..|lra|assumption|assumption|].
  set (n := length x) in *. set (X := fun j => nth j x 0) in *. set (T := fun j => nth j t 0) in *.
  set (S1 := fun i => rsum (fun j => g_im (T j) (X j) (X i)) (opposite n i)).
  set (U := fun i => 4 / PI * weight x i * S1 i).
  set (u := map U (seq 0 n)).
  assert (Un : forall i, (i < n)%nat -> nth i u 0 = U i).
  { intros i Hi. unfold u. rewrite (nth_indep _ 0 (U 0%nat)) by (rewrite map_length, seq_length; exact Hi). rewrite map_nth, seq_nth by exact Hi. reflexivity. }
  assert (Lu : length u = n) by (unfold u; rewrite map_length, seq_length; reflexivity).
  assert (O1 : o1 = map Some u).
  { apply nth_ext with (d := None) (d' := None); [rewrite map_length; congruence|]. intros i Hi. rewrite L1 in Hi. rewrite P1 by exact Hi.
    rewrite (nth_indep _ None (Some 0)) by (rewrite map_length; lia). rewrite map_nth, Un by exact Hi. reflexivity. }
  destruct (transform_point re2im g_re (Rle 0) u x h) as (o2 & H2 & L2 & P2); [simpl; auto|assumption..|lra|assumption|assumption|].
  fold n in L2, P2.
  set (V := fun i => 4 / PI * weight x i * rsum (fun j => g_re (U j) (X j) (X i)) (opposite n i)).
  set (v := map V (seq 0 n)).
  assert (Vn : forall i, (i < n)%nat -> nth i v 0 = V i).
  { intros i Hi. unfold v. rewrite (nth_indep _ 0 (V 0%nat)) by (rewrite map_length, seq_length; exact Hi). rewrite map_nth, seq_nth by exact Hi. reflexivity. }
  assert (Lv : length v = n) by (unfold v; rewrite map_length, seq_length; reflexivity).
  assert (O2 : o2 = map Some v).
  { apply nth_ext with (d := None) (d' := None); [rewrite map_length; congruence|]. intros i Hi. rewrite L2 in Hi. rewrite P2 by exact Hi.
    rewrite (nth_indep _ None (Some 0)) by (rewrite map_length; lia). rewrite map_nth, Vn by exact Hi. f_equal. unfold V. f_equal.
    apply rsum_ext. intros j Hj. apply opposite_In in Hj. rewrite Un by tauto. reflexivity. }
  exists u, v. split; [now rewrite H1, O1|]. split; [now rewrite H2, O2|]. split; [congruence|].
  assert (Pp := PI_RGT_0). assert (P4 : 0 < 4 / PI) by (apply Rdiv_lt_0_compat; lra).
  assert (Q : rsum (fun i => nth i t 0 * nth i v 0) (seq 0 (length t)) =
              - (4 / PI) * (4 / PI) * h * rsum (fun j => weight x j * (S1 j * S1 j)) (seq 0 n)).
  { rewrite L. fold n.
    transitivity (rsum (fun i => rsum (fun j => if Nat.odd (i + j) then 4 / PI * h * (T i * g_re (U j) (X j) (X i)) else 0) (seq 0 n)) (seq 0 n)).
    - apply rsum_ext. intros i Hi. apply in_seq in Hi. rewrite Vn by lia. unfold V, opposite. rewrite rsum_filter. fold (T i).
      destruct (Nat.eq_dec i 0) as [->|Ni].
      + unfold T at 1. rewrite T0. rewrite Rmult_0_l. symmetry. etransitivity; [|apply (rsum_zero (seq 0 n))].
        apply rsum_ext. intros j _. destruct (Nat.odd _); [|reflexivity]. unfold T. rewrite T0. ring.
      + rewrite (weight_equi x h) by (try assumption; fold n; lia).
        transitivity ((T i * (4 / PI * h)) * rsum (fun j => if Nat.odd (i + j) then g_re (U j) (X j) (X i) else 0) (seq 0 n)); [ring|].
        rewrite <- rsum_scal. apply rsum_ext. intros j _. destruct (Nat.odd _); ring.
    - rewrite rsum_swap. rewrite <- rsum_scal. apply rsum_ext. intros j Hj. apply in_seq in Hj.
      transitivity (- (4 / PI * h * U j) * rsum (fun i => if Nat.odd (j + i) then g_im (T i) (X i) (X j) else 0) (seq 0 n)).
      + rewrite <- rsum_scal. apply rsum_ext. intros i Hi. apply in_seq in Hi. rewrite (Nat.add_comm j i).
        destruct (Nat.odd (i + j)) eqn:Od; [|ring]. unfold g_re, g_im.
        assert (D : X i ^ 2 <> X j ^ 2).
        { apply (axis_sqr x h); try assumption; fold n; try lia; [lra|]. intros ->. replace (i + i)%nat with (2 * i)%nat in Od by lia. rewrite Nat.odd_mul in Od. discriminate. }
        field. split; [intros K; apply D; lra|]. split; [lra|intros K; apply D; lra].
      + rewrite <- (rsum_filter (fun i => Nat.odd (j + i))). fold (opposite n j). fold (S1 j). unfold U. ring. }
  rewrite Q. assert (Z : 0 <= rsum (fun j => weight x j * (S1 j * S1 j)) (seq 0 n)).
  { apply rsum_ge0. intros j Hj. apply in_seq in Hj. apply Rmult_le_pos; [|nra]. destruct j; [rewrite (weight_0 x h) by assumption; lra|].
    rewrite (weight_equi x h) by (try assumption; fold n; lia). lra. }
  assert (0 <= 4 / PI * (4 / PI) * h) by (apply Rmult_le_pos; nra). nra.
Qed.
Print Assumptions C72_roundtrip_sign.

(** C72 refuted: the round trip gives a spectrum opposite to the original. *)
Theorem C72_roundtrip_refuted : exists t x h u v,
  equidistant x h /\ 0 < h /\ 0 < nth 0 x 0 /\ im2re t x = Ok (map Some u) /\ re2im u x = Ok (map Some v) /\
  rsum (fun i => nth i t 0 * nth i v 0) (seq 0 (length t)) < 0.
Proof.
  assert (Pp := PI_RGT_0). assert (P4 : 0 < 4 / PI) by (apply Rdiv_lt_0_compat; lra).
  exists [0; 1], [2; 3], 1, [4 / PI * (3 / 5); 0], [0; 4 / PI * (3 * (4 / PI * (3 / 5)) / (- 5))].
  split; [intros [|i] Hi; simpl in *; [lra|lia]|]. split; [lra|]. split; [simpl; lra|].
  unfold im2re, re2im, calc_kkr. cbn [length Nat.eqb negb np_diff odds evens tl integrate map combine weave np_sum].
  unfold term_im, term_re. rewrite !rdiv_nz by lra. cbn [obind].
  split; [f_equal; f_equal; [f_equal; field; lra|f_equal; f_equal; field; lra]|].
  split; [f_equal; f_equal; [f_equal; field; lra|f_equal; f_equal; field; lra]|].
  cbn [length seq rsum fold_right nth].
  assert (0 < 4 / PI * (3 * (4 / PI * (3 / 5)))) by (repeat apply Rmult_lt_0_compat; lra). lra.
Qed.
Print Assumptions C72_roundtrip_refuted.

Example C72_example : exists u v, im2re [0; 1; 0; 0] [1; 2; 3; 4] = Ok (map Some u) /\ re2im u [1; 2; 3; 4] = Ok (map Some v) /\
  rsum (fun i => nth i [0; 1; 0; 0] 0 * nth i v 0) (seq 0 4) <= 0.
Proof.
  destruct (C72_roundtrip_sign [0; 1; 0; 0] [1; 2; 3; 4] 1) as (u & v & A & B & _ & D); simpl; try lra; try lia; [|eauto].
  intros [|[|[|i]]] Hi; simpl in *; try lra. lia.
Qed.

Lemma none_dec (o : option R) : {o = None} + {o <> None}.
Proof. destruct o; [right; discriminate|now left]. Qed.

(** C73: reversing the axis together with the values reverses the result and its sign, away from
    the ends. *)
Lemma equi_rev x h i : equidistant x h -> (i < length x)%nat -> nth i (rev x) 0 = nth (length x - 1 - i) x 0.
Proof. intros _ H. rewrite rev_nth by exact H. f_equal. lia. Qed.
Theorem C73_orientation : forall term t x h,
  In term calc_terms -> equidistant x h -> length t = length x -> (2 <= length x)%nat ->
  exists u w, calc_kkr t x term = Ok u /\ calc_kkr (rev t) (rev x) term = Ok w /\
  forall i, (1 <= i < length x - 1)%nat ->
    nth i w None = (let? v := nth (length x - 1 - i) u None in Some (- v)).
Proof.
  intros term t x h T E L N. destruct (calc_kkr_some t x term L N) as (u & H1 & L1 & N1).
  destruct (calc_kkr_some (rev t) (rev x) term) as (w & H2 & L2 & N2); [rewrite !rev_length; exact L|rewrite rev_length; exact N|].
  rewrite rev_length in L2, N2. exists u, w. split; [exact H1|]. split; [exact H2|]. intros i Hi. rewrite N1, N2 by lia.
  assert (W1 : weight x (length x - 1 - i) = h) by (apply weight_equi; [exact E|lia|lia]).
  assert (W2 : weight (rev x) i = - h).
  { destruct i as [|i]; [lia|]. unfold weight. rewrite !(equi_rev x h) by (try exact E; lia).
    assert (K := E (length x - 1 - S i)%nat ltac:(lia)). replace (S (length x - 1 - S i)) with (length x - 1 - i)%nat in K by lia. lra. }
  rewrite W1, W2.
  assert (P : point term (rev t) (rev x) i = point term t x (length x - 1 - i)).
  { unfold point. rewrite rev_length. set (n := length x) in *.
    assert (G : forall f : nat -> option R, np_sum (map f (opposite n (n - 1 - i))) = np_sum (map (fun j => f (n - 1 - j)%nat) (opposite n i))).
    { intros f. assert (Inn : forall j, In j (opposite n i) -> In (n - 1 - j)%nat (opposite n (n - 1 - i))).
      { intros j Hj. apply opposite_In in Hj. apply opposite_In. split; [lia|]. destruct Hj as [Hj Od].
        apply Nat.odd_spec in Od. apply Nat.odd_spec. destruct Od as [k Hk]. exists (n - 2 - k)%nat. lia. }
      assert (Ini : forall j, In j (opposite n (n - 1 - i)) -> In (n - 1 - j)%nat (opposite n i)).
      { intros j Hj. apply opposite_In in Hj. apply opposite_In. split; [lia|]. destruct Hj as [Hj Od].
        apply Nat.odd_spec in Od. apply Nat.odd_spec. destruct Od as [k Hk]. exists (n - 2 - k)%nat. lia. }
      destruct (Exists_dec (fun j => f j = None) (opposite n (n - 1 - i)) (fun j => none_dec (f j))) as [X|X].
      - apply Exists_exists in X. destruct X as (j & Hj & Ej). rewrite (np_sum_none f _ j Hj Ej). symmetry.
        apply (np_sum_none (fun j => f (n - 1 - j)%nat) _ (n - 1 - j)%nat); [now apply Ini|]. cbv beta. replace (n - 1 - (n - 1 - j))%nat with j; [exact Ej|].
        apply opposite_In in Hj. lia.
      - assert (X' : forall j, In j (opposite n (n - 1 - i)) -> f j <> None) by (intros j Hj K; apply X, Exists_exists; eauto).
        destruct (np_sum_some f _ X') as (g & G1 & ->).
        destruct (np_sum_some (fun j => f (n - 1 - j)%nat) (opposite n i)) as (g' & G2 & ->); [intros j Hj; apply X', Inn, Hj|].
        f_equal. rewrite (rsum_ext g' (fun j => g (n - 1 - j)%nat)).
        + unfold opposite. rewrite !rsum_filter. rewrite rsum_rev. apply rsum_ext. intros j Hj. apply in_seq in Hj.
          assert (Od : Nat.odd (n - 1 - i + (n - 1 - j)) = Nat.odd (i + j)).
          { replace (n - 1 - i + (n - 1 - j))%nat with (2 * (n - 1) - (i + j))%nat by lia. rewrite Nat.odd_sub by lia. rewrite Nat.odd_mul. now rewrite Bool.xorb_false_l. }
          rewrite Od. reflexivity.
        + intros j Hj. assert (A := G2 j Hj). assert (B := G1 _ (Inn j Hj)). cbv beta in A. rewrite A in B. congruence. }
    rewrite G. f_equal. apply map_ext_in. intros j Hj. apply opposite_In in Hj. rewrite !(equi_rev x h) by (try exact E; fold n; lia).
    rewrite rev_nth by lia. replace (length t - S j)%nat with (n - 1 - j)%nat by lia. reflexivity. }
  rewrite P. destruct (point term t x (length x - 1 - i)) as [v|]; [|reflexivity]. cbn [obind]. f_equal. ring.
Qed.
Print Assumptions C73_orientation.

(** C73 refuted: a spectrum given in descending order has a result of the opposite sign. *)
Theorem C73_orientation_refuted : exists t x h u w,
  equidistant x h /\ 0 < nth 0 x 0 /\ im2re t x = Ok u /\ im2re (rev t) (rev x) = Ok w /\ w <> rev u.
Proof.
  assert (E : equidistant [1; 2; 3] 1) by (intros [|[|i]] Hi; simpl in *; try lra; lia).
  destruct (C73_orientation term_im [1; 0; 0] [1; 2; 3] 1) as (u & w & H1 & H2 & H3); [simpl; auto|exact E|reflexivity|simpl; lia|].
  exists [1; 0; 0], [1; 2; 3], 1, u, w. split; [exact E|]. split; [simpl; lra|]. split; [exact H1|]. split; [exact H2|].
  destruct (C48_maclaurin_partial im2re g_im (Rle 0) [1; 0; 0] [1; 2; 3] 1) as (u' & H1' & LU & K & _); simpl; auto; try lra; try lia.
  assert (u' = u) by (unfold im2re in H1'; rewrite H1 in H1'; congruence). subst u'.
  specialize (H3 1%nat ltac:(simpl; lia)). specialize (K 1%nat ltac:(simpl; lia)). cbn [length Nat.sub] in H3. rewrite K in H3. cbn [obind] in H3.
  intros ->. rewrite rev_nth in H3 by (rewrite LU; simpl; lia). rewrite LU in H3. cbn [length Nat.sub] in H3. rewrite K in H3. apply Some_eq in H3.
  assert (Pp := PI_RGT_0).
  assert (SM : maclaurin (length [1; 2; 3]) 1 (fun j => nth j [1; 0; 0] 0) (fun j => nth j [1; 2; 3] 0) g_im 1 = 4 / PI * (- 1 / 3)).
  { unfold maclaurin, opposite. cbn [length seq filter Nat.odd Nat.even negb Nat.add rsum fold_right nth]. unfold g_im. field. lra. }
  cbn [length] in SM, H3. rewrite SM in H3. assert (Q : 0 < 4 / PI) by (apply Rdiv_lt_0_compat; lra). lra.
Qed.
Print Assumptions C73_orientation_refuted.

Example C73_example : exists u w, calc_kkr [1; 0; 0] [1; 2; 3] term_re = Ok u /\ calc_kkr (rev [1; 0; 0]) (rev [1; 2; 3]) term_re = Ok w /\
  nth 1 w None = (let? v := nth 1 u None in Some (- v)).
Proof.
  assert (E : equidistant [1; 2; 3] 1) by (intros [|[|i]] Hi; simpl in *; try lra; lia).
  destruct (C73_orientation term_re [1; 0; 0] [1; 2; 3] 1) as (u & w & H1 & H2 & H3); [simpl; auto|exact E|reflexivity|simpl; lia|].
  exists u, w. split; [exact H1|]. split; [exact H2|]. apply (H3 1%nat). simpl. lia.
Qed.
