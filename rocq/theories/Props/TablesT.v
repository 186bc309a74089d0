(** C58: tables interpolate the given points. *)
From Coq Require Import Reals List Lra Lia Permutation.
From Coquelicot Require Import Complex.
From Verif.Base Require Import Py Cx.
From Verif.Model Require Import Units Tables.
From Verif.Spec Require Import Table.
From Verif.Proof Require Import TablesP.
Import ListNotations.
Open Scope R_scope.

(** Which tables are accepted *)
Theorem C58_accepted : forall (lbda : list R) (n : list C), lbda <> [] -> length n = length lbda ->
  exists rows, table lbda n = Ok rows /\ map fst rows = lbda /\ map snd rows = n.
Proof.
  intros lbda n NE L. exists (combine lbda n). unfold table. destruct lbda as [|x lbda]; [contradiction|].
  rewrite L, Nat.eqb_refl. split; [reflexivity|].
  revert n L. generalize (x :: lbda). clear. intros l. induction l as [|y l IH]; intros [|c n] L; try discriminate; [now split|].
  injection L as L. destruct (IH n L) as [A B]. cbn. now rewrite A, B.
Qed.
Print Assumptions C58_accepted.
Theorem C58_rejected : forall (lbda : list R) (n : list C), lbda = [] \/ length n <> length lbda ->
  table lbda n = Err InvalidParameters.
Proof.
  intros lbda n [->|L]; [reflexivity|]. unfold table. destruct lbda; [reflexivity|].
  destruct (Nat.eqb_spec (length n) (length (r :: lbda))); [contradiction|reflexivity].
Qed.
Print Assumptions C58_rejected.

(** Between the neighbours, in any order of the rows *)
Theorem C58_between_partial : forall (rows : list (R * C)) (x : R),
  NoDup (map fst rows) -> (2 <= length rows)%nat -> inside rows x ->
  exists v, table_value rows x = Ok (Some v) /\ on_table rows x v.
Proof.
  intros rows x N L I. destruct (interp_inside rows x N L I) as (a & b & NB & R & E).
  eexists. split; [exact E|]. exists a, b, ((x - fst a) / (fst b - fst a)).
  pose proof NB as (_ & _ & LT & _). split; [exact NB|]. split; [|split].
  - split; [apply Rmult_le_pos; [lra|]; apply Rlt_le, Rinv_0_lt_compat; lra|].
    apply Rmult_le_reg_r with (fst b - fst a); [lra|]. unfold Rdiv. rewrite Rmult_assoc, Rinv_l by lra. lra.
  - field. lra.
  - reflexivity.
Qed.
Print Assumptions C58_between_partial.

(** The tabulated value at a tabulated wavelength *)
Theorem C58_tabulated_partial : forall (rows : list (R * C)) (x : R) (y : C),
  NoDup (map fst rows) -> (2 <= length rows)%nat -> In (x, y) rows -> table_value rows x = Ok (Some y).
Proof.
  intros rows x y N L H.
  assert (I : inside rows x) by (split; exists (x, y); (split; [exact H|cbn; lra])).
  destruct (interp_inside rows x N L I) as (a & b & (A & B & LT & NB) & R & E). unfold table_value. rewrite E.
  assert (U : forall p, In p rows -> fst p = x -> p = (x, y)).
  { clear -N H. intros p P EX. destruct p as [x' y']. cbn in EX. subst x'.
    induction rows as [|r rows IH]; [destruct H|]. cbn in N. inversion N as [|? ? NI N']; subst.
    destruct H as [->|H], P as [P|P]; auto.
    - exfalso. apply NI. apply (in_map fst _ _ P).
    - exfalso. subst r. apply NI. apply (in_map fst _ _ H). }
  destruct (NB (x, y) H) as [Q|Q]; cbn in Q.
  - assert (EA : fst a = x) by lra. pose proof (U a A EA) as ->. cbn [fst snd]. do 2 f_equal.
    unfold Rdiv. rewrite Rminus_eq_0, Rmult_0_l. ring.
  - assert (EB : fst b = x) by lra. pose proof (U b B EB) as ->. cbn [fst snd] in *. do 2 f_equal.
    unfold Rdiv. rewrite Rinv_r by lra. ring.
Qed.
Print Assumptions C58_tabulated_partial.

(** Outside of the range *)
Theorem C58_outside : forall (rows : list (R * C)) (x : R), ~ inside rows x -> table_value rows x = Err ValueError.
Proof. intros rows x. apply interp_outside. Qed.
Print Assumptions C58_outside.

(** The order of the rows does not matter *)
Theorem C58_order_partial : forall (rows rows' : list (R * C)) (x : R),
  NoDup (map fst rows) -> (2 <= length rows)%nat -> Permutation rows rows' ->
  table_value rows x = table_value rows' x.
Proof.
  intros rows rows' x N L P.
  assert (N' : NoDup (map fst rows')) by (eapply Permutation_NoDup; [|exact N]; now apply Permutation_map).
  assert (L' : (2 <= length rows')%nat) by (rewrite <- (Permutation_length P); exact L).
  assert (D : inside rows x \/ ~ inside rows x).
  { pose proof (sorted_perm rows) as Q. pose proof (sorted_sorted rows) as S.
    destruct (interp rows x) eqn:E.
    - left. unfold interp in E. destruct (sorted rows) as [|p r] eqn:SE; [discriminate|].
      destruct (Rlt_dec x (fst p)); [discriminate|]. destruct (Rlt_dec (fst (last (p :: r) p)) x); [discriminate|]. split.
      + exists p. split; [apply (Permutation_in _ (Permutation_sym Q)); now left|lra].
      + exists (last (p :: r) p). split; [apply (Permutation_in _ (Permutation_sym Q)); apply last_in|lra].
    - right. intros I. destruct (interp_inside rows x N L I) as (a & b & _ & _ & F). rewrite E in F. discriminate. }
  assert (IN : forall l m, Permutation l m -> inside l x -> inside m x).
  { intros l m PM ((p & A & B) & (q & C & E)). split; [exists p|exists q]; (split; [|assumption]); now apply (Permutation_in _ PM). }
  destruct D as [I|I].
  - destruct (interp_inside rows x N L I) as (a & b & (A & B & LT & NB) & R & E).
    destruct (interp_inside rows' x N' L' (IN _ _ P I)) as (a' & b' & NB' & R' & E').
    apply (neighbours_perm _ _ _ _ (Permutation_sym P)) in NB'. destruct NB' as (A' & B' & LT' & NB').
    unfold table_value. rewrite E, E'. f_equal. f_equal.
    assert (U : forall p q, In p rows -> In q rows -> fst p = fst q -> p = q).
    { clear -N. intros p q HP HQ EF. induction rows as [|r rows IH]; [destruct HP|]. cbn in N. inversion N as [|? ? NI N']; subst.
      destruct HP as [->|HP], HQ as [HQ|HQ]; auto.
      - exfalso. apply NI. rewrite EF. now apply in_map.
      - exfalso. subst r. apply NI. rewrite <- EF. now apply in_map. }
    (* the same segment, or the common end of two *)
    destruct (NB a' A') as [Q1|Q1].
    + destruct (NB' a A) as [Q2|Q2].
      * assert (fst a = fst a') by lra. pose proof (U a a' A A' H) as ->.
        destruct (NB b' B') as [Q3|Q3]; [lra|]. destruct (NB' b B) as [Q4|Q4]; [lra|].
        assert (H2 : fst b = fst b') by lra. now rewrite (U b b' B B' H2).
      * assert (XA : x = fst a) by lra. assert (XB : x = fst b') by lra.
        assert (H2 : fst a = fst b') by lra. pose proof (U a b' A B' H2) as ->.
        rewrite XB. unfold Rdiv at 1. rewrite Rminus_eq_0, Rmult_0_l. unfold Rdiv. rewrite Rinv_r by lra. ring.
    + assert (XA : x = fst a') by lra. assert (XB : x = fst b) by lra.
      assert (H2 : fst a' = fst b) by lra. pose proof (U a' b A' B H2) as ->.
      rewrite XB. unfold Rdiv at 2. rewrite Rminus_eq_0, Rmult_0_l. unfold Rdiv. rewrite Rinv_r by lra. ring.
  - unfold table_value. rewrite (interp_outside rows x I). symmetry. apply interp_outside. intros K. apply I.
    apply (IN _ _ (Permutation_sym P) K).
Qed.
Print Assumptions C58_order_partial.

(** Rows at 600, 400 and 500 nm; the value at 450 nm *)
Example C58_example : exists rows v,
  table [600; 400; 500] [RtoC 3; RtoC 1; (2, 1)%R] = Ok rows /\ inside rows 450 /\
  table_value rows 450 = Ok (Some v) /\ v = (3 / 2, 1 / 2)%R /\ table_value rows 300 = Err ValueError.
Proof.
  exists [(600, RtoC 3); (400, RtoC 1); (500, (2, 1)%R)], (3 / 2, 1 / 2)%R. split; [reflexivity|]. split; [|split; [|split; [reflexivity|]]].
  - split; [exists (400, RtoC 1)|exists (600, RtoC 3)]; cbn; split; auto; lra.
  - assert (E : sorted [(600, RtoC 3); (400, RtoC 1); (500, (2, 1)%R)] = [(400, RtoC 1); (500, (2, 1)%R); (600, RtoC 3)]).
    { unfold sorted. cbn [fold_right insert fst]. destruct (Rlt_dec 500 400); [exfalso; lra|]. cbn [insert fst].
      destruct (Rlt_dec 400 600); [|exfalso; lra]. destruct (Rlt_dec 500 600); [|exfalso; lra]. reflexivity. }
    unfold table_value, interp. rewrite E. cbn [last fst].
    destruct (Rlt_dec 450 400); [exfalso; lra|]. destruct (Rlt_dec 600 450); [exfalso; lra|].
    unfold segment, segment_from. cbn [fst]. destruct (Rle_dec 450 500); [|lra]. cbn [obind on_segment]. unfold rdiv.
    destruct (Req_EM_T (500 - 400) 0); [lra|]. cbn [obind]. do 2 f_equal. unfold RtoC, Cplus, Cmult, Cminus, Copp, Cplus. cbn. f_equal; field.
  - apply C58_outside. intros ((p & [<-|[<-|[<-|[]]]] & H) & _); cbn in H; lra.
Qed.
