(** C47: averages over a list of results (src/elli/result.py). *)
From Coq Require Import Reals Lra String List Arith Bool Lia.
From Coquelicot Require Import Complex.
From Verif.Base Require Import Py Cx.
From Verif.Model Require Import ResultList.
Import ListNotations.
Open Scope nat_scope.

(** The number of elements of an array of this shape *)
Definition size (sh : list nat) : nat := fold_right Nat.mul 1 sh.
Definition well_formed (a : arr C) : Prop := length (data a) = size (shape a).
Definition drop_ones (sh : list nat) : list nat := filter (fun n => negb (n =? 1)) sh.

(** Arithmetic mean of numbers *)
Definition average (l : list C) : C := Cdiv (fold_right Cplus (RtoC 0) l) (RtoC (INR (length l))).

Lemma rmapM_Ok {A B} (f : A -> res B) l bs : map f l = map Ok bs -> rmapM f l = Ok bs.
Proof.
  revert bs. induction l as [|a l IH]; intros [|b bs]; cbn; try discriminate; auto.
  intro H. injection H as H1 H2. rewrite H1, (IH bs H2). reflexivity.
Qed.

Lemma rmapM_Err {A B} (f : A -> res B) l1 a l2 e bs : map f l1 = map Ok bs -> f a = Err e -> rmapM f (l1 ++ a :: l2) = Err e.
Proof.
  revert bs. induction l1 as [|x l1 IH]; intros [|b bs]; cbn; try discriminate.
  - intros _ ->. reflexivity.
  - intros H E. injection H as H1 H2. rewrite H1, (IH bs H2 E). reflexivity.
Qed.

Lemma nth_concat {A} (ls : list (list A)) m i k d : Forall (fun l => length l = m) ls -> i < length ls -> k < m ->
  nth (i * m + k) (concat ls) d = nth k (nth i ls []) d.
Proof.
  intro F. revert i. induction F as [|l ls H F IH]; intros i Hi Hk; [inversion Hi|]. cbn [concat length] in *.
  destruct i as [|i].
  - cbn [Nat.mul Nat.add nth]. apply app_nth1. lia.
  - rewrite app_nth2 by (rewrite H; cbn; lia). rewrite H. replace (S i * m + k - m) with (i * m + k) by (cbn; lia). apply IH; lia.
Qed.

Lemma size_drop_ones sh : size (drop_ones sh) = size sh.
Proof.
  induction sh as [|n sh IH]; [reflexivity|]. cbn. destruct (Nat.eqb_spec n 1); cbn.
  - subst. unfold drop_ones, size in IH. rewrite IH. lia.
  - unfold drop_ones, size in IH. now rewrite IH.
Qed.

Lemma map_nth_seq {A B} (f : A -> B) (l : list A) d : map (fun i => f (nth i l d)) (seq 0 (length l)) = map f l.
Proof.
  induction l as [|a l IH]; [reflexivity|]. cbn [length seq map nth]. f_equal. rewrite <- seq_shift, map_map. exact IH.
Qed.

Lemma same_shape_eqb (l : list (arr C)) sh : Forall (fun a => shape a = sh) l -> forall a l', l = a :: l' ->
  forallb (fun b => list_nat_eqb (shape b) (shape a)) l = true.
Proof.
  intros F a l' ->. inversion F as [|? ? Ha F']. apply forallb_forall. intros b Hb. rewrite Forall_forall in F. rewrite (F b Hb), Ha.
  unfold list_nat_eqb. destruct list_eq_dec; congruence.
Qed.

(** C47: for a list of at least two results with arrays of the same shape, the mean is the
    elementwise mean.  Axes of length one are lost. *)
Theorem C47_mean_partial : forall (rs : list result) name (l : list (arr C)) sh,
  name <> "mean"%string -> map (fun r : result => r name) rs = map Ok l -> 2 <= length l ->
  Forall (fun a => shape a = sh /\ well_formed a) l ->
  exists v, mean_attr rs name = Ok v /\ shape v = drop_ones sh /\ length (data v) = size sh /\
    forall k, k < size sh -> nth k (data v) None = Some (average (map (fun a => nth k (data a) (RtoC 0)) l)).
Proof.
  intros rs name l sh N M L F. unfold mean_attr. apply String.eqb_neq in N. rewrite N. unfold list_attr.
  rewrite (rmapM_Ok _ _ _ M). cbn [rbind].
  assert (F1 : Forall (fun a => shape a = sh) l) by (eapply Forall_impl; [|exact F]; now intros a [H _]).
  assert (NP : np_array l = Ok (mkarr (length l :: sh) (concat (map data l)))).
  { destruct l as [|a l']; [cbn in L; lia|]. unfold np_array. rewrite (same_shape_eqb _ sh F1 a l' eq_refl). inversion F1. congruence. }
  rewrite NP. cbn [rbind]. unfold squeeze, mean0. cbn [shape data filter].
  replace (length l =? 1) with false by (symmetry; apply Nat.eqb_neq; lia). cbn [negb].
  fold (drop_ones sh). fold (size (drop_ones sh)). rewrite size_drop_ones. eexists. split; [reflexivity|]. cbn [shape data].
  split; [reflexivity|]. split; [now rewrite map_length, seq_length|]. intros k Hk.
  set (g := fun k => cdiv _ _). rewrite (nth_indep _ None (g 0)) by (rewrite map_length, seq_length; exact Hk).
  rewrite map_nth, seq_nth by exact Hk. cbn [Nat.add]. unfold g.
  rewrite cdiv_some by (apply C_of_R_neq, not_0_INR; lia). f_equal. unfold average. rewrite map_length. f_equal. unfold csum. f_equal.
  rewrite <- (map_nth_seq (fun a => nth k (data a) (RtoC 0)) l (mkarr [] [])). apply map_ext_in. intros i Hi. apply in_seq in Hi.
  rewrite nth_concat; [|rewrite Forall_map|rewrite map_length; lia|exact Hk].
  - rewrite (nth_indep _ [] (data (mkarr [] []))) by (rewrite map_length; lia). now rewrite map_nth.
  - eapply Forall_impl; [|exact F]. intros a [S W]. rewrite W, S. reflexivity.
Qed.
Print Assumptions C47_mean_partial.

(** C47: a list with one result is averaged over the wavelengths instead. *)
Theorem C47_single : forall (r : result) name a n rest, name <> "mean"%string ->
  r name = Ok a -> well_formed a -> drop_ones (shape a) = n :: rest -> 0 < n ->
  exists v, mean_attr [r] name = Ok v /\ shape v = rest /\
    forall k, k < size rest -> nth k (data v) None = Some (average (map (fun i => nth (i * size rest + k) (data a) (RtoC 0)) (seq 0 n))).
Proof.
  intros r name a n rest N E W D n0. unfold mean_attr. apply String.eqb_neq in N. rewrite N. unfold list_attr. cbn [rmapM].
  rewrite E. cbn [rbind np_array forallb]. unfold list_nat_eqb at 1. destruct list_eq_dec as [_|X]; [|now destruct X].
  cbn [andb rbind length map concat]. rewrite app_nil_r. unfold squeeze, mean0. cbn [shape data filter Nat.eqb negb]. fold (drop_ones (shape a)). rewrite D.
  eexists. split; [reflexivity|]. cbn [shape data]. split; [reflexivity|]. fold (size rest). intros k Hk.
  set (g := fun k => cdiv _ _). rewrite (nth_indep _ None (g 0)) by (rewrite map_length, seq_length; exact Hk).
  rewrite map_nth, seq_nth by exact Hk. cbn [Nat.add]. unfold g.
  rewrite cdiv_some by (apply C_of_R_neq, not_0_INR; lia). unfold average, csum. now rewrite map_length, seq_length.
Qed.

Definition two_points : result := fun _ => Ok (mkarr [2] [RtoC 10; RtoC 20]).

Theorem C47_mean_refuted : exists (rs : list result) name (l : list (arr C)) sh v,
  rs <> [] /\ map (fun r : result => r name) rs = map Ok l /\ Forall (fun a => shape a = sh /\ well_formed a) l /\
  mean_attr rs name = Ok v /\ (shape v <> sh /\ length (data v) <> size sh).
Proof.
  exists [two_points], "psi"%string, [mkarr [2] [RtoC 10; RtoC 20]], [2].
  destruct (C47_single two_points "psi" (mkarr [2] [RtoC 10; RtoC 20]) 2 []) as (v & V & S & _); try reflexivity; try discriminate; [lia|].
  exists v. split; [discriminate|]. split; [reflexivity|]. split; [constructor; [split; reflexivity|constructor]|].
  split; [exact V|]. revert V. cbn. intro V. injection V as <-. cbn. split; [discriminate|lia].
Qed.

(** C47: one wavelength and one result: there is no axis left to average over. *)
Theorem C47_scalar : forall (r : result) name a, name <> "mean"%string -> r name = Ok a -> drop_ones (shape a) = [] ->
  mean_attr [r] name = Err AxisError.
Proof.
  intros r name a N E D. unfold mean_attr. apply String.eqb_neq in N. rewrite N. unfold list_attr. cbn [rmapM].
  rewrite E. cbn [rbind np_array forallb]. unfold list_nat_eqb at 1. destruct list_eq_dec as [_|X]; [|now destruct X].
  cbn [andb rbind]. unfold squeeze, mean0. cbn [shape data filter Nat.eqb negb length]. fold (drop_ones (shape a)). now rewrite D.
Qed.

(** C47: no mean of a mean, no mean of arrays of different shape, and an unknown name raises what
    the first result raises. *)
Theorem C47_rejected : forall rs name,
  mean_attr rs "mean" = Err ValueError /\
  (name <> "mean"%string -> forall l a b, map (fun r : result => r name) rs = map Ok l ->
     In a l -> In b l -> shape a <> shape b -> mean_attr rs name = Err ValueError) /\
  (name <> "mean"%string -> forall e r rest, rs = r :: rest -> r name = Err e -> mean_attr rs name = Err e).
Proof.
  intros rs name. split; [reflexivity|]. split.
  - intros N l a b M A B AB. unfold mean_attr. apply String.eqb_neq in N. rewrite N. unfold list_attr. rewrite (rmapM_Ok _ _ _ M). cbn [rbind].
    destruct l as [|c l]; [destruct A|]. unfold np_array. destruct forallb eqn:F; [|reflexivity]. exfalso. rewrite forallb_forall in F.
    assert (Q : forall x, In x (c :: l) -> shape x = shape c). { intros x Hx. specialize (F x Hx). unfold list_nat_eqb in F. destruct list_eq_dec; [assumption|discriminate]. }
    apply AB. now rewrite (Q a A), (Q b B).
  - intros N e r rest -> E. unfold mean_attr. apply String.eqb_neq in N. rewrite N. unfold list_attr. cbn. now rewrite E.
Qed.

(** C47: without the average, the list gives the arrays of its results one after another. *)
Theorem C47_stack : forall (rs : list result) name l sh, map (fun r : result => r name) rs = map Ok l -> 1 <= length l ->
  Forall (fun a => shape a = sh) l ->
  list_attr rs name = Ok (mkarr (drop_ones (length l :: sh)) (concat (map data l))).
Proof.
  intros rs name l sh M L F1. unfold list_attr. rewrite (rmapM_Ok _ _ _ M). cbn [rbind].
  destruct l as [|a l']; [cbn in L; lia|]. unfold np_array. rewrite (same_shape_eqb _ sh F1 a l' eq_refl). inversion F1. subst. reflexivity.
Qed.

Definition more_points : result := fun _ => Ok (mkarr [2] [RtoC 30; RtoC 50]).

Example C47_example : exists v, mean_attr [two_points; more_points] "psi" = Ok v /\ shape v = [2] /\ data v = [Some (RtoC 20); Some (RtoC 35)].
Proof.
  destruct (C47_mean_partial [two_points; more_points] "psi" [mkarr [2] [RtoC 10; RtoC 20]; mkarr [2] [RtoC 30; RtoC 50]] [2]) as (v & V & S & L & D);
    [discriminate|reflexivity|cbn; lia|repeat constructor|].
  exists v. split; [exact V|]. split; [exact S|]. assert (D0 := D 0 ltac:(cbn; lia)). assert (D1 := D 1 ltac:(cbn; lia)).
  destruct (data v) as [|x [|y [|]]]; try discriminate L. cbn [nth] in D0, D1. rewrite D0, D1. unfold average. cbn [map fold_right length nth data INR].
  repeat f_equal; (apply C_ext; cbn; field).
Qed.
