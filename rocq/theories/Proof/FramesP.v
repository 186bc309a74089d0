(** Lemmas for Props/FramesT.v. *)
From Coq Require Import Reals Lra Psatz Lia.
From Coquelicot Require Import Complex.
From Coq Require Import List Bool.
From Verif.Base Require Import Py Cx.
From Verif.Model Require Import Frames.
From Verif.Spec Require Import Rows.
Import ListNotations.
Open Scope R_scope.
Open Scope C_scope.
Open Scope py_scope.

Section DispInd.
Variable P : disp -> Prop.
Hypothesis H1 : forall k s, P (One k s).
Hypothesis H2 : forall k ps, Forall P ps -> P (Total k ps).
Hypothesis H3 : forall d, P d -> P (AsIndex d).
Fixpoint disp_tree_ind (d : disp) : P d :=
  match d with
  | One k s => H1 k s
  | Total k ps => H2 k ps ((fix go (ps : list disp) : Forall P ps := match ps with [] => Forall_nil _ | p :: ps => Forall_cons _ (disp_tree_ind p) (go ps) end) ps)
  | AsIndex d => H3 d (disp_tree_ind d)
  end.
End DispInd.

Definition add_up (w : wl) (acc : value) (ps : list disp) : res value :=
  fold_left (fun a p => let* acc := a in let* v := own_function p w in Ok (vadd acc v)) ps (Ok acc).
Lemma add_up_err w e ps : fold_left (fun a p => let* acc := a in let* v := own_function p w in Ok (vadd acc v)) ps (Err e) = Err e.
Proof. induction ps; [reflexivity|]. cbn. exact IHps. Qed.
Lemma own_total k ps w : own_function (Total k ps) w = add_up w (V0 (Some (RtoC 0))) ps.
Proof.
  cbn [own_function]. generalize (V0 (Some (RtoC 0))). unfold add_up. induction ps as [|p ps IH]; intros acc; [reflexivity|]. cbn [fold_left rbind].
  destruct (own_function p w) as [v|e]; cbn [rbind]; [apply IH|]. now rewrite add_up_err.
Qed.
Lemma add_up_cons w acc p ps : add_up w acc (p :: ps) = let* v := own_function p w in add_up w (vadd acc v) ps.
Proof. unfold add_up. cbn [fold_left rbind]. destruct (own_function p w); cbn [rbind]; [reflexivity|apply add_up_err]. Qed.

(** A result for n wavelengths as a list *)
Definition spread (n : nat) (v : value) : list (option C) := match v with V0 c => repeat c n | V1 l => l end.
Definition fits (n : nat) (v : value) : Prop := match v with V0 _ => True | V1 l => length l = n end.
Lemma spread_length n v : fits n v -> length (spread n v) = n.
Proof. destruct v; cbn; [intros _; apply repeat_length|tauto]. Qed.
Lemma nth_spread_vmap f n v i : nth_error (spread n (vmap f v)) i = option_map (option_map f) (nth_error (spread n v) i).
Proof.
  destruct v as [c|l]; cbn.
  - revert i. induction n; intros [|i]; cbn; auto.
  - apply nth_error_map.
Qed.
Lemma fits_vmap f n v : fits n v -> fits n (vmap f v).
Proof. destruct v; cbn; [tauto|]. now rewrite map_length. Qed.
Lemma nth_repeat_lt {A} (c : A) n i : (i < n)%nat -> nth_error (repeat c n) i = Some c.
Proof. revert i. induction n; intros [|i] H; cbn; try lia; [reflexivity|]. apply IHn. lia. Qed.
Lemma fits_vadd n a b : fits n a -> fits n b -> fits n (vadd a b).
Proof. destruct a, b; cbn; try tauto; rewrite ?map_length; try tauto. rewrite combine_length. lia. Qed.
Lemma nth_combine {A B} (l : list A) (m : list B) i a b : nth_error l i = Some a -> nth_error m i = Some b -> nth_error (combine l m) i = Some (a, b).
Proof. revert m i. induction l as [|x l IH]; intros [|y m] [|i]; cbn; try discriminate; [congruence|apply IH]. Qed.
Lemma nth_spread_vadd n a b i x y : (i < n)%nat -> fits n a -> fits n b ->
  nth_error (spread n a) i = Some x -> nth_error (spread n b) i = Some y -> nth_error (spread n (vadd a b)) i = Some (oadd x y).
Proof.
  intros Hi Fa Fb. destruct a as [c|l], b as [c'|l']; cbn; intros Hx Hy.
  - rewrite nth_repeat_lt in Hx, Hy by exact Hi. rewrite nth_repeat_lt by exact Hi. congruence.
  - rewrite nth_repeat_lt in Hx by exact Hi. rewrite nth_error_map, Hy. cbn. congruence.
  - rewrite nth_repeat_lt in Hy by exact Hi. rewrite nth_error_map, Hx. cbn. congruence.
  - rewrite nth_error_map, (nth_combine _ _ _ _ _ Hx Hy). reflexivity.
Qed.
Lemma in_range_nth lo hi l i x : forallb (in_range lo hi) l = true -> nth_error l i = Some x -> in_range lo hi x = true.
Proof. intros H Hx. rewrite forallb_forall in H. apply H. now apply nth_error_In in Hx. Qed.
Lemma forallb_false {A} (f : A -> bool) l : forallb f l = false -> exists x, In x l /\ f x = false.
Proof. induction l as [|a l IH]; cbn; [discriminate|]. destruct (f a) eqn:E; [|eauto]. cbn. intros H. destruct (IH H) as (x & Hx & Hf). eauto. Qed.

(** What is returned for an array *)
Definition pointwise (F : wl -> res value) (l : list R) : Prop :=
  (exists v, F (WArr l) = Ok v /\ fits (length l) v /\
     forall i x, nth_error l i = Some x -> exists c, F (WNum x) = Ok (V0 c) /\ nth_error (spread (length l) v) i = Some c) \/
  (F (WArr l) = Err ValueError /\ exists x, In x l /\ F (WNum x) = Err ValueError).
Definition numeric (F : wl -> res value) : Prop := forall x, (exists c, F (WNum x) = Ok (V0 c)) \/ F (WNum x) = Err ValueError.
Lemma pointwise_map F f l : pointwise F l -> pointwise (fun w => rmap (vmap f) (F w)) l.
Proof.
  intros [(v & E & S & H)|(E & x & Hx & Ex)].
  - left. exists (vmap f v). rewrite E. split; [reflexivity|]. split; [now apply fits_vmap|]. intros i x Hi. destruct (H i x Hi) as (c & -> & Hc). exists (option_map f c). split; [reflexivity|]. rewrite nth_spread_vmap, Hc. reflexivity.
  - right. rewrite E. split; [reflexivity|]. exists x. rewrite Ex. auto.
Qed.
Lemma numeric_map F f : numeric F -> numeric (fun w => rmap (vmap f) (F w)).
Proof. intros H x. destruct (H x) as [[c ->]| ->]; [left; eexists; reflexivity|right; reflexivity]. Qed.
Lemma own_numeric d : numeric (own_function d).
Proof.
  induction d as [k s|k ps IH|d IH] using disp_tree_ind.
  - intros x. destruct s as [[] c|f|lo hi o f]; cbn; try (left; eexists; reflexivity). destruct (in_range lo hi x); [left; eexists; reflexivity|right; reflexivity].
  - intros x. rewrite own_total. assert (X : forall c, (exists c', add_up (WNum x) (V0 c) ps = Ok (V0 c')) \/ add_up (WNum x) (V0 c) ps = Err ValueError); [|apply X].
    induction IH as [|p ps IH _ IHps]; intros c; [left; eexists; reflexivity|]. rewrite add_up_cons. destruct (IH x) as [[a ->]| ->]; cbn [rbind vadd]; [apply IHps|right; reflexivity].
  - exact (numeric_map _ Csqrt IH).
Qed.
Lemma add_num_err x c ps p : In p ps -> own_function p (WNum x) = Err ValueError -> add_up (WNum x) (V0 c) ps = Err ValueError.
Proof.
  revert c. induction ps as [|q ps IH]; intros c H E; [destruct H|]. destruct H as [->|H]; rewrite add_up_cons.
  - now rewrite E.
  - destruct (own_numeric q x) as [[a ->]| ->]; cbn [rbind vadd]; [now apply IH|reflexivity].
Qed.
Lemma own_pointwise d l : pointwise (own_function d) l.
Proof.
  induction d as [k s|k ps IH|d IH] using disp_tree_ind.
  - destruct s as [[] c|f|lo hi o f].
    + left. exists (V0 c). split; [reflexivity|]. split; [exact I|]. intros i x Hi. exists c. split; [reflexivity|]. apply nth_repeat_lt. apply nth_error_Some. congruence.
    + left. exists (V0 c). split; [reflexivity|]. split; [exact I|]. intros i x Hi. exists c. split; [reflexivity|]. apply nth_repeat_lt. apply nth_error_Some. congruence.
    + left. exists (V1 (map f l)). split; [reflexivity|]. split; [apply map_length|]. intros i x Hi. exists (f x). split; [reflexivity|]. cbn. now rewrite nth_error_map, Hi.
    + unfold pointwise. cbn [own_function single_at]. destruct (forallb (in_range lo hi) l) eqn:E.
      * left. exists (V1 (map f l)). split; [reflexivity|]. split; [apply map_length|]. intros i x Hi. exists (f x). rewrite (in_range_nth _ _ _ _ _ E Hi). split; [reflexivity|]. cbn. now rewrite nth_error_map, Hi.
      * right. split; [reflexivity|]. destruct (forallb_false _ _ E) as (x & Hx & Hf). exists x. rewrite Hf. auto.
  - unfold pointwise. rewrite own_total.
    assert (X : forall acc (a : R -> option C), fits (length l) acc -> (forall i x, nth_error l i = Some x -> nth_error (spread (length l) acc) i = Some (a x)) ->
      (exists v, add_up (WArr l) acc ps = Ok v /\ fits (length l) v /\ forall i x, nth_error l i = Some x -> exists c, add_up (WNum x) (V0 (a x)) ps = Ok (V0 c) /\ nth_error (spread (length l) v) i = Some c) \/
      (add_up (WArr l) acc ps = Err ValueError /\ exists x p, In x l /\ In p ps /\ own_function p (WNum x) = Err ValueError)).
    { induction IH as [|p ps IH _ IHps]; intros acc a Fa Ha.
      - left. exists acc. split; [reflexivity|]. split; [exact Fa|]. intros i x Hi. exists (a x). split; [reflexivity|now apply Ha].
      - rewrite add_up_cons. destruct IH as [(v & E & Fv & H)|(E & x & Hx & Ex)].
        + rewrite E. cbn [rbind]. set (b := fun x => match own_function p (WNum x) with Ok (V0 c) => oadd (a x) c | _ => None end).
          destruct (IHps (vadd acc v) b) as [(v' & E' & Fv' & H')|(E' & x & q & Hx & Hq & Ex)].
          * now apply fits_vadd.
          * intros i x Hi. destruct (H i x Hi) as (c & Hc & Hn). unfold b. rewrite Hc. apply nth_spread_vadd; auto. apply nth_error_Some. congruence.
          * left. exists v'. split; [exact E'|]. split; [exact Fv'|]. intros i x Hi. destruct (H i x Hi) as (c & Hc & Hn). destruct (H' i x Hi) as (c' & Hc' & Hn'). exists c'. split; [|exact Hn']. rewrite add_up_cons, Hc. cbn [rbind vadd]. unfold b in Hc'. now rewrite Hc in Hc'.
          * right. split; [exact E'|]. exists x, q. split; [exact Hx|]. split; [now right|exact Ex].
        + right. rewrite E. split; [reflexivity|]. exists x, p. split; [exact Hx|]. split; [now left|exact Ex]. }
    destruct (X (V0 (Some (RtoC 0))) (fun _ => Some (RtoC 0)) I) as [(v & E & Fv & H)|(E & x & p & Hx & Hp & Ex)].
    + intros i x Hi. apply nth_repeat_lt. apply nth_error_Some. congruence.
    + left. exists v. split; [exact E|]. split; [exact Fv|]. intros i x Hi. rewrite own_total. now apply H.
    + right. split; [exact E|]. exists x. split; [exact Hx|]. rewrite own_total. now apply (add_num_err x _ ps p).
  - exact (pointwise_map _ Csqrt l IH).
Qed.
Lemma dielectric_pointwise d l : pointwise (get_dielectric d) l /\ numeric (get_dielectric d).
Proof.
  assert (A := own_pointwise d l). assert (B := own_numeric d). unfold get_dielectric, pointwise, numeric. cbn [or_default]. destruct d as [[] s|[] ps|d]; cbn [dielectric_function kind_of]; try (split; [exact A|exact B]).
  - split; [exact (pointwise_map _ (fun n => n * n) l A)|exact (numeric_map _ (fun n => n * n) B)].
  - split; [exact (pointwise_map _ (fun n => n * n) l A)|exact (numeric_map _ (fun n => n * n) B)].
  - split; [exact (own_pointwise d l)|exact (own_numeric d)].
Qed.
Lemma index_pointwise d l : pointwise (get_refractive_index d) l /\ numeric (get_refractive_index d).
Proof.
  unfold get_refractive_index. destruct (kind_of d) eqn:K.
  - destruct (dielectric_pointwise d l) as [A B]. unfold get_dielectric in A, B. split; [exact (pointwise_map _ Csqrt l A)|exact (numeric_map _ Csqrt B)].
  - split; [exact (own_pointwise d l)|exact (own_numeric d)].
Qed.
(** The two results belong together. *)
Definition square_of (v n : value) : Prop := match v, n with
  | V0 e, V0 m => e = option_map (fun m => m * m) m
  | V1 e, V1 m => e = map (option_map (fun m => m * m)) m
  | _, _ => False end.
Lemma square_csqrt v : square_of v (vmap Csqrt v).
Proof.
  destruct v as [[c|]|l]; cbn; [now rewrite Csqrt_sqr|reflexivity|]. rewrite map_map. symmetry. rewrite <- (map_id l) at 2. apply map_ext. intros [c|]; cbn; [now rewrite Csqrt_sqr|reflexivity].
Qed.
Lemma square_vmap n : square_of (vmap (fun m => m * m) n) n.
Proof. destruct n; reflexivity. Qed.
Lemma both d w : match get_dielectric d w, get_refractive_index d w with Ok v, Ok n => square_of v n | Err e, Err e' => e = e' | _, _ => False end.
Proof.
  unfold get_dielectric, get_refractive_index. destruct d as [[] s|[] ps|d]; cbn [dielectric_function kind_of].
  1, 3: destruct (own_function _ _); cbn [rmap]; [apply square_csqrt|reflexivity].
  1, 2: destruct (own_function _ _); cbn [rmap]; [apply square_vmap|reflexivity].
  set (w' := or_default (AsIndex d) w). cbn [own_function]. destruct (own_function d w'); cbn [rmap]; [apply square_csqrt|reflexivity].
Qed.
(** Lists *)
Lemma own_lists d l : takes_lists d = true -> own_function d (WSeq l) = own_function d (WArr l).
Proof.
  induction d as [k s|k ps IH|d IH] using disp_tree_ind.
  - destruct s as [[] c|f|lo hi o f]; cbn; try discriminate; reflexivity.
  - rewrite !own_total. generalize (V0 (Some (RtoC 0))). induction IH as [|p ps IH _ IHps]; intros acc H; [reflexivity|]. cbn in H. apply andb_prop in H. destruct H as [H1 H2]. rewrite !add_up_cons, (IH H1). destruct (own_function p (WArr l)); cbn [rbind]; [|reflexivity]. now apply IHps.
  - cbn. intros H. now rewrite (IH H).
Qed.
Lemma own_no_lists d l v : takes_lists d = false -> own_function d (WArr l) = Ok v -> own_function d (WSeq l) = Err TypeError.
Proof.
  revert v. induction d as [k s|k ps IH|d IH] using disp_tree_ind; intros v.
  - destruct s as [[] c|f|lo hi o f]; cbn; try discriminate; reflexivity.
  - rewrite !own_total. generalize (V0 (Some (RtoC 0))). revert v. induction IH as [|p ps IH _ IHps]; intros v acc H; [discriminate|]. cbn in H. rewrite !add_up_cons. destruct (own_function p (WArr l)) as [a|] eqn:E; [|discriminate]. cbn [rbind]. intros Q.
    destruct (takes_lists p) eqn:T; cbn in H.
    + rewrite (own_lists p l T), E. cbn [rbind]. now apply (IHps v).
    + now rewrite (IH a eq_refl eq_refl).
  - cbn. intros H. destruct (own_function d (WArr l)) as [a|] eqn:E; [|discriminate]. intros _. now rewrite (IH a H eq_refl).
Qed.
Lemma own_no_lists_err d l v : takes_lists d = false -> own_function d (WSeq l) <> Ok v.
Proof.
  revert v. induction d as [k s|k ps IH|d IH] using disp_tree_ind; intros v.
  - destruct s as [[] c|f|lo hi o f]; cbn; discriminate.
  - rewrite !own_total. generalize (V0 (Some (RtoC 0))). revert v. induction IH as [|p ps IH _ IHps]; intros v acc H; [discriminate|]. cbn in H. rewrite !add_up_cons. destruct (own_function p (WSeq l)) as [a|] eqn:E; [|discriminate]. cbn [rbind].
    destruct (takes_lists p) eqn:T; cbn in H; [now apply IHps|]. exfalso. now apply (IH a eq_refl).
  - cbn. intros H. destruct (own_function d (WSeq l)) as [a|] eqn:E; [|discriminate]. exfalso. now apply (IH a H).
Qed.
Lemma list_ext {A} (l m : list A) : length l = length m -> (forall i x, nth_error l i = Some x -> nth_error m i = Some x) -> l = m.
Proof.
  revert m. induction l as [|a l IH]; intros [|b m]; cbn; try discriminate; [reflexivity|]. intros H E. f_equal; [symmetry; assert (X := E 0%nat a eq_refl); cbn in X; congruence|]. apply IH; [lia|]. intros i x Hi. exact (E (S i) x Hi).
Qed.
Lemma nth_column n f v i : nth_error (column n f v) i = option_map (option_map f) (nth_error (spread n v) i).
Proof.
  destruct v as [c|l]; cbn.
  - revert i. induction n; intros [|i]; cbn; auto.
  - apply nth_error_map.
Qed.
Lemma column_length n f v : fits n v -> length (column n f v) = n.
Proof. destruct v; cbn; [intros _; apply repeat_length|now rewrite map_length]. Qed.
Definition second (conjugate : bool) (c : C) : R := if conjugate then (- Im c)%R else Im c.
Lemma frame_rows F l cj G : pointwise F l ->
  (let* v := F (WArr l) in make_frame (WArr l) cj v) = Ok G <->
  index G = l /\ length (col1 G) = length l /\ length (col2 G) = length l /\
  forall i x, nth_error l i = Some x -> exists c, F (WNum x) = Ok (V0 c) /\
    nth_error (col1 G) i = Some (option_map Re c) /\ nth_error (col2 G) i = Some (option_map (second cj) c).
Proof.
  intros [(v & E & S & H)|(E & x & Hx & Ex)]; rewrite E; cbn [rbind].
  - cbn [make_frame]. split.
    + intros Q. injection Q as <-. cbn [index col1 col2]. split; [reflexivity|]. rewrite !column_length by exact S. do 2 (split; [reflexivity|]). intros i x Hi. destruct (H i x Hi) as (c & Hc & Hn). exists c. split; [exact Hc|]. rewrite !nth_column, Hn. auto.
    + intros (I & L1 & L2 & Q). destruct G as [ix c1 c2]. cbn [index col1 col2] in *. subst ix. f_equal. f_equal.
      * apply list_ext; [rewrite column_length by exact S; congruence|]. intros i y Hy. assert (Hi : (i < length l)%nat) by (rewrite <- (column_length (length l) Re v S); apply nth_error_Some; congruence). apply nth_error_Some in Hi. destruct (nth_error l i) as [x|] eqn:X; [|congruence]. destruct (H i x X) as (c & Hc & Hn). destruct (Q i x X) as (c' & Hc' & Q1 & _). rewrite nth_column, Hn in Hy. cbn in Hy. rewrite Q1. congruence.
      * apply list_ext; [rewrite column_length by exact S; congruence|]. intros i y Hy. assert (Hi : (i < length l)%nat) by (rewrite <- (column_length (length l) (second cj) v S); apply nth_error_Some; unfold second; congruence). apply nth_error_Some in Hi. destruct (nth_error l i) as [x|] eqn:X; [|congruence]. destruct (H i x X) as (c & Hc & Hn). destruct (Q i x X) as (c' & Hc' & _ & Q1). rewrite nth_column, Hn in Hy. cbn in Hy. rewrite Q1. unfold second. congruence.
  - split; [discriminate|]. intros (_ & _ & _ & Q). exfalso. apply In_nth_error in Hx. destruct Hx as [i Hi]. destruct (Q i x Hi) as (c & Hc & _). congruence.
Qed.
