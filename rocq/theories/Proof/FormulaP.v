(** Lemmas on the evaluation of formulas over arrays. *)
From Coq Require Import String List Arith Bool Lia.
From Verif.Base Require Import Py.
From Verif.Model Require Import Formula.
From Verif.Spec Require Import Meaning.
Import ListNotations.
Open Scope nat_scope.
Open Scope list_scope.

Lemma map2_length {X Y Z} (f : X -> Y -> Z) l m : length l = length m -> length (map2 f l m) = length l.
Proof. revert m. induction l as [|x l IH]; intros [|y m]; cbn; auto. Qed.

Lemma map2_nth {X Y Z} (f : X -> Y -> Z) l m i : nth_error (map2 f l m) i =
  match nth_error l i, nth_error m i with Some x, Some y => Some (f x y) | _, _ => None end.
Proof.
  revert m i. induction l as [|x l IH]; intros m i.
  - cbn. destruct i; reflexivity.
  - destruct m as [|y m]; cbn.
    + destruct i; cbn; [reflexivity|]. destruct (nth_error l i); [|reflexivity]. now destruct i.
    + destruct i; cbn; auto.
Qed.

Lemma map_nth_err {X Y} (f : X -> Y) l i : nth_error (map f l) i = option_map f (nth_error l i).
Proof. revert l. induction i as [|i IH]; intros [|x l]; cbn; auto. Qed.

Lemma collect_nth {A} (l : list (option A)) r : collect A l = Some r ->
  length r = length l /\ forall i, nth_error l i = option_map Some (nth_error r i).
Proof.
  revert r. induction l as [|[a|] l IH]; cbn; intros r H.
  - injection H as <-. split; [reflexivity|]. now intros [|i].
  - destruct (collect A l) as [s|]; [|discriminate]. injection H as <-. destruct (IH s eq_refl) as [L E]. split; [cbn; lia|]. intros [|i]; [reflexivity|]. apply E.
  - discriminate.
Qed.

Lemma collect_some {A} (l : list (option A)) r : length r = length l -> (forall i a, nth_error r i = Some a -> nth_error l i = Some (Some a)) -> collect A l = Some r.
Proof.
  revert r. induction l as [|o l IH]; intros [|a r]; cbn; intros L H; try discriminate; [reflexivity|].
  assert (E := H 0 a eq_refl). cbn in E. injection E as ->. rewrite (IH r); [reflexivity|lia|]. intros i x N. exact (H (Datatypes.S i) x N).
Qed.

(** The parameter sets *)
Section Sets.
Context {X : Type}.

(** Set number i of a dictionary of lists *)
Definition set_at (rep : list (string * list X)) (i : nat) : list (string * X) :=
  flat_map (fun p => match nth_error (snd p) i with Some v => [(fst p, v)] | None => [] end) rep.

Lemma put_values_eq k (values : list X) sets : length values = length sets ->
  put_values k values sets = map2 (fun s v => s ++ [(k, v)]) sets values.
Proof. revert sets. induction values as [|v vs IH]; intros [|s ss]; cbn; intro L; try discriminate; [reflexivity|]. now rewrite IH by lia. Qed.

Lemma put_values_nil k (values : list X) : put_values k values [] = map (fun v => [(k, v)]) values.
Proof. induction values as [|v vs IH]; cbn; [reflexivity|now rewrite IH]. Qed.

Lemma map_nth_seq {Y Z} (f : Y -> Z) (g : nat -> Z) l : (forall i y, nth_error l i = Some y -> f y = g i) -> map f l = map g (seq 0 (length l)).
Proof.
  revert g. induction l as [|y l IH]; intros g H; [reflexivity|]. cbn. rewrite (H 0 y eq_refl). f_equal. rewrite <- seq_shift, map_map. apply IH. intros i z N. exact (H (Datatypes.S i) z N).
Qed.

Lemma to_sets_acc rep : forall m (sets : list (list (string * X))), length sets = m ->
  to_sets rep (Some m) sets = if forallb (fun p => length (snd p) =? m) rep then Ok (map (fun i => nth i sets [] ++ set_at rep i) (seq 0 m)) else Err ValueError.
Proof.
  induction rep as [|[k values] rep IH]; intros m sets L; cbn [to_sets forallb snd].
  - f_equal. symmetry. rewrite <- L. rewrite <- (map_nth_seq (fun x => x)); [now rewrite map_id|]. intros i y N. unfold set_at. cbn. rewrite app_nil_r. symmetry. now apply nth_error_nth.
  - destruct (Nat.eqb_spec (length values) m) as [E|E]; [|reflexivity]. cbn [andb]. rewrite put_values_eq by lia. rewrite IH by (rewrite map2_length; lia).
    destruct forallb; [|reflexivity]. f_equal. apply map_ext_in. intros i I. apply in_seq in I. unfold set_at at 2. cbn [flat_map fst snd]. fold (set_at rep i).
    assert (N := map2_nth (fun s v => s ++ [(k, v)]) sets values i). destruct (nth_error sets i) as [s|] eqn:Es; [|apply nth_error_None in Es; lia]. destruct (nth_error values i) as [v|] eqn:Ev; [|apply nth_error_None in Ev; lia].
    rewrite (nth_error_nth _ _ _ N), (nth_error_nth _ _ _ Es). now rewrite <- app_assoc.
Qed.

Lemma to_sets_spec (rep : list (string * list X)) : let m := match rep with [] => 0 | p :: _ => length (snd p) end in
  to_sets rep None [] = if forallb (fun p => length (snd p) =? m) rep then Ok (map (set_at rep) (seq 0 m)) else Err ValueError.
Proof.
  destruct rep as [|[k values] rep]; [reflexivity|]. cbn [to_sets snd forallb]. rewrite Nat.eqb_refl. cbn [andb]. rewrite put_values_nil, to_sets_acc by now rewrite map_length.
  destruct forallb; [|reflexivity]. f_equal. apply map_ext_in. intros i I. apply in_seq in I. unfold set_at at 2. cbn [flat_map fst snd]. fold (set_at rep i).
  assert (N := map_nth_err (fun v => [(k, v)]) values i). destruct (nth_error values i) as [v|] eqn:Ev; [|apply nth_error_None in Ev; lia]. now rewrite (nth_error_nth _ _ _ N).
Qed.

Lemma get_set_at (rep : list (string * list X)) i n m : Forall (fun p => length (snd p) = m) rep -> i < m ->
  get (set_at rep i) n = match get rep n with Some l => nth_error l i | None => None end.
Proof.
  intros F I. unfold get. induction rep as [|[k l] rep IH]; [reflexivity|]. inversion F as [|? ? L F']. subst. cbn [set_at flat_map fst snd] in *. fold (set_at rep i).
  destruct (nth_error l i) as [v|] eqn:E; [|apply nth_error_None in E; lia]. cbn [app find fst]. destruct (String.eqb_spec k n); [cbn; now rewrite E|]. now apply IH.
Qed.

Lemma get_nodup (rep : list (string * list X)) p : NoDup (map fst rep) -> In p rep -> get rep (fst p) = Some (snd p).
Proof.
  unfold get. induction rep as [|q rep IH]; [intros _ []|]. cbn. intros N [->|I]; inversion N as [|? ? A N']; subst; [now rewrite String.eqb_refl|].
  destruct (String.eqb_spec (fst q) (fst p)) as [E|E]; [|now apply IH]. destruct A. rewrite E. now apply in_map.
Qed.

Lemma flat_map_nth (l : list X) m : length l = m -> flat_map (fun i => match nth_error l i with Some v => [v] | None => [] end) (seq 0 m) = l.
Proof.
  revert m. induction l as [|x l IH]; intros m L; cbn in L; subst m; [reflexivity|]. cbn [seq flat_map nth_error app]. f_equal. rewrite <- seq_shift. rewrite flat_map_concat_map, map_map, <- flat_map_concat_map. cbn. now apply IH.
Qed.

(** The lists are got back from the sets *)
Lemma to_lists_sets (rep : list (string * list X)) m : NoDup (map fst rep) -> Forall (fun p => length (snd p) = m) rep -> 0 < m ->
  to_lists (map (set_at rep) (seq 0 m)) = rep.
Proof.
  intros N F M. destruct m as [|m]; [lia|]. cbn [seq map to_lists].
  assert (E : forall q : string * X, flat_map (fun t => match get t (fst q) with Some v => [v] | None => [] end) (set_at rep 0 :: map (set_at rep) (seq 1 m)) =
    match get rep (fst q) with Some l => l | None => [] end).
  { intro q. change (set_at rep 0 :: map (set_at rep) (seq 1 m)) with (map (set_at rep) (seq 0 (Datatypes.S m))). rewrite flat_map_concat_map, map_map, <- flat_map_concat_map.
    transitivity (flat_map (fun i => match match get rep (fst q) with Some l => nth_error l i | None => None end with Some v => [v] | None => [] end) (seq 0 (Datatypes.S m))).
    - rewrite !flat_map_concat_map. f_equal. apply map_ext_in. intros i I. apply in_seq in I. rewrite (get_set_at rep i (fst q) (Datatypes.S m)); auto. lia.
    - destruct (get rep (fst q)) as [l|] eqn:G; [|induction (seq 0 (Datatypes.S m)); auto]. apply flat_map_nth. unfold get in G. destruct find eqn:FF; [|discriminate]. injection G as <-. apply find_some in FF. rewrite Forall_forall in F. now apply F. }
  etransitivity; [apply map_ext; intro q; rewrite E; reflexivity|]. clear E.
  assert (H : forall rep', incl rep' rep -> map (fun a : string * X => (fst a, match get rep (fst a) with Some l => l | None => [] end)) (set_at rep' 0) = rep'); [|apply H; apply incl_refl].
  induction rep' as [|[k l] rep' IH]; intro I; [reflexivity|]. cbn [set_at flat_map fst snd]. fold (set_at rep' 0).
  assert (IN : In (k, l) rep) by (apply I; now left). assert (G := get_nodup rep (k, l) N IN). cbn in G.
  rewrite Forall_forall in F. assert (L := F _ IN). cbn in L. destruct l as [|v l]; [discriminate|]. cbn [nth_error app map fst]. rewrite G. f_equal. apply IH. intros x X1. apply I. now right.
Qed.
End Sets.

(** Evaluation *)
Record compatible (ar : arith) : Prop := {
  c_bin : forall o a b c, sbin ar o a b = Ok c -> bin ar o a b = c;
  c_fn : forall f a b, sfn ar f a = Ok b -> fn ar f a = b }.

Section Eval.
Variable ar : arith.
Local Notation A := (elt ar).
Hypothesis CO : compatible ar.
Variables n m : nat.

(** What a value says at each wavelength and set *)
Definition stands (v : val ar) (g : nat -> nat -> option A) : Prop :=
  match v with
  | S a => forall i j, i < n -> j < m -> g i j = Some a
  | P l => length l = m /\ forall i j, i < n -> j < m -> g i j = nth_error l j
  | M l => length l = n /\ forall i r, nth_error l i = Some r -> length r = m /\ forall j, j < m -> g i j = nth_error r j
  | V _ => False
  end.

Definition stands1 (v : val ar) (g : nat -> option A) : Prop :=
  match v with
  | S a => forall i, i < n -> g i = Some a
  | V l => length l = n /\ forall i, i < n -> g i = nth_error l i
  | _ => False
  end.

Lemma nth_some {X} (l : list X) i : i < length l -> exists x, nth_error l i = Some x.
Proof. intro H. destruct (nth_error l i) eqn:E; eauto. apply nth_error_None in E. lia. Qed.

Lemma binary_stands o x y v gx gy : stands x gx -> stands y gy -> binary ar o x y = Ok v ->
  stands v (fun i j => both A (bin ar o) (gx i j) (gy i j)).
Proof.
  destruct x as [a|l|l|l], y as [b|k|k|k]; cbn [stands binary]; try tauto.
  - intros X Y H. destruct (sbin ar o a b) as [c|] eqn:E; [|discriminate]. injection H as <-. apply (c_bin _ CO) in E. subst c. cbn. intros i j I J. now rewrite X, Y.
  - intros X [L Y] H. injection H as <-. cbn. rewrite map_length. split; [exact L|]. intros i j I J. rewrite X, Y, map_nth_err by assumption. now destruct (nth_error k j).
  - intros X [L Y] H. injection H as <-. cbn. rewrite map_length. split; [exact L|]. intros i r R. rewrite map_nth_err in R. destruct (nth_error k i) as [q|] eqn:E; [|discriminate]. injection R as <-.
    destruct (Y i q E) as [L1 Y1]. rewrite map_length. split; [exact L1|]. intros j J. assert (I : i < n) by (rewrite <- L; apply nth_error_Some; congruence). rewrite X, Y1, map_nth_err by assumption. now destruct (nth_error q j).
  - intros [L X] Y H. injection H as <-. cbn. rewrite map_length. split; [exact L|]. intros i j I J. rewrite X, Y, map_nth_err by assumption. now destruct (nth_error l j).
  - intros [L X] [K Y] H. injection H as <-. cbn. rewrite map2_length by congruence. split; [exact L|]. intros i j I J. rewrite X, Y, map2_nth by assumption. now destruct (nth_error l j), (nth_error k j).
  - intros [L X] [K Y] H. injection H as <-. cbn. rewrite map_length. split; [exact K|]. intros i r R. rewrite map_nth_err in R. destruct (nth_error k i) as [q|] eqn:E; [|discriminate]. injection R as <-.
    destruct (Y i q E) as [L1 Y1]. rewrite map2_length by congruence. split; [exact L|]. intros j J. assert (I : i < n) by (rewrite <- K; apply nth_error_Some; congruence). rewrite X, Y1, map2_nth by assumption. now destruct (nth_error l j), (nth_error q j).
  - intros [L X] Y H. injection H as <-. cbn. rewrite map_length. split; [exact L|]. intros i r R. rewrite map_nth_err in R. destruct (nth_error l i) as [q|] eqn:E; [|discriminate]. injection R as <-.
    destruct (X i q E) as [L1 X1]. rewrite map_length. split; [exact L1|]. intros j J. assert (I : i < n) by (rewrite <- L; apply nth_error_Some; congruence). rewrite X1, Y, map_nth_err by assumption. now destruct (nth_error q j).
  - intros [L X] [K Y] H. injection H as <-. cbn. rewrite map_length. split; [exact L|]. intros i r R. rewrite map_nth_err in R. destruct (nth_error l i) as [q|] eqn:E; [|discriminate]. injection R as <-.
    destruct (X i q E) as [L1 X1]. rewrite map2_length by congruence. split; [exact L1|]. intros j J. assert (I : i < n) by (rewrite <- L; apply nth_error_Some; congruence). rewrite X1, Y, map2_nth by assumption. now destruct (nth_error q j), (nth_error k j).
  - intros [L X] [K Y] H. injection H as <-. cbn. rewrite map2_length by congruence. split; [exact L|]. intros i r R. rewrite map2_nth in R. destruct (nth_error l i) as [q|] eqn:E; [|discriminate]. destruct (nth_error k i) as [q2|] eqn:E2; [|discriminate]. injection R as <-.
    destruct (X i q E) as [L1 X1]. destruct (Y i q2 E2) as [L2 Y1]. rewrite map2_length by congruence. split; [exact L1|]. intros j J. rewrite X1, Y1, map2_nth by assumption. now destruct (nth_error q j), (nth_error q2 j).
Qed.

Lemma func_stands f x v g : stands x g -> func ar f x = Ok v -> stands v (fun i j => option_map (fn ar f) (g i j)).
Proof.
  unfold func. destruct existsb; [|discriminate]. destruct (f =? "heaviside")%string; [discriminate|]. destruct x as [a|l|l|l]; cbn [stands]; try tauto.
  - intros X H. destruct (sfn ar f a) as [c|] eqn:E; [|discriminate]. injection H as <-. apply (c_fn _ CO) in E. subst c. cbn. intros i j I J. now rewrite X.
  - intros [L X] H. injection H as <-. cbn. rewrite map_length. split; [exact L|]. intros i j I J. now rewrite X, map_nth_err.
  - intros [L X] H. injection H as <-. cbn. rewrite map_length. split; [exact L|]. intros i r R. rewrite map_nth_err in R. destruct (nth_error l i) as [q|] eqn:E; [|discriminate]. injection R as <-.
    destruct (X i q E) as [L1 X1]. rewrite map_length. split; [exact L1|]. intros j J. now rewrite X1, map_nth_err.
Qed.

Lemma binary_stands1 o x y v gx gy : stands1 x gx -> stands1 y gy -> binary ar o x y = Ok v ->
  stands1 v (fun i => both A (bin ar o) (gx i) (gy i)).
Proof.
  destruct x as [a|l|l|l], y as [b|k|k|k]; cbn [stands1 binary]; try tauto.
  - intros X Y H. destruct (sbin ar o a b) as [c|] eqn:E; [|discriminate]. injection H as <-. apply (c_bin _ CO) in E. subst c. cbn. intros i I. now rewrite X, Y.
  - intros X [L Y] H. injection H as <-. cbn. rewrite map_length. split; [exact L|]. intros i I. rewrite X, Y, map_nth_err by assumption. now destruct (nth_error k i).
  - intros [L X] Y H. injection H as <-. cbn. rewrite map_length. split; [exact L|]. intros i I. rewrite X, Y, map_nth_err by assumption. now destruct (nth_error l i).
  - intros [L X] [K Y] H. injection H as <-. cbn. rewrite map2_length by congruence. split; [exact L|]. intros i I. rewrite X, Y, map2_nth by assumption. now destruct (nth_error l i), (nth_error k i).
Qed.

Lemma func_stands1 f x v g : stands1 x g -> func ar f x = Ok v -> stands1 v (fun i => option_map (fn ar f) (g i)).
Proof.
  unfold func. destruct existsb; [|discriminate]. destruct (f =? "heaviside")%string; [discriminate|]. destruct x as [a|l|l|l]; cbn [stands1]; try tauto.
  - intros X H. destruct (sfn ar f a) as [c|] eqn:E; [|discriminate]. injection H as <-. apply (c_fn _ CO) in E. subst c. cbn. intros i I. now rewrite X.
  - intros [L X] H. injection H as <-. cbn. rewrite map_length. split; [exact L|]. intros i I. now rewrite X, map_nth_err.
Qed.

Lemma stands_ext v g h : (forall i j, i < n -> j < m -> g i j = h i j) -> stands v g -> stands v h.
Proof.
  intro E. destruct v as [a|l|l|l]; cbn; auto.
  - intros H i j I J. now rewrite <- E, H.
  - intros [L H]. split; [exact L|]. intros i j I J. now rewrite <- E, H.
  - intros [L H]. split; [exact L|]. intros i r R. destruct (H i r R) as [L1 H1]. split; [exact L1|]. intros j J. rewrite <- E; auto. rewrite <- L. apply nth_error_Some. congruence.
Qed.
End Eval.

Section Meaning.
Variable ar : arith.
Local Notation A := (elt ar).
Hypothesis CO : compatible ar.
Variables (axis : string) (lbda : list A) (single : list (string * A)) (rep : list (string * list A)) (sets : list (list (string * A))).
Let n := length lbda.
Let m := length sets.
(** The lists that are looked up are those of the sets *)
Hypothesis RN : n_sets ar rep = m.
Hypothesis RG : forall k l, get rep k = Some l -> length l = m /\ forall j s, nth_error sets j = Some s -> named s k = nth_error l j.

Definition at_r (e : rexpr) (i j : nat) : option A :=
  match nth_error lbda i, nth_error sets j with
  | Some x, Some s => meaning_r A (number ar) (constant ar) (bin ar) (fn ar) (inner axis x single s) e
  | _, _ => None
  end.

Lemma nth_lt {X} (l : list X) i : i < length l -> exists x, nth_error l i = Some x.
Proof. intro H. destruct (nth_error l i) eqn:E; eauto. apply nth_error_None in E. lia. Qed.

Lemma eval_r_stands e : forall v, eval_r ar axis lbda single rep e = Ok v -> stands ar n m v (at_r e).
Proof.
  induction e as [s|k|k|f e IH|o a IHa b IHb]; cbn [eval_r]; intros v H.
  - injection H as <-. cbn. intros i j I J. unfold at_r. destruct (nth_lt lbda i I) as [x ->], (nth_lt sets j J) as [t ->]. reflexivity.
  - unfold param_name in H. destruct (String.eqb_spec k axis) as [->|NE].
    + injection H as <-. cbn. rewrite map_length. split; [reflexivity|]. intros i r R. rewrite map_nth_err in R. destruct (nth_error lbda i) as [x|] eqn:E; [|discriminate]. injection R as <-.
      rewrite repeat_length. split; [exact RN|]. intros j J. unfold at_r. rewrite E. destruct (nth_lt sets j J) as [t ->]. cbn. unfold inner, outer. rewrite String.eqb_refl. symmetry. apply nth_error_repeat. lia.
    + destruct (get single k) as [a|] eqn:G.
      * injection H as <-. cbn. intros i j I J. unfold at_r. destruct (nth_lt lbda i I) as [x ->], (nth_lt sets j J) as [t ->]. cbn. unfold inner, outer. apply String.eqb_neq in NE. rewrite NE. unfold get in G. unfold named. now rewrite G.
      * destruct (get rep k) as [l|] eqn:G2; [|discriminate]. injection H as <-. destruct (RG k l G2) as [L R]. cbn. split; [exact L|]. intros i j I J. unfold at_r. destruct (nth_lt lbda i I) as [x ->]. destruct (nth_lt sets j J) as [t T]. rewrite T.
        cbn. unfold inner, outer. apply String.eqb_neq in NE. rewrite NE. unfold get in G. unfold named at 1. rewrite G. now apply R.
  - unfold builtin in H. destruct existsb; [|discriminate]. injection H as <-. cbn. intros i j I J. unfold at_r. destruct (nth_lt lbda i I) as [x ->], (nth_lt sets j J) as [t ->]. reflexivity.
  - destruct (eval_r ar axis lbda single rep e) as [x|] eqn:E; [|discriminate]. cbn [rbind] in H. specialize (IH x eq_refl). eapply stands_ext; [|eapply func_stands; eauto].
    intros i j I J. unfold at_r. destruct (nth_error lbda i); [|reflexivity]. now destruct (nth_error sets j).
  - destruct (eval_r ar axis lbda single rep a) as [x|] eqn:Ea; [|discriminate]. cbn [rbind] in H. destruct (eval_r ar axis lbda single rep b) as [y|] eqn:Eb; [|discriminate]. cbn [rbind] in H.
    eapply stands_ext; [|eapply binary_stands; [exact CO|exact (IHa x eq_refl)|exact (IHb y eq_refl)|exact H]]. intros i j I J. unfold at_r. destruct (nth_error lbda i); [|reflexivity]. now destruct (nth_error sets j).
Qed.

Definition at_e (e : expr) (i : nat) : option A :=
  match nth_error lbda i with
  | Some x => meaning A (number ar) (constant ar) (bin ar) (fn ar) (total ar) (outer axis x single) (map (inner axis x single) sets) e
  | None => None
  end.

Lemma stands1_ext v g h : (forall i, i < n -> g i = h i) -> stands1 ar n v g -> stands1 ar n v h.
Proof.
  intro E. destruct v as [a|l|l|l]; cbn; auto.
  - intros H i I. now rewrite <- E, H.
  - intros [L H]. split; [exact L|]. intros i I. now rewrite <- E, H.
Qed.

Lemma eval_stands e : forall v, eval ar axis lbda single rep e = Ok v -> stands1 ar n v (at_e e).
Proof.
  induction e as [s|k|k|f e IH|o a IHa b IHb|r]; cbn [eval]; intros v H.
  - injection H as <-. cbn. intros i I. unfold at_e. destruct (nth_lt lbda i I) as [x ->]. reflexivity.
  - unfold single_param_name in H. destruct (String.eqb_spec k axis) as [->|NE].
    + injection H as <-. cbn. split; [reflexivity|]. intros i I. unfold at_e. destruct (nth_lt lbda i I) as [x ->]. cbn. unfold outer. now rewrite String.eqb_refl.
    + destruct (get single k) as [a|] eqn:G; [|discriminate]. injection H as <-. cbn. intros i I. unfold at_e. destruct (nth_lt lbda i I) as [x ->]. cbn. unfold outer. apply String.eqb_neq in NE. rewrite NE. exact G.
  - unfold builtin in H. destruct existsb; [|discriminate]. injection H as <-. cbn. intros i I. unfold at_e. destruct (nth_lt lbda i I) as [x ->]. reflexivity.
  - destruct (eval ar axis lbda single rep e) as [x|] eqn:E; [|discriminate]. cbn [rbind] in H. eapply stands1_ext; [|eapply func_stands1; [exact CO|exact (IH x eq_refl)|exact H]].
    intros i I. unfold at_e. now destruct (nth_error lbda i).
  - destruct (eval ar axis lbda single rep a) as [x|] eqn:Ea; [|discriminate]. cbn [rbind] in H. destruct (eval ar axis lbda single rep b) as [y|] eqn:Eb; [|discriminate]. cbn [rbind] in H.
    eapply stands1_ext; [|eapply binary_stands1; [exact CO|exact (IHa x eq_refl)|exact (IHb y eq_refl)|exact H]]. intros i I. unfold at_e. now destruct (nth_error lbda i).
  - destruct (eval_r ar axis lbda single rep r) as [x|] eqn:E; [|discriminate]. cbn [rbind] in H. apply eval_r_stands in E. unfold sum_expr in H. destruct x as [a|l|l|l]; try discriminate. injection H as <-.
    destruct E as [L E]. cbn. rewrite map_length. split; [exact L|]. intros i I. rewrite map_nth_err. destruct (nth_lt l i) as [row R]; [lia|]. rewrite R. destruct (E i row R) as [L1 E1]. cbn [option_map].
    unfold at_e. destruct (nth_lt lbda i I) as [x X]. rewrite X. cbn [meaning]. rewrite map_map. rewrite (collect_some _ row); [reflexivity|now rewrite map_length|].
    intros j a Ja. assert (J : j < m) by (rewrite <- L1; apply nth_error_Some; congruence). specialize (E1 j J). rewrite Ja in E1. unfold at_r in E1. rewrite X in E1. rewrite map_nth_err. destruct (nth_error sets j) as [t|]; [|discriminate]. cbn. now rewrite E1.
Qed.
End Meaning.
