(** The text of a dispersion determines it. *)
From Coq Require Import String Ascii List.
From Verif.Model Require Import DispRepr.
From Verif.Spec Require Import Shown.
Import ListNotations.
Open Scope string_scope.

Notation LF := (ascii_of_nat 10).

Lemma app_assoc_s a b c : (a ++ b) ++ c = a ++ (b ++ c).
Proof. induction a as [|x a IH]; [reflexivity|]. cbn [append]. now rewrite IH. Qed.
Lemma app_cancel a b c : a ++ b = a ++ c -> b = c.
Proof. induction a as [|x a IH]; cbn [append]; [auto|]. intros H. injection H as H. auto. Qed.
Lemma app_nil_s a : a ++ "" = a.
Proof. induction a as [|x a IH]; [reflexivity|]. cbn [append]. now rewrite IH. Qed.

(** The part before the first separator *)
Definition starts (c : ascii) (s : string) : Prop := match s with "" => True | String a _ => a = c end.
Lemma cut c a : forall a' x x', free c a -> free c a' -> starts c x -> starts c x' -> a ++ x = a' ++ x' -> a = a' /\ x = x'.
Proof.
  induction a as [|y a IH]; intros a' x x' F F' S S' E; destruct a' as [|z a']; cbn [append free] in *.
  - auto.
  - subst x. cbn [starts] in S. destruct F' as [F' _]. congruence.
  - subst x'. cbn [starts] in S'. destruct F as [F _]. congruence.
  - injection E as -> E. destruct F as [_ F], F' as [_ F']. destruct (IH a' x x' F F' S S' E) as [-> ->]. auto.
Qed.
Lemma free_app c a b : free c (a ++ b) <-> free c a /\ free c b.
Proof. induction a as [|x a IH]; cbn [append free]; [tauto|]. rewrite IH. tauto. Qed.

Lemma join_cons sep x y l : join sep (x :: y :: l) = x ++ sep ++ join sep (y :: l).
Proof. reflexivity. Qed.
Lemma join_head sep x l : join sep (x :: l) = x ++ match l with [] => "" | _ => sep ++ join sep l end.
Proof. destruct l; [cbn [join]; now rewrite app_nil_s|reflexivity]. Qed.
Lemma join_free c sep l : free c sep -> Forall (free c) l -> free c (join sep l).
Proof.
  intros S F. induction F as [|x l X F IH]; [exact I|]. rewrite join_head. apply free_app. split; [exact X|].
  destruct l; [exact I|]. apply free_app. auto.
Qed.

(** Lists of words *)
Lemma join_inj c s l : forall l', Forall (fun x => free c x /\ x <> "") l -> Forall (fun x => free c x /\ x <> "") l' ->
  join (String c s) l = join (String c s) l' -> l = l'.
Proof.
  induction l as [|x l IH]; intros l' F F' E.
  - destruct l' as [|y l']; [reflexivity|]. inversion F' as [|? ? [_ N] _]; subst. rewrite join_head in E. cbn [join] in E. destruct y; [congruence|discriminate].
  - inversion F as [|? ? [X Nx] F1]; subst. destruct l' as [|y l'].
    + rewrite join_head in E. cbn [join] in E. destruct x; [congruence|discriminate].
    + inversion F' as [|? ? [Y Ny] F1']; subst. rewrite !join_head in E.
      apply (cut c) in E; [|assumption|assumption|destruct l; [exact I|reflexivity]|destruct l'; [exact I|reflexivity]].
      destruct E as [-> E]. f_equal. destruct l as [|a l], l' as [|b l']; [reflexivity|discriminate|discriminate|].
      apply IH; [assumption|assumption|]. apply app_cancel in E. exact E.
Qed.

Definition item (i : string * string) : string := fst i ++ " = " ++ snd i.
Lemma item_inj i j : word (fst i) -> word (snd i) -> word (fst j) -> word (snd j) -> item i = item j -> i = j.
Proof.
  destruct i as [k v], j as [k' v']. unfold item. cbn [fst snd]. intros (_ & _ & K) _ (_ & _ & K') _ E.
  assert (A : (k ++ " ") ++ "= " ++ v = (k' ++ " ") ++ "= " ++ v') by (rewrite !app_assoc_s; exact E).
  assert (SP : free "=" " ") by (cbn [free]; split; [discriminate|exact I]).
  apply (cut "=") in A; [|apply free_app; auto|apply free_app; auto|reflexivity|reflexivity]. destruct A as [A B].
  apply app_cancel in B. f_equal; [|exact B]. clear - A. revert k' A. induction k as [|x k IH]; intros [|y k'] A; cbn [append] in A; auto.
  - injection A as _ A. destruct k'; discriminate.
  - injection A as _ A. destruct k; discriminate.
  - injection A as -> A. f_equal. auto.
Qed.
Lemma item_some i : item i <> "".
Proof. unfold item. destruct i as [[|] v]; discriminate. Qed.
Lemma item_free c i : free c (fst i) -> free c (snd i) -> free c " = " -> free c (item i).
Proof. intros A B S. unfold item. apply free_app. split; [exact A|]. apply free_app. auto. Qed.

Lemma dict_inj d d' : words d -> words d' -> dict_to_str d = dict_to_str d' -> d = d'.
Proof.
  intros W W' E. unfold dict_to_str in E. change (fun item => fst item ++ " = " ++ snd item) with item in E.
  assert (G : forall d, words d -> Forall (fun x => free "," x /\ x <> "") (map item d)).
  { intros e H. induction H as [|i e [(_ & A & _) (_ & B & _)] H IH]; cbn [map]; constructor; [|exact IH].
    split; [|apply item_some]. apply item_free; [exact A|exact B|]. cbn [free]. repeat split; discriminate. }
  apply (join_inj "," " ") in E; [|now apply G|now apply G]. clear G.
  revert d' W' E. induction W as [|i d [A B] W IH]; intros d' W' E; destruct d' as [|j d']; cbn [map] in E; try discriminate; [reflexivity|].
  inversion W' as [|? ? [A' B'] W'']; subst. injection E as E1 E2. f_equal; [now apply item_inj|now apply IH].
Qed.
Lemma dict_line d : words d -> free LF (dict_to_str d).
Proof.
  intros W. unfold dict_to_str. change (fun item => fst item ++ " = " ++ snd item) with item. apply join_free; [cbn [free]; repeat split; discriminate|].
  induction W as [|i d [(A & _) (B & _)] W IH]; cbn [map]; constructor; [|exact IH]. apply item_free; [exact A|exact B|]. cbn [free]. repeat split; discriminate.
Qed.
Lemma dict_some d : d <> [] -> dict_to_str d <> "".
Proof.
  destruct d as [|i d]; [congruence|]. intros _. unfold dict_to_str. change (fun item => fst item ++ " = " ++ snd item) with item. cbn [map].
  rewrite join_head. intros E. apply (item_some i). destruct (item i); [reflexivity|discriminate].
Qed.

(** What follows a dispersion: nothing, or an empty line and more *)
Definition rest (s : string) : Prop := s = "" \/ exists x, s = nl ++ nl ++ x.
Lemma rest_starts s : rest s -> starts LF s.
Proof. intros [->|[x ->]]; reflexivity. Qed.

Lemma lines_inj l : forall l' x x', Forall (fun o => words o /\ o <> []) l -> Forall (fun o => words o /\ o <> []) l' ->
  l <> [] -> l' <> [] -> rest x -> rest x' ->
  join nl (map dict_to_str l) ++ x = join nl (map dict_to_str l') ++ x' -> l = l' /\ x = x'.
Proof.
  induction l as [|a l IH]; intros l' x x' F F' N N' R R' E; [congruence|]. destruct l' as [|b l']; [congruence|].
  inversion F as [|? ? [Wa Na] F1]; subst. inversion F' as [|? ? [Wb Nb] F1']; subst.
  cbn [map] in E. rewrite !join_head, !app_assoc_s in E.
  apply (cut LF) in E; [|now apply dict_line|now apply dict_line|destruct l; [now apply rest_starts|reflexivity]|destruct l'; [now apply rest_starts|reflexivity]].
  destruct E as [E1 E2]. apply dict_inj in E1; [|assumption|assumption]. subst b.
  assert (Start : forall o m y, Forall (fun o => words o /\ o <> []) (o :: m) -> rest y -> forall z, nl ++ join nl (map dict_to_str (o :: m)) ++ z = y -> False).
  { intros o m y G Ry z H. inversion G as [|? ? [Wo No] _]; subst. destruct Ry as [K|[w K]]; [discriminate|].
    apply app_cancel in K. cbn [map] in K. rewrite join_head, app_assoc_s in K. assert (L := dict_line o Wo). assert (D := dict_some o No).
    destruct (dict_to_str o) as [|ch s]; [congruence|]. cbn [append nl] in K. injection K as K _. destruct L as [L _]. congruence. }
  destruct l as [|a1 l], l' as [|b1 l']; cbn [map] in E2.
  - cbn [append] in E2. auto.
  - exfalso. symmetry in E2. apply (Start b1 l' x F1' R x'). rewrite <- app_assoc_s. exact E2.
  - exfalso. apply (Start a1 l x' F1 R' x). rewrite <- app_assoc_s. exact E2.
  - rewrite !app_assoc_s in E2. apply app_cancel in E2.
    destruct (IH (b1 :: l') x x' F1 F1' ltac:(discriminate) ltac:(discriminate) R R' E2) as [-> ->]. auto.
Qed.

Definition osc (l : list dict) : string :=
  match l with [] => "" | l => nl ++ nl ++ "Oscillators" ++ nl ++ "===========" ++ nl ++ join nl (map dict_to_str l) end.
Definition next (s : string) : Prop := s = "" \/ exists d x, free LF d /\ d <> "Oscillators" /\ s = nl ++ nl ++ d ++ nl ++ x.

Lemma next_rest s : next s -> rest s.
Proof. intros [->|(d & x & _ & _ & ->)]; [now left|right; eauto]. Qed.

Lemma osc_clash l x y : l <> [] -> next y -> osc l ++ x = y -> False.
Proof.
  intros N [K|(d & z & F & D & K)] E; subst y.
  - destruct l; [congruence|discriminate].
  - destruct l as [|a l]; [congruence|]. unfold osc in E. rewrite !app_assoc_s in E. do 2 apply app_cancel in E.
    apply (cut LF) in E; [destruct E; congruence|cbn [free]; repeat split; discriminate|exact F|reflexivity|reflexivity].
Qed.

Lemma repr_osc d : repr d = class d ++ nl ++ underline (String.length (class d)) ++ nl ++ dict_to_str (single_params d) ++ osc (rep_params d).
Proof. unfold repr, osc. now destruct (rep_params d). Qed.

Lemma repr_inj d d' x x' : plain d -> plain d' -> next x -> next x' -> repr d ++ x = repr d' ++ x' -> d = d' /\ x = x'.
Proof.
  intros (C & O & W & G) (C' & O' & W' & G') R R' E. rewrite !repr_osc, !app_assoc_s in E.
  apply (cut LF) in E; [|assumption|assumption|reflexivity|reflexivity]. destruct E as [E1 E]. rewrite <- E1 in E.
  do 3 apply app_cancel in E.
  assert (St : forall l y, next y -> starts LF (osc l ++ y)) by (intros [|a l] y Hy; [now apply rest_starts, next_rest|reflexivity]).
  apply (cut LF) in E; [|now apply dict_line|now apply dict_line|now apply St|now apply St]. destruct E as [E2 E].
  apply dict_inj in E2; [|assumption|assumption].
  assert (K : rep_params d = rep_params d' /\ x = x').
  { destruct (rep_params d) as [|a l] eqn:L, (rep_params d') as [|b l'] eqn:L'.
    - auto.
    - exfalso. symmetry in E. apply (osc_clash (b :: l') x' x); [discriminate|exact R|exact E].
    - exfalso. apply (osc_clash (a :: l) x x'); [discriminate|exact R'|exact E].
    - unfold osc in E. rewrite !app_assoc_s in E. do 6 apply app_cancel in E.
      apply lines_inj in E; try assumption; try discriminate; now apply next_rest. }
  destruct K as [K ->]. split; [|reflexivity]. destruct d as [c s r], d' as [c' s' r']. cbn [class single_params rep_params] in *. congruence.
Qed.

Definition more (l : list disp) : string := match l with [] => "" | _ => (nl ++ nl) ++ join (nl ++ nl) (map repr l) end.
Lemma more_next l : Forall plain l -> next (more l).
Proof.
  intros [|d m (C & O & _) F]; [now left|]. right. exists (class d). eexists. split; [exact C|]. split; [exact O|].
  unfold more. cbn [map]. rewrite join_head, repr_osc, !app_assoc_s. reflexivity.
Qed.
Lemma repr_some d : repr d <> "".
Proof. rewrite repr_osc. destruct (class d); discriminate. Qed.
Lemma sum_inj l : forall l', Forall plain l -> Forall plain l' -> join (nl ++ nl) (map repr l) = join (nl ++ nl) (map repr l') -> l = l'.
Proof.
  induction l as [|d l IH]; intros l' F F' E; destruct l' as [|d' l'].
  - reflexivity.
  - exfalso. cbn [map] in E. rewrite join_head in E. cbn [join] in E. apply (repr_some d'). destruct (repr d'); [reflexivity|discriminate].
  - exfalso. cbn [map] in E. rewrite join_head in E. cbn [join] in E. apply (repr_some d). destruct (repr d); [reflexivity|discriminate].
  - inversion F as [|? ? P F1]; subst. inversion F' as [|? ? P' F1']; subst. cbn [map] in E. rewrite !join_head in E.
    assert (Q : forall m, match map repr m with [] => "" | _ => (nl ++ nl) ++ join (nl ++ nl) (map repr m) end = more m) by (now intros []).
    rewrite !Q in E. apply repr_inj in E; [|assumption|assumption|now apply more_next|now apply more_next]. destruct E as [-> E]. f_equal.
    destruct l as [|a l], l' as [|b l']; [reflexivity|discriminate|discriminate|]. unfold more in E. apply app_cancel in E. now apply IH.
Qed.

Lemma text_inj p q : shown p -> shown q -> text p = text q -> p = q.
Proof.
  assert (Clash : forall d b l, plain d -> class d <> "DispersionSum" -> class d <> "IndexDispersionSum" -> repr d = sum_repr b l -> False).
  { intros d b l (C & _) N1 N2 E. rewrite repr_osc in E. unfold sum_repr in E.
    apply (cut LF) in E; [destruct E as [E _]; destruct b; congruence|exact C|destruct b; cbn [free]; repeat split; discriminate|reflexivity|reflexivity]. }
  destruct p as [d|b l], q as [d'|b' l']; cbn [shown text].
  - intros (P & _) (P' & _) E. f_equal. apply (repr_inj d d' "" ""); [exact P|exact P'|now left|now left|now rewrite !app_nil_s].
  - intros (P & N1 & N2) _ E. exfalso. exact (Clash d b' l' P N1 N2 E).
  - intros _ (P & N1 & N2) E. exfalso. exact (Clash d' b l P N1 N2 (eq_sym E)).
  - intros F F' E. unfold sum_repr in E.
    apply (cut LF) in E; [|destruct b; cbn [free]; repeat split; discriminate|destruct b'; cbn [free]; repeat split; discriminate|reflexivity|reflexivity].
    destruct E as [E1 E]. assert (b = b') by (destruct b, b'; congruence). subst b'. f_equal. do 4 apply app_cancel in E. now apply sum_inj.
Qed.
