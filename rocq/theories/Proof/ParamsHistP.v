(** Lemmas for Props/ParamsHistT.v *)
From Coq Require Import Reals ZArith String List Arith Bool Lia.
From Verif.Base Require Import Py.
From Verif.Model Require Import ParamsHist.
From Verif.Spec Require Import Undo.
Import ListNotations.
Open Scope string_scope.
Open Scope list_scope.
Open Scope nat_scope.

Definition addrs (d : dict) : list nat := map snd d.
Definition valid (h : heap) (d : dict) : Prop := forall a, In a (addrs d) -> a < length h.

Lemma lookup_In d k a : lookup d k = Some a -> In a (addrs d).
Proof.
  unfold lookup, addrs. destruct find as [p|] eqn:F; [|discriminate]. intro H. injection H as <-. apply find_some in F. apply in_map, F.
Qed.

Lemma lookup_dset d k a j : lookup (dset d k a) j = if (k =? j)%string then Some a else lookup d j.
Proof.
  unfold lookup. induction d as [|[i b] d IH]; cbn.
  - destruct (k =? j)%string; reflexivity.
  - destruct (String.eqb_spec i k); cbn.
    + subst i. destruct (String.eqb_spec k j); reflexivity.
    + destruct (String.eqb_spec i j); [|exact IH]. subst i. destruct (String.eqb_spec k j); [congruence|reflexivity].
Qed.

Lemma lookup_dupdate d e j : lookup (dupdate d e) j = match lookup e j with Some a => Some a | None => lookup d j end.
Proof.
  induction e as [|[k a] e IH]; [reflexivity|]. cbn [dupdate fold_right]. fold (dupdate d e). cbn [fst snd]. rewrite lookup_dset, IH.
  unfold lookup at 3. cbn [find fst snd]. destruct (k =? j)%string; reflexivity.
Qed.

Lemma addrs_dset d k a x : In x (addrs (dset d k a)) -> x = a \/ In x (addrs d).
Proof.
  induction d as [|[i b] d IH]; cbn; [intuition|]. destruct (String.eqb_spec i k); cbn; [intuition|]. intros [<-|H]; [auto|]. apply IH in H. tauto.
Qed.

Lemma addrs_dupdate d e x : In x (addrs (dupdate d e)) -> In x (addrs e) \/ In x (addrs d).
Proof.
  induction e as [|[k a] e IH]; [auto|]. cbn [dupdate fold_right]. fold (dupdate d e). cbn [fst snd]. intro H. apply addrs_dset in H. cbn. destruct H as [<-|H]; [auto|]. apply IH in H. tauto.
Qed.

Lemma NoDup_dset d k a : NoDup (addrs d) -> ~ In a (addrs d) -> NoDup (addrs (dset d k a)).
Proof.
  induction d as [|[i b] d IH]; cbn; intros N A.
  - constructor; [auto|constructor].
  - inversion N as [|? ? NB N']. subst. destruct (String.eqb_spec i k); cbn.
    + constructor; tauto.
    + constructor; [|apply IH; tauto]. intro H. apply addrs_dset in H. destruct H as [<-|H]; tauto.
Qed.

Lemma NoDup_dupdate d e : NoDup (addrs e ++ addrs d) -> NoDup (addrs (dupdate d e)).
Proof.
  induction e as [|[k a] e IH]; [auto|]. cbn [dupdate fold_right]. fold (dupdate d e). cbn. intro N. inversion N as [|? ? A N']. subst. apply NoDup_dset.
  - now apply IH.
  - intro H. apply addrs_dupdate in H. apply A, in_or_app. exact H.
Qed.

Lemma nth_error_app_l {A} (l m : list A) i : i < length l -> nth_error (l ++ m) i = nth_error l i.
Proof. intro. now apply nth_error_app1. Qed.

Lemma value_ext h h' d : (forall a, In a (addrs d) -> nth_error h' a = nth_error h a) -> forall k, value h' d k = value h d k.
Proof. intros E k. unfold value. destruct (lookup d k) as [a|] eqn:L; [|reflexivity]. apply E. now apply lookup_In in L. Qed.

Lemma value_app h g d k : valid h d -> value (h ++ g) d k = value h d k.
Proof. intro V. apply value_ext. intros a A. apply nth_error_app1. now apply V. Qed.

Lemma hset_length h a v : length (hset h a v) = length h.
Proof. revert a. induction h as [|x h IH]; intros [|a]; cbn; auto. Qed.

Lemma hset_same h a v : a < length h -> nth_error (hset h a v) a = Some v.
Proof. revert a. induction h as [|x h IH]; intros [|a] L; cbn in *; try lia; auto. apply IH. lia. Qed.

Lemma hset_other h a v b : b <> a -> nth_error (hset h a v) b = nth_error h b.
Proof. revert a b. induction h as [|x h IH]; intros [|a] [|b] N; cbn; auto; first [now destruct N | apply IH; lia]. Qed.

(** clone: what it adds *)
Lemma clone_spec h d : valid h d ->
  exists g, fst (clone h d) = h ++ g /\ length g = length d /\ addrs (snd (clone h d)) = seq (length h) (length d) /\
    (forall k, value (fst (clone h d)) (snd (clone h d)) k = value h d k).
Proof.
  revert h. induction d as [|[k a] d IH]; intros h V.
  - exists []. cbn. rewrite app_nil_r. auto.
  - cbn [clone]. unfold alloc. assert (V' : valid (h ++ [nth a h 0%R]) d).
    { intros b B. rewrite app_length. cbn. specialize (V b (or_intror B)). lia. }
    destruct (IH _ V') as (g & G1 & G2 & G3 & G4). destruct (clone (h ++ [nth a h 0%R]) d) as [h2 d2]. cbn [fst snd] in *.
    exists (nth a h 0%R :: g). assert (L : a < length h) by (apply V; now left). split; [subst h2; now rewrite <- app_assoc|]. split; [cbn; lia|]. split.
    + cbn [addrs map snd length seq]. f_equal. change (map snd d2) with (addrs d2). rewrite G3, app_length. cbn. now rewrite Nat.add_1_r.
    + intro j. unfold value, lookup. cbn [find fst snd]. destruct (k =? j)%string.
      * cbn. subst h2. rewrite <- app_assoc. rewrite nth_error_app2 by lia. rewrite Nat.sub_diag. cbn. symmetry. now apply nth_error_nth'.
      * specialize (G4 j). unfold value, lookup in G4. etransitivity; [exact G4|]. clear G4. destruct find as [p|] eqn:F; [|reflexivity]. apply nth_error_app1. apply V. right.
        apply find_some in F. apply in_map, F.
Qed.

Lemma new_dict_spec h l : exists g, fst (new_dict h l) = h ++ g /\
   (forall a, In a (addrs (snd (new_dict h l))) -> length h <= a < length h + length g) /\ NoDup (addrs (snd (new_dict h l))) /\
   (forall k, value (fst (new_dict h l)) (snd (new_dict h l)) k = match find (fun p => (fst p =? k)%string) l with Some p => Some (snd p) | None => None end).
Proof.
  revert h. induction l as [|[k v] l IH]; intro h.
  - exists []. cbn. rewrite app_nil_r. repeat split; try tauto. constructor.
  - cbn [new_dict]. unfold alloc. destruct (IH (h ++ [v])) as (g & G1 & G2 & G3 & G4). destruct (new_dict (h ++ [v]) l) as [h2 d2]. cbn [fst snd] in *.
    rewrite app_length in G2. cbn [length] in G2. exists (v :: g). split; [subst; now rewrite <- app_assoc|]. split; [|split].
    + intros a A. apply addrs_dset in A. cbn. destruct A as [->|A]; [lia|]. specialize (G2 a A). lia.
    + apply NoDup_dset; [exact G3|]. intro H. specialize (G2 _ H). lia.
    + intro j. unfold value. rewrite lookup_dset. cbn [find fst snd]. destruct (k =? j)%string.
      * subst h2. rewrite <- app_assoc, nth_error_app2, Nat.sub_diag by lia. reflexivity.
      * exact (G4 j).
Qed.

(** All addresses of an object *)
Definition all_addrs (p : ph) : list nat := addrs (cur p) ++ concat (map addrs (hist p)).

Record sound (h : heap) (p : ph) : Prop := {
  s_valid : forall a, In a (all_addrs p) -> a < length h;
  s_sep : NoDup (all_addrs p) }.

Definition agrees (h : heap) (d : dict) (m : vmap) : Prop := forall k, value h d k = m k.

Record refines (h : heap) (p : ph) (s : undo) : Prop := {
  r_sound : sound h p;
  r_cur : agrees h (cur p) (now s);
  r_hist : Forall2 (agrees h) (hist p) (saved s);
  r_max : maxl p = bound s }.

Lemma valid_cur h p : sound h p -> valid h (cur p).
Proof. intros S a A. apply (s_valid h p S). apply in_or_app. now left. Qed.

Lemma valid_hist h p d : sound h p -> In d (hist p) -> valid h d.
Proof. intros S D a A. apply (s_valid h p S). apply in_or_app. right. apply in_concat. exists (addrs d). split; [now apply in_map|exact A]. Qed.

Lemma NoDup_app_l {A} (l m : list A) : NoDup (l ++ m) -> NoDup l.
Proof. induction l as [|a l IH]; cbn; intro N; [constructor|]. inversion N. subst. constructor; [|auto]. intro H. now apply H1, in_or_app; left. Qed.

Lemma NoDup_app_r {A} (l m : list A) : NoDup (l ++ m) -> NoDup m.
Proof. induction l as [|a l IH]; cbn; intro N; [exact N|]. inversion N. auto. Qed.

Lemma NoDup_app_disj {A} (l m : list A) x : NoDup (l ++ m) -> In x l -> ~ In x m.
Proof. induction l as [|a l IH]; cbn; intros N H; [destruct H|]. inversion N. subst. destruct H as [->|H]; [|auto]. intro K. now apply H2, in_or_app; right. Qed.

Lemma NoDup_app_intro {A} (l m : list A) : NoDup l -> NoDup m -> (forall x, In x l -> ~ In x m) -> NoDup (l ++ m).
Proof.
  induction l as [|a l IH]; cbn; intros N M D; [exact M|]. inversion N. subst. constructor; [|apply IH; auto].
  intro H. apply in_app_or in H. destruct H as [H|H]; [auto|]. now apply (D a (or_introl eq_refl)).
Qed.

Lemma agrees_app h g d m : valid h d -> agrees h d m -> agrees (h ++ g) d m.
Proof. intros V A k. rewrite value_app by exact V. apply A. Qed.

Lemma Forall2_agrees_app h g p l : sound h p -> Forall2 (agrees h) (hist p) l -> Forall2 (agrees (h ++ g)) (hist p) l.
Proof.
  intros S F. assert (V : forall d, In d (hist p) -> valid h d) by (intros; eapply valid_hist; eauto). revert V. induction F as [|d m ds ms A F IH]; intro V; constructor.
  - apply agrees_app; [apply V; now left|exact A].
  - apply IH. intros. apply V. now right.
Qed.

Lemma sound_app h g p : sound h p -> sound (h ++ g) p.
Proof. intros [V N]. split; [|exact N]. intros a A. rewrite app_length. specialize (V a A). lia. Qed.

Lemma refines_app h g p s : refines h p s -> refines (h ++ g) p s.
Proof.
  intros [S C H M]. split; auto.
  - now apply sound_app.
  - apply agrees_app; [now apply valid_cur|exact C].
  - now apply Forall2_agrees_app.
Qed.

Lemma Forall2_len {A B} (P : A -> B -> Prop) l m : Forall2 P l m -> length l = length m.
Proof. induction 1; cbn; congruence. Qed.

Lemma Forall2_tl {A B} (P : A -> B -> Prop) l m : Forall2 P l m -> Forall2 P (tl l) (tl m).
Proof. intros [|]; cbn; auto. Qed.

Lemma incl_tl_hist (l : list dict) a : In a (concat (map addrs (tl l))) -> In a (concat (map addrs l)).
Proof. destruct l; cbn; auto. intro H. apply in_or_app. now right. Qed.

(** commit *)
Lemma commit_refines h p s : refines h p s -> refines (fst (commit h p)) (snd (commit h p)) (save s) /\
   cur (snd (commit h p)) = cur p /\ exists g, fst (commit h p) = h ++ g.
Proof.
  intros R. assert (Q := R). destruct R as [S C H M]. unfold commit.
  destruct (clone_spec h (cur p) (valid_cur h p S)) as (g & G1 & G2 & G3 & G4). destruct (clone h (cur p)) as [h1 c]. cbn [fst snd] in *.
  split; [|split; [reflexivity|eauto]]. subst h1.
  assert (SUB : forall a, In a (concat (map addrs (if (maxl p <=? length (hist p)) then tl (hist p) else hist p))) -> In a (concat (map addrs (hist p)))).
  { intros a. destruct (_ <=? _); [apply incl_tl_hist|auto]. }
  split; cbn [cur hist maxl now saved bound save].
  - destruct S as [V N]. split; unfold all_addrs in *; cbn [cur hist].
    + intros a A. rewrite map_app, concat_app in A. apply in_app_or in A. rewrite app_length.
      destruct A as [A|A]; [specialize (V a ltac:(apply in_or_app; now left)); lia|]. apply in_app_or in A. destruct A as [A|A].
      * specialize (V a ltac:(apply in_or_app; right; auto)). lia.
      * cbn in A. rewrite app_nil_r, G3 in A. apply in_seq in A. lia.
    + rewrite map_app, concat_app, app_assoc. apply NoDup_app_intro.
      * apply NoDup_app_intro; [now apply NoDup_app_l in N| |].
        -- apply NoDup_app_r in N. destruct (_ <=? _); [|exact N]. destruct (hist p); [exact N|]. cbn in *. now apply NoDup_app_r in N.
        -- intros x X Y. apply SUB in Y. now apply (NoDup_app_disj _ _ x N X).
      * cbn. rewrite app_nil_r, G3. apply seq_NoDup.
      * intros x X Y. cbn in Y. rewrite app_nil_r, G3 in Y. apply in_seq in Y. apply in_app_or in X.
        assert (x < length h) by (apply V, in_or_app; destruct X; auto). lia.
  - apply agrees_app; [now apply valid_cur|exact C].
  - apply Forall2_app.
    + assert (LEN : length (hist p) = length (saved s)) by (eapply Forall2_len; exact H). rewrite M, LEN.
      apply (Forall2_agrees_app h g p) in H; [|exact S]. destruct (bound s <=? length (saved s)); [now apply Forall2_tl|exact H].
    + constructor; [|constructor]. intro k. rewrite G4. apply C.
  - exact M.
Qed.

(** Assigning a value *)
Lemma set_value_refines h p s k v : refines h p s ->
  match set_value h p k v with
  | Ok h1 => (exists x, now s k = Some x) /\ refines h1 p (change s (put (now s) k v))
  | Err e => e = KeyError /\ now s k = None
  end.
Proof.
  intros R. assert (Q := R). destruct R as [S C H M]. unfold set_value. assert (Ck := C k). unfold value in Ck.
  destruct (lookup (cur p) k) as [a|] eqn:L; [|split; [reflexivity|auto]].
  assert (A : a < length h) by (eapply valid_cur; eauto; eapply lookup_In; eauto).
  split. { destruct (nth_error h a) as [x|] eqn:E; [eauto|]. apply nth_error_None in E. lia. }
  assert (AH : ~ In a (concat (map addrs (hist p)))) by (apply (NoDup_app_disj (addrs (cur p))); [apply S|now apply lookup_In in L]).
  split; cbn [now saved bound change].
  - destruct S as [V N]. split; [|exact N]. intros b B. rewrite hset_length. auto.
  - intro j. unfold put. unfold value. specialize (C j). unfold value in C. destruct (String.eqb_spec k j).
    + subst j. rewrite L. now apply hset_same.
    + destruct (lookup (cur p) j) as [b|] eqn:Lj; [|exact C]. rewrite hset_other; [exact C|]. intros ->.
      assert (ND : NoDup (addrs (cur p))) by (eapply NoDup_app_l; apply S). clear - L Lj n ND.
      unfold lookup, addrs in *. induction (cur p) as [|[i c] d IH]; [discriminate|]. cbn in *. inversion ND as [|? ? NI ND']. subst.
      destruct (String.eqb_spec i k), (String.eqb_spec i j); subst; try congruence.
      * injection L as ->. apply NI. destruct find as [q|] eqn:F; [|discriminate]. injection Lj as <-. apply find_some in F. apply in_map, F.
      * injection Lj as ->. apply NI. destruct (find _ d) as [q|] eqn:F in L; [|discriminate]. injection L as <-. apply find_some in F. apply in_map, F.
      * auto.
  - revert AH. clear - H. induction H as [|d m ds ms Ad F IH]; intro AH; constructor.
    + intro j. rewrite (value_ext h); [apply Ad|]. intros b B. apply hset_other. intros ->. apply AH. cbn. apply in_or_app. now left.
    + apply IH. intro X. apply AH. cbn. apply in_or_app. now right.
  - exact M.
Qed.

Lemma value_dupdate h d e m n : valid h e -> agrees h e m -> agrees h d n -> agrees h (dupdate d e) (over m n).
Proof.
  intros V E D k. specialize (E k). specialize (D k). unfold value, over in *. rewrite lookup_dupdate. rewrite <- E, <- D. destruct (lookup e k) as [a|] eqn:L; [|reflexivity].
  destruct (nth_error h a) eqn:F; [reflexivity|]. apply nth_error_None in F. apply lookup_In, V in L. lia.
Qed.

(** Storing other objects in the dictionary *)
Lemma dupdate_refines h p s d : refines h p s -> valid h d -> NoDup (addrs d) ->
  (forall a, In a (addrs d) -> ~ In a (all_addrs p)) ->
  refines h (mkph (dupdate (cur p) d) (hist p) (maxl p)) (change s (over (value h d) (now s))).
Proof.
  intros [S C H M] V N D. split; cbn [cur hist maxl now saved bound change]; auto.
  - destruct S as [Va Na]. split; unfold all_addrs in *; cbn [cur hist].
    + intros a A. apply in_app_or in A. destruct A as [A|A]; [|apply Va, in_or_app; now right]. apply addrs_dupdate in A.
      destruct A as [A|A]; [auto|]. apply Va, in_or_app. now left.
    + apply NoDup_app_intro; [|now apply NoDup_app_r in Na|].
      * apply NoDup_dupdate. apply NoDup_app_intro; [exact N|now apply NoDup_app_l in Na|]. intros x X Y. apply (D x X), in_or_app. now left.
      * intros x X Y. apply addrs_dupdate in X. destruct X as [X|X]; [apply (D x X), in_or_app; now right|]. now apply (NoDup_app_disj _ _ x Na X).
  - intro k. unfold value, over. rewrite lookup_dupdate. specialize (C k). unfold value in *. destruct (lookup d k) as [a|] eqn:L; [|exact C].
    destruct (nth_error h a) eqn:E; [reflexivity|]. apply nth_error_None in E. apply lookup_In, V in L. lia.
Qed.

Lemma add_refines h p s k v : refines h p s -> refines (fst (add h p k v)) (snd (add h p k v)) (change s (put (now s) k v)).
Proof.
  intro R. unfold add, alloc. cbn [fst snd]. apply (refines_app _ [v]) in R as R1.
  assert (Q := dupdate_refines (h ++ [v]) p s [(k, length h)] R1). destruct Q as [S C H M].
  - intros a [<-|[]]. rewrite app_length. cbn. lia.
  - cbn. constructor; [auto|constructor].
  - intros a [<-|[]] A. destruct R as [[V _] _ _ _]. apply V in A. cbn in A. lia.
  - cbn [dupdate fold_right fst snd cur hist maxl now saved bound change] in *. split; auto. intro j. cbn [cur now change]. rewrite C. unfold over, put, value, lookup. cbn [find fst snd].
    destruct (k =? j)%string; [|reflexivity]. cbv beta iota. rewrite nth_error_app2 by apply le_n. rewrite Nat.sub_diag. reflexivity.
Qed.

Lemma Forall2_last {A B} (P : A -> B -> Prop) l m d e : Forall2 P l m -> l <> [] -> P (last l d) (last m e).
Proof.
  induction 1 as [|a b l m H F IH]; intro N; [now destruct N|]. destruct F as [|a' b' l m H' F]; [exact H|]. apply IH. discriminate.
Qed.

Lemma Forall2_removelast {A B} (P : A -> B -> Prop) l m : Forall2 P l m -> Forall2 P (removelast l) (removelast m).
Proof. induction 1 as [|a b l m H F IH]; [constructor|]. destruct F; [constructor|]. cbn [removelast] in *. constructor; auto. Qed.

Lemma concat_last (l : list dict) : l <> [] -> concat (map addrs l) = concat (map addrs (removelast l)) ++ addrs (last l []).
Proof. intro N. rewrite (app_removelast_last [] N) at 1. rewrite map_app, concat_app. cbn. now rewrite app_nil_r. Qed.

Lemma pop_refines h p s : refines h p s -> refines (fst (fst (pop h p))) (snd (fst (pop h p))) (undo1 s) /\
  match snd (pop h p) with
  | None => hist p = []
  | Some c => agrees (fst (fst (pop h p))) c (now s) /\ valid (fst (fst (pop h p))) c /\ forall a, In a (addrs c) -> ~ In a (all_addrs (snd (fst (pop h p))))
  end.
Proof.
  intro R. assert (Q := R). destruct R as [S C H M]. unfold pop, undo1. destruct (hist p) as [|d ds] eqn:E.
  - inversion H. subst. cbn [fst snd]. auto.
  - rewrite <- E in *. assert (NE : hist p <> []) by congruence. assert (LEN := Forall2_len _ _ _ H). destruct (saved s) as [|m ms] eqn:E2; [rewrite E in LEN; discriminate|]. rewrite <- E2 in *.
    clear m ms E2 LEN d ds E.
    destruct (clone_spec h (cur p) (valid_cur h p S)) as (g & G1 & G2 & G3 & G4). destruct (clone h (cur p)) as [h1 c]. cbn [fst snd] in *. subst h1.
    assert (LI : In (last (hist p) []) (hist p)) by (rewrite (app_removelast_last [] NE) at 2; apply in_or_app; right; now left).
    assert (V : valid h (last (hist p) [])) by (eapply valid_hist; eauto).
    split.
    + split; cbn [cur hist maxl now saved bound].
      * destruct S as [Va Na]. unfold all_addrs in *. rewrite (concat_last _ NE) in Va, Na. split; unfold all_addrs; cbn [cur hist].
        -- intros a A. rewrite app_length. enough (a < length h) by lia. apply Va. apply in_app_or in A. rewrite !in_app_iff. destruct A as [A|A]; [|auto]. apply addrs_dupdate in A. tauto.
        -- apply NoDup_app_intro.
           ++ apply NoDup_dupdate. apply NoDup_app_intro; [now apply NoDup_app_r, NoDup_app_r in Na|now apply NoDup_app_l in Na|].
              intros x X Y. apply (NoDup_app_disj _ _ x Na Y). apply in_or_app. now right.
           ++ now apply NoDup_app_r, NoDup_app_l in Na.
           ++ intros x X Y. apply addrs_dupdate in X. destruct X as [X|X].
              ** apply NoDup_app_r in Na. now apply (NoDup_app_disj _ _ x Na Y).
              ** apply (NoDup_app_disj _ _ x Na X). apply in_or_app. now left.
      * apply value_dupdate; [intros a A; rewrite app_length; specialize (V a A); lia| |apply agrees_app; [now apply valid_cur|exact C]].
        apply (Forall2_agrees_app h g p) in H; [|exact S]. exact (Forall2_last _ _ _ [] (now s) H NE).
      * apply Forall2_removelast. now apply Forall2_agrees_app.
      * exact M.
    + split; [intro k; rewrite G4; apply C|]. split; [intros a A; rewrite G3 in A; apply in_seq in A; rewrite app_length; lia|].
      intros a A B. rewrite G3 in A. apply in_seq in A. enough (a < length h) by lia. apply (s_valid h p S). unfold all_addrs in *. cbn [cur hist] in B. rewrite (concat_last _ NE).
      apply in_app_or in B. rewrite !in_app_iff. destruct B as [B|B]; [|auto]. apply addrs_dupdate in B. tauto.
Qed.

Lemma NoDup_skipn {A} n (l : list A) : NoDup l -> NoDup (skipn n l).
Proof. intro N. rewrite <- (firstn_skipn n l) in N. now apply NoDup_app_r in N. Qed.

Lemma Forall2_skipn {A B} (P : A -> B -> Prop) n l m : Forall2 P l m -> Forall2 P (skipn n l) (skipn n m).
Proof. intro F. revert n. induction F as [|a b l m H F IH]; intros [|n]; cbn; auto. Qed.

Lemma concat_skipn n (l : list dict) : exists r, concat (map addrs l) = r ++ concat (map addrs (skipn n l)).
Proof. exists (concat (map addrs (firstn n l))). rewrite <- concat_app, <- map_app, firstn_skipn. reflexivity. Qed.

Lemma hist_suffix_refines h p s n mx : refines h p s ->
  refines h (mkph (cur p) (skipn n (hist p)) mx) (mkundo (now s) (skipn n (saved s)) mx).
Proof.
  intros [S C H M]. split; cbn; auto.
  - destruct S as [V N]. unfold all_addrs in *. destruct (concat_skipn n (hist p)) as [r E]. rewrite E in *. split; unfold all_addrs; cbn [cur hist].
    + intros a A. apply V. apply in_app_or in A. rewrite !in_app_iff. tauto.
    + apply NoDup_app_intro; [now apply NoDup_app_l in N|now apply NoDup_app_r, NoDup_app_r in N|]. intros x X Y. apply (NoDup_app_disj _ _ x N X). apply in_or_app. now right.
  - now apply Forall2_skipn.
Qed.

Lemma removelast_le {A} (l : list A) : length (removelast l) <= length l.
Proof. induction l as [|a l IH]; [auto|]. cbn [removelast]. destruct l; cbn [length] in *; lia. Qed.

(** A Parameter object is always stored under its own name *)
Definition tagged (tags : list string) (d : dict) : Prop := forall k a, In (k, a) d -> nth_error tags a = Some k.

Lemma tagged_app tags x d : tagged tags d -> tagged (tags ++ x) d.
Proof. intros T k a H. specialize (T k a H). rewrite nth_error_app1; [exact T|]. apply nth_error_Some. congruence. Qed.

Lemma dset_In d k a p : In p (dset d k a) -> p = (k, a) \/ In p d.
Proof.
  induction d as [|[i b] d IH]; cbn; [intuition|]. destruct (String.eqb_spec i k); cbn; [intuition|]. intros [<-|H]; [auto|]. apply IH in H. tauto.
Qed.

Lemma tagged_dset tags d k a : tagged tags d -> nth_error tags a = Some k -> tagged tags (dset d k a).
Proof. intros T N j b H. apply dset_In in H. destruct H as [H|H]; [injection H as -> ->; exact N|now apply T]. Qed.

Lemma tagged_dupdate tags d e : tagged tags d -> tagged tags e -> tagged tags (dupdate d e).
Proof.
  intros D E. induction e as [|[k a] e IH]; [exact D|]. cbn [dupdate fold_right fst snd]. fold (dupdate d e). apply tagged_dset.
  - apply IH. intros j b H. apply E. now right.
  - apply E. now left.
Qed.

Lemma keys_dset_In d k a j : In j (map fst (dset d k a)) -> j = k \/ In j (map fst d).
Proof. intro H. apply in_map_iff in H. destruct H as (p & <- & H). apply dset_In in H. destruct H as [->|H]; [now left|right]. now apply in_map. Qed.

Lemma keys_dset d k a : NoDup (map fst d) -> NoDup (map fst (dset d k a)).
Proof.
  induction d as [|[i b] d IH]; cbn; intro N; [constructor; [auto|constructor]|]. inversion N as [|? ? A N']. subst.
  destruct (String.eqb_spec i k); cbn; [subst; now constructor|]. constructor; [|auto]. intro H. apply keys_dset_In in H. tauto.
Qed.

Lemma keys_dupdate d e : NoDup (map fst d) -> NoDup (map fst (dupdate d e)).
Proof. intro N. induction e as [|[k a] e IH]; [exact N|]. cbn [dupdate fold_right fst snd]. fold (dupdate d e). now apply keys_dset. Qed.

Lemma tagged_clone h tags d : length tags = length h -> tagged (tags ++ map fst d) (snd (clone h d)) /\
  length (tags ++ map fst d) = length (fst (clone h d)).
Proof.
  revert h tags. induction d as [|[k a] d IH]; intros h tags L; cbn [clone map fst snd].
  - split; [intros k a []|]. rewrite app_nil_r. exact L.
  - unfold alloc. destruct (IH (h ++ [nth a h 0%R]) (tags ++ [k])) as [T E]; [rewrite !app_length, L; reflexivity|].
    destruct (clone (h ++ [nth a h 0%R]) d) as [h2 d2]. cbn [fst snd] in *. rewrite <- app_assoc in T, E. cbn [app] in T, E. split; [|exact E].
    intros j b [H|H]; [|now apply T]. injection H as <- <-. rewrite nth_error_app2, L, Nat.sub_diag by lia. reflexivity.
Qed.

Lemma tagged_new h tags l : length tags = length h -> exists x, tagged (tags ++ x) (snd (new_dict h l)) /\ length (tags ++ x) = length (fst (new_dict h l)).
Proof.
  revert h tags. induction l as [|[k v] l IH]; intros h tags L; cbn [new_dict].
  - exists []. rewrite app_nil_r. split; [intros k a []|exact L].
  - unfold alloc. destruct (IH (h ++ [v]) (tags ++ [k])) as (x & T & E); [rewrite !app_length, L; reflexivity|]. destruct (new_dict (h ++ [v]) l) as [h2 d2]. cbn [fst snd] in *.
    rewrite <- app_assoc in T, E. exists (k :: x). split; [|exact E]. apply tagged_dset; [exact T|]. rewrite nth_error_app2, L, Nat.sub_diag by lia. reflexivity.
Qed.

Record named (h : heap) (p : ph) (tags : list string) : Prop := {
  n_len : length tags = length h;
  n_cur : tagged tags (cur p);
  n_hist : forall d, In d (hist p) -> tagged tags d;
  n_keys : NoDup (map fst (cur p)) }.

Lemma named_grow h p tags g x : named h p tags -> length (tags ++ x) = length (h ++ g) -> named (h ++ g) p (tags ++ x).
Proof. intros [L C H K] E. split; auto; [now apply tagged_app|intros d D; now apply tagged_app, H]. Qed.

Lemma named_commit h p tags : named h p tags -> exists tags', named (fst (commit h p)) (snd (commit h p)) tags' /\ exists x, tags' = tags ++ x.
Proof.
  intros [L C H K]. destruct (tagged_clone h tags (cur p) L) as [T E]. unfold commit. destruct (clone h (cur p)) as [h1 c]. cbn [fst snd] in *.
  exists (tags ++ map fst (cur p)). split; [|eauto]. split; cbn [cur hist]; auto.
  - now apply tagged_app.
  - intros d D. apply in_app_or in D. destruct D as [D|[<-|[]]]; [|exact T]. apply tagged_app, H. destruct (maxl p <=? length (hist p)); [|exact D]. destruct (hist p); [destruct D|now right].
Qed.

Lemma named_set h p tags a v : named h p tags -> named (hset h a v) p tags.
Proof. intros [L C H K]. split; auto. now rewrite hset_length. Qed.

Lemma named_add h p tags k v : named h p tags -> exists tags', named (fst (add h p k v)) (snd (add h p k v)) tags'.
Proof.
  intros [L C H K]. exists (tags ++ [k]). unfold add, alloc. cbn [fst snd]. split; cbn [cur hist].
  - rewrite !app_length, L. reflexivity.
  - apply tagged_dset; [now apply tagged_app|]. rewrite nth_error_app2, L, Nat.sub_diag by lia. reflexivity.
  - intros d D. now apply tagged_app, H.
  - now apply keys_dset.
Qed.

Lemma named_update h p tags d : named h p tags -> tagged tags d -> named h (mkph (dupdate (cur p) d) (hist p) (maxl p)) tags.
Proof. intros [L C H K] T. split; cbn [cur hist]; auto; [now apply tagged_dupdate|now apply keys_dupdate]. Qed.

Lemma named_hist h p tags l m : named h p tags -> (forall d, In d l -> In d (hist p)) -> named h (mkph (cur p) l m) tags.
Proof. intros [L C H K] I. split; cbn [cur hist]; auto. Qed.

Lemma removelast_In {A} (l : list A) x : In x (removelast l) -> In x l.
Proof. induction l as [|a l IH]; [auto|]. cbn [removelast]. destruct l; [intros []|]. intros [<-|H]; [now left|right; auto]. Qed.

Lemma last_In {A} (l : list A) d : l <> [] -> In (last l d) l.
Proof. intro N. rewrite (app_removelast_last d N) at 2. apply in_or_app. right. now left. Qed.

Lemma skipn_In {A} n (l : list A) x : In x (skipn n l) -> In x l.
Proof. intro H. rewrite <- (firstn_skipn n l). apply in_or_app. now right. Qed.

Definition own (o : op) : Prop := match o with UpdateFrom _ => False | _ => True end.

Lemma named_step h p tags o : named h p tags -> own o -> exists tags', named (fst (fst (step (h, p) o))) (snd (fst (step (h, p) o))) tags'.
Proof.
  intros N O. destruct o; cbn [step]; try (now destruct O).
  - cbn [fst]. eapply named_add; eauto.
  - unfold set_value. destruct (lookup (cur p) k); cbn [fst snd]; eauto. exists tags. now apply named_set.
  - destruct (named_commit h p tags N) as (t & T & _). destruct (commit h p) as [h1 p1]. cbn [fst snd] in *. eapply named_add; eauto.
  - destruct (named_commit h p tags N) as (t & T & _). destruct (commit h p) as [h1 p1]. cbn [fst snd] in *. unfold set_value. destruct (lookup (cur p1) k); cbn [fst snd]; eauto. exists t. now apply named_set.
  - destruct (tagged_new h tags l (n_len _ _ _ N)) as (x & T & E). destruct (new_dict_spec h l) as (g & G & _). destruct (new_dict h l) as [h0 d]. cbn [fst snd] in *. subst h0.
    assert (N0 := named_grow _ _ _ g x N E). destruct (named_commit _ _ _ N0) as (t & T2 & y & ->). destruct (commit (h ++ g) p) as [h1 p1]. cbn [fst snd] in *.
    eexists. apply named_update; [exact T2|]. now apply tagged_app.
  - cbn [fst]. destruct (named_commit h p tags N) as (t & T & _). eauto.
  - unfold pop. destruct (hist p) as [|d ds] eqn:E; [cbn [fst snd]; eauto|]. rewrite <- E. assert (NE : hist p <> []) by congruence.
    destruct (tagged_clone h tags (cur p) (n_len _ _ _ N)) as [T L]. assert (G := clone_spec h (cur p)). destruct G as (g & G & _).
    { intros a A. apply in_map_iff in A. destruct A as ([k b] & <- & A). cbn. rewrite <- (n_len _ _ _ N). apply nth_error_Some. rewrite (n_cur _ _ _ N k b A). discriminate. }
    destruct (clone h (cur p)) as [h1 c]. cbn [fst snd] in *. subst h1. exists (tags ++ map fst (cur p)). assert (N1 := named_grow _ _ _ g _ N L).
    assert (N2 := named_update _ _ _ (last (hist p) []) N1 ltac:(apply tagged_app, (n_hist _ _ _ N), last_In; exact NE)).
    apply (named_hist _ _ _ (removelast (hist p)) (maxl p)) in N2; [exact N2|]. intros e I. cbn. now apply removelast_In.
  - unfold revert. destruct (_ =? _)%Z; [cbn [fst snd]; eauto|]. destruct (_ <? _)%Z; [|cbn [fst snd]; eauto]. destruct ((0 <=? _) && _)%Z%bool eqn:B; [|cbn [fst snd]; eauto].
    cbn [fst snd]. exists tags. apply named_update; [exact N|]. apply (n_hist _ _ _ N), nth_In. apply andb_true_iff in B. rewrite Z.leb_le, Z.ltb_lt in B. lia.
  - destruct (n <? 1)%Z; cbn [fst snd]; eauto. exists tags. apply named_hist; auto. intros d. apply skipn_In.
  - cbn [fst snd]. exists tags. apply named_hist; auto. intros d [].
Qed.

Lemma named_run ops : forall h p tags, named h p tags -> Forall own ops -> exists tags', named (fst (run (h, p) ops)) (snd (run (h, p) ops)) tags'.
Proof.
  induction ops as [|o ops IH]; intros h p tags N F; [cbn; eauto|]. inversion F as [|? ? O F']. subst.
  destruct (named_step h p tags o N O) as (t & T). cbn [run fold_left]. change (fold_left (fun s o => fst (step s o)) ops ?x) with (run x ops).
  destruct (fst (step (h, p) o)) as [h1 p1]. exact (IH _ _ _ T F').
Qed.

Lemma named_NoDup h p tags : named h p tags -> NoDup (addrs (cur p)).
Proof.
  intros [L C H K]. unfold addrs. induction (cur p) as [|[k a] d IH]; [constructor|]. cbn in *. inversion K as [|? ? A K']. subst. constructor.
  - intro I. apply in_map_iff in I. destruct I as ([j b] & E & I). cbn in E. subst b. assert (Q := C j a (or_intror I)). rewrite (C k a (or_introl eq_refl)) in Q. injection Q as <-.
    apply A. now apply (in_map fst) in I.
  - apply IH; auto. intros j b I. apply C. now right.
Qed.

Lemma named_valid h p tags : named h p tags -> valid h (cur p).
Proof.
  intros N a A. apply in_map_iff in A. destruct A as ([k b] & <- & A). cbn. rewrite <- (n_len _ _ _ N). apply nth_error_Some. rewrite (n_cur _ _ _ N k b A). discriminate.
Qed.

(** An object with some older versions below those of another object *)
Record above (p q : ph) : Prop := { a_cur : cur p = cur q; a_max : maxl p = maxl q; a_hist : exists old, hist p = old ++ hist q }.

Lemma above_commit h p q : above p q -> length (hist q) < maxl q ->
  fst (commit h p) = fst (commit h q) /\ above (snd (commit h p)) (snd (commit h q)) /\ length (hist (snd (commit h q))) = S (length (hist q)) /\ maxl (snd (commit h q)) = maxl q.
Proof.
  intros [C M (old & H)] L. unfold commit. rewrite C, M, H. destruct (clone h (cur q)) as [h1 c]. cbn [fst snd hist maxl].
  destruct (Nat.leb_spec (maxl q) (length (hist q))); [lia|]. split; [reflexivity|]. split; [|split; [rewrite app_length; cbn; lia|reflexivity]].
  split; cbn [cur maxl hist]; auto. destruct (Nat.leb_spec (maxl q) (length (old ++ hist q))) as [D|D].
  - destruct old as [|x old]; [cbn in D; lia|]. exists old. cbn. now rewrite app_assoc.
  - exists old. now rewrite app_assoc.
Qed.

Lemma above_pop h p q : above p q -> hist q <> [] ->
  fst (fst (pop h p)) = fst (fst (pop h q)) /\ above (snd (fst (pop h p))) (snd (fst (pop h q))) /\ S (length (hist (snd (fst (pop h q))))) = length (hist q).
Proof.
  intros [C M (old & H)] N. unfold pop. assert (NP : hist p <> []) by (rewrite H; intro X; apply app_eq_nil in X; tauto).
  assert (LL : forall l : list dict, l <> [] -> S (length (removelast l)) = length l).
  { intros l Nl. rewrite (app_removelast_last [] Nl) at 2. rewrite app_length. cbn. rewrite Nat.add_1_r. reflexivity. }
  assert (LA : last (hist p) [] = last (hist q) []). { rewrite H, (app_removelast_last [] N), app_assoc, !last_last. reflexivity. }
  assert (RL : removelast (hist p) = old ++ removelast (hist q)) by (rewrite H; now apply removelast_app).
  destruct (hist p) as [|x xs] eqn:EP; [now destruct NP|]. destruct (hist q) as [|y ys] eqn:EQ; [now destruct N|]. rewrite <- EP, <- EQ in *.
  rewrite C. destruct (clone h (cur q)) as [h1 c]. cbn [fst snd hist]. split; [reflexivity|]. split; [|now apply LL]. split; cbn [cur maxl hist]; auto; [now rewrite LA|eauto].
Qed.
