(** Lemmas on the widgets and buttons of the fit decorators. *)
From Coq Require Import Reals ZArith String List Arith Bool Lia.
From Verif.Base Require Import Py.
From Verif.Model Require Import ParamsHist FitGui.
From Verif.Proof Require Import ParamsHistP.
Import ListNotations.
Open Scope nat_scope.
Open Scope list_scope.

Lemma clone_keys h d : map fst (snd (clone h d)) = map fst d.
Proof.
  revert h. induction d as [|[k a] d IH]; intro h; [reflexivity|]. cbn [clone]. unfold alloc. specialize (IH (h ++ [nth a h 0%R])).
  destruct (clone (h ++ [nth a h 0%R]) d) as [h2 d2]. cbn in *. now rewrite IH.
Qed.

Lemma clone_grow h d : exists g, fst (clone h d) = h ++ g.
Proof.
  revert h. induction d as [|[k a] d IH]; intro h; [exists []; now rewrite app_nil_r|]. cbn [clone]. unfold alloc. destruct (IH (h ++ [nth a h 0%R])) as [g G].
  destruct (clone (h ++ [nth a h 0%R]) d) as [h2 d2]. cbn in *. exists ([nth a h 0%R] ++ g). now rewrite app_assoc.
Qed.

Lemma clone_fresh h d a : In a (addrs (snd (clone h d))) -> length h <= a < length (fst (clone h d)).
Proof.
  revert h. induction d as [|[k b] d IH]; intro h; [intros []|]. cbn [clone]. unfold alloc. specialize (IH (h ++ [nth b h 0%R])). destruct (clone_grow (h ++ [nth b h 0%R]) d) as [g G].
  destruct (clone (h ++ [nth b h 0%R]) d) as [h2 d2]. cbn in *. rewrite G, !app_length in *. cbn in *. intros [<-|H]; [lia|]. apply IH in H. lia.
Qed.

Lemma commit_grow h p : exists g, fst (commit h p) = h ++ g.
Proof. unfold commit. destruct (clone_grow h (cur p)) as [g G]. destruct clone. eauto. Qed.

Lemma commit_cur h p : cur (snd (commit h p)) = cur p.
Proof. unfold commit. now destruct clone. Qed.

Lemma commit_max h p : maxl (snd (commit h p)) = maxl p.
Proof. unfold commit. now destruct clone. Qed.

Lemma commit_hist h p d : In d (hist (snd (commit h p))) -> In d (hist p) \/ d = snd (clone h (cur p)).
Proof.
  unfold commit. destruct (clone h (cur p)) as [h1 c]. cbn [snd hist]. rewrite in_app_iff. intros [H|[<-|[]]]; [left|now right].
  destruct (maxl p <=? length (hist p)); [|exact H]. destruct (hist p); [destruct H|now right].
Qed.

Lemma commit_last h p : hist (snd (commit h p)) <> [] /\ last (hist (snd (commit h p))) [] = snd (clone h (cur p)) /\ fst (commit h p) = fst (clone h (cur p)).
Proof.
  unfold commit. destruct (clone h (cur p)) as [h1 c]. cbn [fst snd hist]. split; [|split; [apply last_last|reflexivity]]. destruct (if maxl p <=? length (hist p) then tl (hist p) else hist p); discriminate.
Qed.

Lemma pop_eq h p : hist p <> [] -> pop h p = (fst (clone h (cur p)), mkph (dupdate (cur p) (last (hist p) [])) (removelast (hist p)) (maxl p), Some (snd (clone h (cur p)))).
Proof. intro N. unfold pop. destruct (hist p); [now destruct N|]. now destruct clone. Qed.

Lemma removelast_In {A} (l : list A) x : In x (removelast l) -> In x l.
Proof. induction l as [|a l IH]; [auto|]. cbn [removelast]. destruct l; [intros []|]. intros [->|H]; [now left|right; auto]. Qed.

Lemma last_In {A} (l : list A) d : l <> [] -> In (last l d) l.
Proof. intro N. rewrite (app_removelast_last d N) at 2. apply in_or_app. right. now left. Qed.

Lemma value_some_dupdate h d e j v : value h e j = Some v -> value h (dupdate d e) j = Some v.
Proof. unfold value. rewrite lookup_dupdate. destruct (lookup e j); [auto|discriminate]. Qed.

Lemma value_none_dupdate h d e j : valid h e -> value h e j = None -> lookup d j = None -> value h (dupdate d e) j = None.
Proof.
  unfold value. rewrite lookup_dupdate. destruct (lookup e j) as [a|] eqn:L; [auto|]. now intros _ _ ->.
Qed.

Lemma lookup_keys d k : lookup d k = None <-> ~ In k (map fst d).
Proof.
  unfold lookup. destruct find as [p|] eqn:F.
  - split; [discriminate|]. apply find_some in F. destruct F as [I E]. apply String.eqb_eq in E. subst k. intro H. destruct H. now apply in_map.
  - split; [|reflexivity]. intros _ H. apply in_map_iff in H. destruct H as (p & <- & I). apply find_none with (x := p) in F; [|exact I]. now rewrite String.eqb_refl in F.
Qed.

Lemma lookup_pair d k a : NoDup (map fst d) -> In (k, a) d -> lookup d k = Some a.
Proof.
  unfold lookup. induction d as [|[i b] d IH]; [intros _ []|]. cbn. intros N [E|I]; inversion N as [|? ? A N']; subst.
  - injection E as -> ->. now rewrite String.eqb_refl.
  - destruct (String.eqb_spec i k); [subst; destruct A; now apply (in_map fst) in I|now apply IH].
Qed.

Lemma value_valid_none h d j : valid h d -> value h d j = None -> lookup d j = None.
Proof. unfold value. intro V. destruct (lookup d j) as [a|] eqn:L; [|auto]. intro H. apply nth_error_None in H. apply lookup_In, V in L. lia. Qed.

(** All parameters of d replaced by those of e *)
Lemma addrs_dupdate_all d e a : NoDup (map fst d) -> (forall k, In k (map fst d) -> In k (map fst e)) -> In a (addrs (dupdate d e)) -> In a (addrs e).
Proof.
  intros N K I. unfold addrs in I. apply in_map_iff in I. destruct I as ([k b] & E & I). cbn in E. subst b.
  apply lookup_pair in I; [|now apply keys_dupdate]. rewrite lookup_dupdate in I. destruct (lookup e k) as [b|] eqn:L.
  - injection I as ->. now apply lookup_In in L.
  - exfalso. apply (proj1 (lookup_keys e k) L), K. apply lookup_In in I as I2. destruct (in_dec string_dec k (map fst d)) as [H|H]; [exact H|]. apply lookup_keys in H. congruence.
Qed.

(** A stored version is restored by pop, whatever happened to the objects that are not its own *)
Lemma pop_restores h h2 p2 c j v : hist p2 <> [] -> last (hist p2) [] = c -> valid h2 c ->
  (forall a, In a (addrs c) -> nth_error h2 a = nth_error h a) -> value h c j = Some v ->
  valid h2 (cur p2) -> value (fst (fst (pop h2 p2))) (cur (snd (fst (pop h2 p2)))) j = Some v.
Proof.
  intros N L V E H VC. rewrite (pop_eq _ _ N). cbn [fst snd cur]. rewrite L. apply value_some_dupdate. destruct (clone_grow h2 (cur p2)) as [g ->].
  rewrite value_app by exact V. now rewrite (value_ext h h2 c E).
Qed.

Lemma pop_restores_none h2 p2 c j : hist p2 <> [] -> last (hist p2) [] = c -> valid h2 c ->
  lookup c j = None -> lookup (cur p2) j = None -> value (fst (fst (pop h2 p2))) (cur (snd (fst (pop h2 p2)))) j = None.
Proof. intros N L V H K. rewrite (pop_eq _ _ N). cbn [fst snd cur]. rewrite L. unfold value. now rewrite lookup_dupdate, H, K. Qed.

(** The addresses in use are valid, and F is not among those that can be written to *)
Record gvalid (g : gui) : Prop := {
  v_cur : valid (g_heap g) (cur (g_params g));
  v_hist : forall d, In d (hist (g_params g)) -> valid (g_heap g) d;
  v_last : forall d, g_last g = Some d -> valid (g_heap g) d;
  v_fitted : valid (g_heap g) (g_fitted g);
  v_initial : valid (g_heap g) (g_initial g) }.

Record apart (F : dict) (g : gui) : Prop := {
  a_valid : valid (g_heap g) F;
  a_cur : forall a, In a (addrs F) -> ~ In a (addrs (cur (g_params g)));
  a_hist : forall a d, In a (addrs F) -> In d (hist (g_params g)) -> ~ In a (addrs d);
  a_last : forall a d, In a (addrs F) -> g_last g = Some d -> ~ In a (addrs d) }.

Lemma valid_grow h x d : valid h d -> valid (h ++ x) d.
Proof. intros V a A. apply V in A. rewrite app_length. lia. Qed.

Lemma valid_clone h d : valid (fst (clone h d)) (snd (clone h d)).
Proof. intros a A. now apply clone_fresh in A. Qed.

Lemma valid_dupdate h d e : valid h d -> valid h e -> valid h (dupdate d e).
Proof. intros V W a A. apply addrs_dupdate in A. destruct A; auto. Qed.

Lemma valid_hset h a v d : valid h d -> valid (hset h a v) d.
Proof. intros V b B. rewrite hset_length. now apply V. Qed.

Definition pvalid (h : heap) (p : ph) : Prop := valid h (cur p) /\ forall d, In d (hist p) -> valid h d.
Definition papart (F : dict) (p : ph) : Prop := (forall a, In a (addrs F) -> ~ In a (addrs (cur p))) /\ forall a d, In a (addrs F) -> In d (hist p) -> ~ In a (addrs d).

Lemma pvalid_grow h x p : pvalid h p -> pvalid (h ++ x) p.
Proof. intros [A B]. split; [now apply valid_grow|intros; now apply valid_grow, B]. Qed.

Lemma commit_pvalid h p : pvalid h p -> pvalid (fst (commit h p)) (snd (commit h p)).
Proof.
  intros [A B]. destruct (commit_last h p) as (_ & _ & E). destruct (clone_grow h (cur p)) as [x X]. split.
  - rewrite commit_cur, E, X. now apply valid_grow.
  - intros d D. rewrite E. apply commit_hist in D. destruct D as [D| ->]; [rewrite X; now apply valid_grow, B|apply valid_clone].
Qed.

Lemma commit_papart h p F : valid h F -> papart F p -> papart F (snd (commit h p)).
Proof.
  intros V [A B]. split; [rewrite commit_cur; exact A|]. intros a d I D. apply commit_hist in D. destruct D as [D| ->]; [now apply B|].
  intro C. apply clone_fresh in C. apply V in I. lia.
Qed.

Lemma update_from_eq h p d : update_from h p d = (fst (commit h p), mkph (dupdate (cur p) d) (hist (snd (commit h p))) (maxl p)).
Proof. unfold update_from. rewrite <- (commit_cur h p), <- (commit_max h p). now destruct (commit h p). Qed.

Lemma update_from_pvalid h p d : pvalid h p -> valid h d -> pvalid (fst (update_from h p d)) (snd (update_from h p d)).
Proof.
  intros P V. rewrite update_from_eq. cbn [fst snd]. destruct (commit_pvalid h p P) as [A B]. destruct (commit_grow h p) as [x X]. split; cbn [cur hist]; [|exact B]. rewrite X.
  apply valid_dupdate; apply valid_grow; [exact (proj1 P)|exact V].
Qed.

Lemma update_from_papart h p d F : valid h F -> papart F p -> (forall a, In a (addrs F) -> ~ In a (addrs d)) -> papart F (snd (update_from h p d)).
Proof.
  intros V P N. rewrite update_from_eq. cbn [fst snd]. destruct (commit_papart h p F V P) as [A B]. split; cbn [cur hist]; [|exact B].
  intros a I C. apply addrs_dupdate in C. destruct C as [C|C]; [now apply (N a)|now apply (proj1 P a)].
Qed.

Lemma pop_pvalid h p : pvalid h p -> pvalid (fst (fst (pop h p))) (snd (fst (pop h p))).
Proof.
  intros [A B]. destruct (hist p) as [|d0 ds] eqn:E.
  - unfold pop. rewrite E. cbn. split; [exact A|]. rewrite E. exact B.
  - rewrite (pop_eq h p) by congruence. cbn [fst snd]. destruct (clone_grow h (cur p)) as [x ->]. apply pvalid_grow. rewrite E. split; cbn [cur hist].
    + apply valid_dupdate; [exact A|]. apply B, last_In. discriminate.
    + intros d D. apply B. now apply removelast_In.
Qed.

Lemma pop_papart h p F : papart F p -> papart F (snd (fst (pop h p))).
Proof.
  intros [A B]. destruct (hist p) as [|d0 ds] eqn:E.
  - unfold pop. rewrite E. cbn. split; [exact A|]. rewrite E. exact B.
  - rewrite (pop_eq h p) by congruence. cbn [fst snd]. rewrite E. split; cbn [cur hist].
    + intros a I C. apply addrs_dupdate in C. destruct C as [C|C]; [|now apply (A a)]. eapply B; [exact I| |exact C]. apply last_In. discriminate.
    + intros a d I D. apply (B a); auto. now apply removelast_In.
Qed.

Lemma pop_grow h p : exists x, fst (fst (pop h p)) = h ++ x.
Proof.
  destruct (hist p) eqn:E; [unfold pop; rewrite E; exists []; now rewrite app_nil_r|]. rewrite pop_eq by congruence. apply clone_grow.
Qed.

Lemma pop_last h p d : snd (pop h p) = Some d -> d = snd (clone h (cur p)) /\ fst (fst (pop h p)) = fst (clone h (cur p)).
Proof.
  destruct (hist p) eqn:E; [unfold pop; rewrite E; discriminate|]. rewrite pop_eq by congruence. cbn. intro H. injection H as <-. auto.
Qed.

Lemma new_dict_grow h l : exists x, fst (new_dict h l) = h ++ x.
Proof. destruct (new_dict_spec h l) as (g & G & _). eauto. Qed.

Lemma new_dict_valid h l a : In a (addrs (snd (new_dict h l))) -> length h <= a < length (fst (new_dict h l)).
Proof. destruct (new_dict_spec h l) as (g & G & V & _). intro A. apply V in A. rewrite G, app_length. exact A. Qed.

(** Every click keeps the invariants, and the values of an object apart *)
Lemma fit_button_eq g f : let n := new_dict (g_heap g) (map (fun p => (fst p, f (fst p))) (cur (g_params g))) in
  let c := commit (fst n) (g_params g) in let u := update_from (fst c) (snd c) (snd n) in
  fit_button g f = mkgui (fst u) (snd u) (g_last g) (snd n) (g_initial g).
Proof.
  unfold fit_button, fit. destruct new_dict as [h1 d]. cbn [g_heap g_params g_last g_fitted g_initial fst snd]. destruct (commit h1 (g_params g)) as [h2 p2]. cbn [fst snd]. now destruct (update_from h2 p2 d).
Qed.

Lemma undo_button_eq g : let t := pop (g_heap g) (g_params g) in undo_button g = mkgui (fst (fst t)) (snd (fst t)) (snd t) (g_fitted g) (g_initial g).
Proof. unfold undo_button. now destruct pop as [[h p] l]. Qed.

Lemma redo_button_eq g l : g_last g = Some l -> let t := update_from (g_heap g) (g_params g) l in redo_button g = mkgui (fst t) (snd t) None (g_fitted g) (g_initial g).
Proof. unfold redo_button. intros ->. now destruct update_from. Qed.

Lemma initial_button_eq g : let t := pop (g_heap g) (g_params g) in let c := clone (fst (fst t)) (g_initial g) in
  initial_button g = mkgui (fst c) (mkph (snd c) [] 50) (snd t) (g_fitted g) (g_initial g).
Proof. unfold initial_button. destruct pop as [[h p] l]. cbn. now destruct clone. Qed.

Lemma change_widget_eq g k v : let c := commit (g_heap g) (g_params g) in
  fst (change_widget g k v) = mkgui (match lookup (cur (g_params g)) k with Some a => hset (fst c) a v | None => fst c end) (snd c) (g_last g) (g_fitted g) (g_initial g).
Proof.
  unfold change_widget. assert (H := commit_cur (g_heap g) (g_params g)). destruct (commit (g_heap g) (g_params g)) as [h1 p1]. cbn [fst snd] in *. unfold set_value. rewrite H. now destruct lookup.
Qed.

Lemma click_valid g c : gvalid g -> gvalid (fst (on_click g c)).
Proof.
  intros [VC VH VL VF VI]. assert (P : pvalid (g_heap g) (g_params g)) by (split; assumption). destruct c as [k v|f| | |]; cbn [on_click fst].
  - rewrite change_widget_eq. destruct (commit_pvalid _ _ P) as [A B]. destruct (commit_grow (g_heap g) (g_params g)) as [x X].
    set (h' := match lookup (cur (g_params g)) k with Some a => hset _ a v | None => _ end).
    assert (T : forall d, valid (fst (commit (g_heap g) (g_params g))) d -> valid h' d) by (intros d D; unfold h'; destruct lookup; [now apply valid_hset|exact D]).
    assert (T' : forall d, valid (g_heap g) d -> valid h' d) by (intros d D; apply T; rewrite X; now apply valid_grow).
    clearbody h'. split; cbn [g_heap g_params g_last g_fitted g_initial]; auto.
  - rewrite fit_button_eq. set (n := new_dict _ _). set (c := commit _ _). set (u := update_from _ _ _).
    destruct (new_dict_grow (g_heap g) (map (fun p => (fst p, f (fst p))) (cur (g_params g)))) as [x X]. fold n in X.
    assert (VN : valid (fst n) (snd n)) by (intros a A; now apply new_dict_valid in A).
    assert (P1 : pvalid (fst n) (g_params g)) by (rewrite X; now apply pvalid_grow).
    destruct (commit_grow (fst n) (g_params g)) as [y Y]. fold c in Y. assert (P2 := commit_pvalid _ _ P1). fold c in P2.
    destruct (commit_grow (fst c) (snd c)) as [z Z]. assert (U : fst u = fst c ++ z) by (unfold u; rewrite update_from_eq; exact Z).
    assert (P3 : pvalid (fst u) (snd u)) by (apply update_from_pvalid; [exact P2|rewrite Y; now apply valid_grow]).
    assert (T : forall d, valid (g_heap g) d -> valid (fst u) d) by (intros d D; rewrite U, Y, X; now repeat apply valid_grow).
    split; cbn [g_heap g_params g_last g_fitted g_initial]; [exact (proj1 P3)|exact (proj2 P3)|auto| |auto]. rewrite U, Y. now repeat apply valid_grow.
  - rewrite undo_button_eq. destruct (pop_pvalid _ _ P) as [A B]. destruct (pop_grow (g_heap g) (g_params g)) as [x X].
    assert (T : forall d, valid (g_heap g) d -> valid (fst (fst (pop (g_heap g) (g_params g)))) d) by (intros d D; rewrite X; now apply valid_grow).
    split; cbn [g_heap g_params g_last g_fitted g_initial]; auto. intros d D. apply pop_last in D. destruct D as [-> ->]. apply valid_clone.
  - destruct (g_last g) as [l|] eqn:L; [|unfold redo_button; rewrite L; split; auto; congruence]. rewrite (redo_button_eq g l L).
    destruct (update_from_pvalid _ _ l P (VL l eq_refl)) as [A B]. destruct (commit_grow (g_heap g) (g_params g)) as [x X].
    assert (T : forall d, valid (g_heap g) d -> valid (fst (update_from (g_heap g) (g_params g) l)) d) by (intros d D; rewrite update_from_eq; cbn [fst]; rewrite X; now apply valid_grow).
    split; cbn [g_heap g_params g_last g_fitted g_initial]; auto. discriminate.
  - rewrite initial_button_eq. set (t := pop _ _). set (c := clone _ _). destruct (pop_grow (g_heap g) (g_params g)) as [x X]. fold t in X. destruct (clone_grow (fst (fst t)) (g_initial g)) as [y Y]. fold c in Y.
    assert (T : forall d, valid (g_heap g) d -> valid (fst c) d) by (intros d D; rewrite Y, X; now repeat apply valid_grow).
    split; cbn [g_heap g_params g_last g_fitted g_initial cur hist]; auto; [apply valid_clone|intros d []|].
    intros d D. apply pop_last in D. destruct D as [-> D]. fold t in D. rewrite Y, D. apply valid_grow, valid_clone.
Qed.

Lemma clicks_valid l : forall g, gvalid g -> gvalid (clicks g l).
Proof. induction l as [|c l IH]; intros g V; [exact V|]. cbn. apply IH. now apply click_valid. Qed.

Lemma click_apart F g c : gvalid g -> apart F g -> apart F (fst (on_click g c)) /\ forall j, value (g_heap (fst (on_click g c))) F j = value (g_heap g) F j.
Proof.
  intros [VC VH VL VF VI] [AV AC AH AL]. assert (P : papart F (g_params g)) by (split; assumption). destruct c as [k v|f| | |]; cbn [on_click fst].
  - rewrite change_widget_eq. destruct (commit_papart (g_heap g) _ F AV P) as [A B]. destruct (commit_grow (g_heap g) (g_params g)) as [x X]. cbn [g_heap]. split.
    + split; cbn [g_heap g_params g_last g_fitted g_initial]; auto. destruct lookup; [apply valid_hset|]; rewrite X; now apply valid_grow.
    + intro j. rewrite <- (value_app _ x F j AV), <- X. destruct lookup as [a|] eqn:L; [|reflexivity]. apply value_ext. intros b I. apply hset_other. intros ->. apply lookup_In in L. now apply (AC a).
  - rewrite fit_button_eq. set (n := new_dict _ _). set (c := commit _ _). set (u := update_from _ _ _).
    destruct (new_dict_grow (g_heap g) (map (fun p => (fst p, f (fst p))) (cur (g_params g)))) as [x X]. fold n in X.
    destruct (commit_grow (fst n) (g_params g)) as [y Y]. fold c in Y.
    destruct (commit_grow (fst c) (snd c)) as [z Z]. assert (U : fst u = fst c ++ z) by (unfold u; rewrite update_from_eq; exact Z).
    assert (V1 : valid (fst n) F) by (rewrite X; now apply valid_grow). assert (V2 : valid (fst c) F) by (rewrite Y; now apply valid_grow).
    assert (P2 := commit_papart (fst n) _ F V1 P). fold c in P2.
    assert (P3 : papart F (snd u)). { apply update_from_papart; auto. intros a I J. apply new_dict_valid in J. apply AV in I. lia. }
    cbn [g_heap]. split.
    + destruct P3. split; cbn [g_heap g_params g_last g_fitted g_initial]; auto. rewrite U. now apply valid_grow.
    + intro j. rewrite U, value_app, Y, value_app, X, value_app; auto.
  - rewrite undo_button_eq. destruct (pop_papart (g_heap g) _ F P) as [A B]. destruct (pop_grow (g_heap g) (g_params g)) as [x X]. cbn [g_heap]. split.
    + split; cbn [g_heap g_params g_last g_fitted g_initial]; auto; [rewrite X; now apply valid_grow|]. intros a d I D. apply pop_last in D. destruct D as [-> _]. intro C. apply clone_fresh in C. apply AV in I. lia.
    + intro j. rewrite X. now apply value_app.
  - destruct (g_last g) as [l|] eqn:L; [|unfold redo_button; rewrite L; split; [split; auto; congruence|auto]]. rewrite (redo_button_eq g l L).
    destruct (update_from_papart (g_heap g) (g_params g) l F AV P) as [A B]; [intros a I; now apply AL|]. destruct (commit_grow (g_heap g) (g_params g)) as [x X]. cbn [g_heap]. split.
    + split; cbn [g_heap g_params g_last g_fitted g_initial]; auto; [|discriminate]. rewrite update_from_eq. cbn [fst]. rewrite X. now apply valid_grow.
    + intro j. rewrite update_from_eq. cbn [fst]. rewrite X. now apply value_app.
  - rewrite initial_button_eq. set (t := pop _ _). set (c := clone _ _). destruct (pop_grow (g_heap g) (g_params g)) as [x X]. fold t in X. destruct (clone_grow (fst (fst t)) (g_initial g)) as [y Y]. fold c in Y. cbn [g_heap].
    assert (V1 : valid (fst (fst t)) F) by (rewrite X; now apply valid_grow). split.
    + split; cbn [g_heap g_params g_last g_fitted g_initial cur hist]; auto.
      * rewrite Y. now apply valid_grow.
      * intros a I C. apply clone_fresh in C. apply V1 in I. lia.
      * intros a d I D. apply pop_last in D. destruct D as [-> D]. intro C. apply clone_fresh in C. apply AV in I. lia.
    + intro j. rewrite Y, value_app, X, value_app; auto.
Qed.

Lemma clicks_apart F l : forall g, gvalid g -> apart F g -> apart F (clicks g l) /\ forall j, value (g_heap (clicks g l)) F j = value (g_heap g) F j.
Proof.
  induction l as [|c l IH]; intros g V A; [auto|]. cbn. destruct (click_apart F g c V A) as [B E]. destruct (IH _ (click_valid g c V) B) as [C D]. split; [exact C|]. intro j. now rewrite D, E.
Qed.

Lemma clicks_app g l m : clicks g (l ++ m) = clicks (clicks g l) m.
Proof. apply fold_left_app. Qed.

Lemma click_initial g c : g_initial (fst (on_click g c)) = g_initial g.
Proof.
  destruct c as [k v|f| | |]; cbn [on_click fst]; [rewrite change_widget_eq|rewrite fit_button_eq|rewrite undo_button_eq| |rewrite initial_button_eq]; try reflexivity.
  destruct (g_last g) as [l|] eqn:L; [now rewrite (redo_button_eq g l L)|unfold redo_button; now rewrite L].
Qed.

Lemma clicks_initial l : forall g, g_initial (clicks g l) = g_initial g.
Proof. induction l as [|c l IH]; intro g; [reflexivity|]. etransitivity; [exact (IH _)|apply click_initial]. Qed.

Lemma click_fitted g c : (forall f, c <> Fit f) -> g_fitted (fst (on_click g c)) = g_fitted g.
Proof.
  intro N. destruct c as [k v|f| | |]; cbn [on_click fst]; [rewrite change_widget_eq|now destruct (N f)|rewrite undo_button_eq| |rewrite initial_button_eq]; try reflexivity.
  destruct (g_last g) as [l|] eqn:L; [now rewrite (redo_button_eq g l L)|unfold redo_button; now rewrite L].
Qed.

Lemma clicks_fitted l : forall g, Forall (fun c => forall f, c <> Fit f) l -> g_fitted (clicks g l) = g_fitted g.
Proof. induction l as [|c l IH]; intros g F; [reflexivity|]. inversion F. subst. etransitivity; [exact (IH _ ltac:(assumption))|now apply click_fitted]. Qed.

Lemma start_eq h p : let c := clone h (cur p) in let d := clone (fst c) (cur p) in start h p = mkgui (fst d) p None (snd c) (snd d).
Proof. unfold start. destruct (clone h (cur p)) as [h1 f]. cbn [fst snd]. now destruct (clone h1 (cur p)). Qed.

Lemma start_valid h p : pvalid h p -> gvalid (start h p) /\ apart (g_fitted (start h p)) (start h p) /\ apart (g_initial (start h p)) (start h p) /\
  (forall j, shown (start h p) j = value h (cur p) j) /\ (forall j, fitted (start h p) j = value h (cur p) j) /\ (forall j, initial (start h p) j = value h (cur p) j).
Proof.
  intros P. rewrite start_eq. set (c := clone h (cur p)). set (d := clone (fst c) (cur p)). destruct (clone_grow h (cur p)) as [x X]. fold c in X. destruct (clone_grow (fst c) (cur p)) as [y Y]. fold d in Y.
  assert (VC : valid (fst c) (snd c)) by apply valid_clone. assert (VD : valid (fst d) (snd d)) by apply valid_clone.
  assert (T : forall e, valid h e -> valid (fst d) e) by (intros e E; rewrite Y, X; now repeat apply valid_grow).
  unfold shown, fitted, initial. cbn [g_heap g_params g_last g_fitted g_initial].
  assert (V1 : valid (fst c) (cur p)) by (rewrite X; exact (valid_grow _ x _ (proj1 P))).
  assert (VF : valid (fst d) (snd c)) by (rewrite Y; exact (valid_grow _ y _ VC)).
  destruct P as [P1 P2].
  split; [|split; [|split; [|split; [|split]]]].
  - split; cbn [g_heap g_params g_last g_fitted g_initial]; auto. discriminate.
  - split; cbn [g_heap g_params g_last g_fitted g_initial]; [exact VF| | |discriminate].
    + intros a I C. apply clone_fresh in I. apply P1 in C. lia.
    + intros a e I E C. apply clone_fresh in I. apply (P2 e E) in C. lia.
  - split; cbn [g_heap g_params g_last g_fitted g_initial]; [exact VD| | |discriminate].
    + intros a I C. apply clone_fresh in I. apply V1 in C. lia.
    + intros a e I E C. apply clone_fresh in I. apply (P2 e E) in C. rewrite X, app_length in I. lia.
  - intro j. rewrite Y, value_app, X, value_app; auto.
  - intro j. rewrite Y, value_app by exact VC. destruct (clone_spec h (cur p) P1) as (_ & _ & _ & _ & E). apply E.
  - intro j. destruct (clone_spec (fst c) (cur p) V1) as (_ & _ & _ & _ & E). unfold d. rewrite E, X. now apply value_app.
Qed.
