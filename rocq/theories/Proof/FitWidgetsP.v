(** Lemmas on the number boxes and checkboxes of the fit decorators. *)
From Coq Require Import Reals ZArith String List Arith Bool Lia Lra.
From Verif.Base Require Import Py.
From Verif.Model Require Import ParamsHist FitGui FitWidgets.
From Verif.Proof Require Import ParamsHistP FitGuiP.
Import ListNotations.
Open Scope nat_scope.
Open Scope list_scope.

(** Every Parameter object has a name, under which alone it is stored, and a value that is good for it *)
Section Good.
Variable good : string -> R -> Prop.

Record gok (g : gui) (tags : list string) : Prop := {
  k_cells : Forall2 good tags (g_heap g);
  k_cur : tagged tags (cur (g_params g));
  k_hist : forall d, In d (hist (g_params g)) -> tagged tags d;
  k_last : forall d, g_last g = Some d -> tagged tags d;
  k_fitted : tagged tags (g_fitted g);
  k_initial : tagged tags (g_initial g) }.

Lemma good_at tags h a k : Forall2 good tags h -> nth_error tags a = Some k -> exists v, nth_error h a = Some v /\ good k v.
Proof.
  intro F. revert a. induction F as [|x v tags h G F IH]; intros [|a] H; cbn in *; try discriminate.
  - injection H as ->. eauto.
  - now apply IH.
Qed.

Lemma good_len tags h : Forall2 good tags h -> length tags = length h.
Proof. induction 1; cbn; congruence. Qed.

Lemma tagged_valid tags h d : Forall2 good tags h -> tagged tags d -> valid h d.
Proof.
  intros F T a A. unfold addrs in A. apply in_map_iff in A. destruct A as ([k b] & E & I). cbn in E. subst b.
  apply T in I. destruct (good_at _ _ _ _ F I) as (v & V & _). apply nth_error_Some. congruence.
Qed.

Lemma lookup_pair_In d k a : lookup d k = Some a -> In (k, a) d.
Proof.
  unfold lookup. destruct find as [[j b]|] eqn:F; [|discriminate]. intro E. cbn in E. injection E as ->.
  apply find_some in F. destruct F as [I E]. cbn in E. apply String.eqb_eq in E. now subst.
Qed.

Lemma value_good tags h d k : Forall2 good tags h -> tagged tags d -> lookup d k <> None -> exists v, value h d k = Some v /\ good k v.
Proof.
  intros F T N. unfold value. destruct (lookup d k) as [a|] eqn:L; [|now destruct N]. apply lookup_pair_In, T in L. exact (good_at _ _ _ _ F L).
Qed.

Lemma hset_good tags h a k v : Forall2 good tags h -> nth_error tags a = Some k -> good k v -> Forall2 good tags (hset h a v).
Proof.
  intro F. revert a. induction F as [|x w tags h G F IH]; intros [|a] H Q; cbn in *; try discriminate.
  - injection H as ->. constructor; auto.
  - constructor; auto.
Qed.

Lemma clone_good tags h d : Forall2 good tags h -> tagged tags d ->
  Forall2 good (tags ++ map fst d) (fst (clone h d)) /\ tagged (tags ++ map fst d) (snd (clone h d)).
Proof.
  intros F T. split; [|apply (tagged_clone h tags d (good_len _ _ F))]. revert tags h F T.
  induction d as [|[k a] d IH]; intros tags h F T; cbn [clone map fst snd]; [now rewrite app_nil_r|].
  unfold alloc. assert (N := T k a (or_introl eq_refl)). destruct (good_at _ _ _ _ F N) as (v & V & G).
  rewrite (nth_error_nth _ _ 0%R V). specialize (IH (tags ++ [k]) (h ++ [v])). destruct (clone (h ++ [v]) d) as [h2 d2]. cbn [fst] in *. rewrite <- app_assoc in IH. apply IH.
  - apply Forall2_app; [exact F|]. constructor; [exact G|constructor].
  - apply tagged_app. intros j b I. apply T. now right.
Qed.

Lemma new_good tags h l : Forall2 good tags h -> (forall k v, In (k, v) l -> good k v) ->
  exists x, Forall2 good (tags ++ x) (fst (new_dict h l)) /\ tagged (tags ++ x) (snd (new_dict h l)).
Proof.
  revert tags h. induction l as [|[k v] l IH]; intros tags h F G; cbn [new_dict].
  - exists []. rewrite app_nil_r. split; [exact F|intros k a []].
  - unfold alloc. destruct (IH (tags ++ [k]) (h ++ [v])) as (x & X & T).
    + apply Forall2_app; [exact F|]. constructor; [apply G; now left|constructor].
    + intros j w I. apply G. now right.
    + destruct (new_dict (h ++ [v]) l) as [h2 d2]. cbn [fst snd] in *. rewrite <- app_assoc in X, T. exists (k :: x). split; [exact X|].
      apply tagged_dset; [exact T|]. rewrite (nth_error_app2 tags) by (rewrite (good_len _ _ F); lia). now rewrite (good_len _ _ F), Nat.sub_diag.
Qed.

Lemma commit_good tags h p : Forall2 good tags h -> tagged tags (cur p) -> (forall d, In d (hist p) -> tagged tags d) ->
  exists x, Forall2 good (tags ++ x) (fst (commit h p)) /\ forall d, In d (hist (snd (commit h p))) -> tagged (tags ++ x) d.
Proof.
  intros F T H. destruct (clone_good tags h (cur p) F T) as [A B]. exists (map fst (cur p)). destruct (commit_last h p) as (_ & _ & ->). split; [exact A|].
  intros d D. apply commit_hist in D. destruct D as [D| ->]; [now apply tagged_app, H|exact B].
Qed.

Lemma pop_good tags h p : Forall2 good tags h -> tagged tags (cur p) -> (forall d, In d (hist p) -> tagged tags d) ->
  exists x, Forall2 good (tags ++ x) (fst (fst (pop h p))) /\ tagged (tags ++ x) (cur (snd (fst (pop h p)))) /\
    (forall d, In d (hist (snd (fst (pop h p)))) -> tagged (tags ++ x) d) /\ forall d, snd (pop h p) = Some d -> tagged (tags ++ x) d.
Proof.
  intros F T H. destruct (hist p) as [|d0 ds] eqn:E.
  - exists []. rewrite app_nil_r. unfold pop. rewrite E. cbn [fst snd]. rewrite E. repeat split; auto; try discriminate; intros d [].
  - destruct (clone_good tags h (cur p) F T) as [A B]. exists (map fst (cur p)). rewrite pop_eq by congruence. cbn [fst snd cur hist].
    split; [exact A|]. split; [|split].
    + apply tagged_app, tagged_dupdate; [exact T|]. apply H. rewrite E. apply last_In. discriminate.
    + intros d D. apply tagged_app, H. rewrite <- E. now apply removelast_In.
    + intros d D. injection D as <-. exact B.
Qed.

Lemma click_ok g tags c : gok g tags ->
  (forall k v, c = Change k v -> lookup (cur (g_params g)) k <> None -> good k v) ->
  (forall f k, c = Fit f -> In k (map fst (cur (g_params g))) -> good k (f k)) ->
  exists x, gok (fst (on_click g c)) (tags ++ x).
Proof.
  intros [F C H L FI I] GC GF. destruct c as [k v|f| | |]; cbn [on_click fst].
  - rewrite change_widget_eq. destruct (commit_good _ _ _ F C H) as (x & A & B). exists x. split; cbn [g_heap g_params g_last g_fitted g_initial]; auto; try (now apply tagged_app).
    + destruct (lookup (cur (g_params g)) k) as [a|] eqn:E; [|exact A]. apply (hset_good _ _ _ k); [exact A| |].
      * apply (tagged_app _ x _ C). now apply lookup_pair_In.
      * apply (GC k v eq_refl). congruence.
    + rewrite commit_cur. now apply tagged_app.
    + intros d D. now apply tagged_app, L.
  - rewrite fit_button_eq. set (n := new_dict _ _). set (c := commit _ _). set (u := update_from _ _ _).
    destruct (new_good tags (g_heap g) (map (fun p => (fst p, f (fst p))) (cur (g_params g))) F) as (x & X & NX).
    { intros k v K. apply in_map_iff in K. destruct K as (p & K & IP). injection K as <- <-. apply (GF f (fst p) eq_refl). now apply in_map. }
    fold n in X, NX. destruct (commit_good (tags ++ x) (fst n) (g_params g) X) as (y & Y & HY); [now apply tagged_app|intros d D; now apply tagged_app, H|]. fold c in Y, HY.
    destruct (commit_good ((tags ++ x) ++ y) (fst c) (snd c) Y) as (z & Z & HZ); [unfold c; rewrite commit_cur; now repeat apply tagged_app|exact HY|].
    exists (x ++ y ++ z). assert (E : tags ++ x ++ y ++ z = ((tags ++ x) ++ y) ++ z) by now rewrite !app_assoc. rewrite E. clear E.
    unfold u. rewrite update_from_eq. split; cbn [fst snd g_heap g_params g_last g_fitted g_initial cur hist]; auto; try (now repeat apply tagged_app).
    + apply tagged_dupdate; [unfold c; rewrite commit_cur; now repeat apply tagged_app|do 2 apply tagged_app; exact NX].
    + intros d D. do 3 apply tagged_app; now apply L.
    + do 2 apply tagged_app; exact NX.
  - rewrite undo_button_eq. destruct (pop_good _ _ _ F C H) as (x & A & B & D & E). exists x. split; cbn [g_heap g_params g_last g_fitted g_initial]; auto; now apply tagged_app.
  - destruct (g_last g) as [l|] eqn:E.
    + rewrite (redo_button_eq g l E). rewrite update_from_eq. destruct (commit_good _ _ _ F C H) as (x & A & B). exists x.
      split; cbn [fst snd g_heap g_params g_last g_fitted g_initial cur hist]; auto; try (now apply tagged_app); [|discriminate].
      apply tagged_dupdate; apply tagged_app; auto.
    + exists []. rewrite app_nil_r. unfold redo_button. rewrite E. split; auto. intros d D. congruence.
  - rewrite initial_button_eq. set (t := pop _ _). set (c := clone _ _). destruct (pop_good _ _ _ F C H) as (x & A & _ & _ & E). fold t in A, E.
    destruct (clone_good (tags ++ x) (fst (fst t)) (g_initial g) A) as [Y TY]; [now apply tagged_app|]. fold c in Y, TY. exists (x ++ map fst (g_initial g)). rewrite app_assoc.
    split; cbn [g_heap g_params g_last g_fitted g_initial cur hist]; auto; try (now repeat apply tagged_app).
    + intros d D. apply tagged_app. now apply E.
Qed.

Lemma start_ok h p tags : Forall2 good tags h -> tagged tags (cur p) -> (forall d, In d (hist p) -> tagged tags d) -> exists x, gok (start h p) (tags ++ x).
Proof.
  intros F C H. rewrite start_eq. destruct (clone_good _ _ _ F C) as [A B]. destruct (clone_good _ _ (cur p) A (tagged_app _ _ _ C)) as [D E].
  exists (map fst (cur p) ++ map fst (cur p)). rewrite app_assoc. split; cbn [g_heap g_params g_last g_fitted g_initial]; auto; try discriminate; try (now repeat apply tagged_app).
  - intros d I. do 2 apply tagged_app; now apply H.
  - apply tagged_app. exact B.
Qed.
End Good.

(** The names stay *)
Definition has (g : gui) (k : string) : Prop := lookup (cur (g_params g)) k <> None /\ lookup (g_initial g) k <> None.

Lemma lookup_dupdate_some d e k : lookup d k <> None -> lookup (dupdate d e) k <> None.
Proof. rewrite lookup_dupdate. destruct (lookup e k); [discriminate|auto]. Qed.

Lemma lookup_clone h d k : lookup d k <> None -> lookup (snd (clone h d)) k <> None.
Proof.
  intros N E. apply lookup_keys in E. rewrite clone_keys in E. apply N. now apply lookup_keys.
Qed.

Lemma pop_lookup h p k : lookup (cur p) k <> None -> lookup (cur (snd (fst (pop h p)))) k <> None.
Proof.
  intro N. destruct (hist p) eqn:E; [unfold pop; now rewrite E|]. rewrite pop_eq by congruence. cbn [fst snd cur]. now apply lookup_dupdate_some.
Qed.

Lemma click_has g c k : has g k -> has (fst (on_click g c)) k.
Proof.
  intros [A B]. split; [|now rewrite click_initial]. destruct c as [j v|f| | |]; cbn [on_click fst].
  - rewrite change_widget_eq. cbn [g_params]. now rewrite commit_cur.
  - rewrite fit_button_eq, update_from_eq. cbn [g_params snd cur]. apply lookup_dupdate_some. now rewrite commit_cur.
  - rewrite undo_button_eq. cbn [g_params]. now apply pop_lookup.
  - destruct (g_last g) as [l|] eqn:L; [|unfold redo_button; now rewrite L]. rewrite (redo_button_eq g l L), update_from_eq. cbn [g_params snd cur]. now apply lookup_dupdate_some.
  - rewrite initial_button_eq. cbn [g_params cur]. now apply lookup_clone.
Qed.

(** The cap *)
Definition inside (b : bounds) (v : R) : Prop :=
  (forall a, lower b = Some a -> (a <= v)%R) /\ (forall a, upper b = Some a -> (v <= a)%R).

Lemma cap_inside b v : inside b v -> cap b v = v.
Proof.
  intros [L U]. unfold cap. destruct (lower b) as [a|].
  - rewrite (Rmax_left v a) by now apply L. destruct (upper b) as [c|]; [|reflexivity]. apply Rmin_left. now apply U.
  - destruct (upper b) as [c|]; [|reflexivity]. apply Rmin_left. now apply U.
Qed.

Lemma inside_cap b v : (forall a c, lower b = Some a -> upper b = Some c -> (a <= c)%R) -> inside b (cap b v).
Proof.
  intro O. unfold cap. split.
  - intros a A. rewrite A. destruct (upper b) as [c|] eqn:U; [|apply Rmax_r]. apply Rmin_glb; [apply Rmax_r|]. now apply O.
  - intros a A. rewrite A. apply Rmin_r.
Qed.

(** The value after a change *)
Lemma change_shown (good : string -> R -> Prop) g tags k v j : gok good g tags -> lookup (cur (g_params g)) k <> None ->
  shown (fst (change_widget g k v)) j = if String.eqb j k then Some v else shown g j.
Proof.
  intros [F C H _ _ _] N. rewrite change_widget_eq. unfold shown. cbn [g_heap g_params]. rewrite commit_cur. destruct (commit_grow (g_heap g) (g_params g)) as [x X].
  assert (V : valid (g_heap g) (cur (g_params g))) by exact (tagged_valid good tags _ _ F C).
  destruct (lookup (cur (g_params g)) k) as [a|] eqn:L; [|now destruct N]. destruct (String.eqb_spec j k) as [->|D].
  - unfold value. rewrite L. apply hset_same. rewrite X, app_length. apply lookup_In, V in L. lia.
  - rewrite <- (value_app _ x _ j V), <- X. unfold value. destruct (lookup (cur (g_params g)) j) as [b|] eqn:M; [|reflexivity]. apply hset_other.
    intros ->. apply lookup_pair_In, C in L. apply lookup_pair_In, C in M. congruence.
Qed.

(** The invariant of the number boxes *)
Section Boxes.
Variable w : string -> bounds.
Variable names : list string.
Hypothesis ordered : forall k a c, lower (w k) = Some a -> upper (w k) = Some c -> (a <= c)%R.
Definition fits (k : string) (v : R) : Prop := inside (w k) v /\ In k names.

Record pok (p : panel) : Prop := {
  p_ok : exists tags, gok fits (p_gui p) tags;
  p_has : forall k, In k names -> has (p_gui p) k;
  p_same : forall k, p_box p k = shown (p_gui p) k }.

Lemma shown_has g tags k : gok fits g tags -> (forall j, In j names -> has g j) -> (exists v, shown g k = Some v /\ fits k v) \/ (shown g k = None /\ ~ In k names).
Proof.
  intros [F C _ _ _ _] H. destruct (lookup (cur (g_params g)) k) as [a|] eqn:L.
  - left. apply (value_good fits tags); auto. congruence.
  - right. split; [unfold shown, value; now rewrite L|]. intro I. now apply (proj1 (H k I)).
Qed.

Lemma pok_act p a : pok p -> (forall k v, a <> Press (Change k v)) -> (forall f k, a = Press (Fit f) -> In k names -> inside (w k) (f k)) -> pok (act w p a).
Proof.
  intros [[tags G] H S] NC NF. destruct a as [k v|c]; cbn [act].
  - destruct (shown_has _ _ k G H) as [(old & O & _)|[O _]]; rewrite S, O; [|split; eauto].
    destruct (Req_EM_T old (cap (w k) v)) as [E|E]; [split; eauto|].
    assert (LK : lookup (cur (g_params (p_gui p))) k <> None) by (intro L; unfold shown, value in O; rewrite L in O; discriminate).
    assert (K : In k names) by (destruct (shown_has _ _ k G H) as [(o2 & _ & _ & K)|[O2 _]]; [exact K|congruence]).
    destruct (click_ok fits (p_gui p) tags (Change k (cap (w k) v)) G) as [x X].
    { intros j u E1 _. injection E1 as <- <-. split; [apply inside_cap, ordered|exact K]. }
    { intros f j E1. discriminate. }
    split; cbn [p_gui p_box].
    + exists (tags ++ x). exact X.
    + intros j J. apply (click_has (p_gui p) (Change k (cap (w k) v))). now apply H.
    + intro j. rewrite (change_shown fits _ tags k _ j G LK). destruct (String.eqb j k); [reflexivity|apply S].
  - destruct (click_ok fits (p_gui p) tags c G) as [x X].
    { intros k v -> _. now destruct (NC k v). }
    { intros f k -> I. assert (K : In k names).
      { destruct (shown_has _ _ k G H) as [(o2 & _ & _ & K)|[O2 _]]; [exact K|]. exfalso. unfold shown in O2.
        apply (value_valid_none _ _ _ (tagged_valid fits tags _ _ (k_cells _ _ _ G) (k_cur _ _ _ G))) in O2. now apply lookup_keys in O2. }
      split; [now apply (NF f)|exact K]. }
    assert (H2 : forall k, In k names -> has (fst (on_click (p_gui p) c)) k) by (intros k K; now apply click_has, H).
    split; cbn [p_gui p_box]; [eauto|exact H2|]. intro k. unfold update_widgets. rewrite S.
    destruct (shown_has _ _ k G H) as [(o & -> & _ & K)|[-> K]]; destruct (shown_has _ _ k X H2) as [(o' & -> & W & K')|[-> K']]; try tauto.
    now rewrite (cap_inside _ _ W).
Qed.

Lemma pok_acts l : forall p, pok p -> (forall k v, ~ In (Press (Change k v)) l) -> (forall f k, In (Press (Fit f)) l -> In k names -> inside (w k) (f k)) -> pok (acts w p l).
Proof.
  induction l as [|a l IH]; intros p P NC NF; [exact P|]. cbn. apply IH.
  - apply pok_act; [exact P| |].
    + intros k v ->. apply (NC k v). now left.
    + intros f k -> K. apply (NF f k); [now left|exact K].
  - intros k v I. apply (NC k v). now right.
  - intros f k I. apply NF. now right.
Qed.
End Boxes.

(** The start *)
Definition fresh (l : list (string * R)) : gui := let (h, d) := new_dict [] l in start h (mkph d [] 50).

Lemma new_dict_keys h l k : In k (map fst l) -> lookup (snd (new_dict h l)) k <> None.
Proof.
  revert h. induction l as [|[j v] l IH]; intros h; [intros []|]. cbn [map fst new_dict]. unfold alloc. intro I. specialize (IH (h ++ [v])). destruct (new_dict (h ++ [v]) l) as [h2 d2]. cbn [snd] in *.
  rewrite lookup_dset. destruct (String.eqb_spec j k); [discriminate|]. apply IH. now destruct I.
Qed.

Lemma fresh_has l k : In k (map fst l) -> has (fresh l) k.
Proof.
  intro I. assert (K := new_dict_keys [] l k I). unfold fresh. destruct (new_dict [] l) as [h d]. cbn [snd] in K. rewrite start_eq. cbn zeta. split; cbn [g_params g_initial cur]; [exact K|].
  now apply lookup_clone.
Qed.

Lemma fresh_ok (good : string -> R -> Prop) l : (forall k v, In (k, v) l -> good k v) -> exists tags, gok good (fresh l) tags.
Proof.
  intro G. destruct (new_good good [] [] l) as (x & X & T); [constructor|exact G|]. unfold fresh. destruct (new_dict [] l) as [h d]. cbn [fst snd] in *.
  destruct (start_ok good h (mkph d [] 50) x X T) as [y Y]; [intros e []|]. eauto.
Qed.

Lemma fresh_pok w l : (forall k v, In (k, v) l -> inside (w k) v) -> pok w (map fst l) (create w (fresh l)).
Proof.
  intro I. assert (G : exists tags, gok (fits w (map fst l)) (fresh l) tags).
  { apply fresh_ok. intros k v K. split; [now apply I|]. now apply (in_map fst) in K. }
  destruct G as [tags G]. assert (H : forall k, In k (map fst l) -> has (fresh l) k) by apply fresh_has. split; cbn [p_gui p_box create]; [eauto|exact H|].
  intro k. destruct (shown_has w _ _ tags k G H) as [(v & -> & W & _)|[-> _]]; [|reflexivity]. cbn. now rewrite (cap_inside _ _ W).
Qed.

(** What the fit button and the button Set initial show *)
Lemma fit_shown g f k : lookup (cur (g_params g)) k <> None -> shown (fit_button g f) k = Some (f k).
Proof.
  intro N. rewrite fit_button_eq. set (l := map _ _). set (n := new_dict _ _). set (c := commit _ _). rewrite update_from_eq. unfold shown. cbn [g_heap g_params fst snd cur].
  apply value_some_dupdate. destruct (new_dict_spec (g_heap g) l) as (_ & _ & _ & _ & E). fold n in E.
  assert (VN : valid (fst n) (snd n)) by (intros a A; now apply new_dict_valid in A).
  destruct (commit_grow (fst n) (g_params g)) as [y Y]. fold c in Y. destruct (commit_grow (fst c) (snd c)) as [z Z]. rewrite Z, Y, <- app_assoc, value_app by exact VN. rewrite E.
  unfold l. clear - N. unfold lookup in N. induction (cur (g_params g)) as [|[j a] d IH]; cbn in *; [now destruct N|]. destruct (String.eqb_spec j k) as [->|D]; [reflexivity|exact (IH N)].
Qed.

Lemma initial_shown g k : valid (g_heap g) (g_initial g) -> shown (initial_button g) k = initial g k.
Proof.
  intro V. rewrite initial_button_eq. unfold shown, initial. cbn [g_heap g_params cur]. destruct (pop_grow (g_heap g) (g_params g)) as [x X].
  assert (V1 : valid (fst (fst (pop (g_heap g) (g_params g)))) (g_initial g)) by (rewrite X; now apply valid_grow).
  destruct (clone_spec _ _ V1) as (_ & _ & _ & _ & E). rewrite E, X. now apply value_app.
Qed.

(** The invariant of the checkboxes *)
Definition any (k : string) (v : R) : Prop := True.

Lemma any_cells (tags : list string) (h : list R) : length tags = length h -> Forall2 any tags h.
Proof. revert h. induction tags as [|t tags IH]; intros [|x h] E; cbn in *; try discriminate; constructor; [exact I|]. apply IH. lia. Qed.

Record vok (p : vary_panel) : Prop := {
  w_ok : exists tags, gok any (v_gui p) tags;
  w_valid : gvalid (v_gui p);
  w_apart : apart (g_initial (v_gui p)) (v_gui p);
  w_has : forall k, v_box p k <> None -> has (v_gui p) k;
  w_initial : forall k b, v_box p k = Some b -> initial (v_gui p) k = Some (flag b) }.

Lemma vok_click p c : vok p -> vok (VaryPanel (fst (on_click (v_gui p) c)) (v_box p)).
Proof.
  intros [[tags G] V A H I]. destruct (click_apart _ _ c V A) as [A2 E]. split; cbn [v_gui v_box].
  - destruct (click_ok any _ tags c G) as [x X]; [intros; exact Logic.I|intros; exact Logic.I|]. eauto.
  - now apply click_valid.
  - rewrite click_initial. exact A2.
  - intros k K. now apply click_has, H.
  - intros k b K. unfold initial. rewrite click_initial, E. now apply I.
Qed.

Lemma toggle_heap g k b : has g k -> exists a c, lookup (g_initial g) k = Some a /\ lookup (cur (g_params g)) k = Some c /\ g_heap (set_vary_param g k b) = hset (hset (g_heap g) a (flag b)) c (flag b).
Proof. intros [A B]. unfold set_vary_param. destruct (lookup (cur (g_params g)) k) as [c|]; [|now destruct A]. destruct (lookup (g_initial g) k) as [a|]; [|now destruct B]. eauto. Qed.

Lemma toggle_values g tags k b : gok any g tags -> gvalid g -> apart (g_initial g) g -> has g k ->
  forall j, initial (set_vary_param g k b) j = (if String.eqb j k then Some (flag b) else initial g j) /\
            shown (set_vary_param g k b) j = (if String.eqb j k then Some (flag b) else shown g j).
Proof.
  intros G V A H j. destruct (toggle_heap g k b H) as (a & c & LA & LC & E). unfold initial, shown, value. rewrite E.
  change (g_params (set_vary_param g k b)) with (g_params g). change (g_initial (set_vary_param g k b)) with (g_initial g).
  assert (AL : a < length (g_heap g)) by (apply (v_initial _ V); now apply lookup_In in LA). assert (CL : c < length (g_heap g)) by (apply (v_cur _ V); now apply lookup_In in LC).
  assert (NE : forall x y i, lookup (g_initial g) i = Some x -> lookup (cur (g_params g)) y = Some x -> False).
  { intros x y i L1 L2. apply lookup_In in L1, L2. now apply (a_cur _ _ A x). }
  assert (T : forall d i x, tagged tags d -> lookup d i = Some x -> nth_error tags x = Some i) by (intros d i x TD L; apply TD; now apply lookup_pair_In).
  destruct (String.eqb_spec j k) as [->|D].
  - rewrite LA, LC. split.
    + rewrite hset_other; [now apply hset_same|]. intros ->. exact (NE _ _ _ LA LC).
    + apply hset_same. now rewrite hset_length.
  - split.
    + destruct (lookup (g_initial g) j) as [x|] eqn:L; [|reflexivity]. rewrite !hset_other; [reflexivity| |].
      * intros ->. apply (T _ _ _ (k_initial _ _ _ G)) in L. apply (T _ _ _ (k_initial _ _ _ G)) in LA. congruence.
      * intros ->. exact (NE _ _ _ L LC).
    + destruct (lookup (cur (g_params g)) j) as [x|] eqn:L; [|reflexivity]. rewrite !hset_other; [reflexivity| |].
      * intros ->. exact (NE _ _ _ LA L).
      * intros ->. apply (T _ _ _ (k_cur _ _ _ G)) in L. apply (T _ _ _ (k_cur _ _ _ G)) in LC. congruence.
Qed.

Lemma set_vary_length g k b : length (g_heap (set_vary_param g k b)) = length (g_heap g).
Proof. unfold set_vary_param. cbn [g_heap]. destruct (lookup (cur (g_params g)) k), (lookup (g_initial g) k); rewrite ?hset_length; reflexivity. Qed.

Lemma vok_toggle p k b : vok p -> v_box p k <> None -> vok (VaryPanel (set_vary_param (v_gui p) k b) (fun j => if String.eqb j k then Some b else v_box p j)).
Proof.
  intros [[tags G] V A H I] N. assert (W : forall d, valid (g_heap (v_gui p)) d -> valid (g_heap (set_vary_param (v_gui p) k b)) d) by (intros d D a B; rewrite set_vary_length; now apply D).
  split; cbn [v_gui v_box].
  - exists tags. destruct G as [F C GH GL GF GI]. split; auto. apply any_cells. etransitivity; [exact (good_len _ _ _ F)|]. symmetry. apply set_vary_length.
  - destruct V as [V1 V2 V3 V4 V5]. split; auto.
  - destruct A as [A1 A2 A3 A4]. split; auto.
  - intros j J. change (has (v_gui p) j). apply H. revert J. destruct (String.eqb_spec j k) as [->|D]; auto.
  - intros j c J. rewrite (proj1 (toggle_values _ tags k b G V A (H k N) j)). destruct (String.eqb j k); [congruence|now apply I].
Qed.

Lemma vok_act p a : vok p -> vok (act_vary p a).
Proof.
  intro P. destruct a as [k b|k| | | |]; cbn [act_vary].
  - destruct (v_box p k) eqn:E; [|exact P]. apply vok_toggle; [exact P|congruence].
  - exact (vok_click p (Change k _) P).
  - exact (vok_click p (Fit _) P).
  - exact (vok_click p Undo P).
  - exact (vok_click p Redo P).
  - exact (vok_click p SetInitial P).
Qed.

Lemma vok_acts l : forall p, vok p -> vok (acts_vary p l).
Proof. induction l as [|a l IH]; intros p P; [exact P|]. cbn. apply IH. now apply vok_act. Qed.

Definition agree (p : vary_panel) : Prop := forall k b, v_box p k = Some b -> shown (v_gui p) k = Some (flag b).

Lemma agree_act p a : vok p -> agree p -> a <> UndoVary -> a <> RedoVary -> agree (act_vary p a).
Proof.
  intros P S NU NR. assert (P0 := P). destruct P as [[tags G] V A H I]. destruct a as [k b|k| | | |]; cbn [act_vary]; try (now destruct NU); try (now destruct NR).
  - destruct (v_box p k) as [b0|] eqn:E; [|exact S]. intros j c J. cbn [v_gui v_box] in *. assert (K : has (v_gui p) k) by (apply H; congruence).
    rewrite (proj2 (toggle_values _ tags k b G V A K j)). destruct (String.eqb j k); [congruence|now apply S].
  - intros j c J. cbn [v_gui v_box] in *. set (v := match shown (v_gui p) k with Some x => x | None => 0%R end).
    destruct (lookup (cur (g_params (v_gui p))) k) as [x|] eqn:L.
    + rewrite (change_shown any _ tags k v j G) by congruence. destruct (String.eqb_spec j k) as [->|D]; [|now apply S]. unfold v. now rewrite (S k c J).
    + rewrite change_widget_eq. rewrite L. unfold shown. cbn [g_heap g_params]. rewrite commit_cur. destruct (commit_grow (g_heap (v_gui p)) (g_params (v_gui p))) as [y Y].
      rewrite Y, value_app by apply V. now apply S.
  - intros j c J. cbn [v_gui v_box] in *. rewrite fit_shown; [now rewrite (S j c J)|]. apply H. congruence.
  - intros j c J. cbn [v_gui v_box] in *. rewrite initial_shown by exact (v_initial _ V). now apply I.
Qed.

Lemma agree_acts l : forall p, vok p -> agree p -> ~ In UndoVary l -> ~ In RedoVary l -> agree (acts_vary p l).
Proof.
  induction l as [|a l IH]; intros p P S NU NR; [exact S|]. cbn. apply IH.
  - now apply vok_act.
  - apply agree_act; auto; intros ->; [apply NU|apply NR]; now left.
  - intro I. apply NU. now right.
  - intro I. apply NR. now right.
Qed.

(** The start: the parameters l, the flags vary *)
Lemma fresh_value l k : let s := new_dict [] l in shown (fresh l) k = value (fst s) (snd s) k /\ initial (fresh l) k = value (fst s) (snd s) k /\ gvalid (fresh l) /\ apart (g_initial (fresh l)) (fresh l).
Proof.
  cbn zeta. unfold fresh. assert (W : forall a, In a (addrs (snd (new_dict [] l))) -> a < length (fst (new_dict [] l))) by (intros a A; now apply new_dict_valid in A).
  destruct (new_dict [] l) as [h d]. cbn [fst snd] in *.
  destruct (start_valid h (mkph d [] 50)) as (A & _ & B & C & _ & D); [split; [exact W|intros e []]|]. cbn [cur] in *. auto.
Qed.

Definition flags (names : list string) (vary : string -> bool) : list (string * R) := map (fun k => (k, flag (vary k))) names.

Lemma flags_find names vary k : find (fun p => String.eqb (fst p) k) (flags names vary) = if in_dec string_dec k names then Some (k, flag (vary k)) else None.
Proof.
  unfold flags. induction names as [|j names IH]; [reflexivity|]. cbn [map find fst]. destruct (String.eqb_spec j k) as [->|D].
  - destruct (in_dec string_dec k (k :: names)) as [_|N]; [reflexivity|destruct N; now left].
  - rewrite IH. destruct (in_dec string_dec k names), (in_dec string_dec k (j :: names)) as [I|I]; auto; [destruct I; now right|]. now destruct I.
Qed.

Lemma flags_start names vary : let p := create_vary (fresh (flags names vary)) vary in vok p /\ agree p.
Proof.
  set (p := create_vary _ _). assert (V : forall k, value (fst (new_dict [] (flags names vary))) (snd (new_dict [] (flags names vary))) k = if in_dec string_dec k names then Some (flag (vary k)) else None).
  { intro k. destruct (new_dict_spec [] (flags names vary)) as (_ & _ & _ & _ & E). rewrite E, flags_find. now destruct in_dec. }
  assert (S : forall k, shown (fresh (flags names vary)) k = if in_dec string_dec k names then Some (flag (vary k)) else None) by (intro k; destruct (fresh_value (flags names vary) k) as (-> & _); apply V).
  assert (I : forall k, initial (fresh (flags names vary)) k = if in_dec string_dec k names then Some (flag (vary k)) else None) by (intro k; destruct (fresh_value (flags names vary) k) as (_ & -> & _); apply V).
  assert (B : forall k, v_box p k = if in_dec string_dec k names then Some (vary k) else None) by (intro k; unfold p, create_vary; cbn [v_box]; rewrite S; now destruct in_dec).
  destruct (fresh_value (flags names vary) "") as (_ & _ & GV & GA). split; [split|]; cbn [v_gui p create_vary].
  - apply fresh_ok. intros; exact Logic.I.
  - exact GV.
  - exact GA.
  - intros k K. rewrite B in K. destruct in_dec as [N|]; [|now destruct K]. apply fresh_has. unfold flags. rewrite map_map. cbn. now rewrite map_id.
  - intros k b K. rewrite B in K. rewrite I. destruct in_dec; congruence.
  - intros k b K. rewrite B in K. cbn [v_gui p create_vary]. rewrite S. destruct in_dec; congruence.
Qed.
