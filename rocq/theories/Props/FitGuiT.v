(** C50, C74: the widgets and buttons of the fit decorators. *)
From Coq Require Import Reals ZArith String List Arith Bool Lia Lra.
From Verif.Base Require Import Py.
From Verif.Model Require Import ParamsHist FitGui.
From Verif.Proof Require Import ParamsHistP FitGuiP.
From Verif.Props Require Import ParamsHistT.
Import ListNotations.
Open Scope string_scope.
Open Scope nat_scope.
Open Scope list_scope.

(** A program prepares a ParamsHist object, opens the fit window and clicks. *)
Definition session (ops : list op) (l : list click) : gui :=
  let s := run ([], init) ops in clicks (start (fst s) (snd s)) l.

(** The names of the Parameter objects in a window *)
Record gnamed (g : gui) (tags : list string) : Prop := {
  gn_params : named (g_heap g) (g_params g) tags;
  gn_last : forall d, g_last g = Some d -> tagged tags d;
  gn_initial : tagged tags (g_initial g);
  gn_keys : NoDup (map fst (g_initial g)) }.

Lemma named_update_from h p tags d : named h p tags -> tagged tags d ->
  exists x, named (fst (update_from h p d)) (snd (update_from h p d)) (tags ++ x).
Proof.
  intros N T. destruct (named_commit h p tags N) as (t & N1 & x & ->). exists x. rewrite update_from_eq. cbn [fst snd].
  assert (U := named_update _ _ _ d N1 (tagged_app _ x _ T)). rewrite commit_cur, commit_max in U. exact U.
Qed.

Lemma tagged_valid h tags d : length tags = length h -> tagged tags d -> valid h d.
Proof. intros L T a A. apply in_map_iff in A. destruct A as ([k b] & <- & A). cbn. rewrite <- L. apply nth_error_Some. rewrite (T k b A). discriminate. Qed.

Lemma named_pop h p tags : named h p tags -> exists x, named (fst (fst (pop h p))) (snd (fst (pop h p))) (tags ++ x) /\ forall d, snd (pop h p) = Some d -> tagged (tags ++ x) d.
Proof.
  intros N. destruct (hist p) as [|d0 ds] eqn:E.
  - exists []. unfold pop. rewrite E, app_nil_r. cbn. split; [exact N|discriminate].
  - assert (H : hist p <> []) by congruence. rewrite (pop_eq h p H). cbn [fst snd]. destruct (tagged_clone h tags (cur p) (n_len _ _ _ N)) as [T L]. exists (map fst (cur p)).
    destruct (clone_grow h (cur p)) as [y Y]. rewrite Y in L |- *. split; [|intros d D; injection D as <-; exact T].
    destruct (named_grow h p tags y _ N L) as [L1 L2 L3 L4]. split; cbn [cur hist]; auto.
    + apply tagged_dupdate; [exact L2|]. apply L3. now apply last_In.
    + intros d D. apply L3. now apply removelast_In.
    + now apply keys_dupdate.
Qed.

Lemma click_named g tags c : gnamed g tags -> exists x, gnamed (fst (on_click g c)) (tags ++ x).
Proof.
  intros [N L I K]. destruct c as [k v|f| | |]; cbn [on_click fst].
  - rewrite change_widget_eq. destruct (named_commit _ _ _ N) as (t & N1 & x & ->). exists x. split; cbn [g_heap g_params g_last g_initial]; auto.
    + destruct lookup; [now apply named_set|exact N1].
    + intros d D. apply tagged_app. auto.
    + now apply tagged_app.
  - rewrite fit_button_eq. set (n := new_dict _ _). set (c := commit _ _). set (u := update_from _ _ _).
    destruct (tagged_new (g_heap g) tags (map (fun p => (fst p, f (fst p))) (cur (g_params g))) (n_len _ _ _ N)) as (x & T & E). fold n in T, E.
    destruct (new_dict_grow (g_heap g) (map (fun p => (fst p, f (fst p))) (cur (g_params g)))) as [y Y]. fold n in Y.
    assert (N1 : named (fst n) (g_params g) (tags ++ x)) by (rewrite Y in E |- *; now apply named_grow).
    destruct (named_commit _ _ _ N1) as (t & N2 & z & ->). fold c in N2.
    destruct (named_update_from _ _ _ (snd n) N2 (tagged_app _ z _ T)) as (w & N3). fold u in N3. exists (x ++ z ++ w). rewrite <- !app_assoc in N3.
    split; cbn [g_heap g_params g_last g_initial]; auto; [|now apply tagged_app]. intros d D. apply tagged_app. auto.
  - rewrite undo_button_eq. destruct (named_pop _ _ _ N) as (x & N1 & T). exists x. split; cbn [g_heap g_params g_last g_initial]; auto. now apply tagged_app.
  - destruct (g_last g) as [l|] eqn:Q; [|exists []; rewrite app_nil_r; unfold redo_button; rewrite Q; split; auto; congruence]. rewrite (redo_button_eq g l Q).
    destruct (named_update_from _ _ _ l N (L l eq_refl)) as (x & N1). exists x. split; cbn [g_heap g_params g_last g_initial]; auto; [discriminate|now apply tagged_app].
  - rewrite initial_button_eq. set (t := pop _ _). set (c := clone _ _). destruct (named_pop _ _ _ N) as (x & N1 & T). fold t in N1, T.
    destruct (tagged_clone (fst (fst t)) (tags ++ x) (g_initial g) (n_len _ _ _ N1)) as [T2 L2]. fold c in T2, L2. exists (x ++ map fst (g_initial g)). rewrite app_assoc.
    split; cbn [g_heap g_params g_last g_initial]; auto.
    + split; cbn [cur hist]; auto; [intros d []|]. unfold c. now rewrite clone_keys.
    + intros d D. apply tagged_app. auto.
    + now apply tagged_app, tagged_app.
Qed.

Lemma clicks_named l : forall g tags, gnamed g tags -> exists x, gnamed (clicks g l) (tags ++ x).
Proof.
  induction l as [|c l IH]; intros g tags N; [exists []; rewrite app_nil_r; exact N|]. destruct (click_named g tags c N) as (x & N1). destruct (IH _ _ N1) as (y & N2). exists (x ++ y). rewrite app_assoc. exact N2.
Qed.

Lemma named_pvalid h p tags : named h p tags -> pvalid h p.
Proof. intro N. split; [exact (named_valid _ _ _ N)|]. intros d D. eapply tagged_valid; [exact (n_len _ _ _ N)|]. exact (n_hist _ _ _ N d D). Qed.

Lemma start_named h p tags : named h p tags -> exists x, gnamed (start h p) (tags ++ x).
Proof.
  intro N. rewrite start_eq. set (c := clone h (cur p)). set (d := clone (fst c) (cur p)). destruct (tagged_clone h tags (cur p) (n_len _ _ _ N)) as [T L]. fold c in T, L.
  destruct (tagged_clone (fst c) _ (cur p) L) as [T2 L2]. fold d in T2, L2. exists (map fst (cur p) ++ map fst (cur p)). rewrite app_assoc.
  destruct (clone_grow h (cur p)) as [x X]. fold c in X. destruct (clone_grow (fst c) (cur p)) as [y Y]. fold d in Y.
  split; cbn [g_heap g_params g_last g_initial]; auto; [|discriminate|unfold d; rewrite clone_keys; exact (n_keys _ _ _ N)].
  rewrite Y. apply named_grow; [|rewrite <- Y; exact L2]. rewrite X. apply named_grow; [exact N|]. rewrite <- X. exact L.
Qed.

Lemma prepared ops : Forall own ops -> exists tags, named (fst (run ([], init) ops)) (snd (run ([], init) ops)) tags.
Proof. intro F. apply (named_run ops [] init []); [|exact F]. split; cbn; auto; [intros k a []|intros d []|constructor]. Qed.

Lemma session_named ops l : Forall own ops -> exists tags, gnamed (session ops l) tags.
Proof. intro F. destruct (prepared ops F) as (t & N). destruct (start_named _ _ _ N) as (x & N1). destruct (clicks_named l _ _ N1) as (y & N2). eauto. Qed.

Lemma session_valid ops l : Forall own ops -> gvalid (session ops l).
Proof. intro F. destruct (prepared ops F) as (t & N). apply clicks_valid. now apply start_valid, named_pvalid with t. Qed.

(** C50: a new value in a widget is the value of that parameter, and of no other one. *)
Theorem C50_change : forall ops l k v j, Forall own ops ->
  let g := session ops l in let r := on_click g (Change k v) in
  match shown g k with
  | Some _ => snd r = None /\ shown (fst r) j = if j =? k then Some v else shown g j
  | None => snd r = Some KeyError /\ shown (fst r) j = shown g j
  end%string.
Proof.
  intros ops l k v j F g r. destruct (session_named ops l F) as (tags & [N _ _ _]). fold g in N. assert (V := session_valid ops l F). fold g in V. unfold r. clear r. clearbody g.
  unfold shown. cbn [on_click]. rewrite change_widget_eq. cbn [g_heap g_params]. rewrite commit_cur. destruct (commit_grow (g_heap g) (g_params g)) as [x X].
  unfold change_widget. assert (CC := commit_cur (g_heap g) (g_params g)). destruct (commit (g_heap g) (g_params g)) as [h1 p1]. cbn [fst snd] in *. unfold set_value. rewrite CC.
  unfold value at 1. destruct (lookup (cur (g_params g)) k) as [a|] eqn:L.
  - assert (A : a < length (g_heap g)) by (apply (v_cur _ V); now apply lookup_In in L). destruct (nth_error (g_heap g) a) eqn:E; [|apply nth_error_None in E; lia].
    split; [reflexivity|]. destruct (String.eqb_spec j k) as [->|J].
    + unfold value. rewrite L. apply hset_same. rewrite X, app_length. lia.
    + rewrite <- (value_app _ x _ j (v_cur _ V)), <- X. unfold value. destruct (lookup (cur (g_params g)) j) as [b|] eqn:M; [|reflexivity]. apply hset_other. intros ->. apply J.
      unfold lookup in L, M. destruct (find (fun p => (fst p =? k)%string) _) as [[k1 a1]|] eqn:F1; [|discriminate]. destruct (find (fun p => (fst p =? j)%string) _) as [[j1 b1]|] eqn:F2; [|discriminate].
      apply find_some in F1, F2. cbn in *. destruct F1 as [F1 K1], F2 as [F2 K2]. apply String.eqb_eq in K1, K2. subst. injection L as ->. injection M as ->.
      apply (n_cur _ _ _ N) in F1, F2. congruence.
  - split; [reflexivity|]. rewrite X. apply value_app, V.
Qed.
Print Assumptions C50_change.

(** C50: Undo after a change restores every value. *)
Theorem C50_undo_change : forall ops l k v j, Forall own ops ->
  let g := session ops l in shown (clicks g [Change k v; Undo]) j = shown g j.
Proof.
  intros ops l k v j F g. assert (V := session_valid ops l F). fold g in V. clearbody g. cbn [clicks fold_left on_click fst]. rewrite change_widget_eq, undo_button_eq. unfold shown. cbn [g_heap g_params].
  destruct (commit_last (g_heap g) (g_params g)) as (H & L & E). assert (CF := clone_fresh (g_heap g) (cur (g_params g))). assert (CV := valid_clone (g_heap g) (cur (g_params g))).
  destruct (clone_spec (g_heap g) (cur (g_params g)) (v_cur _ V)) as (_ & _ & _ & _ & CS). rewrite <- E in CF, CV, CS.
  set (c := commit (g_heap g) (g_params g)) in *. set (h2 := match lookup (cur (g_params g)) k with Some a => _ | None => _ end).
  assert (A2 : forall a, In a (addrs (snd (clone (g_heap g) (cur (g_params g))))) -> nth_error h2 a = nth_error (fst c) a).
  { intros a A. apply CF in A. unfold h2. destruct lookup as [b|] eqn:LB; [|reflexivity]. apply hset_other. intros ->. apply lookup_In, (v_cur _ V) in LB. lia. }
  assert (V2 : valid h2 (snd (clone (g_heap g) (cur (g_params g))))) by (unfold h2; destruct lookup; [now apply valid_hset|exact CV]).
  assert (V3 : valid h2 (cur (snd c))).
  { unfold c. rewrite commit_cur. destruct (commit_grow (g_heap g) (g_params g)) as [x X]. fold c in X. unfold h2. destruct lookup; [apply valid_hset|]; rewrite X; apply valid_grow, V. }
  destruct (value (g_heap g) (cur (g_params g)) j) as [y|] eqn:Y.
  - eapply pop_restores; eauto. now rewrite CS.
  - assert (Z := value_valid_none _ _ _ (v_cur _ V) Y). eapply pop_restores_none; eauto; [|unfold c; now rewrite commit_cur].
    apply lookup_keys. rewrite clone_keys. now apply lookup_keys.
Qed.
Print Assumptions C50_undo_change.

(** C50: n changes are undone by n clicks, if the history is long enough. *)
Theorem C50_undo_changes : forall ops l (ch : list (string * R)) j v, Forall own ops ->
  let g := session ops l in length ch <= maxl (g_params g) -> shown g j = Some v ->
  shown (clicks g (map (fun c => Change (fst c) (snd c)) ch ++ repeat Undo (length ch))) j = Some v.
Proof.
  intros ops l ch j v F g L S. destruct (session_named ops l F) as (tags & [N _ _ _]). fold g in N. clearbody g.
  assert (SC : forall g k x, let r := fst (change_widget g k x) in (g_heap r, g_params r) = fst (step (g_heap g, g_params g) (UpdateValue k x))).
  { intros g0 k x. cbn [step]. unfold change_widget. destruct commit as [h1 p1]. now destruct set_value. }
  assert (SU : forall g, let r := undo_button g in (g_heap r, g_params r) = fst (step (g_heap g, g_params g) Pop)).
  { intro g0. cbn [step]. unfold undo_button. now destruct pop as [[h1 p1] l1]. }
  assert (E : forall g, let r := clicks g (map (fun c => Change (fst c) (snd c)) ch ++ repeat Undo (length ch)) in
    (g_heap r, g_params r) = run (g_heap g, g_params g) (map (fun c => UpdateValue (fst c) (snd c)) ch ++ repeat Pop (length ch))).
  { intro g0. rewrite clicks_app, run_app. cbv zeta. generalize (length ch) as n. intro n.
    assert (B : forall n g, (g_heap (clicks g (repeat Undo n)), g_params (clicks g (repeat Undo n))) = run (g_heap g, g_params g) (repeat Pop n)).
    { clear - SU. induction n as [|n IH]; intro g; [reflexivity|]. etransitivity; [exact (IH _)|]. cbn [on_click fst]. rewrite (SU g). reflexivity. }
    rewrite B. f_equal. clear - SC. revert g0. induction ch as [|c ch IH]; intro g; [reflexivity|]. etransitivity; [exact (IH _)|]. cbn [on_click fst]. rewrite (SC g). reflexivity. }
  specialize (E g). cbv zeta in E. set (r := clicks _ _) in *. clearbody r.
  assert (Q := undo_named (g_heap g) (g_params g) tags (map (fun c => UpdateValue (fst c) (snd c)) ch) j v N). rewrite map_length in Q.
  assert (FT : Forall tracked (map (fun c => UpdateValue (fst c) (snd c)) ch)) by (apply Forall_forall; intros o O; apply in_map_iff in O; destruct O as (c & <- & _); exact I).
  specialize (Q FT L S). cbv zeta in Q. rewrite <- E in Q. exact Q.
Qed.
Print Assumptions C50_undo_changes.

(** C50: the Fit button shows and stores the result of the fit, and Undo restores every value. *)
Theorem C50_fit : forall ops l f j, Forall own ops ->
  let g := session ops l in let r := clicks g [Fit f] in
  shown r j = (match shown g j with Some _ => Some (f j) | None => None end) /\
  fitted r j = shown r j /\ shown (clicks g [Fit f; Undo]) j = shown g j.
Proof.
  intros ops l f j F g r. assert (V := session_valid ops l F). destruct (session_named ops l F) as (tags & [N _ _ _]). fold g in V, N. unfold r. clear r. clearbody g.
  cbn [clicks fold_left on_click fst]. rewrite undo_button_eq. unfold shown, fitted. cbn [g_heap g_params]. rewrite fit_button_eq. cbn [g_heap g_params g_fitted].
  set (n := new_dict _ _). set (c := commit _ _). set (u := update_from _ _ _).
  destruct (new_dict_spec (g_heap g) (map (fun p => (fst p, f (fst p))) (cur (g_params g)))) as (x & X & NV & _ & NS). fold n in X, NV, NS.
  destruct (commit_grow (fst n) (g_params g)) as [y Y]. fold c in Y. destruct (commit_grow (fst c) (snd c)) as [z Z]. assert (U : fst u = fst c ++ z) by (unfold u; rewrite update_from_eq; exact Z).
  assert (CC : cur (snd c) = cur (g_params g)) by apply commit_cur.
  assert (UC : cur (snd u) = dupdate (cur (g_params g)) (snd n)) by (unfold u; rewrite update_from_eq; cbn [snd cur]; now rewrite CC).
  assert (VN : valid (fst n) (snd n)) by (intros a A; apply NV in A; rewrite X, app_length; lia).
  assert (VG : valid (fst n) (cur (g_params g))) by (rewrite X; apply valid_grow, V).
  assert (VGc : valid (fst c) (cur (g_params g))) by (rewrite Y; now apply valid_grow).
  assert (VNc : valid (fst c) (snd n)) by (rewrite Y; now apply valid_grow).
  assert (VNu : valid (fst u) (snd n)) by (rewrite U; now apply valid_grow).
  assert (FN : value (fst u) (snd n) j = match value (g_heap g) (cur (g_params g)) j with Some _ => Some (f j) | None => None end).
  { rewrite U, value_app, Y, value_app, NS by assumption. unfold value. destruct (lookup (cur (g_params g)) j) as [a|] eqn:La.
    - assert (A : a < length (g_heap g)) by (apply (v_cur _ V); now apply lookup_In in La). destruct (nth_error (g_heap g) a) eqn:Ea; [|apply nth_error_None in Ea; lia]. clear - La.
      unfold lookup in La. induction (cur (g_params g)) as [|[k b] d IH]; [discriminate|]. cbn in *. destruct (String.eqb_spec k j); [subst; reflexivity|now apply IH].
    - clear - La. unfold lookup in La. induction (cur (g_params g)) as [|[k b] d IH]; [reflexivity|]. cbn in *. destruct (k =? j)%string; [discriminate|now apply IH]. }
  assert (LN : value (g_heap g) (cur (g_params g)) j = None -> lookup (snd n) j = None /\ lookup (cur (g_params g)) j = None).
  { intro H. rewrite H in FN. split; [now apply value_valid_none in FN|]. now apply value_valid_none in H; [|apply V]. }
  split; [|split].
  - rewrite UC. destruct (value (g_heap g) (cur (g_params g)) j) eqn:Q; [now apply value_some_dupdate|]. destruct (LN eq_refl) as [L1 L2]. now apply value_none_dupdate.
  - rewrite UC. destruct (value (g_heap g) (cur (g_params g)) j) eqn:Q.
    + rewrite FN. symmetry. now apply value_some_dupdate.
    + rewrite FN. destruct (LN eq_refl) as [L1 L2]. symmetry. now apply value_none_dupdate.
  - destruct (commit_last (fst c) (snd c)) as (H & L & E). assert (CV := valid_clone (fst c) (cur (snd c))).
    destruct (clone_spec (fst c) (cur (snd c))) as (_ & _ & _ & _ & CS); [now rewrite CC|]. rewrite <- E in CV, CS.
    assert (UH : hist (snd u) = hist (snd (commit (fst c) (snd c)))) by (unfold u; now rewrite update_from_eq).
    assert (UF : fst u = fst (commit (fst c) (snd c))) by (unfold u; now rewrite update_from_eq).
    destruct (value (g_heap g) (cur (g_params g)) j) as [w|] eqn:Q.
    + eapply pop_restores with (h := fst u) (c := snd (clone (fst c) (cur (snd c)))); try (rewrite UH; eassumption); try (rewrite UF; exact CV); auto.
      * rewrite UF, CS, CC, Y, value_app, X, value_app; auto. apply V.
      * rewrite UC, U. apply valid_grow, valid_dupdate; assumption.
    + destruct (LN eq_refl) as [L1 L2]. eapply pop_restores_none with (c := snd (clone (fst c) (cur (snd c)))); try (rewrite UH; eassumption); try (rewrite UF; exact CV).
      * apply lookup_keys. rewrite clone_keys, CC. now apply lookup_keys.
      * rewrite UC, lookup_dupdate, L1. exact L2.
Qed.
Print Assumptions C50_fit.

(** C50: Redo after Undo restores the undone values, and the redone step can be undone again. *)
Theorem C50_redo : forall ops l j v, Forall own ops ->
  let g := session ops l in
  (hist (g_params g) <> [] -> shown g j = Some v -> shown (clicks g [Undo; Redo]) j = Some v) /\
  (hist (g_params g) <> [] -> shown (clicks g [Undo]) j = Some v -> shown (clicks g [Undo; Redo; Undo]) j = Some v) /\
  (hist (g_params g) = [] -> shown (clicks g [Undo]) j = shown g j).
Proof.
  intros ops l j v F g. assert (V := session_valid ops l F). fold g in V. clearbody g.
  assert (E1 : clicks g [Undo] = undo_button g) by reflexivity. assert (V1 := click_valid g Undo V). change (gvalid (undo_button g)) in V1.
  split; [|split].
  - intros H S. change (clicks g [Undo; Redo]) with (redo_button (undo_button g)). rewrite undo_button_eq in *. rewrite (pop_eq _ _ H) in *. cbn [fst snd] in *.
    erewrite redo_button_eq by reflexivity. unfold shown. cbn [g_heap g_params]. rewrite update_from_eq. cbn [fst snd cur]. apply value_some_dupdate.
    match goal with |- value (fst (commit ?a ?b)) _ _ = _ => destruct (commit_grow a b) as [x ->] end. rewrite value_app by apply valid_clone.
    destruct (clone_spec (g_heap g) (cur (g_params g)) (v_cur _ V)) as (_ & _ & _ & _ & CS). rewrite CS. exact S.
  - intros H S. change (clicks g [Undo; Redo; Undo]) with (undo_button (redo_button (undo_button g))). change (clicks g [Undo]) with (undo_button g) in S.
    set (g1 := undo_button g) in *. assert (L : exists d, g_last g1 = Some d) by (unfold g1; rewrite undo_button_eq, (pop_eq _ _ H); cbn; eauto). destruct L as [d L]. clearbody g1. clear E1.
    rewrite (redo_button_eq g1 d L), undo_button_eq. unfold shown. cbn [g_heap g_params]. rewrite update_from_eq. cbn [fst snd].
    destruct (commit_last (g_heap g1) (g_params g1)) as (H1 & L1 & C1). destruct (clone_spec (g_heap g1) (cur (g_params g1)) (v_cur _ V1)) as (_ & _ & _ & _ & CS).
    assert (CV := valid_clone (g_heap g1) (cur (g_params g1))). rewrite <- C1 in CS, CV.
    eapply pop_restores with (h := fst (commit (g_heap g1) (g_params g1))); cbn [hist cur]; [exact H1|exact L1|exact CV|auto|rewrite CS; exact S|].
    destruct (commit_grow (g_heap g1) (g_params g1)) as [x ->]. apply valid_grow, valid_dupdate; [exact (v_cur _ V1)|exact (v_last _ V1 d L)].
  - intro H. rewrite E1, undo_button_eq. unfold pop. rewrite H. reflexivity.
Qed.
Print Assumptions C50_redo.

(** C50: no click changes the initial values, and the button that resets to them does so. *)
Theorem C50_initial : forall ops l j, Forall own ops ->
  let s := run ([], init) ops in
  initial (session ops l) j = value (fst s) (cur (snd s)) j /\
  shown (session ops (l ++ [SetInitial])) j = value (fst s) (cur (snd s)) j.
Proof.
  intros ops l j F s. destruct (prepared ops F) as (t & N). fold s in N. apply named_pvalid in N as P. destruct (start_valid _ _ P) as (V & _ & A & _ & _ & I).
  assert (I1 : initial (session ops l) j = value (fst s) (cur (snd s)) j).
  { unfold session. fold s. unfold initial. rewrite clicks_initial. destruct (clicks_apart _ l _ V A) as [_ ->]. apply I. }
  split; [exact I1|]. unfold session. fold s. rewrite clicks_app. change (clicks (start (fst s) (snd s)) l) with (session ops l). cbn [clicks fold_left on_click fst]. rewrite initial_button_eq. unfold shown. cbn [g_heap g_params cur].
  assert (V1 := session_valid ops l F). destruct (pop_grow (g_heap (session ops l)) (g_params (session ops l))) as [x X].
  destruct (clone_spec (fst (fst (pop (g_heap (session ops l)) (g_params (session ops l))))) (g_initial (session ops l))) as (_ & _ & _ & _ & CS); [rewrite X; apply valid_grow, (v_initial _ V1)|].
  etransitivity; [exact (CS j)|]. rewrite X, value_app by exact (v_initial _ V1). exact I1.
Qed.
Print Assumptions C50_initial.

(** C50: before the first fit, and after a fit that was undone or reset, no click changes the stored
    result of the fit until the next one. *)
Theorem C50_fitted_partial : forall ops l f c m j, Forall own ops -> c = Undo \/ c = SetInitial ->
  Forall (fun c => forall f, c <> Fit f) m ->
  (let s := run ([], init) ops in fitted (session ops m) j = value (fst s) (cur (snd s)) j) /\
  fitted (session ops (l ++ [Fit f; c] ++ m)) j = fitted (session ops (l ++ [Fit f])) j.
Proof.
  intros ops l f c m j F HC M. destruct (prepared ops F) as (t & N0). split.
  - intro s. fold s in N0. apply named_pvalid in N0 as P. destruct (start_valid _ _ P) as (V & A & _ & _ & I & _). unfold session. fold s. unfold fitted. rewrite clicks_fitted by exact M.
    destruct (clicks_apart _ m _ V A) as [_ ->]. apply I.
  - unfold session. cbv zeta. set (s := run ([], init) ops) in *. rewrite !clicks_app. change (clicks (start (fst s) (snd s)) l) with (session ops l). assert (V := session_valid ops l F). destruct (session_named ops l F) as (tags & [N _ _ _]). set (g := session ops l) in *. clearbody g. clear N0.
    set (g2 := clicks g [Fit f; c]). set (g1 := clicks g [Fit f]). assert (V2 : gvalid g2) by now apply clicks_valid. assert (V1 : gvalid g1) by now apply clicks_valid.
    assert (E2 : g2 = fst (on_click g1 c)) by reflexivity. assert (F2 : g_fitted g2 = g_fitted g1) by (rewrite E2; apply click_fitted; destruct HC as [->| ->]; discriminate).
    assert (Q : forall k, value (g_heap g2) (g_fitted g1) k = value (g_heap g1) (g_fitted g1) k).
    { intro k. rewrite E2. destruct HC as [->| ->]; cbn [on_click fst].
      - rewrite undo_button_eq. cbn [g_heap]. destruct (pop_grow (g_heap g1) (g_params g1)) as [x ->]. apply value_app, (v_fitted _ V1).
      - rewrite initial_button_eq. cbn [g_heap]. destruct (pop_grow (g_heap g1) (g_params g1)) as [x X]. destruct (clone_grow (fst (fst (pop (g_heap g1) (g_params g1)))) (g_initial g1)) as [y ->].
        rewrite X. rewrite value_app by apply valid_grow, (v_fitted _ V1). apply value_app, (v_fitted _ V1). }
    assert (A : apart (g_fitted g1) g2).
    { (* the current parameters and all versions are other objects *)
      assert (E1 : g1 = fit_button g f) by reflexivity. rewrite fit_button_eq in E1. set (n := new_dict _ _) in E1. set (cm := commit _ _) in E1. set (u := update_from _ _ _) in E1.
      assert (FA : forall a, In a (addrs (g_fitted g1)) -> length (g_heap g) <= a < length (fst n)) by (rewrite E1; intros a; apply new_dict_valid).
      destruct (new_dict_grow (g_heap g) (map (fun p => (fst p, f (fst p))) (cur (g_params g)))) as [x X]. fold n in X. destruct (commit_grow (fst n) (g_params g)) as [y Y]. fold cm in Y.
      destruct (commit_grow (fst cm) (snd cm)) as [z Z]. assert (U : fst u = fst cm ++ z) by (unfold u; rewrite update_from_eq; exact Z).
      assert (CC : cur (snd cm) = cur (g_params g)) by apply commit_cur.
      assert (HH : forall a d, In a (addrs (g_fitted g1)) -> In d (hist (g_params g1)) -> ~ In a (addrs d)).
      { intros a d I D C. apply FA in I. rewrite E1 in D. cbn [g_params] in D. unfold u in D. rewrite update_from_eq in D. cbn [snd hist] in D. apply commit_hist in D. destruct D as [D| ->].
        - apply commit_hist in D. destruct D as [D| ->]; [apply (v_hist _ V d D) in C; lia|]. apply clone_fresh in C. lia.
        - apply clone_fresh in C. rewrite Y, app_length in C. lia. }
      destruct HC as [->| ->]; rewrite E2; cbn [on_click fst].
      - rewrite undo_button_eq. assert (H1 : hist (g_params g1) <> []) by (rewrite E1; cbn [g_params]; unfold u; rewrite update_from_eq; cbn [snd hist]; apply commit_last).
        rewrite (pop_eq _ _ H1). cbn [fst snd]. destruct (clone_grow (g_heap g1) (cur (g_params g1))) as [w W]. split; cbn [g_heap g_params g_last cur hist].
        + rewrite W. apply valid_grow, (v_fitted _ V1).
        + intros a I C. apply addrs_dupdate_all in C.
          * eapply HH; [exact I| |exact C]. now apply last_In.
          * rewrite E1. cbn [g_params]. unfold u. rewrite update_from_eq. cbn [snd cur]. rewrite CC. apply keys_dupdate. exact (n_keys _ _ _ N).
          * intros k K. rewrite E1 in *. cbn [g_params] in *. unfold u in *. rewrite update_from_eq in *. cbn [snd cur hist] in *. destruct (commit_last (fst cm) (snd cm)) as (_ & -> & _). rewrite clone_keys. rewrite CC in *.
            destruct (in_dec string_dec k (map fst (cur (g_params g)))) as [Y1|Y1]; [exact Y1|exfalso]. revert K. apply lookup_keys. rewrite lookup_dupdate. apply lookup_keys in Y1 as Y2. rewrite Y2.
            destruct (lookup (snd n) k) eqn:LN; [|reflexivity]. exfalso. destruct (new_dict_spec (g_heap g) (map (fun p => (fst p, f (fst p))) (cur (g_params g)))) as (q & G & GV & _ & GS). fold n in G, GV, GS. specialize (GS k).
            unfold value in GS. rewrite LN in GS. apply lookup_In, GV in LN. destruct find as [p|] eqn:FF.
            { apply find_some in FF. destruct FF as [FI FE]. apply in_map_iff in FI. destruct FI as (p0 & <- & FI). cbn in FE. apply String.eqb_eq in FE. subst k. apply Y1. now apply in_map. }
            apply nth_error_None in GS. rewrite G, app_length in GS. lia.
        + intros a d I D. apply removelast_In in D. now apply HH.
        + intros a d I D C. injection D as <-. apply clone_fresh in C. apply (v_fitted _ V1) in I. lia.
      - rewrite initial_button_eq. destruct (pop_grow (g_heap g1) (g_params g1)) as [w W]. set (t1 := pop _ _) in *. set (cl := clone _ _). destruct (clone_grow (fst (fst t1)) (g_initial g1)) as [w2 W2]. fold cl in W2.
        split; cbn [g_heap g_params g_last cur hist].
        + rewrite W2, W. apply valid_grow, valid_grow, (v_fitted _ V1).
        + intros a I C. apply clone_fresh in C. apply (v_fitted _ V1) in I. rewrite W, app_length in C. lia.
        + intros a d I [].
        + intros a d I D C. apply pop_last in D. destruct D as [-> _]. apply clone_fresh in C. apply (v_fitted _ V1) in I. lia. }
    unfold fitted. rewrite clicks_fitted by exact M. rewrite F2. destruct (clicks_apart _ m _ V2 A) as [_ ->]. apply Q.
Qed.
Print Assumptions C50_fitted_partial.

(** C50: but right after a fit the widgets change the stored result of the fit. *)
Theorem C50_fitted_refuted : exists ops f k v,
  fitted (session ops [Fit f]) k = Some (f k) /\ fitted (session ops [Fit f; Change k v]) k = Some v /\ f k <> v.
Proof. exists [Add "d" 1], (fun _ => 2%R), "d", 3%R. cbn. repeat split; auto. lra. Qed.
Print Assumptions C50_fitted_refuted.

(** C50: one click on Fit needs two clicks on Undo. *)
Theorem C50_one_click_refuted : exists ops k v f,
  shown (session ops []) k <> Some v /\
  shown (session ops [Change k v]) k = Some v /\
  shown (session ops [Change k v; Fit f; Undo]) k = Some v /\
  shown (session ops [Change k v; Fit f; Undo; Undo]) k = Some v /\
  shown (session ops [Change k v; Fit f; Undo; Undo; Undo]) k = shown (session ops []) k.
Proof. exists [Add "d" 1], "d", 2%R, (fun _ => 3%R). cbn. repeat split; auto. intro H. injection H as H. lra. Qed.
Print Assumptions C50_one_click_refuted.

(** C50: resetting to the initial values cannot be undone, Undo then does nothing. *)
Theorem C50_initial_refuted : exists ops k v,
  shown (session ops [Change k v]) k = Some v /\
  shown (session ops [Change k v; SetInitial]) k <> Some v /\
  shown (session ops [Change k v; SetInitial; Undo]) k <> Some v /\
  (* only Redo, which is lost by the click on Undo, shows the value again *)
  shown (session ops [Change k v; SetInitial; Redo]) k = Some v /\
  shown (session ops [Change k v; SetInitial; Undo; Redo]) k <> Some v.
Proof. exists [Add "d" 1], "d", 2%R. cbn. repeat split; auto; intro H; injection H as H; lra. Qed.
Print Assumptions C50_initial_refuted.

(** C50: a click on Undo too many loses what Redo would have restored. *)
Theorem C50_redo_refuted : exists ops k v,
  shown (session ops [Change k v; Undo; Redo]) k = Some v /\
  shown (session ops [Change k v; Undo; Undo; Redo]) k <> Some v.
Proof. exists [Add "d" 1], "d", 2%R. cbn. repeat split; auto; intro H; injection H as H; lra. Qed.
Print Assumptions C50_redo_refuted.

(** C74: with the lmfit parameters the documentation asks for, the Fit button raises after the fit:
    the result is stored but not shown. *)
Theorem C74_plain_refuted : exists h p f k, let g := start h p in let r := fit_button_plain g f in
  snd r = Some AttributeError /\ fitted (fst r) k = Some (f k) /\ shown (fst r) k = shown g k /\ shown g k <> Some (f k).
Proof. exists [1%R], (mkph [("d", 0)] [] 50), (fun _ => 2%R), "d". cbn. repeat split; auto. intro H. injection H as H. lra. Qed.
Print Assumptions C74_plain_refuted.

Example C50_example :
  let ops := [Add "d" 1; Add "n" 2; UpdateValue "d" 3]%R in
  let l := [Change "d" 5; Fit (fun _ => 7); Undo; Redo; SetInitial]%R in
  Forall own ops /\ hist (g_params (session ops [Change "d" 5])) <> [] /\ 1 <= maxl (g_params (session ops l)) /\
  shown (session ops l) "d" = Some 3%R /\ shown (session ops [Change "d" 5%R; Fit (fun _ => 7%R); Undo; Redo]) "d" = Some 7%R /\
  Forall (fun c => forall f, c <> Fit f) [Change "d" 5%R; Undo; Redo; SetInitial].
Proof. cbn. repeat split; repeat constructor; try discriminate. Qed.
