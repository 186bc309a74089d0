(** C49: the parameter history (src/elli/fitting/params_hist.py). *)
From Coq Require Import Reals Lra ZArith String List Arith Bool Lia.
From Verif.Base Require Import Py.
From Verif.Model Require Import ParamsHist.
From Verif.Spec Require Import Undo.
From Verif.Proof Require Import ParamsHistP.
Import ListNotations.
Open Scope string_scope.
Open Scope list_scope.
Open Scope nat_scope.

(** C49: at most max_history_len versions are kept, after any operations at all. *)
Theorem C49_bound : forall ops, let p := snd (run ([], init) ops) in length (hist p) <= maxl p /\ 1 <= maxl p.
Proof.
  intros ops. set (s := ([], init)). assert (B : length (hist (snd s)) <= maxl (snd s) /\ 1 <= maxl (snd s)) by (cbn; lia).
  clearbody s. revert s B. induction ops as [|o ops IH]; intros s B; [exact B|]. cbn. apply IH. clear IH ops.
  destruct s as [h p]. cbn [snd] in B. destruct B as [B1 B2].
  assert (K : length (hist (snd (commit h p))) <= maxl p /\ maxl (snd (commit h p)) = maxl p).
  { unfold commit. destruct (clone h (cur p)). cbn. split; [|reflexivity]. rewrite app_length. cbn.
    destruct (Nat.leb_spec (maxl p) (length (hist p))); [|lia]. destruct (hist p); cbn in *; lia. }
  destruct o; cbn [step]; try (destruct (commit h p) as [h1 p1]; cbn [snd] in K; destruct K as [K1 K2]).
  - unfold add, alloc. cbn. auto.
  - destruct set_value; cbn; auto.
  - unfold add, alloc. cbn. lia.
  - destruct set_value; cbn; lia.
  - destruct (new_dict h l) as [h0 d]. assert (K : length (hist (snd (commit h0 p))) <= maxl p /\ maxl (snd (commit h0 p)) = maxl p).
    { unfold commit. destruct (clone h0 (cur p)). cbn. split; [|reflexivity]. rewrite app_length. cbn.
      destruct (Nat.leb_spec (maxl p) (length (hist p))); [|lia]. destruct (hist p); cbn in *; lia. }
    destruct (commit h0 p) as [h2 p2]. cbn in *. lia.
  - cbn. lia.
  - cbn. lia.
  - unfold pop. destruct (hist p) as [|d ds] eqn:E; [cbn; rewrite E; cbn; lia|]. destruct (clone h (cur p)). cbn [fst snd hist maxl]. split; [rewrite ?E|lia].
    assert (L := removelast_le (d :: ds)). exact (Nat.le_trans _ _ _ L B1).
  - unfold revert. destruct (_ =? _)%Z; [cbn; auto|]. destruct (_ <? _)%Z; [|cbn; auto]. destruct ((0 <=? _) && _)%Z%bool; cbn; auto.
  - destruct (Z.ltb_spec n 1); [cbn; auto|]. cbn. rewrite skipn_length. lia.
  - cbn. lia.
Qed.
Print Assumptions C49_bound.

(** The same operations on the values alone; reverting and storing the parameters of another object
    are left out here *)
Definition plain (o : op) : Prop := match o with UpdateFrom _ | Revert _ => False | _ => True end.

Definition values (l : list (string * R)) : vmap :=
  fun k => match find (fun p => (fst p =? k)%string) l with Some p => Some (snd p) | None => None end.

Definition spec_step (s : undo) (o : op) : undo * option exn :=
  match o with
  | Add k v => (change s (put (now s) k v), None)
  | SetValue k v => match now s k with Some _ => (change s (put (now s) k v), None) | None => (s, Some KeyError) end
  | TrackedAdd k v => (change (save s) (put (now s) k v), None)
  | UpdateValue k v => match now s k with Some _ => (change (save s) (put (now s) k v), None) | None => (save s, Some KeyError) end
  | UpdateParams l => (change (save s) (over (values l) (now s)), None)
  | Commit => (save s, None)
  | Pop => (undo1 s, None)
  | SetMax n => if (n <? 1)%Z then (s, Some ValueError) else (limit s (Z.to_nat n), None)
  | Clear => (mkundo (now s) [] (bound s), None)
  | _ => (s, None)
  end.

Definition spec_run (s : undo) (ops : list op) : undo := fold_left (fun s o => fst (spec_step s o)) ops s.
Definition empty : undo := mkundo (fun _ => None) [] 50.

Lemma refines_ext h p s s' : refines h p s -> (forall k, now s k = now s' k) -> saved s = saved s' -> bound s = bound s' -> refines h p s'.
Proof. intros [S C H M] E1 E2 E3. split; auto; [intro k; now rewrite <- E1|now rewrite <- E2|congruence]. Qed.

Lemma step_refines h p s o : refines h p s -> plain o ->
  refines (fst (fst (step (h, p) o))) (snd (fst (step (h, p) o))) (fst (spec_step s o)) /\ snd (step (h, p) o) = snd (spec_step s o).
Proof.
  intros R P. destruct o; cbn [step spec_step]; try (now destruct P).
  - split; [|reflexivity]. cbn [fst]. now apply add_refines.
  - assert (Q := set_value_refines h p s k v R). destruct (set_value h p k v) as [h1|e].
    + destruct Q as [[x ->] Q]. split; [exact Q|reflexivity].
    + destruct Q as [-> ->]. split; [exact R|reflexivity].
  - destruct (commit_refines h p s R) as (Q & _ & _). destruct (commit h p) as [h1 p1]. cbn [fst snd] in *. split; [|reflexivity]. exact (add_refines _ _ _ k v Q).
  - destruct (commit_refines h p s R) as (Q & _ & _). destruct (commit h p) as [h1 p1]. cbn [fst snd] in *.
    assert (Q2 := set_value_refines h1 p1 (save s) k v Q). cbn [now save] in Q2. destruct (set_value h1 p1 k v) as [h2|e].
    + destruct Q2 as [[x ->] Q2]. split; [exact Q2|reflexivity].
    + destruct Q2 as [-> ->]. split; [exact Q|reflexivity].
  - destruct (new_dict_spec h l) as (g & G1 & G2 & G3 & G4). destruct (new_dict h l) as [h0 d]. cbn [fst snd] in *. subst h0.
    assert (R0 := refines_app h g p s R). destruct (commit_refines (h ++ g) p s R0) as (Q & QC & (g' & QG)).
    assert (QA : forall a, In a (all_addrs (snd (commit (h ++ g) p))) -> a < length h \/ length h + length g <= a).
    { intros a A. unfold commit in A. destruct (clone_spec (h ++ g) (cur p) (valid_cur _ _ (r_sound _ _ _ R0))) as (g2 & _ & _ & G5 & _).
      destruct (clone (h ++ g) (cur p)) as [h2 c]. cbn [fst snd] in *. unfold all_addrs in A. cbn [cur hist] in A. rewrite map_app, concat_app in A.
      apply in_app_or in A. assert (V := s_valid _ _ (r_sound _ _ _ R)). unfold all_addrs in V. destruct A as [A|A]; [left; apply V, in_or_app; now left|].
      apply in_app_or in A. destruct A as [A|A].
      - left. apply V, in_or_app. right. destruct (_ <=? _); [now apply incl_tl_hist|exact A].
      - cbn in A. rewrite app_nil_r, G5, app_length in A. apply in_seq in A. right. lia. }
    destruct (commit (h ++ g) p) as [h1 p1]. cbn [fst snd] in *. subst h1. split; [|reflexivity].
    assert (VD : valid (h ++ g) d) by (intros a A; rewrite app_length; specialize (G2 a A); lia).
    eapply refines_ext.
    + eapply (dupdate_refines _ p1 (save s) d Q); [intros a A; rewrite app_length; specialize (VD a A); lia|exact G3|].
      intros a A B. apply QA in B. specialize (G2 a A). lia.
    + intro k. cbn. unfold over. rewrite value_app by exact VD. now rewrite G4.
    + reflexivity.
    + reflexivity.
  - split; [|reflexivity]. cbn [fst]. apply commit_refines, R.
  - destruct (pop_refines h p s R) as [Q _]. destruct (pop h p) as [[h1 p1] c]. split; [exact Q|reflexivity].
  - destruct (n <? 1)%Z; [split; [exact R|reflexivity]|]. split; [|reflexivity]. cbn [fst snd]. unfold limit.
    rewrite <- (Forall2_len _ _ _ (r_hist _ _ _ R)). exact (hist_suffix_refines h p s _ _ R).
  - split; [|reflexivity]. cbn [fst snd]. assert (Q := hist_suffix_refines h p s (length (hist p)) (maxl p) R). rewrite skipn_all in Q. destruct R as [_ _ H M].
    rewrite (Forall2_len _ _ _ H), skipn_all in Q. now rewrite M in *.
Qed.

Lemma run_refines ops : forall h p s, refines h p s -> Forall plain ops ->
  refines (fst (run (h, p) ops)) (snd (run (h, p) ops)) (spec_run s ops).
Proof.
  induction ops as [|o ops IH]; intros h p s R F; [exact R|]. inversion F as [|? ? P F']. subst. cbn [run fold_left spec_run].
  destruct (step_refines h p s o R P) as [Q _]. change (fold_left (fun s o => fst (step s o)) ops ?x) with (run x ops). destruct (fst (step (h, p) o)) as [h1 p1].
  exact (IH h1 p1 _ Q F').
Qed.

Lemma init_refines : refines [] init empty.
Proof. split; [split; [intros a []|constructor]|intro; reflexivity|constructor|reflexivity]. Qed.

(** C49: after any of these operations the current values and every stored version are those of a
    bounded undo stack, and an operation raises exactly what it should. *)
Theorem C49_refinement : forall ops o, Forall plain ops -> plain o ->
  let s := run ([], init) ops in let t := spec_run empty ops in
  (forall k, value (fst s) (cur (snd s)) k = now t k) /\
  Forall2 (fun d m => forall k, value (fst s) d k = m k) (hist (snd s)) (saved t) /\
  maxl (snd s) = bound t /\ snd (step s o) = snd (spec_step t o).
Proof.
  intros ops o F P s t. assert (R := run_refines ops [] init empty init_refines F). change (refines (fst s) (snd s) t) in R. assert (Q := R). destruct R as [S C H M].
  split; [exact C|]. split; [exact H|]. split; [exact M|]. clear S C H M. clearbody s. destruct s as [h p]. exact (proj2 (step_refines h p t o Q P)).
Qed.
Print Assumptions C49_refinement.

(** The operations that save a version before they change something *)
Definition tracked (o : op) : Prop := match o with TrackedAdd _ _ | UpdateValue _ _ | UpdateParams _ | Commit => True | _ => False end.

Lemma tracked_plain o : tracked o -> plain o.
Proof. now destruct o. Qed.

Lemma tracked_saved s o : tracked o -> saved (fst (spec_step s o)) = saved (save s) /\ bound (fst (spec_step s o)) = bound s.
Proof. destruct o; cbn [tracked]; intro T; try (now destruct T); cbn; auto. destruct (now s k); auto. Qed.

Lemma changes_saved ops : Forall tracked ops -> forall s, length ops <= bound s ->
  exists old news, saved (spec_run s ops) = old ++ news /\ length news = length ops /\ bound (spec_run s ops) = bound s /\
    (ops <> [] -> hd (fun _ => None) news = now s).
Proof.
  intros F s. induction ops as [|o ops IH] using rev_ind; intro L.
  - exists (saved s), []. cbn. rewrite app_nil_r. repeat split. intro X. now destruct X.
  - rewrite app_length in L. cbn in L. apply Forall_app in F. destruct F as [F1 F2]. inversion F2 as [|? ? T _]. subst.
    destruct (IH F1 ltac:(lia)) as (old & news & E & LN & B & HD). unfold spec_run in *. rewrite fold_left_app. cbn [fold_left].
    set (t := fold_left _ ops s) in *. destruct (tracked_saved t o T) as [E2 B2]. rewrite E2, B2. cbn [save saved].
    assert (HD' : hd (fun _ => None) (news ++ [now t]) = now s).
    { destruct news as [|m news]; [|apply HD; intros ->; discriminate LN]. destruct ops; [reflexivity|discriminate LN]. }
    destruct (Nat.leb_spec (bound t) (length (saved t))) as [D|D].
    + destruct old as [|x old]; [exfalso; rewrite E in D; cbn in D; rewrite B in D; lia|]. exists old, (news ++ [now t]). rewrite E. cbn [app tl]. rewrite <- app_assoc.
      rewrite !app_length. cbn. repeat split; auto; lia.
    + exists old, (news ++ [now t]). rewrite E, <- app_assoc, !app_length. cbn. repeat split; auto; lia.
Qed.

Lemma undos news : forall s old, saved s = old ++ news -> news <> [] ->
  forall j v, hd (fun _ => None) news j = Some v -> now (spec_run s (repeat Pop (length news))) j = Some v.
Proof.
  induction news as [|m news IH] using rev_ind; intros s old E N j v H; [now destruct N|].
  rewrite app_length. cbn [length]. rewrite Nat.add_1_r. cbn [repeat spec_run fold_left spec_step fst].
  set (u := undo1 s). assert (U : saved u = old ++ news /\ now u = over m (now s)).
  { unfold u, undo1. assert (NE : saved s <> []) by (rewrite E, app_assoc; intro X; now apply app_eq_nil in X).
    assert (Q : saved s = (old ++ news) ++ [m]) by (now rewrite E, app_assoc). rewrite Q, removelast_last, last_last. destruct ((old ++ news) ++ [m]) eqn:Z; [now apply app_eq_nil in Z|]. auto. }
  destruct U as [U1 U2]. destruct news as [|m' news].
  - cbn. rewrite U2. unfold over. cbn in H. now rewrite H.
  - change (fold_left _ (repeat Pop (length (m' :: news))) u) with (spec_run u (repeat Pop (length (m' :: news)))). apply (IH u old U1); [discriminate|exact H].
Qed.

Lemma spec_run_app s a b : spec_run s (a ++ b) = spec_run (spec_run s a) b.
Proof. unfold spec_run. now rewrite fold_left_app. Qed.

Lemma spec_undo s ops j v : Forall tracked ops -> length ops <= bound s -> now s j = Some v ->
  now (spec_run s (ops ++ repeat Pop (length ops))) j = Some v.
Proof.
  intros F L H. rewrite spec_run_app. destruct (changes_saved ops F s L) as (old & news & E & LN & B & HD). rewrite <- LN.
  destruct ops as [|o ops]; [destruct news; [exact H|discriminate]|]. apply (undos news _ old E).
  - destruct news; [discriminate LN|discriminate].
  - rewrite HD by discriminate. exact H.
Qed.

Lemma run_app s a b : run s (a ++ b) = run (run s a) b.
Proof. unfold run. now rewrite fold_left_app. Qed.

Lemma above_tracked h p q o : above p q -> length (hist q) < maxl q -> tracked o ->
  fst (fst (step (h, p) o)) = fst (fst (step (h, q) o)) /\ above (snd (fst (step (h, p) o))) (snd (fst (step (h, q) o))) /\
  length (hist (snd (fst (step (h, q) o)))) = S (length (hist q)) /\ maxl (snd (fst (step (h, q) o))) = maxl q.
Proof.
  intros A L T. destruct o; try (now destruct T); cbn [step].
  - destruct (above_commit h p q A L) as (E & [C M (old & H)] & LH & MM). destruct (commit h p) as [h1 p1], (commit h q) as [h2 q1]. cbn [fst snd] in *. subst h2.
    unfold add, alloc. cbn [fst snd hist maxl]. repeat split; cbn [cur hist maxl]; auto; [now rewrite C|eauto].
  - destruct (above_commit h p q A L) as (E & AA & LH & MM). destruct (commit h p) as [h1 p1], (commit h q) as [h2 q1]. cbn [fst snd] in *. subst h2.
    unfold set_value. rewrite (a_cur _ _ AA). destruct (lookup (cur q1) k); cbn [fst snd]; auto.
  - destruct (new_dict h l) as [h0 d]. destruct (above_commit h0 p q A L) as (E & [C M (old & H)] & LH & MM). destruct (commit h0 p) as [h1 p1], (commit h0 q) as [h2 q1]. cbn [fst snd] in *. subst h2.
    cbn [fst snd hist maxl]. repeat split; cbn [cur hist maxl]; auto; [now rewrite C|eauto].
  - cbn [fst snd]. apply above_commit; auto.
Qed.

Lemma above_changes ops : Forall tracked ops -> forall h p q, above p q -> length (hist q) + length ops <= maxl q ->
  fst (run (h, p) ops) = fst (run (h, q) ops) /\ above (snd (run (h, p) ops)) (snd (run (h, q) ops)) /\
  length (hist (snd (run (h, q) ops))) = length (hist q) + length ops.
Proof.
  induction ops as [|o ops IH]; intros F h p q A L; [cbn in *; repeat split; auto; apply A|]. inversion F as [|? ? T F']. subst. cbn [length] in L.
  destruct (above_tracked h p q o A ltac:(lia) T) as (E & A2 & L2 & M2). cbn [run fold_left]. change (fold_left (fun s o => fst (step s o)) ops ?x) with (run x ops).
  destruct (fst (step (h, p) o)) as [h1 p1], (fst (step (h, q) o)) as [h2 q1]. cbn [fst snd] in *. subst h2. destruct (IH F' h1 p1 q1 A2 ltac:(lia)) as (E3 & A3 & L3).
  split; [exact E3|]. split; [exact A3|]. cbn [length]. lia.
Qed.

Lemma above_pops n : forall h p q, above p q -> n <= length (hist q) ->
  fst (run (h, p) (repeat Pop n)) = fst (run (h, q) (repeat Pop n)) /\ cur (snd (run (h, p) (repeat Pop n))) = cur (snd (run (h, q) (repeat Pop n))).
Proof.
  induction n as [|n IH]; intros h p q A L; [cbn; split; [reflexivity|apply A]|]. cbn [repeat run fold_left step].
  change (fold_left (fun s o => fst (step s o)) (repeat Pop n) ?x) with (run x (repeat Pop n)).
  destruct (above_pop h p q A) as (E & A2 & L2); [intro X; rewrite X in L; cbn in L; lia|].
  destruct (pop h p) as [[h1 p1] c1], (pop h q) as [[h2 q1] c2]. cbn [fst snd] in *. subst h2. apply IH; [exact A2|lia].
Qed.

Lemma undo_named h p tags ops j v : named h p tags -> Forall tracked ops -> length ops <= maxl p ->
  value h (cur p) j = Some v ->
  let t := run (h, p) (ops ++ repeat Pop (length ops)) in value (fst t) (cur (snd t)) j = Some v.
Proof.
  intros N FO L V.
  set (q := mkph (cur p) [] (maxl p)). assert (A : above p q) by (split; cbn; auto; exists (hist p); now rewrite app_nil_r).
  assert (R : refines h q (mkundo (value h (cur p)) [] (maxl p))).
  { split; cbn; auto; [|intro; reflexivity]. split; unfold all_addrs; cbn [cur hist map concat q]; rewrite app_nil_r; [exact (named_valid _ _ _ N)|exact (named_NoDup _ _ _ N)]. }
  rewrite run_app. destruct (above_changes ops FO h p q A) as (E1 & A1 & L1); [cbn; lia|].
  assert (Q : forall s : heap * ph, s = (fst s, snd s)) by (now intros []). rewrite (Q (run (h, p) ops)).
  destruct (above_pops (length ops) (fst (run (h, p) ops)) _ _ A1) as (E2 & C2); [rewrite L1; cbn; lia|]. intro t. unfold t. rewrite E2, C2, E1, <- Q, <- run_app.
  assert (F2 : Forall plain (ops ++ repeat Pop (length ops))).
  { apply Forall_app. split; [eapply Forall_impl; [|exact FO]; apply tracked_plain|]. apply Forall_forall. intros x X. apply repeat_spec in X. now subst. }
  rewrite (r_cur _ _ _ (run_refines _ h q _ R F2) j). apply spec_undo; auto.
Qed.

(** C49: undoing k tracked changes, not more than are kept, restores every value from before them.
    Before them there may have been any operations, reverts included, but not the storing of
    parameters of another object. *)
Theorem C49_undo_partial : forall before ops j v, Forall own before -> Forall tracked ops ->
  let s := run ([], init) before in length ops <= maxl (snd s) ->
  value (fst s) (cur (snd s)) j = Some v ->
  let t := run s (ops ++ repeat Pop (length ops)) in value (fst t) (cur (snd t)) j = Some v.
Proof.
  intros before ops j v FB FO s L V t. assert (N0 : named [] init []) by (split; cbn; auto; [intros k a []|intros d []|constructor]).
  destruct (named_run before [] init [] N0 FB) as (tags & N). change (named (fst s) (snd s) tags) in N. unfold t. clear t. clearbody s. destruct s as [h p].
  eapply undo_named; eauto.
Qed.
Print Assumptions C49_undo_partial.

(** C49: but an added parameter is not removed by undoing its addition. *)
Theorem C49_undo_refuted : exists k v, value [] (cur init) k = None /\
  let s := run ([], init) [TrackedAdd k v; Pop] in value (fst s) (cur (snd s)) k = Some v.
Proof. exists "d", 1%R. split; reflexivity. Qed.

(** C49: a position inside the history (negative ones count from the end) can always be reverted to;
    the values of that version come back, and neither the stored versions nor any Parameter object
    are changed.  Other positions raise. *)
Theorem C49_revert : forall h p pos, let n := Z.of_nat (length (hist p)) in
  (forall i, (- n <= pos < n)%Z -> i = Z.to_nat (if (pos <? 0)%Z then pos + n else pos) ->
   exists q, step (h, p) (Revert pos) = ((h, q), None) /\ hist q = hist p /\ maxl q = maxl p /\ i < length (hist p) /\
     forall k, value h (cur q) k = match lookup (nth i (hist p) []) k with Some _ => value h (nth i (hist p) []) k | None => value h (cur p) k end) /\
  ((pos < - n \/ n <= pos)%Z -> step (h, p) (Revert pos) = ((h, p), Some (if (n =? 0)%Z then ZeroDivisionError else IndexError))).
Proof.
  intros h p pos n. split.
  - intros i B ->. cbn [step]. unfold revert. fold n. destruct (Z.eqb_spec n 0); [lia|].
    destruct (Z.ltb_spec (pos mod n) n); [|pose proof (Z.mod_pos_bound pos n ltac:(lia)); lia].
    set (j := if (pos <? 0)%Z then (pos + n)%Z else pos). assert (J : (0 <= j < n)%Z) by (unfold j; destruct (Z.ltb_spec pos 0); lia).
    replace ((0 <=? j)%Z && (j <? n)%Z)%bool with true by (symmetry; apply andb_true_iff; rewrite Z.leb_le, Z.ltb_lt; lia).
    eexists. split; [reflexivity|]. cbn [hist maxl cur]. split; [reflexivity|]. split; [reflexivity|]. split; [lia|].
    intro k. unfold value. rewrite lookup_dupdate. destruct (lookup (nth (Z.to_nat j) (hist p) []) k); reflexivity.
  - intro B. cbn [step]. unfold revert. fold n. destruct (Z.eqb_spec n 0); [reflexivity|].
    destruct (Z.ltb_spec (pos mod n) n); [|pose proof (Z.mod_pos_bound pos n ltac:(lia)); lia].
    replace ((0 <=? (if (pos <? 0)%Z then pos + n else pos))%Z && ((if (pos <? 0)%Z then pos + n else pos) <? n)%Z)%bool with false; [reflexivity|].
    symmetry. apply andb_false_iff. rewrite Z.leb_gt, Z.ltb_ge. destruct (Z.ltb_spec pos 0); lia.
Qed.
Print Assumptions C49_revert.

(** C49: a reverted version is shared with the history: the next change of a value changes the
    stored version, so that reverting to it again does not give what was saved. *)
Theorem C49_shared_refuted : exists ops k v x,
  let s := run ([], init) ops in
  (exists d, hist (snd s) = [d] /\ value (fst s) d k = Some x) /\
  let t := run s [Revert 0; UpdateValue k v] in
  exists d d', hist (snd t) = [d; d'] /\ value (fst t) d k <> Some x /\
  let u := run t [Revert 0] in value (fst u) (cur (snd u)) k <> Some x.
Proof.
  exists [Add "d" 1%R; UpdateValue "d" 2%R], "d", 3%R, 1%R. cbn. split; [eexists; split; reflexivity|].
  eexists _, _. split; [reflexivity|]. split; intro H; injection H; lra.
Qed.

Example C49_example :
  let s := run ([], init) [Add "d" 10%R; Add "n" 2%R; UpdateValue "d" 20%R; UpdateParams [("n", 3%R); ("d", 30%R)]; SetValue "d" 31%R; UpdateValue "x" 1%R; Pop; Pop] in
  value (fst s) (cur (snd s)) "d" = Some 20%R /\ value (fst s) (cur (snd s)) "n" = Some 2%R /\ length (hist (snd s)) = 1 /\
  let t := run s [SetMax 2; UpdateValue "d" 1%R; UpdateValue "d" 2%R; UpdateValue "d" 3%R; Pop; Pop; Pop] in
  value (fst t) (cur (snd t)) "d" = Some 1%R /\ maxl (snd t) = 2.
Proof. repeat split. Qed.
