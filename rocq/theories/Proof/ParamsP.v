From Coq Require Import String List Arith Bool Lia.
From Verif.Base Require Import Py.
From Verif.Model Require Import Params.
From Verif.Spec Require Import Binding.
Import ListNotations.
Open Scope list_scope.

Section P.
Context {V : Type}.
Notation dict := (dict V).
Notation dheap := (dheap V).

Lemma mem_In k l : mem k l = true <-> In k l.
Proof.
  unfold mem. rewrite existsb_exists. split.
  - intros (x & A & B). apply String.eqb_eq in B. now subst.
  - intros H. exists k. split; auto. apply String.eqb_refl.
Qed.

Lemma mem_false k l : mem k l = false <-> ~ In k l.
Proof. rewrite <- mem_In. destruct (mem k l); split; congruence. Qed.

(* pure versions *)
Fixpoint pset (ks : list string) (vs : list (option V)) (d : dict) : dict :=
  match ks, vs with
  | k :: ks', v :: vs' => pset ks' vs' (dset k v d)
  | _, _ => d
  end.
Fixpoint kset (kw : dict) (d : dict) : dict :=
  match kw with [] => d | (k, v) :: kw' => kset kw' (dset k v d) end.

Lemma hget_app_old (h : dheap) d r : r < length h -> hget (h ++ [d]) r = hget h r.
Proof. intros. unfold hget. now rewrite app_nth1. Qed.
Lemma hget_app_new (h : dheap) d : hget (h ++ [d]) (length h) = d.
Proof. unfold hget. rewrite app_nth2, Nat.sub_diag; auto. Qed.
Lemma hset_app_new (h : dheap) d d' : hset (h ++ [d]) (length h) d' = h ++ [d'].
Proof. induction h; simpl; auto. now rewrite IHh. Qed.

Lemma dset_keys k v (d : dict) : In k (keys d) -> keys (dset k v d) = keys d.
Proof.
  unfold keys. induction d as [|[k' v'] d IH]; simpl; [tauto|].
  destruct (String.eqb_spec k k'); simpl; [auto|]. intros [E|H]; [congruence|].
  now rewrite IH.
Qed.

Lemma pos_loop_pure (h : dheap) t d args : t < length h ->
  forall i pos, i + length args <= length (hget h t) ->
  pos_loop (h ++ [d]) t (length h) i args pos =
  (h ++ [pset (skipn i (keys (hget h t))) args d],
   Ok (rev (firstn (length args) (skipn i (keys (hget h t)))) ++ pos)).
Proof.
  intros Ht. revert d. induction args as [|v args IH]; intros d i pos L; simpl.
  - destruct (skipn i (keys (hget h t))); reflexivity.
  - simpl in L. rewrite hget_app_old by auto.
    destruct (nth_error (keys (hget h t)) i) as [k|] eqn:E.
    2: { apply nth_error_None in E. unfold keys in E. rewrite map_length in E. lia. }
    rewrite hget_app_new, hset_app_new, IH by lia.
    assert (S : skipn i (keys (hget h t)) = k :: skipn (S i) (keys (hget h t))).
    { clear -E. revert i E. generalize (keys (hget h t)) as l. induction l as [|x l IH]; intros i E.
      - destruct i; discriminate.
      - destruct i; simpl in *; [now inversion E|]. rewrite (IH i E). destruct l; reflexivity. }
    rewrite S. simpl. do 2 f_equal. rewrite <- app_assoc. reflexivity.
Qed.

Definition kw_clash (kw : dict) (pos : list string) : bool :=
  existsb (fun k => mem k pos) (keys kw).

Lemma kw_loop_pure (h : dheap) kw pos : forall d,
  exists d', kw_loop (h ++ [d]) (length h) kw pos =
  (h ++ [d'], if kw_clash kw pos then Err InvalidParameters else Ok tt) /\
  (kw_clash kw pos = false -> d' = kset kw d).
Proof.
  induction kw as [|[k v] kw IH]; intros d; simpl.
  - exists d. split; auto.
  - destruct (mem k pos) eqn:M; simpl.
    + exists d. unfold kw_clash; simpl; rewrite M; simpl. split; [auto|discriminate].
    + rewrite hget_app_new, hset_app_new.
      destruct (IH (dset k v d)) as (d' & A & B). exists d'.
      unfold kw_clash in *; simpl; rewrite M; simpl. split; auto.
Qed.

(** The heap: one new dictionary at most, all old ones kept. *)
Lemma fill_frame (h h' : dheap) t args kw r : t < length h ->
  fill_params h t args kw = (h', r) -> exists ext, h' = h ++ ext.
Proof.
  intros Ht. unfold fill_params.
  destruct mem; [intros E; injection E as <- <-; exists []; now rewrite app_nil_r|].
  destruct guard_invalid; [intros E; injection E as <- <-; exists []; now rewrite app_nil_r|].
  destruct (Nat.ltb_spec (length (hget h t)) (length kw + length args));
    [intros E; injection E as <- <-; exists []; now rewrite app_nil_r|].
  rewrite pos_loop_pure by (auto; lia).
  match goal with |- context [kw_loop (h ++ [?d]) _ kw ?pos] =>
    destruct (kw_loop_pure h kw pos d) as (d' & A & _) end.
  rewrite A. destruct kw_clash; intros E; injection E as <- <-; eauto.
Qed.

(** Characterisation of the outcome. *)
Lemma guard_false (kw decl : dict) :
  guard_invalid (keys kw) (keys decl) = false <-> (forall k v, In (k, v) kw -> In k (map fst decl)).
Proof.
  unfold guard_invalid. split.
  - intros H k v I. destruct (mem k (keys decl)) eqn:M; [now apply mem_In in M|].
    assert (existsb (fun k => negb (mem k (keys decl))) (keys kw) = true); [|congruence].
    apply existsb_exists. exists k. split; [|now rewrite M].
    apply in_map_iff. exists (k, v). auto.
  - intros H. destruct existsb eqn:E; auto. apply existsb_exists in E as (k & I & M).
    apply in_map_iff in I as ([k' v] & <- & I). apply H in I. apply mem_In in I.
    simpl in M. unfold keys in M. rewrite I in M. discriminate.
Qed.

Lemma firstn_In_nth {A} (l : list A) n x :
  In x (firstn n l) <-> exists i, i < n /\ nth_error l i = Some x.
Proof.
  revert n. induction l as [|a l IH]; intros n.
  - rewrite firstn_nil. simpl. split; [tauto|]. intros (i & _ & E). destruct i; discriminate.
  - destruct n; simpl.
    + split; [tauto|]. intros (i & H & _). lia.
    + rewrite IH. split.
      * intros [->|(i & H & E)]; [exists 0; split; [lia|auto]|exists (S i); split; [lia|auto]].
      * intros (i & H & E). destruct i; simpl in E; [left; congruence|right; exists i; split; [lia|auto]].
Qed.

Lemma clash_false (kw decl : dict) n :
  kw_clash kw (rev (firstn n (keys decl)) ++ []) = false <->
  (forall k v i, In (k, v) kw -> nth_error (map fst decl) i = Some k -> n <= i).
Proof.
  unfold kw_clash. rewrite app_nil_r. split.
  - intros H k v i I E. destruct (le_lt_dec n i); auto.
    assert (existsb (fun k => mem k (rev (firstn n (keys decl)))) (keys kw) = true); [|congruence].
    apply existsb_exists. exists k. split; [apply in_map_iff; exists (k, v); auto|].
    apply mem_In. rewrite <- in_rev. apply firstn_In_nth. eauto.
  - intros H. destruct existsb eqn:X; auto. apply existsb_exists in X as (k & I & M).
    apply in_map_iff in I as ([k' v] & <- & I).
    apply mem_In in M. rewrite <- in_rev in M. apply firstn_In_nth in M as (i & L & E).
    specialize (H _ _ _ I E). lia.
Qed.

Lemma fill_ok_iff (h : dheap) t args kw : t < length h -> ~ In "template"%string (map fst kw) ->
  (well_formed (hget h t) args kw <-> exists h' p, fill_params h t args kw = (h', Ok p)).
Proof.
  intros Ht Nt. unfold well_formed, fill_params.
  replace (mem "template" (keys kw)) with false by (symmetry; now apply mem_false).
  destruct (guard_invalid (keys kw) (keys (hget h t))) eqn:G.
  { split; [|intros (h' & p & E); discriminate]. intros (A & _). apply guard_false in A. congruence. }
  destruct (Nat.ltb_spec (length (hget h t)) (length kw + length args)).
  { split; [|intros (h' & p & E); discriminate]. intros (_ & A & _). lia. }
  rewrite pos_loop_pure by (auto; lia). cbn [skipn].
  match goal with |- context [kw_loop (h ++ [?d]) _ kw ?pos] =>
    destruct (kw_loop_pure h kw pos d) as (d' & A & _) end.
  rewrite A. destruct kw_clash eqn:K.
  - split; [|intros (h' & p & E); discriminate]. intros (_ & _ & B).
    apply clash_false in B. simpl skipn in K. congruence.
  - pose proof (proj1 (clash_false kw (hget h t) (length args)) K) as K'.
    pose proof (proj1 (guard_false kw (hget h t)) G) as G'. split; eauto.
Qed.

Lemma fill_err (h h' : dheap) t args kw e : t < length h -> ~ In "template"%string (map fst kw) ->
  fill_params h t args kw = (h', Err e) -> e = InvalidParameters.
Proof.
  intros Ht Nt. unfold fill_params.
  replace (mem "template" (keys kw)) with false by (symmetry; now apply mem_false).
  destruct guard_invalid; [congruence|]. destruct Nat.ltb eqn:L; [congruence|].
  apply Nat.ltb_ge in L. rewrite pos_loop_pure by (auto; lia).
  match goal with |- context [kw_loop (h ++ [?d]) _ kw ?pos] =>
    destruct (kw_loop_pure h kw pos d) as (d' & A & _) end.
  rewrite A. destruct kw_clash; congruence.
Qed.

(** The values. *)
Lemma dset_In k v (d : dict) : NoDup (keys d) -> In k (keys d) ->
  forall k' v', In (k', v') (dset k v d) <-> (k' = k /\ v' = v) \/ (k' <> k /\ In (k', v') d).
Proof.
  unfold keys. induction d as [|[k1 v1] d IH]; simpl; [tauto|]. intros N I k' v'.
  inversion N as [|x l N1 N2]; subst.
  destruct (String.eqb_spec k k1); simpl.
  - subst. split.
    + intros [E|E]; [left; split; congruence|]. right. split; [|auto].
      intros ->. apply N1. apply in_map_iff. exists (k1, v'). auto.
    + intros [[-> ->]|[A [B|B]]]; auto. congruence.
  - destruct I as [I|I]; [congruence|]. rewrite IH by auto. split.
    + intros [E|[E|E]]; [|tauto|tauto]. right. split; [congruence|auto].
    + intros [E|[A [B|B]]]; [tauto|tauto|tauto].
Qed.

Lemma kset_spec (kw : dict) : forall d, NoDup (keys d) -> NoDup (keys kw) ->
  (forall k, In k (keys kw) -> In k (keys d)) ->
  keys (kset kw d) = keys d /\
  forall k v, In (k, v) (kset kw d) <-> In (k, v) kw \/ (~ In k (keys kw) /\ In (k, v) d).
Proof.
  induction kw as [|[k v] kw IH]; intros d Nd Nk H; simpl.
  - split; auto. intros. simpl. tauto.
  - inversion Nk as [|x l N1 N2]; subst.
    assert (K : In k (keys d)) by (apply H; left; reflexivity).
    assert (E : keys (dset k v d) = keys d) by now apply dset_keys.
    destruct (IH (dset k v d)) as [A B]; try rewrite E; auto.
    { intros k0 I. apply H. right. auto. }
    split; [now rewrite A|]. intros k0 v0. rewrite B, dset_In by auto. split.
    + intros [I|[NI [[-> ->]|[Ne I]]]]; [tauto| |].
      * left. left. reflexivity.
      * right. split; [|auto]. intros [->|I']; [congruence|tauto].
    + intros [[I|I]|[NI I]].
      * inversion I; subst. right. split; auto.
      * left. auto.
      * right. split; [intros I'; apply NI; auto|]. right. split; [|auto]. intros ->. apply NI; auto.
Qed.

Lemma pset_kset ks vs : forall d : dict, pset ks vs d = kset (combine ks vs) d.
Proof.
  revert vs. induction ks as [|k ks IH]; intros [|v vs] d; simpl; auto.
Qed.

Lemma combine_fst_NoDup (ks : list string) (vs : list (option V)) : NoDup ks -> NoDup (keys (combine ks vs)).
Proof.
  revert vs. induction ks as [|k ks IH]; intros [|v vs] N; simpl; try constructor; inversion N; subst; auto.
  intros I. unfold keys in I. apply in_map_iff in I as ([a b] & E & I). simpl in E. subst.
  apply in_combine_l in I. tauto.
Qed.

Lemma in_combine_nth (ks : list string) (vs : list (option V)) k v :
  In (k, v) (combine ks vs) <-> exists i, nth_error ks i = Some k /\ nth_error vs i = Some v.
Proof.
  revert vs. induction ks as [|k1 ks IH]; intros [|v1 vs]; simpl.
  - split; [tauto|]. intros (i & A & _). destruct i; discriminate.
  - split; [tauto|]. intros (i & A & _). destruct i; discriminate.
  - split; [tauto|]. intros (i & _ & A). destruct i; discriminate.
  - rewrite IH. split.
    + intros [E|(i & A & B)]; [inversion E; exists 0; auto|exists (S i); auto].
    + intros (i & A & B). destruct i; simpl in *; [left; congruence|right; eauto].
Qed.

Lemma fill_value (h h' : dheap) t args kw p : t < length h -> NoDup (keys (hget h t)) -> NoDup (keys kw) ->
  fill_params h t args kw = (h', Ok p) ->
  p = length h /\ length h < length h' /\ map fst (hget h' p) = map fst (hget h t) /\
  (forall k v, In (k, v) (hget h' p) <-> bound (hget h t) args kw k v).
Proof.
  intros Ht Nt Nk. unfold fill_params.
  destruct mem; [discriminate|].
  destruct (guard_invalid (keys kw) (keys (hget h t))) eqn:G; [discriminate|].
  destruct (Nat.ltb_spec (length (hget h t)) (length kw + length args)) as [L|L]; [discriminate|].
  rewrite pos_loop_pure by (auto; lia). cbn [skipn].
  match goal with |- context [kw_loop (h ++ [?d]) _ kw ?pos] =>
    destruct (kw_loop_pure h kw pos d) as (d' & A & B) end.
  rewrite A. destruct kw_clash eqn:K; [discriminate|]. specialize (B eq_refl). clear A.
  intros E. injection E as E1 E2. subst h' p. split; [auto|]. split; [rewrite app_length; simpl; lia|].
  rewrite hget_app_new. subst d'. set (decl := hget h t) in *.
  rewrite pset_kset.
  assert (Len : length args <= length (keys decl)) by (unfold keys; rewrite map_length; lia).
  assert (P1 : forall k, In k (keys (combine (keys decl) args)) -> In k (keys decl)).
  { intros k I. unfold keys at 1 in I. apply in_map_iff in I as ([a b] & Q & I). simpl in Q. subst.
    now apply in_combine_l in I. }
  destruct (kset_spec (combine (keys decl) args) decl) as [S1 S2]; auto.
  { now apply combine_fst_NoDup. }
  assert (G' := proj1 (guard_false kw decl) G).
  destruct (kset_spec kw (kset (combine (keys decl) args) decl)) as [S3 S4]; auto.
  { now rewrite S1. }
  { rewrite S1. intros k I. unfold keys at 1 in I. apply in_map_iff in I as ([a b] & Q & I).
    simpl in Q; subst. eapply G'; eauto. }
  pose proof (proj1 (clash_false kw decl (length args)) K) as K'. clear K. rename K' into K.
  split; [change (keys (kset kw (kset (combine (keys decl) args) decl)) = keys decl); congruence|].
  intros k v. rewrite S4, S2. split.
  - intros [I|[NI [I|[NI2 I]]]].
    + now apply bound_kw.
    + apply in_combine_nth in I as (i & A & B). eapply bound_pos; eauto.
    + apply In_nth_error in I as [i I]. apply bound_default with i; auto.
      destruct (le_lt_dec (length args) i); auto. exfalso. apply NI2.
      destruct (nth_error args i) as [w|] eqn:W; [|apply nth_error_None in W; lia].
      unfold keys at 1. apply in_map_iff. exists (k, w). split; auto. apply in_combine_nth.
      exists i. split; auto. unfold keys. rewrite nth_error_map, I. reflexivity.
  - intros Bd. inversion Bd as [i k0 v0 A B|k0 v0 A|i k0 v0 A B D]; subst.
    + right. split.
      * intros I. unfold keys in I. apply in_map_iff in I as ([a b] & Q & I). simpl in Q; subst.
        specialize (K _ _ _ I A). assert (nth_error args i <> None) by congruence.
        apply nth_error_Some in H. lia.
      * left. apply in_combine_nth. eauto.
    + auto.
    + right. split; [exact D|]. right. split.
      * intros I. unfold keys at 1 in I. apply in_map_iff in I as ([a b] & Q & I). simpl in Q; subst.
        apply in_combine_nth in I as (j & J1 & J2).
        assert (j = i).
        { apply (proj1 (NoDup_nth_error _) Nt).
          - apply nth_error_Some. congruence.
          - rewrite J1. unfold keys. rewrite nth_error_map, A. reflexivity. }
        subst. assert (nth_error args i <> None) by congruence.
        apply nth_error_Some in H. lia.
      * eapply nth_error_In; eauto.
Qed.

(** ** The constructor *)
Lemma existsb_none (d : dict) : existsb is_none d = true <-> exists k, In (k, None) d.
Proof.
  rewrite existsb_exists. split.
  - intros ([k [v|]] & I & E); [discriminate|eauto].
  - intros (k & I). exists (k, None). auto.
Qed.

Lemma init_spec (h h' : dheap) t args kw r : t < length h ->
  NoDup (map fst (hget h t)) -> NoDup (map fst kw) -> reserved_free kw ->
  init h t args kw = (h', r) ->
  match r with
  | Ok o => well_formed (hget h t) args kw /\
      map fst (hget h' (d_single o)) = map fst (hget h t) /\
      (forall k v, In (k, v) (hget h' (d_single o)) <-> bound (hget h t) args kw k v) /\
      (forall k v, In (k, v) (hget h' (d_single o)) -> v <> None) /\ d_rep o = []
  | Err e => e = InvalidParameters /\
      (well_formed (hget h t) args kw -> exists k, bound (hget h t) args kw k None)
  end.
Proof.
  intros Ht Nt Nk [R1 R2]. unfold init.
  replace (mem "self" (keys kw)) with false by (symmetry; now apply mem_false).
  destruct (fill_params h t args kw) as [h1 [p|e]] eqn:F.
  - destruct (fill_value _ _ _ _ _ _ Ht Nt Nk F) as (P1 & P2 & P3 & P4).
    assert (W : well_formed (hget h t) args kw) by (apply fill_ok_iff; eauto).
    destruct (existsb is_none (hget h1 p)) eqn:N; intros E; injection E as <- <-.
    + split; auto. intros _. apply existsb_none in N as [k N]. exists k. now apply P4.
    + simpl. split; [exact W|]. split; [exact P3|]. split; [exact P4|]. split; [|reflexivity].
      intros k v I ->. assert (existsb is_none (hget h1 p) = true); [|congruence].
      apply existsb_none. eauto.
  - intros E; injection E as <- <-. split.
    + eapply fill_err; eauto.
    + intros W. apply fill_ok_iff in W as (h' & p & W); auto. congruence.
Qed.

Lemma hget_ext (h ext : dheap) r : r < length h -> hget (h ++ ext) r = hget h r.
Proof. intros. unfold hget. now rewrite app_nth1. Qed.

Lemma init_frame (h h' : dheap) t args kw r x : t < length h ->
  init h t args kw = (h', r) -> x < length h -> hget h' x = hget h x.
Proof.
  intros Ht. unfold init. destruct mem; [intros E; injection E as <- <-; auto|].
  destruct (fill_params h t args kw) as [h1 [p|e]] eqn:F; destruct (fill_frame _ _ _ _ _ _ Ht F) as [ext ->].
  - destruct existsb; intros E; injection E as <- <-; intros; now apply hget_ext.
  - intros E; injection E as <- <-; intros; now apply hget_ext.
Qed.

(** ** add *)
Lemma add_spec (h h' : dheap) o o' t args kw r : t < length h ->
  NoDup (map fst (hget h t)) -> NoDup (map fst kw) -> reserved_free kw ->
  add h o t args kw = (h', o', r) ->
  (forall x, x < length h -> hget h' x = hget h x) /\ d_single o' = d_single o /\
  length h <= length h' /\
  match r with
  | Ok _ => well_formed (hget h t) args kw /\ exists p, d_rep o' = d_rep o ++ [p] /\
      length h <= p < length h' /\
      map fst (hget h' p) = map fst (hget h t) /\
      (forall k v, In (k, v) (hget h' p) <-> bound (hget h t) args kw k v)
  | Err e => e = InvalidParameters /\ ~ well_formed (hget h t) args kw /\ o' = o
  end.
Proof.
  intros Ht Nt Nk [R1 R2]. unfold add.
  replace (mem "self" (keys kw)) with false by (symmetry; now apply mem_false).
  destruct (fill_params h t args kw) as [h1 [p|e]] eqn:F; destruct (fill_frame _ _ _ _ _ _ Ht F) as [ext X].
  - destruct (fill_value _ _ _ _ _ _ Ht Nt Nk F) as (P1 & P2 & P3 & P4).
    intros E; injection E as <- <- <-. split; [intros; subst h1; now apply hget_ext|].
    split; [reflexivity|]. split; [lia|]. split; [apply fill_ok_iff; eauto|].
    exists p. simpl. split; [reflexivity|]. split; [lia|]. split; [exact P3|exact P4].
  - intros E; injection E as <- <- <-. split; [intros; subst h1; now apply hget_ext|].
    split; [reflexivity|]. split; [subst; rewrite app_length; lia|].
    split; [eapply fill_err; eauto|]. split; auto.
    intros W. apply fill_ok_iff in W as (h' & p & W); auto. congruence.
Qed.

(** Any number of add calls: the stored sets are those of the well formed calls, in order. *)
Lemma adds_spec (calls : list (list (option V) * dict)) : forall (h h' : dheap) o o' t,
  t < length h -> NoDup (map fst (hget h t)) ->
  (forall args kw, In (args, kw) calls -> NoDup (map fst kw) /\ reserved_free kw) ->
  adds h o t calls = (h', o') ->
  (forall x, x < length h -> hget h' x = hget h x) /\ d_single o' = d_single o /\
  length h <= length h' /\
  exists ps, d_rep o' = d_rep o ++ ps /\ added (hget h t) calls (map (hget h') ps).
Proof.
  induction calls as [|[args kw] calls IH]; intros h h' o o' t Ht Nt Hc E; simpl in E.
  - injection E as <- <-. repeat split; auto. exists []. rewrite app_nil_r. split; [auto|constructor].
  - destruct (add h o t args kw) as [[h1 o1] r] eqn:A.
    destruct (Hc args kw) as [Nk R]; [now left|].
    destruct (add_spec _ _ _ _ _ _ _ _ Ht Nt Nk R A) as (F & S & L & Q).
    assert (T : hget h1 t = hget h t) by (apply F; auto).
    destruct (IH h1 h' o1 o' t) as (F' & S' & L' & ps & D & Ad); auto; try lia.
    { now rewrite T. } { intros a k I; apply (Hc a k); now right. }
    rewrite T in Ad. split; [intros x Hx; rewrite F', F; auto; lia|].
    split; [congruence|]. split; [lia|].
    destruct r as [u|e].
    + destruct Q as (W & p & D1 & Lp & K & B). exists (p :: ps).
      split; [rewrite D, D1, <- app_assoc; reflexivity|].
      simpl. constructor; auto; rewrite F' by lia; auto.
    + destruct Q as (_ & W & ->). exists ps. split; auto. now constructor.
Qed.
End P.
