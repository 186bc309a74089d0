From Coq Require Import Reals List Arith Bool Lia.
From Coquelicot Require Import Complex.
From Verif.Base Require Import Py Cx.
From Verif.Model Require Import DispAdd.
Import ListNotations.
Open Scope R_scope.
Open Scope C_scope.
Open Scope list_scope.
Open Scope nat_scope.

Lemma kind_eqb_eq a b : kind_eqb a b = true <-> a = b.
Proof. destruct a, b; simpl; split; congruence. Qed.
Lemma kind_eqb_refl a : kind_eqb a a = true.
Proof. now destruct a. Qed.

(** ** Heaps *)
Lemma update_length h r o : length (update h r o) = length h.
Proof. revert r. induction h; destruct r; simpl; auto. Qed.
Lemma update_same h r o : r < length h -> nth_error (update h r o) r = Some o.
Proof. revert r. induction h; destruct r; simpl; intros; try lia; auto. apply IHh. lia. Qed.
Lemma update_other h r x o : x <> r -> nth_error (update h r o) x = nth_error h x.
Proof. revert r x. induction h; destruct r, x; simpl; intros; try lia; auto. Qed.
Lemma nth_lt (h : heap) r o : nth_error h r = Some o -> r < length h.
Proof. intros H. apply nth_error_Some. congruence. Qed.
Lemma app_old (h e : heap) r o : nth_error h r = Some o -> nth_error (h ++ e) r = Some o.
Proof. intros H. rewrite nth_error_app1; auto. eapply nth_lt; eauto. Qed.
Lemma app_new (h : heap) o : nth_error (h ++ [o]) (length h) = Some o.
Proof. rewrite nth_error_app2, Nat.sub_diag; auto. Qed.

(** ** The invariant: sums are flat and of one kind. *)
Definition good_part (h : heap) (k : kind) (p : nat) : Prop :=
  exists o, nth_error h p = Some o /\ is_sum o = false /\ okind o = k.

Definition good_obj (h : heap) (o : obj) : Prop :=
  match o with
  | Leaf k c _ => c = LPseudo -> k = KEps
  | Sum k parts => Forall (good_part h k) parts
  | AsIdx src => exists o, nth_error h src = Some o /\ okind o = KEps
  end.

Definition inv (h : heap) : Prop := forall r o, nth_error h r = Some o -> good_obj h o.

(** [h'] keeps the class of every object of [h]; only the parts of sums may differ. *)
Definition extends (h h' : heap) : Prop :=
  forall r o, nth_error h r = Some o ->
    exists o', nth_error h' r = Some o' /\ okind o' = okind o /\ is_sum o' = is_sum o /\
      (is_sum o = false -> o' = o).

Lemma extends_refl h : extends h h.
Proof. intros r o H. exists o. auto. Qed.
Lemma extends_trans a b c : extends a b -> extends b c -> extends a c.
Proof.
  intros H1 H2 r o H. destruct (H1 r o H) as (o1 & A & B & D & E).
  destruct (H2 r o1 A) as (o2 & A2 & B2 & D2 & E2). exists o2.
  repeat split; try congruence. intros N. rewrite E2; [auto|congruence].
Qed.
Lemma extends_app h e : extends h (h ++ e).
Proof. intros r o H. exists o. split; [now apply app_old|auto]. Qed.
Lemma extends_update h s k ps ps' : nth_error h s = Some (Sum k ps) ->
  extends h (update h s (Sum k ps')).
Proof.
  intros Hs r o H. destruct (Nat.eq_dec r s) as [->|N].
  - rewrite Hs in H. injection H as <-. exists (Sum k ps').
    rewrite update_same by (eapply nth_lt; eauto). repeat split; auto. discriminate.
  - exists o. rewrite update_other by auto. auto.
Qed.

Lemma good_part_ext h h' k p : extends h h' -> good_part h k p -> good_part h' k p.
Proof.
  intros X (o & A & B & D). destruct (X p o A) as (o' & A' & B' & D' & _).
  exists o'. repeat split; congruence.
Qed.
Lemma good_obj_ext h h' o : extends h h' -> good_obj h o -> good_obj h' o.
Proof.
  intros X. destruct o as [k c v|k ps|src]; simpl; auto.
  - intros F. eapply Forall_impl; [|exact F]. intros p. now apply good_part_ext.
  - intros (o & A & B). destruct (X src o A) as (o' & A' & B' & _). exists o'. split; congruence.
Qed.

Lemma inv_app h o : inv h -> good_obj (h ++ [o]) o -> inv (h ++ [o]).
Proof.
  intros I G r x H. destruct (lt_eq_lt_dec r (length h)) as [[L|E]|L].
  - rewrite nth_error_app1 in H by auto. eapply good_obj_ext; [apply extends_app|eauto].
  - subst. rewrite app_new in H. injection H as <-. auto.
  - apply nth_lt in H. rewrite app_length in H. simpl in H. lia.
Qed.

Lemma inv_update h s k ps ps' : inv h -> nth_error h s = Some (Sum k ps) ->
  Forall (good_part h k) ps' -> inv (update h s (Sum k ps')).
Proof.
  intros I Hs F r x H. pose proof (extends_update h s k ps ps' Hs) as X.
  destruct (Nat.eq_dec r s) as [->|N].
  - rewrite update_same in H by (eapply nth_lt; eauto). injection H as <-.
    simpl. eapply Forall_impl; [|exact F]. intros p. now apply good_part_ext.
  - rewrite update_other in H by auto. eapply good_obj_ext; eauto.
Qed.

(** ** Evaluation: four levels suffice. *)
Definition rank (h : heap) (r : nat) : nat :=
  match nth_error h r with
  | Some (Leaf _ _ _) => 1
  | Some (Sum KEps _) => 2
  | Some (AsIdx _) => 3
  | Some (Sum KIdx _) => 4
  | None => 1
  end.

Lemma rank_pos h r : 1 <= rank h r <= 4.
Proof. unfold rank. destruct nth_error as [[| [] |]|]; lia. Qed.

Lemma part_rank h k ps r p : inv h -> nth_error h r = Some (Sum k ps) -> In p ps ->
  rank h p < rank h r.
Proof.
  intros I H P. apply I in H as G. simpl in G. rewrite Forall_forall in G.
  destruct (G p P) as (o & A & B & D). unfold rank. rewrite H, A.
  destruct o as [k' c v|k' ps'|s]; simpl in *; [destruct k; lia|discriminate|subst; lia].
Qed.
Lemma src_rank h s r : inv h -> nth_error h r = Some (AsIdx s) -> rank h s < rank h r.
Proof.
  intros I H. apply I in H as G. destruct G as (o & A & B). unfold rank. rewrite H, A.
  destruct o as [k' c v|k' ps'|x]; simpl in *; [lia|subst; lia|discriminate].
Qed.

Lemma eval_stable h lbda : inv h -> forall m n r, rank h r <= m -> rank h r <= n ->
  eval m h r lbda = eval n h r lbda.
Proof.
  intros I. induction m as [|m IH]; intros n r Hm Hn; [pose proof (rank_pos h r); lia|].
  destruct n as [|n]; [pose proof (rank_pos h r); lia|].
  simpl. destruct (nth_error h r) as [[k c v|k ps|s]|] eqn:E; auto.
  - f_equal. apply map_ext_in. intros p P. pose proof (part_rank h k ps r p I E P).
    apply IH; lia.
  - pose proof (src_rank h s r I E). rewrite (IH n s); auto; lia.
Qed.

Lemma eval_value h r lbda n : inv h -> rank h r <= n -> eval n h r lbda = value h r lbda.
Proof. intros. unfold value. apply eval_stable; auto. apply rank_pos. Qed.

(** Unfolding of value *)
Lemma eval_S n h r lbda : eval (S n) h r lbda =
  match nth_error h r with
  | None => None
  | Some (Leaf _ _ v) => v lbda
  | Some (Sum _ parts) => osum (map (fun p => eval n h p lbda) parts)
  | Some (AsIdx src) => obind (eval n h src lbda) (fun e => Some (Csqrt e))
  end.
Proof. reflexivity. Qed.
Lemma value_leaf h r lbda k c v : nth_error h r = Some (Leaf k c v) -> value h r lbda = v lbda.
Proof. intros H. unfold value. simpl. now rewrite H. Qed.
Lemma value_asidx h r lbda s : inv h -> nth_error h r = Some (AsIdx s) ->
  value h r lbda = obind (value h s lbda) (fun e => Some (Csqrt e)).
Proof.
  intros I H. unfold value at 1. rewrite (eval_S 3), H. rewrite eval_value; auto.
  pose proof (src_rank h s r I H). unfold rank in *. rewrite H in *. lia.
Qed.
Lemma value_sum h r lbda k ps : inv h -> nth_error h r = Some (Sum k ps) ->
  value h r lbda = osum (map (fun p => value h p lbda) ps).
Proof.
  intros I H. unfold value at 1. rewrite (eval_S 3), H. f_equal. apply map_ext_in.
  intros p P. apply eval_value; auto. pose proof (part_rank h k ps r p I H P).
  pose proof (rank_pos h r). lia.
Qed.

(** Sums *)
Lemma oplus_0_l a : oplus (Some (RtoC 0)) a = a.
Proof. destruct a; simpl; auto. f_equal. ring. Qed.
Lemma oplus_0_r a : oplus a (Some (RtoC 0)) = a.
Proof. destruct a; simpl; auto. f_equal. ring. Qed.
Lemma oplus_assoc a b c : oplus a (oplus b c) = oplus (oplus a b) c.
Proof. destruct a, b, c; simpl; auto. f_equal. ring. Qed.
Lemma oplus_comm a b : oplus a b = oplus b a.
Proof. destruct a, b; simpl; auto. f_equal. ring. Qed.
Lemma fold_oplus l : forall a, fold_left oplus l a = oplus a (osum l).
Proof.
  unfold osum. induction l as [|x l IH]; intros a.
  - cbn [fold_left]. now rewrite oplus_0_r.
  - cbn [fold_left]. rewrite (IH (oplus a x)), (IH (oplus (Some (RtoC 0)) x)), oplus_0_l.
    symmetry. apply oplus_assoc.
Qed.
Lemma osum_app a b : osum (a ++ b) = oplus (osum a) (osum b).
Proof. unfold osum at 1. rewrite fold_left_app. apply fold_oplus. Qed.
Lemma osum_one a : osum [a] = a.
Proof. unfold osum. cbn [fold_left]. apply oplus_0_l. Qed.

Arguments value : simpl never.
Arguments osum : simpl never.
Arguments oplus : simpl never.

(** ** Values under changes of the heap *)
(** [same_but s h h']: [h'] has all objects of [h] unchanged, except perhaps the one at [s]. *)
Definition same_but (s : option nat) (h h' : heap) : Prop :=
  forall r o, nth_error h r = Some o -> s <> Some r -> nth_error h' r = Some o.

Lemma same_but_app h e : same_but None h (h ++ e).
Proof. intros r o H _. now apply app_old. Qed.
Lemma same_but_update h s o : same_but (Some s) h (update h s o).
Proof. intros r x H N. rewrite update_other; auto; congruence. Qed.
Lemma same_but_weak s h h' : same_but None h h' -> same_but s h h'.
Proof. intros A r o H _. apply A; auto. discriminate. Qed.
Lemma same_but_trans s a b c : same_but s a b -> same_but s b c -> same_but s a c.
Proof. intros A B r o H N. apply B; auto. Qed.

(** An object that does not look at a changed sum keeps its value. *)
Definition looks_at (h : heap) (r s : nat) : Prop :=
  r = s \/ nth_error h r = Some (AsIdx s) \/
  exists k ps p, nth_error h r = Some (Sum k ps) /\ In p ps /\ nth_error h p = Some (AsIdx s).

Lemma value_frame h h' s r o lbda : inv h -> inv h' ->
  same_but (Some s) h h' -> (exists k ps, nth_error h s = Some (Sum k ps)) ->
  nth_error h r = Some o -> ~ looks_at h r s -> value h' r lbda = value h r lbda.
Proof.
  intros I I' SB (k & ps & Hs) Hr N.
  assert (Nrs : r <> s) by (intros E; apply N; now left).
  assert (Hr' : nth_error h' r = Some o) by (apply SB; auto; congruence).
  assert (LeafV : forall p k0, good_part h k0 p -> k0 = KEps -> value h' p lbda = value h p lbda).
  { intros p k0 (x & A & B & D) E. destruct x as [kx c v|kx px|sx]; simpl in *; try discriminate; try congruence.
    rewrite (value_leaf h p lbda kx c v A). apply (value_leaf h' p lbda kx c v). apply SB; auto.
    intros Q. injection Q as ->. congruence. }
  assert (EpsV : forall x ox, nth_error h x = Some ox -> okind ox = KEps -> x <> s ->
             value h' x lbda = value h x lbda).
  { intros x ox Hx Kx Nx. assert (Hx' : nth_error h' x = Some ox) by (apply SB; auto; congruence).
    destruct ox as [kx c v|kx px|sx]; simpl in Kx; try discriminate.
    - rewrite (value_leaf h x lbda kx c v Hx). now apply (value_leaf h' x lbda kx c v).
    - subst kx. rewrite (value_sum h x lbda _ _ I Hx), (value_sum h' x lbda _ _ I' Hx').
      f_equal. apply map_ext_in. intros p P. pose proof (I _ _ Hx) as G. simpl in G.
      rewrite Forall_forall in G. eapply LeafV; eauto. }
  assert (IdxV : forall x sx, nth_error h x = Some (AsIdx sx) -> x <> s -> sx <> s ->
             value h' x lbda = value h x lbda).
  { intros x sx Hx Nx Nsx. assert (Hx' : nth_error h' x = Some (AsIdx sx)) by (apply SB; auto; congruence).
    rewrite (value_asidx h x lbda sx I Hx), (value_asidx h' x lbda sx I' Hx').
    destruct (I _ _ Hx) as (o2 & A & B). now rewrite (EpsV sx o2 A B Nsx). }
  destruct o as [kr c v|kr pr|sr].
  - rewrite (value_leaf h r lbda kr c v Hr). now apply (value_leaf h' r lbda kr c v).
  - rewrite (value_sum h r lbda _ _ I Hr), (value_sum h' r lbda _ _ I' Hr').
    f_equal. apply map_ext_in. intros p P. pose proof (I _ _ Hr) as G. simpl in G.
    rewrite Forall_forall in G. destruct (G p P) as (x & A & B & D).
    destruct x as [kx c v|kx px|sx]; simpl in B; try discriminate.
    + rewrite (value_leaf h p lbda kx c v A). apply (value_leaf h' p lbda kx c v). apply SB; auto.
      intros Q. injection Q as ->. congruence.
    + eapply IdxV; eauto; intros ->; [congruence|]. apply N. right. right. eauto 6.
  - eapply IdxV; eauto. intros ->. apply N. right. now left.
Qed.

Lemma value_app h e r lbda : inv h -> inv (h ++ e) -> r < length h ->
  value (h ++ e) r lbda = value h r lbda.
Proof.
  intros I I' L. unfold value.
  assert (Q : forall n x, x < length h -> eval n (h ++ e) x lbda = eval n h x lbda).
  { induction n as [|n IH]; intros x Hx; auto. simpl. rewrite nth_error_app1 by auto.
    destruct (nth_error h x) as [[k c v|k ps|s]|] eqn:E; auto.
    - f_equal. apply map_ext_in. intros p P. apply IH. apply I in E. simpl in E.
      rewrite Forall_forall in E. destruct (E p P) as (o & A & _). eapply nth_lt; eauto.
    - rewrite IH; auto. apply I in E. destruct E as (o & A & _). eapply nth_lt; eauto. }
  now apply Q.
Qed.

(** Parts of a sum of kind k do not look at a sum of kind k. *)
Lemma part_blind h k ps s p : inv h -> nth_error h s = Some (Sum k ps) -> good_part h k p ->
  ~ looks_at h p s.
Proof.
  intros I Hs (o & A & B & D) [->|[E|(k' & ps' & q & E & _)]].
  - rewrite Hs in A. injection A as <-. discriminate.
  - rewrite E in A. injection A as <-. simpl in D. subst k.
    destruct (I _ _ E) as (x & X1 & X2). rewrite Hs in X1. injection X1 as <-. discriminate.
  - rewrite E in A. injection A as <-. discriminate.
Qed.

(** ** Operands *)
Definition oval (h : heap) (o : operand) (lbda : R) : option C :=
  match o with ONum x => Some (RtoC x) | ORef r => value h r lbda | OOther => None end.

Definition in_heap (h : heap) (o : operand) : Prop :=
  match o with ORef r => r < length h | _ => True end.

(** What an addition may do to the heap. *)
Definition mutated (h : heap) (l r : operand) (x : nat) : Prop :=
  (l = ORef x \/ r = ORef x) /\ exists k ps, nth_error h x = Some (Sum k ps).

(** ** sum_add *)
Lemma sum_add_err h s o h' e : sum_add h s o = (h', Err e) -> h' = h /\ e = TypeError.
Proof.
  unfold sum_add. destruct (nth_error h s) as [[k c v|k ps|x]|]; try (intros E; injection E as <- <-; auto; fail).
  destruct o as [x|r|]; try (intros E; inversion E; auto; fail).
  destruct (nth_error h r) as [o|]; [|intros E; inversion E; auto].
  destruct kind_eqb; [destruct o|]; intros E; inversion E; auto.
Qed.

Record sum_added (h : heap) (s : nat) (k : kind) (ps : list nat) (h' : heap) (o : operand) : Prop := {
  sa_inv : inv h';
  sa_len : length h <= length h';
  sa_same : same_but (Some s) h h';
  sa_ext : extends h h';
  sa_sum : exists ps', nth_error h' s = Some (Sum k ps') /\
     forall lbda, osum (map (fun p => value h' p lbda) ps') =
        oplus (osum (map (fun p => value h p lbda) ps)) (oval h o lbda)
}.

Lemma good_const h k x : good_obj h (const_leaf k x).
Proof. simpl. discriminate. Qed.

Lemma sum_add_ok h s k ps o h' a : inv h -> nth_error h s = Some (Sum k ps) ->
  sum_add h s o = (h', Ok a) -> a = ORef s /\ sum_added h s k ps h' o.
Proof.
  intros I Hs. unfold sum_add. rewrite Hs.
  assert (Ls : s < length h) by (eapply nth_lt; eauto).
  destruct o as [x|r|]; [| |intros E; discriminate].
  - intros E. injection E as <- <-. split; [reflexivity|].
    set (h1 := h ++ [const_leaf k x]).
    assert (I1 : inv h1) by (apply inv_app; auto; apply good_const).
    assert (Hs1 : nth_error h1 s = Some (Sum k ps)) by now apply app_old.
    assert (G : Forall (good_part h1 k) (ps ++ [length h])).
    { apply Forall_app. split.
      - pose proof (I1 _ _ Hs1) as G. exact G.
      - constructor; [|constructor]. exists (const_leaf k x). split; [apply app_new|auto]. }
    set (h2 := update h1 s (Sum k (ps ++ [length h]))).
    assert (I2 : inv h2) by (eapply inv_update; eauto).
    assert (Ln : nth_error h2 (length h) = Some (const_leaf k x)).
    { unfold h2. rewrite update_other by lia. apply app_new. }
    constructor; auto.
    + unfold h2. rewrite update_length. unfold h1. rewrite app_length. lia.
    + eapply same_but_trans; [apply same_but_weak, same_but_app|apply same_but_update].
    + eapply extends_trans; [apply extends_app|eapply extends_update; eauto].
    + exists (ps ++ [length h]). split; [apply update_same; unfold h1; rewrite app_length; lia|].
      intros lbda. rewrite map_app, osum_app. f_equal.
      * f_equal. apply map_ext_in. intros p P.
        pose proof (I _ _ Hs) as G'. simpl in G'. rewrite Forall_forall in G'.
        destruct (G' p P) as (op & A & B & D).
        rewrite <- (value_app h [const_leaf k x] p lbda I I1) by (eapply nth_lt; eauto).
        eapply value_frame with (s := s); eauto.
        -- apply same_but_update.
        -- apply app_old. exact A.
        -- eapply part_blind; eauto. exists op. split; [now apply app_old|auto].
      * simpl. rewrite osum_one. rewrite (value_leaf _ _ _ _ _ _ Ln). reflexivity.
  - destruct (nth_error h r) as [o|] eqn:Hr; [|intros E; discriminate].
    destruct (kind_eqb (okind o) k) eqn:K; [|intros E; discriminate].
    apply kind_eqb_eq in K.
    assert (Gps : Forall (good_part h k) ps) by (exact (I _ _ Hs)).
    assert (Main : forall ps2 : list nat, Forall (good_part h k) ps2 ->
       (forall lbda, osum (map (fun p => value h p lbda) ps2) = value h r lbda) ->
       sum_added h s k ps (update h s (Sum k (ps ++ ps2))) (ORef r)).
    { intros ps2 G2 V2.
      assert (G : Forall (good_part h k) (ps ++ ps2)) by (apply Forall_app; auto).
      set (h2 := update h s (Sum k (ps ++ ps2))).
      assert (I2 : inv h2) by (eapply inv_update; eauto).
      assert (Fr : forall p lbda, good_part h k p -> value h2 p lbda = value h p lbda).
      { intros p lbda P. pose proof P as (op & A & B & D).
        eapply value_frame with (s := s); eauto; [apply same_but_update|].
        eapply part_blind; eauto. }
      constructor; auto.
      - unfold h2. rewrite update_length. lia.
      - apply same_but_update.
      - eapply extends_update; eauto.
      - exists (ps ++ ps2). split; [now apply update_same|]. intros lbda.
        rewrite map_app, osum_app. simpl. rewrite <- V2. rewrite Forall_forall in Gps, G2.
        f_equal; f_equal; apply map_ext_in; intros p P; apply Fr; auto. }
    destruct o as [k2 c v|k2 ps2|sr]; intros E; injection E as <- <-; (split; [reflexivity|]).
    + apply Main.
      * constructor; [|constructor]. exists (Leaf k2 c v). auto.
      * intros. simpl. apply osum_one.
    + simpl in K. subst k2. apply Main.
      * exact (I _ _ Hr).
      * intros. symmetry. now apply value_sum with (k := k).
    + apply Main.
      * constructor; [|constructor]. exists (AsIdx sr). auto.
      * intros. simpl. apply osum_one.
Qed.

(** ** new_sum *)
(** Results of adding two dispersions or a number into a new sum. *)
Record added (h : heap) (l r : operand) (h' : heap) (a : operand) : Prop := {
  ad_inv : inv h';
  ad_len : length h <= length h';
  ad_ext : extends h h';
  ad_same : forall x o, nth_error h x = Some o -> ~ mutated h l r x -> nth_error h' x = Some o;
  ad_res : exists s k ps, a = ORef s /\ nth_error h' s = Some (Sum k ps) /\
     (length h <= s \/ mutated h l r s);
  ad_val : forall lbda, oval h' a lbda = oplus (oval h l lbda) (oval h r lbda)
}.

Lemma looks_at_step h h1 s x ox k ps : inv h -> nth_error h s = Some (Sum k ps) ->
  same_but (Some s) h h1 -> nth_error h x = Some ox -> ~ looks_at h x s -> ~ looks_at h1 x s.
Proof.
  intros I Hs SB Hx N L.
  assert (Nx : x <> s) by (intros E; apply N; now left).
  assert (Hx1 : nth_error h1 x = Some ox) by (apply SB; auto; congruence).
  apply N. destruct L as [->|[E|(k' & ps' & p & E & P & A)]]; [congruence| |].
  - right. left. congruence.
  - right. right. exists k', ps', p. rewrite E in Hx1. injection Hx1 as <-.
    split; [auto|]. split; [auto|].
    pose proof (I _ _ Hx) as G. simpl in G. rewrite Forall_forall in G.
    destruct (G p P) as (o & B & D & F).
    assert (p <> s) by (intros ->; rewrite Hs in B; injection B as <-; discriminate).
    rewrite (SB p o B) in A by congruence. congruence.
Qed.

Lemma sum_loop_ok : forall ops h s k ps h' a, inv h -> nth_error h s = Some (Sum k ps) ->
  sum_loop h s ops = (h', Ok a) ->
  (forall x, In (ORef x) ops -> (exists o, nth_error h x = Some o) /\ ~ looks_at h x s) ->
  a = ORef s /\ inv h' /\ length h <= length h' /\ extends h h' /\ same_but (Some s) h h' /\
  exists ps', nth_error h' s = Some (Sum k ps') /\
  forall lbda, value h' s lbda =
     oplus (value h s lbda) (osum (map (fun o => oval h o lbda) ops)).
Proof.
  induction ops as [|o ops IH]; intros h s k ps h' a I Hs E Hx.
  - injection E as <- <-. split; [auto|]. split; [auto|]. split; [auto|].
    split; [apply extends_refl|]. split; [intros r x H _; exact H|].
    exists ps. split; auto. intros. change (osum _) with (Some (RtoC 0)). now rewrite oplus_0_r.
  - simpl in E. destruct (sum_add h s o) as [h1 [a1|e]] eqn:E1; [|discriminate].
    destruct (sum_add_ok h s k ps o h1 a1 I Hs E1) as [-> S].
    destruct S as [I1 L1 S1 X1 (ps1 & Hs1 & V1)].
    destruct (IH h1 s k ps1 h' a I1 Hs1 E) as (A & I' & L' & X' & S' & ps' & Hs' & V').
    { intros x Ix. destruct (Hx x) as ((ox & Hox) & Nx); [now right|]. split.
      - exists ox. apply S1; auto. intros Q. injection Q as ->. apply Nx. now left.
      - apply (looks_at_step h h1 s x ox k ps); auto. }
    split; [auto|]. split; [auto|]. split; [lia|]. split; [eapply extends_trans; eauto|].
    split; [eapply same_but_trans; eauto|]. exists ps'. split; [auto|]. intros lbda. rewrite V'.
    rewrite (value_sum h1 s lbda k ps1 I1 Hs1), V1, <- (value_sum h s lbda k ps I Hs).
    rewrite <- oplus_assoc. f_equal. simpl. change (oval h o lbda :: map (fun o0 => oval h o0 lbda) ops)
      with ([oval h o lbda] ++ map (fun o0 => oval h o0 lbda) ops).
    rewrite osum_app, osum_one. f_equal. f_equal. apply map_ext_in. intros [x|x|] Ix; simpl; auto.
    destruct (Hx x) as ((ox & Hox) & Nx); [now right|]. eapply value_frame; eauto.
Qed.

Lemma sum_loop_err : forall ops h s k ps h' e, inv h -> nth_error h s = Some (Sum k ps) ->
  sum_loop h s ops = (h', Err e) ->
  e = TypeError /\ inv h' /\ length h <= length h' /\ extends h h' /\ same_but (Some s) h h'.
Proof.
  induction ops as [|o ops IH]; intros h s k ps h' e I Hs E; [discriminate|].
  simpl in E. destruct (sum_add h s o) as [h1 [a1|e1]] eqn:E1.
  - destruct (sum_add_ok h s k ps o h1 a1 I Hs E1) as [-> S].
    destruct S as [I1 L1 S1 X1 (ps1 & Hs1 & V1)].
    destruct (IH h1 s k ps1 h' e I1 Hs1 E) as (A & B & D & F & G).
    split; [auto|]. split; [auto|]. split; [lia|]. split; [eapply extends_trans; eauto|].
    eapply same_but_trans; eauto.
  - apply sum_add_err in E1 as [-> ->]. injection E as <- <-.
    split; [auto|]. split; [auto|]. split; [auto|]. split; [apply extends_refl|].
    intros r x H _. exact H.
Qed.

(** ** new_sum *)
Lemma fresh_blind h o x ox : inv h -> nth_error h x = Some ox -> ~ looks_at (h ++ [o]) x (length h).
Proof.
  intros I Hx L. pose proof (nth_lt _ _ _ Hx) as Lx. pose proof (app_old h [o] x ox Hx) as Hx1.
  destruct L as [E|[E|(k & ps & p & E & P & A)]].
  - lia.
  - rewrite Hx1 in E. injection E as ->. destruct (I _ _ Hx) as (y & Y & _). apply nth_lt in Y. lia.
  - rewrite Hx1 in E. injection E as ->. pose proof (I _ _ Hx) as G. simpl in G.
    rewrite Forall_forall in G. destruct (G p P) as (y & Y & _).
    rewrite (app_old h [o] p y Y) in A. injection A as ->.
    destruct (I _ _ Y) as (z & Z & _). apply nth_lt in Z. lia.
Qed.

Record made (h : heap) (h' : heap) : Prop := {
  md_inv : inv h';
  md_len : length h <= length h';
  md_ext : extends h h';
  md_same : same_but None h h'
}.

Lemma new_sum_made h k ops : inv h -> made h (fst (new_sum h k ops)) /\
  (forall e, snd (new_sum h k ops) = Err e -> e = TypeError) /\
  (forall a, snd (new_sum h k ops) = Ok a ->
     (forall x, In (ORef x) ops -> x < length h) ->
     exists ps, a = ORef (length h) /\
     nth_error (fst (new_sum h k ops)) (length h) = Some (Sum k ps) /\
     forall lbda, value (fst (new_sum h k ops)) (length h) lbda =
        osum (map (fun o => oval h o lbda) ops)).
Proof.
  intros I. unfold new_sum. set (h0 := h ++ [Sum k []]).
  assert (I0 : inv h0) by (apply inv_app; auto; simpl; constructor).
  assert (Hs : nth_error h0 (length h) = Some (Sum k [])) by apply app_new.
  assert (SN : forall h', same_but (Some (length h)) h0 h' -> same_but None h h').
  { intros h' S r o H _. apply S; [now apply app_old|]. intros Q. injection Q as Q.
    apply nth_lt in H. lia. }
  destruct (sum_loop h0 (length h) ops) as [h' [a|e]] eqn:E; simpl.
  2: { destruct (sum_loop_err _ _ _ _ _ _ _ I0 Hs E) as (A & B & D & F & G).
       split; [constructor; auto|].
       - unfold h0 in D. rewrite app_length in D. simpl in D. lia.
       - eapply extends_trans; [apply extends_app|exact F].
       - split; [congruence|discriminate]. }
  split.
  { (* the frame does not need the side condition *)
    clear SN. assert (W : forall ops h1 ps, inv h1 -> nth_error h1 (length h) = Some (Sum k ps) ->
      sum_loop h1 (length h) ops = (h', Ok a) ->
      inv h' /\ length h1 <= length h' /\ extends h1 h' /\ same_but (Some (length h)) h1 h').
    { clear E. intros ops0. induction ops0 as [|o ops' IH]; intros h1 ps I1 H1 E1.
      - injection E1 as <- <-. repeat split; auto using extends_refl. intros r x H _. exact H.
      - simpl in E1. destruct (sum_add h1 (length h) o) as [h2 [a2|e2]] eqn:E2; [|discriminate].
        destruct (sum_add_ok _ _ _ _ _ _ _ I1 H1 E2) as [-> S].
        destruct S as [I2 L2 S2 X2 (ps2 & Hs2 & V2)].
        destruct (IH h2 ps2 I2 Hs2 E1) as (A & B & D & F).
        split; [auto|]. split; [lia|]. split; [eapply extends_trans; eauto|].
        eapply same_but_trans; eauto. }
    destruct (W ops h0 [] I0 Hs E) as (A & B & D & F). constructor; auto.
    - unfold h0 in B. rewrite app_length in B. simpl in B. lia.
    - eapply extends_trans; [apply extends_app|exact D].
    - intros r o H _. apply F; [now apply app_old|]. intros Q. injection Q as Q.
      apply nth_lt in H. lia. }
  split; [discriminate|]. intros a' Ea Hx. injection Ea as ->.
  destruct (sum_loop_ok ops h0 (length h) k [] h' a' I0 Hs E) as (A & _ & _ & _ & _ & ps & P & V).
  { intros x Ix. specialize (Hx x Ix).
    destruct (nth_error h x) as [ox|] eqn:Ox; [|apply nth_error_None in Ox; lia].
    split; [exists ox; now apply app_old|]. eapply fresh_blind; eauto. }
  exists ps. split; [auto|]. split; [auto|]. intros lbda. rewrite V.
  rewrite (value_sum h0 (length h) lbda k [] I0 Hs). cbn [map].
  change (osum []) with (Some (RtoC 0)). rewrite oplus_0_l. f_equal. apply map_ext_in. intros [x|x|] Ix; simpl; auto.
  apply value_app; auto.
Qed.

(** ** py_add *)
Lemma made_refl h : inv h -> made h h.
Proof. intros I. constructor; auto using extends_refl. intros r x H _. exact H. Qed.

Lemma made_app h o : inv h -> good_obj (h ++ [o]) o -> made h (h ++ [o]).
Proof.
  intros I G. constructor.
  - now apply inv_app.
  - rewrite app_length. lia.
  - apply extends_app.
  - apply same_but_app.
Qed.
Lemma made_trans a b c : made a b -> made b c -> made a c.
Proof.
  intros [] []. constructor; auto; [lia|eapply extends_trans; eauto|eapply same_but_trans; eauto].
Qed.

Lemma made_added h l r h' a : made h h' ->
  (exists s k ps, a = ORef s /\ nth_error h' s = Some (Sum k ps) /\ length h <= s) ->
  (forall lbda, oval h' a lbda = oplus (oval h l lbda) (oval h r lbda)) ->
  added h l r h' a.
Proof.
  intros [] (s & k & ps & A & B & D) V. constructor; auto.
  - intros x o H _. apply md_same0; auto. discriminate.
  - exists s, k, ps. auto.
Qed.

Lemma osum_two a b : osum [a; b] = oplus a b.
Proof. unfold osum. cbn [fold_left]. now rewrite oplus_0_l. Qed.

Lemma new_sum_two h k x y h' a : inv h -> x < length h -> y < length h ->
  new_sum h k [ORef x; ORef y] = (h', Ok a) -> added h (ORef x) (ORef y) h' a.
Proof.
  intros I Hx Hy E. destruct (new_sum_made h k [ORef x; ORef y] I) as (M & _ & V).
  rewrite E in *. simpl in *. destruct (V a eq_refl) as (ps & A & B & W).
  { intros z [Z|[Z|[]]]; injection Z as <-; auto. }
  apply made_added; auto.
  - exists (length h), k, ps. auto.
  - intros lbda. subst a. simpl. rewrite W. apply osum_two.
Qed.

Lemma new_sum_num h k x n h' a : inv h -> x < length h ->
  new_sum (h ++ [const_leaf k n]) k [ORef x; ORef (length h)] = (h', Ok a) ->
  added h (ORef x) (ONum n) h' a.
Proof.
  intros I Hx E. set (h1 := h ++ [const_leaf k n]) in *.
  assert (I1 : inv h1) by (apply inv_app; auto; apply good_const).
  assert (L1 : length h1 = S (length h)) by (unfold h1; rewrite app_length; simpl; lia).
  destruct (new_sum_made h1 k [ORef x; ORef (length h)] I1) as (M & _ & V).
  rewrite E in *. simpl in *. destruct (V a eq_refl) as (ps2 & B1 & B2 & W).
  { intros z [Z|[Z|[]]]; injection Z as <-; lia. }
  apply made_added.
  - eapply made_trans; [|exact M]. apply made_app; auto. apply good_const.
  - exists (length h1), k, ps2. split; [auto|]. split; [auto|lia].
  - intros lbda. subst a. simpl. rewrite W, osum_two. simpl. f_equal.
    + now apply value_app.
    + rewrite (value_leaf h1 (length h) lbda k LPlain (fun _ => Some (RtoC n))); auto. apply app_new.
Qed.

Lemma added_swap h l r h' a : added h l r h' a -> added h r l h' a.
Proof.
  intros [A B D E (s & k & ps & R1 & R2 & R3) F]. constructor; auto.
  - intros x o H N. apply E; auto. intros [Q W]. apply N. split; [tauto|auto].
  - exists s, k, ps. split; [auto|]. split; [auto|]. destruct R3 as [R3|[Q W]]; [now left|right].
    split; [tauto|auto].
  - intros. rewrite oplus_comm. apply F.
Qed.

Lemma sum_added_added h s k ps h' o : inv h -> nth_error h s = Some (Sum k ps) ->
  sum_added h s k ps h' o -> added h (ORef s) o h' (ORef s).
Proof.
  intros I Hs [A B D E (ps' & F & V)]. constructor; auto.
  - intros x ox H N. apply D; auto. intros Q. injection Q as ->. apply N. split; eauto.
  - exists s, k, ps'. split; [auto|]. split; [auto|]. right. split; eauto.
  - intros. simpl. rewrite (value_sum h' s lbda k ps' A F), V. now rewrite (value_sum h s lbda k ps I Hs).
Qed.

Lemma plain_add_ok h x k ox o h' a : inv h -> nth_error h x = Some ox -> is_sum ox = false -> okind ox = k ->
  plain_add h x k o = (h', Ok a) -> added h (ORef x) o h' a.
Proof.
  intros I Hx Ns Kx. pose proof (nth_lt _ _ _ Hx) as Lx. unfold plain_add.
  destruct o as [n|r|]; [now apply new_sum_num| |discriminate].
  destruct (nth_error h r) as [o|] eqn:Hr; [|discriminate]. pose proof (nth_lt _ _ _ Hr) as Lr.
  destruct (kind_eqb (okind o) k) eqn:K; [|discriminate]. apply kind_eqb_eq in K.
  destruct o as [k2 c v|k2 ps|sr].
  - destruct c; try (now apply new_sum_two).
    unfold table_add. rewrite Hx. replace (kind_eqb (okind ox) k) with true
      by (symmetry; now apply kind_eqb_eq).
    destruct ox as [k3 c3 v3|k3 p3|s3]; try discriminate.
    + destruct c3; try discriminate; intros E; apply added_swap; eapply new_sum_two; eauto.
    + intros E; apply added_swap; eapply new_sum_two; eauto.
  - simpl in K. subst k2. intros E.
    assert (S : sum_add h r (ORef x) = (h', Ok a)).
    { unfold sum_add. rewrite Hr, Hx, Kx, kind_eqb_refl. destruct ox; try discriminate; exact E. }
    apply (sum_add_ok h r k ps (ORef x) h' a I Hr) in S as [-> S]. apply added_swap.
    eapply sum_added_added; eauto.
  - now apply new_sum_two.
Qed.

Lemma table_add_ok h x k v o h' a : inv h -> nth_error h x = Some (Leaf k LTable v) ->
  table_add h x k o = (h', Ok a) -> added h (ORef x) o h' a.
Proof.
  intros I Hx. pose proof (nth_lt _ _ _ Hx) as Lx. unfold table_add.
  destruct o as [n|r|]; [destruct k; [now apply new_sum_num|discriminate]| |discriminate].
  destruct (nth_error h r) as [o|] eqn:Hr; [|discriminate]. pose proof (nth_lt _ _ _ Hr) as Lr.
  destruct (kind_eqb (okind o) k); [|discriminate].
  destruct o as [k2 c2 v2|k2 ps|sr]; try (now apply new_sum_two).
  destruct c2; try discriminate; now apply new_sum_two.
Qed.

Lemma disp_add_ok h x o h' a : inv h -> disp_add h x o = (h', Ok a) -> added h (ORef x) o h' a.
Proof.
  intros I. unfold disp_add. destruct (nth_error h x) as [ox|] eqn:Hx; [|discriminate].
  destruct ox as [k c v|k ps|s].
  - destruct c; [|now apply table_add_ok with (v := v)|discriminate].
    eapply plain_add_ok; eauto.
  - intros E. apply (sum_add_ok h x k ps o h' a I Hx) in E as [-> S]. eapply sum_added_added; eauto.
  - eapply plain_add_ok; eauto.
Qed.

Lemma py_add_ok h l r h' a : inv h -> py_add h l r = (h', Ok a) ->
  (exists x y, l = ONum x /\ r = ONum y /\ a = ONum (x + y)%R /\ h' = h) \/ added h l r h' a.
Proof.
  intros I. unfold py_add. destruct l as [x|x|], r as [y|y|]; try discriminate;
    try (intros E; right; now apply disp_add_ok).
  - intros E. injection E as <- <-. left. eauto 8.
  - intros E. right. apply added_swap. now apply disp_add_ok.
  - intros E. right. apply added_swap. now apply disp_add_ok.
Qed.

(** ** Errors *)
Lemma new_sum_ok2 h k x y : inv h -> good_part h k x -> (exists o, nth_error h y = Some o /\ okind o = k) ->
  exists h' a, new_sum h k [ORef x; ORef y] = (h', Ok a).
Proof.
  intros I (ox & A & B & D) (oy & Ay & Dy).
  unfold new_sum. simpl. unfold sum_add at 1. rewrite app_new.
  rewrite (app_old h _ x ox A), D, kind_eqb_refl.
  assert (Q : forall ps, exists h' a, sum_loop (update (h ++ [Sum k []]) (length h) (Sum k ps)) (length h) [ORef y] = (h', Ok a)).
  { intros ps. simpl. unfold sum_add. rewrite update_same by (rewrite app_length; simpl; lia).
    rewrite update_other by (apply nth_lt in Ay; lia). rewrite (app_old h _ y oy Ay), Dy, kind_eqb_refl.
    destruct oy; eauto. }
  destruct ox; try discriminate; apply Q.
Qed.

Lemma disp_add_err h x o h' e : inv h -> disp_add h x o = (h', Err e) -> h' = h.
Proof.
  intros I. unfold disp_add. destruct (nth_error h x) as [ox|] eqn:Hx; [|intros E; inversion E; auto].
  assert (NS : forall k y, okind ox = k -> is_sum ox = false -> (exists o, nth_error h y = Some o /\ okind o = k) ->
     new_sum h k [ORef x; ORef y] = (h', Err e) -> h' = h).
  { intros k y Kx Sx Hy E. destruct (new_sum_ok2 h k x y I) as (h2 & a & E2); [exists ox; auto|auto|].
    congruence. }
  assert (NN : forall k n, okind ox = k -> is_sum ox = false ->
     new_sum (h ++ [const_leaf k n]) k [ORef x; ORef (length h)] = (h', Err e) -> h' = h).
  { intros k n Kx Sx E. destruct (new_sum_ok2 (h ++ [const_leaf k n]) k x (length h)) as (h2 & a & E2).
    - apply inv_app; auto. apply good_const.
    - exists ox. split; [now apply app_old|auto].
    - exists (const_leaf k n). split; [apply app_new|auto].
    - congruence. }
  assert (TA : forall k v o, ox = Leaf k LTable v -> table_add h x k o = (h', Err e) -> h' = h).
  { intros k v o0 -> E. unfold table_add in E. destruct o0 as [n|r|]; [|  |inversion E; auto].
    - destruct k; [|inversion E; auto]. eapply NN; eauto.
    - destruct (nth_error h r) as [or|] eqn:Hr; [|inversion E; auto].
      destruct (kind_eqb (okind or) k) eqn:K; [|inversion E; auto]. apply kind_eqb_eq in K.
      destruct or as [k2 [] v2|k2 ps|sr]; try (inversion E; auto; fail); eapply NS; eauto. }
  assert (PA : forall k, okind ox = k -> is_sum ox = false -> plain_add h x k o = (h', Err e) -> h' = h).
  { intros k Kx Sx E. unfold plain_add in E. destruct o as [n|r|]; [eapply NN; eauto| |inversion E; auto].
    destruct (nth_error h r) as [or|] eqn:Hr; [|inversion E; auto].
    destruct (kind_eqb (okind or) k) eqn:K; [|inversion E; auto]. apply kind_eqb_eq in K.
    destruct or as [k2 [] v2|k2 ps|sr]; try (eapply NS; eauto; fail); [|inversion E].
    unfold table_add in E. rewrite Hx, Kx, kind_eqb_refl in E.
    destruct (new_sum_ok2 h k r x I) as (h2 & a & E2); [eexists; split; [exact Hr|auto]|eauto|].
    destruct ox as [k3 [] v3|k3 ps|s3]; try discriminate; try congruence. }
  destruct ox as [k c v|k ps|s].
  - destruct c; intros E; [eapply PA; eauto|eapply TA; eauto|inversion E; auto].
  - intros E. apply sum_add_err in E. tauto.
  - intros E. eapply PA; eauto.
Qed.

Lemma py_add_err h l r h' e : inv h -> py_add h l r = (h', Err e) -> h' = h.
Proof.
  intros I. unfold py_add. destruct l, r; try (now apply disp_add_err); try (intros E; inversion E; auto; fail).
Qed.

(** ** Histories *)
Lemma inv_nil : inv [].
Proof. intros r o H. destruct r; discriminate. Qed.

Lemma exec_inv h c : inv h -> inv (exec h c).
Proof.
  intros I. destruct c as [k c v|k ops|r|l r]; simpl.
  - assert (G : (c = LPseudo -> k = KEps) -> inv (h ++ [Leaf k c v])).
    { intros G. apply inv_app; auto. }
    destruct k, c; auto; apply G; congruence.
  - destruct (new_sum_made h k ops I) as [[] _]. auto.
  - unfold as_index. destruct (nth_error h r) as [[[] [] v|[] ps|s]|] eqn:E; simpl; auto;
      (apply inv_app; auto; eexists; split; [apply app_old; exact E|auto]).
  - destruct (py_add h l r) as [h' [a|e]] eqn:E; simpl.
    + destruct (py_add_ok h l r h' a I E) as [(x & y & _ & _ & _ & ->)|[]]; auto.
    + now rewrite (py_add_err h l r h' e I E).
Qed.

Lemma run_inv cs : forall h, inv h -> inv (fold_left exec cs h).
Proof. induction cs; simpl; auto using exec_inv. Qed.
