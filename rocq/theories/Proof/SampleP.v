From Coq Require Import Reals Lra Lia List ZArith Bool.
From Verif.Base Require Import Py.
From Verif.Model Require Import Structure Sample.
From Verif.Spec Require Import Objects.
From Verif.Proof Require Import StructureP.
Import ListNotations.
Open Scope R_scope.

(** ** Reading the heap *)
Lemma is_material_spec h a : is_material h a = true <-> material h a.
Proof.
  unfold is_material, material. destruct (nth_error h a) as [[]|]; split; intros H; try discriminate; try (destruct H; discriminate); eauto.
Qed.
Lemma is_mixture_spec h a : is_mixture h a = true <-> mixture h a.
Proof.
  unfold is_mixture, mixture. destruct (nth_error h a) as [[]|]; split; intros H; try discriminate; try congruence.
Qed.
Lemma is_layer_spec h a : is_layer h a = true <-> layer_at h a.
Proof.
  unfold is_layer, layer_at. destruct (nth_error h a) as [[]|]; split; intros H; try discriminate; try reflexivity;
    try (destruct H as [(?&?&H)|[(?&?&?&?&H)|[(?&?&?&?&H)|(?&?&?&?&H)]]]; discriminate); eauto 12.
Qed.
Lemma mixture_material h a : mixture h a -> material h a.
Proof. intros H. exists true. exact H. Qed.

Lemma check_material_ok h m m' : check_material h m = Ok m' <-> m' = m /\ material h m.
Proof.
  unfold check_material. rewrite <- is_material_spec. destruct (is_material h m); split; intros H.
  - injection H as <-. auto.
  - destruct H as [-> _]. reflexivity.
  - discriminate.
  - destruct H. discriminate.
Qed.
Lemma check_mixture_ok h m m' : check_mixture h m = Ok m' <-> m' = m /\ mixture h m.
Proof.
  unfold check_mixture. rewrite <- is_mixture_spec. destruct (is_mixture h m); split; intros H.
  - injection H as <-. auto.
  - destruct H as [-> _]. reflexivity.
  - discriminate.
  - destruct H. discriminate.
Qed.
Lemma check_thickness_ok t t' : check_thickness t = Ok t' <-> t = Num t' /\ good_thickness t.
Proof.
  destruct t as [[x|]|]; cbn; [destruct (Rlt_dec x 0)| |]; (split; [intros Q | intros [Q Q']]); try discriminate Q; try contradiction.
  - lra.
  - injection Q as <-. split; [reflexivity|lra].
  - injection Q as <-. reflexivity.
  - injection Q as <-. auto.
  - injection Q as <-. reflexivity.
Qed.
Lemma check_divisions_ok d z : check_divisions d = Ok z <-> d = Int z /\ good_integer 1 d.
Proof.
  destruct d as [x|]; cbn; [destruct (Z.ltb_spec x 1)|]; (split; [intros Q | intros [Q Q']]); try discriminate Q; try contradiction.
  - lia.
  - injection Q as <-. split; [reflexivity|lia].
  - injection Q as <-. reflexivity.
Qed.
Lemma check_int_ok low d z : check_int low d = Ok z <-> d = Int z /\ good_integer low d.
Proof.
  destruct d as [x|]; cbn; [destruct (Z.ltb_spec x low)|]; (split; [intros Q | intros [Q Q']]); try discriminate Q; try contradiction.
  - lia.
  - injection Q as <-. split; [reflexivity|lia].
  - injection Q as <-. reflexivity.
Qed.
Lemma check_layers_ok h l l' : check_layers h l = Ok l' <-> l' = l /\ layer_list h l.
Proof.
  unfold check_layers, layer_list. destruct (nth_error h l) as [o|] eqn:E; [destruct o|];
    try (split; intros H; [discriminate|destruct H as (_&?&H&_); discriminate]).
  destruct (forallb (is_layer h) items) eqn:F.
  - rewrite forallb_forall in F. split; intros H.
    + injection H as <-. split; [reflexivity|]. exists items. split; [reflexivity|]. intros i Hi. apply is_layer_spec. auto.
    + destruct H as (->&_). reflexivity.
  - split; intros H; [discriminate|]. destruct H as (_&it&H1&H2). injection H1 as <-.
    assert (forallb (is_layer h) items = true); [|congruence].
    apply forallb_forall. intros i Hi. apply is_layer_spec. auto.
Qed.
Lemma check_repetitions_ok r b a x : check_repetitions r b a = Ok x <->
  r = Int (fst (fst x)) /\ b = Int (snd (fst x)) /\ a = Int (snd x) /\ good_integer 1 r /\ good_integer 0 b /\ good_integer 0 a.
Proof.
  unfold check_repetitions. split.
  - intros H. destruct (check_int 1 r) as [r'|] eqn:Er; [|discriminate]. cbn [rbind] in H.
    destruct (check_int 0 b) as [b'|] eqn:Eb; [|discriminate]. cbn [rbind] in H.
    destruct (check_int 0 a) as [a'|] eqn:Ea; [|discriminate]. cbn [rbind] in H. injection H as <-.
    apply check_int_ok in Er, Eb, Ea. cbn [fst snd]. tauto.
  - intros (Hr&Hb&Ha&Gr&Gb&Ga). destruct x as [[r' b'] a']. cbn [fst snd] in *.
    rewrite (proj2 (check_int_ok 1 r r') (conj Hr Gr)), (proj2 (check_int_ok 0 b b') (conj Hb Gb)), (proj2 (check_int_ok 0 a a') (conj Ha Ga)).
    reflexivity.
Qed.

(** ** Writing *)
Lemma put_length h a x : length (put h a x) = length h.
Proof. revert a. induction h as [|y h IH]; intros [|a]; cbn; congruence. Qed.
Lemma put_same h a x y : nth_error h a = Some y -> nth_error (put h a x) a = Some x.
Proof. revert a. induction h as [|z h IH]; intros [|a] H; cbn in *; try discriminate; auto. Qed.
Lemma put_other h a b x : a <> b -> nth_error (put h a x) b = nth_error h b.
Proof.
  revert a b. induction h as [|z h IH]; intros [|a] [|b] H; cbn; try reflexivity; try (exfalso; congruence).
  apply IH. congruence.
Qed.

(** What stays when an object is changed *)
Definition same_kind (x y : obj) : Prop :=
  match x, y with
  | OMat b, OMat c => b = c
  | OList _, OList _ | OOther, OOther | OLayer _ _, OLayer _ _ | ORep _ _ _ _, ORep _ _ _ _
  | OTwist _ _ _ _, OTwist _ _ _ _ | OVary _ _ _ _, OVary _ _ _ _ | OStruct _ _ _, OStruct _ _ _ => True
  | _, _ => False
  end.
Lemma same_kind_refl x : same_kind x x.
Proof. destruct x; cbn; auto. Qed.
Definition grows (h h' : heap) := forall a x, nth_error h a = Some x -> exists y, nth_error h' a = Some y /\ same_kind x y.

Lemma grows_material h h' a : grows h h' -> material h a -> material h' a.
Proof. intros G (b&H). destruct (G _ _ H) as ([]&E&K); cbn in K; try contradiction. exists mixture. exact E. Qed.
Lemma grows_mixture h h' a : grows h h' -> mixture h a -> mixture h' a.
Proof. intros G H. destruct (G _ _ H) as ([]&E&K); cbn in K; try contradiction. subst. exact E. Qed.
Lemma grows_list h h' a : grows h h' -> a_list h a -> a_list h' a.
Proof. intros G (b&H). destruct (G _ _ H) as ([]&E&K); cbn in K; try contradiction. exists items. exact E. Qed.
Lemma grows_layer h h' a : grows h h' -> layer_at h a -> layer_at h' a.
Proof.
  intros G H. unfold layer_at in *. destruct H as [(?&?&H)|[(?&?&?&?&H)|[(?&?&?&?&H)|(?&?&?&?&H)]]];
    destruct (G _ _ H) as ([]&E&K); cbn in K; try contradiction; eauto 12.
Qed.

Ltac inv_checks := repeat match goal with
  | H : rbind ?r _ = Ok _ |- _ => let E := fresh "E" in destruct r eqn:E; cbn [rbind] in H; [|discriminate H]
  | H : (let (_, _) := ?p in _) = Ok _ |- _ => destruct p
  | H : (if ?b then _ else _) = Ok _ |- _ => let E := fresh "E" in destruct b eqn:E; [|discriminate H]
  | H : Ok _ = Ok _ |- _ => injection H as H; subst
  end.
Ltac use_checks := repeat match goal with
  | H : check_material _ _ = Ok _ |- _ => apply check_material_ok in H; destruct H as [-> H]
  | H : check_mixture _ _ = Ok _ |- _ => apply check_mixture_ok in H; destruct H as [-> H]
  | H : check_layers _ _ = Ok _ |- _ => apply check_layers_ok in H; destruct H as [-> H]
  | H : check_thickness _ = Ok _ |- _ => apply check_thickness_ok in H; destruct H as [-> H]; cbn [good_thickness] in H
  | H : check_divisions _ = Ok _ |- _ => apply check_divisions_ok in H; destruct H as [-> H]; cbn [good_integer] in H
  | H : check_repetitions _ _ _ = Ok _ |- _ => apply check_repetitions_ok in H; cbn [fst snd] in H; destruct H as (->&->&->&?&?&?); cbn [good_integer] in *
  end.

Lemma layer_list_list h l : layer_list h l -> a_list h l.
Proof. intros (i&H&_). exists i. exact H. Qed.

(** What the two kinds of statements give *)
Lemma construct_ok h o x : construct h o = Some (Ok x) -> valid_obj h x /\ tidy_obj h x.
Proof.
  intros H. destruct o; cbn [construct] in H; try discriminate H; injection H as H; try subst x; inv_checks; use_checks;
    cbn [valid_obj tidy_obj]; auto using layer_list_list.
    rewrite forallb_forall in E. split; [|exact I]. intros i Hi. apply Nat.ltb_lt. auto.
Qed.
Lemma change_ok h o a x : change h o = Some (a, Ok x) -> exists y, nth_error h a = Some y /\ same_kind y x /\
  (valid_obj h y -> valid_obj h x) /\ (tidy_obj h y -> tidy_obj h x) /\
  match o, y, x with
  | Append l i, OList p, OList q => q = p ++ [i]
  | Append _ _, _, _ => False
  | _, OList _, _ => False
  | SetLayers _ l, ORep _ r b n, ORep k r' b' n' => k = l /\ r' = r /\ b' = b /\ n' = n
  | SetLayers _ l, OStruct _ _ _, OStruct _ k _ => k = l
  | SetLayers _ _, _, _ => False
  | _, ORep l _ _ _, ORep k _ _ _ => k = l
  | _, OStruct _ l _, OStruct _ k _ => k = l
  | _, _, _ => True
  end.
Proof.
  intros H. destruct o; cbn [change] in H; try discriminate H; injection H as Ha H; subst;
    destruct (nth_error h a) as [[]|] eqn:Ea; try discriminate H; inv_checks; use_checks; eexists; (split; [reflexivity|]);
    cbn [valid_obj tidy_obj same_kind]; repeat split; try tauto; try (intros; intuition auto using layer_list_list; fail).
  intros V i [Hi|[<-|[]]]%in_app_or; [auto|]. apply Nat.ltb_lt. assumption.
Qed.

Lemma valid_grows h h' x : grows h h' -> (length h <= length h')%nat -> valid_obj h x -> valid_obj h' x.
Proof.
  intros G L. destruct x; cbn [valid_obj]; intuition eauto using grows_material, grows_mixture, grows_list.
  specialize (H i H0). lia.
Qed.

Lemma grows_app h x : grows h (h ++ [x]).
Proof.
  intros a y H. exists y. split; [|apply same_kind_refl]. rewrite nth_error_app1; [exact H|]. apply nth_error_Some. congruence.
Qed.
Lemma grows_put h a x y : nth_error h a = Some y -> same_kind y x -> grows h (put h a x).
Proof.
  intros H K b z Hz. destruct (Nat.eq_dec a b) as [<-|N].
  - exists x. split; [eapply put_same; eauto|]. congruence.
  - exists z. split; [rewrite put_other; auto|apply same_kind_refl].
Qed.

(** The three outcomes of a statement *)
Lemma step_cases h o : (exists e, step h o = (h, Some e)) \/
  (exists x, construct h o = Some (Ok x) /\ step h o = (h ++ [x], None)) \/
  (exists a x, construct h o = None /\ change h o = Some (a, Ok x) /\ step h o = (put h a x, None)).
Proof.
  unfold step. destruct (construct h o) as [[x|e]|] eqn:E; eauto.
  destruct (change h o) as [[a [x|e]]|] eqn:E'; eauto 8.
  destruct o; discriminate.
Qed.
Lemma step_grows h o : grows h (fst (step h o)) /\ (length h <= length (fst (step h o)))%nat.
Proof.
  destruct (step_cases h o) as [(e&->)|[(x&H&->)|(a&x&_&H&->)]]; cbn [fst].
  - split; [|lia]. intros a y H. exists y. split; [exact H|apply same_kind_refl].
  - split; [apply grows_app|]. rewrite app_length. lia.
  - apply change_ok in H. destruct H as (y&Hy&K&_). split; [eapply grows_put; eauto|]. rewrite put_length. lia.
Qed.

Definition all_objects (P : obj -> Prop) (h : heap) := forall a x, nth_error h a = Some x -> P x.
Lemma step_valid h o : all_objects (valid_obj h) h -> all_objects (valid_obj (fst (step h o))) (fst (step h o)).
Proof.
  intros V a y. destruct (step_grows h o) as [G L]. intros H.
  apply (valid_grows h); auto. destruct (step_cases h o) as [(e&E)|[(x&Hx&E)|(b&x&_&Hx&E)]]; rewrite E in H; cbn [fst] in H.
  - eapply V; eauto.
  - destruct (lt_dec a (length h)) as [A|A].
    + rewrite nth_error_app1 in H by exact A. eapply V; eauto.
    + rewrite nth_error_app2 in H by lia. destruct (a - length h)%nat as [|k]; cbn in H; [|destruct k; discriminate].
      injection H as <-. eapply construct_ok; eauto.
  - apply change_ok in Hx. destruct Hx as (z&Hz&K&Hv&_). destruct (Nat.eq_dec b a) as [<-|N].
    + rewrite (put_same _ _ _ _ Hz) in H. injection H as <-. apply Hv. eapply V; eauto.
    + rewrite put_other in H by exact N. eapply V; eauto.
Qed.

(** Induction over programs *)
Lemma always_run (P : heap -> op -> Prop) (I : heap -> Prop) :
  (forall h o, I h -> P h o -> I (fst (step h o))) ->
  forall ops h, I h -> always P h ops -> I (fold_left (fun h o => fst (step h o)) ops h).
Proof.
  intros S. induction ops as [|o ops IH]; intros h Ih A; cbn [fold_left]; [exact Ih|].
  destruct A as [A1 A2]. apply IH; auto.
Qed.
Lemma always_true ops h : always (fun _ _ => True) h ops.
Proof. revert h. induction ops; cbn; auto. Qed.
Lemma always_weaken (P Q : heap -> op -> Prop) : (forall h o, P h o -> Q h o) -> forall ops h, always P h ops -> always Q h ops.
Proof. intros W. induction ops; intros h; cbn; intuition. Qed.
Lemma run_valid ops : all_objects (valid_obj (run ops)) (run ops).
Proof.
  unfold run. apply (always_run (fun _ _ => True) (fun h => all_objects (valid_obj h) h)).
  - intros h o V _. apply step_valid. exact V.
  - intros a x H. destruct a; discriminate.
  - apply always_true.
Qed.

(** ** Lists in use *)
Lemma layer_list_step h o l : appends_layers h o -> layer_list h l -> layer_list (fst (step h o)) l.
Proof.
  intros A (items&Hl&Hi). destruct (step_grows h o) as [G _].
  destruct (step_cases h o) as [(e&E)|[(x&Hx&E)|(b&x&_&Hx&E)]]; rewrite E in *; cbn [fst] in *.
  - exists items. auto.
  - exists items. split; [|intros i Q; eapply grows_layer; eauto]. rewrite nth_error_app1; [exact Hl|]. apply nth_error_Some. congruence.
  - pose proof (change_ok _ _ _ _ Hx) as (z&Hz&K&_&_&C). destruct (Nat.eq_dec b l) as [->|N].
    + rewrite Hl in Hz. injection Hz as <-. destruct o; try (exfalso; destruct x; exact C).
      destruct x; try contradiction. subst items0. exists (items ++ [item]). split; [eapply put_same; eauto|].
      intros i [Q|[<-|[]]]%in_app_or; eapply grows_layer; eauto.
    + exists items. split; [rewrite put_other by exact N; exact Hl|]. intros i Q. eapply grows_layer; eauto.
Qed.
Lemma tidy_step_obj h o x : appends_layers h o -> tidy_obj h x -> tidy_obj (fst (step h o)) x.
Proof. intros A. destruct x; cbn [tidy_obj]; auto using layer_list_step. Qed.
Lemma step_tidy h o : appends_layers h o -> all_objects (tidy_obj h) h -> all_objects (tidy_obj (fst (step h o))) (fst (step h o)).
Proof.
  intros A V a y H. apply tidy_step_obj; [exact A|].
  destruct (step_cases h o) as [(e&E)|[(x&Hx&E)|(b&x&_&Hx&E)]]; rewrite E in H; cbn [fst] in H.
  - eapply V; eauto.
  - destruct (lt_dec a (length h)) as [B|B].
    + rewrite nth_error_app1 in H by exact B. eapply V; eauto.
    + rewrite nth_error_app2 in H by lia. destruct (a - length h)%nat as [|k]; cbn in H; [|destruct k; discriminate].
      injection H as <-. eapply construct_ok; eauto.
  - apply change_ok in Hx. destruct Hx as (z&Hz&K&_&Ht&_). destruct (Nat.eq_dec b a) as [<-|N].
    + rewrite (put_same _ _ _ _ Hz) in H. injection H as <-. apply Ht. eapply V; eauto.
    + rewrite put_other in H by exact N. eapply V; eauto.
Qed.
Lemma run_tidy ops : always appends_layers [] ops -> all_objects (tidy_obj (run ops)) (run ops).
Proof.
  unfold run. apply (always_run appends_layers (fun h => all_objects (tidy_obj h) h)).
  - intros h o V A. apply step_tidy; assumption.
  - intros a x H. destruct a; discriminate.
Qed.

(** ** References to older objects *)
Definition older (h : heap) := forall a x, nth_error h a = Some x ->
  match x with ORep l _ _ _ => (l < a)%nat | OList items => forall i, In i items -> (i < a)%nat | _ => True end.
Lemma list_bound h l : a_list h l -> (l < length h)%nat.
Proof. intros (i&H). apply nth_error_Some. congruence. Qed.
Lemma step_older h o : in_order h o -> older h -> older (fst (step h o)).
Proof.
  intros A V a y H.
  destruct (step_cases h o) as [(e&E)|[(x&Hx&E)|(b&x&_&Hx&E)]]; rewrite E in H; cbn [fst] in H.
  - exact (V _ _ H).
  - destruct (lt_dec a (length h)) as [B|B].
    + rewrite nth_error_app1 in H by exact B. exact (V _ _ H).
    + rewrite nth_error_app2 in H by lia. destruct (a - length h)%nat as [|k] eqn:Ek; cbn in H; [|destruct k; discriminate].
      injection H as <-. assert (a = length h) by lia. subst a. apply construct_ok in Hx. destruct Hx as [Hv Ht].
      destruct x; auto. destruct Hv as (Hv&_). apply list_bound. exact Hv.
  - pose proof (change_ok _ _ _ _ Hx) as (z&Hz&K&_&_&C). destruct (Nat.eq_dec b a) as [<-|N].
    + rewrite (put_same _ _ _ _ Hz) in H. injection H as <-. pose proof (V _ _ Hz) as Vz.
      destruct o; cbn [change] in Hx; try discriminate Hx; injection Hx as Hb Hx; subst;
        destruct z; cbn in K; destruct x; try contradiction; subst; auto.
      * destruct C as (->&_). destruct A as [A|(?&?&?&A)]; [exact A|congruence].
      * intros i [Q|[<-|[]]]%in_app_or; [auto|]. apply A.
    + rewrite put_other in H by exact N. exact (V _ _ H).
Qed.
Lemma in_order_appends h o : in_order h o -> appends_layers h o.
Proof. destruct o; cbn; tauto. Qed.
Lemma run_older ops : always in_order [] ops -> older (run ops).
Proof.
  unfold run. apply (always_run in_order older).
  - intros h o V A. apply step_older; assumption.
  - intros a x H. destruct a; discriminate.
Qed.
