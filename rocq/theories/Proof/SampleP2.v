From Coq Require Import Reals Lra Lia List ZArith Bool.
From Verif.Base Require Import Py.
From Verif.Model Require Import Structure Sample.
From Verif.Spec Require Import Objects.
From Verif.Proof Require Import StructureP SampleP.
Import ListNotations.
Open Scope R_scope.

(** ** Which statements are accepted *)
Lemma construct_accept h o : construct h o <> None -> ((exists x, construct h o = Some (Ok x)) <-> acceptable h o).
Proof.
  intros N. split.
  - intros (x&H). destruct o; cbn [construct] in H; try discriminate H; injection H as H; try subst x; inv_checks; use_checks;
      cbn [acceptable good_thickness good_integer]; auto.
    rewrite forallb_forall in E. intros i Hi. apply Nat.ltb_lt. auto.
  - destruct o; cbn [construct] in *; try congruence; cbn [acceptable].
    + eauto.
    + eauto.
    + intros A. rewrite (proj2 (forallb_forall _ _)); [eauto|]. intros i Hi. apply Nat.ltb_lt. auto.
    + intros [Hm Ht]. destruct t as [t|]; [|contradiction].
      rewrite (proj2 (check_material_ok h m m) (conj eq_refl Hm)), (proj2 (check_thickness_ok (Num t) t) (conj eq_refl Ht)). cbn. eauto.
    + intros (Hl&Hr&Hb&Ha). destruct r as [r|]; [|contradiction]. destruct b as [b|]; [|contradiction]. destruct a as [a|]; [|contradiction].
      rewrite (proj2 (check_repetitions_ok (Int r) (Int b) (Int a) (r, b, a))) by (cbn [fst snd]; auto 8).
      cbn [rbind]. rewrite (proj2 (check_layers_ok h l l) (conj eq_refl Hl)). cbn. eauto.
    + intros (Hm&Ht&Hd). destruct t as [t|]; [|contradiction]. destruct d as [d|]; [|contradiction].
      rewrite (proj2 (check_material_ok h m m) (conj eq_refl Hm)), (proj2 (check_thickness_ok (Num t) t) (conj eq_refl Ht)),
        (proj2 (check_divisions_ok (Int d) d) (conj eq_refl Hd)). cbn. eauto.
    + intros (Hm&Ht&Hd). destruct t as [t|]; [|contradiction]. destruct d as [d|]; [|contradiction].
      rewrite (proj2 (check_mixture_ok h m m) (conj eq_refl Hm)), (proj2 (check_thickness_ok (Num t) t) (conj eq_refl Ht)),
        (proj2 (check_divisions_ok (Int d) d) (conj eq_refl Hd)). cbn. eauto.
    + intros (Hf&Hl&Hb).
      rewrite (proj2 (check_material_ok h front front) (conj eq_refl Hf)), (proj2 (check_layers_ok h l l) (conj eq_refl Hl)),
        (proj2 (check_material_ok h back back) (conj eq_refl Hb)). cbn. eauto.
Qed.

Lemma change_accept h o : construct h o = None -> ((exists a x, change h o = Some (a, Ok x)) <-> acceptable h o).
Proof.
  intros N. split.
  - intros (a&x&H). destruct o; cbn [change] in H; try discriminate H; injection H as Ha H; subst;
      destruct (nth_error h a) as [[]|] eqn:Ea; try discriminate H; inv_checks; use_checks; unfold acceptable;
      cbn [good_thickness good_integer]; repeat split; try assumption;
      try (apply is_layer_spec; unfold is_layer; rewrite Ea; reflexivity); try (intros; rewrite Ea; discriminate); try (rewrite Ea);
      try (apply mixture_material; assumption); try (intros _; assumption); try (intros (?&?&?&?&?); discriminate).
    + left. do 4 eexists. reflexivity.
    + right. do 4 eexists. reflexivity.
    + do 4 eexists. reflexivity.
    + left. do 4 eexists. reflexivity.
    + right. do 3 eexists. reflexivity.
    + do 3 eexists. reflexivity.
    + do 3 eexists. reflexivity.
    + eexists. exact Ea.
    + apply Nat.ltb_lt. assumption.
  - destruct o; cbn [construct] in N; try discriminate N; cbn [acceptable change]; unfold layer_at, a_list;
      (destruct (nth_error h _) as [o|] eqn:E; [destruct o|]); intros A;
      try (exfalso; repeat match goal with H : _ /\ _ |- _ => destruct H | H : _ \/ _ |- _ => destruct H | H : exists _, _ |- _ => destruct H end; congruence).
    all: try (destruct A as (_&N1&A); exfalso; eapply N1; reflexivity).
    all: try (destruct A as (_&_&A); destruct t as [t|]; [|contradiction]; rewrite (proj2 (check_thickness_ok (Num t) t) (conj eq_refl A)); cbn; eauto; fail).
    all: try (destruct A as (_&_&A&_); rewrite (proj2 (check_material_ok h m m) (conj eq_refl A)); cbn; eauto; fail).
    all: try (destruct A as (_&_&_&A); specialize (A ltac:(eauto 8)); rewrite (proj2 (check_mixture_ok h m m) (conj eq_refl A)); cbn; eauto; fail).
    all: try (destruct A as (A&_); destruct d as [d|]; [|contradiction]; rewrite (proj2 (check_divisions_ok (Int d) d) (conj eq_refl A)); cbn; eauto; fail).
    all: try (destruct A as (A&_); rewrite (proj2 (check_material_ok h m m) (conj eq_refl A)); cbn; eauto; fail).
    all: try (destruct A as (A&_); rewrite (proj2 (check_layers_ok h l l) (conj eq_refl A)); cbn; eauto; fail).
    + destruct A as (_&Hr&Hb&Ha). destruct r as [r|]; [|contradiction]. destruct b as [b|]; [|contradiction]. destruct a as [a|]; [|contradiction].
      rewrite (proj2 (check_repetitions_ok (Int r) (Int b) (Int a) (r, b, a))) by (cbn [fst snd]; auto 8). cbn. eauto.
    + destruct A as (_&A). apply Nat.ltb_lt in A. rewrite A. eauto.
Qed.

Lemma step_accept h o : snd (step h o) = None <-> acceptable h o.
Proof.
  unfold step. destruct (construct h o) as [c|] eqn:E.
  - rewrite <- construct_accept by congruence. rewrite E. destruct c as [x|e]; cbn [snd].
    + split; eauto.
    + split; [discriminate|]. intros (x&H). discriminate.
  - rewrite <- change_accept by exact E. destruct (change h o) as [[a [x|e]]|] eqn:E'; cbn [snd].
    + split; eauto.
    + split; [discriminate|]. intros (?&?&H). discriminate.
    + destruct o; discriminate.
Qed.
Lemma step_raise h o e : snd (step h o) = Some e -> fst (step h o) = h.
Proof. destruct (step_cases h o) as [(e'&->)|[(x&_&->)|(a&x&_&_&->)]]; cbn; congruence. Qed.

(** ** The effect of a statement *)
Lemma get_other h h' y : nth_error h' y = nth_error h y -> forall g, get h' y g = get h y g.
Proof. intros E g. unfold get. rewrite E. reflexivity. Qed.
Lemma step_setter h o : construct h o = None -> snd (step h o) = None -> exists x f v, assigns h o = Some (x, f, v) /\
  get (fst (step h o)) x f = Some v /\ (forall y g, y <> x \/ g <> f -> get (fst (step h o)) y g = get h y g) /\
  length (fst (step h o)) = length h.
Proof.
  intros N S. destruct (step_cases h o) as [(e&E)|[(z&Hz&_)|(a&z&_&Hz&E)]]; [rewrite E in S; discriminate S|congruence|].
  rewrite E. cbn [fst]. rewrite put_length. clear S E.
  destruct o; cbn [change] in Hz; try discriminate Hz; injection Hz as Ha Hz; subst;
    destruct (nth_error h a) as [y|] eqn:Ea; try discriminate Hz; destruct y; try discriminate Hz; inv_checks; use_checks; cbn [assigns]; rewrite ?Ea;
    do 3 eexists; (split; [reflexivity|]); (split; [unfold get; rewrite (put_same _ _ _ _ Ea); reflexivity|]); (split; [|reflexivity]);
    intros y g [D|D];
    try (apply get_other, put_other; congruence);
    (destruct (Nat.eq_dec a y) as [<-|D']; [|apply get_other, put_other; congruence]);
    unfold get; rewrite (put_same _ _ _ _ Ea), Ea; destruct g; try reflexivity; congruence.
Qed.
Lemma get_new (h : heap) x : forall f, get (h ++ [x]) (length h) f = get [x] 0 f.
Proof. intros f. unfold get. rewrite nth_error_app2, Nat.sub_diag by lia. reflexivity. Qed.
Lemma step_constructor h o : construct h o <> None -> snd (step h o) = None -> exists fs, attributes o = Some fs /\
  length (fst (step h o)) = S (length h) /\
  (forall f v, get (fst (step h o)) (length h) f = Some v <-> In (f, v) fs) /\
  (forall y g, (y < length h)%nat -> get (fst (step h o)) y g = get h y g).
Proof.
  intros N S. destruct (step_cases h o) as [(e&E)|[(z&Hz&E)|(a&z&Hz&_)]]; [rewrite E in S; discriminate S| |congruence].
  rewrite E. cbn [fst]. rewrite app_length. cbn [length]. clear S E N.
  assert (A : exists fs, attributes o = Some fs /\ forall f v, get [z] 0 f = Some v <-> In (f, v) fs).
  { destruct o; cbn [construct] in Hz; try discriminate Hz; injection Hz as Hz; try subst z; inv_checks; use_checks; cbn [attributes];
      eexists; (split; [reflexivity|]); intros f' v; cbn [get nth_error In]; destruct f';
      (split; [intros Q; try discriminate Q; injection Q as <-; auto 8 | intros Q;
        repeat match type of Q with _ \/ _ => destruct Q as [Q|Q] | False => destruct Q end; try discriminate Q; injection Q as <-; reflexivity]). }
  destruct A as (fs&A1&A2). exists fs. split; [exact A1|]. split; [lia|]. split.
  - intros f v. rewrite get_new. apply A2.
  - intros y g L. apply get_other. apply nth_error_app1. exact L.
Qed.

(** ** Profiles *)
Section Profile.
Variable T : Type.
Variable tensor : nat -> T.
Variable twisted : nat -> option R -> R -> option R -> T.
Variable varied : nat -> option R -> (R -> R) -> option R -> T.
Notation lprof := (layer_profile T tensor twisted varied).
Notation lsprof := (layers_profile T tensor twisted varied).
Notation sprof := (sample_profile T tensor twisted varied).
Notation pc := (piece T tensor twisted varied).

Lemma lprof_S d h a : lprof (S d) h a =
  match nth_error h a with
  | Some (OLayer m t) => Some (Ok [(t, tensor m)])
  | Some (OTwist m t n angle) => Some (Ok (slices T t (Z.to_nat n) (twisted m t angle)))
  | Some (OVary m t n f) => Some (Ok (slices T t (Z.to_nat n) (varied m t f)))
  | Some (ORep l r b n) =>
    obind (lsprof d h (items_of h l)) (fun all => Some (rbind all (fun layers =>
      Ok ((if (0 <? b)%Z then last_n (Z.to_nat b) layers else []) ++ times (Z.to_nat r) layers ++ firstn (Z.to_nat n) layers))))
  | _ => Some (Err AttributeError)
  end.
Proof.
  cbn [layer_profile]. destruct (nth_error h a) as [[]|]; try reflexivity. f_equal.
  generalize (items_of h layers). induction l as [|i l IH]; [reflexivity|]. cbn [layers_profile].
  destruct (lprof d h i) as [[p|e]|]; cbn [obind]; try reflexivity. rewrite IH. reflexivity.
Qed.

(** Enough depth exists if references go to older objects *)
Lemma lsprof_ok h d items : (forall i, In i items -> exists p, lprof d h i = Some (Ok p)) -> exists p, lsprof d h items = Some (Ok p).
Proof.
  induction items as [|i items IH]; intros H; [exists []; reflexivity|].
  destruct (H i (or_introl eq_refl)) as (p&E). destruct IH as (q&Q); [intros; apply H; right; assumption|].
  exists (p ++ q). cbn [layers_profile]. rewrite E. cbn [obind]. rewrite Q. reflexivity.
Qed.
Lemma lprof_ok h : older h -> all_objects (tidy_obj h) h -> forall d a, layer_at h a -> (a < d)%nat -> exists p, lprof d h a = Some (Ok p).
Proof.
  intros O Y. induction d as [|d IH]; intros a L A; [lia|]. rewrite lprof_S.
  destruct L as [(?&?&H)|[(l&r&b&n&H)|[(?&?&?&?&H)|(?&?&?&?&H)]]]; rewrite H; eauto.
  pose proof (Y _ _ H) as (items&Hl&Hi). pose proof (O _ _ H) as La. pose proof (O _ _ Hl) as Li. cbn in La, Li.
  unfold items_of. rewrite Hl. destruct (lsprof_ok h d items) as (p&E).
  - intros i Q. apply IH; auto. specialize (Li i Q). lia.
  - rewrite E. cbn. eauto.
Qed.

(** Slices *)
Lemma slices_map t n tn : slices T t n tn =
  map (fun k => (option_map (fun d => d / INR n) t, tn (option_map (fun d => (INR k + 1 / 2) * (d / INR n)) t))) (seq 0 n).
Proof.
  destruct t as [d|]; cbn [slices option_map].
  - unfold get_slices. rewrite PeanoNat.Nat.add_1_r. rewrite diff_map_seq, zmid_map_seq, !map_map.
    destruct n as [|n]; [reflexivity|]. assert (N : INR (S n) <> 0) by (apply not_0_INR; lia).
    set (m := S n) in *. clearbody m.
    generalize (seq 0 m). induction l as [|k l IH]; [reflexivity|]. cbn [map combine]. rewrite IH. f_equal.
    rewrite S_INR. f_equal; [f_equal; field; exact N|]. f_equal. f_equal. field. exact N.
  - generalize 0%nat. induction n as [|n IH]; intros k; [reflexivity|]. cbn [repeat seq map]. rewrite (IH (S k)). reflexivity.
Qed.
Lemma INR_to_nat n k : (k < Z.to_nat n)%nat -> INR (Z.to_nat n) = IZR n.
Proof. intros H. rewrite INR_IZR_INZ, Z2Nat.id by lia. reflexivity. Qed.
Lemma slices_slice t n tn : map Some (slices T t (Z.to_nat n) tn) = map (fun k => slice T t n k tn) (seq 0 (Z.to_nat n)).
Proof.
  rewrite slices_map, map_map. apply map_ext_in. intros k Hk. apply in_seq in Hk. unfold slice.
  destruct (lt_dec k (Z.to_nat n)) as [L|L]; [|lia]. rewrite (INR_to_nat n k) by lia. reflexivity.
Qed.

(** Where the pieces of a profile come from: the same in every heap of the same build *)
Definition same_build (x y : obj) : Prop :=
  match x, y with
  | OLayer _ _, OLayer _ _ => True
  | OTwist _ _ n _, OTwist _ _ n' _ => n' = n
  | OVary _ _ n _, OVary _ _ n' _ => n' = n
  | ORep _ _ _ _, _ | OList _, _ => y = x
  | OStruct _ l _, OStruct _ l' _ => l' = l
  | OMat _, OMat _ | OOther, OOther => True
  | _, _ => False
  end.
Definition alike (h h' : heap) := forall a, match nth_error h a with
  | Some x => exists y, nth_error h' a = Some y /\ same_build x y
  | None => nth_error h' a = None end.

Lemma alike_items h h' l : alike h h' -> items_of h' l = items_of h l.
Proof.
  intros A. unfold items_of. specialize (A l). destruct (nth_error h l) as [x|]; [|rewrite A; reflexivity].
  destruct A as (y&->&B). destruct x; cbn in B; try (subst y; reflexivity); destruct y; try contradiction; reflexivity.
Qed.

Fixpoint origin (d : nat) (h : heap) (a : nat) : option (list (nat * nat)) :=
  match d with
  | O => None
  | S d =>
    match nth_error h a with
    | Some (OLayer _ _) => Some [(a, 0%nat)]
    | Some (OTwist _ _ n _) | Some (OVary _ _ n _) => Some (map (pair a) (seq 0 (Z.to_nat n)))
    | Some (ORep l r b n) =>
      obind (fold_right (fun i acc => obind (origin d h i) (fun p => option_map (app p) acc)) (Some []) (items_of h l)) (fun q =>
      Some ((if (0 <? b)%Z then last_n (Z.to_nat b) q else []) ++ times (Z.to_nat r) q ++ firstn (Z.to_nat n) q))
    | _ => None
    end
  end.
Definition origins (d : nat) (h : heap) (items : list nat) := fold_right (fun i acc => obind (origin d h i) (fun p => option_map (app p) acc)) (Some []) items.

Lemma last_n_map {A B} (f : A -> B) k l : map f (last_n k l) = last_n k (map f l).
Proof. unfold last_n. rewrite map_length. generalize (length l - k)%nat. intros n. revert l. induction n; intros [|x l]; cbn; auto. Qed.
Lemma times_map {A B} (f : A -> B) k l : map f (times k l) = times k (map f l).
Proof. induction k; cbn; [reflexivity|]. rewrite map_app, IHk. reflexivity. Qed.

Lemma map_Some_inj {A} (p q : list A) : map Some p = map Some q -> p = q.
Proof. revert q. induction p as [|x p IH]; intros [|y q] H; try discriminate; [reflexivity|]. injection H as -> H. f_equal. auto. Qed.

Definition seen (d : nat) (h : heap) (a : nat) (r : option (res (list (option R * T)))) := forall p, r = Some (Ok p) -> 
  exists ps, origin d h a = Some ps /\ map Some p = map (pc h) ps.
Lemma cut_map {A B} (f : A -> B) (b n : Z) (r : nat) q :
  map f ((if (0 <? b)%Z then last_n (Z.to_nat b) q else []) ++ times r q ++ firstn (Z.to_nat n) q) =
  (if (0 <? b)%Z then last_n (Z.to_nat b) (map f q) else []) ++ times r (map f q) ++ firstn (Z.to_nat n) (map f q).
Proof. rewrite !map_app, times_map, firstn_map. destruct (0 <? b)%Z; [rewrite last_n_map|]; reflexivity. Qed.

Lemma lprof_origin h h' : alike h h' -> forall d a p, lprof d h a = Some (Ok p) -> exists ps, origin d h a = Some ps /\
  exists p', lprof d h' a = Some (Ok p') /\ map Some p' = map (pc h') ps.
Proof.
  intros A. induction d as [|d IH]; intros a p; [discriminate|]. rewrite !lprof_S. cbn [origin].
  pose proof (A a) as Aa. destruct (nth_error h a) as [x|] eqn:E; [|discriminate]. destruct Aa as (y&Ey&B). rewrite Ey.
  destruct x; try discriminate; cbn in B.
  - destruct y; try contradiction. intros _. eexists. split; [reflexivity|]. eexists. split; [reflexivity|]. cbn. rewrite Ey. reflexivity.
  - subst y. intros H. rewrite (alike_items h h' layers A).
    destruct (lsprof d h (items_of h layers)) as [[q|]|] eqn:Eq; cbn [obind rbind] in H; try discriminate H.
    assert (Q : forall items q, lsprof d h items = Some (Ok q) -> exists qs, origins d h items = Some qs /\
      exists q', lsprof d h' items = Some (Ok q') /\ map Some q' = map (pc h') qs).
    { clear - IH. induction items as [|i items IHi]; intros q Hq; cbn [layers_profile] in *.
      - exists []. split; [reflexivity|]. exists []. auto.
      - destruct (lprof d h i) as [[u|]|] eqn:Eu; cbn [obind] in Hq; try discriminate Hq.
        destruct (lsprof d h items) as [[v|]|] eqn:Ev; cbn [obind rmap] in Hq; try discriminate Hq.
        destruct (IH _ _ Eu) as (us&Hu&u'&Eu'&Mu). destruct (IHi _ eq_refl) as (vs&Hv&v'&Ev'&Mv).
        exists (us ++ vs). split; [cbn [origins fold_right]; fold (origins d h items); rewrite Hu, Hv; reflexivity|].
        exists (u' ++ v'). rewrite Eu'. cbn [obind]. rewrite Ev'. split; [reflexivity|]. rewrite !map_app, Mu, Mv. reflexivity. }
    destruct (Q _ _ Eq) as (qs&Hq&q'&Eq'&M). change (fold_right _ _ _) with (origins d h (items_of h layers)). rewrite Hq. cbn [obind].
    eexists. split; [reflexivity|]. rewrite Eq'. cbn [obind rbind]. eexists. split; [reflexivity|]. rewrite !cut_map, M. reflexivity.
  - destruct y; try contradiction. subst div0. intros _. eexists. split; [reflexivity|]. eexists. split; [reflexivity|].
    rewrite slices_slice, map_map. cbn [piece]. rewrite Ey. reflexivity.
  - destruct y; try contradiction. subst div0. intros _. eexists. split; [reflexivity|]. eexists. split; [reflexivity|].
    rewrite slices_slice, map_map. cbn [piece]. rewrite Ey. reflexivity.
Qed.
Lemma alike_refl h : alike h h.
Proof. intros a. destruct (nth_error h a) as [x|]; [|reflexivity]. exists x. split; [reflexivity|]. destruct x; cbn; auto. Qed.
Lemma lsprof_origin h h' : alike h h' -> forall d items p, lsprof d h items = Some (Ok p) -> exists ps, origins d h items = Some ps /\
  exists p', lsprof d h' items = Some (Ok p') /\ map Some p' = map (pc h') ps.
Proof.
  intros A d. induction items as [|i items IHi]; intros q Hq; cbn [layers_profile] in *.
  - exists []. split; [reflexivity|]. exists []. auto.
  - destruct (lprof d h i) as [[u|]|] eqn:Eu; cbn [obind] in Hq; try discriminate Hq.
    destruct (lsprof d h items) as [[v|]|] eqn:Ev; cbn [obind rmap] in Hq; try discriminate Hq.
    destruct (lprof_origin h h' A _ _ _ Eu) as (us&Hu&u'&Eu'&Mu). destruct (IHi _ eq_refl) as (vs&Hv&v'&Ev'&Mv).
    exists (us ++ vs). split; [cbn [origins fold_right]; fold (origins d h items); rewrite Hu, Hv; reflexivity|].
    exists (u' ++ v'). rewrite Eu'. cbn [obind]. rewrite Ev'. split; [reflexivity|]. rewrite !map_app, Mu, Mv. reflexivity.
Qed.

(** The setters that keep the build *)
Lemma alike_put h a x y : nth_error h a = Some y -> same_build y x -> alike h (put h a x).
Proof.
  intros H B b. destruct (Nat.eq_dec a b) as [<-|N].
  - rewrite H. exists x. split; [eapply put_same; eauto|exact B].
  - rewrite put_other by exact N. exact (alike_refl h b).
Qed.
Lemma set_thickness_alike h x t h' : step h (SetThickness x t) = (h', None) -> alike h h' /\
  (forall y, y <> x -> nth_error h' y = nth_error h y) /\ exists t', t = Num t' /\ thickness_of h' x = Some t' /\ material_of h' x = material_of h x.
Proof.
  intros S. destruct (step_cases h (SetThickness x t)) as [(e&E)|[(z&Hz&_)|(a&z&_&Hz&E)]]; [congruence|discriminate Hz|].
  rewrite S in E. injection E as ->. cbn [change] in Hz. injection Hz as <- Hz.
  destruct (nth_error h x) as [[]|] eqn:Ex; try discriminate Hz; inv_checks; use_checks;
    (split; [eapply alike_put; [exact Ex|cbn; auto]|split; [intros y N; apply put_other; auto|]]);
    unfold thickness_of, material_of; rewrite (put_same _ _ _ _ Ex), Ex; eauto.
Qed.
Lemma set_material_alike h x m h' : step h (SetMaterial x m) = (h', None) -> alike h h' /\
  (forall y, y <> x -> nth_error h' y = nth_error h y) /\ material_of h' x = Some m /\ thickness_of h' x = thickness_of h x.
Proof.
  intros S. destruct (step_cases h (SetMaterial x m)) as [(e&E)|[(z&Hz&_)|(a&z&_&Hz&E)]]; [congruence|discriminate Hz|].
  rewrite S in E. injection E as ->. cbn [change] in Hz. injection Hz as <- Hz.
  destruct (nth_error h x) as [[]|] eqn:Ex; try discriminate Hz; inv_checks; use_checks;
    (split; [eapply alike_put; [exact Ex|cbn; auto]|split; [intros y N; apply put_other; auto|]]);
    unfold thickness_of, material_of; rewrite (put_same _ _ _ _ Ex), Ex; eauto.
Qed.

(** ** Values *)
Lemma slices_value d n (tn : option R -> T) :
  slices T (Some d) n tn = map (fun p => (Some (fst p), snd p)) (profile (Inhomogeneous d n (fun z => tn (Some z)))).
Proof.
  cbn [slices profile]. generalize (diff (get_slices d n)) (zmid (get_slices d n)). induction l as [|x l IH]; intros [|y k]; cbn; try reflexivity.
  f_equal. apply IH.
Qed.
Lemma profile_repeated (ls : list (layer T)) r b n : profile (Repeated ls r b n) =
  (match b with O => [] | S _ => last_n b (flat_map profile ls) end) ++ times r (flat_map profile ls) ++ firstn n (flat_map profile ls).
Proof.
  cbn [profile]. set (g := fix all (ls : list (layer T)) : list (R * T) := match ls with [] => [] | l :: ls => profile l ++ all ls end).
  assert (G : forall ls, g ls = flat_map profile ls) by (induction ls0 as [|l k IH]; cbn; congruence).
  rewrite G. reflexivity.
Qed.
Lemma to_nat_cut {A} (b : Z) (l : list A) :
  (if (0 <? b)%Z then last_n (Z.to_nat b) l else []) = match Z.to_nat b with O => [] | S _ => last_n (Z.to_nat b) l end.
Proof. destruct (Z.ltb_spec 0 b) as [H|H]; destruct (Z.to_nat b) eqn:E; try reflexivity; lia. Qed.

Definition no_nan (h : heap) := forall a, thickness_of h a <> Some None.
Notation unf := (unfolds T tensor twisted varied).
Notation wrap := (map (fun p : R * T => (Some (fst p), snd p))).
Lemma lprof_unfolds h : older h -> all_objects (tidy_obj h) h -> no_nan h -> forall d a, layer_at h a -> (a < d)%nat ->
  exists l, unf h a l /\ lprof d h a = Some (Ok (wrap (profile l))).
Proof.
  intros O Y NN. induction d as [|d IH]; intros a L A; [lia|]. rewrite lprof_S.
  pose proof (NN a) as Na. unfold thickness_of in Na.
  destruct L as [(m&t&H)|[(l&r&b&n&H)|[(m&t&n&angle&H)|(m&t&n&f&H)]]]; rewrite H in Na |- *.
  - destruct t as [t|]; [|congruence]. eexists. split; [eapply U_layer; exact H|]. reflexivity.
  - pose proof (Y _ _ H) as (items&Hl&Hi). pose proof (O _ _ H) as La. pose proof (O _ _ Hl) as Li. cbn in La, Li.
    assert (Q : exists ls, Forall2 (unf h) items ls /\ lsprof d h items = Some (Ok (wrap (flat_map profile ls)))).
    { assert (B : forall i, In i items -> layer_at h i /\ (i < d)%nat) by (intros i Q; split; [auto|specialize (Li i Q); lia]).
      clear - B IH. induction items as [|i items IHi]; [exists []; split; [constructor|reflexivity]|].
      destruct (B i (or_introl eq_refl)) as [B1 B2]. destruct (IH i B1 B2) as (l&U&E).
      destruct IHi as (ls&F&Es); [intros; apply B; right; assumption|].
      exists (l :: ls). split; [constructor; assumption|]. cbn [layers_profile flat_map]. rewrite E. cbn [obind]. rewrite Es.
      cbn [obind rmap]. rewrite map_app. reflexivity. }
    destruct Q as (ls&F&E). exists (Repeated ls (Z.to_nat r) (Z.to_nat b) (Z.to_nat n)). split; [eapply U_rep; eauto|].
    unfold items_of. rewrite Hl, E. cbn [obind rbind]. do 2 f_equal. rewrite profile_repeated, !map_app, times_map, firstn_map, to_nat_cut.
    destruct (Z.to_nat b); [reflexivity|rewrite last_n_map; reflexivity].
  - destruct t as [t|]; [|congruence]. eexists. split; [eapply U_twist; exact H|]. rewrite slices_value. reflexivity.
  - destruct t as [t|]; [|congruence]. eexists. split; [eapply U_vary; exact H|]. rewrite slices_value. reflexivity.
Qed.
End Profile.
