(** C114: samples that a program builds with constructors and setters. *)
From Coq Require Import Reals Lra Lia List ZArith.
From Verif.Base Require Import Py.
From Verif.Model Require Import Structure Sample.
From Verif.Spec Require Import Objects.
From Verif.Proof Require Import SampleP SampleP2.
Import ListNotations.
Open Scope R_scope.

(** Whatever statements run, every object is valid *)
Theorem C114_valid : forall ops a x, nth_error (run ops) a = Some x -> valid_obj (run ops) x.
Proof. intros ops a x H. exact (run_valid ops a x H). Qed.
Print Assumptions C114_valid.

(** Exactly the statements with acceptable arguments succeed; the others raise and change nothing *)
Theorem C114_accepted : forall h o, (snd (step h o) = None <-> acceptable h o) /\ (~ acceptable h o -> fst (step h o) = h).
Proof.
  intros h o. split; [apply step_accept|]. intros N. destruct (snd (step h o)) as [e|] eqn:E.
  - exact (step_raise h o e E).
  - exfalso. apply N, step_accept, E.
Qed.
Print Assumptions C114_accepted.

(** A setter that succeeds changes the one attribute that it names, and no other attribute of any object *)
Theorem C114_setter : forall h o, (forall fs, attributes o <> Some fs) -> acceptable h o ->
  exists x f v, assigns h o = Some (x, f, v) /\ get (fst (step h o)) x f = Some v /\
  (forall y g, y <> x \/ g <> f -> get (fst (step h o)) y g = get h y g) /\ length (fst (step h o)) = length h.
Proof.
  intros h o N A. apply step_accept in A. destruct (construct h o) as [c|] eqn:E; [|exact (step_setter h o E A)].
  exfalso. destruct (step_constructor h o) as (fs&H&_); [congruence|exact A|]. exact (N _ H).
Qed.
Print Assumptions C114_setter.

(** A constructor that succeeds makes one new object with the attributes given and changes no other *)
Theorem C114_constructor : forall h o fs, attributes o = Some fs -> acceptable h o ->
  length (fst (step h o)) = S (length h) /\ (forall f v, get (fst (step h o)) (length h) f = Some v <-> In (f, v) fs) /\
  (forall y g, (y < length h)%nat -> get (fst (step h o)) y g = get h y g).
Proof.
  intros h o fs H A. apply step_accept in A. destruct (step_constructor h o) as (fs'&H'&K); [|exact A|].
  - destruct o; cbn in *; congruence.
  - rewrite H in H'. injection H' as <-. exact K.
Qed.
Print Assumptions C114_constructor.

(** The lists in use hold layers, if the program appends nothing else to its lists *)
Theorem C114_layers : forall ops, always appends_layers [] ops ->
  forall a x, nth_error (run ops) a = Some x -> tidy_obj (run ops) x.
Proof. intros ops A a x H. exact (run_tidy ops A a x H). Qed.
Print Assumptions C114_layers.

Section Profile.
Variable T : Type.
Variable tensor : nat -> T.
Variable twisted : nat -> option R -> R -> option R -> T.
Variable varied : nat -> option R -> (R -> R) -> option R -> T.
Let lprof := layer_profile T tensor twisted varied.
Let sprof := sample_profile T tensor twisted varied.

(** Then, and if repeated layers are given older lists only, every layer and every structure has a
    profile, with calls nested no deeper than there are objects *)
Theorem C114_profile : forall ops, always in_order [] ops -> let h := run ops in
  (forall a, layer_at h a -> exists p, lprof (length h) h a = Some (Ok p)) /\
  (forall s f l b, nth_error h s = Some (OStruct f l b) -> exists p, sprof (length h) h s = Some (Ok (tensor f, p, tensor b))).
Proof.
  intros ops A h. pose proof (run_older ops A) as O.
  pose proof (run_tidy ops (always_weaken _ _ in_order_appends ops [] A)) as Y. fold h in O, Y.
  assert (B : forall a, layer_at h a -> (a < length h)%nat).
  { intros a H. apply nth_error_Some. unfold layer_at in H. intros E. rewrite E in H.
    destruct H as [(?&?&H)|[(?&?&?&?&H)|[(?&?&?&?&H)|(?&?&?&?&H)]]]; discriminate. }
  split; [intros a L; apply lprof_ok; auto|].
  intros s f l b H. unfold sprof, sample_profile. rewrite H. pose proof (Y _ _ H) as (items&Hl&Hi). unfold items_of. rewrite Hl.
  destruct (lsprof_ok T tensor twisted varied h (length h) items) as (p&E).
  - intros i Q. apply lprof_ok; auto.
  - rewrite E. cbn. eauto.
Qed.

(** ... which is the profile of the layer as a value *)
Theorem C114_value : forall ops, always in_order [] ops -> let h := run ops in (forall a, thickness_of h a <> Some None) ->
  forall a, layer_at h a -> exists l, unfolds T tensor twisted varied h a l /\
  lprof (length h) h a = Some (Ok (map (fun p => (Some (fst p), snd p)) (profile l))).
Proof.
  intros ops A h NN a L. pose proof (run_older ops A) as O.
  pose proof (run_tidy ops (always_weaken _ _ in_order_appends ops [] A)) as Y. fold h in O, Y.
  apply lprof_unfolds; auto. apply nth_error_Some. intros E. unfold layer_at in L. rewrite E in L.
  destruct L as [(?&?&H)|[(?&?&?&?&H)|[(?&?&?&?&H)|(?&?&?&?&H)]]]; discriminate.
Qed.

(** A layer that occurs several times is one object: the slices of a sample come from places [ps]
    that do not depend on thicknesses and materials, so that set_thickness and set_material change
    every occurrence and nothing else *)
Theorem C114_shared : forall depth h s f p b, sprof depth h s = Some (Ok (f, p, b)) ->
  exists ps, map Some p = map (piece T tensor twisted varied h) ps /\
  (forall x t h', step h (SetThickness x (Num t)) = (h', None) ->
     (exists p', sprof depth h' s = Some (Ok (f, p', b)) /\ map Some p' = map (piece T tensor twisted varied h') ps) /\
     thickness_of h' x = Some t /\ material_of h' x = material_of h x /\
     forall y k, y <> x -> piece T tensor twisted varied h' (y, k) = piece T tensor twisted varied h (y, k)) /\
  (forall x m h', step h (SetMaterial x m) = (h', None) ->
     (exists p', sprof depth h' s = Some (Ok (f, p', b)) /\ map Some p' = map (piece T tensor twisted varied h') ps) /\
     material_of h' x = Some m /\ thickness_of h' x = thickness_of h x /\
     forall y k, y <> x -> piece T tensor twisted varied h' (y, k) = piece T tensor twisted varied h (y, k)).
Proof.
  intros depth h s f p b H. unfold sprof, sample_profile in *. destruct (nth_error h s) as [[]|] eqn:Es; try discriminate H.
  destruct (layers_profile T tensor twisted varied depth h (items_of h layers)) as [[q|]|] eqn:Eq; cbn [obind rmap] in H; try discriminate H.
  injection H as <- <- <-.
  destruct (lsprof_origin T tensor twisted varied h h (alike_refl h) _ _ _ Eq) as (ps&Hps&q'&Eq'&M).
  rewrite Eq in Eq'. injection Eq' as <-. exists ps. split; [exact M|].
  assert (K : forall h' x, nth_error h x <> Some (OStruct front layers back) -> alike h h' -> (forall y, y <> x -> nth_error h' y = nth_error h y) ->
    (exists p', match nth_error h' s with
      | Some (OStruct f l b) => obind (layers_profile T tensor twisted varied depth h' (items_of h' l)) (fun p => Some (rmap (fun p => (tensor f, p, tensor b)) p))
      | _ => Some (Err AttributeError) end = Some (Ok (tensor front, p', tensor back)) /\
      map Some p' = map (piece T tensor twisted varied h') ps) /\
    forall y k, y <> x -> piece T tensor twisted varied h' (y, k) = piece T tensor twisted varied h (y, k)).
  { intros h' x Nx A D. split.
    - rewrite (D s), Es by congruence. rewrite (alike_items h h' layers A).
      destruct (lsprof_origin T tensor twisted varied h h' A _ _ _ Eq) as (ps'&Hps'&q'&Eq'&M'). rewrite Hps in Hps'. injection Hps' as <-.
      rewrite Eq'. exists q'. split; [reflexivity|exact M'].
    - intros y k N. cbn [piece]. rewrite (D y N). reflexivity. }
  split.
  - intros x t h' S. destruct (set_thickness_alike h x (Num t) h' S) as (A&D&t'&E&Ht&Hm). injection E as ->.
    assert (Nx : nth_error h x <> Some (OStruct front layers back)).
    { assert (S' : snd (step h (SetThickness x (Num t'))) = None) by (rewrite S; reflexivity). apply step_accept in S'. destruct S' as (L&_).
      unfold layer_at in L. intros E. rewrite E in L. destruct L as [(?&?&L)|[(?&?&?&?&L)|[(?&?&?&?&L)|(?&?&?&?&L)]]]; discriminate. }
    destruct (K h' x Nx A D) as [K1 K2]. auto.
  - intros x m h' S. destruct (set_material_alike h x m h' S) as (A&D&Hm&Ht).
    assert (Nx : nth_error h x <> Some (OStruct front layers back)).
    { assert (S' : snd (step h (SetMaterial x m)) = None) by (rewrite S; reflexivity). apply step_accept in S'. destruct S' as (L&_).
      unfold layer_at in L. intros E. rewrite E in L. destruct L as [(?&?&L)|[(?&?&?&?&L)|[(?&?&?&?&L)|(?&?&?&?&L)]]]; discriminate. }
    destruct (K h' x Nx A D) as [K1 K2]. auto.
Qed.

(** False in general: a program can put a RepeatedLayers into its own list of layers; no depth of
    calls suffices for the profile then *)
Theorem C114_cycle_refuted : exists ops a, always appends_layers [] ops /\ layer_at (run ops) a /\ forall depth, lprof depth (run ops) a = None.
Proof.
  exists [NewMat false; NewList []; NewRep 1 (Int 1) (Int 0) (Int 0); NewList [2%nat]; SetLayers 2 3], 2%nat.
  split; [cbn; auto 12|]. split; [right; left; do 4 eexists; reflexivity|].
  induction depth as [|d IH]; [reflexivity|]. unfold lprof in *. rewrite lprof_S. cbn [run fold_left].
  change (nth_error _ 2) with (Some (ORep 3 1 0 0)). cbv iota.
  change (items_of _ 3) with [2%nat]. cbn [layers_profile]. cbn [run fold_left] in IH. rewrite IH. reflexivity.
Qed.

(** The list that a program passes stays the list of the structure, and what is appended later is not checked *)
Theorem C114_append_refuted : exists ops s f l b, nth_error (run ops) s = Some (OStruct f l b) /\
  Forall (fun o => snd o = None) (map (fun n => step (run (firstn n ops)) (nth n ops NewOther)) (seq 0 (length ops))) /\
  forall depth, sprof (S depth) (run ops) s = Some (Err AttributeError).
Proof.
  exists [NewMat false; NewList []; NewStruct 0 1 0; Append 1 0], 2%nat, 0%nat, 1%nat, 0%nat.
  split; [reflexivity|]. split; [repeat constructor|]. intros depth. reflexivity.
Qed.
End Profile.
Print Assumptions C114_profile.
Print Assumptions C114_value.
Print Assumptions C114_shared.
Print Assumptions C114_cycle_refuted.
Print Assumptions C114_append_refuted.

(** nan passes the check of the thickness *)
Theorem C114_nan_refuted : exists ops a, thickness_of (run ops) a = Some None.
Proof. exists [NewMat false; NewLayer 0 (Num None)], 1%nat. reflexivity. Qed.
Print Assumptions C114_nan_refuted.

(** A film of 10 nm between two others and twice more in a stack; then it is made 20 nm thick, and a
    negative thickness is refused *)
Example C114_nonvacuous : exists ops, always in_order [] ops /\
  (exists f b, sample_profile R INR (fun _ _ _ _ => 0) (fun _ _ _ _ => 0) 9 (run ops) 8 =
    Some (Ok (f, [(Some 20, 1); (Some 5, 2); (Some 20, 1); (Some 5, 2); (Some 20, 1)], b))) /\
  snd (step (run ops) (SetThickness 3 (Num (Some (-1))))) = Some ValueError.
Proof.
  exists [NewMat false; NewMat false; NewMat true; NewLayer 1 (Num (Some 10)); NewLayer 2 (Num (Some 5)); NewList [3; 4]%nat;
    NewRep 5 (Int 2) (Int 0) (Int 1); NewList [6%nat]; NewStruct 0 7 0; SetThickness 3 (Num (Some 20))].
  assert (E : run [NewMat false; NewMat false; NewMat true; NewLayer 1 (Num (Some 10)); NewLayer 2 (Num (Some 5)); NewList [3; 4]%nat;
    NewRep 5 (Int 2) (Int 0) (Int 1); NewList [6%nat]; NewStruct 0 7 0; SetThickness 3 (Num (Some 20))] =
    [OMat false; OMat false; OMat true; OLayer 1 (Some 20); OLayer 2 (Some 5); OList [3; 4]%nat; ORep 5 2 0 1; OList [6%nat]; OStruct 0 7 0]).
  { unfold run. cbn. destruct (Rlt_dec 10 0); [lra|]. cbn. destruct (Rlt_dec 5 0); [lra|]. cbn. destruct (Rlt_dec 20 0); [lra|]. reflexivity. }
  split; [cbn [always in_order]; auto 12|]. rewrite E. split.
  - exists (INR 0), (INR 0). unfold sample_profile. change (nth_error _ 8) with (Some (OStruct 0 7 0)). cbv iota.
    change (items_of _ 7) with [6%nat]. cbn [layers_profile]. rewrite lprof_S. change (nth_error _ 6) with (Some (ORep 5 2 0 1)). cbv iota.
    change (items_of _ 5) with [3; 4]%nat. cbn [layers_profile]. rewrite !lprof_S. cbn. reflexivity.
  - cbn. destruct (Rlt_dec (-1) 0); [reflexivity|lra].
Qed.
