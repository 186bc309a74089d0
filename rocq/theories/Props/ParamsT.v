(** C10: dispersion constructor arguments and added parameter sets. *)
From Coq Require Import String List Arith Bool Lia.
From Verif.Base Require Import Py.
From Verif.Model Require Import Params.
From Verif.Spec Require Import Binding.
From Verif.Proof Require Import ParamsP.
Import ListNotations.
Open Scope list_scope.

(** C10, constructor.  [hget h t] is the class template.  Success exactly for a well formed
    call that leaves no parameter unset; then the names are those of the template and every
    name has the bound value. Any failure is InvalidParameters. *)
Theorem C10_constructor : forall (V : Type) (h h' : dheap V) t args kw r,
  t < length h -> NoDup (map fst (hget h t)) -> NoDup (map fst kw) -> reserved_free kw ->
  init h t args kw = (h', r) ->
  match r with
  | Ok o => well_formed (hget h t) args kw /\
      map fst (hget h' (d_single o)) = map fst (hget h t) /\
      (forall k v, In (k, v) (hget h' (d_single o)) <-> bound (hget h t) args kw k v) /\
      (forall k v, In (k, v) (hget h' (d_single o)) -> v <> None) /\ d_rep o = []
  | Err e => e = InvalidParameters /\
      (well_formed (hget h t) args kw -> exists k, bound (hget h t) args kw k None)
  end.
Proof. exact (@init_spec). Qed.
Print Assumptions C10_constructor.

(** C10: no other dictionary changes, in particular not the class template. *)
Theorem C10_template_unchanged : forall (V : Type) (h h' : dheap V) t args kw r x,
  t < length h -> init h t args kw = (h', r) -> x < length h -> hget h' x = hget h x.
Proof. exact (@init_frame). Qed.
Print Assumptions C10_template_unchanged.

(** C10, add: the same, one set is appended, nothing else changes; on failure nothing is
    appended. *)
Theorem C10_add : forall (V : Type) (h h' : dheap V) o o' t args kw r,
  t < length h -> NoDup (map fst (hget h t)) -> NoDup (map fst kw) -> reserved_free kw ->
  add h o t args kw = (h', o', r) ->
  (forall x, x < length h -> hget h' x = hget h x) /\ d_single o' = d_single o /\
  length h <= length h' /\
  match r with
  | Ok _ => well_formed (hget h t) args kw /\ exists p, d_rep o' = d_rep o ++ [p] /\
      length h <= p < length h' /\
      map fst (hget h' p) = map fst (hget h t) /\
      (forall k v, In (k, v) (hget h' p) <-> bound (hget h t) args kw k v)
  | Err e => e = InvalidParameters /\ ~ well_formed (hget h t) args kw /\ o' = o
  end.
Proof. exact (@add_spec). Qed.
Print Assumptions C10_add.

(** C10: any history of add calls. *)
Theorem C10_add_history : forall (V : Type) (calls : list (list (option V) * dict V))
    (h h' : dheap V) o o' t,
  t < length h -> NoDup (map fst (hget h t)) ->
  (forall args kw, In (args, kw) calls -> NoDup (map fst kw) /\ reserved_free kw) ->
  adds h o t calls = (h', o') ->
  (forall x, x < length h -> hget h' x = hget h x) /\ d_single o' = d_single o /\
  length h <= length h' /\
  exists ps, d_rep o' = d_rep o ++ ps /\ added (hget h t) calls (map (hget h') ps).
Proof. exact (@adds_spec). Qed.
Print Assumptions C10_add_history.

(** C10 refuted for reserved names: a keyword called "template" raises TypeError, not
    InvalidParameters. *)
Theorem C10_error_class_refuted : exists (h : dheap nat) t args kw h' e,
  t < length h /\ init h t args kw = (h', Err e) /\ e <> InvalidParameters.
Proof.
  exists [[("a"%string, Some 1)]], 0, [], [("template"%string, Some 2)].
  eexists _, _. repeat split; [auto|discriminate].
Qed.

(** C10 refuted for added sets: a mandatory value may stay unset. *)
Theorem C10_add_unset_refuted : exists (h h' : dheap nat) o o' t p,
  t < length h /\ add h o t [] [] = (h', o', Ok tt) /\ In p (d_rep o') /\
  exists k, In (k, None) (hget h' p).
Proof.
  exists [[("A"%string, None)]], [[("A"%string, None)]; [("A"%string, None)]],
    {| d_single := 0; d_rep := [] |}, {| d_single := 0; d_rep := [1] |}, 0, 1.
  repeat split; auto; simpl; auto. exists "A"%string. auto.
Qed.

(** LorentzEnergy().add(2, gamma=5) on the template {A: 1, E: 0, gamma: 3}. *)
Example C10_example :
  let t := [("A"%string, Some 1); ("E"%string, Some 0); ("gamma"%string, Some 3)] in
  let kw := [("gamma"%string, Some 5)] in
  well_formed t [Some 2] kw /\
  add [t] {| d_single := 0; d_rep := [] |} 0 [Some 2] kw =
   ([t; [("A"%string, Some 2); ("E"%string, Some 0); ("gamma"%string, Some 5)]],
    {| d_single := 0; d_rep := [1] |}, Ok tt).
Proof.
  intros t kw. split; [|reflexivity].
  destruct (add [t] {| d_single := 0; d_rep := [] |} 0 [Some 2] kw) as [[h' o'] r] eqn:E.
  assert (H := E). vm_compute in H. injection H as <- <- <-.
  apply C10_add in E; [|simpl; lia| | |].
  - exact (proj1 (proj2 (proj2 (proj2 E)))).
  - simpl. repeat constructor; simpl; intuition discriminate.
  - simpl. repeat constructor; simpl; intuition discriminate.
  - split; simpl; intuition discriminate.
Qed.
