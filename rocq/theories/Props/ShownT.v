(** C120: the text of a dispersion shows all of it. *)
From Coq Require Import String Ascii List.
From Verif.Model Require Import DispRepr.
From Verif.Spec Require Import Shown.
From Verif.Proof Require Import ShownP.
Import ListNotations.
Open Scope string_scope.

(** C120: dispersions with the same text have the same class, parameters and oscillators, in the same
    order; sums with the same text are of the same kind and have the same summands. *)
Theorem C120_determined : forall p q, shown p -> shown q -> text p = text q -> p = q.
Proof. exact text_inj. Qed.
Print Assumptions C120_determined.

(** C120: what the text looks like. *)
Theorem C120_layout : forall name (k v : string) l,
  text (One (Disp name [(k, v)] [])) = name ++ nl ++ underline (String.length name) ++ nl ++ k ++ " = " ++ v /\
  forall d d', text (Sum false [d; d']) = "DispersionSum" ++ nl ++ "=============" ++ nl ++ nl ++ text (One d) ++ nl ++ nl ++ text (One d') /\
  text (One (Disp name l [[(k, v)]; [(k, v)]])) = text (One (Disp name l [])) ++ nl ++ nl ++ "Oscillators" ++ nl ++ "===========" ++ nl ++ k ++ " = " ++ v ++ nl ++ k ++ " = " ++ v.
Proof.
  intros name k v l. split; [unfold text, repr, dict_to_str; cbn [class single_params rep_params map join fst snd]; now rewrite app_nil_s|].
  intros d d'. split; [reflexivity|]. unfold text, repr, dict_to_str. cbn [class single_params rep_params map join fst snd].
  rewrite app_nil_s, !app_assoc_s. reflexivity.
Qed.
Print Assumptions C120_layout.

(** C120: unlike for other classes, the line below the name of an index based sum is too short. *)
Theorem C120_underline_refuted : exists l, text (Sum true l) = "IndexDispersionSum" ++ nl ++ "=============" ++ nl ++ nl /\
  String.length "IndexDispersionSum" <> String.length "=============".
Proof. exists []. split; [reflexivity|discriminate]. Qed.
Print Assumptions C120_underline_refuted.

(** C120: a class called Oscillators would be mistaken for the oscillators of the dispersion before it. *)
Theorem C120_headline_refuted : exists l l', l <> l' /\ text (Sum false l) = text (Sum false l').
Proof.
  exists [Disp "A" [] []; Disp "Oscillators" [("x", "1")] []], [Disp "A" [] [[("x", "1")]]]. split; [discriminate|reflexivity].
Qed.
Print Assumptions C120_headline_refuted.

(** Two oscillators against two dispersions with one *)
Example C120_example :
  let lorentz o := Disp "LorentzLorentz" [] o in
  let a := Sum false [lorentz [[("A", "1"); ("E", "2.5")]; [("A", "3"); ("E", "4")]]; Disp "EpsilonInf" [("eps", "2")] []] in
  let b := Sum false [lorentz [[("A", "1"); ("E", "2.5")]]; lorentz [[("A", "3"); ("E", "4")]]; Disp "EpsilonInf" [("eps", "2")] []] in
  shown a /\ shown b /\ text a <> text b.
Proof.
  intros lorentz a b.
  assert (A : shown a).
  { unfold a, lorentz. cbn [shown]. repeat match goal with |- Forall _ _ => constructor | |- plain _ => unfold plain, words, word; cbn [class single_params rep_params fst snd free] | |- _ /\ _ => split end; try exact I; try discriminate; cbn; repeat split; discriminate. }
  assert (B : shown b).
  { unfold b, lorentz. cbn [shown]. repeat match goal with |- Forall _ _ => constructor | |- plain _ => unfold plain, words, word; cbn [class single_params rep_params fst snd free] | |- _ /\ _ => split end; try exact I; try discriminate; cbn; repeat split; discriminate. }
  split; [exact A|]. split; [exact B|]. intros E. apply (C120_determined a b A B) in E. discriminate.
Qed.
