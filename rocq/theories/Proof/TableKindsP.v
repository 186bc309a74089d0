(** Lemmas for Props/TableKindsT.v: the kinds of interpolation. *)
From Coq Require Import Reals String List Lra Lia Sorted Permutation Bool.
From Coquelicot Require Import Complex.
From Verif.Base Require Import Py Cx.
From Verif.Model Require Import Units Tables TableKinds.
From Verif.Spec Require Import Table.
From Verif.Proof Require Import TablesP.
Import ListNotations.
Open Scope R_scope.

Lemma ss_inv p q l : StronglySorted strictly (p :: q :: l) -> fst p < fst q /\ StronglySorted strictly (q :: l) /\ (forall r, In r (q :: l) -> fst p < fst r).
Proof.
  intros S. inversion S as [|? ? S' F]; subst. rewrite Forall_forall in F. split; [apply F; now left|]. split; [exact S'|]. exact F.
Qed.
Lemma ss_head q l r : StronglySorted strictly (q :: l) -> In r (q :: l) -> fst q <= fst r.
Proof. intros S [<-|H]; [lra|]. inversion S as [|? ? S' F]; subst. rewrite Forall_forall in F. specialize (F r H). unfold strictly in F. lra. Qed.

(** Which row is taken *)
Lemma previous_spec l : forall p x, StronglySorted strictly (p :: l) -> fst p <= x ->
  let r := previous_row p l x in In r (p :: l) /\ fst r <= x /\ forall q, In q (p :: l) -> fst q <= fst r \/ x < fst q.
Proof.
  induction l as [|q l IH]; intros p x S H; cbn [previous_row].
  - split; [now left|]. split; [exact H|]. intros r [<-|[]]. left. lra.
  - destruct (ss_inv _ _ _ S) as (L & S' & F). destruct (Rle_dec (fst q) x) as [Q|Q].
    + destruct (IH q x S' Q) as (A & B & D). split; [now right|]. split; [exact B|]. intros r [<-|Hr]; [|now apply D].
      left. apply Rlt_le. apply F. exact A.
    + split; [now left|]. split; [exact H|]. intros r [<-|Hr]; [left; lra|]. right. assert (G := ss_head _ _ _ S' Hr). lra.
Qed.
Lemma next_spec l : forall p x, StronglySorted strictly (p :: l) -> (exists q, In q (p :: l) /\ x <= fst q) ->
  let r := next_row p l x in In r (p :: l) /\ x <= fst r /\ forall q, In q (p :: l) -> fst r <= fst q \/ fst q < x.
Proof.
  induction l as [|q l IH]; intros p x S (h & Hh & Lh); cbn [next_row].
  - destruct Hh as [<-|[]]. split; [now left|]. split; [exact Lh|]. intros r [<-|[]]. left. lra.
  - destruct (ss_inv _ _ _ S) as (L & S' & F). destruct (Rlt_dec (fst p) x) as [Q|Q].
    + destruct Hh as [<-|Hh]; [lra|]. destruct (IH q x S' (ex_intro _ h (conj Hh Lh))) as (A & B & D).
      split; [now right|]. split; [exact B|]. intros r [<-|Hr]; [now right|now apply D].
    + split; [now left|]. split; [lra|]. intros r [<-|Hr]; [left; lra|]. left. apply Rlt_le, F, Hr.
Qed.
Lemma nearest_spec up l : forall p x, StronglySorted strictly (p :: l) ->
  let r := nearest_row up p l x in In r (p :: l) /\ forall q, In q (p :: l) -> Rabs (x - fst r) <= Rabs (x - fst q) /\
    (Rabs (x - fst q) = Rabs (x - fst r) -> if up then fst q <= fst r else fst r <= fst q).
Proof.
  induction l as [|q l IH]; intros p x S; cbn [nearest_row].
  - split; [now left|]. intros r [<-|[]]. split; [lra|]. intros _. destruct up; lra.
  - destruct (ss_inv _ _ _ S) as (L & S' & F). set (b := (fst p / 2 + fst q / 2)%R).
    assert (D : forall c, (c = true -> if up then b <= x else b < x) -> (c = false -> if up then x < b else x <= b) ->
      let r := if c then nearest_row up q l x else p in In r (p :: q :: l) /\ forall s, In s (p :: q :: l) -> Rabs (x - fst r) <= Rabs (x - fst s) /\
        (Rabs (x - fst s) = Rabs (x - fst r) -> if up then fst s <= fst r else fst r <= fst s)).
    { intros [|] H1 H2.
      - destruct (IH q x S') as [A B]. split; [now right|]. intros s [<-|Hs]; [|now apply B]. destruct (B q (or_introl eq_refl)) as [B1 _]. cbv zeta in B1.
        specialize (H1 eq_refl). unfold b in H1. assert (Q := F _ A). destruct up.
        + split; [|intros _; lra]. eapply Rle_trans; [exact B1|]. unfold Rabs. destruct (Rcase_abs (x - fst q)), (Rcase_abs (x - fst p)); lra.
        + assert (G : Rabs (x - fst q) < Rabs (x - fst p)) by (unfold Rabs; destruct (Rcase_abs (x - fst q)), (Rcase_abs (x - fst p)); lra). split; [lra|]. intros E. cbv beta iota in E. lra.
      - specialize (H2 eq_refl). split; [now left|]. intros s [<-|Hs]; [split; [lra|intros _; destruct up; lra]|]. assert (G := ss_head _ _ _ S' Hs). unfold b in H2. destruct up.
        + assert (K : Rabs (x - fst p) < Rabs (x - fst s)) by (unfold Rabs; destruct (Rcase_abs (x - fst s)), (Rcase_abs (x - fst p)); lra). split; [lra|]. intros E. lra.
        + split; [|intros _; lra]. unfold Rabs. destruct (Rcase_abs (x - fst s)), (Rcase_abs (x - fst p)); lra. }
    apply D; destruct up.
    + destruct (Rle_dec b x); [auto|discriminate].
    + destruct (Rlt_dec b x); [lra|discriminate].
    + destruct (Rle_dec b x); [discriminate|lra].
    + destruct (Rlt_dec b x); [discriminate|lra].
Qed.

(** numpy.interp between the neighbours; the last row at the upper end *)
Lemma np_spec l : forall p x, StronglySorted strictly (p :: l) -> fst p <= x -> (exists q, In q (p :: l) /\ x <= fst q) ->
  (exists r, In r (p :: l) /\ fst r = x /\ np_interp p l x = snd r) \/
  (exists a b, neighbours (p :: l) a b /\ fst a <= x < fst b /\ np_interp p l x = (snd a + RtoC ((x - fst a) / (fst b - fst a)) * (snd b - snd a))%C).
Proof.
  induction l as [|q l IH]; intros p x S H (h & Hh & Lh); cbn [np_interp].
  - left. destruct Hh as [<-|[]]. exists p. split; [now left|]. split; [lra|reflexivity].
  - destruct (ss_inv _ _ _ S) as (L & S' & F). destruct (Rle_dec (fst q) x) as [Q|Q].
    + destruct (IH q x S' Q) as [(r & A & B & D)|(a & b & (A & B & LT & NB) & D & E)].
      * destruct Hh as [<-|Hh]; [exists q; split; [now left|lra]|eauto].
      * left. exists r. split; [now right|]. split; assumption.
      * right. exists a, b. split; [|split; assumption]. split; [now right|]. split; [now right|]. split; [exact LT|].
        intros r [<-|Hr]; [left; apply Rlt_le, F, A|now apply NB].
    + right. exists p, q. split; [|split; [lra|]].
      * split; [now left|]. split; [right; now left|]. split; [exact L|]. intros r [<-|Hr]; [left; lra|]. right. apply (ss_head _ _ _ S' Hr).
      * unfold Rdiv. rewrite RtoC_mult, RtoC_inv by lra. unfold Cdiv. ring.
Qed.

Lemma increasing_strict l : increasing l = true -> StronglySorted below l -> StronglySorted strictly l.
Proof.
  induction l as [|p l IH]; intros I S; [constructor|]. inversion S as [|? ? S' F]; subst. destruct l as [|q l]; [repeat constructor|].
  cbn [increasing] in I. destruct (Rlt_dec (fst p) (fst q)) as [L|]; [|discriminate]. constructor; [now apply IH|].
  assert (G := IH I S'). rewrite Forall_forall. intros r Hr. unfold strictly. assert (K := ss_head _ _ _ G Hr). lra.
Qed.
Lemma strict_increasing l : StronglySorted strictly l -> increasing l = true.
Proof.
  induction l as [|p [|q l] IH]; intros S; [reflexivity|reflexivity|]. destruct (ss_inv _ _ _ S) as (L & S' & _). cbn [increasing].
  destruct (Rlt_dec (fst p) (fst q)); [now apply IH|contradiction].
Qed.
