(** Lemmas for Props/TablesT.v. *)
From Coq Require Import Reals List Lra Lia Sorted Permutation.
From Coquelicot Require Import Complex.
From Verif.Base Require Import Py Cx.
From Verif.Model Require Import Units Tables.
From Verif.Spec Require Import Table.
Import ListNotations.
Open Scope R_scope.

Lemma insert_perm p l : Permutation (p :: l) (insert p l).
Proof.
  induction l as [|q l IH]; cbn; [reflexivity|]. destruct (Rlt_dec (fst q) (fst p)); [|reflexivity].
  rewrite perm_swap. now constructor.
Qed.
Lemma sorted_perm l : Permutation l (sorted l).
Proof.
  induction l as [|p l IH]; cbn; [reflexivity|]. rewrite <- insert_perm. now constructor.
Qed.

Definition below (p q : point) : Prop := fst p <= fst q.
Lemma insert_sorted p l : StronglySorted below l -> StronglySorted below (insert p l).
Proof.
  induction 1 as [|q l S IH F]; cbn; [repeat constructor|].
  destruct (Rlt_dec (fst q) (fst p)) as [L|L].
  - constructor; [exact IH|]. apply Forall_forall. intros r H.
    apply (Permutation_in _ (Permutation_sym (insert_perm p l))) in H. destruct H as [<-|H].
    + unfold below. lra.
    + rewrite Forall_forall in F. now apply F.
  - constructor; [now constructor|]. constructor; [unfold below; lra|].
    eapply Forall_impl; [|exact F]. intros r. unfold below. lra.
Qed.
Lemma sorted_sorted l : StronglySorted below (sorted l).
Proof. induction l as [|p l IH]; cbn; [constructor|]. now apply insert_sorted. Qed.

Definition strictly (p q : point) : Prop := fst p < fst q.
Lemma strict l : StronglySorted below l -> NoDup (map fst l) -> StronglySorted strictly l.
Proof.
  induction 1 as [|q l S IH F]; cbn; intros N; [constructor|]. inversion N as [|? ? NI N']; subst.
  constructor; [now apply IH|]. rewrite Forall_forall in *. intros r H. specialize (F r H). unfold below, strictly in *.
  destruct F as [F|F]; [exact F|]. exfalso. apply NI. rewrite F. now apply in_map.
Qed.

Lemma last_default (l : list point) p d d' : last (p :: l) d = last (p :: l) d'.
Proof. revert p; induction l as [|q l IH]; intros p; [reflexivity|]. exact (IH q). Qed.
Lemma last_in (l : list point) p : In (last (p :: l) p) (p :: l).
Proof.
  revert p; induction l as [|q l IH]; intros p; [now left|].
  change (last (p :: q :: l) p) with (last (q :: l) p). right.
  rewrite (last_default l q p q). apply IH.
Qed.
Lemma last_top l p q : StronglySorted below (p :: l) -> In q (p :: l) -> fst q <= fst (last (p :: l) p).
Proof.
  intros S. revert q. assert (G : forall d q, In q (p :: l) -> fst q <= fst (last (p :: l) d)).
  { clear -S. revert p S. induction l as [|r l IH]; intros p S d q.
    - intros [<-|[]]. cbn. lra.
    - intros H. change (last (p :: r :: l) d) with (last (r :: l) d). inversion S as [|? ? S' F]; subst.
      destruct H as [<-|H]; [|now apply IH].
      apply Rle_trans with (fst r); [exact (Forall_inv F)|]. apply IH; [exact S'|now left]. }
  intros q. apply G.
Qed.

Lemma segment_cons p q r l x : segment (p :: q :: r :: l) x =
  if Rle_dec x (fst q) then Some (p, q) else segment (q :: r :: l) x.
Proof. reflexivity. Qed.

(** The segment found contains the argument, and there are no points in between *)
Lemma segment_spec l x : StronglySorted strictly l -> (2 <= length l)%nat ->
  (forall p, nth_error l 0 = Some p -> fst p <= x) -> (exists p, In p l /\ x <= fst p) ->
  exists a b, segment l x = Some (a, b) /\ neighbours l a b /\ fst a <= x <= fst b.
Proof.
  induction l as [|p l IH]; intros S L LO HI; [cbn in L; lia|].
  destruct l as [|q l]; [cbn in L; lia|]. specialize (LO p eq_refl) as LP.
  inversion S as [|? ? S' F]; subst. pose proof (Forall_inv F) as PQ. unfold strictly in PQ.
  inversion S' as [|? ? S'' F']; subst.
  assert (FIRST : neighbours (p :: q :: l) p q).
  { repeat split; [now left|right; now left|exact PQ|]. intros r [<-|[<-|H]]; [left; lra|right; lra|right].
    rewrite Forall_forall in F'. specialize (F' r H). unfold strictly in F'. lra. }
  destruct l as [|r l].
  - cbn. exists p, q. assert (Q : x <= fst q) by (destruct HI as (z & [<-|[<-|[]]] & Z); lra).
    split; [reflexivity|]. split; [exact FIRST|]. lra.
  - rewrite segment_cons. destruct (Rle_dec x (fst q)) as [Q|Q].
    + exists p, q. split; [reflexivity|]. split; [exact FIRST|]. lra.
    + destruct IH as (a & b & E & N & R).
      * exact S'.
      * cbn. lia.
      * intros z [= <-]. lra.
      * destruct HI as (z & [<-|H] & Z); [exfalso; lra|]. now exists z.
      * exists a, b. split; [exact E|]. split; [|exact R].
        destruct N as (A & B & AB & N). repeat split; [now right|now right|exact AB|].
        intros z [<-|H]; [|now apply N]. left.
        assert (QA : fst q <= fst a).
        { destruct A as [<-|A]; [lra|]. rewrite Forall_forall in F'. specialize (F' a A). unfold strictly in F'. lra. }
        lra.
Qed.

Lemma neighbours_perm l m a b : Permutation l m -> neighbours l a b -> neighbours m a b.
Proof.
  intros P (A & B & L & N). repeat split; [now apply (Permutation_in _ P)|now apply (Permutation_in _ P)|exact L|].
  intros p H. apply N. now apply (Permutation_in _ (Permutation_sym P)).
Qed.

Lemma interp_inside l x : NoDup (map fst l) -> (2 <= length l)%nat -> inside l x ->
  exists a b, neighbours l a b /\ fst a <= x <= fst b /\
    interp l x = Ok (Some (snd a + RtoC ((x - fst a) / (fst b - fst a)) * (snd b - snd a))%C).
Proof.
  intros N L ((lo & LI & LO) & (hi & HI & HH)). pose proof (sorted_perm l) as P. pose proof (sorted_sorted l) as S.
  assert (NS : NoDup (map fst (sorted l))) by (eapply Permutation_NoDup; [|exact N]; now apply Permutation_map).
  unfold interp. destruct (sorted l) as [|p r] eqn:E; rewrite ?E in *.
  - apply Permutation_sym, Permutation_nil in P. subst l. cbn in L. lia.
  - assert (LP : fst p <= x).
    { apply (Permutation_in _ P) in LI. inversion S as [|? ? S' F]; subst. destruct LI as [<-|LI]; [exact LO|].
      rewrite Forall_forall in F. specialize (F lo LI). unfold below in F. lra. }
    destruct (Rlt_dec x (fst p)); [lra|].
    assert (LQ : x <= fst (last (p :: r) p)).
    { apply Rle_trans with (fst hi); [exact HH|]. apply last_top; [exact S|]. now apply (Permutation_in _ P). }
    destruct (Rlt_dec (fst (last (p :: r) p)) x); [lra|].
    destruct (segment_spec (p :: r) x) as (a & b & SE & NB & R).
    + now apply strict.
    + pose proof (Permutation_length P) as PL. unfold point in *. lia.
    + intros z [= <-]. exact LP.
    + exists hi. split; [|exact HH]. now apply (Permutation_in _ P).
    + exists a, b. split; [eapply neighbours_perm; [apply Permutation_sym; exact P|exact NB]|]. split; [exact R|].
      rewrite SE. cbn [obind]. destruct a as [x0 y0], b as [x1 y1]. cbn [on_segment fst snd] in *.
      destruct NB as (_ & _ & LT & _). cbn in LT. unfold rdiv. destruct (Req_EM_T (x1 - x0) 0); [lra|]. cbn [obind].
      do 2 f_equal. unfold Rdiv. rewrite Rmult_1_l, (RtoC_mult (x - x0)). ring.
Qed.

Lemma interp_outside l x : ~ inside l x -> interp l x = Err ValueError.
Proof.
  intros NI. pose proof (sorted_perm l) as P. pose proof (sorted_sorted l) as S. unfold interp.
  destruct (sorted l) as [|p r] eqn:E; [reflexivity|]. rewrite ?E in *.
  destruct (Rlt_dec x (fst p)); [reflexivity|].
  destruct (Rlt_dec (fst (last (p :: r) p)) x); [reflexivity|]. exfalso. apply NI. split.
  - exists p. split; [apply (Permutation_in _ (Permutation_sym P)); now left|lra].
  - exists (last (p :: r) p). split; [apply (Permutation_in _ (Permutation_sym P)); apply last_in|lra].
Qed.
