(** Lemmas on the reader of psi and delta from NeXus files. *)
From Coq Require Import Reals String List Arith Bool Lia.
From Verif.Base Require Import Py.
From Verif.Model Require Import NexusPsiDelta.
Import ListNotations.
Open Scope R_scope.
Open Scope list_scope.

Definition arr (l : list R) : nd := Arr (map Scalar l).

Lemma vector_arr l : vector (arr l) = Ok l.
Proof. unfold vector, arr. induction l as [|a l IH]; [reflexivity|]. cbn. now rewrite IH. Qed.

(** Blocks of rows with one angle *)
Definition block (a : R) (ws : list R) : list row := map (fun w => Row a (w / 10) None None) ws.
Definition filled (a : R) (ws ps ds : list R) : list row :=
  map (fun '(w, (p, d)) => Row a (w / 10) (Some p) (Some d)) (combine ws (combine ps ds)).

Lemma assign_other put a vs rows rest t : Forall (fun r => aoi r <> a) rows -> assign put a vs rest = Ok t -> assign put a vs (rows ++ rest) = Ok (rows ++ t).
Proof.
  intros F E. induction rows as [|r rows IH]; [exact E|]. cbn. inversion F as [|? ? N F']. subst. destruct (Req_EM_T (aoi r) a); [contradiction|]. rewrite IH by exact F'. reflexivity.
Qed.

Lemma assign_none put a rows : Forall (fun r => aoi r <> a) rows -> assign put a [] rows = Ok rows.
Proof. intro F. rewrite <- (app_nil_r rows) at 1. rewrite (assign_other put a [] rows [] []); [now rewrite app_nil_r|exact F|reflexivity]. Qed.

Lemma assign_block put a vs rows rest : Forall (fun r => aoi r = a) rows -> length vs = length rows -> Forall (fun r => aoi r <> a) rest ->
  assign put a vs (rows ++ rest) = Ok (map (fun '(v, r) => put v r) (combine vs rows) ++ rest).
Proof.
  intros F L N. revert vs L. induction rows as [|r rows IH]; intros [|v vs] L; cbn in L; try discriminate; [now apply assign_none|].
  cbn. inversion F as [|? ? E F']. subst. destruct (Req_EM_T (aoi r) (aoi r)); [|contradiction]. rewrite IH by (auto; lia). reflexivity.
Qed.

Lemma block_aoi a ws : Forall (fun r => aoi r = a) (block a ws).
Proof. unfold block. apply Forall_forall. intros r I. apply in_map_iff in I. destruct I as (w & <- & _). reflexivity. Qed.

Lemma filled_aoi a ws ps ds : Forall (fun r => aoi r = a) (filled a ws ps ds).
Proof. unfold filled. apply Forall_forall. intros r I. apply in_map_iff in I. destruct I as ((w & p & d) & <- & _). reflexivity. Qed.

(** What is written: one entry for each angle *)
Definition entries (ws : list R) (l : list (R * (list R * list R))) : list row :=
  flat_map (fun '(a, (ps, ds)) => filled a ws ps ds) l.
Definition empty (ws : list R) (l : list (R * (list R * list R))) : list row := flat_map (fun p => block (fst p) ws) l.

Lemma entries_other ws l a : ~ In a (map fst l) -> Forall (fun r => aoi r <> a) (entries ws l).
Proof.
  intro N. unfold entries. apply Forall_forall. intros r I. apply in_flat_map in I. destruct I as ((b & ps & ds) & I & J). assert (B := filled_aoi b ws ps ds).
  rewrite Forall_forall in B. rewrite (B r J). intros ->. apply N. now apply (in_map fst) in I.
Qed.

Lemma empty_other ws l a : ~ In a (map fst l) -> Forall (fun r => aoi r <> a) (empty ws l).
Proof.
  intro N. unfold empty. apply Forall_forall. intros r I. apply in_flat_map in I. destruct I as (p & I & J). assert (B := block_aoi (fst p) ws).
  rewrite Forall_forall in B. rewrite (B r J). intros E. apply N. rewrite <- E. now apply in_map.
Qed.

Lemma fill_two ws a ps ds : length ps = length ws -> length ds = length ws ->
  map (fun '(v, r) => put_delta v r) (combine ds (map (fun '(v, r) => put_psi v r) (combine ps (block a ws)))) = filled a ws ps ds.
Proof.
  unfold filled, block. revert ps ds. induction ws as [|w ws IH]; intros [|p ps] [|d ds] P D; cbn in *; try discriminate; auto. now rewrite IH by lia.
Qed.

Lemma fill_spec data indexing ws todo : forall n done, 
  (forall i a ps ds, nth_error todo i = Some (a, (ps, ds)) -> index (indexing (n + i)%nat 0%nat) data = Ok (arr ps) /\ index (indexing (n + i)%nat 1%nat) data = Ok (arr ds) /\ length ps = length ws /\ length ds = length ws) ->
  NoDup (map fst (done ++ todo)) ->
  fill data indexing n (map fst todo) (entries ws done ++ empty ws todo) = Ok (entries ws (done ++ todo)).
Proof.
  induction todo as [|[a [ps ds]] todo IH]; intros n done H ND; cbn [map fst fill].
  - cbn. now rewrite !app_nil_r.
  - destruct (H 0%nat a ps ds eq_refl) as (I0 & I1 & LP & LD). rewrite Nat.add_0_r in I0, I1. rewrite I0, I1. cbn [rbind]. rewrite !vector_arr. cbn [rbind].
    rewrite map_app in ND. cbn [map fst] in ND. assert (ND2 := NoDup_remove_2 _ _ _ ND).
    assert (NO : ~ In a (map fst done) /\ ~ In a (map fst todo)) by (rewrite in_app_iff in ND2; tauto).
    assert (O1 := entries_other ws done a (proj1 NO)). assert (O2 := empty_other ws todo a (proj2 NO)).
    assert (F1 : Forall (fun r => aoi r = a) (map (fun '(v, r) => put_psi v r) (combine ps (block a ws)))).
    { apply Forall_forall. intros r I. apply in_map_iff in I. destruct I as ((v & r0) & <- & J). apply in_combine_r in J. assert (B := block_aoi a ws). rewrite Forall_forall in B. exact (B r0 J). }
    cbn [empty flat_map fst]. fold (empty ws todo).
    rewrite (assign_other put_psi a ps _ _ _ O1 (assign_block put_psi a ps (block a ws) (empty ws todo) (block_aoi a ws) ltac:(unfold block; now rewrite map_length) O2)). cbn [rbind].
    rewrite (assign_other put_delta a ds _ _ _ O1 (assign_block put_delta a ds _ (empty ws todo) F1 ltac:(rewrite map_length, combine_length; unfold block; rewrite map_length; lia) O2)). cbn [rbind].
    rewrite fill_two by assumption. specialize (IH (S n) (done ++ [(a, (ps, ds))])). rewrite <- app_assoc in IH. cbn [app] in IH.
    assert (E : entries ws (done ++ [(a, (ps, ds))]) = entries ws done ++ filled a ws ps ds) by (unfold entries; rewrite flat_map_app; cbn; now rewrite app_nil_r).
    rewrite E, <- app_assoc in IH. apply IH.
    + intros i b q e N. replace (S n + i)%nat with (n + S i)%nat by lia. exact (H (S i) b q e N).
    + rewrite map_app. exact ND.
Qed.

Lemma read_data_spec f wp ap dp indexing data ws l : f ap = Some (Data (arr (map fst l))) -> f wp = Some (Data (arr ws)) -> f dp = Some (Data data) ->
  (forall i a ps ds, nth_error l i = Some (a, (ps, ds)) -> index (indexing i 0%nat) data = Ok (arr ps) /\ index (indexing i 1%nat) data = Ok (arr ds) /\ length ps = length ws /\ length ds = length ws) ->
  NoDup (map fst l) -> read_data f wp ap dp indexing = Ok (entries ws l).
Proof.
  intros A W D H ND. unfold read_data, get_array. rewrite A, W, D. cbn [rbind]. rewrite !vector_arr. cbn [rbind].
  assert (E : flat_map (fun a => map (fun w => Row a (w / 10) None None) ws) (map fst l) = empty ws l).
  { unfold empty, block. clear. induction l as [|p l IH]; [reflexivity|]. cbn. now rewrite IH. }
  rewrite E. exact (fill_spec data indexing ws l 0%nat [] H ND).
Qed.

Lemma filled_length a ws ps ds : length ps = length ws -> length ds = length ws -> length (filled a ws ps ds) = length ws.
Proof. intros P D. unfold filled. rewrite map_length, !combine_length. lia. Qed.

Lemma filled_nth a ws ps ds j w p d : nth_error ws j = Some w -> nth_error ps j = Some p -> nth_error ds j = Some d -> nth_error (filled a ws ps ds) j = Some (Row a (w / 10) (Some p) (Some d)).
Proof.
  unfold filled. revert ps ds j. induction ws as [|w0 ws IH]; intros [|p0 ps] [|d0 ds] [|j]; cbn; try discriminate; [now intros [= ->] [= ->] [= ->]|apply IH].
Qed.

Lemma entries_length ws l : Forall (fun '(_, (ps, ds)) => length ps = length ws /\ length ds = length ws) l -> length (entries ws l) = (length l * length ws)%nat.
Proof.
  induction 1 as [|[a [ps ds]] l [P D] F IH]; [reflexivity|]. cbn [entries flat_map]. fold (entries ws l). rewrite app_length, filled_length, IH by assumption. reflexivity.
Qed.

Lemma entries_nth ws l i j a ps ds w p d : Forall (fun '(_, (ps, ds)) => length ps = length ws /\ length ds = length ws) l ->
  nth_error l i = Some (a, (ps, ds)) -> nth_error ws j = Some w -> nth_error ps j = Some p -> nth_error ds j = Some d ->
  nth_error (entries ws l) (i * length ws + j) = Some (Row a (w / 10) (Some p) (Some d)).
Proof.
  intros F N W P D. revert i N. induction F as [|[b [qs es]] l [Q E] F IH]; intros [|i] N; try discriminate.
  - injection N as -> -> ->. cbn [entries flat_map]. cbn [Nat.mul Nat.add]. rewrite nth_error_app1; [now apply filled_nth|]. rewrite filled_length by assumption. apply nth_error_Some. congruence.
  - cbn [entries flat_map]. fold (entries ws l). rewrite nth_error_app2 by (rewrite filled_length by assumption; cbn; lia). rewrite filled_length by assumption.
    replace (S i * length ws + j - length ws)%nat with (i * length ws + j)%nat by (cbn; lia). now apply IH.
Qed.
