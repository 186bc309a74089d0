From Coq Require Import Reals Lra Lia List ZArith.
From Verif.Base Require Import Py Cx Mat.
From Verif.Model Require Import Units Structure.
Import ListNotations.
Open Scope R_scope.

Section L.
Variable T : Type.

Lemma diff_map_seq (f : nat -> R) n k :
  diff (map f (seq k (S n))) = map (fun i => f (S i) - f i) (seq k n).
Proof.
  revert k. induction n as [|n IH]; intros k; [reflexivity|].
  change (seq k (S (S n))) with (k :: seq (S k) (S n)).
  change (seq k (S n)) with (k :: seq (S k) n). cbn [map].
  rewrite <- IH. cbn [seq map]. reflexivity.
Qed.
Lemma zmid_map_seq (f : nat -> R) n k :
  zmid (map f (seq k (S n))) = map (fun i => (f i + f (S i)) / 2) (seq k n).
Proof.
  revert k. induction n as [|n IH]; intros k; [reflexivity|].
  change (seq k (S (S n))) with (k :: seq (S k) (S n)).
  change (seq k (S n)) with (k :: seq (S k) n). cbn [map].
  rewrite <- IH. cbn [seq map]. reflexivity.
Qed.

Lemma inhom_profile d n (tensor : R -> T) : (0 < n)%nat ->
  profile (Inhomogeneous d n tensor) =
  map (fun k => (d / INR n, tensor ((INR k + 1 / 2) * (d / INR n)))) (seq 0 n).
Proof.
  intros Hn. cbn [profile]. unfold get_slices. rewrite PeanoNat.Nat.add_1_r.
  rewrite diff_map_seq, zmid_map_seq, map_map.
  assert (N : INR n <> 0) by (apply not_0_INR; lia).
  generalize (seq 0 n). induction l as [|k l IH]; [reflexivity|]. cbn [map combine]. rewrite IH. f_equal.
  rewrite S_INR. f_equal; [field; exact N|]. f_equal. field. exact N.
Qed.

Lemma times_length {A} n (l : list A) : length (times n l) = (n * length l)%nat.
Proof. induction n; simpl; [reflexivity|]. rewrite app_length, IHn. reflexivity. Qed.

Lemma times_app_comm {A} n (l : list A) : times n l ++ l = l ++ times n l.
Proof. induction n; simpl; [now rewrite app_nil_r|]. rewrite <- app_assoc, IHn. reflexivity. Qed.

Fixpoint profiles (ls : list (layer T)) : list (R * T) :=
  match ls with [] => [] | l :: ls => profile l ++ profiles ls end.

Lemma profiles_app a b : profiles (a ++ b) = profiles a ++ profiles b.
Proof. induction a; simpl; [reflexivity|]. now rewrite IHa, app_assoc. Qed.

Lemma profiles_times n ls : profiles (times n ls) = times n (profiles ls).
Proof. induction n; simpl; [reflexivity|]. now rewrite profiles_app, IHn. Qed.

Lemma profile_repeated ls r b a : profile (Repeated ls r b a) =
  (match b with O => [] | S _ => last_n b (profiles ls) end) ++ times r (profiles ls) ++ firstn a (profiles ls).
Proof. reflexivity. Qed.

Lemma last_n_0 {A} (l : list A) : last_n 0 l = [].
Proof. unfold last_n. rewrite PeanoNat.Nat.sub_0_r. apply skipn_all. Qed.

Lemma profile_repeated' ls r b a : profile (Repeated ls r b a) =
  last_n b (profiles ls) ++ times r (profiles ls) ++ firstn a (profiles ls).
Proof. rewrite profile_repeated. destruct b; [now rewrite last_n_0|reflexivity]. Qed.

Lemma structure_profile_eq f ls b : structure_profile (Structure f ls b) =
  (None, f) :: map (fun p => (Some (fst p), snd p)) (profiles ls) ++ [(None, b)].
Proof.
  unfold structure_profile. cbn [front_material layers back_material]. f_equal. f_equal.
  assert (G : forall acc, fold_left (fun acc l => acc ++ map (fun p => (Some (fst p), snd p)) (profile l)) ls acc
    = acc ++ map (fun p => (Some (fst p), snd p)) (profiles ls)).
  { induction ls as [|l ls IH]; intros acc; cbn [fold_left profiles map]; [now rewrite app_nil_r|].
    rewrite IH, map_app, app_assoc. reflexivity. }
  apply G.
Qed.

(** Layers with one slice *)
Definition single (l : layer T) : Prop := exists d eps, l = Homogeneous d eps.

Lemma profiles_single ls : Forall single ls -> length (profiles ls) = length ls /\
  forall n, profiles (firstn n ls) = firstn n (profiles ls) /\ profiles (skipn n ls) = skipn n (profiles ls).
Proof.
  induction 1 as [|l ls [d [eps ->]] F [IH1 IH2]].
  - split; [reflexivity|]. intros [|n]; split; reflexivity.
  - split; [simpl; now rewrite IH1|]. intros [|n]; [split; reflexivity|].
    cbn [firstn skipn profiles profile app]. destruct (IH2 n) as [-> ->]. split; reflexivity.
Qed.

Lemma profiles_last_n ls n : Forall single ls -> profiles (last_n n ls) = last_n n (profiles ls).
Proof.
  intros F. destruct (profiles_single ls F) as [E1 E2]. unfold last_n. rewrite E1. apply E2.
Qed.
End L.
Arguments profiles {T}. Arguments single {T}.

(** Sums of thicknesses *)
Definition Rsum (l : list R) : R := fold_right Rplus 0 l.

Lemma Rsum_app a b : Rsum (a ++ b) = Rsum a + Rsum b.
Proof. induction a; simpl; [lra|]. rewrite IHa. lra. Qed.

Lemma Rsum_const {A} (c : R) (l : list A) : Rsum (map (fun _ => c) l) = INR (length l) * c.
Proof.
  induction l as [|x l IH]; [simpl; lra|]. cbn [map length]. rewrite S_INR. cbn [Rsum fold_right].
  change (fold_right Rplus 0 (map (fun _ : A => c) l)) with (Rsum (map (fun _ : A => c) l)). rewrite IH. lra.
Qed.

Lemma Rsum_times {A} (f : A -> R) n l : Rsum (map f (times n l)) = INR n * Rsum (map f l).
Proof.
  induction n as [|n IH]; [simpl; lra|]. cbn [times]. rewrite map_app, Rsum_app, IH, S_INR. lra.
Qed.

(** Periodicity of the expansion *)
Lemma nth_times {A} n (l : list A) i d : (i < n * length l)%nat -> l <> [] ->
  nth i (times n l) d = nth (i mod length l) l d.
Proof.
  revert i. induction n as [|n IH]; intros i H N; [simpl in H; lia|]. cbn [times].
  assert (L : (0 < length l)%nat) by (destruct l; [contradiction|simpl; lia]).
  destruct (Compare_dec.lt_dec i (length l)) as [K|K].
  - rewrite app_nth1 by exact K. rewrite PeanoNat.Nat.mod_small by exact K. reflexivity.
  - rewrite app_nth2 by lia. rewrite IH by (simpl in H; lia || exact N).
    f_equal. replace i with (i - length l + 1 * length l)%nat at 2 by lia.
    rewrite PeanoNat.Nat.mod_add by lia. reflexivity.
Qed.

Lemma nth_skipn {A} n (l : list A) i d : nth i (skipn n l) d = nth (n + i) l d.
Proof.
  revert l. induction n as [|n IH]; intros l; [reflexivity|]. destruct l; simpl; [now destruct i|apply IH].
Qed.
Lemma nth_firstn {A} n (l : list A) i d : (i < n)%nat -> nth i (firstn n l) d = nth i l d.
Proof.
  revert l i. induction n as [|n IH]; intros l i H; [lia|]. destruct l; [reflexivity|]. destruct i; [reflexivity|].
  simpl. apply IH. lia.
Qed.

Lemma periodic {A} (p : list A) r b a i d : (b <= length p)%nat -> (a <= length p)%nat -> p <> [] ->
  (i < b + r * length p + a)%nat ->
  nth i (last_n b p ++ times r p ++ firstn a p) d = nth ((i + (length p - b)) mod length p) p d.
Proof.
  intros Hb Ha N Hi. set (n := length p) in *.
  assert (n0 : (0 < n)%nat) by (unfold n; destruct p; [contradiction|simpl; lia]).
  assert (Lb : length (last_n b p) = b) by (unfold last_n; rewrite skipn_length; fold n; lia).
  destruct (Compare_dec.lt_dec i b) as [K|K].
  - rewrite app_nth1 by lia. unfold last_n. rewrite nth_skipn. fold n.
    rewrite PeanoNat.Nat.mod_small by lia. f_equal. lia.
  - rewrite app_nth2 by lia. rewrite Lb.
    replace (i + (n - b))%nat with (i - b + 1 * n)%nat by lia. rewrite PeanoNat.Nat.mod_add by lia.
    destruct (Compare_dec.lt_dec (i - b) (r * n)) as [K2|K2].
    + rewrite app_nth1 by (rewrite times_length; exact K2). apply nth_times; assumption.
    + rewrite app_nth2 by (rewrite times_length; fold n; lia). rewrite times_length. fold n.
      rewrite nth_firstn by lia.
      replace (i - b)%nat with (i - b - r * n + r * n)%nat at 2 by lia.
      rewrite PeanoNat.Nat.mod_add by lia. destruct (Compare_dec.lt_dec (i - b - r * n) n) as [K3|K3].
      * rewrite PeanoNat.Nat.mod_small by exact K3. reflexivity.
      * lia.
Qed.
