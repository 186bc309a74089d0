(** C31 (slices), C32, C33: layers, repetitions and structures. *)
From Coq Require Import Reals Lra Lia List ZArith.
From Coquelicot Require Import Complex.
From Verif.Base Require Import Py Cx Mat.
From Verif.Model Require Import Units Rotation Structure.
From Verif.Proof Require Import StructureP UnitsP.
Import ListNotations.
Open Scope R_scope.

(** C31: there are as many slices as divisions, all of the same thickness, the thicknesses sum to
    the layer thickness, and slice k is the tensor at its centre, which is inside the layer. *)
Theorem C31_slices : forall T (tensor : R -> T) d div l,
  make_inhomogeneous tensor d div = Ok l ->
  let p := profile l in let n := Z.to_nat div in
  length p = n /\ (0 < n)%nat /\ 0 <= d /\
  Rsum (map fst p) = d /\
  forall k, (k < n)%nat -> exists top h,
    top = Rsum (firstn k (map fst p)) /\
    nth_error p k = Some (h, tensor (top + h / 2)) /\ h = d / INR n /\
    0 <= top /\ top + h <= d /\ (0 < d -> 0 < top + h / 2 < d).
Proof.
  intros T tensor d div l H. unfold make_inhomogeneous in H.
  destruct (Rlt_dec d 0) as [|d0]; [discriminate|]. destruct (div <? 1)%Z eqn:E; [discriminate|].
  apply Z.ltb_ge in E. injection H as <-. cbv zeta. set (n := Z.to_nat div).
  assert (n0 : (0 < n)%nat) by lia. rewrite inhom_profile by exact n0.
  assert (N : 0 < INR n) by (apply lt_0_INR; exact n0).
  rewrite map_length, seq_length. split; [reflexivity|]. split; [exact n0|]. split; [lra|].
  assert (S : forall m, Rsum (map fst (map (fun k => (d / INR n, tensor ((INR k + 1 / 2) * (d / INR n)))) m))
     = INR (length m) * (d / INR n)).
  { intros m. rewrite map_map. cbn [fst]. apply Rsum_const. }
  split; [rewrite S, seq_length; field; lra|].
  intros k Hk. exists (INR k * (d / INR n)), (d / INR n). split; [|split; [|split; [reflexivity|]]].
  - rewrite !firstn_map, S, firstn_length, seq_length. rewrite Nat.min_l by lia. reflexivity.
  - rewrite nth_error_map. rewrite (nth_error_nth' _ 0%nat) by (rewrite seq_length; exact Hk).
    rewrite seq_nth by exact Hk. cbn [option_map]. do 3 f_equal. rewrite Nat.add_0_l. field. lra.
  - assert (q : 0 <= d / INR n) by (apply Rmult_le_pos; [lra|left; apply Rinv_0_lt_compat; exact N]).
    assert (K0 := pos_INR k).
    assert (K1 : INR k + 1 <= INR n) by (rewrite <- S_INR; apply le_INR; lia).
    assert (D : INR n * (d / INR n) = d) by (field; lra).
    split; [apply Rmult_le_pos; assumption|]. split; [nra|].
    intros dp. assert (0 < d / INR n) by (apply Rdiv_lt_0_compat; assumption). nra.
Qed.
Print Assumptions C31_slices.

(** C31: the twisted layer turns slice k of n by (k + 1/2) / n of the total angle, wherever the
    thickness is not zero; for zero thickness it has no tensor. *)
Theorem C31_twist : forall eps d angle (n k : nat), d <> 0 -> (0 < n)%nat ->
  twisted_tensor eps d angle ((INR k + 1 / 2) * (d / INR n)) =
  let m := rotation_v_theta E_Z (angle * ((INR k + 1 / 2) / INR n)) in
  Some (mmul 3 (mmul 3 m eps) (mtr m)).
Proof.
  intros eps d angle n k Hd Hn. unfold twisted_tensor. rewrite rdiv_nz by exact Hd. cbn [obind].
  assert (N : INR n <> 0) by (apply not_0_INR; lia).
  replace (angle * ((INR k + 1 / 2) * (d / INR n)) / d) with (angle * ((INR k + 1 / 2) / INR n))
    by (field; split; assumption).
  reflexivity.
Qed.
Print Assumptions C31_twist.

Theorem C31_zero_thickness : forall eps angle z A (g : R -> A) m,
  twisted_tensor eps 0 angle z = None /\ varying_tensor g m 0 z = None.
Proof.
  intros. unfold twisted_tensor, varying_tensor. rewrite !(proj2 (rdiv_None _ 0) eq_refl).
  split; reflexivity.
Qed.
Print Assumptions C31_zero_thickness.

(** C31: negative thickness and fewer than one division are rejected. *)
Theorem C31_rejects : forall T (tensor : R -> T) d div,
  (exists l, make_inhomogeneous tensor d div = Ok l) <-> 0 <= d /\ (1 <= div)%Z.
Proof.
  intros. unfold make_inhomogeneous. destruct (Rlt_dec d 0); [split; [intros [l H]; discriminate|lra]|].
  destruct (div <? 1)%Z eqn:E.
  - apply Z.ltb_lt in E. split; [intros [l H]; discriminate|lia].
  - apply Z.ltb_ge in E. split; [split; [lra|lia]|]. intros _. eauto.
Qed.
Print Assumptions C31_rejects.

Example C31_example : exists l, make_inhomogeneous (fun z : R => z) 6 3 = Ok l /\
  profile l = [(2, 1); (2, 3); (2, 5)].
Proof.
  unfold make_inhomogeneous. destruct (Rlt_dec 6 0); [lra|]. change (3 <? 1)%Z with false.
  change (Z.to_nat 3) with 3%nat.
  eexists. split; [reflexivity|]. rewrite inhom_profile by lia. cbn [seq map].
  replace (INR 3) with 3 by (simpl; lra). simpl INR.
  repeat (f_equal; try (apply injective_projections; cbn [fst snd]; lra)).
Qed.

(** C32: the constructor accepts exactly at least one repetition and non-negative counts. *)
Theorem C32_rejects : forall T (ls : list (layer T)) r b a,
  (exists l, make_repeated ls r b a = Ok l) <-> (1 <= r /\ 0 <= b /\ 0 <= a)%Z.
Proof.
  intros. unfold make_repeated.
  destruct (r <? 1)%Z eqn:E1; destruct (b <? 0)%Z eqn:E2; destruct (a <? 0)%Z eqn:E3;
    rewrite ?Z.ltb_lt, ?Z.ltb_ge in *;
    (split; [intros [l H]; first [discriminate H | lia] | intros; first [lia | eauto]]).
Qed.
Print Assumptions C32_rejects.

(** C32: for a period of homogeneous layers and counts up to the length of the period, position i
    of the expansion is the layer of the period at i - before, counted modulo the period; there
    are before + r * n + after of them. *)
Theorem C32_periodic_partial : forall T (ls : list (layer T)) r b a l i,
  Forall single ls -> ls <> [] -> make_repeated ls r b a = Ok l ->
  let n := length ls in let b' := Z.to_nat b in let a' := Z.to_nat a in
  (b' <= n)%nat -> (a' <= n)%nat ->
  length (profile l) = (b' + Z.to_nat r * n + a')%nat /\
  ((i < length (profile l))%nat -> exists d eps,
    nth_error ls ((i + (n - b')) mod n) = Some (Homogeneous d eps) /\
    nth_error (profile l) i = Some (d, eps)).
Proof.
  intros T ls r b a l i F N H. unfold make_repeated in H.
  destruct (r <? 1)%Z; [discriminate|]. destruct (b <? 0)%Z; [discriminate|].
  destruct (a <? 0)%Z; [discriminate|]. injection H as <-. cbv zeta.
  set (n := length ls). set (b' := Z.to_nat b). set (a' := Z.to_nat a). set (r' := Z.to_nat r).
  intros Hb Ha. destruct (profiles_single T ls F) as [L _]. fold n in L.
  assert (N' : profiles ls <> []) by (intros h; rewrite h in L; destruct ls; [congruence|discriminate]).
  assert (Len : length (profile (Repeated ls r' b' a')) = (b' + r' * n + a')%nat).
  { rewrite profile_repeated', !app_length, times_length, L. unfold last_n.
    rewrite skipn_length, firstn_length, L. lia. }
  split; [exact Len|]. rewrite Len. intros Hi.
  destruct ls as [|l0 ls0]; [contradiction|].
  assert (n0 : (0 < n)%nat) by (unfold n; simpl; lia).
  set (j := ((i + (n - b')) mod n)%nat).
  assert (Hj : (j < n)%nat) by (apply Nat.mod_upper_bound; lia).
  set (ls := l0 :: ls0) in *.
  assert (G : forall m : list (layer T), Forall single m -> forall k, (k < length m)%nat -> exists d eps,
     nth_error m k = Some (Homogeneous d eps) /\ nth_error (profiles m) k = Some (d, eps)).
  { induction 1 as [|x m [d [eps ->]] _ IH]; intros k Hk; [simpl in Hk; lia|].
    destruct k; [exists d, eps; split; reflexivity|]. simpl in Hk. destruct (IH k ltac:(lia)) as (d' & e' & ? & ?).
    exists d', e'. split; assumption. }
  destruct (G ls F j Hj) as (d & eps & E1 & E2). exists d, eps. split; [exact E1|].
  rewrite (nth_error_nth' _ (d, eps)) by (rewrite Len; exact Hi). f_equal.
  rewrite profile_repeated', periodic; try rewrite L; try assumption.
  fold j. apply nth_error_nth. exact E2.
Qed.
Print Assumptions C32_periodic_partial.

(** C32: in general the counts are counts of slices: the last [before] slices of the period, all
    of its slices [repetitions] times, its first [after] slices. *)
Theorem C32_slices : forall T (ls : list (layer T)) r b a l,
  make_repeated ls r b a = Ok l ->
  let period := concat (map profile ls) in
  exists front back skipped dropped,
    period = skipped ++ front /\ length front = Nat.min (Z.to_nat b) (length period) /\
    period = back ++ dropped /\ length back = Nat.min (Z.to_nat a) (length period) /\
    profile l = front ++ concat (repeat period (Z.to_nat r)) ++ back /\
    let thick p := Rsum (map fst p) in
    thick (profile l) = thick front + IZR r * thick period + thick back.
Proof.
  intros T ls r b a l H. unfold make_repeated in H.
  destruct (r <? 1)%Z eqn:Hr; [discriminate|]. destruct (b <? 0)%Z; [discriminate|].
  destruct (a <? 0)%Z; [discriminate|]. injection H as <-. apply Z.ltb_ge in Hr. cbv zeta.
  assert (P : forall m : list (layer T), concat (map profile m) = profiles m).
  { induction m as [|x m IH]; simpl; [reflexivity|]. now rewrite IH. }
  rewrite P. set (p := profiles ls).
  assert (Tm : forall k, concat (repeat p k) = times k p) by (induction k; simpl; congruence).
  exists (last_n (Z.to_nat b) p), (firstn (Z.to_nat a) p), (firstn (length p - Z.to_nat b) p), (skipn (Z.to_nat a) p).
  split; [unfold last_n; now rewrite firstn_skipn|].
  split; [unfold last_n; rewrite skipn_length; lia|].
  split; [now rewrite firstn_skipn|].
  split; [rewrite firstn_length; reflexivity|].
  rewrite profile_repeated'. fold p. rewrite Tm. split; [reflexivity|].
  rewrite !map_app, !Rsum_app, Rsum_times, INR_IZR_INZ, Z2Nat.id by lia. ring.
Qed.
Print Assumptions C32_slices.

(** C32 refuted: a period whose last layer has several slices repeats only one of its slices with
    before = 1, so the total thickness is not that of the documented sequence. *)
Theorem C32_inhomogeneous_refuted : exists (ls : list (layer R)) l, 
  make_repeated ls 1 1 0 = Ok l /\
  exists last, nth_error ls (length ls - 1) = Some last /\
  Rsum (map fst (profile l)) <> Rsum (map fst (profile last ++ concat (map profile ls))).
Proof.
  set (g := Inhomogeneous 2 2 (fun z : R => z)).
  exists [Homogeneous 1 1; g]. eexists. split; [reflexivity|]. exists g. split; [reflexivity|].
  rewrite profile_repeated'. change (Z.to_nat 1) with 1%nat. change (Z.to_nat 0) with 0%nat.
  assert (G : profile g = [(1, 1 / 2); (1, 3 / 2)]).
  { unfold g. rewrite inhom_profile by lia. cbn [seq map]. simpl INR.
    repeat (f_equal; try (apply injective_projections; cbn [fst snd]; lra)). }
  cbn [profiles map concat app]. rewrite G. cbn. lra.
Qed.
Print Assumptions C32_inhomogeneous_refuted.

(** C32 refuted: counts beyond the length of the period are cut to it without an error, although
    the expansion cannot then contain [before] layers in front. *)
Theorem C32_long_count_refuted : exists (ls : list (layer R)) l, Forall single ls /\
  make_repeated ls 1 2 0 = Ok l /\ length (profile l) <> (2 + 1 * length ls + 0)%nat.
Proof.
  exists [Homogeneous 1 1]. eexists. split; [repeat constructor; eexists; eexists; reflexivity|].
  split; [reflexivity|]. vm_compute. discriminate.
Qed.
Print Assumptions C32_long_count_refuted.

Example C32_example : exists l, make_repeated [Homogeneous 1 10; Homogeneous 2 20; Homogeneous 3 30] 2 1 2 = Ok l /\
  Forall single [Homogeneous 1 10; Homogeneous 2 20; Homogeneous 3 30] /\
  map fst (profile l) = [3; 1; 2; 3; 1; 2; 3; 1; 2].
Proof.
  eexists. split; [reflexivity|]. split; [repeat constructor; eexists; eexists; reflexivity|reflexivity].
Qed.

(** C33: half spaces at the ends, and every slice of every layer in order in between. *)
Theorem C33_profile : forall T (f b : T) ls,
  structure_profile (Structure f ls b) =
  [(None, f)] ++ map (fun s => (Some (fst s), snd s)) (concat (map profile ls)) ++ [(None, b)].
Proof.
  intros. rewrite structure_profile_eq. cbn [app]. do 3 f_equal.
  induction ls as [|x m IH]; simpl; [reflexivity|]. now rewrite IH.
Qed.
Print Assumptions C33_profile.

(** C33: exactly the two ends are infinite. *)
Theorem C33_ends : forall T (f b : T) ls i s,
  nth_error (structure_profile (Structure f ls b)) i = Some s ->
  (fst s = None <-> i = 0%nat \/ S i = length (structure_profile (Structure f ls b))).
Proof.
  intros T f b ls i s H. rewrite structure_profile_eq in *. set (m := map _ (profiles ls)) in *.
  cbn [length]. rewrite app_length. cbn [length]. destruct i as [|i].
  - cbn in H. injection H as <-. cbn. split; auto.
  - cbn [nth_error] in H. destruct (lt_dec i (length m)) as [K|K].
    + rewrite nth_error_app1 in H by exact K. unfold m in H. rewrite nth_error_map in H.
      destruct (nth_error (profiles ls) i); [|discriminate]. injection H as <-. cbn [fst].
      split; [discriminate|lia].
    + rewrite nth_error_app2 in H by lia. destruct (i - length m)%nat eqn:E.
      * cbn in H. injection H as <-. cbn [fst]. split; [lia|reflexivity].
      * cbn in H. destruct n; discriminate.
Qed.
Print Assumptions C33_ends.

(** C33: a repetition without extra layers may be written out, whatever it contains ... *)
Theorem C33_written_out : forall T (f b : T) pre ls r post l,
  make_repeated ls r 0 0 = Ok l ->
  structure_profile (Structure f (pre ++ [l] ++ post) b) =
  structure_profile (Structure f (pre ++ concat (repeat ls (Z.to_nat r)) ++ post) b).
Proof.
  intros T f b pre ls r post l H. unfold make_repeated in H.
  destruct (r <? 1)%Z; [discriminate|]. cbn in H. injection H as <-.
  rewrite !structure_profile_eq. do 3 f_equal. rewrite !profiles_app. do 2 f_equal.
  cbn [profiles]. rewrite app_nil_r, profile_repeated'. change (Pos.to_nat 1) with 1%nat.
  rewrite last_n_0. cbn [app firstn]. rewrite app_nil_r, <- profiles_times. f_equal.
  induction (Z.to_nat r); simpl; congruence.
Qed.
Print Assumptions C33_written_out.

(** ... and one with extra layers if its layers are homogeneous. *)
Theorem C33_written_out_partial : forall T (f b : T) pre ls r nb na post l,
  Forall single ls -> make_repeated ls r nb na = Ok l ->
  structure_profile (Structure f (pre ++ [l] ++ post) b) =
  structure_profile (Structure f (pre ++ (skipn (length ls - Z.to_nat nb) ls
    ++ concat (repeat ls (Z.to_nat r)) ++ firstn (Z.to_nat na) ls) ++ post) b).
Proof.
  intros T f b pre ls r nb na post l F H. unfold make_repeated in H.
  destruct (r <? 1)%Z; [discriminate|]. destruct (nb <? 0)%Z; [discriminate|].
  destruct (na <? 0)%Z; [discriminate|]. injection H as <-.
  rewrite !structure_profile_eq. do 3 f_equal. rewrite !profiles_app. do 2 f_equal.
  cbn [profiles]. rewrite app_nil_r, profile_repeated'.
  f_equal; [symmetry; apply profiles_last_n; exact F|]. f_equal.
  - rewrite <- profiles_times. f_equal. induction (Z.to_nat r); simpl; congruence.
  - destruct (profiles_single T ls F) as [_ G]. symmetry. apply G.
Qed.
Print Assumptions C33_written_out_partial.

(** C33 refuted for extra layers of a period with an inhomogeneous layer. *)
Theorem C33_inhomogeneous_refuted : exists (f b : R) ls l, make_repeated ls 1 1 0 = Ok l /\
  structure_profile (Structure f [l] b) <>
  structure_profile (Structure f (skipn (length ls - 1) ls ++ ls) b).
Proof.
  set (g := Inhomogeneous 2 2 (fun z : R => z)).
  exists 1, 1, [Homogeneous 1 1; g]. eexists. split; [reflexivity|]. intros H.
  apply (f_equal (@length _)) in H. vm_compute in H. discriminate.
Qed.
Print Assumptions C33_inhomogeneous_refuted.

Example C33_example : exists l, make_repeated [Homogeneous 1 10; Homogeneous 2 20] 2 0 1 = Ok l /\
  map fst (structure_profile (Structure 1 [Homogeneous 5 4; l] 3)) =
  [None; Some 5; Some 1; Some 2; Some 1; Some 2; Some 1; None].
Proof. eexists. split; reflexivity. Qed.
