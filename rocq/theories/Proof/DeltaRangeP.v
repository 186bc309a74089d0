From Coq Require Import Reals ZArith Lra Lia.
From Verif.Base Require Import Py.
From Verif.Model Require Import DeltaRange.
From Verif.Spec Require Import Angle.
Open Scope R_scope.

Lemma np_mod_bound x m : 0 < m -> 0 <= np_mod x m < m.
Proof.
  intros Hm. unfold np_mod. destruct (base_Int_part (x / m)) as [A B].
  set (k := IZR (Int_part (x / m))) in *.
  assert (E : x = m * (x / m)) by (field; lra).
  split; rewrite E at 1.
  - assert (m * k <= m * (x / m)) by (apply Rmult_le_compat_l; lra). lra.
  - assert (m * (x / m) < m * (k + 1)) by (apply Rmult_lt_compat_l; lra). lra.
Qed.

Lemma np_mod_cong x m : exists k : Z, np_mod x m = x + m * IZR k.
Proof.
  exists (- Int_part (x / m))%Z. unfold np_mod. rewrite opp_IZR. ring.
Qed.

Lemma np_mod_unique x m y : 0 < m -> 0 <= y < m -> (exists k : Z, y = x + m * IZR k) -> np_mod x m = y.
Proof.
  intros Hm Hy [k E]. destruct (np_mod_cong x m) as [j F].
  pose proof (np_mod_bound x m Hm) as B.
  assert (D : np_mod x m - y = m * IZR (j - k)) by (rewrite minus_IZR, F, E; ring).
  assert (Z0 : (j - k = 0)%Z).
  { destruct (Z.lt_trichotomy (j - k) 0) as [L|[L|L]]; auto; exfalso.
    - assert (IZR (j - k) <= -1) by (apply (IZR_le _ (-1)); lia). nra.
    - assert (1 <= IZR (j - k)) by (apply (IZR_le 1); lia). nra. }
  rewrite Z0 in D. simpl in D. lra.
Qed.

Lemma delta_range_int l u :
  delta_range (PyInt l) (PyInt u) =
  (if Z.leb (-360) l && Z.leb l 0 && Z.leb 0 u && Z.leb u 360 &&
      ((Z.eqb l 0 && Z.eqb u 180) || Z.eqb (Z.abs (u - l)) 360)
   then Ok (IZR l, IZR u) else Err ValueError)%bool.
Proof.
  unfold delta_range; simpl.
  assert (L : forall a b, Rleb (IZR a) (IZR b) = Z.leb a b).
  { intros a b. unfold Rleb. destruct (Rle_dec _ _) as [H|H], (Z.leb_spec a b) as [K|K]; auto.
    - apply le_IZR in H. lia.
    - apply IZR_le in K. lra. }
  assert (E : forall a b, Reqb (IZR a) (IZR b) = Z.eqb a b).
  { intros a b. unfold Reqb. destruct (Req_EM_T _ _) as [H|H], (Z.eqb_spec a b) as [K|K]; auto.
    - now apply eq_IZR in H.
    - subst; tauto. }
  rewrite !L. rewrite <- minus_IZR, <- abs_IZR, !E.
  destruct (-360 <=? l)%Z, (l <=? 0)%Z; simpl; auto.
  destruct (0 <=? u)%Z, (u <=? 360)%Z; simpl; auto.
  destruct ((l =? 0)%Z && (u =? 180)%Z)%bool, (Z.abs (u - l) =? 360)%Z; simpl; auto.
Qed.

Lemma delta_range_int_cases l u :
  (allowed_range l u /\ delta_range (PyInt l) (PyInt u) = Ok (IZR l, IZR u)) \/
  (~ allowed_range l u /\ delta_range (PyInt l) (PyInt u) = Err ValueError).
Proof.
  rewrite delta_range_int. unfold allowed_range.
  destruct (Z.leb_spec (-360) l); simpl; [|right; split; auto; lia].
  destruct (Z.leb_spec l 0); simpl; [|right; split; auto; lia].
  destruct (Z.leb_spec 0 u); simpl; [|right; split; auto; lia].
  destruct (Z.leb_spec u 360); simpl; [|right; split; auto; lia].
  destruct (Z.eqb_spec l 0); simpl.
  - destruct (Z.eqb_spec u 180); simpl; [left; split; auto; lia|].
    destruct (Z.eqb_spec (Z.abs (u - l)) 360); [left|right]; split; auto; lia.
  - destruct (Z.eqb_spec (Z.abs (u - l)) 360); [left|right]; split; auto; lia.
Qed.

Lemma delta_range_allowed l u :
  is_ok (delta_range (PyInt l) (PyInt u)) <-> allowed_range l u.
Proof.
  destruct (delta_range_int_cases l u) as [[A E]|[A E]]; rewrite E; unfold is_ok; split; intros H; auto.
  - eauto.
  - destruct H; discriminate.
  - tauto.
Qed.

Lemma delta_range_rejects l u :
  ~ allowed_range l u -> delta_range (PyInt l) (PyInt u) = Err ValueError.
Proof. destruct (delta_range_int_cases l u) as [[A E]|[A E]]; tauto. Qed.

Lemma delta_range_both_nonint a b :
  is_int a = false -> is_int b = false -> delta_range a b = Err TypeError.
Proof. unfold delta_range. intros -> ->. auto. Qed.

Lemma delta_range_float_accepted :
  delta_range (PyFloat (-180)) (PyInt 180) = Ok (-180, 180).
Proof.
  unfold delta_range; simpl. unfold Rleb, Reqb.
  repeat (destruct Rle_dec; try lra); simpl.
  repeat (destruct Req_EM_T; simpl; try lra); auto.
  exfalso. apply n0. rewrite Rabs_right; lra.
Qed.

Lemma convert_ok d l u d' :
  convert_delta_range d (PyInt l) (PyInt u) = Ok d' ->
  allowed_range l u /\ d' = np_mod (d + IZR l) 360 + IZR l.
Proof.
  unfold convert_delta_range.
  destruct (delta_range_int_cases l u) as [[A E]|[A E]]; rewrite E; intros H.
  - injection H as <-. auto.
  - discriminate.
Qed.

Lemma convert_in_turn d l u d' :
  convert_delta_range d (PyInt l) (PyInt u) = Ok d' -> in_turn (IZR l) d'.
Proof.
  intros H. apply convert_ok in H as [_ ->]. unfold in_turn.
  pose proof (np_mod_bound (d + IZR l) 360). lra.
Qed.

(** What the function really returns. *)
Lemma convert_shifts d l u d' :
  convert_delta_range d (PyInt l) (PyInt u) = Ok d' -> same_angle (d + 2 * IZR l) d'.
Proof.
  intros H. apply convert_ok in H as [_ ->].
  destruct (np_mod_cong (d + IZR l) 360) as [k E]. exists k. rewrite E. ring.
Qed.

Lemma convert_total d l u :
  allowed_range l u -> exists d', convert_delta_range d (PyInt l) (PyInt u) = Ok d'.
Proof.
  intros A. unfold convert_delta_range.
  destruct (delta_range_int_cases l u) as [[_ E]|[N _]]; [rewrite E; eauto|tauto].
Qed.

Lemma convert_faithful_iff l u :
  allowed_range l u ->
  ((forall d d', convert_delta_range d (PyInt l) (PyInt u) = Ok d' -> same_angle d d')
   <-> (l = 0 \/ l = -180 \/ l = -360)%Z).
Proof.
  intros A. split.
  - intros H. destruct (convert_total 0 l u A) as [d' E].
    pose proof (H _ _ E) as [k K]. pose proof (convert_shifts _ _ _ _ E) as [j J].
    assert (Q : IZR (2 * l) = IZR (360 * (k - j))).
    { rewrite !mult_IZR, minus_IZR. lra. }
    apply eq_IZR in Q. unfold allowed_range in A. lia.
  - intros L d d' E. destruct (convert_shifts _ _ _ _ E) as [j J].
    destruct L as [->|[->| ->]].
    + exists j. lra.
    + exists (j - 1)%Z. rewrite minus_IZR. lra.
    + exists (j - 2)%Z. rewrite minus_IZR. lra.
Qed.

(** The folded range (0, 180) is not folded by this function. *)
Lemma convert_0_180_out :
  convert_delta_range 270 (PyInt 0) (PyInt 180) = Ok 270.
Proof.
  unfold convert_delta_range.
  destruct (delta_range_int_cases 0 180) as [[_ E]|[N _]].
  - rewrite E. f_equal. rewrite (np_mod_unique _ _ 270); try lra.
    exists 0%Z. lra.
  - exfalso; apply N; left; lia.
Qed.
