From Coq Require Import Reals Lra Lia List Psatz.
From Coquelicot Require Import Complex.
From Verif.Base Require Import Py Cx Mat.
From Verif.Model Require Import Rotation Materials Mixture.
From Verif.Spec Require Import Rot Effective.
From Verif.Proof Require Import RotationP DispersionsP.
Import ListNotations.
Open Scope R_scope.
Open Scope C_scope.
Open Scope py_scope.

(** ** Tensors *)
Lemma get_tensor_plain x y z : get_tensor (fresh x y z) = mdiag (fun i => nth i [x; y; z] (RtoC 0)).
Proof. reflexivity. Qed.

Lemma get_tensor_rotated x y z r :
  get_tensor (set_rotation (fresh x y z) r) = seen r (mdiag (fun i => nth i [x; y; z] (RtoC 0))).
Proof. reflexivity. Qed.

Lemma seen_sym r A : symmetric3 A -> symmetric3 (seen r A).
Proof.
  intros H i j Hi Hj. unfold seen.
  assert (T : meq 3 (mtr A) A) by (intros a b Ha Hb; unfold mtr; now apply H).
  transitivity (mtr (mmul 3 (mmul 3 r A) (mtr r)) j i); [reflexivity|].
  rewrite (mtr_mul 3 (mmul 3 r A) (mtr r) j i Hj Hi).
  assert (E : meq 3 (mmul 3 (mtr (mtr r)) (mtr (mmul 3 r A))) (mmul 3 (mmul 3 r A) (mtr r))).
  { rewrite mtr_mtr, mtr_mul, T, mmul_assoc. reflexivity. }
  exact (E j i Hj Hi).
Qed.

Lemma trace3_meq A B : meq 3 A B -> trace3 A = trace3 B.
Proof. intros H. unfold trace3. rewrite !H by lia. reflexivity. Qed.

Lemma trace3_comm A B : trace3 (mmul 3 A B) = trace3 (mmul 3 B A).
Proof. unfold trace3, mmul; cbn [csum]. ring. Qed.

Lemma seen_trace r A : is_inverse 3 r (mtr r) -> trace3 (seen r A) = trace3 A.
Proof.
  intros [_ H]. unfold seen. rewrite trace3_comm. apply trace3_meq.
  rewrite mmul_assoc, H, mmul_1_l. reflexivity.
Qed.

Lemma det3_mul A B : det3 (mmul 3 A B) = det3 A * det3 B.
Proof. unfold det3, mmul; cbn [csum]. ring. Qed.

Lemma det3_tr A : det3 (mtr A) = det3 A.
Proof. unfold det3, mtr. ring. Qed.

Lemma det3_mid : det3 mid = 1.
Proof. unfold det3, mid; cbn [Nat.eqb]. ring. Qed.

Lemma seen_det r A : is_inverse 3 r (mtr r) -> det3 (seen r A) = det3 A.
Proof.
  intros [H _]. unfold seen. rewrite !det3_mul, det3_tr.
  assert (E : det3 r * det3 r = 1).
  { rewrite <- (det3_tr r) at 2. rewrite <- det3_mul. rewrite (det3_meq _ _ H). apply det3_mid. }
  replace (det3 r * det3 A * det3 r) with (det3 r * det3 r * det3 A) by ring. rewrite E. ring.
Qed.

Lemma seen_seen r s A : meq 3 (seen (mmul 3 s r) A) (seen s (seen r A)).
Proof.
  unfold seen. rewrite mtr_mul. rewrite !mmul_assoc. reflexivity.
Qed.

Lemma seen_meq r r' A A' : meq 3 r r' -> meq 3 A A' -> meq 3 (seen r A) (seen r' A').
Proof.
  intros H1 H2. unfold seen. rewrite H2. rewrite H1 at 1.
  apply mmul_proper; [reflexivity|]. now apply mtr_proper.
Qed.

Lemma seen_iso r e : is_inverse 3 r (mtr r) -> meq 3 (seen r (iso e)) (iso e).
Proof.
  intros [H _]. assert (E : meq 3 (iso e) (mscal e mid)).
  { intros i j _ _. unfold iso, mscal, mid. destruct (Nat.eqb i j); ring. }
  unfold seen. rewrite E. rewrite mmul_scal_r, mmul_1_r, mmul_scal_l, H. reflexivity.
Qed.

Lemma diag_sym d : symmetric3 (mdiag d).
Proof.
  intros i j _ _. unfold mdiag. rewrite (PeanoNat.Nat.eqb_sym j i).
  destruct (Nat.eqb i j) eqn:E; [apply PeanoNat.Nat.eqb_eq in E; now subst|reflexivity].
Qed.

Lemma diag_iso e : meq 3 (mdiag (fun i => nth i [e; e; e] (RtoC 0))) (iso e).
Proof. mexpl; cbn; ring. Qed.

(** ** VCA *)
Lemma seen_linear r (a b : C) A B :
  meq 3 (seen r (madd (mscal a A) (mscal b B))) (madd (mscal a (seen r A)) (mscal b (seen r B))).
Proof.
  unfold seen. rewrite mmul_add_r, mmul_add_l, !mmul_scal_r, !mmul_scal_l. reflexivity.
Qed.

Lemma mix_vca f h g i j : mix vca f h g i j = madd (mscal (1 - RtoC f) h) (mscal (RtoC f) g) i j.
Proof. unfold mix, vca, madd, mscal. ring. Qed.

(** ** Maxwell-Garnett *)
Lemma mg_cases f h g e : maxwell_garnett f h g = Some e ->
  (h = 0 /\ g = 0 /\ e = 0) \/
  (2 * h + g - RtoC f * (g - h) <> 0 /\
   e * (2 * h + g - RtoC f * (g - h)) = h * (2 * RtoC f * (g - h) + g + 2 * h)).
Proof.
  unfold maxwell_garnett. destruct (Ceq_dec h 0) as [E|E]; [destruct (Ceq_dec g 0) as [E'|E']|]; intros H.
  - apply Some_eq in H. subst. auto.
  - right. apply cdiv_Some in H. destruct H as [N ->]. split; [exact N|]. field. exact N.
  - right. apply cdiv_Some in H. destruct H as [N ->]. split; [exact N|]. field. exact N.
Qed.

Lemma mg_equation_holds f h g e : maxwell_garnett f h g = Some e -> mg_equation f h g e.
Proof.
  unfold mg_equation. intros H. destruct (mg_cases _ _ _ _ H) as [(-> & -> & ->)|[N E]]; [ring|].
  transitivity (e * (2 * h + g - RtoC f * (g - h)) + RtoC f * (g - h) * e - h * (g + 2 * h)); [ring|].
  rewrite E. ring.
Qed.

Lemma mg_none f h g : maxwell_garnett f h g = None <->
  2 * h + g - RtoC f * (g - h) = 0 /\ ~ (h = 0 /\ g = 0).
Proof.
  unfold maxwell_garnett, cdiv. destruct (Ceq_dec h 0) as [E|E]; [destruct (Ceq_dec g 0) as [E'|E']|].
  - split; [discriminate|]. intros [_ H]. tauto.
  - destruct (Ceq_dec _ 0) as [Z|Z]; split; intros H; try discriminate; try tauto.
  - destruct (Ceq_dec _ 0) as [Z|Z]; split; intros H; try discriminate; try tauto.
Qed.

(** ** Bruggeman *)
Lemma brugg_cases f h g e : bruggeman f h g = Some e ->
  (h = g /\ e = h) \/
  (h <> g /\ h <> 0 /\ g <> 0 /\
   let p := Csqrt h / Csqrt g in
   let b := RtoC (1 / 4) * (RtoC (3 * f - 1) * (/ p - p) + p) in
   e = (b + Csqrt (b * b + RtoC (1 / 2))) * Csqrt h * Csqrt g).
Proof.
  unfold bruggeman. destruct (Ceq_dec h g) as [E|E]; intros H.
  - apply Some_eq in H. subst. auto.
  - right. unfold cdiv in H. destruct (Ceq_dec (Csqrt g) 0) as [G|G]; [discriminate|]. cbn [obind] in H.
    destruct (Ceq_dec (Csqrt h / Csqrt g) 0) as [P|P]; [discriminate|]. cbn [obind] in H.
    apply Some_eq in H.
    assert (g <> 0) by (intros ->; apply G, Csqrt_0).
    assert (h <> 0). { intros ->. apply P. rewrite Csqrt_0. field. exact G. }
    do 3 (split; [assumption|]). cbv zeta. rewrite <- H.
    replace (1 / (Csqrt h / Csqrt g)) with (/ (Csqrt h / Csqrt g)).
    + reflexivity.
    + unfold Cdiv at 2. ring.
Qed.

Lemma brugg_none f h g : bruggeman f h g = None <-> h <> g /\ (h = 0 \/ g = 0).
Proof.
  split.
  - unfold bruggeman. destruct (Ceq_dec h g) as [E|E]; [discriminate|]. unfold cdiv.
    destruct (Ceq_dec (Csqrt g) 0) as [G|G].
    + intros _. split; [exact E|right]. rewrite <- (Csqrt_sqr g), G. ring.
    + cbn [obind]. destruct (Ceq_dec (Csqrt h / Csqrt g) 0) as [P|P]; [|discriminate].
      intros _. split; [exact E|left]. rewrite <- (Csqrt_sqr h).
      replace (Csqrt h) with (Csqrt h / Csqrt g * Csqrt g) by (field; exact G). rewrite P. ring.
  - intros [E Z]. destruct (bruggeman f h g) as [e|] eqn:B; [|reflexivity].
    destruct (brugg_cases _ _ _ _ B) as [[? _]|(_ & H & G & _)]; [contradiction|].
    destruct Z; contradiction.
Qed.
