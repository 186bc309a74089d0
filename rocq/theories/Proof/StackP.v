From Coq Require Import Reals List Lra.
From Coquelicot Require Import Complex.
From Verif.Base Require Import Cx Mat.
From Verif.Spec Require Import Stack.
Import ListNotations.
Open Scope C_scope.

Lemma matched_scal (c : C) ls : forall u v pb qb t, matched u v ls pb qb t ->
  matched (c * u) (c * v) ls pb qb (c * t).
Proof.
  induction ls as [|[[p q] d] ls IH]; intros u v pb qb t; cbn [matched].
  - intros [-> ->]. split; ring.
  - intros (A & B & -> & -> & H). exists (c * A), (c * B). split; [ring|]. split; [ring|].
    cbv zeta in *. apply IH in H.
    replace (p * (c * A * Cexp (Ci * d) + c * B * Cexp (- (Ci * d)))) with (c * (p * (A * Cexp (Ci * d) + B * Cexp (- (Ci * d))))) by ring.
    replace (q * (c * A * Cexp (Ci * d) - c * B * Cexp (- (Ci * d)))) with (c * (q * (A * Cexp (Ci * d) - B * Cexp (- (Ci * d))))) by ring.
    exact H.
Qed.

Lemma matched_add ls : forall u v pb qb t u' v' t', matched u v ls pb qb t -> matched u' v' ls pb qb t' ->
  matched (u + u') (v + v') ls pb qb (t + t').
Proof.
  induction ls as [|[[p q] d] ls IH]; intros u v pb qb t u' v' t'; cbn [matched].
  - intros [-> ->] [-> ->]. split; ring.
  - intros (A & B & -> & -> & H) (A' & B' & -> & -> & H'). exists (A + A'), (B + B'). split; [ring|]. split; [ring|].
    cbv zeta in *.
    assert (K := IH _ _ _ _ _ _ _ _ H H').
    match goal with K : matched ?a ?b _ _ _ _ |- matched ?c ?e _ _ _ _ => replace c with a by ring; replace e with b by ring end.
    exact K.
Qed.

Definition layers_ok (ls : list (C * C * C)) : Prop := Forall (fun l => fst (fst l) <> RtoC 0 /\ snd (fst l) <> RtoC 0) ls.

(** Every transmitted amplitude has exactly one pair of fields in front. *)
Fixpoint front_fields (ls : list (C * C * C)) (pb qb t : C) : C * C :=
  match ls with
  | [] => (pb * t, qb * t)
  | (p, q, d) :: rest =>
      let (u, v) := front_fields rest pb qb t in
      let A := (u / p + v / q) / 2 * Cexp (- (Ci * d)) in
      let B := (u / p - v / q) / 2 * Cexp (Ci * d) in
      (p * (A + B), q * (A - B))
  end.

Lemma exp_cancel (d : C) : Cexp (Ci * d) * Cexp (- (Ci * d)) = 1.
Proof. rewrite <- Cexp_plus, <- Cexp_0. f_equal. ring. Qed.

Lemma matched_front ls pb qb t : layers_ok ls ->
  matched (fst (front_fields ls pb qb t)) (snd (front_fields ls pb qb t)) ls pb qb t.
Proof.
  induction 1 as [|[[p q] d] ls [Hp Hq] _ IH]; cbn [front_fields matched]; [split; reflexivity|].
  cbn [fst snd] in Hp, Hq.
  destruct (front_fields ls pb qb t) as [u v]. cbn [fst snd] in *.
  set (A := (u / p + v / q) / 2 * Cexp (- (Ci * d))). set (B := (u / p - v / q) / 2 * Cexp (Ci * d)).
  exists A, B. split; [reflexivity|]. split; [reflexivity|]. cbv zeta.
  assert (E := exp_cancel d).
  replace (A * Cexp (Ci * d)) with ((u / p + v / q) / 2).
  2:{ unfold A. transitivity ((u / p + v / q) / 2 * (Cexp (Ci * d) * Cexp (- (Ci * d)))); [rewrite E; ring|ring]. }
  replace (B * Cexp (- (Ci * d))) with ((u / p - v / q) / 2).
  2:{ unfold B. transitivity ((u / p - v / q) / 2 * (Cexp (Ci * d) * Cexp (- (Ci * d)))); [rewrite E; ring|ring]. }
  replace (p * ((u / p + v / q) / 2 + (u / p - v / q) / 2)) with u by Cfield.
  replace (q * ((u / p + v / q) / 2 - (u / p - v / q) / 2)) with v by Cfield.
  exact IH.
Qed.

Lemma matched_fun ls : forall u v pb qb t, layers_ok ls -> matched u v ls pb qb t ->
  (u, v) = front_fields ls pb qb t.
Proof.
  induction ls as [|[[p q] d] ls IH]; intros u v pb qb t F; cbn [matched front_fields].
  - intros [-> ->]. reflexivity.
  - inversion F as [|x l [Hp Hq] F']; subst. cbn [fst snd] in Hp, Hq. intros (A & B & -> & -> & H). cbv zeta in H.
    rewrite <- (IH _ _ _ _ _ F' H).
    assert (E := exp_cancel d). set (e := Cexp (Ci * d)) in *. set (e' := Cexp (- (Ci * d))) in *.
    replace (p * (A * e + B * e') / p + q * (A * e - B * e') / q) with (2 * A * e) by Cfield.
    replace (p * (A * e + B * e') / p - q * (A * e - B * e') / q) with (2 * B * e') by Cfield.
    replace (2 * A * e / 2 * e') with (A * (e * e')) by Cfield.
    replace (2 * B * e' / 2 * e) with (B * (e * e')) by Cfield.
    rewrite E. f_equal; ring.
Qed.

Lemma matched_iff ls u v pb qb t : layers_ok ls ->
  (matched u v ls pb qb t <-> (u, v) = front_fields ls pb qb t).
Proof.
  intros F. split; [apply matched_fun; exact F|]. intros E.
  replace u with (fst (front_fields ls pb qb t)) by (now rewrite <- E).
  replace v with (snd (front_fields ls pb qb t)) by (now rewrite <- E). apply matched_front. exact F.
Qed.

(** Two stacks with the same matching relation have the same scattering. *)
Definition same_waves (ls ls' : list (C * C * C)) : Prop :=
  forall u v pb qb t, matched u v ls pb qb t <-> matched u v ls' pb qb t.

Lemma same_waves_cons l ls ls' : same_waves ls ls' -> same_waves (l :: ls) (l :: ls').
Proof.
  destruct l as [[p q] d]. intros H u v pb qb t. cbn [matched]. split; intros (A & B & E1 & E2 & K); exists A, B;
    (split; [exact E1|split; [exact E2|apply H; exact K]]).
Qed.
Lemma same_waves_pre pre ls ls' : same_waves ls ls' -> same_waves (pre ++ ls) (pre ++ ls').
Proof. intros H. induction pre; [exact H|]. cbn [app]. apply same_waves_cons. exact IHpre. Qed.
Lemma same_refl ls : same_waves ls ls. Proof. intros u v pb qb t. reflexivity. Qed.
Lemma same_sym ls ls' : same_waves ls ls' -> same_waves ls' ls.
Proof. intros H u v pb qb t. symmetry. apply H. Qed.
Lemma same_trans a b c : same_waves a b -> same_waves b c -> same_waves a c.
Proof. intros H K u v pb qb t. rewrite (H u v pb qb t). apply K. Qed.

Lemma zero_layer (p q : C) ls : p <> 0 -> q <> 0 -> same_waves ((p, q, RtoC 0) :: ls) ls.
Proof.
  intros Hp Hq u v pb qb t. cbn [matched].
  replace (Ci * RtoC 0) with (RtoC 0) by ring. replace (- RtoC 0) with (RtoC 0) by ring. rewrite Cexp_0. split.
  - intros (A & B & -> & -> & H). rewrite !Cmult_1_r in H. exact H.
  - intros H. exists ((u / p + v / q) / 2), ((u / p - v / q) / 2).
    split; [Cfield|]. split; [Cfield|]. rewrite !Cmult_1_r.
    replace (p * ((u / p + v / q) / 2 + (u / p - v / q) / 2)) with u by Cfield.
    replace (q * ((u / p + v / q) / 2 - (u / p - v / q) / 2)) with v by Cfield.
    exact H.
Qed.

Lemma split_layer (p q d1 d2 : C) ls : p <> 0 -> q <> 0 ->
  same_waves ((p, q, d1) :: (p, q, d2) :: ls) ((p, q, d1 + d2) :: ls).
Proof.
  intros Hp Hq u v pb qb t. cbn [matched].
  replace (Ci * (d1 + d2)) with (Ci * d1 + Ci * d2) by ring.
  replace (- (Ci * d1 + Ci * d2)) with (- (Ci * d1) + - (Ci * d2)) by ring. rewrite !Cexp_plus. split.
  - intros (A & B & -> & -> & A' & B' & E1 & E2 & H). exists A, B. split; [reflexivity|]. split; [reflexivity|].
    cbv zeta in *.
    assert (K1 : A' + B' = A * Cexp (Ci * d1) + B * Cexp (- (Ci * d1))) by (apply (Cmult_cancel p); auto).
    assert (K2 : A' - B' = A * Cexp (Ci * d1) - B * Cexp (- (Ci * d1))) by (apply (Cmult_cancel q); auto).
    assert (A' = A * Cexp (Ci * d1)).
    { transitivity (((A' + B') + (A' - B')) / 2); [Cfield|]. rewrite K1, K2. Cfield. }
    assert (B' = B * Cexp (- (Ci * d1))).
    { transitivity (((A' + B') - (A' - B')) / 2); [Cfield|]. rewrite K1, K2. Cfield. }
    subst. rewrite !Cmult_assoc. exact H.
  - intros (A & B & -> & -> & H). exists A, B. split; [reflexivity|]. split; [reflexivity|]. cbv zeta in *.
    eexists; eexists. split; [reflexivity|]. split; [reflexivity|]. rewrite <- !Cmult_assoc. rewrite !Cmult_assoc in *. exact H.
Qed.

Lemma flip_layer (p q d : C) ls : same_waves ((p, q, d) :: ls) ((p, - q, - d) :: ls).
Proof.
  assert (G : forall (p q d u v pb qb t : C), matched u v ((p, q, d) :: ls) pb qb t -> matched u v ((p, - q, - d) :: ls) pb qb t).
  { intros p' q' d' u v pb qb t. cbn [matched]. intros (A & B & -> & -> & H). exists B, A.
    split; [ring|]. split; [ring|]. cbv zeta in *.
    replace (Ci * - d') with (- (Ci * d')) by ring. replace (- - (Ci * d')) with (Ci * d') by ring.
    match type of H with matched ?a ?b _ _ _ _ => match goal with |- matched ?c ?e _ _ _ _ =>
      replace c with a by ring; replace e with b by ring end end. exact H. }
  intros u v pb qb t. split; [apply G|]. intros H. apply G in H.
  replace (- - q) with q in H by ring. replace (- - d) with d in H by ring. exact H.
Qed.
