(** Energy flux through a stack. *)
From Coq Require Import Reals Lra Psatz.
From Coquelicot Require Import Coquelicot.
From Coq Require Import List.
From Verif.Base Require Import Cx Mat Mexp.
From Verif.Spec Require Import Stack.
From Verif.Proof Require Import StackP.
Import ListNotations.
Open Scope R_scope.
Open Scope C_scope.

Definition flux (u v : C) : R := Re (u * Cconj v).

(** Absorption densities of a layer (both zero: lossless) *)
Definition loss (l : C * C * C) : R * R :=
  let '(p, q, d) := l in (Im (d * (p / q)), Im (d * (q / p))).

Section Layer.
Variables p q d A B : C.
Hypothesis Hp : p <> RtoC 0.
Hypothesis Hq : q <> RtoC 0.
Let u (x : R) : C := p * (A * Cexp (RtoC x * (Ci * d)) + B * Cexp (RtoC x * (- (Ci * d)))).
Let v (x : R) : C := q * (A * Cexp (RtoC x * (Ci * d)) - B * Cexp (RtoC x * (- (Ci * d)))).

Lemma u_der x : cder u x (Ci * (d * (p / q)) * v x).
Proof.
  eapply cder_eq.
  - unfold u. apply cder_scal. apply cder_plus; apply cder_scal; apply cder_Cexp.
  - unfold v. Cfield.
Qed.
Lemma v_der x : cder v x (Ci * (d * (q / p)) * u x).
Proof.
  eapply cder_eq.
  - unfold v. apply cder_scal. apply cder_minus; apply cder_scal; apply cder_Cexp.
  - unfold u. Cfield.
Qed.

Lemma flux_der x : is_derive (fun x => flux (u x) (v x)) x
  (- (Im (d * (p / q))%C * Cnorm2 (v x) + Im (d * (q / p))%C * Cnorm2 (u x)))%R.
Proof.
  assert (H := cder_mult _ _ _ _ _ (u_der x) (cder_conj _ _ _ (v_der x))). destruct H as [H _].
  unfold flux. eapply is_derive_ext; [|eapply (eq_rect _ (is_derive _ x) H)].
  - intros y. reflexivity.
  - set (a := d * (p / q)). set (b := d * (q / p)). destruct (u x) as [u1 u2], (v x) as [v1 v2], a as [a1 a2], b as [b1 b2].
    unfold Cnorm2, Re, Im. simpl. ring.
Qed.

Lemma flux_step : (0 <= Im (d * (p / q))%C)%R -> (0 <= Im (d * (q / p))%C)%R -> (flux (u 1) (v 1) <= flux (u 0) (v 0))%R.
Proof.
  intros H1 H2.
  destruct (MVT_gen (fun x => flux (u x) (v x)) 0 1 (fun x => - (Im (d * (p / q))%C * Cnorm2 (v x) + Im (d * (q / p))%C * Cnorm2 (u x)))%R) as (c & _ & E).
  - intros x _. apply flux_der.
  - intros x _. apply continuity_pt_filterlim. apply (@ex_derive_continuous R_AbsRing R_NormedModule).
    eexists. apply flux_der.
  - assert (K1 := Cnorm2_ge0 (v c)). assert (K2 := Cnorm2_ge0 (u c)).
    assert (P1 := Rmult_le_pos _ _ H1 K1). assert (P2 := Rmult_le_pos _ _ H2 K2). cbv beta in E. lra.
Qed.
Lemma flux_const : (Im (d * (p / q))%C = 0)%R -> (Im (d * (q / p))%C = 0)%R -> flux (u 1) (v 1) = flux (u 0) (v 0).
Proof.
  intros H1 H2.
  destruct (MVT_gen (fun x => flux (u x) (v x)) 0 1 (fun x => - (Im (d * (p / q))%C * Cnorm2 (v x) + Im (d * (q / p))%C * Cnorm2 (u x)))%R) as (c & _ & E).
  - intros x _. apply flux_der.
  - intros x _. apply continuity_pt_filterlim. apply (@ex_derive_continuous R_AbsRing R_NormedModule).
    eexists. apply flux_der.
  - rewrite H1, H2 in E. cbv beta in E. lra.
Qed.
End Layer.

Lemma flux_matched ls : forall u v pb qb t, layers_ok ls ->
  Forall (fun l => (0 <= fst (loss l))%R /\ (0 <= snd (loss l))%R) ls -> matched u v ls pb qb t ->
  (Re (pb * Cconj qb)%C * Cnorm2 t <= flux u v)%R.
Proof.
  induction ls as [|[[p q] d] ls IH]; intros u v pb qb t OK F; cbn [matched].
  - intros [-> ->]. apply Req_le. unfold flux, Cnorm2, Re. simpl. ring.
  - inversion OK as [|x l [Hp Hq] OK']; subst. inversion F as [|x l [L1 L2] F']; subst. cbn [fst snd loss] in *.
    intros (A & B & -> & -> & H). cbv zeta in H. apply IH in H; [|assumption|assumption].
    eapply Rle_trans; [exact H|].
    assert (S := flux_step p q d A B Hp Hq L1 L2). cbv beta zeta in S.
    rewrite !Cmult_1_l, !Cmult_0_l, !Cexp_0, !Cmult_1_r in S. exact S.
Qed.

Lemma flux_matched_eq ls : forall u v pb qb t, layers_ok ls ->
  Forall (fun l => loss l = (0%R, 0%R)) ls -> matched u v ls pb qb t ->
  flux u v = (Re (pb * Cconj qb)%C * Cnorm2 t)%R.
Proof.
  induction ls as [|[[p q] d] ls IH]; intros u v pb qb t OK F; cbn [matched].
  - intros [-> ->]. unfold flux, Cnorm2, Re. simpl. ring.
  - inversion OK as [|x l [Hp Hq] OK']; subst. inversion F as [|x l L F']; subst. cbn [fst snd loss] in *.
    injection L as L1 L2.
    intros (A & B & -> & -> & H). cbv zeta in H. apply IH in H; [|assumption|assumption].
    rewrite <- H.
    assert (S := flux_const p q d A B Hp Hq L1 L2). cbv beta zeta in S.
    rewrite !Cmult_1_l, !Cmult_0_l, !Cexp_0, !Cmult_1_r in S. symmetry. exact S.
Qed.

(** Flux of an incident and a reflected wave *)
Lemma flux_front (p q r : C) : Im (p * Cconj q) = 0%R ->
  flux (p * (1 + r)) (q * (1 - r)) = (Re (p * Cconj q)%C * (1 - Cnorm2 r))%R.
Proof.
  intros H. transitivity (Re (p * Cconj q)%C * (1 - Cnorm2 r) - Im (p * Cconj q)%C * (2 * snd r))%R; [|rewrite H; ring].
  unfold flux, Cnorm2, Re, Im. destruct p as [p1 p2], q as [q1 q2], r as [r1 r2]. simpl. ring.
Qed.
