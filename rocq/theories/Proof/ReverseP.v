(** Stacks passed in the opposite direction, and layers of whole half waves. *)
From Coq Require Import Reals Lra Psatz ZArith Lia.
From Coquelicot Require Import Complex.
From Coq Require Import List.
From Verif.Base Require Import Py Cx Mat.
From Verif.Model Require Import Units Ellips Structure Solver2.
From Verif.Spec Require Import Stack Waves.
From Verif.Proof Require Import StackP FluxP UnitsP DispersionsP StructureP Solver2P Solver2P2 Solver2P3 Solver2P4 Solver2P5.
Import ListNotations.
Open Scope R_scope.
Open Scope C_scope.

(** Fields u, v in front of the layers and u', v' behind them *)
Fixpoint passes (u v : C) (layers : list (C * C * C)) (u' v' : C) : Prop :=
  match layers with
  | [] => u = u' /\ v = v'
  | (p, q, d) :: rest => exists A B : C,
      u = p * (A + B) /\ v = q * (A - B) /\
      passes (p * (A * Cexp (Ci * d) + B * Cexp (- (Ci * d)))) (q * (A * Cexp (Ci * d) - B * Cexp (- (Ci * d)))) rest u' v'
  end.
Lemma matched_passes ls : forall u v pb qb t, matched u v ls pb qb t <-> passes u v ls (pb * t) (qb * t).
Proof.
  induction ls as [|[[p q] d] ls IH]; intros u v pb qb t; cbn [matched passes]; [tauto|].
  cbv zeta. split; intros (A & B & E1 & E2 & H); exists A, B; (split; [exact E1|]; split; [exact E2|]; apply IH; exact H).
Qed.
Lemma passes_app l1 l2 : forall u v u' v', passes u v (l1 ++ l2) u' v' <-> exists a b, passes u v l1 a b /\ passes a b l2 u' v'.
Proof.
  induction l1 as [|[[p q] d] l1 IH]; intros u v u' v'; cbn [app passes].
  - split; [intros H; exists u, v; tauto|]. intros (a & b & [-> ->] & H). exact H.
  - split.
    + intros (A & B & E1 & E2 & H). apply IH in H. destruct H as (a & b & H1 & H2). exists a, b. split; [|exact H2].
      exists A, B. auto.
    + intros (a & b & (A & B & E1 & E2 & H1) & H2). exists A, B. split; [exact E1|]. split; [exact E2|]. apply IH. eauto.
Qed.
Lemma exp_pair (d : C) : Cexp (- (Ci * d)) * Cexp (Ci * d) = 1.
Proof. rewrite Cmult_comm. apply exp_cancel. Qed.
Lemma passes_rev ls : forall u v u' v', passes u v ls u' v' -> passes u' (- v') (rev ls) u (- v).
Proof.
  induction ls as [|[[p q] d] ls IH]; intros u v u' v'; cbn [passes rev].
  - intros [-> ->]. split; reflexivity.
  - intros (A & B & -> & -> & H). apply passes_app. apply IH in H.
    eexists; eexists. split; [exact H|]. cbn [passes].
    exists (B * Cexp (- (Ci * d))), (A * Cexp (Ci * d)). split; [ring|]. split; [ring|].
    rewrite <- !Cmult_assoc, exp_pair, exp_cancel. split; ring.
Qed.

(** The Wronskian of two solutions is the same in front of and behind the layers. *)
Lemma wronskian ls : forall u1 v1 u1' v1' u2 v2 u2' v2', passes u1 v1 ls u1' v1' -> passes u2 v2 ls u2' v2' ->
  u1 * v2 - u2 * v1 = u1' * v2' - u2' * v1'.
Proof.
  induction ls as [|[[p q] d] ls IH]; intros u1 v1 u1' v1' u2 v2 u2' v2'; cbn [passes].
  - intros [-> ->] [-> ->]. reflexivity.
  - intros (A & B & -> & -> & H) (A' & B' & -> & -> & H'). rewrite <- (IH _ _ _ _ _ _ _ _ H H').
    assert (E := exp_cancel d). set (e := Cexp (Ci * d)) in *. set (f := Cexp (- (Ci * d))) in *.
    transitivity (2 * p * q * (B * A' - A * B') * 1); [ring|]. rewrite <- E. ring.
Qed.

(** Forward and backward transmission *)
Lemma reverse_t (p0 q0 pb qb r t r' t' : C) ls :
  scattering p0 q0 ls pb qb 1 r t -> scattering pb qb (rev ls) p0 q0 1 r' t' -> p0 * q0 * t' = pb * qb * t.
Proof.
  unfold scattering. intros H K. apply matched_passes in H, K. apply passes_rev in K. rewrite rev_involutive in K.
  assert (W := wronskian _ _ _ _ _ _ _ _ _ H K).
  assert (W2 : 2 * (p0 * q0 * t') = 2 * (pb * qb * t)).
  { transitivity (- (p0 * (1 + r) * - (q0 * t') - p0 * t' * (q0 * (1 - r)))); [ring|]. rewrite W. ring. }
  apply Cmult_cancel in W2; [exact W2|]. intros E. apply RtoC_inj in E. lra.
Qed.

(** Singular interfaces *)
Definition meet (a c : C * C) : Prop := snd a * fst c + fst a * snd c <> RtoC 0.
Lemma meet_sym a c : meet a c -> meet c a.
Proof. unfold meet. intros H E. apply H. rewrite <- E. ring. Qed.
Fixpoint meets (m : C * C) (ls : list (C * C * C)) (back : C * C) : Prop :=
  match ls with [] => meet m back | l :: rest => meet m (fst l) /\ meets (fst l) rest back end.
Lemma nonsing_meets m ls back : nonsing m ls back <-> fst m <> RtoC 0 /\ snd m <> RtoC 0 /\ layers_ok ls /\ meets m ls back.
Proof.
  revert m. induction ls as [|l ls IH]; intros m; cbn [nonsing meets next_pq].
  - unfold meet, layers_ok. split; [intros (A & B & C & _); repeat split; auto|tauto].
  - rewrite IH. unfold meet, layers_ok. split.
    + intros (A & B & C & D & E & F & G). repeat split; auto.
    + intros (A & B & C & D & E). inversion C as [|x y [C1 C2] C3]; subst. tauto.
Qed.
Lemma meets_snoc m ls l back : meets m (ls ++ [l]) back <-> meets m ls (fst l) /\ meet (fst l) back.
Proof. revert m. induction ls as [|a ls IH]; intros m; cbn [app meets]; [tauto|]. rewrite IH. tauto. Qed.
Lemma meets_rev m ls back : meets m ls back -> meets back (rev ls) m.
Proof.
  revert m. induction ls as [|l ls IH]; intros m; cbn [meets rev]; [apply meet_sym|].
  intros [H K]. apply meets_snoc. split; [now apply IH|now apply meet_sym].
Qed.
Lemma nonsing_rev m ls back : fst back <> RtoC 0 -> snd back <> RtoC 0 -> nonsing m ls back -> nonsing back (rev ls) m.
Proof.
  rewrite !nonsing_meets. intros P Q (A & B & C & D). split; [exact P|]. split; [exact Q|]. split; [now apply Forall_rev|now apply meets_rev].
Qed.

(** No incident wave in one direction, none in the other *)
Lemma inc_rev m ls back : nonsing m ls back -> fst back <> RtoC 0 -> snd back <> RtoC 0 ->
  fst (inc_ref m ls back) <> 0 -> fst (inc_ref back (rev ls) m) <> 0.
Proof.
  intros N P Q I K. apply I. clear I. assert (N' := nonsing_rev _ _ _ P Q N).
  assert (L := nonsing_layers _ _ _ N). assert (L' := nonsing_layers _ _ _ N').
  apply nonsing_meets in N. destruct N as (P0 & Q0 & _ & _).
  unfold inc_ref in *. destruct (front_fields (rev ls) (fst m) (snd m) 1) as [u v] eqn:F. cbn [fst] in K.
  assert (M := matched_front (rev ls) (fst m) (snd m) 1 L'). rewrite F in M. cbn [fst snd] in M.
  set (r := (u / fst back - v / snd back) / 2).
  assert (U : u = fst back * r).
  { transitivity (fst back * ((u / fst back + v / snd back) / 2 + r)); [unfold r; Cfield|]. rewrite K. ring. }
  assert (V : v = - (snd back * r)).
  { transitivity (snd back * ((u / fst back + v / snd back) / 2 - r)); [unfold r; Cfield|]. rewrite K. ring. }
  clearbody r. subst u v. apply matched_passes, passes_rev in M. rewrite rev_involutive in M.
  replace (- - (snd back * r)) with (snd back * r) in M by ring. apply matched_passes in M.
  assert (Nr : r <> 0).
  { intros ->. replace (fst back * 0) with (RtoC 0) in F by ring.
    assert (Z : matched 0 0 (rev ls) (fst m) (snd m) 1).
    { assert (Z := matched_front (rev ls) (fst m) (snd m) 1 L'). rewrite F in Z. cbn [fst snd] in Z.
      replace (- (snd back * 0)) with (RtoC 0) in Z by ring. exact Z. }
    apply matched_zero in Z; [|exact L'|now left]. apply RtoC_inj in Z. lra. }
  assert (M1 := matched_front ls (fst back) (snd back) 1 L). apply (matched_scal r) in M1. rewrite Cmult_1_r in M1.
  apply (matched_fun _ _ _ _ _ _ L) in M, M1. rewrite <- M in M1.
  destruct (front_fields ls (fst back) (snd back) 1) as [a b]. cbn [fst snd] in *. assert (E1 := f_equal fst M1). assert (E2 := f_equal snd M1). cbn [fst snd] in E1, E2.
  assert (E3 : r * (a / fst m + b / snd m) = 0).
  { transitivity (r * a / fst m + r * b / snd m); [Cfield|]. rewrite E1, E2. Cfield. }
  apply C_integral in E3. destruct E3 as [E3|E3]; [contradiction|]. rewrite E3. unfold Cdiv. ring.
Qed.

(** The 2x2 solver backwards *)
Lemma pc_prod b m : fst (pc b m) * snd (pc b m) = fst m * Ccos (snd m).
Proof. destruct b; unfold pc, char_s, char_p; cbn [fst snd]; ring. Qed.
Lemma rev_amp b f ls k r t r' t' :
  amplitudes (pf b) f ls k = Some (r, t) -> amplitudes (pf b) k (rev ls) f = Some (r', t') ->
  fst f * Ccos (snd f) * t' = fst k * Ccos (snd k) * t.
Proof.
  intros H K. apply (amplitudes_scattering (pf b) (pc b) (pf_char b)) in H, K. destruct H as [H _], K as [K _].
  rewrite map_rev in K. rewrite <- !(pc_prod b). exact (reverse_t _ _ _ _ _ _ _ _ _ H K).
Qed.
Lemma rev_some b f ls k r t : fst (pc b k) <> 0 -> snd (pc b k) <> 0 ->
  amplitudes (pf b) f ls k = Some (r, t) -> exists r' t', amplitudes (pf b) k (rev ls) f = Some (r', t').
Proof.
  intros P Q H. apply (amplitudes_iff (pf b) (pc b) (pf_char b)) in H. cbv zeta in H. destruct H as (N & I & _ & _).
  set (l := map (char_layer (pc b)) ls) in *.
  exists (snd (inc_ref (pc b k) (rev l) (pc b f)) / fst (inc_ref (pc b k) (rev l) (pc b f))), (1 / fst (inc_ref (pc b k) (rev l) (pc b f))).
  apply (amplitudes_iff (pf b) (pc b) (pf_char b)). cbv zeta. rewrite map_rev. fold l.
  split; [now apply nonsing_rev|]. split; [now apply inc_rev|]. split; reflexivity.
Qed.

(** Changes of the phase of a layer by a multiple of pi *)
Definition signed (s : C) (x : C * C) : C * C := (fst x, s * snd x).
Lemma amplitudes_signed b f k ls ls' (s : C) : s * s = 1 ->
  let m := pc b f in let l := map (char_layer (pc b)) ls in let l' := map (char_layer (pc b)) ls' in
  (nonsing m l (pc b k) <-> nonsing m l' (pc b k)) ->
  (forall u v pb qb t, matched u v l pb qb t -> matched u v l' pb qb (s * t)) ->
  amplitudes (pf b) f ls' k = option_map (signed s) (amplitudes (pf b) f ls k).
Proof.
  intros S m l l' E M.
  assert (Ns : s <> 0) by (intros ->; assert (O : RtoC 0 = 1) by (rewrite <- S; ring); apply RtoC_inj in O; lra).
  destruct (nonsing_dec m l (pc b k)) as [N|N].
  2:{ assert (N' : ~ nonsing m l' (pc b k)) by tauto. rewrite !amplitudes_none by assumption. reflexivity. }
  assert (N' := proj1 E N). assert (L := nonsing_layers _ _ _ N). assert (L' := nonsing_layers _ _ _ N').
  assert (I : inc_ref m l' (pc b k) = (s * fst (inc_ref m l (pc b k)), s * snd (inc_ref m l (pc b k)))).
  { unfold inc_ref. assert (K := matched_front l (fst (pc b k)) (snd (pc b k)) 1 L). apply M in K.
    apply (matched_scal s) in K. rewrite Cmult_assoc, S, Cmult_1_l in K.
    apply (matched_fun _ _ _ _ _ _ L') in K. rewrite <- K. destruct (front_fields l _ _ 1) as [u v]. cbn [fst snd].
    f_equal; unfold Cdiv; ring. }
  assert (G : forall r t, amplitudes (pf b) f ls' k = Some (r, t) <->
    exists t0, amplitudes (pf b) f ls k = Some (r, t0) /\ t = s * t0).
  { intros r t. rewrite (amplitudes_iff (pf b) (pc b) (pf_char b)). cbv zeta. fold m l'. rewrite I. cbn [fst snd].
    set (i := inc_ref m l (pc b k)). assert (D : 1 / s = s).
    { apply (Cmult_cancel s); [exact Ns|]. rewrite S. field. exact Ns. }
    split.
    - intros (_ & I0 & -> & ->). assert (I1 : fst i <> 0) by (intros Z; apply I0; rewrite Z; ring).
      exists (1 / fst i). split.
      + apply (amplitudes_iff (pf b) (pc b) (pf_char b)). cbv zeta. fold m l i. split; [exact N|]. split; [exact I1|].
        split; [|reflexivity]. field. split; assumption.
      + rewrite <- D at 2. field. split; assumption.
    - intros (t0 & H & ->). apply (amplitudes_iff (pf b) (pc b) (pf_char b)) in H. cbv zeta in H. fold m l i in H.
      destruct H as (_ & I1 & -> & ->). split; [exact N'|].
      assert (I0 : s * fst i <> 0) by (intros Z; apply C_integral in Z; tauto). split; [exact I0|].
      split; [field; split; assumption|]. rewrite <- D at 1. field. split; assumption. }
  destruct (amplitudes (pf b) f ls k) as [[r t]|] eqn:A.
  - apply G. exists t. split; reflexivity.
  - destruct (amplitudes (pf b) f ls' k) as [[r t]|] eqn:A'; [|reflexivity].
    destruct (proj1 (G r t) eq_refl) as (t0 & H & _). discriminate.
Qed.

Lemma matched_pre pre ls ls' (s : C) : (forall u v pb qb t, matched u v ls pb qb t -> matched u v ls' pb qb (s * t)) ->
  forall u v pb qb t, matched u v (pre ++ ls) pb qb t -> matched u v (pre ++ ls') pb qb (s * t).
Proof.
  intros H. induction pre as [|[[p q] d] pre IH]; intros u v pb qb t; [apply H|]. cbn [app matched].
  intros (A & B & E1 & E2 & K). exists A, B. split; [exact E1|]. split; [exact E2|]. now apply IH.
Qed.
Lemma matched_phase (p q d c s : C) post : Cexp (Ci * c) = s -> s * s = 1 ->
  forall u v pb qb t, matched u v ((p, q, d) :: post) pb qb t -> matched u v ((p, q, d + c) :: post) pb qb (s * t).
Proof.
  intros Es S u v pb qb t. cbn [matched]. intros (A & B & E1 & E2 & K). exists A, B. split; [exact E1|]. split; [exact E2|].
  cbv zeta in *. assert (Es' : Cexp (- (Ci * c)) = s).
  { assert (X := exp_cancel c). rewrite Es in X. transitivity (s * s * Cexp (- (Ci * c))); [rewrite S; ring|].
    transitivity (s * (s * Cexp (- (Ci * c)))); [ring|]. rewrite X. ring. }
  replace (Ci * (d + c)) with (Ci * d + Ci * c) by ring.
  replace (- (Ci * d + Ci * c)) with (- (Ci * d) + - (Ci * c)) by ring. rewrite !Cexp_plus, Es, Es'.
  apply (matched_scal s) in K.
  match type of K with matched ?a ?b _ _ _ _ => match goal with |- matched ?x ?y _ _ _ _ =>
      replace x with a by ring; replace y with b by ring end end. exact K.
Qed.

Lemma even_nat (n : nat) : Z.even (Z.of_nat n) = Nat.even n.
Proof. induction n as [|n IH]; [reflexivity|]. rewrite Nat2Z.inj_succ, Z.even_succ, <- Z.negb_even, IH, Nat.even_succ, <- Nat.negb_even. reflexivity. Qed.
Lemma Cexp_pi (m : Z) : Cexp (Ci * RtoC (IZR m * PI)) = RtoC (sign_of m).
Proof.
  assert (E : Ci * RtoC (IZR m * PI) = (0%R, (IZR m * PI)%R)) by (unfold Ci; apply C_ext; simpl; ring).
  rewrite E. unfold Cexp, Re, Im. cbn [fst snd]. rewrite exp_0, !Rmult_1_l.
  assert (G : forall n : nat, cos (INR n * PI) = (if Nat.even n then 1 else -1)%R /\ sin (INR n * PI) = 0%R).
  { induction n as [|n [IH1 IH2]]; [simpl; rewrite Rmult_0_l, cos_0, sin_0; split; reflexivity|].
    rewrite S_INR. replace ((INR n + 1) * PI)%R with (INR n * PI + PI)%R by ring.
    rewrite neg_cos, neg_sin, IH1, IH2, Nat.even_succ, <- Nat.negb_even. destruct (Nat.even n); simpl; split; ring. }
  assert (H : cos (IZR m * PI) = sign_of m /\ sin (IZR m * PI) = 0%R).
  { unfold sign_of. destruct m as [|p|p].
    - simpl. rewrite Rmult_0_l, cos_0, sin_0. split; reflexivity.
    - destruct (G (Pos.to_nat p)) as [G1 G2]. rewrite INR_IZR_INZ, positive_nat_Z in G1, G2. rewrite G1, G2. split; [|reflexivity].
      rewrite <- (positive_nat_Z p). generalize (Pos.to_nat p). intros n. rewrite even_nat. reflexivity.
    - destruct (G (Pos.to_nat p)) as [G1 G2]. rewrite INR_IZR_INZ, positive_nat_Z in G1, G2.
      replace (IZR (Z.neg p) * PI)%R with (- (IZR (Z.pos p) * PI))%R by (rewrite <- Pos2Z.opp_pos, opp_IZR; ring).
      rewrite cos_neg, sin_neg, G1, G2, Ropp_0. split; [|reflexivity].
      replace (Z.even (Z.neg p)) with (Z.even (Z.pos p)) by (destruct p; reflexivity). rewrite <- (positive_nat_Z p). generalize (Pos.to_nat p). intros n. rewrite even_nat. reflexivity. }
  destruct H as [-> ->]. reflexivity.
Qed.
