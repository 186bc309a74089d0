From Coq Require Import Reals List Lra.
From Coquelicot Require Import Complex.
From Verif.Base Require Import Py Cx Mat.
From Verif.Model Require Import Units Ellips Structure Solver2.
From Verif.Spec Require Import Stack.
From Verif.Proof Require Import StackP DispersionsP.
Import ListNotations.
Open Scope C_scope.
Open Scope py_scope.

(** The two numbers describing a medium in each polarisation *)
Definition char_s (m : medium) : C * C := (RtoC 1, fst m * Ccos (snd m)).
Definition char_p (m : medium) : C * C := (fst m, Ccos (snd m)).
Definition char_layer (char : medium -> C * C) (l : phase_layer) : C * C * C :=
  (char (fst l), snd l).

(** Fresnel coefficients in terms of these numbers *)
Definition fresnel_g (m m' : C * C) : option (C * C) :=
  let (p, q) := m in let (p', q') := m' in
  let? r := cdiv (q * p' - p * q') (q * p' + p * q') in
  let? t := cdiv (2 * p * q) (q * p' + p * q') in
  Some (r, t).

Lemma fresnel_s_g n n' th th' : fresnel_s n n' th th' = fresnel_g (char_s (n, th)) (char_s (n', th')).
Proof.
  unfold fresnel_s, fresnel_g, char_s. cbn [fst snd].
  replace (n * Ccos th * 1 - 1 * (n' * Ccos th')) with (n * Ccos th - n' * Ccos th') by ring.
  replace (n * Ccos th * 1 + 1 * (n' * Ccos th')) with (n * Ccos th + n' * Ccos th') by ring.
  replace (2 * 1 * (n * Ccos th)) with (2 * n * Ccos th) by ring. reflexivity.
Qed.
Lemma fresnel_p_g n n' th th' : fresnel_p n n' th th' = fresnel_g (char_p (n, th)) (char_p (n', th')).
Proof.
  unfold fresnel_p, fresnel_g, char_p. cbn [fst snd].
  replace (Ccos th * n' - n * Ccos th') with (n' * Ccos th - n * Ccos th') by ring.
  replace (Ccos th * n' + n * Ccos th') with (n' * Ccos th + n * Ccos th') by ring. reflexivity.
Qed.

Definition next_pq (ls : list (C * C * C)) (back : C * C) : C * C :=
  match ls with l :: _ => fst l | [] => back end.

(** Nothing is divided by zero at the interfaces. *)
Fixpoint nonsing (m : C * C) (ls : list (C * C * C)) (back : C * C) : Prop :=
  fst m <> RtoC 0 /\ snd m <> RtoC 0 /\
  snd m * fst (next_pq ls back) + fst m * snd (next_pq ls back) <> RtoC 0 /\
  match ls with [] => True | l :: rest => nonsing (fst l) rest back end.

Lemma nonsing_layers m ls back : nonsing m ls back -> layers_ok ls.
Proof.
  revert m. induction ls as [|l ls IH]; intros m H; [constructor|].
  cbn [nonsing] in H. destruct H as (_ & _ & _ & H). constructor; [|now apply (IH (fst l))].
  destruct ls; cbn [nonsing] in H; tauto.
Qed.

Section Pol.
Variable fresnel : C -> C -> C -> C -> option (C * C).
Variable char : medium -> C * C.
Hypothesis fresnel_char : forall n n' th th', fresnel n n' th th' = fresnel_g (char (n, th)) (char (n', th')).

Lemma next_char ls back : next_pq (map (char_layer char) ls) (char back) = char (next_medium ls back).
Proof. destruct ls as [|[[n th] d] ls]; reflexivity. Qed.

(** One interface *)
Lemma interface_step (p q p' q' : C) rt : fresnel_g (p, q) (p', q') = Some rt -> snd rt <> 0 ->
  p <> 0 /\ q <> 0 /\ q * p' + p * q' <> 0 /\
  forall A B : C, let X := (A + fst rt * B) / snd rt in let Y := (fst rt * A + B) / snd rt in
  p * (X + Y) = p' * (A + B) /\ q * (X - Y) = q' * (A - B).
Proof.
  unfold fresnel_g. intros H T. unfold cdiv in H. destruct (Ceq_dec (q * p' + p * q') 0) as [|N]; [discriminate|].
  cbn [obind] in H. apply Some_eq in H. subst rt. cbn [fst snd] in *.
  assert (PQ : p <> 0 /\ q <> 0).
  { split; intros ->; apply T; unfold Cdiv; ring. }
  destruct PQ as [P Q]. split; [exact P|]. split; [exact Q|]. split; [exact N|].
  intros A B. cbv zeta. split; Cfield.
Qed.

Lemma interface_some (p q p' q' : C) : p <> 0 -> q <> 0 -> q * p' + p * q' <> 0 ->
  exists rt, fresnel_g (p, q) (p', q') = Some rt /\ snd rt <> 0.
Proof.
  intros P Q N. unfold fresnel_g. rewrite !cdiv_some by exact N. cbn [obind]. eexists. split; [reflexivity|].
  cbn [snd]. apply Cdiv_neq0; [|exact N]. intros E. apply C_integral in E. destruct E as [E|E]; [|contradiction].
  apply C_integral in E. destruct E as [E|E]; [|contradiction]. apply RtoC_inj in E. lra.
Qed.

Definition col0 (M : mat) (A B : C) : C * C :=
  (M 0%nat 0%nat * A + M 0%nat 1%nat * B, M 1%nat 0%nat * A + M 1%nat 1%nat * B).

Lemma col0_mul M L A B : col0 (mmul 2 M L) A B = col0 M (fst (col0 L A B)) (snd (col0 L A B)).
Proof. unfold col0, mmul, csum. cbn [fst snd]. f_equal; simpl; ring. Qed.

Lemma loop_some ls : forall M back,
  match ls with [] => True | l :: rest => nonsing (char (fst l)) (map (char_layer char) rest) (char back) end ->
  exists M', loop fresnel M ls back = Some M'.
Proof.
  induction ls as [|[[n th] d] ls IH]; intros M back H; cbn [loop]; [eauto|].
  cbn [fst] in H. destruct (next_medium ls back) as [n' th'] eqn:En.
  assert (G : exists rt, fresnel_g (char (n, th)) (char (n', th')) = Some rt /\ snd rt <> 0).
  { rewrite <- En, <- next_char. destruct (char (n, th)) as [p q]. destruct (next_pq _ _) as [p' q'] eqn:E.
    destruct ls; cbn [nonsing map] in H, E; rewrite ?E in H; cbn [fst snd] in H; apply interface_some; tauto. }
  destruct G as ([r t] & G & T). rewrite fresnel_char, G. cbn [obind]. unfold layer_matrix, mdivc.
  cbn [snd] in T. destruct (Ceq_dec t 0); [contradiction|]. cbn [obind]. apply IH.
  destruct ls as [|l ls]; [exact I|]. cbn [nonsing map] in H. cbn [map] in *. tauto.
Qed.

Lemma loop_fields ls : forall M back M', loop fresnel M ls back = Some M' ->
  match ls with [] => True | l :: rest => nonsing (char (fst l)) (map (char_layer char) rest) (char back) end /\
  exists A B, col0 M' (RtoC 1) (RtoC 0) = col0 M A B /\
    let (p, q) := next_pq (map (char_layer char) ls) (char back) in
    (p * (A + B), q * (A - B)) = front_fields (map (char_layer char) ls) (fst (char back)) (snd (char back)) 1.
Proof.
  induction ls as [|[[n th] d] ls IH]; intros M back M' H; cbn [loop] in H.
  - apply Some_eq in H. subst M'. split; [exact I|]. exists (RtoC 1), (RtoC 0). split; [reflexivity|].
    cbn [map next_pq front_fields]. destruct (char back) as [p q]. cbn [fst snd]. f_equal; ring.
  - destruct (next_medium ls back) as [n' th'] eqn:En.
    rewrite fresnel_char in H. destruct (fresnel_g (char (n, th)) (char (n', th'))) as [[r t]|] eqn:F; [|discriminate].
    cbn [obind] in H. unfold layer_matrix, mdivc in H. destruct (Ceq_dec t 0) as [|T]; [discriminate|]. cbn [obind] in H.
    apply IH in H. destruct H as (H1 & A & B & E & K).
    rewrite next_char, En in K.
    destruct (char (n, th)) as [p q] eqn:C1. destruct (char (n', th')) as [p' q'] eqn:C2.
    destruct (interface_step p q p' q' (r, t) F T) as (P & Q & N & S). cbn [fst snd] in S.
    split.
    + cbn [fst]. rewrite C1.
      assert (NX : next_pq (map (char_layer char) ls) (char back) = (p', q')) by (rewrite next_char, En; exact C2).
      destruct ls as [|l ls]; cbn [nonsing map] in NX |- *; rewrite NX; cbn [fst snd]; (split; [exact P|]; split; [exact Q|]; split; [exact N|]); [exact I|exact H1].
    + rewrite E, col0_mul.
      eexists; eexists. split; [reflexivity|].
      cbn [map]. assert (CL : char_layer char (n, th, d) = ((p, q), d)) by (unfold char_layer; cbn [fst snd]; now rewrite C1).
      rewrite CL. cbn [next_pq fst front_fields].
      rewrite <- K. destruct (S A B) as [S1 S2]. cbv zeta in S1, S2. rewrite <- S1, <- S2.
      set (X := (A + r * B) / t) in *. set (Y := (r * A + B) / t) in *.
      unfold col0, mat_of. cbn [fst snd nth].
      replace (- Ci * d) with (- (Ci * d)) by ring. set (em := Cexp (- (Ci * d))). set (ep := Cexp (Ci * d)).
      replace (em / t * A + r * em / t * B) with (X * em) by (unfold X; Cfield).
      replace (r * ep / t * A + ep / t * B) with (Y * ep) by (unfold Y; Cfield).
      replace ((p * (X + Y) / p + q * (X - Y) / q) / 2 * em) with (X * em) by Cfield.
      replace ((p * (X + Y) / p - q * (X - Y) / q) / 2 * ep) with (Y * ep) by Cfield. reflexivity.
Qed.

(** Amplitudes of the incident and reflected wave for a transmitted wave of amplitude one. *)
Definition inc_ref (m : C * C) (ls : list (C * C * C)) (back : C * C) : C * C :=
  let (u, v) := front_fields ls (fst back) (snd back) 1 in
  ((u / fst m + v / snd m) / 2, (u / fst m - v / snd m) / 2).

Lemma amplitudes_iff front ls back r t :
  let m := char front in let ls' := map (char_layer char) ls in let b := char back in
  amplitudes fresnel front ls back = Some (r, t) <->
  nonsing m ls' b /\ fst (inc_ref m ls' b) <> 0 /\
  r = snd (inc_ref m ls' b) / fst (inc_ref m ls' b) /\ t = 1 / fst (inc_ref m ls' b).
Proof.
  cbv zeta. destruct front as [n th]. unfold amplitudes. destruct (next_medium ls back) as [n' th'] eqn:En.
  rewrite fresnel_char. assert (NX := next_char ls back). rewrite En in NX.
  destruct (char (n, th)) as [p q] eqn:C1. destruct (char (n', th')) as [p' q'] eqn:C2.
  assert (Key : forall rt, fresnel_g (p, q) (p', q') = Some rt -> snd rt <> 0 ->
    forall M0 M, interface_matrix rt = Some M0 -> loop fresnel M0 ls back = Some M ->
    nonsing (p, q) (map (char_layer char) ls) (char back) /\
    inc_ref (p, q) (map (char_layer char) ls) (char back) = (M 0%nat 0%nat, M 1%nat 0%nat)).
  { intros [ri ti] F T M0 M E0 EL. cbn [snd] in T.
    destruct (interface_step p q p' q' (ri, ti) F T) as (P & Q & N & S). cbn [fst snd] in S.
    apply loop_fields in EL. destruct EL as (H1 & A & B & E & K). rewrite NX in K.
    split.
    - destruct ls as [|l ls]; cbn [nonsing map] in *; rewrite NX; cbn [fst snd];
        (split; [exact P|]; split; [exact Q|]; split; [exact N|]); [exact I|exact H1].
    - unfold inc_ref. rewrite <- K. cbn [fst snd]. destruct (S A B) as [S1 S2]. cbv zeta in S1, S2. rewrite <- S1, <- S2.
      unfold interface_matrix, mdivc in E0. destruct (Ceq_dec ti 0); [discriminate|]. apply Some_eq in E0. subst M0.
      unfold col0 in E. unfold mat_of in E. cbn [nth] in E.
      assert (E1 := f_equal fst E). assert (E2 := f_equal snd E). cbn [fst snd] in E1, E2.
      f_equal.
      + transitivity ((A + ri * B) / ti); [Cfield|]. transitivity (1 / ti * A + ri / ti * B); [field; exact T|]. rewrite <- E1. ring.
      + transitivity ((ri * A + B) / ti); [Cfield|]. transitivity (ri / ti * A + 1 / ti * B); [field; exact T|]. rewrite <- E2. ring. }
  split.
  - intros H. destruct (fresnel_g (p, q) (p', q')) as [[ri ti]|] eqn:F; [|discriminate]. cbn [obind] in H.
    destruct (interface_matrix (ri, ti)) as [M0|] eqn:E0; [|discriminate]. cbn [obind] in H.
    destruct (loop fresnel M0 ls back) as [M|] eqn:EL; [|discriminate]. cbn [obind] in H.
    assert (T : ti <> 0) by (unfold interface_matrix, mdivc in E0; destruct (Ceq_dec ti 0); [discriminate|assumption]).
    destruct (Key (ri, ti) eq_refl T M0 M E0 EL) as [K1 K2]. split; [exact K1|]. rewrite K2. cbn [fst snd].
    unfold cdiv in H. destruct (Ceq_dec (M 0%nat 0%nat) 0); [discriminate|]. cbn [obind] in H.
    split; [assumption|]. injection H as <- <-. split; reflexivity.
  - intros (N & I0 & -> & ->).
    assert (G : p <> 0 /\ q <> 0 /\ q * p' + p * q' <> 0).
    { destruct ls; cbn [nonsing map] in *; rewrite NX in N; cbn [fst snd] in N; tauto. }
    destruct G as (P & Q & D). destruct (interface_some p q p' q' P Q D) as ([ri ti] & F & T).
    rewrite F. cbn [obind snd] in *. unfold interface_matrix at 1, mdivc. destruct (Ceq_dec ti 0); [contradiction|]. cbn [obind].
    match goal with |- context [loop fresnel ?M0 ls back] => destruct (loop_some ls M0 back) as [M EL] end.
    { destruct ls as [|l ls]; [exact I|]. cbn [nonsing map] in N. cbn [map]. tauto. }
    rewrite EL. cbn [obind].
    assert (E0 : interface_matrix (ri, ti) = Some (fun i j => mat_of [[RtoC 1; ri]; [ri; RtoC 1]] i j / ti)).
    { unfold interface_matrix, mdivc. destruct (Ceq_dec ti 0); [contradiction|reflexivity]. }
    destruct (Key (ri, ti) F T _ M E0 EL) as [_ K2]. rewrite K2 in *. cbn [fst snd] in *.
    rewrite !cdiv_some by exact I0. reflexivity.
Qed.

(** The solver solves the boundary value problem, and it has no other solution. *)
Lemma amplitudes_scattering front ls back r t :
  let m := char front in let ls' := map (char_layer char) ls in let b := char back in
  amplitudes fresnel front ls back = Some (r, t) ->
  scattering (fst m) (snd m) ls' (fst b) (snd b) 1 r t /\
  forall a' r' t', scattering (fst m) (snd m) ls' (fst b) (snd b) a' r' t' -> r' = a' * r /\ t' = a' * t.
Proof.
  cbv zeta. intros H. apply amplitudes_iff in H. cbv zeta in H. destruct H as (N & I0 & R & T).
  set (m := char front) in *. set (l := map (char_layer char) ls) in *. set (b := char back) in *.
  assert (L : layers_ok l) by (eapply nonsing_layers; exact N).
  assert (P : fst m <> 0 /\ snd m <> 0) by (destruct l; cbn [nonsing] in N; tauto). destruct P as [P Q].
  unfold inc_ref in *. destruct (front_fields l (fst b) (snd b) 1) as [u v] eqn:F. cbn [fst snd] in *.
  assert (M1 : matched u v l (fst b) (snd b) 1) by (apply matched_iff; [exact L|now rewrite F]).
  set (i := (u / fst m + v / snd m) / 2) in *. set (j := (u / fst m - v / snd m) / 2) in *.
  assert (U : u = fst m * (i + j)) by (unfold i, j; Cfield).
  assert (V : v = snd m * (i - j)) by (unfold i, j; Cfield).
  split.
  - unfold scattering. apply (matched_scal (/ i)) in M1.
    replace t with (/ i * 1) by (rewrite T; field; exact I0).
    replace (fst m * (1 + r)) with (/ i * u) by (rewrite R, U; field; exact I0).
    replace (snd m * (1 - r)) with (/ i * v) by (rewrite R, V; field; exact I0). exact M1.
  - intros a' r' t' S. unfold scattering in S. apply (matched_scal t') in M1.
    apply (matched_iff _ _ _ _ _ _ L) in M1. apply (matched_iff _ _ _ _ _ _ L) in S.
    rewrite Cmult_1_r in M1. rewrite <- M1 in S. assert (S1 := f_equal fst S). assert (S2 := f_equal snd S). cbn [fst snd] in S1, S2.
    rewrite U in S1. rewrite V in S2.
    assert (E1 : a' + r' = t' * (i + j)) by (apply (Cmult_cancel (fst m)); [exact P|]; rewrite S1; ring).
    assert (E2 : a' - r' = t' * (i - j)) by (apply (Cmult_cancel (snd m)); [exact Q|]; rewrite S2; ring).
    assert (Ea : a' = t' * i) by (transitivity (((a' + r') + (a' - r')) / 2); [Cfield|rewrite E1, E2; Cfield]).
    assert (Er : r' = t' * j) by (transitivity (((a' + r') - (a' - r')) / 2); [Cfield|rewrite E1, E2; Cfield]).
    rewrite Ea, Er, R, T. split; field; exact I0.
Qed.

(** Stacks with the same waves have the same amplitudes, unless an interface divides by zero. *)
Lemma amplitudes_same front back ls ls' :
  let m := char front in let b := char back in
  let l := map (char_layer char) ls in let l' := map (char_layer char) ls' in
  nonsing m l b -> nonsing m l' b -> same_waves l l' ->
  amplitudes fresnel front ls back = amplitudes fresnel front ls' back.
Proof.
  cbv zeta. intros N N' S.
  assert (L := nonsing_layers _ _ _ N). assert (L' := nonsing_layers _ _ _ N').
  assert (E : inc_ref (char front) (map (char_layer char) ls) (char back) = inc_ref (char front) (map (char_layer char) ls') (char back)).
  { unfold inc_ref. assert (M1 := matched_front _ (fst (char back)) (snd (char back)) 1 L). apply S in M1.
    apply (matched_fun _ _ _ _ _ _ L') in M1. rewrite <- M1. destruct (front_fields _ _ _ _); reflexivity. }
  assert (G : forall r t, amplitudes fresnel front ls back = Some (r, t) <-> amplitudes fresnel front ls' back = Some (r, t)).
  { intros r t. rewrite (amplitudes_iff front ls back r t), (amplitudes_iff front ls' back r t). cbv zeta. rewrite E. tauto. }
  destruct (amplitudes fresnel front ls back) as [[r t]|] eqn:A1.
  - symmetry. apply G. reflexivity.
  - destruct (amplitudes fresnel front ls' back) as [[r t]|] eqn:A2; [|reflexivity].
    assert (K := proj2 (G r t) eq_refl). discriminate.
Qed.
End Pol.
