(** Integer arithmetic of numpy without overflow *)
From Coq Require Import Reals ZArith Lra Psatz Lia.
From Coquelicot Require Import Complex.
From Coq Require Import List.
From Verif.Base Require Import Py Cx.
From Verif.Model Require Import Units Dispersions IntWave.
From Verif.Proof Require Import DispersionsP DispersionsP2.
Import ListNotations.
Open Scope R_scope.
Open Scope py_scope.

Lemma wrap_id z : (Z.abs z < 2 ^ 63)%Z -> wrap z = z.
Proof. intros H. unfold wrap. rewrite Z.mod_small; lia. Qed.

Lemma Int_part_IZR e : Int_part (IZR e) = e.
Proof. destruct (base_Int_part (IZR e)) as [A B]. apply le_IZR in A. assert (IZR e < IZR (Int_part (IZR e) + 1))%R by (rewrite plus_IZR; lra). apply lt_IZR in H. lia. Qed.

Lemma powerRZ_IZR z e : (0 <= e)%Z -> powerRZ (IZR z) e = IZR (z ^ e).
Proof.
  intros H. rewrite <- (Z2Nat.id e) by exact H. rewrite <- pow_powerRZ. apply pow_IZR.
Qed.

Lemma rpow_IZR z e : (0 <= e)%Z -> rpow (IZR z) (IZR e) = Some (IZR (z ^ e)).
Proof.
  intros H. unfold rpow. rewrite Int_part_IZR. destruct (Rlt_dec 0 (IZR z)) as [P|P].
  - f_equal. rewrite <- powerRZ_IZR by exact H. symmetry. rewrite <- (Z2Nat.id e) by exact H. rewrite <- pow_powerRZ, <- INR_IZR_INZ. symmetry. apply Rpower_pow. exact P.
  - destruct (Req_EM_T (IZR e) (IZR e)) as [_|N]; [|congruence].
    destruct (Req_EM_T (IZR z) 0) as [Z0|Z0].
    + apply eq_IZR in Z0. subst z. destruct (Rlt_dec (IZR e) 0) as [L|L]; [apply lt_IZR in L; lia|].
      f_equal. destruct (Req_EM_T (IZR e) 0) as [E|E].
      * apply eq_IZR in E. subst. reflexivity.
      * rewrite Z.pow_0_l; [reflexivity|]. assert (e <> 0)%Z by congruence. lia.
    + f_equal. now apply powerRZ_IZR.
Qed.

(** Two elements with the same value *)
Definition val (a : elt) : option C := to_C a.
(** The absolute value of an integer element, zero for the others *)
Definition size (a : elt) : Z := match a with EI z => Z.abs z | _ => 0%Z end.

Lemma val_EF x : val (EF x) = option_map RtoC x.
Proof. reflexivity. Qed.
Definition oc2 (o : C -> C -> C) (a b : option C) : option C := let? x := a in let? y := b in Some (o x y).

Lemma lift2_val oz ofl oc a b :
  (forall x y, IZR (oz x y) = ofl (IZR x) (IZR y)) -> (forall x y : R, RtoC (ofl x y) = oc (RtoC x) (RtoC y)) ->
  (forall x y, a = EI x -> b = EI y -> (Z.abs (oz x y) < 2 ^ 63)%Z) ->
  val (lift2 oz ofl oc a b) = oc2 oc (val a) (val b).
Proof.
  intros H1 H2 H3. destruct a as [x|[x|]|x], b as [y|[y|]|y]; cbn; rewrite ?H2; try reflexivity.
  rewrite wrap_id by now apply H3. now rewrite H1, H2.
Qed.
Lemma eadd_val a b : (size a + size b < 2 ^ 63)%Z -> val (eadd a b) = oc2 Cplus (val a) (val b).
Proof. intros H. apply lift2_val; [intros; apply plus_IZR|intros; apply RtoC_plus|intros x y -> ->; cbn [size] in H; lia]. Qed.
Lemma esub_val a b : (size a + size b < 2 ^ 63)%Z -> val (esub a b) = oc2 Cminus (val a) (val b).
Proof. intros H. apply lift2_val; [intros; apply minus_IZR|intros; apply RtoC_minus|intros x y -> ->; cbn [size] in H; lia]. Qed.
Lemma emul_val a b : (size a * size b < 2 ^ 63)%Z -> val (emul a b) = oc2 Cmult (val a) (val b).
Proof. intros H. apply lift2_val; [intros; apply mult_IZR|intros; apply RtoC_mult|intros x y -> ->; cbn [size] in H; lia]. Qed.
Lemma ediv_val a b : val (ediv a b) = let? x := val a in let? y := val b in cdiv x y.
Proof.
  assert (D : forall x y : R, option_map RtoC (rdiv x y) = cdiv (RtoC x) (RtoC y)).
  { intros x y. unfold rdiv, cdiv. destruct (Req_EM_T y 0) as [->|N].
    - destruct (Ceq_dec 0 0); [reflexivity|congruence].
    - destruct (Ceq_dec (RtoC y) 0) as [E|_]; [apply RtoC_inj in E; contradiction|]. cbn. now rewrite RtoC_div. }
  destruct a as [x|[x|]|x], b as [y|[y|]|y]; cbn; rewrite <- ?D; reflexivity.
Qed.
Lemma size_nonneg a : (0 <= size a)%Z.
Proof. destruct a; cbn; lia. Qed.
Lemma size_eadd a b : (size a + size b < 2 ^ 63)%Z -> (size (eadd a b) <= size a + size b)%Z.
Proof.
  destruct a as [x|x|x], b as [y|y|y]; cbn; intros H; try lia. rewrite wrap_id; lia.
Qed.
Lemma size_emul a b : (size a * size b < 2 ^ 63)%Z -> (size (emul a b) <= size a * size b)%Z.
Proof.
  destruct a as [x|x|x], b as [y|y|y]; cbn; intros H; try lia. rewrite wrap_id; lia.
Qed.

(** Powers without overflow *)
Definition pow_fits (w : elt) (e : num) : Prop :=
  match w, e with EI z, NInt e => (0 <= e /\ Z.abs z ^ e < 2 ^ 63)%Z | EK _, _ => False | _, _ => True end.
Definition term_size (w : elt) (t : num * num) : Z :=
  match w, t with EI z, (NInt f, NInt e) => (Z.abs f * Z.abs z ^ e)%Z | _, _ => 0%Z end.
Definition total_size (w : elt) (rep : list (num * num)) : Z := fold_right (fun t a => (term_size w t + a)%Z) 0%Z rep.

Lemma scalar_val a : val (scalar a) = Some (RtoC (num_R a)).
Proof. destruct a; reflexivity. Qed.

Lemma epow_fits w x e : to_R w = Some x -> pow_fits w e ->
  exists a, epow w e = Ok a /\ val a = option_map RtoC (rpow x (num_R e)) /\
    (forall f, size (scalar f) * size a = term_size w (f, e))%Z.
Proof.
  intros W H. destruct w as [z|y|y], e as [e|e]; cbn [epow pow_fits to_R num_R] in *; try contradiction.
  - destruct H as [E B]. injection W as <-. destruct (e <? 0)%Z eqn:N; [lia|]. eexists. split; [reflexivity|].
    rewrite wrap_id by (rewrite Z.abs_pow; exact B). split; [cbn; now rewrite rpow_IZR|]. intros [f|f]; cbn; [now rewrite Z.abs_pow|reflexivity].
  - injection W as <-. eexists. split; [reflexivity|]. split; [reflexivity|]. intros [f|f]; cbn; lia.
  - subst y. eexists. split; [reflexivity|]. split; [reflexivity|]. intros [f|f]; cbn; lia.
  - subst y. eexists. split; [reflexivity|]. split; [reflexivity|]. intros [f|f]; cbn; lia.
Qed.

Lemma term_size_nonneg w t : (0 <= term_size w t)%Z.
Proof. destruct w, t as [[f|f] [e|e]]; cbn [term_size]; lia. Qed.
Lemma total_size_nonneg w rep : (0 <= total_size w rep)%Z.
Proof. induction rep as [|t rep IH]; [apply Z.le_refl|]. change (total_size w (t :: rep)) with (term_size w t + total_size w rep)%Z. assert (H := term_size_nonneg w t). lia. Qed.

Lemma terms_val w x rep : to_R w = Some x -> Forall (fun t => pow_fits w (snd t)) rep -> forall acc,
  (size acc + total_size w rep < 2 ^ 63)%Z ->
  exists a, fold_left (fun acc '(f, e) => let* a := acc in let* p := epow w e in Ok (eadd a (emul (scalar f) p))) rep (Ok acc) = Ok a /\
    val a = fold_left (fun acc y => let? a := acc in let? t := (let '(f, e) := y in let? p := rpow x e in Some (RtoC (f * p))) in Some (a + t)%C)
      (map (fun t => (num_R (fst t), num_R (snd t))) rep) (val acc) /\
    (size a <= size acc + total_size w rep)%Z.
Proof.
  intros W. induction rep as [|[f e] rep IH]; intros F acc B; cbn [fold_left map total_size fold_right fst snd].
  - exists acc. split; [reflexivity|]. split; [reflexivity|lia].
  - inversion F as [|t l F1 F2]; subst. cbn [snd] in F1. destruct (epow_fits w x e W F1) as (p & Ep & Vp & Sp). rewrite Ep. cbn [rbind].
    cbn [total_size fold_right] in B. fold (total_size w rep) in *. assert (T := term_size_nonneg w (f, e)). assert (T' := total_size_nonneg w rep).
    assert (A0 := size_nonneg acc).
    assert (M : (size (scalar f) * size p < 2 ^ 63)%Z) by (rewrite Sp; lia).
    assert (M2 := size_emul (scalar f) p M). rewrite Sp in M2.
    assert (A2 := size_eadd acc (emul (scalar f) p) ltac:(lia)).
    destruct (IH F2 (eadd acc (emul (scalar f) p)) ltac:(lia)) as (a & Ea & Va & Sa). exists a. split; [exact Ea|]. split; [|lia].
    rewrite Va. f_equal. rewrite eadd_val by lia. rewrite emul_val by exact M. rewrite Vp, scalar_val. unfold oc2. cbn [obind].
    destruct (val acc); [cbn [obind]|reflexivity]. destruct (rpow x (num_R e)); cbn; [now rewrite RtoC_mult|reflexivity].
Qed.

Lemma powers_val w x first rep : to_R w = Some x -> Forall (fun t => pow_fits w (snd t)) rep ->
  (size (scalar first) + total_size w rep < 2 ^ 63)%Z ->
  exists a, powers_elt first rep w = Ok a /\ val a = polynomial (num_R first) (map (fun t => (num_R (fst t), num_R (snd t))) rep) x /\
    (size a <= size (scalar first) + total_size w rep)%Z.
Proof.
  intros W F B. assert (S0 := size_nonneg (scalar first)). assert (T0 := total_size_nonneg w rep). unfold powers_elt.
  destruct (Nat.eqb_spec (length rep) 0) as [N|N].
  { destruct rep; [|discriminate]. eexists. split; [reflexivity|]. split; [|cbn [size]; lia].
    unfold polynomial, osum. cbn [map fold_left obind val to_C option_map]. f_equal. ring. }
  destruct (terms_val w x rep W F (EI 0)) as (a & Ea & Va & Sa); [cbn [size]; lia|].
  rewrite Ea. cbn [rbind]. eexists. split; [reflexivity|]. cbn [size] in Sa. split.
  - rewrite eadd_val by lia. rewrite scalar_val, Va. reflexivity.
  - etransitivity; [apply size_eadd; lia|lia].
Qed.

(** With a float wavelength no result is an integer. *)
Lemma terms_float y rep : forall v a,
  fold_left (fun acc '(f, e) => let* a := acc in let* p := epow (EF y) e in Ok (eadd a (emul (scalar f) p))) rep (Ok (EF v)) = Ok a ->
  exists u, a = EF u.
Proof.
  induction rep as [|[f e] rep IH]; intros v a H; cbn [fold_left] in H.
  - injection H as <-. eauto.
  - cbn [epow rbind] in H. destruct f as [f|f]; exact (IH _ _ H).
Qed.

Lemma powers_float x first rep :
  exists u, powers_elt first rep (EF (Some x)) = Ok (EF u) /\ option_map RtoC u = polynomial (num_R first) (map (fun t => (num_R (fst t), num_R (snd t))) rep) x.
Proof.
  unfold powers_elt. destruct (Nat.eqb_spec (length rep) 0) as [N|N].
  { destruct rep; [|discriminate]. eexists. split; [reflexivity|]. unfold polynomial, osum. cbn [map fold_left obind option_map]. f_equal. ring. }
  destruct (terms_val (EF (Some x)) x rep eq_refl) with (acc := EI 0) as (a & Ea & Va & Sa).
  { apply Forall_forall. intros [f [e|e]] _; exact I. }
  { assert (T : total_size (EF (Some x)) rep = 0%Z) by (clear; induction rep as [|[[f|f] [e|e]] rep IH]; cbn; auto). rewrite T. reflexivity. }
  rewrite Ea. cbn [rbind].
  assert (exists u, a = EF u) as [u ->].
  { destruct rep as [|[f e] rep]; [now destruct N|]. cbn [fold_left epow rbind] in Ea. destruct f as [f|f]; exact (terms_float _ _ _ _ Ea). }
  eexists. split; [destruct first; reflexivity|]. unfold polynomial, osum. match type of Va with _ = ?r => match goal with |- context [obind ?q _] => change q with r end end.
  rewrite <- Va. destruct u as [u|]; [|destruct first; reflexivity]. destruct first; cbn; now rewrite RtoC_plus.
Qed.

Lemma cauchy_val w x n0 n1 n2 k0 k1 k2 : to_R w = Some x -> pow_fits w (NInt 2) -> pow_fits w (NInt 4) ->
  exists a, cauchy_elt n0 n1 n2 k0 k1 k2 w = Ok a /\ val a = cauchy n0 n1 n2 k0 k1 k2 x /\ size a = 0%Z.
Proof.
  intros W F2 F4. destruct (epow_fits w x _ W F2) as (l2 & E2 & V2 & _). destruct (epow_fits w x _ W F4) as (l4 & E4 & V4 & _).
  unfold cauchy_elt. rewrite E2, E4. cbn [rbind]. eexists. split; [reflexivity|].
  assert (P2 : rpow x (num_R (NInt 2)) = Some (x ^ 2)%R /\ rpow x (num_R (NInt 4)) = Some (x ^ 4)%R).
  { assert (G : forall n : nat, rpow x (IZR (Z.of_nat n)) = Some (x ^ n)%R); [|split; [apply (G 2%nat)|apply (G 4%nat)]].
    intros n. unfold rpow. rewrite Int_part_IZR. destruct (Rlt_dec 0 x) as [P|P].
    - rewrite <- INR_IZR_INZ. f_equal. apply Rpower_pow. exact P.
    - destruct (Req_EM_T (IZR (Z.of_nat n)) (IZR (Z.of_nat n))) as [_|N]; [|congruence].
      destruct (Req_EM_T x 0) as [->|N].
      + destruct (Rlt_dec (IZR (Z.of_nat n)) 0) as [L|L]; [apply lt_IZR in L; lia|]. f_equal.
        destruct (Req_EM_T (IZR (Z.of_nat n)) 0) as [E|E].
        * apply eq_IZR in E. assert (n = 0%nat) by lia. subst. reflexivity.
        * destruct n; [exfalso; apply E; reflexivity|]. simpl. ring.
      + f_equal. symmetry. apply pow_powerRZ. }
  destruct P2 as [P2 P4]. rewrite P2 in V2. rewrite P4 in V4. cbn [option_map] in V2, V4.
  assert (D : forall x y : R, cdiv (RtoC x) (RtoC y) = option_map RtoC (rdiv x y)).
  { intros u v. assert (G := ediv_val (EF (Some u)) (EF (Some v))). cbn in G. symmetry. exact G. }
  assert (Sf : forall r b, size (ediv (EF r) b) = 0%Z) by (intros r [?|?|?]; reflexivity).
  assert (Sg : forall r b, size (eadd (EF r) b) = 0%Z) by (intros r [?|?|?]; reflexivity).
  assert (Sh : forall a b, size a = 0%Z -> size b = 0%Z -> size (eadd a b) = 0%Z).
  { intros a b A B. assert (H1 := size_eadd a b ltac:(lia)). assert (H2 := size_nonneg (eadd a b)). lia. }
  assert (Sk : forall r b, size (emul (EK r) b) = 0%Z) by (intros r [?|?|?]; reflexivity).
  assert (part : forall a b c, val (eadd (eadd (EF (Some a)) (ediv (EF (Some (10 ^ 2 * b)%R)) l2)) (ediv (EF (Some (10 ^ 7 * c)%R)) l4)) =
     (let? u := rdiv (10 ^ 2 * b) (x ^ 2) in let? v := rdiv (10 ^ 7 * c) (x ^ 4) in Some (RtoC (a + u + v)))).
  { intros a b c. rewrite eadd_val by (rewrite Sg, Sf; reflexivity). rewrite eadd_val by (rewrite Sf; reflexivity). rewrite !ediv_val, V2, V4.
    cbn [val to_C option_map obind]. rewrite !D. unfold oc2. cbn [obind].
    destruct (rdiv (10 ^ 2 * b) (x ^ 2)); [cbn [option_map obind]|reflexivity]. destruct (rdiv (10 ^ 7 * c) (x ^ 4)); [cbn [option_map obind]|reflexivity].
    now rewrite !RtoC_plus. }
  split.
  - rewrite eadd_val by (rewrite Sk, Sh; [reflexivity|apply Sg|apply Sf]).
    rewrite emul_val by (cbn [size]; lia). rewrite !part. unfold cauchy, oc2. cbn [val to_C obind].
    unfold rdiv. destruct (Req_EM_T (x ^ 2) 0); [reflexivity|]. cbn [obind]. destruct (Req_EM_T (x ^ 4) 0); reflexivity.
  - apply Sh; [apply Sh; [apply Sg|apply Sf]|apply Sk].
Qed.

(** The Lorentz oscillator in wavelengths *)
Definition lorentz_fits (w : elt) (t : num * num * num) : Prop :=
  match w with
  | EI z => let '(A, lr, _) := t in (z * z + size (scalar (num_square lr)) < 2 ^ 63 /\ size (scalar A) * (z * z) < 2 ^ 63)%Z
  | EK _ => False | _ => True end.

Lemma lorentz_val w x rep : to_R w = Some x -> pow_fits w (NInt 2) -> Forall (lorentz_fits w) rep ->
  exists a, lorentz_lambda_elt rep w = Ok a /\
    val a = lorentz_lambda (map (fun '(A, lr, g) => (num_R A, num_R lr, num_R g)) rep) x.
Proof.
  intros W F2 F. destruct (epow_fits w x _ W F2) as (l2 & E2 & V2 & S2).
  assert (P2 : rpow x (num_R (NInt 2)) = Some (x ^ 2)%R).
  { destruct (cauchy_val (EF (Some x)) x 0 0 0 0 0 0 eq_refl I I) as (? & _). cbn [num_R]. unfold rpow. rewrite Int_part_IZR.
    destruct (Rlt_dec 0 x) as [P|P]; [f_equal; apply (Rpower_pow 2); exact P|]. destruct (Req_EM_T 2 2) as [_|N]; [|congruence].
    destruct (Req_EM_T x 0) as [->|N]; [|f_equal; simpl; ring].
    destruct (Rlt_dec 2 0) as [L|_]; [lra|]. destruct (Req_EM_T 2 0); [lra|]. f_equal. simpl. ring. }
  rewrite P2 in V2. cbn [option_map] in V2.
  assert (S2' : forall z, w = EI z -> size l2 = (z * z)%Z).
  { intros z ->. specialize (S2 (NInt 1)). cbn [size scalar term_size] in S2. replace (Z.abs 1) with 1%Z in S2 by reflexivity. rewrite !Z.mul_1_l in S2. rewrite S2. change (Z.abs z ^ 2)%Z with (Z.abs z * (Z.abs z * 1))%Z. lia. }
  assert (S2f : forall r, w = EF r -> size l2 = 0%Z).
  { intros r ->. specialize (S2 (NInt 1)). cbn in S2. destruct (size l2); lia. }
  unfold lorentz_lambda_elt, lorentz_lambda, osum.
  assert (G : forall acc, (size acc <= 0)%Z -> exists a,
    fold_left (fun acc '(A, lr, g) => let* a := acc in let* l2 := epow w (NInt 2) in
      let d := esub (esub l2 (scalar (num_square lr))) (emul (EK (Some (Ci * RtoC (num_R g))%C)) w) in
      Ok (eadd a (ediv (emul (scalar A) l2) d))) rep (Ok acc) = Ok a /\ (size a <= 0)%Z /\
    val a = fold_left (fun acc y => let? a := acc in let? t := (let '(A, lr, g) := y in
      cdiv (RtoC (A * x ^ 2)) (RtoC (x ^ 2) - RtoC (lr ^ 2) - Ci * RtoC g * RtoC x)%C) in Some (a + t)%C)
      (map (fun '(A, lr, g) => (num_R A, num_R lr, num_R g)) rep) (val acc)).
  { induction F as [|[[A lr] g] rep F1 F IH]; intros acc H; cbn [fold_left map].
    - exists acc. auto.
    - rewrite E2. cbn [rbind]. match goal with |- context [Ok (eadd acc ?q)] => set (t := q) end.
      assert (st : size t = 0%Z).
      { unfold t, ediv. destruct (emul (scalar A) l2), (esub _ _); reflexivity. }
      assert (sa : (size (eadd acc t) <= 0)%Z) by (etransitivity; [apply size_eadd; lia|lia]).
      destruct (IH (eadd acc t) sa) as (a & Ea & Sa & Va). exists a. split; [rewrite E2 in Ea; cbn [rbind] in Ea; exact Ea|]. split; [exact Sa|]. rewrite Va. f_equal.
      rewrite eadd_val by (assert (Q := size_nonneg acc); lia). unfold oc2. destruct (val acc); [cbn [obind]|reflexivity]. f_equal.
      assert (sq : val (scalar (num_square lr)) = Some (RtoC (num_R lr ^ 2))).
      { rewrite scalar_val. destruct lr as [z|y]; cbn [num_square num_R]; do 2 f_equal; [rewrite mult_IZR|]; ring. }
      assert (bounds : (size l2 + size (scalar (num_square lr)) < 2 ^ 63 /\ size (scalar A) * size l2 < 2 ^ 63)%Z \/ (size l2 = 0)%Z).
      { destruct w as [z|r|r]; [left|right; eapply S2f; reflexivity|contradiction]. rewrite (S2' z eq_refl). exact F1. }
      assert (Vm : val (emul (scalar A) l2) = Some (RtoC (num_R A * x ^ 2))).
      { rewrite emul_val by (destruct bounds as [B|B]; [apply B|rewrite B; lia]). rewrite scalar_val, V2. unfold oc2. cbn [obind]. now rewrite RtoC_mult. }
      assert (Wv : val w = Some (RtoC x)) by (clear - W; destruct w as [z|r|r]; cbn in *; [congruence|rewrite W; reflexivity|discriminate]).
      assert (Vk : val (emul (EK (Some (Ci * RtoC (num_R g))%C)) w) = Some (Ci * RtoC (num_R g) * RtoC x)%C).
      { rewrite emul_val by (cbn [size]; lia). rewrite Wv. reflexivity. }
      assert (Vs : val (esub l2 (scalar (num_square lr))) = Some (RtoC (x ^ 2) - RtoC (num_R lr ^ 2))%C).
      { assert (Q : (size l2 + size (scalar (num_square lr)) < 2 ^ 63)%Z \/ (exists r, l2 = EF r)).
        { destruct w as [z|r|r]; [left; rewrite (S2' z eq_refl); apply F1| |contradiction]. right. cbn [epow] in E2. injection E2 as <-. eexists. reflexivity. }
        destruct Q as [Q|[r ->]].
        - rewrite esub_val by exact Q. rewrite V2, sq. reflexivity.
        - cbn [val to_C] in V2. destruct r as [r|]; [|discriminate]. cbn [option_map] in V2. apply Some_eq in V2. apply RtoC_inj in V2. subst r.
          clear. destruct lr as [z|y]; unfold esub, lift2, num_square, scalar; cbn [to_R obind val to_C option_map num_R]; f_equal;
            rewrite <- RtoC_minus; f_equal; rewrite ?mult_IZR; ring. }
      unfold t. rewrite ediv_val, Vm. cbn [obind].
      assert (Vd : forall u v z z', val u = Some z -> (exists k, v = EK k) -> val v = Some z' -> val (esub u v) = Some (z - z')%C).
      { intros u v z z' Hu [k ->] Hv. cbn in Hv. subst k. destruct u as [?|[?|]|?]; cbn in Hu; try discriminate; try (apply Some_eq in Hu); subst; cbn; try reflexivity. }
      erewrite Vd; [|exact Vs| |exact Vk]; [|destruct w; eexists; reflexivity]. cbn [obind].
      destruct (cdiv _ _); reflexivity. }
  destruct (G (EI 0)) as (a & Ea & Sa & Va); [cbn; lia|]. exists (eadd (EI 1) a). split; [exact (f_equal (fun r => let* s := r in Ok (eadd (EI 1) s)) Ea)|].
  rewrite eadd_val by (cbn [size]; lia). rewrite Va. unfold oc2. cbn [val to_C obind]. reflexivity.
Qed.
