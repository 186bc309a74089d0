(** The Kramers-Kronig sums converge to principal values. *)
From Coq Require Import Reals Lra Psatz Lia.
From Coquelicot Require Import Coquelicot.
From Coq Require Import List Arith.
From Verif.Spec Require Import KK PV.
From Verif.Proof Require Import KkrP.
Import ListNotations.
Open Scope R_scope.

(** ** Lipschitz functions *)
Definition lip (K : R) (f : R -> R) : Prop := forall x y, Rabs (f x - f y) <= K * Rabs (x - y).
Lemma lip_nonneg K f : lip K f -> 0 <= K.
Proof. intros H. specialize (H 1 0). assert (P := Rabs_pos (f 1 - f 0)). replace (Rabs (1 - 0)) with 1 in H by (rewrite Rabs_pos_eq; lra). lra. Qed.
Lemma lip_continuous K f x : lip K f -> continuous f x.
Proof.
  intros H. assert (K0 := lip_nonneg K f H). apply filterlim_locally. intros e. assert (P : 0 < e / (K + 1)) by (apply Rdiv_lt_0_compat; [apply cond_pos|lra]).
  exists (mkposreal _ P). intros y Hy. change (Rabs (y - x) < e / (K + 1)) in Hy. change (Rabs (f y - f x) < e). eapply Rle_lt_trans; [apply H|].
  assert (Q : (K + 1) * Rabs (y - x) < e) by (replace (pos e) with ((K + 1) * (e / (K + 1))) by (field; lra); apply Rmult_lt_compat_l; lra). assert (A := Rabs_pos (y - x)). lra.
Qed.
Lemma lip_RInt K f u v : lip K f -> ex_RInt f u v.
Proof. intros H. apply (ex_RInt_continuous (V := R_CompleteNormedModule)). intros z _. now apply (lip_continuous K). Qed.
Lemma lip_plus K K' f g : lip K f -> lip K' g -> lip (K + K') (fun x => f x + g x).
Proof. intros F G x y. replace (f x + g x - (f y + g y)) with (f x - f y + (g x - g y)) by ring. eapply Rle_trans; [apply Rabs_triang|]. specialize (F x y). specialize (G x y). lra. Qed.
Lemma lip_scal k K f : lip K f -> lip (Rabs k * K) (fun x => k * f x).
Proof. intros F x y. rewrite <- Rmult_minus_distr_l, Rabs_mult, Rmult_assoc. apply Rmult_le_compat_l; [apply Rabs_pos|apply F]. Qed.
Lemma lip_shift c K f : lip K f -> lip K (fun t => f (c + t)).
Proof. intros F x y. eapply Rle_trans; [apply F|]. right. do 2 f_equal. ring. Qed.
Lemma lip_flip c K f : lip K f -> lip K (fun t => f (c - t)).
Proof. intros F x y. eapply Rle_trans; [apply F|]. rewrite <- Rabs_Ropp. right. do 2 f_equal. ring. Qed.

(** ** The midpoint rule *)
Lemma cell K f u h : lip K f -> 0 < h -> Rabs (RInt f u (u + 2 * h) - 2 * h * f (u + h)) <= 2 * h * (K * h).
Proof.
  intros F h0. assert (K0 := lip_nonneg K f F).
  assert (E : 2 * h * f (u + h) = RInt (fun _ => f (u + h)) u (u + 2 * h)) by (rewrite RInt_const; cbn; unfold mult; cbn; ring).
  rewrite E. assert (X := RInt_minus (V := R_CompleteNormedModule) f (fun _ => f (u + h)) u (u + 2 * h) (lip_RInt K f u _ F) (ex_RInt_const _ _ _)).
  change (RInt f u (u + 2 * h) - RInt (fun _ => f (u + h)) u (u + 2 * h)) with (minus (RInt f u (u + 2 * h)) (RInt (fun _ => f (u + h)) u (u + 2 * h))). rewrite <- X.
  eapply Rle_trans; [apply (abs_RInt_le_const (fun x => minus (f x) (f (u + h))) u (u + 2 * h) (K * h))|].
  - lra.
  - apply (ex_RInt_minus (V := R_CompleteNormedModule)); [now apply (lip_RInt K)|apply ex_RInt_const].
  - intros t Ht. change (Rabs (f t - f (u + h)) <= K * h). eapply Rle_trans; [apply F|]. apply Rmult_le_compat_l; [exact K0|]. apply Rabs_le. lra.
  - right. ring.
Qed.
Lemma midpoints K f h n : lip K f -> 0 < h -> Rabs (RInt f 0 (2 * INR n * h) - 2 * h * rsum (fun m => f ((2 * INR m + 1) * h)) (seq 0 n)) <= INR n * (2 * h * (K * h)).
Proof.
  intros F h0. induction n as [|n IH].
  - cbn [seq rsum fold_right INR]. replace (2 * 0 * h) with 0 by ring. rewrite RInt_point. change (zero (G := R_CompleteNormedModule)) with 0. rewrite Rmult_0_r, Rminus_0_r, Rabs_R0. lra.
  - rewrite seq_S, rsum_app. cbn [rsum fold_right Nat.add]. rewrite Rplus_0_r. rewrite S_INR. replace (2 * (INR n + 1) * h) with (2 * INR n * h + 2 * h) by ring.
    rewrite <- (RInt_Chasles f 0 (2 * INR n * h) (2 * INR n * h + 2 * h)) by (now apply (lip_RInt K)).
    change (plus (RInt f 0 (2 * INR n * h)) (RInt f (2 * INR n * h) (2 * INR n * h + 2 * h))) with (RInt f 0 (2 * INR n * h) + RInt f (2 * INR n * h) (2 * INR n * h + 2 * h)).
    assert (C := cell K f (2 * INR n * h) h F h0). replace (2 * INR n * h + h) with ((2 * INR n + 1) * h) in C by ring.
    match goal with |- Rabs (?a + ?b - 2 * h * (?s + ?t)) <= _ => replace (a + b - 2 * h * (s + t)) with ((a - 2 * h * s) + (b - 2 * h * t)) by ring end.
    eapply Rle_trans; [apply Rabs_triang|]. lra.
Qed.

(** ** Points of opposite parity *)
Lemma rsum_nil f : rsum f [] = 0.
Proof. reflexivity. Qed.
Lemma up_points (f : nat -> R) i n : rsum (fun j => if Nat.odd (i + j) then f j else 0) (seq (i + 1) (2 * n)) = rsum (fun m => f (i + (2 * m + 1))%nat) (seq 0 n).
Proof.
  induction n as [|n IH]; [reflexivity|]. replace (2 * S n)%nat with (2 * n + 2)%nat by lia. rewrite seq_app, rsum_app, IH, (seq_S n 0), rsum_app. f_equal. cbn [seq]. rewrite !rsum_cons. rewrite ?rsum_nil.
  assert (E1 : Nat.odd (i + (i + 1 + 2 * n)) = true) by (replace (i + (i + 1 + 2 * n))%nat with (1 + 2 * (i + n))%nat by lia; rewrite Nat.odd_add_mul_2; reflexivity).
  assert (E2 : Nat.odd (i + S (i + 1 + 2 * n)) = false) by (replace (i + S (i + 1 + 2 * n))%nat with (0 + 2 * (i + n + 1))%nat by lia; rewrite Nat.odd_add_mul_2; reflexivity).
  rewrite E1, E2. replace (i + 1 + 2 * n)%nat with (i + (2 * (0 + n) + 1))%nat by lia. ring.
Qed.
Lemma rsum_seq_shift f a n : rsum f (seq (S a) n) = rsum (fun j => f (S j)) (seq a n).
Proof. rewrite <- seq_shift, rsum_map. reflexivity. Qed.
Lemma down_points (f : nat -> R) i : rsum (fun j => if Nat.odd (i + j) then f j else 0) (seq 0 i) =
  rsum (fun m => if (2 * m + 1 <=? i)%nat then f (i - (2 * m + 1))%nat else 0) (seq 0 i).
Proof.
  revert i. assert (G : forall i, (rsum (fun j => if Nat.odd (i + j) then f j else 0) (seq 0 i) = rsum (fun m => if (2 * m + 1 <=? i)%nat then f (i - (2 * m + 1))%nat else 0) (seq 0 i)) /\
    (rsum (fun j => if Nat.odd (S i + j) then f j else 0) (seq 0 (S i)) = rsum (fun m => if (2 * m + 1 <=? S i)%nat then f (S i - (2 * m + 1))%nat else 0) (seq 0 (S i)))); [|intros i; apply G].
  induction i as [|i [IH1 IH2]].
  - split; [reflexivity|]. reflexivity.
  - split; [exact IH2|]. rewrite (seq_S (S i) 0) at 1. rewrite (seq_S i 0), !rsum_app. rewrite !rsum_cons, !rsum_nil. cbn [Nat.add].
    assert (E1 : Nat.odd (S (S (i + i))) = false) by (replace (S (S (i + i))) with (0 + 2 * (i + 1))%nat by lia; rewrite Nat.odd_add_mul_2; reflexivity).
    assert (E2 : Nat.odd (S (S (i + S i))) = true) by (replace (S (S (i + S i))) with (1 + 2 * (i + 1))%nat by lia; rewrite Nat.odd_add_mul_2; reflexivity).
    rewrite E1, E2. rewrite (rsum_ext (fun j => if Nat.odd (S (S (i + j))) then f j else 0) (fun j => if Nat.odd (i + j) then f j else 0)) by (intros; now rewrite odd_SS).
    rewrite IH1.
    change (seq 0 (S (S i))) with (0%nat :: seq 1 (S i)). rewrite rsum_cons, rsum_seq_shift, seq_S, rsum_app, rsum_cons, rsum_nil. cbn [Nat.add].
    assert (T : (2 * S i + 1 <=? S (S i))%nat = false) by (apply Nat.leb_gt; lia).
    replace (2 * 0 + 1 <=? S (S i))%nat with true by (symmetry; apply Nat.leb_le; lia). rewrite T. replace (S (S i) - (2 * 0 + 1))%nat with (S i) by lia.
    rewrite (rsum_ext (fun m => if (2 * S m + 1 <=? S (S i))%nat then f (S (S i) - (2 * S m + 1))%nat else 0) (fun m => if (2 * m + 1 <=? i)%nat then f (i - (2 * m + 1))%nat else 0)); [ring|].
    intros m _. replace (2 * S m + 1 <=? S (S i))%nat with (2 * m + 1 <=? i)%nat; [destruct (2 * m + 1 <=? i)%nat; [|reflexivity]; f_equal; lia|].
    destruct (Nat.leb_spec (2 * m + 1) i), (Nat.leb_spec (2 * S m + 1) (S (S i))); try reflexivity; lia.
Qed.
Lemma rsum_extend f a n k : (forall j, (a + n <= j)%nat -> f j = 0) -> rsum f (seq a (n + k)) = rsum f (seq a n).
Proof.
  intros Z. rewrite seq_app, rsum_app. rewrite (rsum_ext f (fun _ => 0) (seq (a + n) k)), rsum_zero; [ring|]. intros j Hj. apply in_seq in Hj. apply Z. lia.
Qed.
Lemma grid_sum (F : R -> R) x0 h n i : 0 < h -> (i < n)%nat -> (forall x, x < x0 \/ x0 + (INR n - 1) * h < x -> F x = 0) ->
  let c := x0 + INR i * h in
  rsum (fun j => F (x0 + INR j * h)) (opposite n i) = rsum (fun m => F (c + (2 * INR m + 1) * h) + F (c - (2 * INR m + 1) * h)) (seq 0 n).
Proof.
  intros h0 Hi Z c. set (f := fun j => F (x0 + INR j * h)). unfold opposite. rewrite rsum_filter.
  assert (Zf : forall j, (n <= j)%nat -> f j = 0).
  { intros j Hj. apply Z. right. apply le_INR in Hj. nra. }
  replace n with (i + (1 + (n - i - 1)))%nat at 1 by lia. rewrite seq_app, rsum_app, seq_app, rsum_app. cbn [seq]. rewrite rsum_cons, rsum_nil. rewrite !Nat.add_0_l.
  replace (Nat.odd (i + i)) with false by (replace (i + i)%nat with (0 + 2 * i)%nat by lia; now rewrite Nat.odd_add_mul_2).
  change (fun j => if Nat.odd (i + j) then F (x0 + INR j * h) else 0) with (fun j => if Nat.odd (i + j) then f j else 0). rewrite down_points.
  rewrite <- (rsum_extend (fun j => if Nat.odd (i + j) then f j else 0) (i + 1) (n - i - 1) (2 * n - (n - i - 1))) by (intros j Hj; rewrite Zf by lia; now destruct (Nat.odd (i + j))).
  replace (n - i - 1 + (2 * n - (n - i - 1)))%nat with (2 * n)%nat by lia. rewrite up_points.
  rewrite <- (rsum_extend (fun m => if (2 * m + 1 <=? i)%nat then f (i - (2 * m + 1))%nat else 0) 0 i (n - i)) by (intros j Hj; destruct (Nat.leb_spec (2 * j + 1) i); [lia|reflexivity]).
  replace (i + (n - i))%nat with n by lia. rewrite rsum_plus, !Rplus_0_l. rewrite Rplus_comm. f_equal; apply rsum_ext; intros m Hm.
  - unfold f, c. f_equal. rewrite !plus_INR, mult_INR. cbn [INR]. ring.
  - destruct (Nat.leb_spec (2 * m + 1) i) as [Q|Q].
    + unfold f, c. f_equal. rewrite minus_INR by exact Q. rewrite plus_INR, mult_INR. cbn [INR]. ring.
    + symmetry. apply Z. left. unfold c. apply lt_INR in Q. rewrite plus_INR, mult_INR in Q. cbn [INR] in Q. nra.
Qed.

(** ** The integrand folded at the pole *)
Section Folded.
Variables (p p' : R -> R) (a b B L : R).
Hypothesis SP : spectrum p p' a b B L.
Variables (k0 k1 k2 c M : R).
Hypothesis Hk : Rabs k0 + Rabs k2 <= 2.
Hypothesis Hk1 : Rabs k1 <= 1.
Hypothesis Hc : 0 < c < M.
Hypothesis HM : b <= M.
Let a0 : 0 < a := proj1 SP.
Let ab : a < b := proj1 (proj2 SP).
Let pz : forall x, x <= a \/ b <= x -> p x = 0 := proj1 (proj2 (proj2 SP)).
Let pd : forall x, is_derive p x (p' x) := proj1 (proj2 (proj2 (proj2 SP))).
Let pB : forall x, Rabs (p' x) <= B := proj1 (proj2 (proj2 (proj2 (proj2 SP)))).
Let pL : forall x y, Rabs (p' x - p' y) <= L * Rabs (x - y) := proj2 (proj2 (proj2 (proj2 (proj2 SP)))).

Lemma L_nonneg : 0 <= L.
Proof. exact (lip_nonneg L p' pL). Qed.
Lemma p_mvt x y : exists z, p x - p y = p' z * (x - y) /\ Rabs (z - y) <= Rabs (x - y).
Proof.
  destruct (MVT_gen p y x p') as (z & Hz & E); [intros; apply pd|intros z _; apply continuity_pt_filterlim; apply (ex_derive_continuous p); exists (p' z); apply pd|].
  exists z. split; [exact E|]. revert Hz. unfold Rmin, Rmax. destruct (Rle_dec y x); intros Hz; unfold Rabs; destruct (Rcase_abs (z - y)), (Rcase_abs (x - y)); lra.
Qed.
Lemma p_lip : lip B p.
Proof. intros x y. destruct (p_mvt x y) as (z & E & _). rewrite E, Rabs_mult. apply Rmult_le_compat_r; [apply Rabs_pos|apply pB]. Qed.
Lemma B_nonneg : 0 <= B.
Proof. exact (lip_nonneg B p p_lip). Qed.
Lemma p_bound x : Rabs (p x) <= B * (b - a).
Proof.
  assert (B0 := B_nonneg). destruct (Rle_lt_dec x a) as [X|X]; [rewrite pz, Rabs_R0 by (left; exact X); apply Rmult_le_pos; lra|].
  destruct (Rle_lt_dec b x) as [Y|Y]; [rewrite pz, Rabs_R0 by (right; exact Y); apply Rmult_le_pos; lra|].
  assert (E := p_lip x a). rewrite (pz a (or_introl (Rle_refl a))), Rminus_0_r in E. eapply Rle_trans; [exact E|]. apply Rmult_le_compat_l; [exact B0|]. rewrite Rabs_pos_eq; lra.
Qed.
Lemma p_taylor t : Rabs (p (c + t) - p c - t * p' c) <= L * (t * t).
Proof.
  destruct (p_mvt (c + t) c) as (z & E & Hz). rewrite E. replace (p' z * (c + t - c) - t * p' c) with ((p' z - p' c) * t) by ring. rewrite Rabs_mult. replace (c + t - c) with t in Hz by ring.
  assert (Q := pL z c). assert (L0 := L_nonneg). assert (T := Rabs_pos t). replace (t * t) with (Rabs t * Rabs t) by (rewrite <- Rabs_mult; apply Rabs_pos_eq; nra). rewrite <- Rmult_assoc. apply Rmult_le_compat_r; [exact T|].
  eapply Rle_trans; [exact Q|]. now apply Rmult_le_compat_l.
Qed.
Lemma p_odd t : Rabs (p (c + t) - p (c - t) - 2 * t * p' c) <= 2 * L * (t * t).
Proof.
  assert (E1 := p_taylor t). assert (E2 := p_taylor (- t)). replace (c + - t) with (c - t) in E2 by ring. replace (- t * - t) with (t * t) in E2 by ring.
  replace (p (c + t) - p (c - t) - 2 * t * p' c) with ((p (c + t) - p c - t * p' c) - (p (c - t) - p c - - t * p' c)) by ring. unfold Rminus at 1. eapply Rle_trans; [apply Rabs_triang|]. rewrite Rabs_Ropp. lra.
Qed.
Definition fold (t : R) : R := if Req_EM_T t 0 then 2 * p' c else (p (c + t) - p (c - t)) / t.
Lemma fold_even t : fold (- t) = fold t.
Proof.
  unfold fold. destruct (Req_EM_T t 0) as [N|N]; destruct (Req_EM_T (- t) 0) as [N'|N']; try (exfalso; lra); [reflexivity|].
  replace (c + - t) with (c - t) by ring. replace (c - - t) with (c + t) by ring. field. lra.
Qed.
Lemma fold_abs t : fold t = fold (Rabs t).
Proof. unfold Rabs. destruct (Rcase_abs t); [now rewrite fold_even|reflexivity]. Qed.
Lemma fold_zero t : 0 < t -> Rabs (fold t - fold 0) <= 4 * L * t.
Proof.
  intros T. unfold fold. destruct (Req_EM_T t 0); [lra|]. destruct (Req_EM_T 0 0); [|lra]. replace ((p (c + t) - p (c - t)) / t - 2 * p' c) with ((p (c + t) - p (c - t) - 2 * t * p' c) / t) by (field; lra).
  unfold Rdiv. rewrite Rabs_mult, (Rabs_pos_eq (/ t)) by (left; now apply Rinv_0_lt_compat). apply (Rmult_le_reg_r t); [exact T|]. rewrite Rmult_assoc, Rinv_l, Rmult_1_r by lra.
  assert (Q := p_odd t). assert (L0 := L_nonneg). nra.
Qed.
Lemma fold_pos s t : 0 < s -> s < t -> Rabs (fold t - fold s) <= 4 * L * (t - s).
Proof.
  intros S T. set (D := fun u => ((p' (c + u) + p' (c - u)) * u - (p (c + u) - p (c - u))) / (u * u)).
  destruct (MVT_gen (fun u => (p (c + u) - p (c - u)) / u) s t D) as (z & Hz & E); rewrite ?Rmin_left, ?Rmax_right in * by lra.
  - intros u Hu. unfold D. assert (D1 := pd (c + u)). assert (D2 := pd (c - u)). assert (X1 : is_derive (fun u => p (c + u)) u (p' (c + u))).
    { evar_last; [apply (is_derive_comp p (fun u => c + u)); [exact D1|auto_derive; [trivial|reflexivity]]|]. cbn. unfold scal. cbn. unfold mult. cbn. ring. }
    assert (X2 : is_derive (fun u => p (c - u)) u (- p' (c - u))).
    { evar_last; [apply (is_derive_comp p (fun u => c - u)); [exact D2|auto_derive; [trivial|reflexivity]]|]. cbn. unfold scal. cbn. unfold mult. cbn. ring. }
    assert (X3 := is_derive_minus _ _ _ _ _ X1 X2). assert (XI : is_derive (fun u : R => u) u 1) by (auto_derive; [trivial|reflexivity]). assert (U0 : u <> 0) by lra. assert (X4 := is_derive_div _ (fun u => u) _ _ _ X3 XI U0).
    eapply is_derive_ext; [|evar_last; [exact X4|]]; [intros w; reflexivity|]. cbn. unfold minus, plus, opp. cbn. field. lra.
  - intros u Hu. apply continuity_pt_filterlim. apply (continuous_mult (K := R_AbsRing) (fun u => p (c + u) - p (c - u)) (fun u => / u)).
    + apply (lip_continuous (B + B)). replace (fun u0 : R => p (c + u0) - p (c - u0)) with (fun u0 => p (c + u0) + - p (c - u0)) by reflexivity.
      apply (lip_plus B B); [apply lip_shift, p_lip|]. intros x y. replace (- p (c - x) - - p (c - y)) with (- (p (c - x) - p (c - y))) by ring. rewrite Rabs_Ropp. apply (lip_flip c B p p_lip).
    + apply (ex_derive_continuous (fun u => / u)). auto_derive. lra.
  - unfold fold. destruct (Req_EM_T t 0); [lra|]. destruct (Req_EM_T s 0); [lra|]. rewrite E, Rabs_mult, (Rabs_pos_eq (t - s)) by lra. apply Rmult_le_compat_r; [lra|].
    assert (z0 : 0 < z) by lra. unfold D, Rdiv. rewrite Rabs_mult, (Rabs_pos_eq (/ (z * z))) by (left; apply Rinv_0_lt_compat; nra). apply (Rmult_le_reg_r (z * z)); [nra|]. rewrite Rmult_assoc, Rinv_l, Rmult_1_r by nra.
    assert (Q := p_odd z). assert (Q1 := pL (c + z) c). assert (Q2 := pL (c - z) c). replace (c + z - c) with z in Q1 by ring. replace (c - z - c) with (- z) in Q2 by ring. rewrite Rabs_Ropp in Q2. rewrite (Rabs_pos_eq z) in Q1, Q2 by lra.
    replace ((p' (c + z) + p' (c - z)) * z - (p (c + z) - p (c - z))) with ((p' (c + z) - p' c) * z + ((p' (c - z) - p' c) * z + - (p (c + z) - p (c - z) - 2 * z * p' c))) by ring.
    eapply Rle_trans; [apply Rabs_triang|]. eapply Rle_trans; [apply Rplus_le_compat_l, Rabs_triang|]. rewrite !Rabs_mult, Rabs_Ropp, (Rabs_pos_eq z) by lra. nra.
Qed.
Lemma fold_lip : lip (4 * L) fold.
Proof.
  assert (L0 := L_nonneg). assert (G : forall s t, 0 <= s -> s <= t -> Rabs (fold t - fold s) <= 4 * L * (t - s)).
  { intros s t S T. destruct (Rle_lt_or_eq_dec s t T) as [T'|<-]; [|replace (fold s - fold s) with 0 by ring; rewrite Rabs_R0; lra].
    destruct (Rle_lt_or_eq_dec 0 s S) as [S'|<-]; [now apply fold_pos|]. rewrite Rminus_0_r. now apply fold_zero. }
  intros x y. rewrite (fold_abs x), (fold_abs y). assert (T : Rabs (Rabs x - Rabs y) <= Rabs (x - y)) by apply Rabs_triang_inv2.
  apply Rle_trans with (4 * L * Rabs (Rabs x - Rabs y)); [|apply Rmult_le_compat_l; lra]. assert (X := Rabs_pos x). assert (Y := Rabs_pos y). destruct (Rle_dec (Rabs y) (Rabs x)) as [O|O].
  - rewrite (Rabs_pos_eq (Rabs x - Rabs y)) by lra. now apply G.
  - rewrite (Rabs_minus_sym (Rabs x)), (Rabs_minus_sym (fold (Rabs x))), (Rabs_pos_eq (Rabs y - Rabs x)) by lra. apply G; lra.
Qed.

(** The regular part *)
Definition rest (x : R) : R := p x * (k0 / x + k2 / (x + c)).
Definition rest_const : R := 2 * B / a + 2 * (B * (b - a)) / (a * a).
Lemma inv_a x : a <= x -> 0 < / x <= / a.
Proof. intros X. split; [apply Rinv_0_lt_compat; lra|apply Rinv_le_contravar; lra]. Qed.
Lemma rest_right x y : a <= x -> a <= y -> Rabs (rest x - rest y) <= rest_const * Rabs (x - y).
Proof.
  intros X Y. unfold rest. set (q := fun x => k0 / x + k2 / (x + c)).
  assert (A := inv_a). assert (Q1 : Rabs (q x) <= 2 / a).
  { unfold q, Rdiv. eapply Rle_trans; [apply Rabs_triang|]. rewrite !Rabs_mult. assert (I1 := A x X). assert (I2 := A (x + c) ltac:(lra)). rewrite (Rabs_pos_eq (/ x)), (Rabs_pos_eq (/ (x + c))) by lra.
    assert (P0 := Rabs_pos k0). assert (P2 := Rabs_pos k2). nra. }
  assert (Q2 : Rabs (q x - q y) <= 2 / (a * a) * Rabs (x - y)).
  { assert (W : forall k u v, a <= u -> a <= v -> Rabs (k / u - k / v) <= Rabs k * (/ (a * a)) * Rabs (u - v)).
    { intros k u v U V. replace (k / u - k / v) with (k * (/ u * / v) * (v - u)) by (field; lra). rewrite !Rabs_mult, (Rabs_minus_sym v u). apply Rmult_le_compat_r; [apply Rabs_pos|]. apply Rmult_le_compat_l; [apply Rabs_pos|].
      assert (I1 := A u U). assert (I2 := A v V). rewrite !Rabs_pos_eq by lra. replace (/ (a * a)) with (/ a * / a) by (field; lra). apply Rmult_le_compat; lra. }
    unfold q. replace (k0 / x + k2 / (x + c) - (k0 / y + k2 / (y + c))) with ((k0 / x - k0 / y) + (k2 / (x + c) - k2 / (y + c))) by ring. eapply Rle_trans; [apply Rabs_triang|].
    assert (W1 := W k0 x y X Y). assert (W2 := W k2 (x + c) (y + c) ltac:(lra) ltac:(lra)). replace (x + c - (y + c)) with (x - y) in W2 by ring.
    assert (I : 0 < / (a * a)) by (apply Rinv_0_lt_compat; nra). assert (D := Rabs_pos (x - y)). assert (Z : 0 <= / (a * a) * Rabs (x - y)) by (apply Rmult_le_pos; lra). unfold Rdiv.
    set (w := / (a * a) * Rabs (x - y)) in *. replace (Rabs k0 * / (a * a) * Rabs (x - y)) with (Rabs k0 * w) in W1 by (unfold w; ring). replace (Rabs k2 * / (a * a) * Rabs (x - y)) with (Rabs k2 * w) in W2 by (unfold w; ring).
    rewrite Rmult_assoc. fold w. clearbody w. nra. }
  fold (q x). fold (q y). replace (p x * q x - p y * q y) with ((p x - p y) * q x + p y * (q x - q y)) by ring. eapply Rle_trans; [apply Rabs_triang|]. rewrite !Rabs_mult.
  assert (E := p_lip x y). assert (Bd := p_bound y). unfold rest_const.
  assert (T1 : Rabs (p x - p y) * Rabs (q x) <= B * Rabs (x - y) * (2 / a)) by (apply Rmult_le_compat; [apply Rabs_pos|apply Rabs_pos|exact E|exact Q1]).
  assert (T2 : Rabs (p y) * Rabs (q x - q y) <= B * (b - a) * (2 / (a * a) * Rabs (x - y))) by (apply Rmult_le_compat; [apply Rabs_pos|apply Rabs_pos|exact Bd|exact Q2]).
  unfold Rdiv in *. lra.
Qed.
Lemma rest_zero x : x <= a -> rest x = 0.
Proof. intros X. unfold rest. rewrite pz by (left; exact X). ring. Qed.
Lemma rest_const_nonneg : 0 <= rest_const.
Proof.
  assert (B0 := B_nonneg). unfold rest_const. apply Rplus_le_le_0_compat; (apply Rmult_le_pos; [|left; apply Rinv_0_lt_compat; nra]); [lra|]. apply Rmult_le_pos; [lra|]. apply Rmult_le_pos; lra.
Qed.
Lemma rest_lip : lip rest_const rest.
Proof.
  assert (K := rest_const_nonneg). intros x y. destruct (Rle_dec a x) as [X|X], (Rle_dec a y) as [Y|Y].
  - now apply rest_right.
  - rewrite (rest_zero y) by lra. rewrite <- (rest_zero a) by lra. eapply Rle_trans; [apply rest_right; lra|]. apply Rmult_le_compat_l; [exact K|]. rewrite !Rabs_pos_eq; lra.
  - rewrite (rest_zero x) by lra. rewrite <- (rest_zero a) by lra. eapply Rle_trans; [apply rest_right; lra|]. apply Rmult_le_compat_l; [exact K|]. rewrite (Rabs_minus_sym a), (Rabs_minus_sym x), !Rabs_pos_eq; lra.
  - rewrite !rest_zero by lra. rewrite Rminus_0_r, Rabs_R0. apply Rmult_le_pos; [exact K|apply Rabs_pos].
Qed.

Definition integrand (x : R) : R := p x * (k1 / (x - c)) + rest x.
Definition folded (t : R) : R := k1 * fold t + (rest (c + t) + rest (c - t)).
Definition folded_const : R := 4 * L + 2 * rest_const.
Lemma folded_lip : lip folded_const folded.
Proof.
  assert (X : lip (Rabs k1 * (4 * L) + (rest_const + rest_const)) folded) by (apply (lip_plus _ _ (fun t => k1 * fold t)); [apply lip_scal, fold_lip|apply (lip_plus _ _ (fun t => rest (c + t))); [apply lip_shift, rest_lip|apply lip_flip, rest_lip]]).
  intros x y. eapply Rle_trans; [apply X|]. apply Rmult_le_compat_r; [apply Rabs_pos|]. unfold folded_const. assert (L0 := L_nonneg). assert (Q := Rabs_pos k1). nra.
Qed.
Lemma folded_integrand t : t <> 0 -> integrand (c + t) + integrand (c - t) = folded t.
Proof.
  intros T. unfold folded, fold, integrand. destruct (Req_EM_T t 0); [contradiction|]. replace (c + t - c) with t by ring. replace (c - t - c) with (- t) by ring. field. lra.
Qed.
Lemma integrand_zero x : x <= a \/ b <= x -> integrand x = 0.
Proof. intros X. unfold integrand, rest. rewrite pz by exact X. ring. Qed.
Lemma folded_zero t : 0 < t -> c - t <= a -> b <= c + t -> folded t = 0.
Proof. intros T A1 B1. rewrite <- folded_integrand by lra. rewrite !integrand_zero by tauto. ring. Qed.
Lemma integrand_continuous x : x <> c -> continuous integrand x.
Proof.
  intros X. apply (continuous_plus (V := R_NormedModule) (fun x => p x * (k1 / (x - c))) rest); [|apply (lip_continuous _ _ _ rest_lip)].
  apply (continuous_mult (K := R_AbsRing) p (fun x => k1 / (x - c))); [apply (lip_continuous _ _ _ p_lip)|]. apply (ex_derive_continuous (fun x => k1 / (x - c))). auto_derive. lra.
Qed.
Lemma zero_RInt f u v : u <= v -> (forall t, u < t < v -> f t = 0) -> is_RInt f u v 0.
Proof.
  intros UV Z. apply (is_RInt_ext (V := R_NormedModule) (fun _ => 0)); [intros t Ht; rewrite Rmin_left, Rmax_right in Ht by lra; symmetry; now apply Z|].
  evar_last; [apply (is_RInt_const (V := R_NormedModule) u v 0)|]. apply Rmult_0_r.
Qed.
Lemma folded_pv d : 0 < d -> d < c -> d < M - c -> exists u v, is_RInt integrand 0 (c - d) u /\ is_RInt integrand (c + d) M v /\ is_RInt folded d M (u + v).
Proof.
  intros D1 D2 D3. assert (U : ex_RInt integrand 0 (c - d)) by (apply (ex_RInt_continuous (V := R_CompleteNormedModule)); intros z Hz; rewrite Rmin_left, Rmax_right in Hz by lra; apply integrand_continuous; lra).
  assert (V : ex_RInt integrand (c + d) M) by (apply (ex_RInt_continuous (V := R_CompleteNormedModule)); intros z Hz; rewrite Rmin_left, Rmax_right in Hz by lra; apply integrand_continuous; lra).
  destruct U as [u U]. destruct V as [v V]. exists u, v. split; [exact U|]. split; [exact V|].
  assert (U1 : is_RInt (fun t => integrand (c - t)) d c u).
  { assert (X := is_RInt_swap _ _ _ _ U). assert (Y := is_RInt_comp_lin integrand (-1) c d c (opp u)). replace (-1 * d + c) with (c - d) in Y by ring. replace (-1 * c + c) with 0 in Y by ring. specialize (Y X).
    apply is_RInt_opp in Y. rewrite opp_opp in Y. eapply is_RInt_ext; [|exact Y]. intros t _. cbv beta. replace (-1 * t + c) with (c - t) by ring. unfold opp, scal. cbn. unfold mult. cbn. change (- (-1 * integrand (c - t)) = integrand (c - t)). ring. }
  assert (U2 : is_RInt (fun t => integrand (c - t)) d M u).
  { replace u with (plus u 0) by (unfold plus; cbn; ring). apply (is_RInt_Chasles _ _ c); [exact U1|]. apply zero_RInt; [lra|]. intros t Ht. apply integrand_zero. left. lra. }
  assert (V1 : is_RInt (fun t => integrand (c + t)) d (M - c) v).
  { assert (Y := is_RInt_comp_lin integrand 1 c d (M - c) v). replace (1 * d + c) with (c + d) in Y by ring. replace (1 * (M - c) + c) with M in Y by ring. specialize (Y V).
    eapply is_RInt_ext; [|exact Y]. intros t _. cbv beta. replace (1 * t + c) with (c + t) by ring. unfold scal. cbn. unfold mult. cbn. change (1 * integrand (c + t) = integrand (c + t)). ring. }
  assert (V2 : is_RInt (fun t => integrand (c + t)) d M v).
  { replace v with (plus v 0) by (unfold plus; cbn; ring). apply (is_RInt_Chasles _ _ (M - c)); [exact V1|]. apply zero_RInt; [lra|]. intros t Ht. apply integrand_zero. right. lra. }
  assert (S := is_RInt_plus _ _ _ _ _ _ U2 V2). eapply is_RInt_ext; [|exact S]. intros t Ht. rewrite Rmin_left, Rmax_right in Ht by lra. change (integrand (c - t) + integrand (c + t) = folded t). rewrite <- folded_integrand by lra. ring.
Qed.
Lemma integrand_pv : principal_value integrand c M (RInt folded 0 M).
Proof.
  intros e e0. assert (K := lip_nonneg _ _ folded_lip). set (W := Rabs (folded 0) + folded_const * M). assert (W0 : 0 <= W) by (unfold W; assert (X := Rabs_pos (folded 0)); assert (0 <= folded_const * M) by (apply Rmult_le_pos; lra); lra).
  assert (Q : 0 < e / (W + 1)) by (apply Rdiv_lt_0_compat; lra). exists (Rmin (Rmin c (M - c)) (e / (W + 1))). split; [repeat apply Rmin_pos; lra|]. intros d [D0 D]. apply Rmin_Rgt_l in D. destruct D as [D D3]. apply Rmin_Rgt_l in D. destruct D as [D1 D2].
  destruct (folded_pv d D0 ltac:(lra) ltac:(lra)) as (u & v & U & V & S). exists u, v. split; [exact U|]. split; [exact V|].
  assert (C := RInt_Chasles folded 0 d M (lip_RInt _ _ _ _ folded_lip) (lip_RInt _ _ _ _ folded_lip)). rewrite (is_RInt_unique _ _ _ _ S) in C. change (plus (RInt folded 0 d) (u + v)) with (RInt folded 0 d + (u + v)) in C. rewrite <- C.
  replace (u + v - (RInt folded 0 d + (u + v))) with (- RInt folded 0 d) by ring. rewrite Rabs_Ropp.
  eapply Rle_lt_trans; [apply (abs_RInt_le_const folded 0 d W); [lra|apply (lip_RInt _ _ _ _ folded_lip)|]|].
  - intros t Ht. assert (X := folded_lip t 0). rewrite Rminus_0_r, (Rabs_pos_eq t) in X by lra. replace (folded t) with (folded 0 + (folded t - folded 0)) by ring. eapply Rle_trans; [apply Rabs_triang|]. unfold W. apply Rplus_le_compat_l. eapply Rle_trans; [exact X|]. apply Rmult_le_compat_l; lra.
  - rewrite Rminus_0_r. assert (Z : d * (W + 1) < e) by (replace e with (e / (W + 1) * (W + 1)) by (field; lra); apply Rmult_lt_compat_r; lra). nra.
Qed.

(** The sum over an axis *)
Lemma axis_error x0 h n i : 0 < h -> (2 <= n)%nat -> (i < n)%nat -> 0 <= x0 -> x0 <= a -> b <= x0 + (INR n - 1) * h -> x0 + (INR n - 1) * h <= M -> c = x0 + INR i * h ->
  Rabs (2 * h * rsum (fun j => integrand (x0 + INR j * h)) (opposite n i) - RInt folded 0 M) <= 4 * M * folded_const * h.
Proof.
  intros h0 Hn Hi X0 Xa Xb XM Ec. assert (K := lip_nonneg _ _ folded_lip).
  assert (N2 : 2 <= INR n) by (apply (le_INR 2); exact Hn). assert (I0 := pos_INR i). assert (I1 : INR i + 1 <= INR n) by (rewrite <- S_INR; apply le_INR; lia).
  rewrite (grid_sum integrand x0 h n i h0 Hi) by (intros x [X|X]; apply integrand_zero; [left|right]; lra). rewrite <- Ec.
  rewrite (rsum_ext _ (fun m => folded ((2 * INR m + 1) * h))) by (intros m _; apply folded_integrand; assert (P := pos_INR m); nra).
  assert (E := midpoints _ _ h n folded_lip h0). assert (T : 0 < INR n * h) by nra.
  assert (Z : forall t, INR n * h <= t -> folded t = 0) by (intros t Ht; apply folded_zero; nra).
  assert (Zm : forall t, M <= t -> folded t = 0) by (intros t Ht; apply folded_zero; lra).
  assert (EQ : RInt folded 0 (2 * INR n * h) = RInt folded 0 M).
  { assert (G : forall s t, 0 <= s -> s <= t -> (forall x, s < x < t -> folded x = 0) -> RInt folded 0 s = RInt folded 0 t).
    { intros s t S1 S2 F. assert (C := RInt_Chasles folded 0 s t (lip_RInt _ _ _ _ folded_lip) (lip_RInt _ _ _ _ folded_lip)). rewrite (is_RInt_unique _ _ _ _ (zero_RInt folded s t S2 F)) in C. rewrite <- C. unfold plus. cbn. ring. }
    destruct (Rle_dec (2 * INR n * h) M) as [O|O]; [|symmetry]; apply G; try lra; try nra; intros x Hx; [apply Z; nra|apply Zm; lra]. }
  rewrite EQ in E. rewrite Rabs_minus_sym. eapply Rle_trans; [exact E|]. replace (INR n * (2 * h * (folded_const * h))) with (INR n * h * (2 * (folded_const * h))) by ring. replace (4 * M * folded_const * h) with (2 * M * (2 * (folded_const * h))) by ring.
  apply Rmult_le_compat_r; [apply Rmult_le_pos; [lra|apply Rmult_le_pos; lra]|]. nra.
Qed.
End Folded.
