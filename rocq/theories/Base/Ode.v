(** Linear differential equations y' = A(z) y for complex vectors of any size, with coefficients that depend
    on z: existence of solutions (Picard's series) and the error of products of one-step matrices. *)
From Coq Require Import Reals Psatz ZArith Lra Lia Arith Ranalysis5.
From Coquelicot Require Import Coquelicot.
From Coq Require Import List.
From Verif.Base Require Import Cx Mat Mexp.
Import ListNotations.
Open Scope R_scope.
Open Scope C_scope.

(** ** Bounds *)
Definition vle (n : nat) (v : nat -> C) (V : R) : Prop := forall i, (i < n)%nat -> (Cmod (v i) <= V)%R.
Definition vsub (u v : nat -> C) : nat -> C := fun i => u i - v i.
Definition vadd (u v : nat -> C) : nat -> C := fun i => u i + v i.

Lemma Cmod_parts (z : C) : (Cmod z <= Rabs (fst z) + Rabs (snd z))%R.
Proof.
  destruct z as [x y]. cbn [fst snd]. replace (x, y) with (RtoC x + Ci * RtoC y) by (apply C_ext; cbn; ring).
  eapply Rle_trans; [apply Cmod_triangle|]. rewrite Cmod_mult, !Cmod_R.
  replace (Cmod Ci) with 1%R by (unfold Cmod; cbn [fst snd Ci]; replace (0 ^ 2 + 1 ^ 2)%R with 1%R by ring; now rewrite sqrt_1). lra.
Qed.
Lemma Cmod_minus_sym (a b : C) : Cmod (a - b) = Cmod (b - a).
Proof. rewrite <- Cmod_opp. f_equal. ring. Qed.
Lemma mvec_le n A v K V : (0 <= K)%R -> bounded_by n A K -> vle n v V -> vle n (mvec n A v) (INR n * (K * V)).
Proof.
  intros K0 HA Hv i Hi. unfold mvec. apply csum_bound. intros j Hj. rewrite Cmod_mult. apply Rmult_le_compat; auto using Cmod_ge_0.
Qed.
Lemma vle_nonneg n v V : (0 < n)%nat -> vle n v V -> (0 <= V)%R.
Proof. intros N H. eapply Rle_trans; [apply Cmod_ge_0|exact (H 0%nat N)]. Qed.
Lemma vle_add n u v U V : vle n u U -> vle n v V -> vle n (vadd u v) (U + V).
Proof. intros H K i Hi. unfold vadd. eapply Rle_trans; [apply Cmod_triangle|]. specialize (H i Hi). specialize (K i Hi). lra. Qed.
Lemma vle_le n v V W : vle n v V -> (V <= W)%R -> vle n v W.
Proof. intros H L i Hi. eapply Rle_trans; [apply H; exact Hi|exact L]. Qed.
Lemma vle_veq n u v V : veq n u v -> vle n u V -> vle n v V.
Proof. intros E H i Hi. rewrite <- E by exact Hi. now apply H. Qed.
Lemma mvec_sub n A u v : veq n (mvec n A (vsub u v)) (vsub (mvec n A u) (mvec n A v)).
Proof. intros i Hi. unfold mvec, vsub. rewrite <- csum_minus. apply csum_ext. intros j Hj. ring. Qed.
Lemma mvec_msub n A B v : veq n (mvec n (msub A B) v) (vsub (mvec n A v) (mvec n B v)).
Proof. intros i Hi. unfold mvec, vsub, msub. rewrite <- csum_minus. apply csum_ext. intros j Hj. ring. Qed.

(** ** The mean value inequality *)
Lemma real_mv (f g : R -> R) a b B : (a <= b)%R -> (forall z, (a <= z <= b)%R -> is_derive f z (g z)) -> (forall z, (a <= z <= b)%R -> (Rabs (g z) <= B)%R) ->
  (Rabs (f b - f a) <= B * (b - a))%R.
Proof.
  intros L D H. destruct (MVT_gen f a b g) as (c & Hc & E).
  - rewrite Rmin_left, Rmax_right by lra. intros x Hx. apply D. lra.
  - rewrite Rmin_left, Rmax_right by lra. intros x Hx. apply continuity_pt_filterlim. apply (ex_derive_continuous f). exists (g x). apply D. lra.
  - rewrite Rmin_left, Rmax_right in Hc by lra. rewrite E, Rabs_mult, (Rabs_pos_eq (b - a)) by lra. apply Rmult_le_compat_r; [lra|]. now apply H.
Qed.
Lemma cder_mv (f g : R -> C) a b B : (a <= b)%R -> (forall z, (a <= z <= b)%R -> cder f z (g z)) -> (forall z, (a <= z <= b)%R -> (Cmod (g z) <= B)%R) ->
  (Cmod (f b - f a)%C <= 2 * B * (b - a))%R.
Proof.
  intros L D H. eapply Rle_trans; [apply Cmod_parts|].
  assert (H1 := real_mv (fun x => fst (f x)) (fun x => fst (g x)) a b B L (fun z Hz => proj1 (D z Hz)) (fun z Hz => Rle_trans _ _ _ (fst_le_Cmod (g z)) (H z Hz))).
  assert (H2 := real_mv (fun x => snd (f x)) (fun x => snd (g x)) a b B L (fun z Hz => proj2 (D z Hz)) (fun z Hz => Rle_trans _ _ _ (snd_le_Cmod (g z)) (H z Hz))).
  cbv beta in H1, H2. change (fst (f b - f a)) with (fst (f b) - fst (f a))%R. change (snd (f b - f a)) with (snd (f b) - snd (f a))%R. lra.
Qed.
Lemma cder_taylor (f g : R -> C) (l : C) a b B : (a <= b)%R -> (forall z, (a <= z <= b)%R -> cder f z (g z)) -> (forall z, (a <= z <= b)%R -> (Cmod (g z - l)%C <= B)%R) ->
  (Cmod (f b - f a - RtoC (b - a) * l)%C <= 2 * B * (b - a))%R.
Proof.
  intros L D H. assert (X := cder_mv (fun x => f x - RtoC x * l) (fun x => g x - l) a b B L).
  replace (f b - f a - RtoC (b - a) * l) with (f b - RtoC b * l - (f a - RtoC a * l)) by (rewrite (RtoC_minus b a); ring). apply X; [|exact H].
  intros z Hz. apply cder_minus; [now apply D|]. apply (cder_eq _ z (1 * l + RtoC z * 0)); [apply (cder_mult (fun x => RtoC x) (fun _ => l)); [apply cder_id|apply cder_const]|]. ring.
Qed.

(** ** One step *)
Section Step.
Variables (n : nat) (A : R -> mat) (y : R -> nat -> C) (D K L M : R).
Hypothesis N0 : (0 < n)%nat.
Hypothesis K0 : (0 <= K)%R.
Hypothesis L0 : (0 <= L)%R.
Hypothesis AK : forall z, (0 <= z <= D)%R -> bounded_by n (A z) K.
Hypothesis AL : forall z z', (0 <= z <= D)%R -> (0 <= z' <= D)%R -> bounded_by n (msub (A z) (A z')) (L * Rabs (z - z')).
Hypothesis Y : forall z i, (0 <= z <= D)%R -> (i < n)%nat -> cder (fun x => y x i) z (mvec n (A z) (y z) i).
Hypothesis YM : forall z, (0 <= z <= D)%R -> vle n (y z) M.

Definition step_const : R := (2 * INR n * (L * M) + 4 * INR n * K * (INR n * (K * M)))%R.
Lemma step_error a b m : (0 <= a)%R -> (a <= m <= b)%R -> (b <= D)%R ->
  vle n (vsub (y a) (vsub (y b) (fun i => RtoC (b - a) * mvec n (A m) (y b) i))) (step_const * ((b - a) * (b - a))).
Proof.
  intros Ha Hm Hb i Hi. assert (M0 : (0 <= M)%R) by (apply (vle_nonneg n (y a)); [exact N0|apply YM; lra]). assert (NN := pos_INR n).
  assert (H := cder_taylor (fun x => y x i) (fun x => mvec n (A x) (y x) i) (mvec n (A m) (y b) i) a b
    (INR n * (L * M) * (b - a) + 2 * INR n * K * (INR n * (K * M)) * (b - a)) ltac:(lra)).
  cbv beta in H. unfold vsub. replace (y a i - (y b i - RtoC (b - a) * mvec n (A m) (y b) i)) with (- (y b i - y a i - RtoC (b - a) * mvec n (A m) (y b) i)) by ring.
  rewrite Cmod_opp. eapply Rle_trans; [apply H|].
  - intros z Hz. apply Y; [lra|exact Hi].
  - intros z Hz. replace (mvec n (A z) (y z) i - mvec n (A m) (y b) i) with (mvec n (msub (A z) (A m)) (y z) i + mvec n (A m) (vsub (y z) (y b)) i)
      by (rewrite (mvec_msub n _ _ _ i Hi), (mvec_sub n _ _ _ i Hi); unfold vsub; ring).
    eapply Rle_trans; [apply Cmod_triangle|]. apply Rplus_le_compat.
    + eapply Rle_trans; [apply (mvec_le n _ _ (L * (b - a)) M); [apply Rmult_le_pos; lra| |apply YM; lra|exact Hi]|lra].
      intros p q Hp Hq. eapply Rle_trans; [apply AL; auto; lra|]. apply Rmult_le_compat_l; [exact L0|]. apply Rabs_le. lra.
    + eapply Rle_trans; [apply (mvec_le n _ _ K (2 * (INR n * (K * M)) * (b - a))); [exact K0|apply AK; lra| |exact Hi]|apply Req_le; ring].
      intros p Hp. unfold vsub. rewrite Cmod_minus_sym. eapply Rle_trans; [apply (cder_mv (fun x => y x p) (fun x => mvec n (A x) (y x) p) z b (INR n * (K * M))); [lra| |]|].
      * intros w Hw. apply Y; [lra|exact Hp].
      * intros w Hw. apply (mvec_le n (A w) (y w) K M K0); [apply AK; lra|apply YM; lra|exact Hp].
      * apply Rmult_le_compat_l; [|lra]. apply Rmult_le_pos; [lra|]. apply Rmult_le_pos; [exact NN|]. now apply Rmult_le_pos.
  - unfold step_const. apply Req_le. ring.
Qed.
End Step.

(** ** Products *)
Fixpoint mprod (n : nat) (l : list mat) : mat := match l with [] => mid | P :: l => mmul n P (mprod n l) end.
Lemma prod_error n (P : nat -> mat) (y : nat -> nat -> C) q E c s : (0 < n)%nat -> (1 <= q)%R ->
  (forall j v V, (s <= j < s + c)%nat -> vle n v V -> vle n (mvec n (P j) v) (q * V)) ->
  (forall j, (s <= j < s + c)%nat -> vle n (vsub (y j) (mvec n (P j) (y (S j)))) E) ->
  vle n (vsub (y s) (mvec n (mprod n (map P (seq s c))) (y (s + c)%nat))) (INR c * (q ^ c * E)).
Proof.
  intros N0 Q. revert s. induction c as [|c IH]; intros s HP HE.
  - intros i Hi. cbn [seq map mprod INR]. rewrite Nat.add_0_r. unfold vsub. replace (mvec n mid (y s) i) with (y s i); [replace (y s i - y s i) with (RtoC 0) by ring; rewrite Cmod_0; lra|].
    unfold mvec, mid. rewrite (csum_single n _ i Hi); [rewrite Nat.eqb_refl; ring|]. intros k Hk Dk. destruct (Nat.eqb_spec i k); [congruence|ring].
  - assert (IH' := IH (S s) ltac:(intros; apply HP; [lia|assumption]) ltac:(intros; apply HE; lia)). replace (S s + c)%nat with (s + S c)%nat in IH' by lia. cbn [seq map mprod].
    assert (E0 : (0 <= E)%R) by (apply (vle_nonneg n (vsub (y s) (mvec n (P s) (y (S s))))); [exact N0|apply HE; lia]).
    assert (H := vle_add n _ _ _ _ (HE s ltac:(lia)) (HP s _ _ ltac:(lia) IH')). eapply vle_le.
    + eapply vle_veq; [|exact H]. intros i Hi. unfold vadd. rewrite (mvec_sub n _ _ _ i Hi). unfold vsub. rewrite (mvec_mul n _ _ _ i Hi). ring.
    + rewrite S_INR. assert (Qc : (1 <= q ^ c)%R) by (apply pow_R1_Rle; exact Q). assert (C0 := pos_INR c). cbn [pow]. assert (1 <= q * q ^ c)%R by nra. assert (E <= q * q ^ c * E)%R by nra. nra.
Qed.
Lemma pow_exp x c : (0 <= x)%R -> ((1 + x) ^ c <= exp (INR c * x))%R.
Proof.
  intros X. induction c as [|c IH]; [cbn; rewrite Rmult_0_l, exp_0; lra|]. rewrite S_INR. replace ((INR c + 1) * x)%R with (x + INR c * x)%R by ring. rewrite exp_plus. cbn [pow].
  apply Rmult_le_compat; [lra|apply pow_le; lra| |exact IH]. assert (H := exp_ineq1_le x). lra.
Qed.

(** ** Gronwall's inequality: solutions grow at most exponentially, so they are determined by one value *)
Fixpoint rsum (n : nat) (f : nat -> R) : R := match n with O => 0%R | S m => (rsum m f + f m)%R end.
Lemma rsum_le n f g : (forall i, (i < n)%nat -> (f i <= g i)%R) -> (rsum n f <= rsum n g)%R.
Proof. induction n as [|n IH]; intros H; cbn; [lra|]. apply Rplus_le_compat; [apply IH; intros; apply H; lia|apply H; lia]. Qed.
Lemma rsum_plus n f g : rsum n (fun i => (f i + g i)%R) = (rsum n f + rsum n g)%R.
Proof. induction n as [|n IH]; cbn; [lra|]. rewrite IH. ring. Qed.
Lemma rsum_scal n c f : rsum n (fun i => (c * f i)%R) = (c * rsum n f)%R.
Proof. induction n as [|n IH]; cbn; [lra|]. rewrite IH. ring. Qed.
Lemma rsum_const n c : rsum n (fun _ => c) = (INR n * c)%R.
Proof. induction n as [|n IH]; [cbn; lra|]. rewrite S_INR. cbn [rsum]. rewrite IH. ring. Qed.
Lemma rsum_ext n f g : (forall i, (i < n)%nat -> f i = g i) -> rsum n f = rsum n g.
Proof. induction n as [|n IH]; intros H; cbn; [reflexivity|]. rewrite IH by (intros; apply H; lia). now rewrite H by lia. Qed.
Lemma rsum_nonneg n f : (forall i, (i < n)%nat -> (0 <= f i)%R) -> (0 <= rsum n f)%R.
Proof. intros H. replace 0%R with (rsum n (fun _ => 0%R)) by (rewrite rsum_const; ring). now apply rsum_le. Qed.
Lemma rsum_term n f i : (forall j, (j < n)%nat -> (0 <= f j)%R) -> (i < n)%nat -> (f i <= rsum n f)%R.
Proof.
  induction n as [|n IH]; intros H Hi; [lia|]. cbn. assert (N := rsum_nonneg n f ltac:(intros; apply H; lia)). destruct (Nat.eq_dec i n) as [->|]; [lra|].
  assert (X := IH ltac:(intros; apply H; lia) ltac:(lia)). assert (Y := H n ltac:(lia)). lra.
Qed.
Lemma rsum_derive n (f : nat -> R -> R) (g : nat -> R) t : (forall i, (i < n)%nat -> is_derive (f i) t (g i)) -> is_derive (fun x => rsum n (fun i => f i x)) t (rsum n g).
Proof.
  induction n as [|n IH]; intros H; cbn; [apply (is_derive_const (V := R_NormedModule))|]. apply (is_derive_plus (fun x => rsum n (fun i => f i x)) (f n)); [apply IH; intros; apply H; lia|apply H; lia].
Qed.
Lemma rsum_abs n f : (Rabs (rsum n f) <= rsum n (fun i => Rabs (f i)))%R.
Proof. induction n as [|n IH]; cbn; [rewrite Rabs_R0; lra|]. eapply Rle_trans; [apply Rabs_triang|]. lra. Qed.
Definition nsq (n : nat) (v : nat -> C) : R := rsum n (fun i => (Cmod (v i) ^ 2)%R).
Lemma Cmod_sq (z : C) : (Cmod z ^ 2 = fst z * fst z + snd z * snd z)%R.
Proof. unfold Cmod. rewrite pow2_sqrt; [ring|]. nra. Qed.
Lemma Cmod_conj (z : C) : Cmod (Cconj z) = Cmod z.
Proof. unfold Cmod, Cconj. cbn [fst snd]. f_equal. ring. Qed.
Lemma fst_csum n f : fst (csum n f) = rsum n (fun i => fst (f i)).
Proof. induction n as [|n IH]; [reflexivity|]. cbn [csum rsum]. rewrite <- IH. reflexivity. Qed.
Lemma nsq_derive n (y : R -> nat -> C) (g : nat -> C) t : (forall i, (i < n)%nat -> cder (fun x => y x i) t (g i)) ->
  is_derive (fun x => nsq n (y x)) t (rsum n (fun i => 2 * fst (Cconj (y t i) * g i)%C))%R.
Proof.
  intros H. apply (is_derive_ext (fun x => rsum n (fun i => (fst (y x i) * fst (y x i) + snd (y x i) * snd (y x i))%R))).
  - intros x. apply rsum_ext. intros i Hi. now rewrite Cmod_sq.
  - apply (rsum_derive n (fun i x => (fst (y x i) * fst (y x i) + snd (y x i) * snd (y x i))%R)). intros i Hi. destruct (H i Hi) as [H1 H2].
    assert (D := is_derive_plus _ _ _ _ _ (dmult _ _ _ _ _ H1 H1) (dmult _ _ _ _ _ H2 H2)). cbv beta in D.
    eapply (eq_ind _ (fun l => is_derive _ t l)); [exact D|]. unfold plus. cbn. ring.
Qed.
Section Gronwall.
Variables (n : nat) (A : R -> mat) (y : R -> nat -> C) (a b K : R).
Hypothesis K0 : (0 <= K)%R.
Hypothesis AB : (a <= b)%R.
Hypothesis AK : forall z, (a <= z <= b)%R -> bounded_by n (A z) K.
Hypothesis Y : forall z i, (a <= z <= b)%R -> (i < n)%nat -> cder (fun x => y x i) z (mvec n (A z) (y z) i).
Let lam : R := (2 * INR n * K)%R.
Lemma growth_rate z : (a <= z <= b)%R -> (Rabs (rsum n (fun i => 2 * fst (Cconj (y z i) * mvec n (A z) (y z) i)%C)) <= lam * nsq n (y z))%R.
Proof.
  intros Hz. eapply Rle_trans; [apply rsum_abs|]. eapply Rle_trans; [apply (rsum_le n _ (fun i => K * (INR n * Cmod (y z i) ^ 2 + nsq n (y z)))%R)|].
  - intros i Hi. unfold mvec. rewrite <- csum_mult_l, fst_csum, Rabs_mult, (Rabs_pos_eq 2) by lra.
    eapply Rle_trans; [apply Rmult_le_compat_l; [lra|apply rsum_abs]|]. rewrite <- rsum_scal. unfold nsq. rewrite <- (rsum_const n (Cmod (y z i) ^ 2)), <- rsum_plus, <- rsum_scal.
    apply rsum_le. intros j Hj. assert (H := AK z Hz i j Hi Hj). eapply Rle_trans; [apply Rmult_le_compat_l; [lra|apply fst_le_Cmod]|]. rewrite !Cmod_mult, Cmod_conj.
    assert (P := Cmod_ge_0 (y z i)). assert (Q := Cmod_ge_0 (y z j)). assert (S := Cmod_ge_0 (A z i j)). assert (0 <= (Cmod (y z i) - Cmod (y z j)) ^ 2)%R by apply pow2_ge_0.
    assert (0 <= Cmod (y z i) * Cmod (y z j))%R by now apply Rmult_le_pos.
    apply Rle_trans with (K * (2 * (Cmod (y z i) * Cmod (y z j))))%R; [nra|]. apply Rmult_le_compat_l; [exact K0|]. nra.
  - apply Req_le. rewrite rsum_scal, rsum_plus, rsum_scal, rsum_const. fold (nsq n (y z)). unfold lam. ring.
Qed.
Lemma nsq_nonneg v : (0 <= nsq n v)%R.
Proof. apply rsum_nonneg. intros. apply pow2_ge_0. Qed.
Lemma grow_fwd : (nsq n (y b) <= nsq n (y a) * exp (lam * (b - a)))%R.
Proof.
  assert (H : (nsq n (y b) * exp (- lam * b) <= nsq n (y a) * exp (- lam * a))%R).
  { destruct (Req_dec a b) as [<-|Ne]; [lra|].
    destruct (MVT_gen (fun x => nsq n (y x) * exp (- lam * x))%R a b (fun x => rsum n (fun i => 2 * fst (Cconj (y x i) * mvec n (A x) (y x) i)%C) * exp (- lam * x) + nsq n (y x) * (- lam * exp (- lam * x)))%R) as (c & Hc & E).
    - rewrite Rmin_left, Rmax_right by lra. intros x Hx. apply (dmult (fun x => nsq n (y x)) (fun x => exp (- lam * x)%R)); [apply nsq_derive; intros; apply Y; [lra|assumption]|auto_derive; [trivial|ring]].
    - rewrite Rmin_left, Rmax_right by lra. intros x Hx. apply continuity_pt_filterlim. apply (ex_derive_continuous (fun x => nsq n (y x) * exp (- lam * x))%R). eexists.
      apply (dmult (fun x => nsq n (y x)) (fun x => exp (- lam * x)%R)); [apply nsq_derive; intros; apply Y; [lra|assumption]|auto_derive; [trivial|reflexivity]].
    - rewrite Rmin_left, Rmax_right in Hc by lra. assert (G := Rle_trans _ _ _ (Rle_abs _) (growth_rate c Hc)). assert (X := exp_pos (- lam * c)).
      set (e := exp (- lam * c)) in *. set (s := rsum n _) in *. set (q := nsq n (y c)) in *.
      assert (s * e + q * (- lam * e) <= 0)%R by (replace (s * e + q * (- lam * e))%R with ((s - lam * q) * e)%R by ring; clearbody s q e lam; nra). nra. }
  apply Rmult_le_reg_r with (exp (- lam * b)); [apply exp_pos|]. rewrite Rmult_assoc, <- exp_plus. replace (lam * (b - a) + - lam * b)%R with (- lam * a)%R by ring. exact H.
Qed.
Lemma grow_bwd : (nsq n (y a) <= nsq n (y b) * exp (lam * (b - a)))%R.
Proof.
  assert (H : (nsq n (y a) * exp (lam * a) <= nsq n (y b) * exp (lam * b))%R).
  { destruct (Req_dec a b) as [<-|Ne]; [lra|].
    destruct (MVT_gen (fun x => nsq n (y x) * exp (lam * x))%R a b (fun x => rsum n (fun i => 2 * fst (Cconj (y x i) * mvec n (A x) (y x) i)%C) * exp (lam * x) + nsq n (y x) * (lam * exp (lam * x)))%R) as (c & Hc & E).
    - rewrite Rmin_left, Rmax_right by lra. intros x Hx. apply (dmult (fun x => nsq n (y x)) (fun x => exp (lam * x)%R)); [apply nsq_derive; intros; apply Y; [lra|assumption]|auto_derive; [trivial|ring]].
    - rewrite Rmin_left, Rmax_right by lra. intros x Hx. apply continuity_pt_filterlim. apply (ex_derive_continuous (fun x => nsq n (y x) * exp (lam * x))%R). eexists.
      apply (dmult (fun x => nsq n (y x)) (fun x => exp (lam * x)%R)); [apply nsq_derive; intros; apply Y; [lra|assumption]|auto_derive; [trivial|reflexivity]].
    - rewrite Rmin_left, Rmax_right in Hc by lra. assert (G := growth_rate c Hc). assert (X := exp_pos (lam * c)).
      set (e := exp (lam * c)) in *. set (s := rsum n _) in *. set (q := nsq n (y c)) in *. assert (G' : (- (lam * q) <= s)%R) by (revert G; unfold Rabs; destruct (Rcase_abs s); lra).
      assert (0 <= s * e + q * (lam * e))%R by (replace (s * e + q * (lam * e))%R with ((s + lam * q) * e)%R by ring; clearbody s q e lam; nra). nra. }
  apply Rmult_le_reg_r with (exp (lam * a)); [apply exp_pos|]. rewrite Rmult_assoc, <- exp_plus. replace (lam * (b - a) + lam * a)%R with (lam * b)%R by ring. exact H.
Qed.
End Gronwall.
Lemma nsq_le n v V : vle n v V -> (nsq n v <= INR n * V ^ 2)%R.
Proof. intros H. unfold nsq. rewrite <- rsum_const. apply rsum_le. intros i Hi. apply pow_incr. split; [apply Cmod_ge_0|now apply H]. Qed.
Lemma nsq_vle n v V : (0 <= V)%R -> (nsq n v <= V ^ 2)%R -> vle n v V.
Proof.
  intros V0 H i Hi. assert (T := rsum_term n (fun i => Cmod (v i) ^ 2)%R i ltac:(intros; apply pow2_ge_0) Hi). cbv beta in T. fold (nsq n v) in T. assert (P := Cmod_ge_0 (v i)). nra.
Qed.
Lemma nsq_0 n v : (nsq n v <= 0)%R -> forall i, (i < n)%nat -> v i = 0.
Proof.
  intros H i Hi. assert (T := nsq_vle n v 0 ltac:(lra) ltac:(lra) i Hi). apply Cmod_eq_0. assert (P := Cmod_ge_0 (v i)). lra.
Qed.

(** ** Existence: Picard's series *)
Definition ccont (f : R -> C) : Prop := forall z : R, continuous (fun x => fst (f x)) z /\ continuous (fun x => snd (f x)) z.
Definition cint (f : R -> C) (c z : R) : C := (RInt (fun s => fst (f s)) c z, RInt (fun s => snd (f s)) c z).
Lemma rint_der (f : R -> R) c z : (forall x, continuous f x) -> is_derive (fun x => RInt f c x) z (f z).
Proof.
  intros H. apply (is_derive_RInt f (fun x => RInt f c x) c z); [|apply H]. exists (mkposreal 1 Rlt_0_1). intros x _. apply (RInt_correct (V := R_CompleteNormedModule)).
  apply (ex_RInt_continuous (V := R_CompleteNormedModule)). intros. apply H.
Qed.
Lemma cint_der f c z : ccont f -> cder (cint f c) z (f z).
Proof. intros H. split; cbn [cint fst snd]; [apply (rint_der (fun s => fst (f s)))|apply (rint_der (fun s => snd (f s)))]; intros x; apply H. Qed.
Lemma cder_ccont f g : (forall z, cder f z (g z)) -> ccont f.
Proof. intros H z. destruct (H z) as [H1 H2]. split; apply (ex_derive_continuous (V := R_NormedModule)); eexists; eassumption. Qed.
Lemma ccont_const c : ccont (fun _ => c).
Proof. intros z. split; apply continuous_const. Qed.
Lemma ccont_plus f g : ccont f -> ccont g -> ccont (fun x => f x + g x).
Proof. intros F G z. destruct (F z), (G z). split; cbn; apply (continuous_plus (V := R_NormedModule)); assumption. Qed.
Lemma ccont_mult f g : ccont f -> ccont g -> ccont (fun x => f x * g x).
Proof.
  intros F G z. destruct (F z), (G z). split; cbn.
  - apply (continuous_minus (V := R_NormedModule) (fun x => fst (f x) * fst (g x))%R (fun x => snd (f x) * snd (g x))%R); apply (continuous_mult (K := R_AbsRing)); assumption.
  - apply (continuous_plus (V := R_NormedModule) (fun x => fst (f x) * snd (g x))%R (fun x => snd (f x) * fst (g x))%R); apply (continuous_mult (K := R_AbsRing)); assumption.
Qed.
Lemma ccont_csum n (f : nat -> R -> C) : (forall j, (j < n)%nat -> ccont (f j)) -> ccont (fun x => csum n (fun j => f j x)).
Proof. induction n as [|n IH]; intros H; cbn; [apply ccont_const|]. apply (ccont_plus (fun x => csum n (fun j => f j x))); [apply IH; intros; apply H; lia|apply H; lia]. Qed.
Lemma rint_le (f G g : R -> R) a b : (a <= b)%R -> (forall x, continuous f x) -> (forall x, continuous g x) -> (forall x, is_derive G x (g x)) ->
  (forall x, (a <= x <= b)%R -> (Rabs (f x) <= g x)%R) -> (Rabs (RInt f a b) <= G b - G a)%R.
Proof.
  intros L F Hg D H. assert (E : RInt g a b = (G b - G a)%R).
  { apply is_RInt_unique. apply (is_RInt_derive (V := R_CompleteNormedModule) G g); intros; [apply D|apply Hg]. }
  rewrite <- E. eapply Rle_trans; [apply abs_RInt_le; [exact L|apply (ex_RInt_continuous (V := R_CompleteNormedModule)); intros; apply F]|].
  apply RInt_le; [exact L| | |intros x Hx; apply H; lra]; apply (ex_RInt_continuous (V := R_CompleteNormedModule)); intros z Hz; [|apply Hg].
  apply (continuous_comp f Rabs); [apply F|apply continuous_Rabs].
Qed.
Lemma rint_exp (f : R -> R) c z c0 lam : (0 <= c0)%R -> (forall x, continuous f x) -> (forall x, (Rabs (f x) <= lam * c0 * exp (lam * Rabs (x - c)))%R) ->
  (Rabs (RInt f c z) <= c0 * exp (lam * Rabs (z - c)))%R.
Proof.
  intros C0 F H. destruct (Rle_dec c z) as [L|L].
  - rewrite (Rabs_pos_eq (z - c)) by lra. eapply Rle_trans; [apply (rint_le f (fun x => c0 * exp (lam * (x - c)))%R (fun x => lam * c0 * exp (lam * (x - c)))%R c z L F)|].
    + intros x. apply (ex_derive_continuous (V := R_NormedModule)). auto_derive. trivial.
    + intros x. auto_derive; [trivial|]. unfold Rminus. ring.
    + intros x Hx. specialize (H x). rewrite (Rabs_pos_eq (x - c)) in H by lra. exact H.
    + replace (c - c)%R with 0%R by ring. rewrite Rmult_0_r, exp_0. lra.
  - rewrite (Rabs_left (z - c)) by lra. rewrite <- opp_RInt_swap by (apply (ex_RInt_continuous (V := R_CompleteNormedModule)); intros; apply F). change (Rabs (- RInt f z c) <= c0 * exp (lam * - (z - c)))%R. rewrite Rabs_Ropp.
    eapply Rle_trans; [apply (rint_le f (fun x => - (c0 * exp (lam * (c - x))))%R (fun x => lam * c0 * exp (lam * (c - x)))%R z c ltac:(lra) F)|].
    + intros x. apply (ex_derive_continuous (V := R_NormedModule)). auto_derive. trivial.
    + intros x. auto_derive; [trivial|]. unfold Rminus. ring.
    + intros x Hx. specialize (H x). rewrite (Rabs_minus_sym x c), (Rabs_pos_eq (c - x)) in H by lra. exact H.
    + replace (c - c)%R with 0%R by ring. rewrite Rmult_0_r, exp_0. replace (lam * - (z - c))%R with (lam * (c - z))%R by ring. lra.
Qed.
Lemma series_tail (a : nat -> R) M : (forall k, (Rabs (a k) <= M * (/ 2) ^ k)%R) -> forall N, (Rabs (Series a - rsum N a) <= 2 * M * (/ 2) ^ N)%R.
Proof.
  intros H N. assert (G : forall m, ex_series (fun k => M * (/ 2) ^ (m + k))%R).
  { intros m. apply (ex_series_ext (fun k => scal (M * (/ 2) ^ m)%R ((/ 2) ^ k)%R)); [intros k; unfold scal; cbn; unfold mult; cbn; rewrite pow_add; ring|]. apply (ex_series_scal (V := R_NormedModule)). apply ex_series_geom. rewrite Rabs_pos_eq; lra. }
  assert (X : forall m, ex_series (fun k => a (m + k)%nat)).
  { intros m. apply (ex_series_le (V := R_CompleteNormedModule) _ (fun k => M * (/ 2) ^ (m + k))%R); [intros k; apply H|apply G]. }
  assert (E : (Series a - rsum N a)%R = Series (fun k => a (N + k)%nat)).
  { induction N as [|N IH]; cbn [rsum]; [rewrite Rminus_0_r; reflexivity|]. replace (Series a - (rsum N a + a N))%R with (Series a - rsum N a - a N)%R by ring. rewrite IH, Series_incr_1 by apply X.
    rewrite Nat.add_0_r. replace (a N + Series (fun k => a (N + S k)%nat) - a N)%R with (Series (fun k => a (N + S k)%nat)) by ring. apply Series_ext. intros k. f_equal. lia. }
  rewrite E. eapply Rle_trans; [apply Series_Rabs; apply (ex_series_le (V := R_CompleteNormedModule) _ (fun k => M * (/ 2) ^ (N + k))%R); [intros k; unfold norm; cbn; unfold abs; cbn; rewrite Rabs_Rabsolu; apply H|apply G]|].
  eapply Rle_trans; [apply (Series_le _ (fun k => M * (/ 2) ^ (N + k))%R); [intros k; split; [apply Rabs_pos|apply H]|apply G]|].
  rewrite (Series_ext _ (fun k => (M * (/ 2) ^ N) * (/ 2) ^ k)%R) by (intros k; rewrite pow_add; ring). rewrite Series_scal_l, Series_geom by (rewrite Rabs_pos_eq; lra). apply Req_le. field.
Qed.
Lemma half_pow_0 x M : (forall N, (Rabs x <= M * (/ 2) ^ N)%R) -> x = 0%R.
Proof.
  intros H. destruct (Req_dec x 0) as [E|E]; [exact E|exfalso]. assert (P := Rabs_pos_lt x E).
  assert (M0 : (0 < M)%R) by (specialize (H 0%nat); cbn in H; lra).
  destruct (pow_lt_1_zero (/ 2) ltac:(rewrite Rabs_pos_eq; lra) (Rabs x / M) ltac:(apply Rdiv_lt_0_compat; lra)) as [N HN]. specialize (HN N (le_n N)). specialize (H N).
  rewrite Rabs_pos_eq in HN by (apply pow_le; lra). apply (Rmult_lt_compat_l M) in HN; [|exact M0]. replace (M * (Rabs x / M))%R with (Rabs x) in HN by (field; lra). lra.
Qed.

Section Picard.
Variables (n : nat) (A : R -> mat) (K c : R) (u : nat -> C).
Hypothesis N0 : (0 < n)%nat.
Hypothesis K0 : (0 < K)%R.
Hypothesis AC : forall i j, (i < n)%nat -> (j < n)%nat -> ccont (fun z => A z i j).
Hypothesis AK : forall z, bounded_by n (A z) K.
Fixpoint pic (k : nat) : R -> nat -> C := match k with
  | O => fun _ => u
  | S k => fun z i => cint (fun s => mvec n (A s) (pic k s) i) c z
  end.
Lemma mvec_ccont (y : R -> nat -> C) i : (i < n)%nat -> (forall j, (j < n)%nat -> ccont (fun z => y z j)) -> ccont (fun z => mvec n (A z) (y z) i).
Proof. intros Hi H. unfold mvec. apply (ccont_csum n (fun j z => A z i j * y z j)). intros j Hj. apply ccont_mult; [now apply AC|now apply H]. Qed.
Lemma pic_cont k i : (i < n)%nat -> ccont (fun z => pic k z i).
Proof.
  revert i. induction k as [|k IH]; intros i Hi; cbn [pic]; [apply ccont_const|].
  apply (cder_ccont _ (fun z => mvec n (A z) (pic k z) i)). intros z. apply (cint_der (fun s => mvec n (A s) (pic k s) i)). apply mvec_ccont; assumption.
Qed.
Lemma pic_der k z i : (i < n)%nat -> cder (fun x => pic (S k) x i) z (mvec n (A z) (pic k z) i).
Proof. intros Hi. cbn [pic]. apply (cint_der (fun s => mvec n (A s) (pic k s) i)). apply mvec_ccont; [exact Hi|]. intros. now apply pic_cont. Qed.
Variable V : R.
Hypothesis UV : vle n u V.
Let lam : R := (4 * INR n * K)%R.
Lemma lam_pos : (0 < lam)%R.
Proof. unfold lam. assert (0 < INR n)%R by (apply lt_0_INR; exact N0). apply Rmult_lt_0_compat; [lra|exact K0]. Qed.
Lemma V_nonneg : (0 <= V)%R.
Proof. exact (vle_nonneg n u V N0 UV). Qed.
Lemma pic_bound k z : vle n (pic k z) (V * exp (lam * Rabs (z - c)) * (/ 2) ^ k).
Proof.
  assert (LP := lam_pos). assert (VP := V_nonneg). revert z. induction k as [|k IH]; intros z i Hi.
  - cbn [pic pow]. rewrite Rmult_1_r. eapply Rle_trans; [apply UV; exact Hi|]. assert (1 <= exp (lam * Rabs (z - c)))%R.
    { rewrite <- exp_0. destruct (Req_dec (lam * Rabs (z - c)) 0) as [->|Ne]; [lra|]. left. apply exp_increasing. assert (0 <= lam * Rabs (z - c))%R by (apply Rmult_le_pos; [lra|apply Rabs_pos]). lra. } nra.
  - assert (HV : (0 <= V * (/ 2) ^ k)%R) by (apply Rmult_le_pos; [exact VP|apply pow_le; lra]).
    assert (G : forall x, (Cmod (mvec n (A x) (pic k x) i) <= lam * (V * (/ 2) ^ k / 4) * exp (lam * Rabs (x - c)))%R).
    { intros x. eapply Rle_trans; [apply (mvec_le n (A x) (pic k x) K _ ltac:(lra) (AK x) (IH x) i Hi)|]. unfold lam. apply Req_le. field. }
    assert (CC := mvec_ccont (pic k) i Hi (fun j Hj => pic_cont k j Hj)).
    cbn [pic]. unfold cint. eapply Rle_trans; [apply Cmod_parts|]. cbn [fst snd].
    assert (H1 := rint_exp (fun s => fst (mvec n (A s) (pic k s) i)) c z (V * (/ 2) ^ k / 4) lam ltac:(lra) (fun x => proj1 (CC x)) (fun x => Rle_trans _ _ _ (fst_le_Cmod _) (G x))).
    assert (H2 := rint_exp (fun s => snd (mvec n (A s) (pic k s) i)) c z (V * (/ 2) ^ k / 4) lam ltac:(lra) (fun x => proj2 (CC x)) (fun x => Rle_trans _ _ _ (snd_le_Cmod _) (G x))).
    eapply Rle_trans; [apply Rplus_le_compat; [exact H1|exact H2]|]. cbn [pow]. apply Req_le. field.
Qed.
Definition psum (N : nat) (z : R) (i : nat) : C := csum N (fun k => pic k z i).
Definition psol (z : R) (i : nat) : C := (Series (fun k => fst (pic k z i)), Series (fun k => snd (pic k z i))).
Lemma snd_csum m f : snd (csum m f) = rsum m (fun i => snd (f i)).
Proof. induction m as [|m IH]; [reflexivity|]. cbn [csum rsum]. rewrite <- IH. reflexivity. Qed.
Lemma psol_near N z : vle n (vsub (psol z) (psum N z)) (4 * (V * exp (lam * Rabs (z - c))) * (/ 2) ^ N).
Proof.
  intros i Hi. unfold vsub. eapply Rle_trans; [apply Cmod_parts|].
  change (fst (psol z i - psum N z i)) with (Series (fun k => fst (pic k z i)) - fst (psum N z i))%R. change (snd (psol z i - psum N z i)) with (Series (fun k => snd (pic k z i)) - snd (psum N z i))%R.
  unfold psum. rewrite fst_csum, snd_csum.
  assert (H1 := series_tail (fun k => fst (pic k z i)) _ (fun k => Rle_trans _ _ _ (fst_le_Cmod _) (pic_bound k z i Hi)) N).
  assert (H2 := series_tail (fun k => snd (pic k z i)) _ (fun k => Rle_trans _ _ _ (snd_le_Cmod _) (pic_bound k z i Hi)) N). lra.
Qed.
Lemma psum_der N z i : (i < n)%nat -> cder (fun x => psum (S N) x i) z (mvec n (A z) (psum N z) i).
Proof.
  intros Hi. induction N as [|N IH].
  - unfold psum. cbn [csum pic]. eapply cder_eq; [apply cder_const|]. unfold mvec. symmetry. apply csum_0. intros j Hj. cbn. ring.
  - apply (cder_eq _ z (mvec n (A z) (psum N z) i + mvec n (A z) (pic N z) i)).
    + apply (cder_plus (fun x => psum (S N) x i) (fun x => pic (S N) x i)); [exact IH|now apply pic_der].
    + unfold mvec. rewrite <- csum_plus. apply csum_ext. intros j Hj. unfold psum. cbn [csum]. ring.
Qed.
Lemma rderive_CVU (f f' : nat -> R -> R) (g h : R -> R) z M : (forall N x, is_derive (f N) x (f' N x)) ->
  (forall N x, (Rabs (x - z) < 1)%R -> (Rabs (g x - f N x) <= M * (/ 2) ^ N)%R) -> (forall N x, (Rabs (x - z) < 1)%R -> (Rabs (h x - f' N x) <= M * (/ 2) ^ N)%R) -> (forall x, continuous h x) ->
  is_derive g z (h z).
Proof.
  intros D G H CH. apply is_derive_Reals. assert (SM : forall e, (0 < e)%R -> exists N0, forall N, (N0 <= N)%nat -> (M * (/ 2) ^ N < e)%R).
  { intros e E. destruct (Rle_dec M 0) as [ML|ML]; [exists 0%nat; intros N _; assert (0 < (/ 2) ^ N)%R by (apply pow_lt; lra); nra|].
    destruct (pow_lt_1_zero (/ 2) ltac:(rewrite Rabs_pos_eq; lra) (e / M) ltac:(apply Rdiv_lt_0_compat; lra)) as [m Hm]. exists m. intros N HN. specialize (Hm N HN). rewrite Rabs_pos_eq in Hm by (apply pow_le; lra).
    apply (Rmult_lt_compat_l M) in Hm; [|lra]. replace (M * (e / M))%R with e in Hm by (field; lra). exact Hm. }
  apply (derivable_pt_lim_CVU f f' g h z z (mkposreal 1 Rlt_0_1)).
  - unfold Boule. cbn. rewrite Rminus_eq_0, Rabs_R0. lra.
  - intros x N _. apply is_derive_Reals. apply D.
  - intros x Hx. intros e E. destruct (SM e E) as [m Hm]. exists m. intros N HN. unfold R_dist. rewrite Rabs_minus_sym. eapply Rle_lt_trans; [apply G; exact Hx|apply Hm; exact HN].
  - intros e E. destruct (SM e E) as [m Hm]. exists m. intros N x HN Hx. eapply Rle_lt_trans; [apply H; exact Hx|apply Hm; exact HN].
  - intros x _. apply continuity_pt_filterlim. apply CH.
Qed.
Lemma near_exp z x : (Rabs (x - z) < 1)%R -> (exp (lam * Rabs (x - c)) <= exp (lam * (Rabs (z - c) + 1)))%R.
Proof.
  intros H. assert (L := lam_pos). assert (T : (Rabs (x - c) <= Rabs (z - c) + 1)%R) by (replace (x - c)%R with ((x - z) + (z - c))%R by ring; eapply Rle_trans; [apply Rabs_triang|lra]).
  apply (Rmult_le_compat_l lam) in T; [|lra]. destruct T as [T| ->]; [left; apply exp_increasing; exact T|lra].
Qed.
Lemma near_C N z x : (Rabs (x - z) < 1)%R -> vle n (vsub (psol x) (psum N x)) (4 * (V * exp (lam * (Rabs (z - c) + 1))) * (/ 2) ^ N).
Proof.
  intros H. eapply vle_le; [apply psol_near|]. apply Rmult_le_compat_r; [apply pow_le; lra|]. apply Rmult_le_compat_l; [lra|]. apply Rmult_le_compat_l; [apply V_nonneg|]. now apply near_exp.
Qed.
(** The sum is continuous as a uniform limit. *)
Lemma rcont_CVU (f : nat -> R -> R) (g : R -> R) z M : (forall N x, continuous (f N) x) -> (forall N x, (Rabs (x - z) < 1)%R -> (Rabs (g x - f N x) <= M * (/ 2) ^ N)%R) -> continuous g z.
Proof.
  intros D G. apply continuity_pt_filterlim. apply (CVU_continuity f g z (mkposreal 1 Rlt_0_1)).
  - intros e E. destruct (Rle_dec M 0) as [ML|ML].
    + exists 0%nat. intros N x _ Hx. eapply Rle_lt_trans; [apply G; exact Hx|]. assert (0 < (/ 2) ^ N)%R by (apply pow_lt; lra). nra.
    + destruct (pow_lt_1_zero (/ 2) ltac:(rewrite Rabs_pos_eq; lra) (e / M) ltac:(apply Rdiv_lt_0_compat; lra)) as [m Hm]. exists m. intros N x HN Hx. eapply Rle_lt_trans; [apply G; exact Hx|].
      specialize (Hm N HN). rewrite Rabs_pos_eq in Hm by (apply pow_le; lra). apply (Rmult_lt_compat_l M) in Hm; [|lra]. replace (M * (e / M))%R with e in Hm by (field; lra). exact Hm.
  - intros N x _. apply continuity_pt_filterlim. apply D.
  - unfold Boule. cbn. rewrite Rminus_eq_0, Rabs_R0. lra.
Qed.
Lemma psol_cont i : (i < n)%nat -> ccont (fun z => psol z i).
Proof.
  intros Hi z. split.
  - apply (rcont_CVU (fun N x => fst (psum N x i)) _ z (4 * (V * exp (lam * (Rabs (z - c) + 1))))).
    + intros N. assert (H : ccont (fun x => psum N x i)) by (apply (ccont_csum N (fun k x => pic k x i)); intros; now apply pic_cont). intros x. apply H.
    + intros N x Hx. eapply Rle_trans; [|apply (near_C N z x Hx i Hi)]. apply (fst_le_Cmod (psol x i - psum N x i)).
  - apply (rcont_CVU (fun N x => snd (psum N x i)) _ z (4 * (V * exp (lam * (Rabs (z - c) + 1))))).
    + intros N. assert (H : ccont (fun x => psum N x i)) by (apply (ccont_csum N (fun k x => pic k x i)); intros; now apply pic_cont). intros x. apply H.
    + intros N x Hx. eapply Rle_trans; [|apply (near_C N z x Hx i Hi)]. apply (snd_le_Cmod (psol x i - psum N x i)).
Qed.
Lemma psol_der z i : (i < n)%nat -> cder (fun x => psol x i) z (mvec n (A z) (psol z) i).
Proof.
  intros Hi. set (M0 := (4 * (V * exp (lam * (Rabs (z - c) + 1))))%R). set (M := (M0 + INR n * (K * M0))%R).
  assert (P0 : (0 <= M0)%R) by (unfold M0; assert (X := exp_pos (lam * (Rabs (z - c) + 1))); assert (Y := V_nonneg); apply Rmult_le_pos; [lra|]; apply Rmult_le_pos; lra).
  assert (P1 : (0 <= INR n * (K * M0))%R) by (apply Rmult_le_pos; [apply pos_INR|]; apply Rmult_le_pos; lra).
  assert (G : forall N x, (Rabs (x - z) < 1)%R -> (Cmod (psol x i - psum (S N) x i)%C <= M * (/ 2) ^ N)%R).
  { intros N x Hx. eapply Rle_trans; [apply (near_C (S N) z x Hx i Hi)|]. fold M0. cbn [pow]. assert (Q : (0 < (/ 2) ^ N)%R) by (apply pow_lt; lra). unfold M. clearbody M0. assert (0 <= M0 * (/ 2) ^ N)%R by (apply Rmult_le_pos; lra). assert (0 <= INR n * (K * M0) * (/ 2) ^ N)%R by (apply Rmult_le_pos; lra). lra. }
  assert (H : forall N x, (Rabs (x - z) < 1)%R -> (Cmod (mvec n (A x) (psol x) i - mvec n (A x) (psum N x) i)%C <= M * (/ 2) ^ N)%R).
  { intros N x Hx. assert (E := mvec_sub n (A x) (psol x) (psum N x) i Hi). unfold vsub at 2 in E. rewrite <- E. eapply Rle_trans; [apply (mvec_le n (A x) _ K _ ltac:(lra) (AK x) (near_C N z x Hx) i Hi)|]. fold M0.
    assert (Q : (0 < (/ 2) ^ N)%R) by (apply pow_lt; lra). unfold M. clearbody M0. assert (0 <= M0 * (/ 2) ^ N)%R by (apply Rmult_le_pos; lra). lra. }
  assert (CC := mvec_ccont psol i Hi psol_cont).
  split.
  - apply (rderive_CVU (fun N x => fst (psum (S N) x i)) (fun N x => fst (mvec n (A x) (psum N x) i)) (fun x => fst (psol x i)) (fun x => fst (mvec n (A x) (psol x) i)) z M).
    + intros N x. apply (psum_der N x i Hi).
    + intros N x Hx. eapply Rle_trans; [|apply (G N x Hx)]. apply (fst_le_Cmod (psol x i - psum (S N) x i)).
    + intros N x Hx. eapply Rle_trans; [|apply (H N x Hx)]. apply (fst_le_Cmod (mvec n (A x) (psol x) i - mvec n (A x) (psum N x) i)).
    + intros x. apply CC.
  - apply (rderive_CVU (fun N x => snd (psum (S N) x i)) (fun N x => snd (mvec n (A x) (psum N x) i)) (fun x => snd (psol x i)) (fun x => snd (mvec n (A x) (psol x) i)) z M).
    + intros N x. apply (psum_der N x i Hi).
    + intros N x Hx. eapply Rle_trans; [|apply (G N x Hx)]. apply (snd_le_Cmod (psol x i - psum (S N) x i)).
    + intros N x Hx. eapply Rle_trans; [|apply (H N x Hx)]. apply (snd_le_Cmod (mvec n (A x) (psol x) i - mvec n (A x) (psum N x) i)).
    + intros x. apply CC.
Qed.
Lemma psum_start N i : psum (S N) c i = u i.
Proof.
  induction N as [|N IH]; unfold psum in *; cbn [csum] in *; [cbn [pic]; ring|]. rewrite IH. cbn [pic]. unfold cint. rewrite !RInt_point. apply C_ext; cbn; ring.
Qed.
Lemma psol_start i : (i < n)%nat -> psol c i = u i.
Proof.
  intros Hi. assert (H : forall N, (Cmod (psol c i - u i)%C <= 2 * (V * exp (lam * Rabs (c - c))) * (/ 2) ^ N)%R).
  { intros N. assert (X := psol_near (S N) c i Hi). unfold vsub in X. rewrite psum_start in X. cbn [pow] in X. lra. }
  assert (E : Cmod (psol c i - u i) = 0%R) by (apply half_pow_0 with (2 * (V * exp (lam * Rabs (c - c))))%R; intros N; rewrite Rabs_pos_eq by apply Cmod_ge_0; apply H).
  apply Cmod_eq_0 in E. replace (psol c i) with (psol c i - u i + u i) by ring. rewrite E. ring.
Qed.
End Picard.

Lemma ode_exists n (A : R -> mat) K c (u : nat -> C) : (0 < n)%nat -> (0 < K)%R -> (forall i j, (i < n)%nat -> (j < n)%nat -> ccont (fun z => A z i j)) -> (forall z, bounded_by n (A z) K) ->
  exists y : R -> nat -> C, (forall z i, (i < n)%nat -> cder (fun x => y x i) z (mvec n (A z) (y z) i)) /\ (forall i, (i < n)%nat -> y c i = u i).
Proof.
  intros N0 K0 AC AK. destruct (row_bound n u) as (V & V0 & UV). exists (psol n A c u). split.
  - intros z i Hi. now apply (psol_der n A K c u N0 K0 AC AK V UV).
  - intros i Hi. now apply (psol_start n A K c u N0 K0 AC AK V UV).
Qed.

(** ** The exponential of a small matrix *)
Definition exp_bound (n : nat) (K D : R) : R := sqrt (INR n * exp (2 * INR n * K * D)).
Lemma mexpt_bound n A K D t : (0 < n)%nat -> (0 <= K)%R -> bounded_by n A K -> (0 <= t <= D)%R -> bounded_by n (mexpt n A t) (exp_bound n K D).
Proof.
  intros N0 K0 HA Ht i j Hi Hj. assert (NN := pos_INR n). assert (X0 := exp_pos (2 * INR n * K * D)).
  assert (G := grow_fwd n (fun _ => A) (fun x k => mexpt n A x k j) 0 t K K0 ltac:(lra) (fun _ _ => HA) (fun z k _ Hk => mexpt_der n A z k j Hk Hj)).
  assert (I : (nsq n (fun k => mexpt n A 0 k j) <= INR n * 1 ^ 2)%R).
  { apply nsq_le. intros k Hk. rewrite (mexpt_0 n A k j Hk Hj). unfold mid. destruct (Nat.eqb k j); [rewrite Cmod_1|rewrite Cmod_0]; lra. }
  apply (nsq_vle n (fun k => mexpt n A t k j) (exp_bound n K D)); [apply sqrt_pos| |exact Hi]. unfold exp_bound. rewrite pow2_sqrt by (apply Rmult_le_pos; lra).
  eapply Rle_trans; [exact G|]. apply Rmult_le_compat; [apply nsq_nonneg|left; apply exp_pos|lra|].
  assert (T : (2 * INR n * K * (t - 0) <= 2 * INR n * K * D)%R) by (apply Rmult_le_compat_l; [apply Rmult_le_pos; lra|lra]). destruct T as [T| ->]; [left; now apply exp_increasing|lra].
Qed.
Definition rem_const (n : nat) (K D : R) : R := (4 * INR n * K * (INR n * (K * exp_bound n K D)))%R.
Lemma mexpt_rem n A K D t : (0 < n)%nat -> (0 <= K)%R -> bounded_by n A K -> (0 <= t <= D)%R ->
  bounded_by n (msub (mexpt n A t) (madd mid (mscal (RtoC t) A))) (rem_const n K D * (t * t)).
Proof.
  intros N0 K0 HA Ht i j Hi Hj. assert (NN := pos_INR n). assert (EB : (0 <= exp_bound n K D)%R) by apply sqrt_pos.
  assert (Dn : forall z k, (k < n)%nat -> cder (fun x => mexpt n A x k j) z (mvec n A (fun l => mexpt n A z l j) k)) by (intros z k Hk; exact (mexpt_der n A z k j Hk Hj)).
  assert (B1 : forall z k, (0 <= z <= t)%R -> (k < n)%nat -> (Cmod (mexpt n A z k j - mexpt n A 0 k j)%C <= 2 * (INR n * (K * exp_bound n K D)) * t)%R).
  { intros z k Hz Hk. eapply Rle_trans; [apply (cder_mv (fun x => mexpt n A x k j) (fun x => mvec n A (fun l => mexpt n A x l j) k) 0 z (INR n * (K * exp_bound n K D))); [lra| |]|].
    - intros w Hw. now apply Dn.
    - intros w Hw. apply (mvec_le n A (fun l => mexpt n A w l j) K (exp_bound n K D) K0 HA); [|exact Hk]. intros l Hl. apply (mexpt_bound n A K D w N0 K0 HA ltac:(lra) l j Hl Hj).
    - apply Rmult_le_compat_l; [|lra]. apply Rmult_le_pos; [lra|]. apply Rmult_le_pos; [exact NN|]. now apply Rmult_le_pos. }
  assert (T := cder_taylor (fun x => mexpt n A x i j) (fun x => mvec n A (fun l => mexpt n A x l j) i) (mvec n A (fun l => mexpt n A 0 l j) i) 0 t (INR n * (K * (2 * (INR n * (K * exp_bound n K D)) * t))) ltac:(lra)
    (fun z _ => Dn z i Hi)).
  cbv beta in T. assert (E1 : mvec n A (fun l => mexpt n A 0 l j) i = A i j) by (rewrite <- (mmul_1_r n A i j Hi Hj); unfold mvec, mmul; apply csum_ext; intros k Hk; now rewrite (mexpt_0 n A k j Hk Hj)).
  unfold msub, madd, mscal. rewrite E1 in T. rewrite (mexpt_0 n A i j Hi Hj), Rminus_0_r in T. replace (mexpt n A t i j - (mid i j + RtoC t * A i j)) with (mexpt n A t i j - mid i j - RtoC t * A i j) by ring.
  eapply Rle_trans; [apply T|unfold rem_const; apply Req_le; ring]. intros z Hz. rewrite <- E1.
  assert (E := mvec_sub n A (fun l => mexpt n A z l j) (fun l => mexpt n A 0 l j) i Hi). unfold vsub at 2 in E. rewrite <- E.
  apply (mvec_le n A _ K _ K0 HA); [|exact Hi]. intros k Hk. unfold vsub. now apply B1.
Qed.

(** ** The transfer matrix of y' = A(z) y over [0, D], and its approximation by products *)
Definition clamp (D z : R) : R := Rmax 0 (Rmin z D).
Lemma clamp_in D z : (0 <= D)%R -> (0 <= clamp D z <= D)%R.
Proof. intros H. unfold clamp, Rmax, Rmin. destruct (Rle_dec z D); destruct (Rle_dec 0 _); lra. Qed.
Lemma clamp_id D z : (0 <= z <= D)%R -> clamp D z = z.
Proof. intros H. unfold clamp. rewrite Rmin_left, Rmax_right; lra. Qed.
Lemma clamp_lip D x z : (Rabs (clamp D x - clamp D z) <= Rabs (x - z))%R.
Proof.
  unfold clamp, Rmax, Rmin. destruct (Rle_dec x D), (Rle_dec z D); repeat match goal with |- context [Rle_dec ?a ?b] => destruct (Rle_dec a b) end;
  unfold Rabs; repeat match goal with |- context [Rcase_abs ?a] => destruct (Rcase_abs a) end; lra.
Qed.
Lemma lip_continuous (f : R -> R) L z : (forall x, (Rabs (f x - f z) <= L * Rabs (x - z))%R) -> continuous f z.
Proof.
  intros H. apply continuity_pt_filterlim. intros e E. exists (e / (Rabs L + 1))%R. assert (P := Rabs_pos L). split; [apply Rdiv_lt_0_compat; lra|].
  intros x [_ Hx]. cbn in *. unfold R_dist in *. eapply Rle_lt_trans; [apply H|]. assert (A := Rle_abs L). assert (B := Rabs_pos (x - z)).
  apply Rle_lt_trans with ((Rabs L + 1) * Rabs (x - z))%R; [nra|]. apply (Rmult_lt_compat_l (Rabs L + 1)) in Hx; [|lra]. replace ((Rabs L + 1) * (e / (Rabs L + 1)))%R with e in Hx by (field; lra). exact Hx.
Qed.
Definition unit_vec (j : nat) : nat -> C := fun i => if Nat.eqb i j then 1 else 0.
Definition tm (n : nat) (A : R -> mat) (D : R) : mat := fun i j => psol n (fun z => A (clamp D z)) D (unit_vec j) 0 i.
Definition solves (n : nat) (A : R -> mat) (D : R) (y : R -> nat -> C) : Prop := forall z i, (0 <= z <= D)%R -> (i < n)%nat -> cder (fun x => y x i) z (mvec n (A z) (y z) i).

Section Transfer.
Variables (n : nat) (A : R -> mat) (D K L : R).
Hypothesis N0 : (0 < n)%nat.
Hypothesis D0 : (0 <= D)%R.
Hypothesis K0 : (0 < K)%R.
Hypothesis L0 : (0 <= L)%R.
Hypothesis AK : forall z, (0 <= z <= D)%R -> bounded_by n (A z) K.
Hypothesis AL : forall z z', (0 <= z <= D)%R -> (0 <= z' <= D)%R -> bounded_by n (msub (A z) (A z')) (L * Rabs (z - z')).

Lemma ext_cont i j : (i < n)%nat -> (j < n)%nat -> ccont (fun z => A (clamp D z) i j).
Proof.
  intros Hi Hj z. assert (H : forall x, (Cmod (A (clamp D x) i j - A (clamp D z) i j)%C <= L * Rabs (x - z))%R).
  { intros x. eapply Rle_trans; [apply (AL (clamp D x) (clamp D z)); auto using clamp_in|]. apply Rmult_le_compat_l; [exact L0|apply clamp_lip]. }
  split; apply (lip_continuous _ L); intros x; (eapply Rle_trans; [|apply H]); [apply (fst_le_Cmod (A (clamp D x) i j - A (clamp D z) i j))|apply (snd_le_Cmod (A (clamp D x) i j - A (clamp D z) i j))].
Qed.
Lemma ext_bound z : bounded_by n (A (clamp D z)) K.
Proof. apply AK. now apply clamp_in. Qed.
Lemma solves_from v : exists y, solves n A D y /\ veq n (y D) v.
Proof.
  destruct (ode_exists n (fun z => A (clamp D z)) K D v N0 K0 ext_cont ext_bound) as (y & Y1 & Y2). exists y. split; [|intros i Hi; now apply Y2].
  intros z i Hz Hi. assert (E := Y1 z i Hi). cbv beta in E. rewrite clamp_id in E by exact Hz. exact E.
Qed.
Lemma solves_col j : (j < n)%nat -> exists y, solves n A D y /\ veq n (y D) (unit_vec j) /\ forall i, (i < n)%nat -> y 0%R i = tm n A D i j.
Proof.
  intros Hj. destruct (row_bound n (unit_vec j)) as (V & V0 & UV). exists (psol n (fun z => A (clamp D z)) D (unit_vec j)). split; [|split; [|reflexivity]].
  - intros z i Hz Hi. assert (E := psol_der n _ K D (unit_vec j) N0 K0 ext_cont ext_bound V UV z i Hi). cbv beta in E. rewrite clamp_id in E by exact Hz. exact E.
  - intros i Hi. apply (psol_start n _ K D (unit_vec j) N0 K0 ext_cont ext_bound V UV i Hi).
Qed.
Lemma solves_zero y : solves n A D y -> veq n (y D) (fun _ => RtoC 0) -> veq n (y 0%R) (fun _ => RtoC 0).
Proof.
  intros Y E i Hi. apply (nsq_0 n (y 0%R)); [|exact Hi]. eapply Rle_trans; [apply (grow_bwd n A y 0 D K ltac:(lra) D0 AK (fun z k Hz Hk => Y z k Hz Hk))|].
  replace (nsq n (y D)) with 0%R; [lra|]. unfold nsq. rewrite (rsum_ext n _ (fun _ => 0%R)), rsum_const; [ring|]. intros k Hk. rewrite (E k Hk), Cmod_0. ring.
Qed.
Lemma solves_vsub y w : solves n A D y -> solves n A D w -> solves n A D (fun z => vsub (y z) (w z)).
Proof. intros Y W z i Hz Hi. rewrite (mvec_sub n _ _ _ i Hi). unfold vsub. apply cder_minus; [now apply Y|now apply W]. Qed.
Lemma solves_unique y w : solves n A D y -> solves n A D w -> veq n (y D) (w D) -> veq n (y 0%R) (w 0%R).
Proof.
  intros Y W E i Hi. assert (Z := solves_zero _ (solves_vsub y w Y W) ltac:(intros k Hk; unfold vsub; rewrite (E k Hk); ring) i Hi). unfold vsub in Z.
  replace (y 0%R i) with (y 0%R i - w 0%R i + w 0%R i) by ring. rewrite Z. ring.
Qed.
(** A linear combination of the columns *)
Lemma solves_comb m (f : nat -> R -> nat -> C) (a : nat -> C) : (forall j, (j < m)%nat -> solves n A D (f j)) -> solves n A D (fun z i => csum m (fun j => f j z i * a j)).
Proof.
  intros H z i Hz Hi. eapply cder_eq; [apply (cder_csum m (fun j x => f j x i * a j) z (fun j => mvec n (A z) (f j z) i * a j))|].
  - intros j Hj. eapply cder_eq; [apply (cder_mult (fun x => f j x i) (fun _ => a j)); [apply (H j Hj z i Hz Hi)|apply cder_const]|]. cbv beta. ring.
  - unfold mvec. transitivity (csum m (fun j => csum n (fun k => A z i k * f j z k * a j))).
    + apply csum_ext. intros j Hj. now rewrite csum_mult_r.
    + rewrite csum_swap. apply csum_ext. intros k Hk. rewrite <- csum_mult_l. apply csum_ext. intros j Hj. ring.
Qed.
Lemma tm_solves y : solves n A D y -> veq n (y 0%R) (mvec n (tm n A D) (y D)).
Proof.
  intros Y. set (cols := fun j => psol n (fun z => A (clamp D z)) D (unit_vec j)).
  assert (CS : forall j, (j < n)%nat -> solves n A D (cols j) /\ veq n (cols j D) (unit_vec j)).
  { intros j Hj. destruct (row_bound n (unit_vec j)) as (V & V0 & UV). split.
    - intros z i Hz Hi. assert (E := psol_der n _ K D (unit_vec j) N0 K0 ext_cont ext_bound V UV z i Hi). cbv beta in E. rewrite clamp_id in E by exact Hz. exact E.
    - intros i Hi. apply (psol_start n _ K D (unit_vec j) N0 K0 ext_cont ext_bound V UV i Hi). }
  assert (U := solves_unique y _ Y (solves_comb n cols (y D) (fun j Hj => proj1 (CS j Hj)))). intros i Hi. rewrite U; [reflexivity| |exact Hi].
  intros k Hk. rewrite (csum_single n _ k Hk).
  - rewrite (proj2 (CS k Hk) k Hk). unfold unit_vec. rewrite Nat.eqb_refl. ring.
  - intros j Hj Ne. rewrite (proj2 (CS j Hj) k Hk). unfold unit_vec. destruct (Nat.eqb_spec k j); [congruence|ring].
Qed.

(** Products of N matrices that agree with 1 - h A up to h^2 converge to the transfer matrix *)
Lemma tm_converges R0 : (0 <= R0)%R -> exists E, (0 <= E)%R /\ forall N (P : nat -> mat) (m : nat -> R), (0 < N)%nat -> let h := (D / INR N)%R in
  (forall j, (j < N)%nat -> (INR j * h <= m j <= (INR j + 1) * h)%R) ->
  (forall j, (j < N)%nat -> bounded_by n (msub (P j) (madd mid (mscal (RtoC (- h)) (A (m j))))) (R0 * (h * h))) ->
  bounded_by n (msub (mprod n (map P (seq 0 N))) (tm n A D)) (E / INR N).
Proof.
  intros R00. set (M := exp_bound n K D). set (Q := (INR n * (K + R0 * D))%R). set (S0 := (step_const n K L M + INR n * (R0 * M))%R).
  assert (NN := pos_INR n). assert (M0 : (0 <= M)%R) by apply sqrt_pos.
  assert (SC : (0 <= step_const n K L M)%R).
  { unfold step_const. assert (0 <= L * M)%R by now apply Rmult_le_pos. assert (0 <= K * M)%R by (apply Rmult_le_pos; lra). apply Rplus_le_le_0_compat; repeat apply Rmult_le_pos; lra. }
  assert (S1 : (0 <= S0)%R) by (unfold S0; apply Rplus_le_le_0_compat; [exact SC|repeat apply Rmult_le_pos; lra]).
  assert (Q0 : (0 <= Q)%R) by (unfold Q; assert (0 <= R0 * D)%R by (apply Rmult_le_pos; lra); apply Rmult_le_pos; lra).
  exists (exp (Q * D) * (S0 * (D * D)))%R. split; [apply Rmult_le_pos; [left; apply exp_pos|]; apply Rmult_le_pos; [exact S1|nra]|].
  intros N P m HN h Hm HP. assert (NP : (0 < INR N)%R) by (apply lt_0_INR; exact HN). assert (N1 : (1 <= INR N)%R) by (apply (le_INR 1); lia).
  assert (h0 : (0 <= h)%R) by (unfold h; apply Rdiv_le_0_compat; lra). assert (hN : (INR N * h = D)%R) by (unfold h; field; lra).
  assert (hD : (h <= D)%R) by (rewrite <- hN; nra). assert (hE : h = (D / INR N)%R) by reflexivity. clearbody h.
  assert (NODE : forall j, (j <= N)%nat -> (0 <= INR j * h <= D)%R).
  { intros j Hj. split; [apply Rmult_le_pos; [apply pos_INR|exact h0]|]. rewrite <- hN. apply Rmult_le_compat_r; [exact h0|now apply le_INR]. }
  assert (MIDP : forall j, (j < N)%nat -> (0 <= m j <= D)%R).
  { intros j Hj. destruct (Hm j Hj) as [H1 H2]. assert (A1 := NODE j ltac:(lia)). assert (A2 := NODE (S j) ltac:(lia)). rewrite S_INR in A2. lra. }
  (* P v = v - h A v + small *)
  assert (PV : forall j v i, (j < N)%nat -> (i < n)%nat -> mvec n (P j) v i = v i - RtoC h * mvec n (A (m j)) v i + mvec n (msub (P j) (madd mid (mscal (RtoC (- h)) (A (m j))))) v i).
  { intros j v i Hj Hi. rewrite (mvec_msub n _ _ v i Hi). unfold vsub.
    assert (E : mvec n (madd mid (mscal (RtoC (- h)) (A (m j)))) v i = v i - RtoC h * mvec n (A (m j)) v i).
    { unfold mvec, madd, mscal. transitivity (csum n (fun k => mid i k * v k + - RtoC h * (A (m j) i k * v k))); [apply csum_ext; intros k Hk; rewrite RtoC_opp; ring|].
      rewrite csum_plus, csum_mult_l. rewrite (csum_single n (fun k => mid i k * v k) i Hi); [unfold mid; rewrite Nat.eqb_refl; ring|]. intros k Hk Ne. unfold mid. destruct (Nat.eqb_spec i k); [congruence|ring]. }
    rewrite E. ring. }
  intros i j Hi Hj. destruct (solves_col j Hj) as (y & Y & YD & Y0).
  assert (YM : forall z, (0 <= z <= D)%R -> vle n (y z) M).
  { intros z Hz. apply nsq_vle; [exact M0|]. eapply Rle_trans; [apply (grow_bwd n A y z D K ltac:(lra) ltac:(lra) (fun w Hw => AK w ltac:(lra)) (fun w k Hw Hk => Y w k ltac:(lra) Hk))|].
    unfold M, exp_bound. rewrite pow2_sqrt by (apply Rmult_le_pos; [lra|left; apply exp_pos]). apply Rmult_le_compat; [apply nsq_nonneg|left; apply exp_pos| |].
    - eapply Rle_trans; [apply (nsq_le n _ 1)|lra]. intros k Hk. rewrite (YD k Hk). unfold unit_vec. destruct (Nat.eqb k j); [rewrite Cmod_1|rewrite Cmod_0]; lra.
    - assert (T : (2 * INR n * K * (D - z) <= 2 * INR n * K * D)%R) by (apply Rmult_le_compat_l; [apply Rmult_le_pos; lra|lra]). destruct T as [T| ->]; [left; now apply exp_increasing|lra]. }
  assert (QH : (0 <= Q * h)%R) by now apply Rmult_le_pos.
  assert (X := prod_error n P (fun k => y (INR k * h)%R) (1 + Q * h) (S0 * (h * h)) N 0 N0 ltac:(lra)). cbv beta in X.
  assert (X' : vle n (vsub (y (INR 0 * h)%R) (mvec n (mprod n (map P (seq 0 N))) (y (INR (0 + N) * h)%R))) (INR N * ((1 + Q * h) ^ N * (S0 * (h * h))))).
  { apply X; clear X.
    - intros k v V Hk Hv p Hp. assert (V0 := vle_nonneg n v V N0 Hv). rewrite (PV k v p ltac:(lia) Hp).
      assert (B1 := mvec_le n (A (m k)) v K V ltac:(lra) (AK _ (MIDP k ltac:(lia))) Hv p Hp).
      assert (B2 := mvec_le n _ v (R0 * (h * h)) V ltac:(apply Rmult_le_pos; nra) (HP k ltac:(lia)) Hv p Hp).
      eapply Rle_trans; [apply Cmod_triangle|]. eapply Rle_trans; [apply Rplus_le_compat; [unfold Cminus; apply Cmod_triangle|exact B2]|]. rewrite Cmod_opp, Cmod_mult, Cmod_R, (Rabs_pos_eq h) by exact h0.
      assert (B3 := Hv p Hp). assert (B4 : (h * Cmod (mvec n (A (m k)) v p) <= h * (INR n * (K * V)))%R) by (apply Rmult_le_compat_l; lra).
      assert (B5 : (INR n * (R0 * (h * h) * V) <= INR n * (R0 * D) * h * V)%R).
      { replace (INR n * (R0 * (h * h) * V))%R with ((INR n * R0 * h * V) * h)%R by ring. replace (INR n * (R0 * D) * h * V)%R with ((INR n * R0 * h * V) * D)%R by ring.
        apply Rmult_le_compat_l; [|exact hD]. repeat apply Rmult_le_pos; lra. }
      unfold Q. lra.
    - intros k Hk p Hp. assert (J1 := NODE k ltac:(lia)). assert (J2 := NODE (S k) ltac:(lia)). rewrite S_INR in J2. rewrite S_INR.
      assert (H1 := step_error n A y D K L M N0 ltac:(lra) L0 AK AL Y YM (INR k * h) ((INR k + 1) * h) (m k) ltac:(lra) (Hm k ltac:(lia)) ltac:(lra) p Hp).
      replace ((INR k + 1) * h - INR k * h)%R with h in H1 by ring.
      assert (B2 := mvec_le n _ (y ((INR k + 1) * h)%R) (R0 * (h * h)) M ltac:(apply Rmult_le_pos; nra) (HP k ltac:(lia)) (YM _ J2) p Hp).
      unfold vsub in *. rewrite (PV k _ p ltac:(lia) Hp).
      match goal with |- (Cmod (?a - (?b - ?c + ?d))%C <= _)%R => replace (a - (b - c + d)) with ((a - (b - c)) + - d) by ring end.
      eapply Rle_trans; [apply Cmod_triangle|]. rewrite Cmod_opp. unfold S0. clear - H1 B2. lra. }
  specialize (X' i Hi). unfold vsub in X'. cbn [INR plus] in X'. rewrite Nat.add_0_l, hN, Rmult_0_l in X'. rewrite (Y0 i Hi) in X'.
  assert (E : mvec n (mprod n (map P (seq 0 N))) (y D) i = mprod n (map P (seq 0 N)) i j).
  { unfold mvec. rewrite (csum_single n _ j Hj).
    - rewrite (YD j Hj). unfold unit_vec. rewrite Nat.eqb_refl. ring.
    - intros k Hk Ne. rewrite (YD k Hk). unfold unit_vec. destruct (Nat.eqb_spec k j); [congruence|ring]. }
  rewrite E in X'. unfold msub. rewrite Cmod_minus_sym. eapply Rle_trans; [exact X'|].
  assert (PW := pow_exp (Q * h) N QH). replace (INR N * (Q * h))%R with (Q * D)%R in PW by (rewrite <- hN; ring).
  replace (exp (Q * D) * (S0 * (D * D)) / INR N)%R with (INR N * (exp (Q * D) * (S0 * (h * h))))%R by (rewrite hE; field; lra).
  apply Rmult_le_compat_l; [lra|]. apply Rmult_le_compat_r; [apply Rmult_le_pos; nra|exact PW].
Qed.
End Transfer.
