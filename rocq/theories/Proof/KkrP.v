(** Lemmas about Model/Kkr.v *)
From Coq Require Import Reals Lra Psatz Lia List Arith.
From Verif.Base Require Import Py.
From Verif.Model Require Import Units Kkr.
From Verif.Spec Require Import KK.
From Verif.Proof Require Import UnitsP.
Import ListNotations.
Open Scope R_scope.
Open Scope py_scope.

(** Slices by index *)
Lemma list_ind2 {A} (P : list A -> Prop) : P [] -> (forall x, P [x]) -> (forall x y l, P l -> P (x :: y :: l)) -> forall l, P l.
Proof.
  intros H0 H1 H2 l. assert (K : P l /\ forall x, P (x :: l)).
  { induction l as [|a l [IH1 IH2]]; [split; auto|]. split; [apply IH2|]. intros x. apply H2, IH1. }
  apply K.
Qed.
Lemma evens_length {A} (l : list A) : length (evens l) = ((length l + 1) / 2)%nat.
Proof.
  induction l as [|x|x y l IH] using list_ind2; [reflexivity|reflexivity|]. cbn [evens length]. rewrite IH.
  replace (S (S (length l)) + 1)%nat with (1 * 2 + (length l + 1))%nat by lia. rewrite Nat.div_add_l by lia. lia.
Qed.
Lemma evens_nth {A} (l : list A) d k : nth k (evens l) d = nth (2 * k) l d.
Proof.
  revert k. induction l as [|x|x y l IH] using list_ind2; intros k.
  - destruct k; reflexivity.
  - destruct k; [reflexivity|]. cbn [evens]. replace (2 * S k)%nat with (S (S (2 * k))) by lia. cbn [nth]. destruct k; reflexivity.
  - destruct k; [reflexivity|]. cbn [evens]. replace (2 * S k)%nat with (S (S (2 * k))) by lia. cbn [nth]. apply IH.
Qed.
Lemma odds_nth {A} (l : list A) d k : nth k (odds l) d = nth (2 * k + 1) l d.
Proof. unfold odds. rewrite evens_nth. destruct l; [destruct (2 * k)%nat, (2 * k + 1)%nat; reflexivity|]. cbn [tl]. rewrite Nat.add_1_r. reflexivity. Qed.
Lemma odds_length {A} (l : list A) : length (odds l) = (length l / 2)%nat.
Proof. unfold odds. rewrite evens_length. destruct l; [reflexivity|]. cbn [tl length]. now rewrite Nat.add_1_r. Qed.

Lemma weave_nil {A} (e : list A) : weave e [] = e.
Proof. destruct e; reflexivity. Qed.
Lemma weave_nth_even {A} (e o : list A) d k : (k < length e)%nat -> (k <= length o)%nat -> nth (2 * k) (weave e o) d = nth k e d.
Proof.
  revert o k. induction e as [|x e IH]; intros o k H H'; [simpl in H; lia|]. destruct o as [|y o].
  - simpl in H'. replace k with 0%nat by lia. reflexivity.
  - destruct k; [reflexivity|]. replace (2 * S k)%nat with (S (S (2 * k))) by lia. cbn [weave nth]. apply IH; simpl in *; lia.
Qed.
Lemma weave_nth_odd {A} (e o : list A) d k : (k < length o)%nat -> (k < length e)%nat -> nth (2 * k + 1) (weave e o) d = nth k o d.
Proof.
  revert o k. induction e as [|x e IH]; intros o k H H'; [simpl in H'; lia|]. destruct o as [|y o]; [simpl in H; lia|].
  destruct k; [reflexivity|]. replace (2 * S k + 1)%nat with (S (S (2 * k + 1))) by lia. cbn [weave nth]. apply IH; simpl in *; lia.
Qed.
Lemma weave_length {A} (e o : list A) : length (weave e o) = (length e + length o)%nat.
Proof. revert o. induction e as [|x e IH]; intros [|y o]; cbn [weave length]; try reflexivity; [lia|]. rewrite IH. lia. Qed.

(** np.diff *)
Lemma np_diff_length p x : length (np_diff p x) = length x.
Proof. revert p. induction x; intros p; cbn [np_diff length]; [reflexivity|]. now rewrite IHx. Qed.
Lemma np_diff_nth p x i : (i < length x)%nat ->
  nth i (np_diff p x) 0 = nth i x 0 - match i with O => p | S i' => nth i' x 0 end.
Proof.
  revert p i. induction x as [|a x IH]; intros p i H; [simpl in H; lia|]. destruct i; [reflexivity|]. cbn [np_diff nth].
  rewrite IH by (simpl in H; lia). destruct i; reflexivity.
Qed.

(** Sums *)
Lemma np_sum_some (f : nat -> option R) l : (forall j, In j l -> f j <> None) ->
  exists g, (forall j, In j l -> f j = Some (g j)) /\ np_sum (map f l) = Some (rsum g l).
Proof.
  intros H. exists (fun j => match f j with Some v => v | None => 0 end). split.
  - intros j Hj. specialize (H j Hj). destruct (f j); [reflexivity|contradiction].
  - induction l as [|a l IH]; [reflexivity|]. cbn [map np_sum rsum fold_right].
    destruct (f a) as [v|] eqn:E; [|exfalso; apply (H a); [now left|exact E]]. cbn [obind].
    rewrite IH by (intros j Hj; apply H; now right). reflexivity.
Qed.
Lemma np_sum_none (f : nat -> option R) l j : In j l -> f j = None -> np_sum (map f l) = None.
Proof.
  intros H E. induction l as [|a l IH]; [destruct H|]. cbn [map np_sum]. destruct H as [->|H].
  - now rewrite E.
  - destruct (f a); [|reflexivity]. cbn [obind]. now rewrite IH.
Qed.

(** The indices of the two slices *)
Fixpoint steps (a n : nat) : list nat := match n with O => [] | S n' => a :: steps (a + 2) n' end.
Lemma steps_nth a n k d : (k < n)%nat -> nth k (steps a n) d = (a + 2 * k)%nat.
Proof. revert a k. induction n as [|n IH]; intros a k H; [lia|]. destruct k; cbn [steps nth]; [lia|]. rewrite IH by lia. lia. Qed.
Lemma steps_length a n : length (steps a n) = n.
Proof. revert a. induction n; intros a; cbn [steps length]; [reflexivity|]. now rewrite IHn. Qed.

Lemma odd_SS k : Nat.odd (S (S k)) = Nat.odd k.
Proof. rewrite Nat.odd_succ, Nat.even_succ. reflexivity. Qed.
Lemma filter_par (b : bool) a n : Nat.odd a = b -> filter (fun j => Bool.eqb (Nat.odd j) b) (seq a n) = steps a ((n + 1) / 2).
Proof.
  revert a. induction n as [n IH] using lt_wf_ind. intros a Ha. destruct n as [|[|n]].
  - reflexivity.
  - cbn [seq filter]. rewrite Ha, Bool.eqb_reflx. reflexivity.
  - cbn [seq filter]. rewrite Ha, Bool.eqb_reflx. rewrite Nat.odd_succ, <- Nat.negb_odd, Ha.
    replace (Bool.eqb (negb b) b) with false by now destruct b. rewrite IH; [|lia|now rewrite odd_SS].
    replace (S (S n) + 1)%nat with (1 * 2 + (n + 1))%nat by lia. rewrite Nat.div_add_l by lia. cbn [steps Nat.add]. f_equal. f_equal. lia.
Qed.
Lemma opposite_even n i : Nat.odd i = false -> opposite n i = steps 1 (n / 2).
Proof.
  intros H. unfold opposite. transitivity (filter (fun j => Bool.eqb (Nat.odd j) true) (seq 0 n)).
  - apply filter_ext. intros j. rewrite Nat.odd_add, H. destruct (Nat.odd j); reflexivity.
  - destruct n; [reflexivity|]. cbn [seq filter]. change (Nat.odd 0) with false. cbn [Bool.eqb]. rewrite filter_par by reflexivity. now rewrite Nat.add_1_r.
Qed.
Lemma opposite_odd n i : Nat.odd i = true -> opposite n i = steps 0 ((n + 1) / 2).
Proof.
  intros H. unfold opposite. transitivity (filter (fun j => Bool.eqb (Nat.odd j) false) (seq 0 n)).
  - apply filter_ext. intros j. rewrite Nat.odd_add, H. destruct (Nat.odd j); reflexivity.
  - now apply filter_par.
Qed.
Lemma opposite_In n i j : In j (opposite n i) <-> (j < n)%nat /\ Nat.odd (i + j) = true.
Proof. unfold opposite. rewrite filter_In, in_seq. intuition lia. Qed.

Lemma combine_slice (t x : list R) (term : R -> R -> R -> option R) (a : R) (s : nat) (m : nat) (st sx : list R) :
  length st = m -> length sx = m ->
  (forall k, (k < m)%nat -> nth k st 0 = nth (s + 2 * k) t 0 /\ nth k sx 0 = nth (s + 2 * k) x 0) ->
  map (fun '(y, b) => term y b a) (combine st sx) =
  map (fun j => term (nth j t 0) (nth j x 0) a) (steps s m).
Proof.
  intros L1 L2 H. apply nth_ext with (d := term 0 0 a) (d' := term (nth 0 t 0) (nth 0 x 0) a).
  - rewrite !map_length, combine_length, steps_length. lia.
  - intros k Hk. rewrite map_length, combine_length in Hk. assert (Hk' : (k < m)%nat) by lia.
    rewrite (map_nth (fun '(y, b) => term y b a) (combine st sx) (0, 0)), combine_nth by congruence.
    rewrite (map_nth (fun j => term (nth j t 0) (nth j x 0) a) (steps s m) 0%nat), steps_nth by exact Hk'.
    destruct (H k Hk') as [-> ->]. reflexivity.
Qed.

(** The sum of one output point *)
Definition point (term : R -> R -> R -> option R) (t x : list R) (i : nat) : option R :=
  np_sum (map (fun j => term (nth j t 0) (nth j x 0) (nth i x 0)) (opposite (length x) i)).
(** the interval that belongs to it *)
Definition weight (x : list R) (i : nat) : R :=
  nth i x 0 - match i with O => nth 1 x 0 - nth 0 x 0 | S i' => nth i' x 0 end.

Lemma calc_kkr_some (t x : list R) term : length t = length x -> (2 <= length x)%nat ->
  exists out, calc_kkr t x term = Ok out /\ length out = length x /\
  forall i, (i < length x)%nat -> nth i out None = (let? v := point term t x i in Some (4 / PI * weight x i * v)).
Proof.
  intros L N. unfold calc_kkr. rewrite L, Nat.eqb_refl. cbn [negb].
  destruct x as [|x0 [|x1 xs]] eqn:Ex; [simpl in N; lia|simpl in N; lia|]. rewrite <- Ex in *. clear N.
  assert (N : (2 <= length x)%nat) by (rewrite Ex; simpl; lia).
  assert (P : x1 - x0 = nth 1 x 0 - nth 0 x 0) by (rewrite Ex; reflexivity). clear Ex. rewrite P. clear P xs x0 x1.
  eexists. split; [reflexivity|].
  set (E := integrate term (odds t) (odds x) (evens x)). set (O := integrate term (evens t) (evens x) (odds x)).
  assert (LE : length E = ((length x + 1) / 2)%nat) by (unfold E, integrate; now rewrite map_length, evens_length).
  assert (LO : length O = (length x / 2)%nat) by (unfold O, integrate; now rewrite map_length, odds_length).
  assert (H2 : ((length x + 1) / 2 + length x / 2 = length x)%nat).
  { assert (A := Nat.div_mod (length x) 2 ltac:(lia)). assert (B := Nat.div_mod (length x + 1) 2 ltac:(lia)).
    assert (C1 := Nat.mod_upper_bound (length x) 2 ltac:(lia)). assert (C2 := Nat.mod_upper_bound (length x + 1) 2 ltac:(lia)). lia. }
  assert (LW : length (weave E O) = length x) by (rewrite weave_length, LE, LO; exact H2).
  split; [rewrite map_length, combine_length, np_diff_length, LW; lia|].
  intros i Hi.
  set (f := fun '(w, s) => let? v := s in Some (4 / PI * w * v)).
  change None with (f (0, None)) at 1.
  rewrite map_nth, combine_nth by (rewrite np_diff_length, LW; reflexivity). unfold f. clear f.
  rewrite np_diff_nth by exact Hi. fold (weight x i).
  assert (W : nth i (weave E O) None = point term t x i); [|now rewrite W].
  assert (D := Nat.div_mod i 2 ltac:(lia)). assert (U := Nat.mod_upper_bound i 2 ltac:(lia)).
  set (k := (i / 2)%nat) in *. set (r := (i mod 2)%nat) in *. clearbody k r.
  assert (KE : forall j, (j < (length x + 1) / 2)%nat <-> (2 * j < length x)%nat).
  { intros j. assert (B := Nat.div_mod (length x + 1) 2 ltac:(lia)). assert (C2 := Nat.mod_upper_bound (length x + 1) 2 ltac:(lia)). lia. }
  assert (KO : forall j, (j < length x / 2)%nat <-> (2 * j + 1 < length x)%nat).
  { intros j. assert (B := Nat.div_mod (length x) 2 ltac:(lia)). assert (C2 := Nat.mod_upper_bound (length x) 2 ltac:(lia)). lia. }
  unfold point. destruct r as [|[|]]; [| |lia].
  - replace i with (2 * k)%nat in * by lia. rewrite weave_nth_even; [|rewrite LE; apply KE; lia|].
    2:{ rewrite LO. assert (B := Nat.div_mod (length x) 2 ltac:(lia)). assert (C2 := Nat.mod_upper_bound (length x) 2 ltac:(lia)). lia. }
    rewrite opposite_even by (rewrite Nat.odd_mul; reflexivity).
    unfold E, integrate. rewrite (nth_indep _ None (np_sum (map (fun '(y, b) => term y b 0) (combine (odds t) (odds x))))) by (rewrite map_length, evens_length; apply KE; lia).
    rewrite (map_nth (fun a => np_sum (map (fun '(y, b) => term y b a) (combine (odds t) (odds x))))), evens_nth.
    rewrite (combine_slice t x term _ 1 (length x / 2)); [reflexivity|rewrite odds_length; congruence|apply odds_length|].
    intros j _. rewrite !odds_nth, Nat.add_comm. split; reflexivity.
  - replace i with (2 * k + 1)%nat in * by lia. rewrite weave_nth_odd; [|rewrite LO; apply KO; lia|rewrite LE; apply KE; lia].
    rewrite opposite_odd by (rewrite Nat.odd_add, Nat.odd_mul; reflexivity).
    unfold O, integrate. rewrite (nth_indep _ None (np_sum (map (fun '(y, b) => term y b 0) (combine (evens t) (evens x))))) by (rewrite map_length, odds_length; apply KO; lia).
    rewrite (map_nth (fun a => np_sum (map (fun '(y, b) => term y b a) (combine (evens t) (evens x))))), odds_nth.
    rewrite (combine_slice t x term _ 0 ((length x + 1) / 2)); [reflexivity|rewrite evens_length; congruence|apply evens_length|].
    intros j _. rewrite !evens_nth. split; reflexivity.
Qed.

(** Finite sums *)
Lemma rsum_cons f a l : rsum f (a :: l) = f a + rsum f l.
Proof. reflexivity. Qed.
Lemma rsum_ext f g l : (forall j, In j l -> f j = g j) -> rsum f l = rsum g l.
Proof. intros H. induction l as [|a l IH]; [reflexivity|]. rewrite !rsum_cons. rewrite (H a (or_introl eq_refl)). f_equal. apply IH. intros j Hj. apply H. now right. Qed.
Lemma rsum_scal c f l : rsum (fun j => c * f j) l = c * rsum f l.
Proof. induction l as [|a l IH]; [unfold rsum; simpl; ring|]. rewrite !rsum_cons, IH. ring. Qed.
Lemma rsum_plus f g l : rsum (fun j => f j + g j) l = rsum f l + rsum g l.
Proof. induction l as [|a l IH]; [unfold rsum; simpl; ring|]. rewrite !rsum_cons, IH. ring. Qed.
Lemma rsum_zero l : rsum (fun _ => 0) l = 0.
Proof. induction l as [|a l IH]; [reflexivity|]. rewrite rsum_cons, IH. ring. Qed.
Lemma rsum_app f l l' : rsum f (l ++ l') = rsum f l + rsum f l'.
Proof. induction l as [|a l IH]; [unfold rsum; simpl; ring|]. cbn [app]. rewrite !rsum_cons, IH. ring. Qed.
Lemma rsum_ge0 f l : (forall j, In j l -> 0 <= f j) -> 0 <= rsum f l.
Proof.
  intros H. induction l as [|a l IH]; [unfold rsum; simpl; lra|]. rewrite rsum_cons.
  assert (0 <= f a) by (apply H; now left). assert (0 <= rsum f l) by (apply IH; intros; apply H; now right). lra.
Qed.
Lemma rsum_filter (p : nat -> bool) f l : rsum f (filter p l) = rsum (fun j => if p j then f j else 0) l.
Proof.
  induction l as [|a l IH]; [reflexivity|]. cbn [filter]. rewrite rsum_cons. destruct (p a); [rewrite rsum_cons|]; rewrite IH; ring.
Qed.
Lemma rsum_swap f l l' : rsum (fun i => rsum (fun j => f i j) l') l = rsum (fun j => rsum (fun i => f i j) l) l'.
Proof.
  induction l as [|a l IH]; [symmetry; apply rsum_zero|]. rewrite rsum_cons, IH, <- rsum_plus. apply rsum_ext. intros j _. now rewrite rsum_cons.
Qed.
Lemma rsum_map f (g : nat -> nat) l : rsum f (map g l) = rsum (fun j => f (g j)) l.
Proof. induction l as [|a l IH]; [reflexivity|]. cbn [map]. now rewrite !rsum_cons, IH. Qed.
Lemma rsum_rev n f : rsum f (seq 0 n) = rsum (fun j => f (n - 1 - j)%nat) (seq 0 n).
Proof.
  induction n as [|n IH]; [reflexivity|]. rewrite seq_S at 1. rewrite rsum_app. cbn [Nat.add].
  change (seq 0 (S n)) with (0%nat :: seq 1 n). rewrite <- seq_shift. rewrite !rsum_cons, rsum_map.
  replace (S n - 1 - 0)%nat with n by lia. rewrite IH.
  rewrite (rsum_ext (fun j => f (S n - 1 - S j)%nat) (fun j => f (n - 1 - j)%nat)) by (intros; f_equal; lia). unfold rsum at 2. cbn [fold_right]. ring.
Qed.

(** Terms *)
Lemma term_im_some y x a : x ^ 2 <> a ^ 2 -> term_im y x a = Some (g_im y x a).
Proof. intros H. unfold term_im, g_im. rewrite rdiv_nz by (intros E; apply H; lra). f_equal. replace (x ^ 2 - a ^ 2) with (x * x - a * a) by ring. f_equal. ring. Qed.
Lemma term_re_some y x a : x ^ 2 <> a ^ 2 -> term_re y x a = Some (g_re y x a).
Proof. intros H. unfold term_re, g_re. rewrite rdiv_nz by (intros E; apply H; lra). f_equal. replace (x ^ 2 - a ^ 2) with (x * x - a * a) by ring. f_equal. ring. Qed.
Lemma term_imr_some y x a : x <> 0 -> a <> 0 -> x ^ 2 <> a ^ 2 -> term_im_reciprocal y x a = Some (g_im_reciprocal y x a).
Proof.
  intros Hx Ha H. unfold term_im_reciprocal, g_im_reciprocal, g_im. destruct (Req_EM_T a 0); [contradiction|].
  assert (D : a * a - x * x <> 0) by (intros E; apply H; lra).
  rewrite rdiv_nz.
  - f_equal. field. repeat split; try assumption; intros E; apply D; lra.
  - intros E. apply D. apply Rmult_integral in E. destruct E as [E|E]; [contradiction|].
    transitivity (a * a * (1 - x * x / (a * a))); [field; assumption|]. rewrite E. ring.
Qed.
Lemma term_rer_some y x a : x <> 0 -> a <> 0 -> x ^ 2 <> a ^ 2 -> term_re_reciprocal y x a = Some (g_re_reciprocal y x a).
Proof.
  intros Hx Ha H. unfold term_re_reciprocal, g_re_reciprocal, g_re. destruct (Req_EM_T a 0); [contradiction|].
  assert (D : a * a - x * x <> 0) by (intros E; apply H; lra).
  rewrite rdiv_nz.
  - f_equal. field. repeat split; try assumption; intros E; apply D; lra.
  - intros E. apply D. transitivity (a * (a - x * x / a)); [field; assumption|]. rewrite E. ring.
Qed.

Lemma point_some term g t x i :
  (forall j, In j (opposite (length x) i) -> term (nth j t 0) (nth j x 0) (nth i x 0) = Some (g (nth j t 0) (nth j x 0) (nth i x 0))) ->
  point term t x i = Some (rsum (fun j => g (nth j t 0) (nth j x 0) (nth i x 0)) (opposite (length x) i)).
Proof.
  intros H. unfold point.
  destruct (np_sum_some (fun j => term (nth j t 0) (nth j x 0) (nth i x 0)) (opposite (length x) i)) as (v & Hv & E).
  - intros j Hj. rewrite H by exact Hj. discriminate.
  - rewrite E. f_equal. apply rsum_ext. intros j Hj. specialize (Hv j Hj). rewrite H in Hv by exact Hj. congruence.
Qed.

(** Axes *)
Lemma equi_nth x h i : equidistant x h -> (i < length x)%nat -> nth i x 0 = nth 0 x 0 + INR i * h.
Proof.
  intros H. induction i as [|i IH]; intros L; [simpl; ring|]. specialize (H i L). rewrite S_INR. specialize (IH ltac:(lia)). lra.
Qed.
Lemma opposite_neq n i j : In j (opposite n i) -> i <> j.
Proof. intros H E. apply opposite_In in H. destruct H as [_ H]. subst j. replace (i + i)%nat with (2 * i)%nat in H by lia. rewrite Nat.odd_mul in H. discriminate. Qed.
Lemma axis_sqr x h i j : equidistant x h -> 0 < h -> 0 <= nth 0 x 0 -> (i < length x)%nat -> (j < length x)%nat -> i <> j ->
  nth j x 0 ^ 2 <> nth i x 0 ^ 2.
Proof.
  intros H h0 x0 Hi Hj N E. rewrite (equi_nth x h i H Hi), (equi_nth x h j H Hj) in E.
  assert (Pi := pos_INR i). assert (Pj := pos_INR j).
  assert (A : (INR j - INR i) * h * (2 * nth 0 x 0 + (INR i + INR j) * h) = 0) by lra.
  apply Rmult_integral in A. destruct A as [A|A].
  - apply Rmult_integral in A. destruct A as [A|A]; [|lra]. apply N, INR_eq. lra.
  - assert (INR i + INR j = 0) by nra. apply N, INR_eq. lra.
Qed.
Lemma axis_pos x h i : equidistant x h -> 0 < h -> 0 < nth 0 x 0 -> (i < length x)%nat -> nth i x 0 <> 0.
Proof. intros H h0 x0 Hi. rewrite (equi_nth x h i H Hi). assert (P := pos_INR i). nra. Qed.
Lemma weight_equi x h i : equidistant x h -> (1 <= i)%nat -> (i < length x)%nat -> weight x i = h.
Proof. intros H H1 H2. destruct i; [lia|]. unfold weight. apply H. exact H2. Qed.
Lemma weight_0 x h : equidistant x h -> (2 <= length x)%nat -> weight x 0 = nth 0 x 0 - h.
Proof. intros H L. unfold weight. f_equal. apply (H 0%nat). lia. Qed.
