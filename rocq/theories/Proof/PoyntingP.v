(** Poynting's theorem for the fields of Spec/Maxwell.v *)
From Coq Require Import Reals Lra Psatz Lia.
From Coquelicot Require Import Coquelicot.
From Coq Require Import List.
From Verif.Base Require Import Cx Mat Mexp.
From Verif.Spec Require Import Maxwell Tensor.
Import ListNotations.
Open Scope R_scope.
Open Scope C_scope.

Definition flux4 (v : nat -> C) : R := (Re (v 0%nat * Cconj (v 3%nat))%C - Re (v 1%nat * Cconj (v 2%nat))%C)%R.
Lemma flux4_veq u v : veq 4 u v -> flux4 u = flux4 v.
Proof. intros E. unfold flux4. now rewrite !E by lia. Qed.

Definition electric (F : field) (z : R) : nat -> C := vec_of [Ex F z; Ey F z; Ez F z].

Lemma poynting_at (k kx : R) eps F z : (k <> 0)%R -> maxwell_at k (RtoC kx) eps F z ->
  is_derive (fun z => flux4 (tangential F z)) z (- k * dissipation eps (electric F z))%R.
Proof.
  intros K M. destruct M as (H1 & H2 & H3 & H4 & H5 & H6).
  assert (IK : Ci * RtoC k <> 0).
  { intros E. apply C_integral in E. destruct E as [E|E]; [now apply Ci_neq0 in E|apply RtoC_inj in E; contradiction]. }
  assert (Z : Hz F z = RtoC kx * Ey F z).
  { apply (Cmult_cancel (Ci * RtoC k)); [exact IK|]. rewrite <- H3. ring. }
  assert (D2 : RtoC kx * Hy F z = - displacement eps F 2 z).
  { apply (Cmult_cancel (Ci * RtoC k)); [exact IK|]. transitivity (Ci * RtoC k * RtoC kx * Hy F z); [ring|]. rewrite H6. ring. }
  assert (G := cder_minus _ _ _ _ _ (cder_mult _ _ _ _ _ H2 (cder_conj _ _ _ H4)) (cder_mult _ _ _ _ _ H1 (cder_conj _ _ _ H5))).
  destruct G as [G _]. cbv beta in G.
  assert (E : dissipation eps (electric F z) = Im (csum 3 (fun i => Cconj (electric F z i) * displacement eps F i z))%C).
  { unfold dissipation. f_equal. unfold csum, mvec, csum, electric, vec_of, displacement. cbn [nth]. ring. }
  rewrite E. clear E H1 H2 H3 H4 H5 H6. rewrite Z in G. clear Z.
  set (d0 := displacement eps F 0 z) in *. set (d1 := displacement eps F 1 z) in *. set (d2 := displacement eps F 2 z) in *.
  assert (V : fst ((Ci * RtoC k * RtoC kx * Ez F z + Ci * RtoC k * Hy F z) * Cconj (Hy F z) + Ex F z * Cconj (Ci * RtoC k * d0) -
      (- (Ci * RtoC k * Hx F z) * Cconj (Hx F z) + Ey F z * Cconj (Ci * RtoC k * RtoC kx * (RtoC kx * Ey F z) - Ci * RtoC k * d1)))
    = (- k * Im (csum 3 (fun i => Cconj (electric F z i) * displacement eps F i z))%C)%R).
  { unfold csum, electric, vec_of. cbn [nth]. fold d0 d1 d2.
    assert (D2' : d2 = - (RtoC kx * Hy F z)) by (rewrite D2; ring). rewrite D2'. clear.
    destruct (Ex F z) as [x x'], (Ey F z) as [y y'], (Ez F z) as [w w'], (Hx F z) as [a a'], (Hy F z) as [b b'], d0 as [p p'], d1 as [q q'].
    simpl. ring. }
  rewrite <- V. exact G.
Qed.
Lemma poynting (k kx : R) eps F z : (k <> 0)%R -> maxwell k (RtoC kx) eps F ->
  is_derive (fun z => flux4 (tangential F z)) z (- k * dissipation eps (electric F z))%R.
Proof. intros K M. apply (poynting_at k kx); [exact K|apply M]. Qed.

Lemma csum3_Im_herm eps E : hermitian eps -> dissipation eps E = 0%R.
Proof.
  intros H. unfold dissipation. set (s := csum 3 (fun i => Cconj (E i) * mvec 3 eps E i)).
  assert (Q : Cconj s = s).
  { assert (S1 : s = csum 3 (fun i => csum 3 (fun j => Cconj (E i) * (eps i j * E j)))).
    { unfold s, mvec. apply csum_ext. intros i Hi. now rewrite csum_mult_l. }
    rewrite S1 at 1. rewrite csum_conj. transitivity (csum 3 (fun i => csum 3 (fun j => E i * (eps j i * Cconj (E j))))).
    - apply csum_ext. intros i Hi. rewrite csum_conj. apply csum_ext. intros j Hj.
      rewrite !Cconj_mult, Cconj_conj. f_equal. f_equal. symmetry. rewrite <- (H j i Hj Hi). reflexivity.
    - rewrite csum_swap, S1. apply csum_ext. intros i Hi. apply csum_ext. intros j Hj. cbv beta. ring. }
  clearbody s. destruct s as [a b]. apply (f_equal snd) in Q. simpl in *. lra.
Qed.
Lemma hermitian_passive eps : hermitian eps -> passive eps.
Proof. intros H E. rewrite csum3_Im_herm by exact H. lra. Qed.

(** Across one layer and a stack *)
Lemma mono_decr (f f' : R -> R) (d : R) : (forall z, is_derive f z (f' z)) -> (forall z, f' z <= 0)%R -> (0 <= d)%R -> (f d <= f 0)%R.
Proof.
  intros D N P. destruct (Rle_lt_or_eq_dec 0 d P) as [L|<-]; [|lra].
  destruct (MVT_gen f 0 d f') as (c & _ & E).
  - intros x _. apply D.
  - intros x _. apply continuity_pt_filterlim. apply (ex_derive_continuous f). exists (f' x). apply D.
  - specialize (N c). nra.
Qed.
Lemma flux_layer (k kx d : R) eps F : (0 < k)%R -> (0 <= d)%R -> passive eps -> maxwell k (RtoC kx) eps F ->
  (flux4 (tangential F d) <= flux4 (tangential F 0))%R.
Proof.
  intros K D P M.
  apply (mono_decr (fun z => flux4 (tangential F z)) (fun z => - k * dissipation eps (electric F z))%R); [| |exact D].
  - intros z. apply (poynting k kx); [lra|exact M].
  - intros z. specialize (P (electric F z)). nra.
Qed.
Lemma flux_layer_eq (k kx d : R) eps F : (k <> 0)%R -> hermitian eps -> maxwell k (RtoC kx) eps F ->
  flux4 (tangential F d) = flux4 (tangential F 0).
Proof.
  intros K H M. apply (is_derive_0_const (fun z => flux4 (tangential F z))). intros z.
  assert (Q := poynting k kx eps F z K M). rewrite csum3_Im_herm in Q by exact H. now rewrite Rmult_0_r in Q.
Qed.

Lemma flux_stack (k kx : R) ls : (0 < k)%R -> Forall (fun l => (0 <= fst l)%R /\ passive (snd l)) ls ->
  forall u v, in_stack k (RtoC kx) ls u v -> (flux4 v <= flux4 u)%R.
Proof.
  intros K F. induction F as [|[d eps] ls [D P] _ IH]; intros u v; cbn [in_stack].
  - intros E. rewrite (flux4_veq _ _ E). lra.
  - intros (G & M & U & S). cbn [fst snd] in *. apply IH in S. rewrite <- (flux4_veq _ _ U).
    assert (Q := flux_layer k kx d eps G K D P M). lra.
Qed.
Lemma flux_stack_eq (k kx : R) ls : (k <> 0)%R -> Forall (fun l => hermitian (snd l)) ls ->
  forall u v, in_stack k (RtoC kx) ls u v -> flux4 v = flux4 u.
Proof.
  intros K F. induction F as [|[d eps] ls P _ IH]; intros u v; cbn [in_stack].
  - intros E. now rewrite (flux4_veq _ _ E).
  - intros (G & M & U & S). cbn [fst snd] in *. apply IH in S. rewrite <- (flux4_veq _ _ U), S. now apply (flux_layer_eq k kx d eps).
Qed.
