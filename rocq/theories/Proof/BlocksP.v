(** Matrices of two blocks: products and exponentials. *)
From Coq Require Import Reals Lra Psatz Lia ZArith.
From Coquelicot Require Import Complex.
From Coq Require Import List.
From Verif.Base Require Import Py Cx Mat Mexp Det.
From Verif.Model Require Import Units Ellips Structure Solver4.
From Verif.Spec Require Import Plane.
From Verif.Proof Require Import Solver4P Solver4P2.
Import ListNotations.
Open Scope R_scope.
Open Scope C_scope.

(** A and A' are zero outside of two blocks, given by the rows P and the columns Q, and are the same
    in the block of true *)
Definition agree (P Q : nat -> bool) (A A' : mat) : Prop := forall i j, (i < 4)%nat -> (j < 4)%nat ->
  if Bool.eqb (P i) (Q j) then P i = true -> A i j = A' i j else A i j = 0 /\ A' i j = 0.

Lemma agree_mul P Q S A A' B B' : agree P Q A A' -> agree Q S B B' -> agree P S (mmul 4 A B) (mmul 4 A' B').
Proof.
  intros H K i j Hi Hj. unfold mmul. destruct (Bool.eqb (P i) (S j)) eqn:E.
  - intros T. apply csum_ext. intros k Hk. assert (H1 := H i k Hi Hk). assert (K1 := K k j Hk Hj).
    apply Bool.eqb_prop in E. rewrite T in *. destruct (Q k).
    + rewrite <- E in K1. cbn in H1, K1. now rewrite H1, K1.
    + cbn in H1. destruct H1 as [-> ->]. ring.
  - apply Bool.eqb_false_iff in E. split; apply csum_0; intros k Hk; assert (H1 := H i k Hi Hk); assert (K1 := K k j Hk Hj);
      destruct (P i), (Q k), (S j); cbn in H1, K1; try congruence;
      first [destruct H1 as [H1 H2]; rewrite ?H1, ?H2; ring|destruct K1 as [K1 K2]; rewrite ?K1, ?K2; ring].
Qed.
Lemma agree_mid P : agree P P mid mid.
Proof.
  intros i j _ _. destruct (Bool.eqb (P i) (P j)) eqn:E; [reflexivity|]. unfold mid. destruct (Nat.eqb i j) eqn:N; [|auto].
  apply Nat.eqb_eq in N. subst j. now rewrite Bool.eqb_reflx in E.
Qed.
Lemma agree_scal P Q (c : C) A A' : agree P Q A A' -> agree P Q (mscal c A) (mscal c A').
Proof.
  intros H i j Hi Hj. specialize (H i j Hi Hj). unfold mscal. destruct (Bool.eqb (P i) (Q j)).
  - intros T. now rewrite H.
  - destruct H as [-> ->]. split; ring.
Qed.
Lemma agree_meq P Q A A' B B' : agree P Q A A' -> meq 4 A B -> meq 4 A' B' -> agree P Q B B'.
Proof.
  intros H E E' i j Hi Hj. specialize (H i j Hi Hj). rewrite <- (E i j Hi Hj), <- (E' i j Hi Hj). exact H.
Qed.
Lemma agree_pow P A A' k : agree P P A A' -> agree P P (mpow 4 A k) (mpow 4 A' k).
Proof. intros H. induction k as [|k IH]; cbn [mpow]; [apply agree_mid|]. first [apply (agree_mul P P P); assumption]. Qed.
Lemma cps_zero (a : nat -> C) t : (forall k, a k = 0) -> cps a t = 0.
Proof.
  intros H. rewrite (cps_ext a (fun _ => 0) t H). unfold cps. simpl. rewrite PSeries_zero. reflexivity.
Qed.
Lemma agree_exp P A A' : agree P P A A' -> agree P P (mexp 4 A) (mexp 4 A').
Proof.
  intros H i j Hi Hj. unfold mexp. rewrite !mexpt_cps.
  assert (K := fun k => agree_pow P A A' k H i j Hi Hj). destruct (Bool.eqb (P i) (P j)).
  - intros T. apply cps_ext. intros k. unfold mcoef. now rewrite (K k T).
  - split; apply cps_zero; intros k; unfold mcoef; destruct (K k) as [K1 K2]; rewrite ?K1, ?K2; unfold Cdiv; ring.
Qed.

(** The fields 1, 2 and the waves 0, 1 belong to s polarised light *)
Definition fields_of (s : bool) (i : nat) : bool := Bool.eqb s (match i with 1%nat | 2%nat => true | _ => false end).
Definition waves_of (s : bool) (i : nat) : bool := Bool.eqb s (match i with 0%nat | 1%nat => true | _ => false end).

Definition same_for (s : bool) : mat -> mat -> Prop := if s then same_across else same_within.

Lemma agree_delta s k_x (e e' : mat) : e 2%nat 2%nat <> 0 -> e' 2%nat 2%nat <> 0 -> plane_symmetric e -> plane_symmetric e' -> same_for s e e' ->
  agree (fields_of s) (fields_of s) (delta_of k_x e) (delta_of k_x e').
Proof.
  intros N N' (A1 & A2 & A3 & A4) (B1 & B2 & B3 & B4) H. unfold delta_of, build_delta_matrix.
  destruct (Ceq_dec (e 2%nat 2%nat) 0); [contradiction|]. destruct (Ceq_dec (e' 2%nat 2%nat) 0); [contradiction|].
  rewrite A1, A2, A3, A4, B1, B2, B3, B4.
  intros i j Hi Hj. destruct s; [unfold same_for, same_across in H|destruct H as (H1 & H2 & H3 & H4)];
    destruct i as [|[|[|[|]]]]; try lia; destruct j as [|[|[|[|]]]]; try lia; unfold fields_of, mat_of; cbn [nth Bool.eqb];
    rewrite ?H, ?H1, ?H2, ?H3, ?H4; try (intros; reflexivity); try (split; unfold Cdiv; ring); try discriminate; intros _; unfold Cdiv; ring.
Qed.
Lemma agree_tmat s k_x lb ls ls' : eps_ok ls -> eps_ok ls' ->
  Forall2 (fun l l' => fst l = fst l' /\ plane_symmetric (snd l) /\ plane_symmetric (snd l') /\ same_for s (snd l) (snd l')) ls ls' ->
  agree (fields_of s) (fields_of s) (tmat k_x lb ls) (tmat k_x lb ls').
Proof.
  intros O O' F. induction F as [|l l' ls ls' (E & P & P' & H) F IH]; cbn [tmat]; [apply agree_mid|].
  inversion O; subst. inversion O'; subst. apply (agree_mul _ (fields_of s)); [|now apply IH].
  unfold layer_mat. rewrite E. apply agree_exp, agree_scal, agree_delta; assumption.
Qed.
Lemma agree_isoL s (n c : C) : agree (fields_of s) (waves_of s) (isoL n c) (isoL n c).
Proof.
  intros i j Hi Hj. destruct s; destruct i as [|[|[|[|]]]]; try lia; destruct j as [|[|[|[|]]]]; try lia;
    unfold fields_of, waves_of, isoL, mat_of; cbn [nth Bool.eqb]; auto.
Qed.
Lemma agree_isoLi s (n c : C) : agree (waves_of s) (fields_of s) (isoLi n c) (isoLi n c).
Proof.
  unfold isoLi. apply agree_scal.
  intros i j Hi Hj. destruct s; destruct i as [|[|[|[|]]]]; try lia; destruct j as [|[|[|[|]]]]; try lia;
    unfold fields_of, waves_of, mat_of; cbn [nth Bool.eqb]; auto.
Qed.
Lemma agree_kmat s k_x lb ef (n c : C) ls ls' : eps_ok ls -> eps_ok ls' ->
  Forall2 (fun l l' => fst l = fst l' /\ plane_symmetric (snd l) /\ plane_symmetric (snd l') /\ same_for s (snd l) (snd l')) ls ls' ->
  agree (waves_of s) (waves_of s) (kmat k_x lb ef ls (isoL n c)) (kmat k_x lb ef ls' (isoL n c)).
Proof.
  intros O O' F. unfold kmat. apply (agree_mul _ (fields_of s)); [apply agree_isoLi|].
  apply (agree_mul _ (fields_of s)); [now apply agree_tmat|apply agree_isoL].
Qed.

(** The Jones matrices of a matrix of two blocks *)
Lemma diag_inverse (A V : mat) (k : nat) : (k < 2)%nat -> is_inverse 2 A V -> A 0%nat 1%nat = 0 -> A 1%nat 0%nat = 0 ->
  A k k <> 0 /\ V k k = 1 / A k k /\ (V 0%nat 1%nat = 0 /\ V 1%nat 0%nat = 0).
Proof.
  intros Hk [I J] Z1 Z2.
  assert (a := I 0%nat 0%nat ltac:(lia) ltac:(lia)). assert (d := I 1%nat 1%nat ltac:(lia) ltac:(lia)).
  assert (b := I 0%nat 1%nat ltac:(lia) ltac:(lia)). assert (c := I 1%nat 0%nat ltac:(lia) ltac:(lia)).
  unfold mmul, csum, mid in a, b, c, d. cbn [Nat.eqb] in a, b, c, d. rewrite Z1, Z2 in *.
  set (x := A 0%nat 0%nat) in *. set (y := A 1%nat 1%nat) in *.
  assert (a' : x * V 0%nat 0%nat = 1) by (rewrite <- a; ring). assert (d' : y * V 1%nat 1%nat = 1) by (rewrite <- d; ring).
  assert (b' : x * V 0%nat 1%nat = 0) by (rewrite <- b; ring). assert (c' : y * V 1%nat 0%nat = 0) by (rewrite <- c; ring).
  assert (O : RtoC 1 <> 0) by (intros Z; apply RtoC_inj in Z; lra).
  assert (Nx : x <> 0) by (intros Z; rewrite Z in a'; apply O; rewrite <- a'; ring).
  assert (Ny : y <> 0) by (intros Z; rewrite Z in d'; apply O; rewrite <- d'; ring).
  assert (Z3 : V 0%nat 1%nat = 0) by (apply C_integral in b'; tauto). assert (Z4 : V 1%nat 0%nat = 0) by (apply C_integral in c'; tauto).
  destruct k as [|[|]]; try lia.
  - fold x. split; [exact Nx|]. split; [|auto]. rewrite <- a'. field. exact Nx.
  - fold y. split; [exact Ny|]. split; [|auto]. rewrite <- d'. field. exact Ny.
Qed.
Lemma block_jones s K K' Jt Jt' Jr Jr' : agree (waves_of s) (waves_of s) K K' ->
  is_inverse 2 (t_it K) Jt -> is_inverse 2 (t_it K') Jt' -> meq 2 Jr (mmul 2 (t_rt K) Jt) -> meq 2 Jr' (mmul 2 (t_rt K') Jt') ->
  let k := if s then 1%nat else 0%nat in Jt k k = Jt' k k /\ Jr k k = Jr' k k.
Proof.
  intros H I I' R R' k. assert (Hk : (k < 2)%nat) by (unfold k; destruct s; lia).
  assert (G : forall i j, (i < 4)%nat -> (j < 4)%nat -> waves_of s i <> waves_of s j -> K i j = 0 /\ K' i j = 0).
  { intros i j Hi Hj N. specialize (H i j Hi Hj). apply Bool.eqb_false_iff in N. now rewrite N in H. }
  assert (E : forall i j, (i < 4)%nat -> (j < 4)%nat -> waves_of s i = true -> waves_of s j = true -> K i j = K' i j).
  { intros i j Hi Hj N M. specialize (H i j Hi Hj). rewrite N, M in H. now apply H. }
  assert (w : forall i, waves_of true i = negb (waves_of false i)) by (intros [|[|]]; reflexivity).
  assert (G20 : K 2%nat 0%nat = 0 /\ K' 2%nat 0%nat = 0) by (apply G; [lia|lia|destruct s; discriminate]).
  assert (G02 : K 0%nat 2%nat = 0 /\ K' 0%nat 2%nat = 0) by (apply G; [lia|lia|destruct s; discriminate]).
  destruct (diag_inverse (t_it K) Jt k Hk I) as (N & V & V1 & V2); [apply G20|apply G02|].
  destruct (diag_inverse (t_it K') Jt' k Hk I') as (N' & V' & V1' & V2'); [apply G20|apply G02|].
  assert (T : t_it K k k = t_it K' k k) by (unfold t_it, k, mat_of; destruct s; cbn [nth]; apply E; try lia; reflexivity).
  assert (JT : Jt k k = Jt' k k) by (rewrite V, V', T; reflexivity). split; [exact JT|].
  rewrite (R k k Hk Hk), (R' k k Hk Hk). unfold mmul, csum, k in *. destruct s.
  - rewrite V1, V1', JT. unfold t_rt, mat_of. cbn [nth]. rewrite (E 1%nat 0%nat) by (try lia; reflexivity). ring.
  - rewrite V2, V2', JT. unfold t_rt, mat_of. cbn [nth]. rewrite (E 3%nat 2%nat) by (try lia; reflexivity). ring.
Qed.
