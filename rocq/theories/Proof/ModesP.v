From Coq Require Import Reals Lra Psatz Lia Permutation.
From Coquelicot Require Import Complex.
From Coq Require Import List.
From Verif.Base Require Import Py Cx Mat Mexp Det.
From Verif.Model Require Import Units Ellips Structure Solver4.
From Verif.Spec Require Import Tensor.
From Verif.Proof Require Import UnitsP DispersionsP Solver4P Solver4P2.
Import ListNotations.
Open Scope R_scope.
Open Scope C_scope.
Open Scope py_scope.

Lemma forward_dec q : {forward_value q} + {~ forward_value q}.
Proof.
  unfold forward_value. destruct (Rlt_dec 0 (Im q)); [left; now left|]. destruct (Req_EM_T (Im q) 0); [|right; tauto].
  destruct (Rlt_dec 0 (Re q)); [left; now right|right; tauto].
Qed.
Lemma forward_before a b : forward_value a -> ~ forward_value b -> sorts_before a b = true /\ sorts_before b a = false.
Proof.
  unfold forward_value, sorts_before. intros H K.
  set (x := Im a) in *. set (y := Im b) in *. set (u := Re a) in *. set (v := Re b) in *. clearbody x y u v.
  destruct (Rlt_dec (- x) (- y)) as [A|A], (Rlt_dec (- y) (- x)) as [B|B].
  - exfalso. lra.
  - split; reflexivity.
  - exfalso. apply K. left. destruct H; lra.
  - destruct (Rlt_dec (- u) (- v)) as [D|D], (Rlt_dec (- v) (- u)) as [E|E].
    + exfalso. lra.
    + split; reflexivity.
    + exfalso. destruct H as [H|[H H']]; apply K; [left; lra|right; lra].
    + exfalso. destruct H as [H|[H H']]; apply K; [left; lra|right; lra].
Qed.

Lemma insert_split q x F B : Forall (fun k => forward_value (q k)) F -> Forall (fun k => ~ forward_value (q k)) B ->
  exists F' B', insert_idx q x (F ++ B) = F' ++ B' /\ Forall (fun k => forward_value (q k)) F' /\ Forall (fun k => ~ forward_value (q k)) B'.
Proof.
  intros HF HB. destruct (forward_dec (q x)) as [X|X].
  - exists (insert_idx q x F), B. split.
    + clear HF. induction F as [|k F IH]; cbn [insert_idx app].
      * destruct B as [|b B]; [reflexivity|]. cbn [insert_idx]. inversion HB; subst. destruct (forward_before _ _ X H1) as [_ E]. rewrite E. reflexivity.
      * destruct (sorts_before (q k) (q x)); [cbn [app]; now rewrite IH|reflexivity].
    + split; [|exact HB]. apply (Permutation_Forall (Permutation_sym (insert_perm q x F))). now constructor.
  - exists F, (insert_idx q x B). split.
    + induction HF as [|k F HK HF IH]; [reflexivity|]. cbn [app insert_idx]. destruct (forward_before _ _ HK X) as [E _]. rewrite E. now rewrite IH.
    + split; [exact HF|]. apply (Permutation_Forall (Permutation_sym (insert_perm q x B))). now constructor.
Qed.
Lemma lexsort_split q : exists F B, lexsort q = F ++ B /\ Forall (fun k => forward_value (q k)) F /\ Forall (fun k => ~ forward_value (q k)) B.
Proof.
  unfold lexsort. generalize (seq 0 4). induction l as [|x l (F & B & E & HF & HB)]; cbn [fold_right].
  - exists [], []. repeat constructor.
  - rewrite E. now apply insert_split.
Qed.

(** The two forward waves come first. *)
Lemma lexsort_forward q : two_forward q ->
  forall a, (a < 4)%nat -> (forward_value (q (nth a (lexsort q) 0%nat)) <-> (a < 2)%nat).
Proof.
  intros (i & j & Hi & Hj & D & H). destruct (lexsort_split q) as (F & B & E & HF & HB).
  assert (P := lexsort_perm q). rewrite E in *.
  assert (N : NoDup (F ++ B)) by (apply (Permutation_NoDup (Permutation_sym P)), seq_NoDup).
  assert (L : length (F ++ B) = 4%nat) by (rewrite (Permutation_length P); reflexivity).
  assert (Mem : forall k, In k (F ++ B) <-> (k < 4)%nat).
  { intros k. split; intros K.
    - apply (Permutation_in _ P), in_seq in K. lia.
    - apply (Permutation_in _ (Permutation_sym P)), in_seq. lia. }
  assert (PF : Permutation F [i; j]).
  { apply NoDup_Permutation.
    - clear - N. induction F as [|k F IH]; [constructor|]. inversion N; subst. constructor; [intros K; apply H1, in_or_app; now left|now apply IH].
    - constructor; [intros [K|[]]; congruence|constructor; [intros []|constructor]].
    - intros k. split; intros K.
      + assert (K4 : (k < 4)%nat) by (apply Mem, in_or_app; now left). rewrite Forall_forall in HF. apply HF, H in K; [|exact K4]. simpl. intuition.
      + assert (K4 : (k < 4)%nat) by (simpl in K; lia). assert (KF : forward_value (q k)) by (apply H; [exact K4|simpl in K; intuition]).
        apply Mem, in_app_or in K4. destruct K4 as [K4|K4]; [exact K4|]. rewrite Forall_forall in HB. now apply HB in K4. }
  assert (LF : length F = 2%nat) by (rewrite (Permutation_length PF); reflexivity).
  intros a Ha. rewrite app_length in L. split; intros K.
  - destruct (le_lt_dec 2 a) as [G|G]; [|exact G]. exfalso. rewrite app_nth2 in K by lia.
    rewrite Forall_forall in HB. apply (HB (nth (a - length F) B 0%nat)); [apply nth_In; lia|exact K].
  - rewrite app_nth1 by lia. rewrite Forall_forall in HF. apply HF, nth_In. lia.
Qed.

(** Eigenvectors of one decomposition in terms of another *)
Lemma coefficients (A w v w' : mat) (q q' : nat -> C) : is_inverse 4 w v ->
  meq 4 (mmul 4 A w) (mmul 4 w (mdiag q)) -> meq 4 (mmul 4 A w') (mmul 4 w' (mdiag q')) ->
  meq 4 w' (mmul 4 w (mmul 4 v w')) /\
  forall i j, (i < 4)%nat -> (j < 4)%nat -> q i <> q' j -> mmul 4 v w' i j = 0.
Proof.
  intros [I1 I2] E E'. split; [rewrite (mmul_assoc 4 w v w'), I1, mmul_1_l; reflexivity|].
  assert (X : meq 4 (mmul 4 (mdiag q) (mmul 4 v w')) (mmul 4 (mmul 4 v w') (mdiag q'))).
  { rewrite <- (mmul_assoc 4 v w' (mdiag q')), <- E'. rewrite (mmul_assoc 4 v A w').
    assert (Y : meq 4 (mmul 4 v A) (mmul 4 (mdiag q) v)).
    { transitivity (mmul 4 (mmul 4 v A) (mmul 4 w v)); [rewrite I1, mmul_1_r; reflexivity|].
      rewrite (mmul_assoc 4 (mmul 4 v A) w v), <- (mmul_assoc 4 v A w), E, (mmul_assoc 4 v w (mdiag q)), I2, mmul_1_l. reflexivity. }
    rewrite Y, <- (mmul_assoc 4 (mdiag q) v w'). reflexivity. }
  intros i j Hi Hj N. specialize (X i j Hi Hj). set (Z := mmul 4 v w') in *. clearbody Z. unfold mmul, mdiag in X.
  rewrite (csum_single 4 (fun k => (if Nat.eqb i k then q i else 0) * Z k j) i Hi) in X.
  2:{ intros k Hk D. cbv beta. destruct (Nat.eqb_spec i k); [congruence|ring]. }
  rewrite (csum_single 4 (fun k => Z i k * (if Nat.eqb k j then q' k else 0)) j Hj) in X.
  2:{ intros k Hk D. cbv beta. destruct (Nat.eqb_spec k j); [congruence|ring]. }
  cbv beta in X. rewrite !Nat.eqb_refl in X.
  assert (Y : (q i - q' j) * Z i j = 0) by (transitivity (q i * Z i j - Z i j * q' j); [ring|rewrite X; ring]).
  apply C_integral in Y. destruct Y as [Y|Y]; [|exact Y]. exfalso. apply N. transitivity (q i - q' j + q' j); [ring|rewrite Y; ring].
Qed.

(** Exit matrices with the same space of transmitted waves *)
Definition spans (M M' : mat) : Prop := exists H : nat -> nat -> C, forall i, (i < 4)%nat ->
  M' i 2%nat = M i 2%nat * H 0%nat 0%nat + M i 0%nat * H 1%nat 0%nat /\ M' i 0%nat = M i 2%nat * H 0%nat 1%nat + M i 0%nat * H 1%nat 1%nat.

Lemma jones_spans prop prop' th lb (eps_f : mat) ls M M' Jr Jt Jr' Jt' : let k_x := reduced_k_x th eps_f in
  exact prop k_x lb ls -> exact prop' k_x lb ls -> spans M M' ->
  jones4 prop th lb eps_f ls M = Some (Jr, Jt) -> jones4 prop' th lb eps_f ls M' = Some (Jr', Jt') -> meq 2 Jr' Jr.
Proof.
  intros k_x E E' [H SP] J J'. apply jones4_inv in J; [|exact E]. apply jones4_inv in J'; [|exact E']. fold k_x in J, J'.
  destruct J as (_ & _ & _ & _ & [I1 I2] & R), J' as (_ & _ & _ & _ & [I1' I2'] & R'). rewrite R, R'.
  assert (L : forall A B, meq 2 (t_it (mmul 4 A (mmul 4 B M'))) (mmul 2 (t_it (mmul 4 A (mmul 4 B M))) H) /\
    meq 2 (t_rt (mmul 4 A (mmul 4 B M'))) (mmul 2 (t_rt (mmul 4 A (mmul 4 B M))) H)).
  { intros A B.
    assert (Q : forall i, (i < 4)%nat -> mmul 4 A (mmul 4 B M') i 2%nat = mmul 4 A (mmul 4 B M) i 2%nat * H 0%nat 0%nat + mmul 4 A (mmul 4 B M) i 0%nat * H 1%nat 0%nat /\
      mmul 4 A (mmul 4 B M') i 0%nat = mmul 4 A (mmul 4 B M) i 2%nat * H 0%nat 1%nat + mmul 4 A (mmul 4 B M) i 0%nat * H 1%nat 1%nat).
    { intros i Hi. destruct (SP 0%nat ltac:(lia)) as [S0 S0'], (SP 1%nat ltac:(lia)) as [S1 S1'], (SP 2%nat ltac:(lia)) as [S2 S2'], (SP 3%nat ltac:(lia)) as [S3 S3'].
      unfold mmul, csum. rewrite S0, S1, S2, S3, S0', S1', S2', S3'. split; ring. }
    set (K := mmul 4 A (mmul 4 B M)) in *. set (K' := mmul 4 A (mmul 4 B M')) in *. clearbody K K'.
    split; mexpl; unfold t_it, t_rt, mmul, mat_of, csum; cbn [nth]; try rewrite (proj1 (Q 2%nat ltac:(lia))); try rewrite (proj2 (Q 2%nat ltac:(lia)));
      try rewrite (proj1 (Q 0%nat ltac:(lia))); try rewrite (proj2 (Q 0%nat ltac:(lia))); try rewrite (proj1 (Q 3%nat ltac:(lia))); try rewrite (proj2 (Q 3%nat ltac:(lia)));
      try rewrite (proj1 (Q 1%nat ltac:(lia))); try rewrite (proj2 (Q 1%nat ltac:(lia))); ring. }
  unfold kmat in *. set (A := isoLi _ _) in *. set (B := tmat k_x lb ls) in *. destruct (L A B) as [L1 L2]. clear L.
  set (K := mmul 4 A (mmul 4 B M)) in *. set (K' := mmul 4 A (mmul 4 B M')) in *. clearbody K K'.
  assert (X : meq 2 (mmul 2 H Jt') Jt).
  { transitivity (mmul 2 (mmul 2 Jt (t_it K)) (mmul 2 H Jt')); [rewrite I2, mmul_1_l; reflexivity|].
    rewrite <- (mmul_assoc 2 Jt), (mmul_assoc 2 (t_it K)), <- L1, I1', mmul_1_r. reflexivity. }
  rewrite L2, <- mmul_assoc, X. reflexivity.
Qed.

(** The columns 0 and 2 of the exit matrix are multiples of the first two sorted eigenvectors. *)
Lemma halfspace_cols eig M : transition_matrix_halfspace eig = Some M ->
  let S := take_cols (snd eig) (lexsort (fst eig)) in
  exists a b (x y : C), (a = 0%nat /\ b = 1%nat \/ a = 1%nat /\ b = 0%nat) /\ x <> 0 /\ y <> 0 /\
    forall i, M i 0%nat = x * S i a /\ M i 2%nat = y * S i b.
Proof.
  destruct eig as [q w]. unfold transition_matrix_halfspace. cbn [fst snd].
  set (p := halfspace_phases (take_cols w (halfspace_order (q, w)))). set (c := p 1%nat 0%nat + p 1%nat 1%nat).
  destruct (Ceq_dec c 0) as [|N]; [discriminate|]. intros H. apply Some_eq in H. subst M.
  assert (U : forall e, unit_phase e <> 0).
  { intros e. unfold unit_phase. destruct (Ceq_dec e 0); [apply C_of_R_neq; lra|]. apply Cdiv_neq0; [exact n|]. apply C_of_R_neq. intros K. apply Cmod_eq_0 in K. contradiction. }
  assert (T : RtoC 2 <> 0) by (apply C_of_R_neq; lra).
  set (idx := lexsort q).
  assert (O : nth 0 (halfspace_order (q, w)) 0%nat = nth 0 idx 0%nat /\ nth 2 (halfspace_order (q, w)) 0%nat = nth 1 idx 0%nat \/
    nth 0 (halfspace_order (q, w)) 0%nat = nth 1 idx 0%nat /\ nth 2 (halfspace_order (q, w)) 0%nat = nth 0 idx 0%nat).
  { unfold halfspace_order. fold idx. generalize (map (fun k => (2 + k)%nat) (argsort2 (take_cols w idx 1%nat 2%nat) (take_cols w idx 1%nat 3%nat))). intros l2.
    unfold argsort2. destruct (Rlt_dec _ _); cbn [app nth map]; [right|left]; split; reflexivity. }
  clearbody c.
  destruct O as [[O1 O2]|[O1 O2]]; [exists 0%nat, 1%nat|exists 1%nat, 0%nat].
  all: exists (2 * unit_phase (take_cols w (halfspace_order (q, w)) 1%nat 0%nat) / c), (2 * unit_phase (take_cols w (halfspace_order (q, w)) 0%nat 2%nat) / c).
  all: split; [tauto|]; split; [apply Cdiv_neq0; [apply Cmult_neq_0; [exact T|apply U]|exact N]|]; split; [apply Cdiv_neq0; [apply Cmult_neq_0; [exact T|apply U]|exact N]|].
  all: intros i; unfold p, halfspace_phases, take_cols in *; rewrite O1, O2; split; field; exact N.
Qed.

Lemma halfspace_spans delta eig (w' : mat) (q' : nat -> C) M : eigen_decomposition 4 delta eig -> two_forward (fst eig) ->
  transition_matrix_halfspace eig = Some M ->
  meq 4 (mmul 4 delta w') (mmul 4 w' (mdiag q')) ->
  forward_value (q' 0%nat) -> forward_value (q' 2%nat) ->
  spans M w'.
Proof.
  intros [Eg [v I]] TF HM E' F0 F2. destruct eig as [q w]. cbn [fst snd] in *.
  assert (E : meq 4 (mmul 4 delta w) (mmul 4 w (mdiag q))).
  { intros i j Hi Hj. unfold mmul at 1. rewrite Eg by assumption. unfold mmul, mdiag.
    rewrite (csum_single 4 (fun k => w i k * _) j Hj); [cbv beta; rewrite Nat.eqb_refl; ring|]. intros k Hk D. destruct (Nat.eqb_spec k j); [contradiction|ring]. }
  destruct (halfspace_cols (q, w) M HM) as (a & b & x & y & AB & Nx & Ny & Cl). cbn [fst snd] in Cl.
  assert (P := lexsort_perm q). assert (S := take_cols_eig delta w q (lexsort q) P E). assert (SI := take_cols_inverse w v (lexsort q) P I).
  set (s := take_cols w (lexsort q)) in *. set (sv := fun (a j : nat) => v (nth a (lexsort q) 0%nat) j) in *.
  destruct (coefficients delta s sv w' (take_vec q (lexsort q)) q' SI S E') as [X Z].
  set (H := mmul 4 sv w') in *. clearbody H.
  assert (ZZ : forall k j, (2 <= k < 4)%nat -> (j < 4)%nat -> forward_value (q' j) -> H k j = 0).
  { intros k j Hk Hj Fj. apply Z; [lia|exact Hj|]. unfold take_vec. intros K. assert (G := lexsort_forward q TF k ltac:(lia)). rewrite K in G. apply G in Fj. lia. }
  assert (Z20 := ZZ 2%nat 0%nat ltac:(lia) ltac:(lia) F0). assert (Z30 := ZZ 3%nat 0%nat ltac:(lia) ltac:(lia) F0).
  assert (Z22 := ZZ 2%nat 2%nat ltac:(lia) ltac:(lia) F2). assert (Z32 := ZZ 3%nat 2%nat ltac:(lia) ltac:(lia) F2).
  exists (mat_of [[H b 2%nat / y; H b 0%nat / y]; [H a 2%nat / x; H a 0%nat / x]]).
  intros i Hi. destruct (Cl i) as [C1 C2]. assert (X0 := X i 0%nat Hi ltac:(lia)). assert (X2 := X i 2%nat Hi ltac:(lia)).
  unfold mmul, csum in X0, X2. rewrite Z20, Z30 in X0. rewrite Z22, Z32 in X2. rewrite C1, C2, X0, X2. unfold mat_of. cbn [nth].
  destruct AB as [[-> ->]|[-> ->]]; split; field; auto.
Qed.

Lemma modes_spans delta eig eig' M M' : eigen_decomposition 4 delta eig -> eigen_decomposition 4 delta eig' ->
  two_forward (fst eig) -> two_forward (fst eig') ->
  transition_matrix_halfspace eig = Some M -> transition_matrix_halfspace eig' = Some M' -> spans M M'.
Proof.
  intros D [Eg' _] T T' H H'.
  destruct (halfspace_cols eig' M' H') as (a & b & x & y & AB & _ & _ & Cl).
  set (S := take_cols (snd eig') (lexsort (fst eig'))) in *. set (Q := take_vec (fst eig') (lexsort (fst eig'))).
  assert (P := lexsort_perm (fst eig')).
  assert (ES : forall i k, (i < 4)%nat -> (k < 4)%nat -> csum 4 (fun j => delta i j * S j k) = Q k * S i k).
  { intros i k Hi Hk. unfold S, Q, take_cols, take_vec. apply (Eg' i (nth k (lexsort (fst eig')) 0%nat) Hi), perm_lt; assumption. }
  set (w' := fun i k => match k with 0%nat => x * S i a | 2%nat => y * S i b | _ => RtoC 0 end).
  set (q' := fun k => match k with 0%nat => Q a | 2%nat => Q b | _ => RtoC 0 end).
  assert (FA : (a < 2)%nat /\ (b < 2)%nat) by lia. destruct FA as [FA FB].
  destruct (halfspace_spans delta eig w' q' M D T H) as [G HG].
  - intros i k Hi Hk. transitivity (w' i k * q' k).
    + unfold mmul. idx k; unfold w', q'.
      * transitivity (x * csum 4 (fun j => delta i j * S j a)); [rewrite <- csum_mult_l; apply csum_ext; intros; ring|]. rewrite ES by lia. ring.
      * unfold csum. ring.
      * transitivity (y * csum 4 (fun j => delta i j * S j b)); [rewrite <- csum_mult_l; apply csum_ext; intros; ring|]. rewrite ES by lia. ring.
      * unfold csum. ring.
    + unfold mmul, mdiag. rewrite (csum_single 4 (fun j => w' i j * _) k Hk); [cbv beta; now rewrite Nat.eqb_refl|].
      intros j Hj N. destruct (Nat.eqb_spec j k); [contradiction|ring].
  - unfold q', Q, take_vec. apply lexsort_forward; [exact T'|lia|exact FA].
  - unfold q', Q, take_vec. apply lexsort_forward; [exact T'|lia|exact FB].
  - exists G. intros i Hi. destruct (Cl i) as [C0 C2]. rewrite C0, C2. exact (HG i Hi).
Qed.

(** The delta matrix of an isotropic medium has the eigenvalues q, q, -q, -q. *)
Lemma iso_two_forward (delta : mat) (eig : (nat -> C) * mat) (n c : C) : n <> 0 -> c <> 0 -> forward_value (n * c) ->
  meq 4 (mmul 4 delta (isoL n c)) (mmul 4 (isoL n c) (mdiag (vec_of [n * c; - (n * c); n * c; - (n * c)]))) ->
  eigen_decomposition 4 delta eig -> two_forward (fst eig).
Proof.
  intros N Cz F E [Eg [v I]]. destruct eig as [q w]. cbn [fst snd] in *.
  set (Q := vec_of [n * c; - (n * c); n * c; - (n * c)]) in *.
  assert (E' : meq 4 (mmul 4 delta w) (mmul 4 w (mdiag q))).
  { intros i j Hi Hj. unfold mmul at 1. rewrite Eg by assumption. unfold mmul, mdiag.
    rewrite (csum_single 4 (fun k => w i k * _) j Hj); [cbv beta; rewrite Nat.eqb_refl; ring|]. intros k Hk D. destruct (Nat.eqb_spec k j); [contradiction|ring]. }
  assert (LI := iso_inverse n c N Cz).
  destruct (coefficients delta (isoL n c) (isoLi n c) w Q q LI E E') as [X Z].
  destruct (coefficients delta w v (isoL n c) q Q I E' E) as [X' Z'].
  set (G := mmul 4 (isoLi n c) w) in *. set (G' := mmul 4 v (isoL n c)) in *.
  assert (GI : is_inverse 4 G G').
  { destruct LI as [L1 L2], I as [I1 I2]. unfold G, G'. split.
    - rewrite <- (mmul_assoc 4 (isoLi n c) w), (mmul_assoc 4 w v), I1, mmul_1_l. exact L2.
    - rewrite <- (mmul_assoc 4 v (isoL n c)), (mmul_assoc 4 (isoL n c)), L1, mmul_1_l. exact I2. }
  clearbody G G'. clear X X' E E' LI I Eg.
  set (z := n * c) in *.
  assert (V : forall k, (k < 4)%nat -> q k = z \/ q k = - z).
  { intros k Hk. destruct (Ceq_dec (q k) z) as [|A]; [now left|]. destruct (Ceq_dec (q k) (- z)) as [|B]; [now right|]. exfalso.
    destruct GI as [_ GI]. specialize (GI k k Hk Hk). unfold mmul in GI. unfold mid in GI. rewrite Nat.eqb_refl in GI.
    assert (K : csum 4 (fun j => G' k j * G j k) = 0).
    { apply csum_0. intros j Hj. rewrite (Z j k Hj Hk); [ring|]. unfold Q, vec_of. idx j; cbn [nth]; congruence. }
    rewrite K in GI. symmetry in GI. apply RtoC_inj in GI. lra. }
  assert (TR : csum 4 q = 0).
  { assert (U : forall i k, (i < 4)%nat -> (k < 4)%nat -> q k * (G' k i * G i k) = Q i * (G i k * G' k i)).
    { intros i k Hi Hk. destruct (Ceq_dec (Q i) (q k)) as [<-|D]; [ring|]. rewrite (Z i k Hi Hk D). ring. }
    transitivity (csum 4 (fun k => csum 4 (fun i => q k * (G' k i * G i k)))).
    { apply csum_ext. intros k Hk. rewrite csum_mult_l. destruct GI as [_ GI]. specialize (GI k k Hk Hk). unfold mmul, mid in GI. rewrite Nat.eqb_refl in GI. rewrite GI. ring. }
    transitivity (csum 4 (fun k => csum 4 (fun i => Q i * (G i k * G' k i)))).
    { apply csum_ext. intros k Hk. apply csum_ext. intros i Hi. now apply U. }
    rewrite csum_swap. transitivity (csum 4 Q).
    { apply csum_ext. intros i Hi. cbv beta. rewrite csum_mult_l. destruct GI as [GI _]. specialize (GI i i Hi Hi). unfold mmul, mid in GI. rewrite Nat.eqb_refl in GI. rewrite GI. ring. }
    unfold Q, csum, vec_of. cbn [nth]. ring. }
  assert (NF : ~ forward_value (- z)).
  { unfold forward_value in *. unfold Re, Im in *. destruct z as [z1 z2]. cbn [fst snd Copp] in *. destruct F as [F|[F F']]; intros [A|[A A']]; lra. }
  assert (NZ : z <> 0) by (intros K; rewrite K in F; unfold forward_value, Re, Im in F; simpl in F; lra).
  assert (R4 : RtoC 4 <> 0) by (apply C_of_R_neq; lra). assert (R2 : RtoC 2 <> 0) by (apply C_of_R_neq; lra).
  unfold csum in TR.
  assert (S4 : 4 * z = 0 -> False) by (intros K; apply C_integral in K; tauto).
  assert (S2 : 2 * z = 0 -> False) by (intros K; apply C_integral in K; tauto).
  assert (FV : forall k, (k < 4)%nat -> (forward_value (q k) <-> q k = z)).
  { intros k Hk. destruct (V k Hk) as [K|K]; rewrite K; split; intros Y; auto; [contradiction|]. rewrite Y in NF. contradiction. }
  assert (OP : - z <> z) by (intros K; apply S2; transitivity (z - - z); [ring|rewrite K; ring]).
  assert (W : forall i j, (i < 4)%nat -> (j < 4)%nat -> i <> j -> (forall k, (k < 4)%nat -> (q k = z <-> k = i \/ k = j)) -> two_forward q).
  { intros i j Hi Hj D K. exists i, j. do 3 (split; [assumption|]). intros k Hk. rewrite FV by exact Hk. now apply K. }
  destruct (V 0%nat ltac:(lia)) as [V0|V0], (V 1%nat ltac:(lia)) as [V1|V1], (V 2%nat ltac:(lia)) as [V2|V2], (V 3%nat ltac:(lia)) as [V3|V3];
    rewrite V0, V1, V2, V3 in TR;
    try (exfalso; apply S4; transitivity (0 + z + z + z + z); [ring|exact TR]);
    try (exfalso; apply S4; transitivity (- (0 + - z + - z + - z + - z)); [ring|rewrite TR; ring]);
    try (exfalso; apply S2; match type of TR with ?t = _ => transitivity t; [ring|exact TR] end);
    try (exfalso; apply S2; match type of TR with ?t = _ => transitivity (- t); [ring|rewrite TR; ring] end).
  - apply (W 0%nat 1%nat); try lia. intros k Hk; idx k; rewrite ?V0, ?V1, ?V2, ?V3; split; intros Y; auto; try contradiction; lia.
  - apply (W 0%nat 2%nat); try lia. intros k Hk; idx k; rewrite ?V0, ?V1, ?V2, ?V3; split; intros Y; auto; try contradiction; lia.
  - apply (W 0%nat 3%nat); try lia. intros k Hk; idx k; rewrite ?V0, ?V1, ?V2, ?V3; split; intros Y; auto; try contradiction; lia.
  - apply (W 1%nat 2%nat); try lia. intros k Hk; idx k; rewrite ?V0, ?V1, ?V2, ?V3; split; intros Y; auto; try contradiction; lia.
  - apply (W 1%nat 3%nat); try lia. intros k Hk; idx k; rewrite ?V0, ?V1, ?V2, ?V3; split; intros Y; auto; try contradiction; lia.
  - apply (W 2%nat 3%nat); try lia. intros k Hk; idx k; rewrite ?V0, ?V1, ?V2, ?V3; split; intros Y; auto; try contradiction; lia.
Qed.

(** The order chosen for modes listed as (s+, s-, p+, p-) *)
Lemma sorts_irrefl x : sorts_before x x = false.
Proof. unfold sorts_before. destruct (Rlt_dec (- Im x) (- Im x)); [lra|]. destruct (Rlt_dec (- Re x) (- Re x)); [lra|reflexivity]. Qed.
Lemma order_std (z : C) (w : mat) : forward_value z -> w 1%nat 2%nat = 0 -> w 1%nat 3%nat = 0 ->
  halfspace_order (vec_of [z; - z; z; - z], w) = [0; 1; 2; 3]%nat.
Proof.
  intros F W2 W3.
  assert (NF : ~ forward_value (- z)).
  { unfold forward_value in *. unfold Re, Im in *. destruct z as [z1 z2]. cbn [fst snd Copp] in *. destruct F as [F|[F F']]; intros [A|[A A']]; lra. }
  destruct (forward_before z (- z) F NF) as [B1 B2].
  assert (L : lexsort (vec_of [z; - z; z; - z]) = [0; 2; 1; 3]%nat).
  { unfold lexsort. cbn [seq fold_right insert_idx]. unfold vec_of. cbn [nth]. rewrite B2. cbn [insert_idx nth]. rewrite B1. cbn [insert_idx nth]. rewrite sorts_irrefl. cbn [insert_idx nth]. rewrite sorts_irrefl. reflexivity. }
  unfold halfspace_order. rewrite L. unfold take_cols. cbn [nth]. rewrite W2, W3. unfold argsort2. rewrite Cmod_0.
  assert (P0 := Cmod_ge_0 (w 1%nat 0%nat)). assert (P1 := Cmod_ge_0 (w 1%nat 1%nat)).
  destruct (Rlt_dec (- 0) (- Cmod (w 1%nat 0%nat))); [lra|]. destruct (Rlt_dec (- 0) (- Cmod (w 1%nat 1%nat))); [lra|]. reflexivity.
Qed.
