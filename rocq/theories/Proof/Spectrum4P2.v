(** Lemmas for C100: the program at one wavelength is the model of Solver4x4 at one wavelength. *)
From Coq Require Import Reals Lra Lia Arith.
From Coquelicot Require Import Complex.
From Coq Require Import List.
From Verif.Base Require Import Py Cx Mat Mexp Det.
From Verif.Model Require Import Units Ellips Structure Mixture Solver2 Solver4 Spectrum Spectrum4.
From Verif.Spec Require Import Pointwise Pointwise4.
From Verif.Proof Require Import SpectrumP SpectrumP2 SpectrumP3 Spectrum4P.
Import ListNotations.
Open Scope R_scope.
Open Scope C_scope.
Open Scope py_scope.

Definition sim (n : nat) (o : omat) (m : mat) : Prop := forall i j, (i < n)%nat -> (j < n)%nat -> o i j = Some (m i j).
Definition bad4 (o : omat) : Prop := exists i j, (i < 4)%nat /\ (j < 4)%nat /\ o i j = None.
Definition colbad (o : omat) : Prop := forall j, (j < 4)%nat -> exists i, (i < 4)%nat /\ o i j = None.
Definition rowbad (o : omat) : Prop := forall i, (i < 4)%nat -> exists j, (j < 4)%nat /\ o i j = None.
Definition allbad (o : omat) : Prop := forall i j, (i < 4)%nat -> (j < 4)%nat -> o i j = None.

Lemma osum_some n (f : nat -> option C) g : (forall i, (i < n)%nat -> f i = Some (g i)) -> osum n f = Some (csum n g).
Proof. intros H. induction n as [|n IH]; [reflexivity|]. cbn [osum csum]. rewrite IH, H by (intros; try apply H; lia). reflexivity. Qed.
Lemma osum_none n (f : nat -> option C) k : (k < n)%nat -> f k = None -> osum n f = None.
Proof.
  intros Hk E. induction n as [|n IH]; [lia|]. cbn [osum]. destruct (Nat.eq_dec k n) as [->|D].
  - rewrite E. destruct (osum n f); reflexivity.
  - rewrite IH by lia. reflexivity.
Qed.
Lemma omul_sim n a b A B : sim n a A -> sim n b B -> sim n (omul_n n a b) (mmul n A B).
Proof. intros HA HB i j Hi Hj. unfold omul_n, mmul. apply osum_some. intros k Hk. rewrite HA, HB by assumption. reflexivity. Qed.
Lemma omul_left a b i j k : (k < 4)%nat -> a i k = None -> omul_n 4 a b i j = None.
Proof. intros Hk E. apply (osum_none 4 _ k Hk). rewrite E. reflexivity. Qed.
Lemma omul_right a b i j k : (k < 4)%nat -> b k j = None -> omul_n 4 a b i j = None.
Proof. intros Hk E. apply (osum_none 4 _ k Hk). rewrite E. destruct (a i k); reflexivity. Qed.

Definition hasval (o : omat) (m : option mat) (no : omat -> Prop) : Prop := match m with Some M => sim 4 o M | None => no o end.
Lemma omul_val a b ma mb : hasval a ma bad4 -> hasval b mb colbad -> hasval (omul_n 4 a b) (let? m := mb in let? p := ma in Some (mmul 4 p m)) colbad.
Proof.
  intros Ha Hb. destruct mb as [B|]; cbn [obind].
  - destruct ma as [A|]; cbn [obind hasval] in *; [now apply omul_sim|]. destruct Ha as (i & k & Hi & Hk & E). intros j Hj. exists i. split; [exact Hi|]. now apply (omul_left a b i j k).
  - cbn [hasval] in *. intros j Hj. destruct (Hb j Hj) as (k & Hk & E). exists 0%nat. split; [lia|]. now apply (omul_right a b 0 j k).
Qed.

Lemma cdiv_val (a b : C) : b <> 0 -> cdiv a b = Some (a / b).
Proof. intros H. unfold cdiv. destruct (Ceq_dec b 0); [contradiction|reflexivity]. Qed.
Lemma cdiv_zero (a : C) : cdiv a 0 = None.
Proof. unfold cdiv. destruct (Ceq_dec 0 0); [reflexivity|contradiction]. Qed.

Lemma values_sim n o M : sim n o M -> exists v, values n o = Some v /\ meq n v M.
Proof.
  intros H. unfold values.
  assert (E : forallb (fun i => forallb (fun j => match o i j with Some _ => true | None => false end) (seq 0 n)) (seq 0 n) = true).
  { apply forallb_forall. intros i Hi. apply forallb_forall. intros j Hj. apply in_seq in Hi, Hj. rewrite H by lia. reflexivity. }
  rewrite E. eexists. split; [reflexivity|]. intros i j Hi Hj. rewrite H by assumption. reflexivity.
Qed.
Lemma values_bad n o i j : (i < n)%nat -> (j < n)%nat -> o i j = None -> values n o = None.
Proof.
  intros Hi Hj E. unfold values.
  destruct (forallb _ _) eqn:F; [|reflexivity]. rewrite forallb_forall in F. specialize (F i ltac:(apply in_seq; lia)). rewrite forallb_forall in F.
  specialize (F j ltac:(apply in_seq; lia)). rewrite E in F. discriminate.
Qed.
Lemma values_of_mat n (w : mat) : values n (of_mat w) = Some w.
Proof.
  unfold values, of_mat. assert (E : forallb (fun i : nat => forallb (fun j : nat => true) (seq 0 n)) (seq 0 n) = true).
  { apply forallb_forall. intros i _. apply forallb_forall. reflexivity. }
  rewrite E. reflexivity.
Qed.
Lemma sim_of_mat n w : sim n (of_mat w) w.
Proof. intros i j _ _. reflexivity. Qed.
Lemma sim_meq n o A B : meq n A B -> sim n o A -> sim n o B.
Proof. intros H S i j Hi Hj. rewrite S, H by assumption. reflexivity. Qed.

Lemma four i : (i < 4)%nat -> i = 0%nat \/ i = 1%nat \/ i = 2%nat \/ i = 3%nat.
Proof. lia. Qed.

Lemma delta_val (k : C) (e : omat) (E : mat) : sim 3 e E -> hasval (delta1 (Some k) e) (build_delta_matrix k E) bad4.
Proof.
  intros S. unfold build_delta_matrix. destruct (Ceq_dec (E 2%nat 2%nat) 0) as [Z|N]; cbn [hasval].
  - exists 0%nat, 0%nat. split; [lia|]. split; [lia|]. unfold delta1, omat_of. cbn [nth]. rewrite !S by lia. cbn [o1 option_map o2 obind odiv]. rewrite Z. apply cdiv_zero.
  - intros i j Hi Hj. unfold delta1, omat_of, mat_of.
    destruct (four i Hi) as [->|[->|[->| ->]]], (four j Hj) as [->|[->|[->| ->]]]; cbn [nth]; rewrite ?S by lia;
      cbn [o1 option_map o2 obind odiv]; rewrite ?cdiv_val by exact N; cbn [o2 obind]; reflexivity.
Qed.

Lemma iso_cos1 (k : C) (E : mat) : iso_n E <> 0 -> cos1 (Some k) (Some (E 0%nat 0%nat)) = Some (iso_cos k E).
Proof. intros N. unfold cos1. cbn [o1 option_map odiv obind]. fold (iso_n E). rewrite cdiv_val by exact N. reflexivity. Qed.

Lemma iso_exit_val (k : C) (E : mat) : hasval (iso1 (Some k) (Some (E 0%nat 0%nat)) false) (transition_matrix_iso_halfspace k E false) colbad.
Proof.
  unfold transition_matrix_iso_halfspace. destruct (Ceq_dec (iso_n E) 0) as [Z|N]; cbn [hasval].
  - assert (Cn : cos1 (Some k) (Some (E 0%nat 0%nat)) = None).
    { unfold cos1. cbn [o1 option_map odiv obind]. fold (iso_n E). rewrite Z, cdiv_zero. reflexivity. }
    intros j Hj. unfold iso1. rewrite Cn. destruct (four j Hj) as [->|[->|[->| ->]]]; [exists 2%nat|exists 2%nat|exists 0%nat|exists 0%nat]; (split; [lia|reflexivity]).
  - intros i j Hi Hj. unfold iso1. rewrite (iso_cos1 k E N). unfold omat_of, mat_of.
    destruct (four i Hi) as [->|[->|[->| ->]]], (four j Hj) as [->|[->|[->| ->]]]; reflexivity.
Qed.
Lemma iso_front_val (k : C) (E : mat) : hasval (iso1 (Some k) (Some (E 0%nat 0%nat)) true) (transition_matrix_iso_halfspace k E true) rowbad.
Proof.
  unfold transition_matrix_iso_halfspace. destruct (Ceq_dec (iso_n E) 0) as [Z|N]; cbn [hasval].
  - assert (Cn : cos1 (Some k) (Some (E 0%nat 0%nat)) = None).
    { unfold cos1. cbn [o1 option_map odiv obind]. fold (iso_n E). rewrite Z, cdiv_zero. reflexivity. }
    intros j Hj. unfold iso1. rewrite Cn. destruct (four j Hj) as [->|[->|[->| ->]]]; [exists 2%nat|exists 2%nat|exists 0%nat|exists 0%nat]; (split; [lia|reflexivity]).
  - destruct (Ceq_dec (iso_cos k E) 0) as [Zc|Nc]; cbn [hasval].
    + intros j Hj. unfold iso1. rewrite (iso_cos1 k E N), Zc. unfold omat_of. destruct (four j Hj) as [->|[->|[->| ->]]]; [exists 2%nat|exists 2%nat|exists 0%nat|exists 0%nat]; (split; [lia|]); cbn [nth o1 option_map odiv obind];
        rewrite cdiv_zero; reflexivity.
    + intros i j Hi Hj. unfold iso1. rewrite (iso_cos1 k E N). unfold omat_of, mscal, mat_of. cbn [o1 option_map]. fold (iso_n E).
      destruct (four i Hi) as [->|[->|[->| ->]]], (four j Hj) as [->|[->|[->| ->]]]; cbn [nth o1 option_map odiv obind]; rewrite ?(cdiv_val _ (iso_cos k E)) by exact Nc; cbn [odiv obind]; rewrite ?cdiv_val by exact N; reflexivity.
Qed.

Section Eigen.
Variable eig : mat -> option ((nat -> C) * mat).

Lemma prop_val p (d : omat) (D : option mat) t x : (p = Eig -> elementwise eig) -> hasval d D bad4 ->
  match prop1 eig p d t x with
  | Ok m => hasval m (let? D := D in single eig p D t x) bad4
  | Err e => (let? D := D in single eig p D t x) = None
  end.
Proof.
  intros eig_ext H. destruct p; cbn [prop1 single].
  - unfold propagator_linear. destruct D as [D|]; cbn [obind hasval] in *.
    + destruct (wave_number x) as [k|] eqn:W; cbn [obind hasval].
      * intros i j Hi Hj. unfold scaled1. rewrite W, (H i j Hi Hj). cbn [option_map o1 o2 obind]. unfold madd, mscal. f_equal. ring.
      * exists 0%nat, 0%nat. split; [lia|]. split; [lia|]. unfold scaled1. rewrite W. destruct (d 0%nat 0%nat); reflexivity.
    + destruct H as (i & j & Hi & Hj & E). exists i, j. split; [exact Hi|]. split; [exact Hj|]. unfold scaled1. rewrite E. reflexivity.
  - unfold propagator_expm. destruct D as [D|]; cbn [obind hasval] in *.
    + destruct (wave_number x) as [k|] eqn:W; cbn [obind hasval].
      * assert (S : sim 4 (fun i j => o1 (Cmult (Ci * RtoC t)) (scaled1 d x i j)) (mscal (Ci * RtoC t) (mscal (RtoC k) D))).
        { intros i j Hi Hj. unfold scaled1. rewrite W, (H i j Hi Hj). cbn [option_map o1 o2 obind]. unfold mscal. f_equal. ring. }
        destruct (values_sim _ _ _ S) as (v & -> & M). cbn [option_map of_opt]. apply (sim_meq 4 _ (mexp 4 v)); [now apply mexp_meq|apply sim_of_mat].
      * rewrite (values_bad 4 _ 0 0); [|lia|lia|unfold scaled1; rewrite W; destruct (d 0%nat 0%nat); reflexivity].
        exists 0%nat, 0%nat. split; [lia|]. split; [lia|reflexivity].
    + destruct H as (i & j & Hi & Hj & E). rewrite (values_bad 4 _ i j Hi Hj); [|unfold scaled1; rewrite E; reflexivity].
      exists 0%nat, 0%nat. split; [lia|]. split; [lia|reflexivity].
  - destruct D as [D|]; cbn [obind hasval] in *.
    + destruct (values_sim _ _ _ H) as (v & V & M). unfold eig_one. rewrite V, (eig_ext eq_refl v D M). destruct (eig D) as [qw|]; cbn [rbind obind]; [|reflexivity].
      unfold inv_one. rewrite values_of_mat. unfold propagator_eig. destruct qw as [q0 w0]. unfold sort1. cbn [fst snd].
      destruct (minv 4 (take_cols w0 (lexsort q0))) as [wi|]; cbn [rbind obind]; [|reflexivity].
      destruct (rdiv 1 x) as [e|] eqn:X; cbn [obind hasval].
      * apply omul_sim; [|apply sim_of_mat]. apply omul_sim; [apply sim_of_mat|]. intros i j Hi Hj. unfold exp1, mdiag. cbn [fst]. rewrite X. cbn [obind]. destruct (Nat.eqb i j); reflexivity.
      * exists 0%nat, 0%nat. split; [lia|]. split; [lia|]. apply (omul_left _ _ _ _ 0); [lia|]. apply (omul_right _ _ _ _ 0); [lia|]. unfold exp1. rewrite X. reflexivity.
    + destruct H as (i & j & Hi & Hj & E). unfold eig_one. rewrite (values_bad 4 d i j Hi Hj E). reflexivity.
Qed.

Lemma layers_val p (k : C) x : (p = Eig -> elementwise eig) -> forall (inner : list (R * omat)) (ls : list (R * mat)),
  Forall2 (fun l l' => fst l = fst l' /\ sim 3 (snd l) (snd l')) inner ls ->
  forall ex (M : option mat), (match ex with Ok m => hasval m M colbad | Err _ => M = None end) ->
  match layers1 eig p (Some k) x inner ex with
  | Ok m => hasval m (let? M := M in layer_product (single eig p) k x ls M) colbad
  | Err _ => (let? M := M in layer_product (single eig p) k x ls M) = None
  end.
Proof.
  intros eig_ext inner ls F ex M H. unfold layers1. rewrite <- fold_left_rev_right, rev_involutive.
  induction F as [|l l' inner ls [E S] F IH]; cbn [fold_right].
  - unfold layer_product. cbn [fold_right]. destruct ex as [m|e]; [destruct M; exact H|subst M; reflexivity].
  - set (acc := fold_right _ ex inner) in *.
    set (LP := let? M0 := M in layer_product (single eig p) k x ls M0) in *.
    assert (EQ : (let? M0 := M in layer_product (single eig p) k x (l' :: ls) M0) =
      let? m := LP in let? P := (let? D := build_delta_matrix k (snd l') in single eig p D (- fst l')%R x) in Some (mmul 4 P m)).
    { unfold LP. destruct M as [M0|]; cbn [obind]; [|reflexivity]. unfold layer_product. cbn [fold_right].
      destruct (fold_right _ (Some M0) ls) as [m|]; cbn [obind]; [|reflexivity]. destruct (build_delta_matrix k (snd l')); reflexivity. }
    rewrite EQ. clear EQ. destruct acc as [m|e]; cbn [rbind].
    + assert (PV := prop_val p _ _ (- fst l')%R x eig_ext (delta_val k _ _ S)). rewrite E.
      destruct (prop1 eig p (delta1 (Some k) (snd l)) (- fst l')%R x) as [mp|e]; cbn [rbind].
      * exact (omul_val mp m _ LP PV IH).
      * rewrite PV. destruct LP; reflexivity.
    + rewrite IH. reflexivity.
Qed.

(** The Jones matrices from the exit matrix *)
Lemma point_val p iso th x (ef eb : omat) inner (Ef : mat) ls (M : option mat) : (p = Eig -> elementwise eig) ->
  ef 0%nat 0%nat = Some (Ef 0%nat 0%nat) ->
  Forall2 (fun l l' => fst l = fst l' /\ sim 3 (snd l) (snd l')) inner ls ->
  (match exit1 eig iso (Some (reduced_k_x th Ef)) eb with Ok m => hasval m M colbad | Err _ => M = None end) ->
  match point4 eig p iso th x ef inner eb with
  | Ok (r, t) => match (let? M := M in jones4 (single eig p) th x Ef ls M) with
      | Some (J_r, J_t) => sim 2 r J_r /\ sim 2 t J_t
      | None => forall i j, (i < 2)%nat -> (j < 2)%nat -> r i j = None /\ t i j = None
      end
  | Err _ => (let? M := M in jones4 (single eig p) th x Ef ls M) = None
  end.
Proof.
  intros eig_ext Hf F H. unfold point4, transfer1. rewrite Hf.
  assert (K : kx1 th (Some (Ef 0%nat 0%nat)) = Some (reduced_k_x th Ef)) by reflexivity. rewrite K. clear K.
  assert (LV := layers_val p (reduced_k_x th Ef) x eig_ext inner ls F _ M H).
  assert (EQ : (let? M0 := M in jones4 (single eig p) th x Ef ls M0) =
    let? m_t := (let? M0 := M in layer_product (single eig p) (reduced_k_x th Ef) x ls M0) in
    let? m_lf := transition_matrix_iso_halfspace (reduced_k_x th Ef) Ef true in
    let m := mmul 4 m_lf m_t in
    let? t_ti := minv 2 (mat_of [[m 2%nat 2%nat; m 2%nat 0%nat]; [m 0%nat 2%nat; m 0%nat 0%nat]]) in
    Some (mmul 2 (mat_of [[m 3%nat 2%nat; m 3%nat 0%nat]; [m 1%nat 2%nat; m 1%nat 0%nat]]) t_ti, t_ti)).
  { unfold jones4. destruct M; reflexivity. }
  rewrite EQ. clear EQ H.
  destruct (layers1 eig p (Some (reduced_k_x th Ef)) x inner _) as [m|e]; cbn [rbind].
  2:{ rewrite LV. reflexivity. }
  set (lp := let? M0 := M in layer_product (single eig p) (reduced_k_x th Ef) x ls M0) in *.
  assert (FV := iso_front_val (reduced_k_x th Ef) Ef).
  set (f := iso1 _ _ true) in *.
  assert (MV : match (let? m_t := lp in let? m_lf := transition_matrix_iso_halfspace (reduced_k_x th Ef) Ef true in Some (mmul 4 m_lf m_t)) with
    | Some A => sim 4 (omul_n 4 f m) A | None => allbad (omul_n 4 f m) end).
  { destruct lp as [A|]; cbn [obind hasval] in *.
    - destruct (transition_matrix_iso_halfspace (reduced_k_x th Ef) Ef true) as [B|]; cbn [obind hasval] in *; [now apply omul_sim|].
      intros i j Hi Hj. destruct (FV i Hi) as (q & Hq & E). now apply (omul_left f m i j q).
    - intros i j Hi Hj. destruct (LV j Hj) as (q & Hq & E). now apply (omul_right f m i j q). }
  assert (NONE : allbad (omul_n 4 f m) ->
    match (let* t := inv_one 2 (sub [2; 0]%nat [2; 0]%nat (omul_n 4 f m)) in Ok (omul_n 2 (sub [3; 1]%nat [2; 0]%nat (omul_n 4 f m)) t, t)) with
    | Ok (r, t) => forall i j, (i < 2)%nat -> (j < 2)%nat -> r i j = None /\ t i j = None | Err _ => True end).
  { intros B. unfold inv_one. rewrite (values_bad 2 _ 0 0); [|lia|lia|unfold sub; cbn [nth]; apply B; lia]. cbn [rbind]. intros i j Hi Hj.
    split; [|reflexivity]. apply (osum_none 2 _ 0); [lia|]. unfold sub. cbn [nth]. rewrite B; [reflexivity| |lia]. destruct i as [|[|i]]; cbn; lia. }
  destruct lp as [A|]; cbn [obind] in *.
  2:{ specialize (NONE MV). destruct (let* t := _ in _) as [[r t]|]; [exact NONE|reflexivity]. }
  destruct (transition_matrix_iso_halfspace (reduced_k_x th Ef) Ef true) as [B|]; cbn [obind] in *.
  2:{ specialize (NONE MV). destruct (let* t := _ in _) as [[r t]|]; [exact NONE|reflexivity]. }
  clear NONE. cbv zeta. set (P := mmul 4 B A) in *.
  assert (S1 : sim 2 (sub [2; 0]%nat [2; 0]%nat (omul_n 4 f m)) (mat_of [[P 2%nat 2%nat; P 2%nat 0%nat]; [P 0%nat 2%nat; P 0%nat 0%nat]])).
  { intros i j Hi Hj. unfold sub, mat_of. destruct i as [|[|i]], j as [|[|j]]; try lia; cbn [nth]; apply MV; lia. }
  assert (S2 : sim 2 (sub [3; 1]%nat [2; 0]%nat (omul_n 4 f m)) (mat_of [[P 3%nat 2%nat; P 3%nat 0%nat]; [P 1%nat 2%nat; P 1%nat 0%nat]])).
  { intros i j Hi Hj. unfold sub, mat_of. destruct i as [|[|i]], j as [|[|j]]; try lia; cbn [nth]; apply MV; lia. }
  destruct (values_sim _ _ _ S1) as (v & V & Mv). unfold inv_one. rewrite V.
  destruct (minv 2 v) as [vi|] eqn:MI; cbn [rbind].
  - destruct (minv_meq 2 v _ vi (or_introl eq_refl) Mv MI) as (B' & -> & MB). cbn [obind]. 
    assert (S3 : sim 2 (of_mat vi) B') by (apply (sim_meq 2 _ vi); [now symmetry|apply sim_of_mat]).
    split; [|exact S3]. apply omul_sim; assumption.
  - destruct (minv 2 (mat_of [[P 2%nat 2%nat; P 2%nat 0%nat]; [P 0%nat 2%nat; P 0%nat 0%nat]])) as [B'|] eqn:MB; [|reflexivity].
    destruct (minv_meq 2 _ v B' (or_introl eq_refl) (fun i j Hi Hj => eq_sym (Mv i j Hi Hj)) MB) as (B'' & Q & _). congruence.
Qed.
End Eigen.
