From Coq Require Import Reals Lra Psatz Lia.
From Coquelicot Require Import Complex.
From Coq Require Import List.
From Verif.Base Require Import Py Cx Mat Mexp Det.
From Verif.Model Require Import Units Ellips Structure Solver4.
From Verif.Spec Require Import Tensor Turned.
From Verif.Proof Require Import UnitsP DispersionsP Solver4P Solver4P2 Solver4P5 Solver4P6 ModesP.
Import ListNotations.
Open Scope R_scope.
Open Scope C_scope.
Open Scope py_scope.

(** The components of moved tensors *)
Lemma moved_elem Q eps eps' i j : moved Q eps eps' -> (i < 3)%nat -> (j < 3)%nat ->
  eps' i j = csum 3 (fun b => csum 3 (fun a => Q i a * eps a b) * Q j b).
Proof. intros M Hi Hj. rewrite (M i j Hi Hj). reflexivity. Qed.

Ltac elems M := let go i j := (let E := fresh "E" in assert (E := moved_elem _ _ _ i j M ltac:(lia) ltac:(lia))) in
  go 0%nat 0%nat; go 0%nat 1%nat; go 0%nat 2%nat; go 1%nat 0%nat; go 1%nat 1%nat; go 1%nat 2%nat; go 2%nat 0%nat; go 2%nat 1%nat; go 2%nat 2%nat.

(** Transfer matrices of stacks whose delta matrices are similar *)
Lemma mexp_similar n A A' W V : is_inverse n W V -> meq n A' (mmul n (mmul n W A) V) ->
  meq n (mexp n A') (mmul n (mmul n W (mexp n A)) V).
Proof. intros I E. rewrite (mexp_meq n _ _ E). unfold mexp. now apply mexpt_similar. Qed.

Lemma layer_similar kx kx' lb l l' W V : is_inverse 4 W V -> fst l' = fst l ->
  meq 4 (delta_of kx' (snd l')) (mmul 4 (mmul 4 W (delta_of kx (snd l))) V) ->
  meq 4 (layer_mat kx' lb l') (mmul 4 (mmul 4 W (layer_mat kx lb l)) V).
Proof.
  intros I F E. unfold layer_mat. rewrite F. apply (mexp_similar 4 (mscal (phase lb (- fst l)) (delta_of kx (snd l)))); [exact I|].
  rewrite E, mmul_scal_r, mmul_scal_l. reflexivity.
Qed.
Lemma tmat_similar kx kx' lb ls ls' W V : is_inverse 4 W V ->
  Forall2 (fun l l' => fst l' = fst l /\ meq 4 (delta_of kx' (snd l')) (mmul 4 (mmul 4 W (delta_of kx (snd l))) V)) ls ls' ->
  meq 4 (tmat kx' lb ls') (mmul 4 (mmul 4 W (tmat kx lb ls)) V).
Proof.
  intros I F. induction F as [|l l' ls ls' [F E] _ IH]; cbn [tmat].
  - rewrite mmul_1_r. symmetry. apply I.
  - rewrite (layer_similar kx kx' lb l l' W V I F E), IH. destruct I as [_ I].
    rewrite <- !mmul_assoc. rewrite (mmul_assoc 4 V W), I, mmul_1_l. reflexivity.
Qed.

(** Reciprocity: the form E1 x H2 - E2 x H1 along z *)
Definition Bf : mat := mat_of [[RtoC 0; RtoC 0; RtoC 0; RtoC 1]; [RtoC 0; RtoC 0; RtoC (-1); RtoC 0];
  [RtoC 0; RtoC 1; RtoC 0; RtoC 0]; [RtoC (-1); RtoC 0; RtoC 0; RtoC 0]].
Definition Bi : mat := mat_of [[RtoC 0; RtoC 0; RtoC 0; RtoC (-1)]; [RtoC 0; RtoC 0; RtoC 1; RtoC 0];
  [RtoC 0; RtoC (-1); RtoC 0; RtoC 0]; [RtoC 1; RtoC 0; RtoC 0; RtoC 0]].
Lemma B_inv : is_inverse 4 Bf Bi.
Proof. split; mexpl; unfold mmul, Bf, Bi, mid, mat_of, csum; cbn [nth Nat.eqb]; apply C_ext; simpl; ring. Qed.
Definition form (u v : nat -> C) : C := csum 4 (fun i => u i * mvec 4 Bf v i).
Lemma form_eq u v : form u v = u 0%nat * v 3%nat - u 1%nat * v 2%nat + u 2%nat * v 1%nat - u 3%nat * v 0%nat.
Proof. unfold form, mvec, Bf, mat_of, csum. cbn [nth]. replace (RtoC (-1)) with (- RtoC 1) by (apply C_ext; simpl; ring). ring. Qed.
Lemma form_veq u u' v v' : veq 4 u u' -> veq 4 v v' -> form u v = form u' v'.
Proof.
  intros A B. rewrite !form_eq. rewrite (A 0%nat ltac:(lia)), (A 1%nat ltac:(lia)), (A 2%nat ltac:(lia)), (A 3%nat ltac:(lia)).
  now rewrite (B 0%nat ltac:(lia)), (B 1%nat ltac:(lia)), (B 2%nat ltac:(lia)), (B 3%nat ltac:(lia)).
Qed.
Lemma form_mat X Y u v : form (mvec 4 X u) (mvec 4 Y v) = csum 4 (fun i => u i * mvec 4 (mmul 4 (mtr X) (mmul 4 Bf Y)) v i).
Proof. rewrite form_eq. unfold mvec, mmul, mtr, Bf, mat_of, csum. cbn [nth]. replace (RtoC (-1)) with (- RtoC 1) by (apply C_ext; simpl; ring). ring. Qed.

(** dual X Y: the form is kept by X and Y. *)
Definition dual (X Y : mat) : Prop := meq 4 (mmul 4 (mtr X) (mmul 4 Bf Y)) Bf.
Lemma dual_form X Y u v : dual X Y -> form (mvec 4 X u) (mvec 4 Y v) = form u v.
Proof. intros D. rewrite form_mat. unfold form. apply csum_ext. intros i Hi. f_equal. apply mvec_meq; [exact D|apply veq_refl|exact Hi]. Qed.
Lemma dual_mul X Y X' Y' : dual X Y -> dual X' Y' -> dual (mmul 4 X X') (mmul 4 Y Y').
Proof.
  unfold dual. intros D D'. rewrite mtr_mul, <- mmul_assoc. rewrite (mmul_assoc 4 Bf Y Y'), (mmul_assoc 4 (mtr X)), D. exact D'.
Qed.
Lemma dual_exp (z : C) D D' : meq 4 (mmul 4 (mtr D) Bf) (mscal (RtoC (-1)) (mmul 4 Bf D')) ->
  dual (mexp 4 (mscal z D)) (mexp 4 (mscal z D')).
Proof.
  intros E. unfold dual. set (X := mscal z (mtr D)).
  assert (EX : meq 4 (mmul 4 Bf (mscal z D')) (mmul 4 (mscal (RtoC (-1)) X) Bf)).
  { rewrite mmul_scal_r. unfold X. rewrite mscal_mscal, mmul_scal_l. intros i j Hi Hj. assert (K := E i j Hi Hj). unfold mscal in *. rewrite K.
    replace (RtoC (-1)) with (- RtoC 1) by (apply C_ext; simpl; ring). ring. }
  assert (S : meq 4 (mmul 4 Bf (mexp 4 (mscal z D'))) (mmul 4 (mexp 4 (mscal (RtoC (-1)) X)) Bf)).
  { assert (I := B_inv). assert (Q := mexp_similar 4 (mscal z D') (mscal (RtoC (-1)) X) Bf Bi I).
    assert (H : meq 4 (mscal (RtoC (-1)) X) (mmul 4 (mmul 4 Bf (mscal z D')) Bi)).
    { rewrite EX, <- mmul_assoc. destruct I as [I _]. rewrite I, mmul_1_r. reflexivity. }
    rewrite (Q H). rewrite <- (mmul_assoc 4 _ Bi Bf). destruct I as [_ I]. rewrite I, mmul_1_r. reflexivity. }
  rewrite S, mmul_assoc.
  assert (T : meq 4 (mtr (mexp 4 (mscal z D))) (mexp 4 X)).
  { unfold mexp. rewrite mexpt_tr. apply mexpt_meq. reflexivity. }
  rewrite T, mexp_scal. destruct (mexp_inv 4 X) as [I _]. rewrite I, mmul_1_l. reflexivity.
Qed.

Lemma delta_some_of kx (eps : mat) : eps 2%nat 2%nat <> 0 -> delta_of kx eps = match build_delta_matrix kx eps with Some D => D | None => mzero end.
Proof. reflexivity. Qed.
Ltac ndelta N := unfold delta_of, build_delta_matrix; repeat (destruct (Ceq_dec _ 0) as [?|?]; [exfalso; eauto|]).

(** Half a turn about z *)
Lemma half_turn_elem eps eps' : moved (z_turn PI) eps eps' -> forall i j, (i < 3)%nat -> (j < 3)%nat ->
  eps' i j = if Bool.eqb (Nat.eqb i 2) (Nat.eqb j 2) then eps i j else - eps i j.
Proof.
  intros M i j Hi Hj. rewrite (moved_elem _ _ _ i j M Hi Hj). unfold z_turn, mat_of, csum. rewrite cos_PI, sin_PI.
  replace (RtoC (-1)) with (- RtoC 1) by (apply C_ext; simpl; ring). replace (RtoC (- 0)) with (RtoC 0) by (apply C_ext; simpl; ring).
  idx i; idx j; cbn [nth Nat.eqb Bool.eqb]; ring.
Qed.
Lemma delta_half_turn kx eps eps' : reciprocal eps -> moved (z_turn PI) eps eps' -> eps 2%nat 2%nat <> 0 ->
  meq 4 (mmul 4 (mtr (delta_of kx eps)) Bf) (mscal (RtoC (-1)) (mmul 4 Bf (delta_of kx eps'))).
Proof.
  intros S M N. assert (H := half_turn_elem eps eps' M).
  assert (N' : eps' 2%nat 2%nat <> 0) by (rewrite H by lia; exact N).
  assert (E10 : eps 1%nat 0%nat = eps 0%nat 1%nat) by (symmetry; apply (S 1%nat 0%nat); lia).
  assert (E20 : eps 2%nat 0%nat = eps 0%nat 2%nat) by (symmetry; apply (S 2%nat 0%nat); lia).
  assert (E21 : eps 2%nat 1%nat = eps 1%nat 2%nat) by (symmetry; apply (S 2%nat 1%nat); lia).
  unfold delta_of, build_delta_matrix. destruct (Ceq_dec (eps 2%nat 2%nat) 0); [contradiction|]. destruct (Ceq_dec (eps' 2%nat 2%nat) 0); [contradiction|].
  assert (RM : RtoC (-1) = - RtoC 1) by (apply C_ext; simpl; ring).
  mexpl; unfold mmul, mtr, mscal, Bf, mat_of, csum; cbn [nth]; rewrite ?H by lia; cbn [Nat.eqb Bool.eqb]; rewrite ?RM, ?E10, ?E20, ?E21; field; exact N.
Qed.
Lemma tmat_half_turn kx lb ls ls' : Forall (fun l => reciprocal (snd l)) ls -> moved_layers (z_turn PI) ls ls' -> eps_ok ls ->
  dual (tmat kx lb ls) (tmat kx lb ls').
Proof.
  intros S M O. induction M as [|l l' ls ls' [F M] _ IH]; cbn [tmat].
  - unfold dual. rewrite mmul_1_r, mtr_mid. apply mmul_1_l.
  - inversion S; inversion O; subst. apply dual_mul; [|now apply IH].
    unfold layer_mat. rewrite F. apply dual_exp. now apply delta_half_turn.
Qed.

(** The fields belonging to the Jones matrices, for any exit matrix *)
Lemma jones4_fields prop th lb (eps_f : mat) ls M Jr Jt : let kx := reduced_k_x th eps_f in
  exact prop kx lb ls -> jones4 prop th lb eps_f ls M = Some (Jr, Jt) ->
  eps_ok ls /\ lb_ok lb ls /\ iso_n eps_f <> 0 /\ iso_cos kx eps_f <> 0 /\
  forall ap as_ bp bs tp ts,
    veq 4 (mvec 4 (isoL (iso_n eps_f) (iso_cos kx eps_f)) (waves ap as_ bp bs))
          (mvec 4 (tmat kx lb ls) (mvec 4 M (waves tp ts 0 0))) <->
    jones_rel Jr ap as_ bp bs /\ jones_rel Jt ap as_ tp ts.
Proof.
  intros kx G J. apply jones4_inv in J; [|exact G]. destruct J as (O & L & Nf & Cf & I & R). fold kx in Cf, I, R.
  do 4 (split; [assumption|]). intros ap as_ bp bs tp ts.
  rewrite (fields_kmat kx lb eps_f ls _ ap as_ bp bs tp ts Nf Cf), (kmat_fields _ Jt ap as_ bp bs tp ts I). unfold jones_rel.
  assert (R' : veq 2 (mvec 2 (mmul 2 (t_rt (kmat kx lb eps_f ls M)) Jt) (vec2 ap as_)) (mvec 2 Jr (vec2 ap as_))).
  { apply mvec_meq; [now symmetry|apply veq_refl]. }
  split.
  - intros [Q1 Q2]. assert (Q3 := veq_trans 2 _ _ _ Q2 R'). clear Q2 R'.
    assert (A0 := Q1 0%nat ltac:(lia)). assert (A1 := Q1 1%nat ltac:(lia)). assert (B0 := Q3 0%nat ltac:(lia)). assert (B1 := Q3 1%nat ltac:(lia)).
    unfold mvec, vec2, vec_of, csum in A0, A1, B0, B1. cbn [nth] in *. rewrite A0, A1, B0, B1. repeat split; ring.
  - intros ((B0 & B1) & A0 & A1). split; [|eapply veq_trans; [|apply veq_sym, R']]; intros i Hi; unfold mvec, vec2, vec_of, csum; idx i; cbn [nth];
      [rewrite A0|rewrite A1|rewrite B0|rewrite B1]; ring.
Qed.

Lemma form_iso (n c ap as_ bp bs ap' as' bp' bs' : C) :
  form (mvec 4 (isoL n c) (waves ap as_ bp bs)) (mvec 4 (isoL n c) (waves ap' as' bp' bs')) =
  2 * (n * c) * ((ap * bp' - bp * ap') - (as_ * bs' - bs * as')).
Proof. rewrite form_eq. unfold mvec, isoL, waves, vec_of, mat_of, csum. cbn [nth]. replace (RtoC 2) with (1 + 1) by (apply C_ext; simpl; ring). ring. Qed.

(** Exit matrices whose transmitted waves are orthogonal in the form *)
Definition conjugate_exits (M M' : mat) : Prop := forall tp ts tp' ts',
  form (mvec 4 M (waves tp ts 0 0)) (mvec 4 M' (waves tp' ts' 0 0)) = 0.

Lemma onsager prop prop' th lb (eps_f : mat) ls ls' M M' Jr Jt Jr' Jt' : let kx := reduced_k_x th eps_f in
  exact prop kx lb ls -> exact prop' kx lb ls' -> dual (tmat kx lb ls) (tmat kx lb ls') -> conjugate_exits M M' ->
  jones4 prop th lb eps_f ls M = Some (Jr, Jt) -> jones4 prop' th lb eps_f ls' M' = Some (Jr', Jt') ->
  Jr' 0%nat 0%nat = Jr 0%nat 0%nat /\ Jr' 1%nat 1%nat = Jr 1%nat 1%nat /\
  Jr' 0%nat 1%nat = - Jr 1%nat 0%nat /\ Jr' 1%nat 0%nat = - Jr 0%nat 1%nat.
Proof.
  intros kx E E' D X J J'.
  destruct (jones4_fields prop th lb eps_f ls M Jr Jt E J) as (O & L & Nf & Cf & F).
  destruct (jones4_fields prop' th lb eps_f ls' M' Jr' Jt' E' J') as (_ & _ & _ & _ & F'). fold kx in Cf, F, F'.
  assert (K : forall ap as_ ap' as', ap * (Jr' 0%nat 0%nat * ap' + Jr' 0%nat 1%nat * as') - (Jr 0%nat 0%nat * ap + Jr 0%nat 1%nat * as_) * ap' =
    as_ * (Jr' 1%nat 0%nat * ap' + Jr' 1%nat 1%nat * as') - (Jr 1%nat 0%nat * ap + Jr 1%nat 1%nat * as_) * as').
  { intros ap as_ ap' as'.
    destruct (F ap as_ (Jr 0%nat 0%nat * ap + Jr 0%nat 1%nat * as_) (Jr 1%nat 0%nat * ap + Jr 1%nat 1%nat * as_)
      (Jt 0%nat 0%nat * ap + Jt 0%nat 1%nat * as_) (Jt 1%nat 0%nat * ap + Jt 1%nat 1%nat * as_)) as [_ G].
    specialize (G ltac:(unfold jones_rel; auto)).
    destruct (F' ap' as' (Jr' 0%nat 0%nat * ap' + Jr' 0%nat 1%nat * as') (Jr' 1%nat 0%nat * ap' + Jr' 1%nat 1%nat * as')
      (Jt' 0%nat 0%nat * ap' + Jt' 0%nat 1%nat * as') (Jt' 1%nat 0%nat * ap' + Jt' 1%nat 1%nat * as')) as [_ G'].
    specialize (G' ltac:(unfold jones_rel; auto)).
    assert (Z := form_veq _ _ _ _ G G'). rewrite (dual_form _ _ _ _ D), X, form_iso in Z.
    apply C_integral in Z. destruct Z as [Z|Z].
    - exfalso. apply C_integral in Z. destruct Z as [Z|Z]; [apply RtoC_inj in Z; lra|]. apply C_integral in Z. tauto.
    - match type of Z with ?a - ?b = _ => transitivity (a - b + b); [ring|rewrite Z; ring] end. }
  assert (K00 := K 1 0 1 0). assert (K11 := K 0 1 0 1). assert (K01 := K 1 0 0 1). assert (K10 := K 0 1 1 0). clear - K00 K11 K01 K10.
  repeat split.
  - match type of K00 with ?a = ?b => transitivity (a + Jr 0%nat 0%nat); [ring|rewrite K00; ring] end.
  - match type of K11 with ?a = ?b => transitivity (b + Jr 1%nat 1%nat); [ring|rewrite <- K11; ring] end.
  - match type of K01 with ?a = ?b => transitivity a; [ring|rewrite K01; ring] end.
  - match type of K10 with ?a = ?b => transitivity b; [ring|rewrite <- K10; ring] end.
Qed.

Lemma iso_exits n c : conjugate_exits (isoL n c) (isoL n c).
Proof. intros tp ts tp' ts'. rewrite form_iso. ring. Qed.

(** The forward modes of an exit medium and of the medium after half a turn *)
Lemma forward_sum q q' : forward_value q -> forward_value q' -> q + q' <> 0.
Proof.
  intros F F' Z. assert (R1 := f_equal Re Z). assert (I1 := f_equal Im Z). unfold forward_value, Re, Im in *.
  destruct q as [a b], q' as [a' b']. simpl in *. lra.
Qed.
Lemma modes_form D D' q q' u v : meq 4 (mmul 4 (mtr D) Bf) (mscal (RtoC (-1)) (mmul 4 Bf D')) ->
  veq 4 (mvec 4 D u) (fun i => q * u i) -> veq 4 (mvec 4 D' v) (fun i => q' * v i) -> q + q' <> 0 -> form u v = 0.
Proof.
  intros E U V N.
  assert (A : form (mvec 4 D u) v = - form u (mvec 4 D' v)).
  { assert (K : form (mvec 4 D u) v = csum 4 (fun i => u i * mvec 4 (mmul 4 (mtr D) Bf) v i)).
    { rewrite form_eq. unfold mvec, mmul, mtr, Bf, mat_of, csum. cbn [nth]. replace (RtoC (-1)) with (- RtoC 1) by (apply C_ext; simpl; ring). ring. }
    rewrite K. transitivity (csum 4 (fun i => u i * mvec 4 (mscal (RtoC (-1)) (mmul 4 Bf D')) v i)).
    { apply csum_ext. intros i Hi. f_equal. apply mvec_meq; [exact E|apply veq_refl|exact Hi]. }
    rewrite form_eq. unfold mvec, mmul, mscal, Bf, mat_of, csum. cbn [nth]. replace (RtoC (-1)) with (- RtoC 1) by (apply C_ext; simpl; ring). ring. }
  rewrite (form_veq _ _ _ _ U (veq_refl 4 v)), (form_veq _ _ _ _ (veq_refl 4 u) V) in A. rewrite !form_eq in A.
  assert (Z : (q + q') * form u v = 0).
  { rewrite form_eq. match type of A with ?a = ?b => transitivity (a - b); [ring|rewrite A; ring] end. }
  apply C_integral in Z. tauto.
Qed.

Lemma sorted_mode delta eig k : eigen_decomposition 4 delta eig -> (k < 4)%nat ->
  veq 4 (mvec 4 delta (fun i => take_cols (snd eig) (lexsort (fst eig)) i k))
    (fun i => take_vec (fst eig) (lexsort (fst eig)) k * take_cols (snd eig) (lexsort (fst eig)) i k).
Proof.
  intros [E _] Hk i Hi. unfold mvec, take_cols, take_vec. apply (E i (nth k (lexsort (fst eig)) 0%nat) Hi).
  apply perm_lt; [apply lexsort_perm|exact Hk].
Qed.
Lemma modes_exits D D' eig eig' M M' : meq 4 (mmul 4 (mtr D) Bf) (mscal (RtoC (-1)) (mmul 4 Bf D')) ->
  eigen_decomposition 4 D eig -> eigen_decomposition 4 D' eig' -> two_forward (fst eig) -> two_forward (fst eig') ->
  transition_matrix_halfspace eig = Some M -> transition_matrix_halfspace eig' = Some M' -> conjugate_exits M M'.
Proof.
  intros E G G' T T' H H' tp ts tp' ts'.
  destruct (halfspace_cols eig M H) as (a & b & x & y & AB & _ & _ & Cl).
  destruct (halfspace_cols eig' M' H') as (a' & b' & x' & y' & AB' & _ & _ & Cl').
  set (S := take_cols (snd eig) (lexsort (fst eig))) in *. set (S' := take_cols (snd eig') (lexsort (fst eig'))) in *.
  assert (Z : forall k k', (k < 2)%nat -> (k' < 2)%nat -> form (fun i => S i k) (fun i => S' i k') = 0).
  { intros k k' Hk Hk'. apply (modes_form D D' _ _ _ _ E (sorted_mode D eig k G ltac:(lia)) (sorted_mode D' eig' k' G' ltac:(lia))).
    apply forward_sum; apply lexsort_forward; (assumption || lia). }
  assert (A2 : (a < 2)%nat /\ (b < 2)%nat) by lia. assert (A2' : (a' < 2)%nat /\ (b' < 2)%nat) by lia.
  assert (Zaa := Z a a' (proj1 A2) (proj1 A2')). assert (Zab := Z a b' (proj1 A2) (proj2 A2')).
  assert (Zba := Z b a' (proj2 A2) (proj1 A2')). assert (Zbb := Z b b' (proj2 A2) (proj2 A2')). clear Z.
  rewrite form_eq in *. unfold mvec, waves, vec_of, csum. cbn [nth].
  destruct (Cl 0%nat) as [C00 C02], (Cl 1%nat) as [C10 C12], (Cl 2%nat) as [C20 C22], (Cl 3%nat) as [C30 C32].
  destruct (Cl' 0%nat) as [D00 D02], (Cl' 1%nat) as [D10 D12], (Cl' 2%nat) as [D20 D22], (Cl' 3%nat) as [D30 D32].
  rewrite C00, C02, C10, C12, C20, C22, C30, C32, D00, D02, D10, D12, D20, D22, D30, D32.
  cbv beta in *.
  match type of Zaa with ?e = _ => set (faa := e) in * end. match type of Zab with ?e = _ => set (fab := e) in * end.
  match type of Zba with ?e = _ => set (fba := e) in * end. match type of Zbb with ?e = _ => set (fbb := e) in * end.
  transitivity (ts * ts' * x * x' * faa + ts * tp' * x * y' * fab + tp * ts' * y * x' * fba + tp * tp' * y * y' * fbb);
    [unfold faa, fab, fba, fbb; ring|rewrite Zaa, Zab, Zba, Zbb; ring].
Qed.
