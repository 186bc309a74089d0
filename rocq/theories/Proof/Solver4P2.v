From Coq Require Import Reals Lra Psatz Lia.
From Coquelicot Require Import Complex.
From Coq Require Import List.
From Verif.Base Require Import Py Cx Mat Mexp Det.
From Verif.Model Require Import Units Ellips Structure Solver4.
From Verif.Proof Require Import UnitsP DispersionsP Solver4P.
Import ListNotations.
Open Scope R_scope.
Open Scope C_scope.
Open Scope py_scope.

(** The exact transfer matrix of the layers *)
Definition delta_of (k_x : C) (eps : mat) : mat := match build_delta_matrix k_x eps with Some D => D | None => mzero end.
Definition layer_mat (k_x : C) (lb : R) (l : R * mat) : mat := mexp 4 (mscal (phase lb (- fst l)) (delta_of k_x (snd l))).
Fixpoint tmat (k_x : C) (lb : R) (ls : list (R * mat)) : mat :=
  match ls with [] => mid | l :: r => mmul 4 (layer_mat k_x lb l) (tmat k_x lb r) end.

Definition eps_ok (ls : list (R * mat)) : Prop := Forall (fun l => snd l 2%nat 2%nat <> RtoC 0) ls.
Definition lb_ok (lb : R) (ls : list (R * mat)) : Prop := ls = [] \/ lb <> 0%R.

Lemma delta_some k_x (eps : mat) : eps 2%nat 2%nat <> 0 -> build_delta_matrix k_x eps = Some (delta_of k_x eps).
Proof. intros N. unfold delta_of, build_delta_matrix. destruct (Ceq_dec (eps 2%nat 2%nat) 0); [contradiction|reflexivity]. Qed.
Lemma delta_inv k_x (eps : mat) D : build_delta_matrix k_x eps = Some D -> eps 2%nat 2%nat <> 0 /\ D = delta_of k_x eps.
Proof.
  intros H. unfold delta_of. rewrite H. split; [|reflexivity]. unfold build_delta_matrix in H.
  destruct (Ceq_dec (eps 2%nat 2%nat) 0); [discriminate|assumption].
Qed.

(** A propagator that is exact for the given layers, and one that also never fails *)
Definition exact (prop : mat -> R -> R -> option mat) (k_x : C) (lb : R) (ls : list (R * mat)) : Prop :=
  Forall (fun l => forall P, prop (delta_of k_x (snd l)) (- fst l)%R lb = Some P ->
    lb <> 0%R /\ meq 4 P (layer_mat k_x lb l)) ls.
Definition total (prop : mat -> R -> R -> option mat) (k_x : C) (lb : R) (ls : list (R * mat)) : Prop :=
  Forall (fun l => lb <> 0%R -> exists P, prop (delta_of k_x (snd l)) (- fst l)%R lb = Some P) ls.

Lemma expm_exact k_x lb ls : exact propagator_expm k_x lb ls.
Proof. apply Forall_forall. intros l _ P H. now apply expm_inv in H. Qed.
Lemma expm_total k_x lb ls : total propagator_expm k_x lb ls.
Proof. apply Forall_forall. intros l _ L. destruct (expm_some (delta_of k_x (snd l)) (- fst l) lb L) as (P & H & _). eauto. Qed.

Lemma lp_inv prop k_x lb ls m X : exact prop k_x lb ls -> layer_product prop k_x lb ls m = Some X ->
  eps_ok ls /\ lb_ok lb ls /\ meq 4 X (mmul 4 (tmat k_x lb ls) m).
Proof.
  intros E. revert X. induction E as [|l ls H _ IH]; intros X; cbn [layer_product fold_right tmat].
  - intros K. apply Some_eq in K. subst X. split; [constructor|]. split; [now left|]. symmetry. apply mmul_1_l.
  - fold (layer_product prop k_x lb ls m). destruct (layer_product prop k_x lb ls m) as [Y|]; [|discriminate]. cbn [obind].
    destruct (build_delta_matrix k_x (snd l)) as [D|] eqn:B; [|discriminate]. apply delta_inv in B. destruct B as [B ->]. cbn [obind].
    destruct (prop (delta_of k_x (snd l)) (- fst l)%R lb) as [P|] eqn:EP; [|discriminate]. cbn [obind]. intros K. apply Some_eq in K. subst X.
    destruct (H P eq_refl) as [L M]. destruct (IH Y eq_refl) as (I1 & I2 & I3).
    split; [constructor; assumption|]. split; [now right|]. rewrite M, I3. apply mmul_assoc.
Qed.
Lemma lp_some prop k_x lb ls m : exact prop k_x lb ls -> total prop k_x lb ls -> eps_ok ls -> lb_ok lb ls ->
  exists X, layer_product prop k_x lb ls m = Some X /\ meq 4 X (mmul 4 (tmat k_x lb ls) m).
Proof.
  intros E T O L. assert (S : exists X, layer_product prop k_x lb ls m = Some X).
  { clear E. destruct L as [->|L]; [now eexists|]. induction T as [|l ls H _ IH]; cbn [layer_product fold_right]; [eauto|].
    inversion O as [|x y O1 O2]; subst. destruct (IH O2) as [Y HY]. fold (layer_product prop k_x lb ls m). rewrite HY. cbn [obind].
    rewrite delta_some by exact O1. cbn [obind]. destruct (H L) as [P ->]. cbn [obind]. eauto. }
  destruct S as [X H]. exists X. split; [exact H|]. now apply (lp_inv prop k_x lb ls m X E H).
Qed.

Lemma tmat_app k_x lb a b : meq 4 (tmat k_x lb (a ++ b)) (mmul 4 (tmat k_x lb a) (tmat k_x lb b)).
Proof. induction a as [|l a IH]; cbn [app tmat]; [symmetry; apply mmul_1_l|]. rewrite IH. apply mmul_assoc. Qed.
Lemma layer_mat_0 k_x lb e : meq 4 (layer_mat k_x lb (0%R, e)) mid.
Proof. unfold layer_mat. cbn [fst snd]. rewrite Ropp_0. apply mexp_phase_0. Qed.
Lemma layer_mat_plus k_x lb a b e : meq 4 (layer_mat k_x lb ((a + b)%R, e)) (mmul 4 (layer_mat k_x lb (a, e)) (layer_mat k_x lb (b, e))).
Proof. unfold layer_mat. cbn [fst snd]. rewrite Ropp_plus_distr. apply mexp_phase_plus. Qed.

(** The Jones matrices from the transfer matrix *)
Definition kmat (k_x : C) (lb : R) (eps_f : mat) (ls : list (R * mat)) (m_exit : mat) : mat :=
  mmul 4 (isoLi (iso_n eps_f) (iso_cos k_x eps_f)) (mmul 4 (tmat k_x lb ls) m_exit).
Definition t_it (K : mat) : mat := mat_of [[K 2%nat 2%nat; K 2%nat 0%nat]; [K 0%nat 2%nat; K 0%nat 0%nat]].
Definition t_rt (K : mat) : mat := mat_of [[K 3%nat 2%nat; K 3%nat 0%nat]; [K 1%nat 2%nat; K 1%nat 0%nat]].
Lemma t_it_meq K K' : meq 4 K K' -> meq 2 (t_it K) (t_it K').
Proof. intros E. mexpl; unfold t_it, mat_of; cbn [nth]; apply E; lia. Qed.
Lemma t_rt_meq K K' : meq 4 K K' -> meq 2 (t_rt K) (t_rt K').
Proof. intros E. mexpl; unfold t_rt, mat_of; cbn [nth]; apply E; lia. Qed.

Lemma good2 : good_size 2. Proof. now left. Qed.
Lemma good4 : good_size 4. Proof. now right. Qed.

Lemma jones4_inv prop th lb eps_f ls m_exit Jr Jt : let k_x := reduced_k_x th eps_f in exact prop k_x lb ls ->
  jones4 prop th lb eps_f ls m_exit = Some (Jr, Jt) ->
  eps_ok ls /\ lb_ok lb ls /\ iso_n eps_f <> 0 /\ iso_cos k_x eps_f <> 0 /\
  is_inverse 2 (t_it (kmat k_x lb eps_f ls m_exit)) Jt /\
  meq 2 Jr (mmul 2 (t_rt (kmat k_x lb eps_f ls m_exit)) Jt).
Proof.
  intros k_x E. unfold jones4. fold k_x. destruct (layer_product prop k_x lb ls m_exit) as [X|] eqn:LP; [|discriminate]. cbn [obind].
  apply lp_inv in LP; [|exact E]. destruct LP as (O & L & M).
  destruct (transition_matrix_iso_halfspace k_x eps_f true) as [F|] eqn:TF; [|discriminate]. cbn [obind].
  apply iso_L_some in TF. destruct TF as (N & Cz & ->). specialize (Cz eq_refl).
  set (K := mmul 4 (isoLi (iso_n eps_f) (iso_cos k_x eps_f)) X).
  assert (EK : meq 4 K (kmat k_x lb eps_f ls m_exit)) by (unfold K, kmat; rewrite M; reflexivity).
  fold (t_it K). fold (t_rt K). destruct (minv 2 (t_it K)) as [V|] eqn:I; [|discriminate]. cbn [obind].
  intros H. apply Some_eq in H. injection H as <- <-.
  apply minv_inverse in I; [|exact good2].
  do 4 (split; [assumption|]). split; [|now rewrite (t_rt_meq _ _ EK)].
  destruct I as [I1 I2]. split; rewrite <- (t_it_meq _ _ EK); assumption.
Qed.
Lemma jones4_some prop th lb eps_f ls m_exit V : let k_x := reduced_k_x th eps_f in exact prop k_x lb ls -> total prop k_x lb ls ->
  eps_ok ls -> lb_ok lb ls -> iso_n eps_f <> 0 -> iso_cos k_x eps_f <> 0 ->
  is_inverse 2 (t_it (kmat k_x lb eps_f ls m_exit)) V ->
  exists Jr Jt, jones4 prop th lb eps_f ls m_exit = Some (Jr, Jt) /\ meq 2 Jt V /\
    meq 2 Jr (mmul 2 (t_rt (kmat k_x lb eps_f ls m_exit)) V).
Proof.
  intros k_x E T O L N Cz I. destruct (lp_some prop k_x lb ls m_exit E T O L) as (X & LP & M).
  set (K := mmul 4 (isoLi (iso_n eps_f) (iso_cos k_x eps_f)) X).
  assert (EK : meq 4 K (kmat k_x lb eps_f ls m_exit)) by (unfold K, kmat; rewrite M; reflexivity).
  assert (I' : is_inverse 2 (t_it K) V) by (destruct I as [I1 I2]; split; rewrite (t_it_meq _ _ EK); assumption).
  destruct (minv_some 2 _ _ good2 I') as (V' & MI & EV).
  exists (mmul 2 (t_rt K) V'), V'. split.
  - unfold jones4. fold k_x. rewrite LP. cbn [obind]. rewrite iso_Li_eq by assumption. cbn [obind]. fold K. fold (t_it K). fold (t_rt K).
    rewrite MI. reflexivity.
  - split; [exact EV|]. rewrite (t_rt_meq _ _ EK), EV. reflexivity.
Qed.

(** Amplitudes and fields *)
Definition waves (ap as_ bp bs : C) : nat -> C := vec_of [as_; bs; ap; bp].

Lemma mvec_meq n A B u v : meq n A B -> veq n u v -> veq n (mvec n A u) (mvec n B v).
Proof. intros E F i Hi. unfold mvec. apply csum_ext. intros j Hj. now rewrite E, F. Qed.
Lemma veq_refl n u : veq n u u. Proof. intros i _. reflexivity. Qed.
Lemma veq_sym n u v : veq n u v -> veq n v u. Proof. intros H i Hi. now rewrite H. Qed.
Lemma veq_trans n u v w : veq n u v -> veq n v w -> veq n u w. Proof. intros H K i Hi. now rewrite H, K. Qed.
Lemma mvec_mid n v : veq n (mvec n mid v) v.
Proof.
  intros i Hi. unfold mvec, mid. rewrite (csum_single n _ i Hi); [rewrite Nat.eqb_refl; ring|].
  intros k Hk D. destruct (Nat.eqb_spec i k); [congruence|ring].
Qed.
Lemma mvec_inv n A B u v : is_inverse n A B -> (veq n (mvec n A u) v <-> veq n u (mvec n B v)).
Proof.
  intros [I1 I2]. split; intros H.
  - apply veq_trans with (mvec n (mmul n B A) u).
    + apply veq_trans with (mvec n mid u); [apply veq_sym, mvec_mid|]. apply mvec_meq; [now symmetry|apply veq_refl].
    + eapply veq_trans; [apply mvec_mul|]. apply mvec_meq; [reflexivity|exact H].
  - apply veq_trans with (mvec n A (mvec n B v)); [apply mvec_meq; [reflexivity|exact H]|].
    eapply veq_trans; [apply veq_sym, mvec_mul|]. eapply veq_trans; [|apply mvec_mid]. apply mvec_meq; [exact I1|apply veq_refl].
Qed.

Definition vec2 (a b : C) : nat -> C := vec_of [a; b].
Lemma kmat_fields K V ap as_ bp bs tp ts : is_inverse 2 (t_it K) V ->
  (veq 4 (mvec 4 K (waves tp ts 0 0)) (waves ap as_ bp bs) <->
   veq 2 (vec2 tp ts) (mvec 2 V (vec2 ap as_)) /\ veq 2 (vec2 bp bs) (mvec 2 (mmul 2 (t_rt K) V) (vec2 ap as_))).
Proof.
  intros I.
  assert (A : veq 4 (mvec 4 K (waves tp ts 0 0)) (waves ap as_ bp bs) <->
    veq 2 (mvec 2 (t_it K) (vec2 tp ts)) (vec2 ap as_) /\ veq 2 (mvec 2 (t_rt K) (vec2 tp ts)) (vec2 bp bs)).
  { unfold mvec, waves, vec2, vec_of, t_it, t_rt, mat_of, veq. split.
    - intros H. assert (H0 := H 0%nat ltac:(lia)). assert (H1 := H 1%nat ltac:(lia)). assert (H2 := H 2%nat ltac:(lia)). assert (H3 := H 3%nat ltac:(lia)).
      clear H. unfold csum in *. cbn [nth] in *. split; intros i Hi; idx i; cbn [nth].
      + rewrite <- H2. ring.
      + rewrite <- H0. ring.
      + rewrite <- H3. ring.
      + rewrite <- H1. ring.
    - intros [H H']. assert (H0 := H 0%nat ltac:(lia)). assert (H1 := H 1%nat ltac:(lia)). assert (H2 := H' 0%nat ltac:(lia)). assert (H3 := H' 1%nat ltac:(lia)).
      clear H H'. unfold csum in *. cbn [nth] in *. intros i Hi; idx i; cbn [nth].
      + rewrite <- H1. ring.
      + rewrite <- H3. ring.
      + rewrite <- H0. ring.
      + rewrite <- H2. ring. }
  rewrite A, (mvec_inv 2 _ V _ _ I). split; intros [H1 H2]; (split; [exact H1|]).
  - eapply veq_trans; [apply veq_sym, H2|]. eapply veq_trans; [|apply veq_sym, mvec_mul]. apply mvec_meq; [reflexivity|exact H1].
  - eapply veq_trans; [apply mvec_meq; [reflexivity|exact H1]|]. eapply veq_trans; [apply veq_sym, mvec_mul|]. apply veq_sym, H2.
Qed.

(** Fields in front and behind *)
Lemma fields_kmat k_x lb eps_f ls m_exit ap as_ bp bs tp ts : iso_n eps_f <> 0 -> iso_cos k_x eps_f <> 0 ->
  (veq 4 (mvec 4 (isoL (iso_n eps_f) (iso_cos k_x eps_f)) (waves ap as_ bp bs))
         (mvec 4 (tmat k_x lb ls) (mvec 4 m_exit (waves tp ts 0 0))) <->
   veq 4 (mvec 4 (kmat k_x lb eps_f ls m_exit) (waves tp ts 0 0)) (waves ap as_ bp bs)).
Proof.
  intros N K. rewrite (mvec_inv 4 _ _ _ _ (iso_inverse _ _ N K)). unfold kmat.
  assert (Q : veq 4 (mvec 4 (mmul 4 (isoLi (iso_n eps_f) (iso_cos k_x eps_f)) (mmul 4 (tmat k_x lb ls) m_exit)) (waves tp ts 0 0))
    (mvec 4 (isoLi (iso_n eps_f) (iso_cos k_x eps_f)) (mvec 4 (tmat k_x lb ls) (mvec 4 m_exit (waves tp ts 0 0))))).
  { eapply veq_trans; [apply mvec_mul|]. apply mvec_meq; [reflexivity|apply mvec_mul]. }
  split; intros H.
  - eapply veq_trans; [exact Q|]. apply veq_sym, H.
  - eapply veq_trans; [apply veq_sym, H|exact Q].
Qed.
