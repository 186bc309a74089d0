From Coq Require Import Reals Lra Psatz Lia.
From Coquelicot Require Import Complex.
From Coq Require Import List.
From Verif.Base Require Import Py Cx Mat Mexp Det.
From Verif.Model Require Import Units Ellips Structure Solver2 Solver4.
From Verif.Spec Require Import Stack Maxwell Tensor.
From Verif.Proof Require Import UnitsP DispersionsP StackP Solver2P Solver2P2 Solver2P3 Solver2P4 Solver4P Solver4P2 Solver4P3.
Import ListNotations.
Open Scope R_scope.
Open Scope C_scope.
Open Scope py_scope.

(** An isotropic layer *)
Definition layer_n (e : C) : C := Csqrt e.
Definition layer_c (kx e : C) : C := Ccos (Casin (kx / Csqrt e)).
Lemma layer_nc kx (e : C) : e <> 0 -> Csqrt e * Csqrt e * (layer_c kx e * layer_c kx e) = Csqrt e * Csqrt e - kx * kx.
Proof. intros N. unfold layer_c. rewrite Ccos_Casin, (Csqrt_sqr (1 - kx / Csqrt e * (kx / Csqrt e))). field. now apply Csqrt_neq0. Qed.

Lemma layer_mat_iso kx lb d (eps : mat) (e : C) : e <> 0 -> layer_c kx e <> 0 -> isotropic eps e ->
  let q := Csqrt e * layer_c kx e in
  let a := Cexp (phase lb (- d) * q) in let b := Cexp (phase lb (- d) * - q) in
  meq 4 (layer_mat kx lb (d, eps))
        (mmul 4 (mmul 4 (isoL (Csqrt e) (layer_c kx e)) (mdiag (vec_of [a; b; a; b]))) (isoLi (Csqrt e) (layer_c kx e))).
Proof.
  intros N K I q a b. destruct (delta_iso kx eps e N I) as (D & E & M). unfold layer_mat, delta_of. cbn [fst snd]. rewrite E.
  assert (Nn : Csqrt e <> 0) by now apply Csqrt_neq0.
  rewrite (mexp_meq 4 _ (mscal (phase lb (- d)) (iso_delta kx e))) by (rewrite M; reflexivity).
  assert (EG := iso_eigen kx (Csqrt e) (layer_c kx e) Nn (layer_nc kx e N)). cbv zeta in EG. rewrite Csqrt_sqr in EG.
  rewrite (mexp_decomp_scal 4 (phase lb (- d)) _ _ _ _ (iso_inverse _ _ Nn K) EG).
  apply mmul_proper; [|reflexivity]. apply mmul_proper; [reflexivity|].
  intros i j Hi Hj. unfold mdiag, vec_of. destruct (Nat.eqb i j); [|reflexivity]. idx i; reflexivity.
Qed.

(** Its action on the fields of both polarisations *)
Definition s_field (u v : C) : nat -> C := vec_of [RtoC 0; u; - v; RtoC 0].
Definition p_field (u v : C) : nat -> C := vec_of [v; RtoC 0; RtoC 0; u].

Lemma phase_k0 lb d : (lb <> 0)%R -> phase lb (- d) = - (Ci * (k0 lb * RtoC d)).
Proof. intros L. unfold phase, k0. rewrite RtoC_opp, RtoC_div, RtoC_mult by exact L. Cfield. Qed.

Lemma isoLi_s (n c u v : C) : n <> 0 -> c <> 0 ->
  veq 4 (mvec 4 (isoLi n c) (s_field u v)) (vec_of [(u / 1 + v / (n * c)) / 2; (u / 1 - v / (n * c)) / 2; RtoC 0; RtoC 0]).
Proof.
  intros N K i Hi. unfold mvec, isoLi, mscal, s_field, vec_of, mat_of, csum. rewrite half_C. idx i; cbn [nth]; Cfield.
Qed.
Lemma isoLi_p (n c u v : C) : n <> 0 -> c <> 0 ->
  veq 4 (mvec 4 (isoLi n c) (p_field u v)) (vec_of [RtoC 0; RtoC 0; (u / n + v / c) / 2; (u / n - v / c) / 2]).
Proof.
  intros N K i Hi. unfold mvec, isoLi, mscal, p_field, vec_of, mat_of, csum. rewrite half_C. idx i; cbn [nth]; Cfield.
Qed.
Lemma mdiag4 (a b c d x y z w : C) : veq 4 (mvec 4 (mdiag (vec_of [a; b; c; d])) (vec_of [x; y; z; w])) (vec_of [a * x; b * y; c * z; d * w]).
Proof. intros i Hi. unfold mvec, mdiag, vec_of, csum. idx i; cbn [nth Nat.eqb]; ring. Qed.

Lemma layer_fields kx lb d (eps : mat) (e u v : C) : (lb <> 0)%R -> e <> 0 -> layer_c kx e <> 0 -> isotropic eps e ->
  let l := layer_of (k0 lb) kx (d, e) in
  (let (u', v') := front_fields [char_layer char_s l] u v 1 in
   veq 4 (mvec 4 (layer_mat kx lb (d, eps)) (s_field u v)) (s_field u' v')) /\
  (let (u', v') := front_fields [char_layer char_p l] u v 1 in
   veq 4 (mvec 4 (layer_mat kx lb (d, eps)) (p_field u v)) (p_field u' v')).
Proof.
  intros L N K I l. assert (Nn : Csqrt e <> 0) by now apply Csqrt_neq0.
  assert (M := layer_mat_iso kx lb d eps e N K I). cbv zeta in M.
  unfold l, layer_of, char_layer, char_s, char_p. cbn [fst snd front_fields]. fold (layer_c kx e).
  set (c := layer_c kx e) in *. set (n := Csqrt e) in *.
  assert (Ea : phase lb (- d) * (n * c) = - (Ci * (k0 lb * n * c * RtoC d))) by (rewrite phase_k0 by exact L; ring).
  assert (Eb : phase lb (- d) * - (n * c) = Ci * (k0 lb * n * c * RtoC d)) by (rewrite phase_k0 by exact L; ring).
  rewrite Ea, Eb in M. set (a := Cexp (- (Ci * (k0 lb * n * c * RtoC d)))) in *. set (b := Cexp (Ci * (k0 lb * n * c * RtoC d))) in *.
  clearbody a b n c. clear Ea Eb.
  split; (eapply veq_trans; [apply mvec_meq; [exact M|apply veq_refl]|];
    eapply veq_trans; [apply mvec_mul|]; eapply veq_trans; [apply mvec_mul|]).
  - eapply veq_trans; [apply mvec_meq; [reflexivity|apply mvec_meq; [reflexivity|apply isoLi_s; assumption]]|].
    eapply veq_trans; [apply mvec_meq; [reflexivity|apply mdiag4]|].
    intros i Hi. unfold mvec, isoL, s_field, vec_of, mat_of, csum. idx i; cbn [nth]; unfold Cdiv; ring.
  - eapply veq_trans; [apply mvec_meq; [reflexivity|apply mvec_meq; [reflexivity|apply isoLi_p; assumption]]|].
    eapply veq_trans; [apply mvec_meq; [reflexivity|apply mdiag4]|].
    intros i Hi. unfold mvec, isoL, p_field, vec_of, mat_of, csum. idx i; cbn [nth]; unfold Cdiv; ring.
Qed.

Definition iso_layers (ls : list (R * mat)) (ls' : list (R * C)) : Prop :=
  Forall2 (fun l l' => fst l = fst l' /\ isotropic (snd l) (snd l')) ls ls'.

Lemma front_cons l ls pb qb : front_fields (l :: ls) pb qb 1 =
  front_fields [l] (fst (front_fields ls pb qb 1)) (snd (front_fields ls pb qb 1)) 1.
Proof. destruct l as [[p q] d]. cbn [front_fields]. destruct (front_fields ls pb qb 1) as [u v]. cbn [fst snd]. now rewrite !Cmult_1_r. Qed.

Lemma tmat_iso kx lb ls ls' (u v : C) : (lb <> 0)%R -> iso_layers ls ls' ->
  Forall (fun l => snd l <> RtoC 0 /\ layer_c kx (snd l) <> RtoC 0) ls' ->
  let cs := map (layer_of (k0 lb) kx) ls' in
  (let uv := front_fields (map (char_layer char_s) cs) u v 1 in
   veq 4 (mvec 4 (tmat kx lb ls) (s_field u v)) (s_field (fst uv) (snd uv))) /\
  (let uv := front_fields (map (char_layer char_p) cs) u v 1 in
   veq 4 (mvec 4 (tmat kx lb ls) (p_field u v)) (p_field (fst uv) (snd uv))).
Proof.
  intros L H F. cbv zeta. induction H as [|[d eps] [d' e] ls ls' [E I] _ IH].
  - cbn [map front_fields fst snd tmat]. rewrite !Cmult_1_r. split; apply mvec_mid.
  - inversion F as [|x y [N K] F']; subst. cbn [fst snd] in *. subst d'. destruct (IH F') as [IS IP]. cbn [map tmat].
    rewrite (front_cons _ (map (char_layer char_s) (map (layer_of (k0 lb) kx) ls'))), (front_cons _ (map (char_layer char_p) (map (layer_of (k0 lb) kx) ls'))).
    set (us := front_fields (map (char_layer char_s) _) u v 1) in *. set (up := front_fields (map (char_layer char_p) _) u v 1) in *.
    destruct (layer_fields kx lb d eps e (fst us) (snd us) L N K I) as [S _].
    destruct (layer_fields kx lb d eps e (fst up) (snd up) L N K I) as [_ P].
    cbv zeta in S, P. destruct (front_fields [char_layer char_s _] (fst us) (snd us) 1) as [us1 us2].
    destruct (front_fields [char_layer char_p _] (fst up) (snd up) 1) as [up1 up2]. cbn [fst snd].
    split; (eapply veq_trans; [apply mvec_mul|]; eapply veq_trans; [apply mvec_meq; [reflexivity|]; eassumption|]; assumption).
Qed.

(** The matrix K of an isotropic stack *)
Lemma kmat_iso kx lb (eps_f : mat) ls ls' (nb cb : C) : (lb <> 0)%R -> iso_layers ls ls' -> iso_n eps_f <> 0 -> iso_cos kx eps_f <> 0 ->
  Forall (fun l => snd l <> RtoC 0 /\ layer_c kx (snd l) <> RtoC 0) ls' ->
  let K := kmat kx lb eps_f ls (isoL nb cb) in
  let cs := map (layer_of (k0 lb) kx) ls' in
  let nf := iso_n eps_f in let cf := iso_cos kx eps_f in
  let irs := inc_ref (RtoC 1, nf * cf) (map (char_layer char_s) cs) (RtoC 1, nb * cb) in
  let irp := inc_ref (nf, cf) (map (char_layer char_p) cs) (nb, cb) in
  meq 2 (t_it K) (mat_of [[fst irp; RtoC 0]; [RtoC 0; fst irs]]) /\
  meq 2 (t_rt K) (mat_of [[snd irp; RtoC 0]; [RtoC 0; snd irs]]).
Proof.
  intros L H N Cz F. cbv zeta. destruct (tmat_iso kx lb ls ls' 1 (nb * cb) L H F) as [S _]. destruct (tmat_iso kx lb ls ls' nb cb L H F) as [_ P].
  cbv zeta in S, P. unfold inc_ref. cbn [fst snd].
  destruct (front_fields (map (char_layer char_s) _) _ _ _) as [us vs]. destruct (front_fields (map (char_layer char_p) _) _ _ _) as [up vp]. cbn [fst snd] in *.
  assert (C0 : veq 4 (fun i => mmul 4 (tmat kx lb ls) (isoL nb cb) i 0%nat) (s_field us vs)).
  { eapply veq_trans; [|exact S]. intros i Hi. unfold mmul, mvec. apply csum_ext. intros j Hj. f_equal. unfold isoL, mat_of, s_field, vec_of. idx j; cbn [nth]; ring. }
  assert (C2 : veq 4 (fun i => mmul 4 (tmat kx lb ls) (isoL nb cb) i 2%nat) (p_field up vp)).
  { eapply veq_trans; [|exact P]. intros i Hi. unfold mmul, mvec. apply csum_ext. intros j Hj. f_equal. unfold isoL, mat_of, p_field, vec_of. idx j; cbn [nth]; ring. }
  set (X := mmul 4 (tmat kx lb ls) (isoL nb cb)) in *.
  assert (K0 : forall i, (i < 4)%nat -> kmat kx lb eps_f ls (isoL nb cb) i 0%nat = mvec 4 (isoLi (iso_n eps_f) (iso_cos kx eps_f)) (s_field us vs) i).
  { intros i Hi. unfold kmat. fold X. unfold mmul, mvec. apply csum_ext. intros j Hj. f_equal. apply (C0 j Hj). }
  assert (K2 : forall i, (i < 4)%nat -> kmat kx lb eps_f ls (isoL nb cb) i 2%nat = mvec 4 (isoLi (iso_n eps_f) (iso_cos kx eps_f)) (p_field up vp) i).
  { intros i Hi. unfold kmat. fold X. unfold mmul, mvec. apply csum_ext. intros j Hj. f_equal. apply (C2 j Hj). }
  assert (S0 := isoLi_s (iso_n eps_f) (iso_cos kx eps_f) us vs N Cz). assert (P0 := isoLi_p (iso_n eps_f) (iso_cos kx eps_f) up vp N Cz).
  split; intros i j Hi Hj; unfold t_it, t_rt, mat_of; idx i; idx j; cbn [nth]; rewrite ?K0, ?K2 by lia;
    rewrite ?S0, ?P0 by lia; reflexivity.
Qed.
