From Coq Require Import Reals Lra Psatz Lia.
From Coquelicot Require Import Complex.
From Coq Require Import List.
From Verif.Base Require Import Py Cx Mat Mexp Det.
From Verif.Model Require Import Units Ellips Structure Solver2 Solver4.
From Verif.Spec Require Import Tensor.
From Verif.Proof Require Import UnitsP DispersionsP StructureP StackP Solver2P Solver2P2 Solver2P3 Solver2P4 Solver4P Solver4P2 Solver4P3 Solver4P4.
Import ListNotations.
Open Scope R_scope.
Open Scope C_scope.
Open Scope py_scope.

(** Results up to equality of the matrix elements *)
Definition same_jones (a b : option (mat * mat)) : Prop :=
  match a, b with
  | Some (r, t), Some (r', t') => meq 2 r r' /\ meq 2 t t'
  | None, None => True
  | _, _ => False
  end.
Definition same_result4 (a b : option result4) : Prop :=
  match a, b with
  | Some x, Some y => meq 2 (jones_r4 x) (jones_r4 y) /\ meq 2 (jones_t4 x) (jones_t4 y) /\ power_correction4 x = power_correction4 y
  | None, None => True
  | _, _ => False
  end.
Lemma same_result4_sym a b : same_result4 a b -> same_result4 b a.
Proof. destruct a, b; cbn; auto. intros (A & B & D). repeat split; symmetry; assumption. Qed.

Definition good_prop prop k_x lb ls := exact prop k_x lb ls /\ total prop k_x lb ls.

Lemma jones4_congr1 prop prop' th lb (eps_f : mat) ls ls' X X' Jr Jt : let k_x := reduced_k_x th eps_f in
  exact prop k_x lb ls -> good_prop prop' k_x lb ls' ->
  (eps_ok ls -> lb_ok lb ls -> eps_ok ls' /\ lb_ok lb ls' /\ meq 4 (tmat k_x lb ls) (tmat k_x lb ls')) -> meq 4 X X' ->
  jones4 prop th lb eps_f ls X = Some (Jr, Jt) ->
  exists Jr' Jt', jones4 prop' th lb eps_f ls' X' = Some (Jr', Jt') /\ meq 2 Jr Jr' /\ meq 2 Jt Jt'.
Proof.
  intros k_x E [E' T'] H EX J. apply jones4_inv in J; [|exact E]. destruct J as (O & L & N & K & I & R). fold k_x in I, R, K.
  destruct (H O L) as (O' & L' & M).
  assert (EK : meq 4 (kmat k_x lb eps_f ls X) (kmat k_x lb eps_f ls' X')) by (unfold kmat; rewrite M, EX; reflexivity).
  assert (I' : is_inverse 2 (t_it (kmat k_x lb eps_f ls' X')) Jt).
  { destruct I as [I1 I2]. split; rewrite <- (t_it_meq _ _ EK); assumption. }
  destruct (jones4_some prop' th lb eps_f ls' X' Jt E' T' O' L' N K I') as (Jr' & Jt' & J & A & B).
  exists Jr', Jt'. split; [exact J|]. split; [|now symmetry]. fold k_x in B. rewrite R, B, (t_rt_meq _ _ EK). reflexivity.
Qed.
Lemma jones4_congr prop prop' th lb (eps_f : mat) ls ls' X X' : let k_x := reduced_k_x th eps_f in
  good_prop prop k_x lb ls -> good_prop prop' k_x lb ls' ->
  (eps_ok ls /\ lb_ok lb ls <-> eps_ok ls' /\ lb_ok lb ls') ->
  (eps_ok ls -> lb_ok lb ls -> meq 4 (tmat k_x lb ls) (tmat k_x lb ls')) -> meq 4 X X' ->
  same_jones (jones4 prop th lb eps_f ls X) (jones4 prop' th lb eps_f ls' X').
Proof.
  intros k_x G G' OK M EX.
  destruct (jones4 prop th lb eps_f ls X) as [[Jr Jt]|] eqn:J.
  - destruct (jones4_congr1 prop prop' th lb eps_f ls ls' X X' Jr Jt) as (Jr' & Jt' & J' & A & B); auto; [apply G|tauto|].
    rewrite J'. cbn. auto.
  - destruct (jones4 prop' th lb eps_f ls' X') as [[Jr' Jt']|] eqn:J'; [|exact I].
    destruct (jones4_congr1 prop' prop th lb eps_f ls' ls X' X Jr' Jt') as (a & b & c & _); auto; [apply G'| |now symmetry|congruence].
    intros O L. destruct (proj2 OK (conj O L)) as [O1 L1]. split; [exact O1|]. split; [exact L1|]. symmetry. now apply M.
Qed.
Lemma solver4_congr prop prop' th lb (eps_f : mat) ls ls' eps_b : let k_x := reduced_k_x th eps_f in
  good_prop prop k_x lb ls -> good_prop prop' k_x lb ls' ->
  (eps_ok ls /\ lb_ok lb ls <-> eps_ok ls' /\ lb_ok lb ls') ->
  (eps_ok ls -> lb_ok lb ls -> meq 4 (tmat k_x lb ls) (tmat k_x lb ls')) ->
  same_result4 (solver4 prop th lb eps_f ls eps_b) (solver4 prop' th lb eps_f ls' eps_b).
Proof.
  intros k_x G G' OK M. unfold solver4. fold k_x. destruct (transition_matrix_iso_halfspace k_x eps_b false) as [X|]; [|exact I]. cbn [obind].
  assert (J := jones4_congr prop prop' th lb eps_f ls ls' X X G G' OK M ltac:(reflexivity)).
  destruct (jones4 prop th lb eps_f ls X) as [[a b]|], (jones4 prop' th lb eps_f ls' X) as [[a' b']|]; cbn in *; tauto.
Qed.
Lemma solver4_aniso_congr prop prop' th lb (eps_f : mat) ls ls' eps_b eig : let k_x := reduced_k_x th eps_f in
  good_prop prop k_x lb ls -> good_prop prop' k_x lb ls' ->
  (eps_ok ls /\ lb_ok lb ls <-> eps_ok ls' /\ lb_ok lb ls') ->
  (eps_ok ls -> lb_ok lb ls -> meq 4 (tmat k_x lb ls) (tmat k_x lb ls')) ->
  same_result4 (solver4_aniso prop th lb eps_f ls eps_b eig) (solver4_aniso prop' th lb eps_f ls' eps_b eig).
Proof.
  intros k_x G G' OK M. unfold solver4_aniso. fold k_x. destruct (build_delta_matrix k_x eps_b); [|exact I]. cbn [obind].
  destruct (transition_matrix_halfspace eig) as [X|]; [|exact I]. cbn [obind].
  assert (J := jones4_congr prop prop' th lb eps_f ls ls' X X G G' OK M ltac:(reflexivity)).
  destruct (jones4 prop th lb eps_f ls X) as [[a b]|], (jones4 prop' th lb eps_f ls' X) as [[a' b']|]; cbn in *; tauto.
Qed.

(** The propagators *)
Lemma expm_good k_x lb ls : good_prop propagator_expm k_x lb ls.
Proof. split; [apply expm_exact|apply expm_total]. Qed.

Lemma eig_meq n A e : eigen_decomposition n A e ->
  meq n (mmul n A (snd e)) (mmul n (snd e) (mdiag (fst e))) /\ exists v, is_inverse n (snd e) v.
Proof.
  intros [H V]. split; [|exact V]. intros i j Hi Hj. unfold mmul at 1. rewrite H by assumption. unfold mmul, mdiag.
  rewrite (csum_single n (fun k => snd e i k * _) j Hj).
  - cbv beta. rewrite Nat.eqb_refl. ring.
  - intros k Hk D. destruct (Nat.eqb_spec k j); [contradiction|ring].
Qed.
Definition eig_layers (eig : mat -> (nat -> C) * mat) (k_x : C) (ls : list (R * mat)) : Prop :=
  forall l delta, In l ls -> build_delta_matrix k_x (snd l) = Some delta -> eigen_decomposition 4 delta (eig delta).
Lemma eig_good eig k_x lb ls : eig_layers eig k_x ls -> eps_ok ls ->
  good_prop (fun delta => propagator_eig (eig delta)) k_x lb ls.
Proof.
  intros F O. assert (V : forall l, In l ls -> eigen_decomposition 4 (delta_of k_x (snd l)) (eig (delta_of k_x (snd l)))).
  { intros l Hl. apply (F l); [exact Hl|]. apply delta_some. exact (proj1 (Forall_forall _ _) O l Hl). }
  split; apply Forall_forall; intros l Hl; destruct (eig_meq _ _ _ (V l Hl)) as [V1 V2];
    destruct (eig (delta_of k_x (snd l))) as [q w] eqn:E; cbn [fst snd] in *;
    destruct (eig_expm _ q w (- fst l) lb V1) as [A B].
  - intros P H. apply A, H.
  - intros L. apply B; assumption.
Qed.

(** Slices of equal tensors *)
Lemma tmat_slices k_x lb (e : mat) ds : meq 4 (tmat k_x lb (map (fun d => (d, e)) ds)) (layer_mat k_x lb (Rsum ds, e)).
Proof.
  induction ds as [|d ds IH]; cbn [map tmat Rsum fold_right]; [symmetry; apply layer_mat_0|].
  rewrite IH. symmetry. apply layer_mat_plus.
Qed.

Lemma lp_eps prop k_x lb ls m X : layer_product prop k_x lb ls m = Some X -> eps_ok ls.
Proof.
  revert X. induction ls as [|l ls IH]; intros X; cbn [layer_product fold_right]; [constructor|].
  fold (layer_product prop k_x lb ls m). destruct (layer_product prop k_x lb ls m) as [Y|]; [|discriminate]. cbn [obind].
  destruct (build_delta_matrix k_x (snd l)) as [D|] eqn:B; [|discriminate]. apply delta_inv in B. intros _. constructor; [tauto|now apply (IH Y)].
Qed.
Lemma jones4_eps prop th lb eps_f ls X : ~ eps_ok ls -> jones4 prop th lb eps_f ls X = None.
Proof.
  intros N. unfold jones4. destruct (layer_product prop (reduced_k_x th eps_f) lb ls X) as [Y|] eqn:E; [|reflexivity].
  exfalso. apply N. eapply lp_eps, E.
Qed.
Lemma solver4_eps prop th lb eps_f ls eps_b : ~ eps_ok ls -> solver4 prop th lb eps_f ls eps_b = None.
Proof.
  intros N. unfold solver4. destruct (transition_matrix_iso_halfspace _ eps_b false); [|reflexivity]. cbn [obind].
  now rewrite jones4_eps.
Qed.
Lemma eps_dec ls : eps_ok ls \/ ~ eps_ok ls.
Proof.
  unfold eps_ok. destruct (Forall_dec (fun l : R * mat => snd l 2%nat 2%nat <> RtoC 0)) with (l := ls); [|now left|now right].
  intros x. destruct (Ceq_dec (snd x 2%nat 2%nat) 0) as [e|ne]; [right; intros K; now apply K|left; exact ne].
Qed.

(** Comparison with the 2x2 solver *)
Lemma isotropic_00 eps (e : C) : isotropic eps e -> eps 0%nat 0%nat = e.
Proof. intros I. rewrite I by lia. unfold mscal, mid. cbn [Nat.eqb]. ring. Qed.
Lemma iso_n_eq eps (e : C) : isotropic eps e -> iso_n eps = Csqrt e.
Proof. intros I. unfold iso_n. now rewrite (isotropic_00 eps e I). Qed.
Lemma kx_eq th eps (e : C) : isotropic eps e -> reduced_k_x th eps = kx_of th e.
Proof. intros I. unfold reduced_k_x, kx_of. now rewrite (isotropic_00 eps e I). Qed.

(** The wave of a half space is the principal one. *)
Definition forward (m : medium) : Prop := principal (Ccos (snd m)) /\ principal (fst m * Ccos (snd m)).

Lemma forward_cos kx eps (e : C) : e <> 0 -> isotropic eps e -> forward (half_of kx e) -> Ccos (snd (half_of kx e)) = iso_cos kx eps.
Proof.
  intros N I [F _]. unfold iso_cos. rewrite (iso_n_eq eps e I). apply Csqrt_unique; [exact F|].
  rewrite half_cos2 by exact N. rewrite <- (Csqrt_sqr e) at 1. field. now apply Csqrt_neq0.
Qed.
Lemma forward_kz kx eps (e : C) : e <> 0 -> isotropic eps e -> forward (half_of kx e) -> kz_half kx e = get_k_z eps kx.
Proof.
  intros N I [_ F]. unfold get_k_z. rewrite (isotropic_00 eps e I). apply Csqrt_unique; [exact F|].
  rewrite Csqrt_sqr. now apply kz_half_sqr.
Qed.

Lemma iso_eps_ok ls ls' : iso_layers ls ls' -> Forall (fun l => snd l <> RtoC 0) ls' -> eps_ok ls.
Proof.
  induction 1 as [|l l' ls ls' [_ I] _ IH]; intros F; [constructor|]. inversion F; subst. constructor; [|now apply IH].
  rewrite I by lia. unfold mscal, mid. cbn [Nat.eqb]. now rewrite Cmult_1_r.
Qed.

Lemma agree prop th lb (eps_f eps_b : mat) ls (e_f e_b : C) ls' p s :
  isotropic eps_f e_f -> isotropic eps_b e_b -> iso_layers ls ls' ->
  let k_x := reduced_k_x th eps_f in good_prop prop k_x lb ls ->
  rt_p (solver2 th lb e_f ls' e_b) = Some p -> rt_s (solver2 th lb e_f ls' e_b) = Some s ->
  forward (half_of k_x e_f) -> forward (half_of k_x e_b) ->
  exists r, solver4 prop th lb eps_f ls eps_b = Some r /\
    meq 2 (jones_r4 r) (mat_of [[fst p; RtoC 0]; [RtoC 0; fst s]]) /\
    meq 2 (jones_t4 r) (mat_of [[snd p; RtoC 0]; [RtoC 0; snd s]]) /\
    power_correction4 r = power_correction (solver2 th lb e_f ls' e_b).
Proof.
  intros If Ib Il k_x [Ex To] Hp Hs Ff Fb.
  destruct (rt_some false th lb e_f ls' e_b p Hp) as [(L & Nf & Nb & Fl) Ap]. destruct (rt_some true th lb e_f ls' e_b s Hs) as [_ As].
  assert (KX : k_x = kx_of th e_f) by (apply kx_eq; exact If). rewrite <- KX in *.
  destruct p as [rp tp], s as [rs ts].
  apply (amplitudes_iff (pf false) (pc false) (pf_char false)) in Ap. apply (amplitudes_iff (pf true) (pc true) (pf_char true)) in As.
  cbv zeta in Ap, As. destruct Ap as (NSp & Ip & Rp & Tp). destruct As as (NSs & Is & Rs & Ts). unfold pc in *.
  assert (Nn : iso_n eps_f <> 0) by (rewrite (iso_n_eq eps_f e_f If); now apply Csqrt_neq0).
  assert (Cf := forward_cos k_x eps_f e_f Nf If Ff). assert (Cb := forward_cos k_x eps_b e_b Nb Ib Fb).
  assert (Cz : iso_cos k_x eps_f <> 0).
  { rewrite <- Cf. destruct (map (char_layer char_p) _) in NSp; cbn [nonsing char_p fst snd] in NSp; tauto. }
  assert (LO : Forall (fun l => snd l <> RtoC 0 /\ layer_c k_x (snd l) <> RtoC 0) ls').
  { assert (K := nonsing_layers _ _ _ NSp). unfold layers_ok in K. apply Forall_forall. intros l Hl.
    split; [exact (proj1 (Forall_forall _ _) Fl l Hl)|]. rewrite map_map in K.
    assert (Q := proj1 (Forall_forall _ _) K (char_layer char_p (layer_of (k0 lb) k_x l))). cbn in Q.
    apply Q. apply in_map_iff. now exists l. }
  assert (KM := kmat_iso k_x lb eps_f ls ls' (iso_n eps_b) (iso_cos k_x eps_b) L Il Nn Cz LO). cbv zeta in KM.
  assert (Eqs : forall m, (char_s m = (RtoC 1, fst m * Ccos (snd m))) /\ char_p m = (fst m, Ccos (snd m))) by (intros m; split; reflexivity).
  rewrite !(proj1 (Eqs _)) in Is, Rs, Ts. rewrite !(proj2 (Eqs _)) in Ip, Rp, Tp.
  rewrite Cf, Cb in Is, Rs, Ts, Ip, Rp, Tp.
  change (fst (half_of k_x e_f)) with (Csqrt e_f) in *. change (fst (half_of k_x e_b)) with (Csqrt e_b) in *.
  rewrite <- (iso_n_eq eps_f e_f If), <- (iso_n_eq eps_b e_b Ib) in Is, Rs, Ts, Ip, Rp, Tp.
  set (irs := inc_ref (RtoC 1, _) _ _) in *. set (irp := inc_ref (iso_n eps_f, _) _ _) in *.
  set (K := kmat k_x lb eps_f ls _) in *. destruct KM as [KI KR].
  assert (INV : is_inverse 2 (t_it K) (mat_of [[tp; RtoC 0]; [RtoC 0; ts]])).
  { split; rewrite KI; mexpl; unfold mmul, mid, mat_of, csum; cbn [nth Nat.eqb]; rewrite ?Tp, ?Ts; Cfield. }
  destruct (jones4_some prop th lb eps_f ls (isoL (iso_n eps_b) (iso_cos k_x eps_b)) _ Ex To
     (iso_eps_ok ls ls' Il Fl) (or_intror L) Nn Cz INV) as (Jr & Jt & J & ET & ER). fold k_x in ER. fold K in ER.
  eexists. split; [|split; [|split]].
  - unfold solver4. fold k_x. rewrite iso_L_eq by (rewrite (iso_n_eq eps_b e_b Ib); now apply Csqrt_neq0). cbn [obind].
    rewrite J. cbn [obind]. reflexivity.
  - cbn [jones_r4]. rewrite ER, KR. mexpl; unfold mmul, mat_of, csum; cbn [nth fst snd]; rewrite ?Tp, ?Ts, ?Rp, ?Rs; Cfield.
  - exact ET.
  - cbn [power_correction4]. rewrite (solver2_eq th lb e_f ls' e_b) by (unfold input_ok; tauto). cbn [power_correction]. rewrite <- KX.
    now rewrite (forward_kz k_x eps_b e_b Nb Ib Fb), (forward_kz k_x eps_f e_f Nf If Ff).
Qed.

(** In the passive case the half space waves are the principal ones. *)
Lemma quadrant_principal w : first_quadrant w -> principal w.
Proof. intros [A B]. unfold principal. unfold Re, Im in *. lra. Qed.
Lemma forward_passive (e : C) (kx : R) : e <> 0 -> (0 <= Im e)%R ->
  ~ (Re (Csqrt (e - RtoC kx * RtoC kx)) = 0%R /\ (0 < Im (Csqrt (e - RtoC kx * RtoC kx)%C) <= 1 / 10 ^ 10)%R) ->
  forward (half_of (RtoC kx) e).
Proof.
  intros N H B. assert (Q := kz_layer_quad e kx N H).
  assert (E : kz_layer (RtoC kx) e = Csqrt (e - RtoC kx * RtoC kx)).
  { apply Csqrt_unique; [now apply quadrant_principal|now apply kz_layer_sqr]. }
  unfold forward. destruct (kz_half_cases (RtoC kx) e) as [[E1 E2]|(E1 & F & E2)].
  - fold (kz_half (RtoC kx) e). rewrite E1, E2. split; [rewrite Ccos_Casin; apply Csqrt_principal|now apply quadrant_principal].
  - apply flip_passive in F; [|assumption|assumption]. rewrite <- E in B.
    assert (Z : kz_layer (RtoC kx) e = 0).
    { destruct Q as [Q1 Q2]. apply C_ext; [exact (proj1 F)|]. change (Im (kz_layer (RtoC kx) e) = 0)%R.
      destruct (Rle_lt_or_eq_dec _ _ Q2) as [K|K]; [exfalso; apply B; tauto|now symmetry]. }
    fold (kz_half (RtoC kx) e). rewrite E1, E2, Z.
    assert (Z2 : Ccos (Casin (RtoC kx / Csqrt e)) = 0).
    { unfold kz_layer in Z. apply C_integral in Z. destruct Z as [Z|Z]; [exfalso; now apply (Csqrt_neq0 e N)|exact Z]. }
    rewrite Z2. split; unfold principal; simpl; lra.
Qed.
Lemma forward_front th (x : R) : (0 < x)%R -> cos (deg2rad th) <> 0%R -> forward (half_of (kx_of th (RtoC x)) (RtoC x)).
Proof.
  intros Hx Hc. assert (P := kz_front th x Hx Hc). destruct P as (P1 & P2 & P3). unfold forward.
  fold (kz_half (kx_of th (RtoC x)) (RtoC x)). rewrite P1, P2. cbn [snd]. rewrite P3.
  assert (0 < Rabs (cos (deg2rad th)))%R by (apply Rabs_pos_lt; exact Hc). assert (0 < sqrt x)%R by (apply sqrt_lt_R0; exact Hx).
  split; unfold principal; simpl; [lra|]. left. nra.
Qed.
