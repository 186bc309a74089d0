From Coq Require Import Reals List Lra Psatz.
From Coquelicot Require Import Complex.
From Verif.Base Require Import Py Cx Mat.
From Verif.Model Require Import Units Ellips Structure Solver2.
From Verif.Spec Require Import Stack.
From Verif.Proof Require Import StackP DispersionsP Solver2P.
Import ListNotations.
Open Scope C_scope.
Open Scope py_scope.

(** The reduced wave number along the interfaces *)
Definition kx_of (theta_i : R) (eps_f : C) : C := Csqrt eps_f * RtoC (sin (deg2rad theta_i)).
(** Angle and cosine without the correction of the half spaces *)
Definition angle_of (kx eps : C) : C := Casin (kx / Csqrt eps).

Lemma snell_some (n0 : C) (th : R) (n : C) : n <> 0 -> snell n0 th n = Some (Casin (n0 * RtoC (sin (deg2rad th)) / n)).
Proof. intros H. unfold snell. rewrite cdiv_some by exact H. reflexivity. Qed.
Lemma snell_inv (n0 : C) (th : R) (n a : C) : snell n0 th n = Some a -> n <> 0 /\ a = Casin (n0 * RtoC (sin (deg2rad th)) / n).
Proof.
  unfold snell, cdiv. destruct (Ceq_dec n 0); [discriminate|]. cbn [obind]. intros H. apply Some_eq in H. subst. auto.
Qed.

Lemma fix_angle_cases n a : fix_angle n a = a \/ fix_angle n a = RtoC PI - a.
Proof. unfold fix_angle. destruct is_forward_angle; auto. Qed.
Lemma fix_angle_sin n a : Csin (fix_angle n a) = Csin a.
Proof. destruct (fix_angle_cases n a) as [-> | ->]; [reflexivity|apply Csin_PI_minus]. Qed.
Lemma fix_angle_cos n a : Ccos (fix_angle n a) = Ccos a \/ Ccos (fix_angle n a) = - Ccos a.
Proof. destruct (fix_angle_cases n a) as [-> | ->]; [now left|right; apply Ccos_PI_minus]. Qed.

Lemma list_snell_inv th (nf : C) ns (nb : C) af al ab : list_snell th nf ns nb = Some (af, al, ab) ->
  let K := nf * RtoC (sin (deg2rad th)) in
  nf <> 0 /\ nb <> 0 /\ Forall (fun n => n <> RtoC 0) ns /\
  af = fix_angle nf (Casin (K / nf)) /\ ab = fix_angle nb (Casin (K / nb)) /\
  al = map (fun n => Casin (K / n)) ns.
Proof.
  unfold list_snell. intros H. destruct (snell nf th nf) as [a0|] eqn:E0; [|discriminate]. cbn [obind] in H.
  match type of H with obind ?X _ = _ => destruct X as [l|] eqn:E1 end; [|discriminate]. cbn [obind] in H.
  destruct (snell nf th nb) as [a1|] eqn:E2; [|discriminate]. cbn [obind] in H. apply Some_eq in H. injection H as <- <- <-.
  apply snell_inv in E0. apply snell_inv in E2. destruct E0 as [N0 ->], E2 as [N2 ->]. cbv zeta.
  assert (G : Forall (fun n => n <> RtoC 0) ns /\ l = map (fun n => Casin (nf * RtoC (sin (deg2rad th)) / n)) ns).
  { revert l E1. induction ns as [|n ns IH]; intros l E1; cbn [fold_right] in E1; [apply Some_eq in E1; subst; split; [constructor|reflexivity]|].
    destruct (snell nf th n) as [a|] eqn:En; [|discriminate]. cbn [obind] in E1.
    destruct (fold_right _ _ ns) as [l'|]; [|discriminate]. cbn [obind] in E1. apply Some_eq in E1. subst l.
    destruct (IH l' eq_refl) as [F ->]. apply snell_inv in En. destruct En as [Nn ->]. split; [constructor; assumption|reflexivity]. }
  destruct G as [F ->]. repeat split; auto.
Qed.

Lemma list_snell_some th (nf : C) ns (nb : C) : nf <> 0 -> nb <> 0 -> Forall (fun n => n <> RtoC 0) ns ->
  exists af al ab, list_snell th nf ns nb = Some (af, al, ab).
Proof.
  intros N0 N2 F. unfold list_snell. rewrite !snell_some by assumption. cbn [obind].
  assert (G : exists l, fold_right (fun n acc => let? a := snell nf th n in let? l := acc in Some (a :: l)) (Some []) ns = Some l).
  { induction F as [|n ns Hn F [l IH]]; [exists []; reflexivity|]. cbn [fold_right]. rewrite IH, snell_some by exact Hn.
    cbn [obind]. eauto. }
  destruct G as [l ->]. cbn [obind]. eauto.
Qed.

Definition layer_of (k kx : C) (l : R * C) : phase_layer :=
  let n := Csqrt (snd l) in let a := Casin (kx / n) in (n, a, k * n * Ccos a * RtoC (fst l)).
Definition half_of (kx eps : C) : medium := (Csqrt eps, fix_angle (Csqrt eps) (Casin (kx / Csqrt eps))).
Definition k0 (lbda : R) : C := 2 * RtoC PI / RtoC lbda.

Lemma media_inv th lb (ef : C) ls (eb : C) front pl back : solver2_media th lb ef ls eb = Some (front, pl, back) ->
  let kx := kx_of th ef in
  (lb <> 0)%R /\ ef <> 0 /\ eb <> 0 /\ Forall (fun l => snd l <> RtoC 0) ls /\
  front = half_of kx ef /\ back = half_of kx eb /\ pl = map (layer_of (k0 lb) kx) ls.
Proof.
  unfold solver2_media. intros H.
  destruct (list_snell th (Csqrt ef) (map (fun l => Csqrt (snd l)) ls) (Csqrt eb)) as [[[af al] ab]|] eqn:E; [|discriminate].
  cbn [obind] in H. unfold cdiv in H. destruct (Ceq_dec (RtoC lb) 0) as [|L]; [discriminate|]. cbn [obind] in H.
  apply Some_eq in H. injection H as <- <- <-. apply list_snell_inv in E. cbv zeta in E.
  destruct E as (N0 & N2 & F & -> & -> & ->). cbv zeta.
  assert (NZ : forall z : C, Csqrt z <> 0 -> z <> 0) by (intros z Hz ->; apply Hz, Csqrt_0).
  split; [intros ->; apply L; reflexivity|]. split; [auto|]. split; [auto|]. split.
  { rewrite Forall_forall in F |- *. intros l Hl. apply NZ, F. apply in_map_iff. eauto. }
  split; [reflexivity|]. split; [reflexivity|].
  clear F. induction ls as [|[d e] ls IH]; [reflexivity|]. cbn [map combine]. f_equal. exact IH.
Qed.

Lemma media_some th lb (ef : C) ls (eb : C) : (lb <> 0)%R -> ef <> 0 -> eb <> 0 -> Forall (fun l => snd l <> RtoC 0) ls ->
  let kx := kx_of th ef in
  solver2_media th lb ef ls eb = Some (half_of kx ef, map (layer_of (k0 lb) kx) ls, half_of kx eb).
Proof.
  intros L N0 N2 F.
  assert (F' : Forall (fun n => n <> RtoC 0) (map (fun l : R * C => Csqrt (snd l)) ls)).
  { rewrite Forall_forall in F |- *. intros x Hx. apply in_map_iff in Hx. destruct Hx as (l & <- & Hl). apply Csqrt_neq0, F. exact Hl. }
  destruct (list_snell_some th (Csqrt ef) (map (fun l => Csqrt (snd l)) ls) (Csqrt eb)) as (af & al & ab & E);
    try (apply Csqrt_neq0; assumption); [exact F'|].
  assert (L' : RtoC lb <> 0) by (apply C_of_R_neq; exact L).
  destruct (solver2_media th lb ef ls eb) as [[[f p] b]|] eqn:M.
  - apply media_inv in M. cbv zeta in M. destruct M as (_ & _ & _ & _ & -> & -> & ->). reflexivity.
  - unfold solver2_media in M. rewrite E in M. cbn [obind] in M. rewrite cdiv_some in M by exact L'. discriminate.
Qed.

(** Snell's law and the squared cosine *)
Lemma half_sin (kx eps : C) : eps <> 0 -> fst (half_of kx eps) * Csin (snd (half_of kx eps)) = kx.
Proof.
  intros H. unfold half_of. cbn [fst snd]. rewrite fix_angle_sin, Csin_Casin. apply Csqrt_neq0 in H. field. exact H.
Qed.
Lemma sqr_kz (n c kx : C) : n <> 0 -> c * c = 1 - (kx / n) * (kx / n) -> (n * c) * (n * c) = n * n - kx * kx.
Proof. intros H E. transitivity (n * n * (c * c)); [ring|]. rewrite E. field. exact H. Qed.
Lemma half_kz (kx eps : C) : eps <> 0 -> let m := half_of kx eps in
  (fst m * Ccos (snd m)) * (fst m * Ccos (snd m)) = eps - kx * kx.
Proof.
  intros H m. rewrite (sqr_kz _ _ kx).
  - unfold m, half_of. cbn [fst]. now rewrite Csqrt_sqr.
  - apply Csqrt_neq0. exact H.
  - unfold m, half_of. cbn [fst snd].
    destruct (fix_angle_cos (Csqrt eps) (Casin (kx / Csqrt eps))) as [-> | ->]; rewrite Ccos_Casin.
    + apply Csqrt_sqr.
    + transitivity (Csqrt (1 - kx / Csqrt eps * (kx / Csqrt eps)) * Csqrt (1 - kx / Csqrt eps * (kx / Csqrt eps))); [ring|apply Csqrt_sqr].
Qed.
Lemma layer_cos2 (kx eps : C) : eps <> 0 -> let c := Ccos (Casin (kx / Csqrt eps)) in c * c = 1 - kx * kx / eps.
Proof.
  intros H c. unfold c. rewrite Ccos_Casin, Csqrt_sqr. rewrite <- (Csqrt_sqr eps) at 3.
  apply Csqrt_neq0 in H. field. exact H.
Qed.
Lemma half_cos2 (kx eps : C) : eps <> 0 -> let c := Ccos (snd (half_of kx eps)) in c * c = 1 - kx * kx / eps.
Proof.
  intros H c. unfold c, half_of. cbn [snd]. rewrite <- layer_cos2 by exact H. cbv zeta.
  destruct (fix_angle_cos (Csqrt eps) (Casin (kx / Csqrt eps))) as [-> | ->]; ring.
Qed.

(** The rule of is_forward_angle after the correction *)
Lemma half_rule (kx eps : C) : let w := fst (half_of kx eps) * Ccos (snd (half_of kx eps)) in
  ((1 / 10 ^ 10 < Rabs (Im w))%R -> (0 < Im w)%R) /\
  ((Rabs (Im w) <= 1 / 10 ^ 10)%R -> (0 <= Re w)%R).
Proof.
  unfold half_of. cbn [fst snd]. set (n := Csqrt eps). set (a := Casin (kx / n)). cbv zeta.
  unfold fix_angle, is_forward_angle. set (w := n * Ccos a).
  assert (E : n * Ccos (RtoC PI - a) = - w) by (rewrite Ccos_PI_minus; unfold w; ring).
  assert (EI : Im (- w) = (- Im w)%R) by reflexivity. assert (ER : Re (- w) = (- Re w)%R) by reflexivity.
  destruct (Rlt_dec (1 / 10 ^ 10) (Rabs (Im w))) as [L|L].
  - assert (Im w <> 0)%R by (intros Z; rewrite Z, Rabs_R0 in L; assert (0 < 1 / 10 ^ 10)%R by (apply Rdiv_lt_0_compat; [lra|apply pow_lt; lra]); lra).
    destruct (Rlt_dec 0 (Im w)).
    + fold w. split; intros; [assumption|lra].
    + rewrite E, EI, Rabs_Ropp. split; intros; lra.
  - destruct (Rlt_dec 0 (Re w)).
    + fold w. split; intros; lra.
    + rewrite E, EI, ER, Rabs_Ropp. split; intros; lra.
Qed.
