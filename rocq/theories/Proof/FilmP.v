(** The reflection of a sample with a very thin film on top. *)
From Coq Require Import Reals Lra Psatz Lia.
From Coquelicot Require Import Coquelicot.
From Coq Require Import List.
From Verif.Base Require Import Py Cx Mat Mexp.
From Verif.Model Require Import Units Ellips Structure Solver2.
From Verif.Spec Require Import Stack Film.
From Verif.Proof Require Import StackP FluxP UnitsP DispersionsP StructureP Solver2P Solver2P2 Solver2P3 Solver2P4 Solver2P5 OpaqueP.
Import ListNotations.
Open Scope R_scope.
Open Scope C_scope.
Open Scope py_scope.

(** ** Derivatives and first order expansions *)
Lemma der_small (f : R -> R) l : is_derive f 0 l -> forall eta, (0 < eta)%R -> exists d0, (0 < d0)%R /\ forall d, (Rabs d <= d0)%R ->
  (Rabs (f d - f 0 - d * l) <= eta * Rabs d)%R.
Proof.
  intros D eta He. apply is_derive_Reals in D. destruct (D eta He) as [dl H]. exists (dl / 2)%R. assert (dp := cond_pos dl).
  split; [lra|]. intros d Hd. destruct (Req_dec d 0) as [->|N].
  - replace (f 0 - f 0 - 0 * l)%R with 0%R by ring. rewrite Rabs_R0. lra.
  - specialize (H d N ltac:(lra)). rewrite Rplus_0_l in H.
    replace (f d - f 0 - d * l)%R with (((f d - f 0) / d - l) * d)%R by (field; exact N). rewrite Rabs_mult.
    apply Rmult_le_compat_r; [apply Rabs_pos|lra].
Qed.
Lemma Cmod_parts (z : C) : (Cmod z <= Rabs (fst z) + Rabs (snd z))%R.
Proof.
  assert (E : z = RtoC (fst z) + Ci * RtoC (snd z)) by (apply C_ext; simpl; ring).
  assert (M : Cmod Ci = 1%R) by (unfold Cmod, Ci; simpl; replace (0 * (0 * 1) + 1 * (1 * 1))%R with 1%R by ring; apply sqrt_1).
  rewrite E at 1. eapply Rle_trans; [apply Cmod_triangle|]. rewrite Cmod_mult, !Cmod_R, M. lra.
Qed.
Lemma cder_small (f : R -> C) (l : C) : cder f 0 l -> forall eta, (0 < eta)%R -> exists d0, (0 < d0)%R /\ forall d, (Rabs d <= d0)%R ->
  (Cmod (f d - f 0%R - RtoC d * l)%C <= eta * Rabs d)%R.
Proof.
  intros [A B] eta He. destruct (der_small _ _ A (eta / 2) ltac:(lra)) as (a & a0 & Ha). destruct (der_small _ _ B (eta / 2) ltac:(lra)) as (b & b0 & Hb).
  exists (Rmin a b). split; [now apply Rmin_pos|]. intros d Hd. assert (M1 := Rmin_l a b). assert (M2 := Rmin_r a b).
  specialize (Ha d ltac:(lra)). specialize (Hb d ltac:(lra)).
  eapply Rle_trans; [apply Cmod_parts|].
  replace (fst (f d - f 0%R - RtoC d * l)) with (fst (f d) - fst (f 0%R) - d * fst l)%R by (simpl; ring).
  replace (snd (f d - f 0%R - RtoC d * l)) with (snd (f d) - snd (f 0%R) - d * snd l)%R by (simpl; ring). lra.
Qed.
Lemma cder_near (f : R -> C) (l : C) : cder f 0 l -> f 0%R <> 0 -> exists d0, (0 < d0)%R /\ forall d, (Rabs d <= d0)%R -> f d <> 0.
Proof.
  intros D N. destruct (cder_small f l D 1 ltac:(lra)) as (a & a0 & H).
  assert (M0 : (0 < Cmod (f 0%R))%R) by (now apply Cmod_gt_0). set (m := Cmod (f 0%R)) in *.
  assert (L0 := Cmod_ge_0 l). set (c := (m / (2 * (1 + Cmod l)))%R).
  assert (c0 : (0 < c)%R) by (apply Rdiv_lt_0_compat; lra).
  exists (Rmin a c). split; [now apply Rmin_pos|]. intros d Hd Z. assert (M1 := Rmin_l a c). assert (M2 := Rmin_r a c).
  specialize (H d ltac:(lra)). rewrite Z in H.
  replace (0 - f 0%R - RtoC d * l) with (- (f 0%R + RtoC d * l)) in H by ring. rewrite Cmod_opp in H.
  assert (T := Cmod_triangle (f 0%R + RtoC d * l) (- (RtoC d * l))). replace (f 0%R + RtoC d * l + - (RtoC d * l)) with (f 0%R) in T by ring.
  rewrite Cmod_opp, Cmod_mult, Cmod_R in T. fold m in T.
  assert (E : (c * (1 + Cmod l) = m / 2)%R) by (unfold c; field; lra).
  assert (Rabs d * (1 + Cmod l) <= c * (1 + Cmod l))%R by (apply Rmult_le_compat_r; lra). lra.
Qed.
Lemma cder_inv (f : R -> C) t (a : C) : cder f t a -> f t <> 0 -> cder (fun x => / f x) t (- a / (f t * f t)).
Proof.
  intros [A B] N. assert (M : (fst (f t) * fst (f t) + snd (f t) * snd (f t) <> 0)%R).
  { intros K. apply N. apply C_ext; simpl; nra. }
  assert (DM : is_derive (fun x => fst (f x) * fst (f x) + snd (f x) * snd (f x))%R t
     (fst a * fst (f t) + fst (f t) * fst a + (snd a * snd (f t) + snd (f t) * snd a))%R).
  { apply (@is_derive_plus R_AbsRing R_NormedModule); apply dmult; assumption. }
  split.
  - apply (is_derive_ext (fun x => fst (f x) / (fst (f x) * fst (f x) + snd (f x) * snd (f x)))%R).
    { intros x. unfold Cinv. simpl. now rewrite !Rmult_1_r. }
    eapply eq_rect; [apply (is_derive_div (fun x => fst (f x)) _ t _ _ A DM M)|]. destruct (f t) as [u v], a as [p q]. simpl in *. field. 
    split; [|intros K; apply M; lra]. intros K; apply M. nra.
  - apply (is_derive_ext (fun x => (- snd (f x)) / (fst (f x) * fst (f x) + snd (f x) * snd (f x)))%R).
    { intros x. unfold Cinv. simpl. now rewrite !Rmult_1_r. }
    eapply eq_rect; [apply (is_derive_div (fun x => - snd (f x))%R _ t (- snd a)%R _ (@is_derive_opp R_AbsRing R_NormedModule _ t _ B) DM M)|].
    destruct (f t) as [u v], a as [p q]. simpl in *. field.
    split; [|intros K; apply M; lra]. intros K; apply M. nra.
Qed.
Lemma cder_div (f g : R -> C) t (a b : C) : cder f t a -> cder g t b -> g t <> 0 -> cder (fun x => f x / g x) t ((a * g t - f t * b) / (g t * g t)).
Proof.
  intros A B N. eapply cder_eq; [apply cder_mult; [exact A|apply cder_inv; [exact B|exact N]]|]. cbv beta. field. exact N.
Qed.

(** ** The amplitudes behind a film *)
Lemma film_der (p0 q0 p q g u v : C) : p0 <> 0 -> q0 <> 0 -> p <> 0 -> q <> 0 ->
  let A := (u / p + v / q) / 2 in let B := (u / p - v / q) / 2 in
  let U d := p * (A * Cexp (- (Ci * (g * RtoC d))) + B * Cexp (Ci * (g * RtoC d))) in
  let V d := q * (A * Cexp (- (Ci * (g * RtoC d))) - B * Cexp (Ci * (g * RtoC d))) in
  let I d := (U d / p0 + V d / q0) / 2 in let R d := (U d / p0 - V d / q0) / 2 in
  let I0 := (u / p0 + v / q0) / 2 in let R0 := (u / p0 - v / q0) / 2 in
  I 0%R = I0 /\ R 0%R = R0 /\ (exists l, cder I 0 l) /\
  (I0 <> 0 -> cder (fun d => R d / I d) 0
    (Ci / 2 * (g * (q / p) * (p0 / q0) * ((1 + R0 / I0) * (1 + R0 / I0)) - g * (p / q) * (q0 / p0) * ((1 - R0 / I0) * (1 - R0 / I0))))).
Proof.
  intros P0 Q0 P Q A B U V I R I0 R0.
  assert (E1 : forall d, Cexp (- (Ci * (g * RtoC d))) = Cexp (RtoC d * (- (Ci * g)))) by (intros; f_equal; ring).
  assert (E2 : forall d, Cexp (Ci * (g * RtoC d)) = Cexp (RtoC d * (Ci * g))) by (intros; f_equal; ring).
  assert (Z1 : Cexp (RtoC 0 * (- (Ci * g))) = 1) by (rewrite <- Cexp_0; f_equal; ring).
  assert (Z2 : Cexp (RtoC 0 * (Ci * g)) = 1) by (rewrite <- Cexp_0; f_equal; ring).
  assert (D1 : cder (fun d => Cexp (- (Ci * (g * RtoC d)))) 0 (- (Ci * g))).
  { eapply cder_ext; [intros d; symmetry; apply E1|]. eapply cder_eq; [apply cder_Cexp|]. rewrite Z1. ring. }
  assert (D2 : cder (fun d => Cexp (Ci * (g * RtoC d))) 0 (Ci * g)).
  { eapply cder_ext; [intros d; symmetry; apply E2|]. eapply cder_eq; [apply cder_Cexp|]. rewrite Z2. ring. }
  assert (two : RtoC 2 <> 0) by (apply C_of_R_neq; lra).
  assert (U0 : U 0%R = u) by (unfold U, A, B; rewrite E1, E2, Z1, Z2; field; auto).
  assert (V0 : V 0%R = v) by (unfold V, A, B; rewrite E1, E2, Z1, Z2; field; auto).
  assert (DU : cder U 0 (- (Ci * g) * (p / q) * v)).
  { eapply cder_eq; [apply cder_scal, cder_plus; [apply cder_scal, D1|apply cder_scal, D2]|]. unfold A, B. field. auto. }
  assert (DV : cder V 0 (- (Ci * g) * (q / p) * u)).
  { eapply cder_eq; [apply cder_scal, cder_minus; [apply cder_scal, D1|apply cder_scal, D2]|]. unfold A, B. field. auto. }
  assert (DI : cder I 0 ((- (Ci * g) * (p / q) * v / p0 + - (Ci * g) * (q / p) * u / q0) / 2)).
  { apply (cder_ext (fun d => / 2 * (/ p0 * U d + / q0 * V d))); [intros d; unfold I; field; auto|].
    eapply cder_eq; [apply cder_scal, cder_plus; apply cder_scal; [exact DU|exact DV]|]. field. auto. }
  assert (DR : cder R 0 ((- (Ci * g) * (p / q) * v / p0 - - (Ci * g) * (q / p) * u / q0) / 2)).
  { apply (cder_ext (fun d => / 2 * (/ p0 * U d - / q0 * V d))); [intros d; unfold R; field; auto|].
    eapply cder_eq; [apply cder_scal, cder_minus; apply cder_scal; [exact DU|exact DV]|]. field. auto. }
  assert (HI : I 0%R = I0) by (unfold I, I0; now rewrite U0, V0). assert (HR : R 0%R = R0) by (unfold R, R0; now rewrite U0, V0).
  split; [exact HI|]. split; [exact HR|]. split; [eexists; exact DI|]. intros NI.
  eapply cder_eq; [apply cder_div; [exact DR|exact DI|rewrite HI; exact NI]|]. rewrite HI, HR.
  assert (Eu : u = p0 * (I0 + R0)) by (unfold I0, R0; field; auto). assert (Ev : v = q0 * (I0 - R0)) by (unfold I0, R0; field; auto).
  clearbody I0 R0. rewrite Eu, Ev. field. auto 10.
Qed.

(** ** The reflection of Solver2x2 *)
Lemma front_cos b th lb (x : R) ls eb rt0 : (0 < x)%R -> rt b (solver2 th lb (RtoC x) ls eb) = Some rt0 -> cos (deg2rad th) <> 0%R.
Proof.
  intros P H K. apply rt_some in H. destruct H as [(_ & Nx & _) H]. destruct rt0 as [r t]. apply (amplitudes_iff (pf b) (pc b) (pf_char b)) in H. cbv zeta in H.
  destruct H as (N & _). assert (Q : snd (pc b (half_of (kx_of th (RtoC x)) (RtoC x))) <> 0) by (destruct (map (char_layer (pc b)) _); cbn [nonsing] in N; tauto).
  assert (C2 := half_cos2 (kx_of th (RtoC x)) (RtoC x) Nx). cbv zeta in C2.
  assert (Z : Ccos (snd (half_of (kx_of th (RtoC x)) (RtoC x))) = 0).
  { set (w := Ccos _) in *. assert (E : w * w = 0).
    { rewrite C2, kx_real by lra. rewrite <- RtoC_mult. replace (sqrt x * sin (deg2rad th) * (sqrt x * sin (deg2rad th)))%R with (sqrt x * sqrt x * (sin (deg2rad th) * sin (deg2rad th)))%R by ring.
      rewrite sqrt_sqrt by lra. assert (S := sin2_cos2 (deg2rad th)). unfold Rsqr in S. rewrite K in S.
      replace (sin (deg2rad th) * sin (deg2rad th))%R with 1%R by lra. rewrite Rmult_1_r. field. exact Nx. }
    apply C_integral in E. tauto. }
  apply Q. destruct b; unfold pc, char_s, char_p; cbn [fst snd]; rewrite Z; ring.
Qed.

Definition refl (b : bool) th lb (x : R) (ls : list (R * C)) (eb : C) : option C := option_map fst (rt b (solver2 th lb (RtoC x) ls eb)).
Definition film_g (b : bool) (k x q s : R) (e r : C) : C := if b then film_s k q s e r else film_p k x q s e r.

Lemma film b th lb (x : R) (e : C) ls (eb : C) d1 rt1 r0 t0 : (0 < x)%R ->
  rt b (solver2 th lb (RtoC x) ls eb) = Some (r0, t0) ->
  rt b (solver2 th lb (RtoC x) ((d1, e) :: ls) eb) = Some rt1 ->
  first_order (fun d => refl b th lb x ((d, e) :: ls) eb) r0
    (film_g b (2 * PI / lb) x (sqrt x * Rabs (cos (deg2rad th))) (sqrt x * sin (deg2rad th)) e r0).
Proof.
  intros P H0 H1. assert (Hc := front_cos b th lb x ls eb _ P H0). destruct rt1 as [r1 t1].
  apply rt_some in H0. destruct H0 as [I0 H0]. apply (amplitudes_iff (pf b) (pc b) (pf_char b)) in H0. cbv zeta in H0. destruct H0 as (N0 & J0 & R0 & _).
  apply rt_some in H1. destruct H1 as [I1 H1]. apply (amplitudes_iff (pf b) (pc b) (pf_char b)) in H1. cbv zeta in H1. destruct H1 as (N1 & _).
  destruct I1 as (L & Nx & Nb & F1). assert (Ne : e <> 0) by (inversion F1; assumption).
  destruct (kz_front th x P Hc) as (_ & Hf & Cf). rewrite Hf in *.
  assert (kxr : kx_of th (RtoC x) = RtoC (sqrt x * sin (deg2rad th))) by (apply kx_real; lra).
  set (kx := kx_of th (RtoC x)) in *. rewrite k0_R in * by exact L. set (k := (2 * PI / lb)%R) in *.
  set (m := pc b (RtoC (sqrt x), Casin (RtoC (sin (deg2rad th))))) in *. set (bk := pc b (half_of kx eb)) in *.
  set (n := Csqrt e) in *. set (c := Ccos (Casin (kx / n))).
  assert (Nn : n <> 0) by (now apply Csqrt_neq0). assert (nn : n * n = e) by apply Csqrt_sqr.
  assert (cc : c * c = 1 - kx * kx / e) by (apply layer_cos2; exact Ne).
  set (pq := pc b (n, Casin (kx / n))).
  assert (Lay : forall d, char_layer (pc b) (layer_of (RtoC k) kx (d, e)) = (fst pq, snd pq, RtoC k * n * c * RtoC d)).
  { intros d. unfold pq. destruct b; reflexivity. }
  cbn [map] in N1. rewrite Lay in N1. set (post := map (char_layer (pc b)) (map (layer_of (RtoC k) kx) ls)) in *.
  assert (NN := N1). cbn [nonsing next_pq fst snd] in NN. destruct NN as (Pm & Qm & _ & NN).
  assert (PQ : fst pq <> 0 /\ snd pq <> 0) by (destruct post; cbn [nonsing fst snd] in NN; tauto). destruct PQ as [Pp Qq]. clear NN.
  destruct (front_fields post (fst bk) (snd bk) 1) as [u v] eqn:E.
  unfold inc_ref in J0, R0. rewrite E in J0, R0. cbn [fst snd] in J0, R0.
  assert (D := film_der (fst m) (snd m) (fst pq) (snd pq) (RtoC k * n * c) u v Pm Qm Pp Qq). cbv zeta in D.
  destruct D as (DI & DR & (l & Dl) & Dr). specialize (Dr J0). rewrite <- R0 in Dr.
  assert (GL : Ci / 2 * (RtoC k * n * c * (snd pq / fst pq) * (fst m / snd m) * ((1 + r0) * (1 + r0)) - RtoC k * n * c * (fst pq / snd pq) * (snd m / fst m) * ((1 - r0) * (1 - r0)))
    = film_g b k x (sqrt x * Rabs (cos (deg2rad th))) (sqrt x * sin (deg2rad th)) e r0).
  { assert (sx : (0 < sqrt x)%R) by (now apply sqrt_lt_R0). assert (c0 : (0 < Rabs (cos (deg2rad th)))%R) by (now apply Rabs_pos_lt).
    assert (Ns : RtoC (sqrt x) <> 0) by (apply C_of_R_neq; lra). assert (Nc : RtoC (Rabs (cos (deg2rad th))) <> 0) by (apply C_of_R_neq; lra).
    assert (KK : RtoC (sqrt x * sin (deg2rad th) * (sqrt x * sin (deg2rad th))) = kx * kx) by (rewrite kxr; apply RtoC_mult).
    unfold film_g, film_s, film_p. rewrite KK. clear - cc nn Ns Nc Qq Pp Nn Cf sx c0 P Ne. unfold pq, m in *. destruct b; unfold pc, char_s, char_p in *; cbn [fst snd] in *; rewrite ?Cf; fold c in Qq |- *.
    - rewrite RtoC_mult. set (rc := RtoC (Rabs _)) in *. set (rs := RtoC (sqrt x)) in *. set (K := RtoC k).
      replace (e - kx * kx) with (n * n * (c * c)) by (rewrite cc, nn; field; exact Ne). 
      assert (Nk : c <> 0) by (intros Z; apply Qq; rewrite Z; ring).
      clearbody n c rc rs. field. repeat split; auto; apply C_of_R_neq; lra.
    - rewrite <- cc. replace (RtoC (x / (sqrt x * Rabs (cos (deg2rad th))))) with (RtoC (sqrt x) / RtoC (Rabs (cos (deg2rad th)))).
      2:{ rewrite <- RtoC_div by lra. f_equal. rewrite <- (sqrt_sqrt x) at 2 by lra. field. lra. }
      replace (RtoC (sqrt x * Rabs (cos (deg2rad th)) / x)) with (RtoC (Rabs (cos (deg2rad th))) / RtoC (sqrt x)).
      2:{ rewrite <- RtoC_div by lra. f_equal. rewrite <- (sqrt_sqrt x) at 3 by lra. field. lra. }
      rewrite <- nn. set (rc := RtoC (Rabs _)) in *. set (rs := RtoC (sqrt x)) in *. clearbody n c rc rs. field. repeat split; auto; apply C_of_R_neq; lra. }
  rewrite GL in Dr. intros eta He.
  destruct (cder_small _ _ Dr eta He) as (d2 & d20 & S). destruct (cder_near _ _ Dl) as (d3 & d30 & Nz); [rewrite DI; exact J0|].
  exists (Rmin d2 d3). split; [now apply Rmin_pos|]. intros d Hd. assert (M1 := Rmin_l d2 d3). assert (M2 := Rmin_r d2 d3).
  specialize (S d ltac:(lra)). specialize (Nz d ltac:(lra)). cbv beta in S, Nz. rewrite DI, DR in S. rewrite <- R0 in S.
  eexists. split; [|exact S]. unfold refl. rewrite rt_eq.
  2:{ split; [exact L|]. split; [exact Nx|]. split; [exact Nb|]. constructor; [exact Ne|]. now apply Forall_inv_tail in F1. }
  fold kx. rewrite Hf, k0_R by exact L. fold k.
  match goal with |- option_map fst ?X = Some ?z => assert (Y : exists t, X = Some (z, t)) end.
  2:{ destruct Y as [t ->]. reflexivity. }
  eexists. apply (amplitudes_iff (pf b) (pc b) (pf_char b)). cbv zeta. cbn [map]. rewrite Lay. fold m bk post.
  split; [apply (nonsing_head m [] (fst pq, snd pq, RtoC k * n * c * RtoC d1)); [reflexivity|exact N1]|].
  unfold inc_ref. cbn [front_fields]. rewrite E. cbn [fst snd]. split; [exact Nz|]. split; reflexivity.
Qed.
