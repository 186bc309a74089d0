(** Lemmas for C101. *)
From Coq Require Import Reals ZArith Lra Lia Psatz.
From Coquelicot Require Import Coquelicot.
From Verif.Base Require Import Py Cx Special.
From Verif.Model Require Import Units Dispersions Tanguy.
From Verif.Spec Require Import Exciton.
From Verif.Proof Require Import DispersionsP SpecialP.
Open Scope R_scope.
Open Scope C_scope.
Open Scope py_scope.

Lemma cdiv_ok (a b : C) : b <> 0 -> cdiv a b = Some (a / b).
Proof. apply cdiv_some. Qed.
Lemma cdiv_0 (a : C) : cdiv a 0 = None.
Proof. unfold cdiv. destruct (Ceq_dec 0 0); [reflexivity|contradiction]. Qed.
Lemma clog_ok (x : C) : x <> 0 -> clog x = Some (Clog x).
Proof. intros H. unfold clog. destruct (Ceq_dec x 0); [contradiction|reflexivity]. Qed.
Lemma cpower_ok (x : C) p : x <> 0 -> exists y, cpower x p = Some y /\ y <> 0.
Proof.
  intros H. unfold cpower, Cpowr. destruct (Ceq_dec x 0); [contradiction|]. eexists. split; [reflexivity|apply Cexp_neq0].
Qed.
Lemma nonreal (x : C) : snd x <> 0%R -> x <> 0.
Proof. intros H E. apply H. now rewrite E. Qed.
Lemma digamma_ok z : ~ pole z -> exists v, digamma z = Some v.
Proof. intros H. unfold digamma. destruct (pole_dec z); [contradiction|]. eexists. reflexivity. Qed.
Lemma gamma_ok z : ~ pole z -> exists v, Cgamma z = Some v /\ v <> 0.
Proof.
  intros H. unfold Cgamma. destruct (pole_dec z); [contradiction|]. eexists. split; [reflexivity|]. apply Cdiv_neq0; [apply Cexp_neq0|].
  intros E. apply H. exists 0%nat. rewrite E. simpl. f_equal. ring.
Qed.
Lemma nonreal_pole (z : C) : snd z <> 0%R -> ~ pole z.
Proof. intros H [n E]. apply H. now rewrite E. Qed.

Lemma Csin_zero_real (w : C) : Csin w = 0 -> snd w = 0%R.
Proof.
  intros H. assert (E : Cexp (Ci * w) = Cexp (- (Ci * w))) by (rewrite Cexp_Euler, Cexp_Euler_opp, H; ring).
  apply (f_equal Cmod) in E. rewrite !Cmod_Cexp in E. apply exp_inv in E. destruct w as [x y]. simpl in E. simpl. lra.
Qed.
Lemma cot_ok w : Csin w <> 0 -> exists v, cot w = Some v.
Proof. intros H. unfold cot. rewrite cdiv_ok by exact H. eexists. reflexivity. Qed.

(** d between 1 and 3, but not 2 or 3 *)
Lemma sin_PI_D d : (1 < d)%R -> (d <= 3)%R -> d <> 2%R -> d <> 3%R -> sin (PI * (d - 1)) <> 0%R.
Proof.
  intros H1 H2 N2 N3 E. apply sin_eq_0_0 in E. destruct E as [k E]. assert (P := PI_RGT_0).
  assert (Ek : (d - 1 = IZR k)%R) by (apply (Rmult_eq_reg_l PI); lra). clear E.
  assert (K0 : (0 < k)%Z) by (apply lt_IZR; lra). assert (K2 : (k < 2)%Z) by (apply lt_IZR; lra). assert (k = 1%Z) by lia. subst k. lra.
Qed.

Lemma g_nonreal (x : C) d : snd x <> 0%R -> (1 < d <= 3)%R -> exists v, g x d = Some v.
Proof.
  intros H [D1 D2]. assert (X0 := nonreal x H). unfold g.
  destruct (Req_EM_T d 2) as [_|N2]; [|destruct (Req_EM_T d 3) as [_|N3]].
  - rewrite clog_ok by exact X0. cbn [obind]. destruct (digamma_ok (RtoC 0.5 - x)) as [v ->]; [apply nonreal_pole; simpl; lra|]. eexists. reflexivity.
  - rewrite clog_ok by exact X0. cbn [obind]. destruct (digamma_ok (1 - x)) as [v ->]; [apply nonreal_pole; simpl; lra|]. cbn [obind]. rewrite cdiv_ok by exact X0. eexists. reflexivity.
  - cbv zeta. destruct (gamma_ok (RtoC ((d - 1) / 2) + x)) as (a & -> & Ha); [apply nonreal_pole; simpl; lra|]. cbn [obind].
    destruct (gamma_ok (RtoC ((d - 1) / 2))) as (b & -> & Hb); [apply not_pole_pos; simpl; lra|]. cbn [obind].
    destruct (gamma_ok (1 - RtoC ((d - 1) / 2) + x)) as (e & -> & He); [apply nonreal_pole; simpl; lra|]. cbn [obind].
    destruct (cpower_ok x (d - 2) X0) as (p & -> & Hp). cbn [obind].
    rewrite cdiv_ok by (intros E; apply C_integral in E; tauto). cbn [obind]. rewrite cdiv_ok by exact He. cbn [obind]. rewrite cdiv_ok by exact Hp. cbn [obind].
    assert (P := PI_RGT_0).
    destruct (cot_ok (RtoC PI * (RtoC ((d - 1) / 2) - x))) as [u ->].
    { intros E. apply Csin_zero_real in E. apply H. simpl in E. assert (Q : (PI * snd x = 0)%R) by lra. apply Rmult_integral in Q. destruct Q; [lra|assumption]. }
    cbn [obind]. destruct (cot_ok (RtoC (PI * (d - 1)))) as [v ->].
    { rewrite Csin_R. apply C_of_R_neq. now apply sin_PI_D. }
    eexists. reflexivity.
Qed.

(** Real results *)
Definition real (o : option C) : Prop := exists v : R, o = Some (RtoC v).
Lemma Series_zero (f : nat -> R) : (forall k, f k = 0%R) -> Series f = 0%R.
Proof. intros H. rewrite (Series_ext _ (fun _ => 0 * 0)%R) by (intros k; rewrite H; ring). rewrite Series_scal_l. ring. Qed.
Lemma digamma_real x : ~ pole (RtoC x) -> real (digamma (RtoC x)).
Proof.
  intros H. unfold digamma. destruct (pole_dec (RtoC x)) as [|_]; [contradiction|]. eexists. f_equal. apply injective_projections; [reflexivity|].
  change (Series (fun k => snd (digamma_term (RtoC x) k)) + - 0 = 0)%R. rewrite Series_zero; [ring|]. intros k. unfold digamma_term. rewrite <- RtoC_plus.
  assert (K := pos_INR k). rewrite <- RtoC_inv by lra. destruct (Req_dec (INR k + x) 0) as [E|N].
  - rewrite E. simpl. unfold Rdiv. ring.
  - rewrite <- RtoC_inv by exact N. simpl. ring.
Qed.
Lemma cot_real t : sin t <> 0%R -> real (cot (RtoC t)).
Proof. intros H. unfold cot. rewrite Ccos_R, Csin_R, cdiv_ok by (apply C_of_R_neq; exact H). exists (cos t / sin t)%R. now rewrite RtoC_div by exact H. Qed.
Lemma cdiv_real a b : b <> 0%R -> cdiv (RtoC a) (RtoC b) = Some (RtoC (a / b)).
Proof. intros H. rewrite cdiv_ok by (apply C_of_R_neq; exact H). now rewrite RtoC_div by exact H. Qed.
Lemma cpower_real x p : (0 < x)%R -> exists y, cpower (RtoC x) p = Some (RtoC y) /\ y <> 0%R.
Proof.
  intros H. unfold cpower, Cpowr. destruct (Ceq_dec (RtoC x) 0) as [E|_]; [apply RtoC_inj in E; lra|]. rewrite Clog_real by exact H. exists (exp (p * ln x)). split.
  - f_equal. rewrite <- RtoC_mult. unfold Cexp, RtoC. cbn [fst snd]. rewrite cos_0, sin_0. f_equal; ring.
  - apply Rgt_not_eq, exp_pos.
Qed.
Lemma gamma_real x : (0 < x)%R -> exists v, Cgamma (RtoC x) = Some (RtoC v) /\ v <> 0%R.
Proof.
  intros H. rewrite gamma_series by exact H. eexists. split; [reflexivity|]. apply Rgt_not_eq. apply Rdiv_lt_0_compat; [apply exp_pos|exact H].
Qed.

Lemma sin_bound x d : (0 < x)%R -> (1 < d)%R -> (d < 3)%R -> sin (PI * ((d - 1) / 2 - x)) = 0%R -> exists n : nat, (x = INR n + (d - 1) / 2)%R.
Proof.
  intros X D1 D3 E. apply sin_eq_0_0 in E. destruct E as [k E]. assert (P := PI_RGT_0).
  assert (Ek : ((d - 1) / 2 - x = IZR k)%R) by (apply (Rmult_eq_reg_l PI); lra). clear E.
  assert (K0 : (k < 1)%Z) by (apply lt_IZR; lra). exists (Z.to_nat (- k)). rewrite INR_IZR_INZ, Z2Nat.id by lia. rewrite opp_IZR. lra.
Qed.

Lemma g_real x d : (0 < x)%R -> (1 < d <= 3)%R -> (forall n : nat, x <> (INR n + (d - 1) / 2)%R) -> real (g (RtoC x) d).
Proof.
  intros H [D1 D2] NB. assert (X0 : RtoC x <> 0) by (apply C_of_R_neq; lra). unfold g.
  destruct (Req_EM_T d 2) as [->|N2]; [|destruct (Req_EM_T d 3) as [->|N3]].
  - rewrite clog_ok, Clog_real by (try exact H; exact X0). cbn [obind]. rewrite <- RtoC_minus. destruct (digamma_real (0.5 - x)) as [v ->].
    { intros [n E]. apply RtoC_inj in E. apply (NB n). lra. }
    cbn [obind]. exists (2 * ln x - 2 * v)%R. rewrite RtoC_minus, !RtoC_mult. reflexivity.
  - rewrite clog_ok, Clog_real by (try exact H; exact X0). cbn [obind]. rewrite <- RtoC_minus. destruct (digamma_real (1 - x)) as [v ->].
    { intros [n E]. apply RtoC_inj in E. apply (NB n). lra. }
    cbn [obind]. rewrite cdiv_real by lra. cbn [obind]. exists (2 * ln x - 2 * v - 1 / x)%R. rewrite !RtoC_minus, !RtoC_mult. reflexivity.
  - cbv zeta. rewrite <- RtoC_minus, <- !RtoC_plus.
    destruct (gamma_real ((d - 1) / 2 + x)) as (a & -> & Ha); [lra|]. cbn [obind].
    destruct (gamma_real ((d - 1) / 2)) as (b & -> & Hb); [lra|]. cbn [obind].
    destruct (gamma_real (1 - (d - 1) / 2 + x)) as (e & -> & He); [lra|]. cbn [obind].
    destruct (cpower_real x (d - 2) H) as (p & -> & Hp). cbn [obind]. rewrite <- !RtoC_mult.
    rewrite cdiv_real by (apply Rmult_integral_contrapositive_currified; exact Hb). cbn [obind]. rewrite cdiv_real by exact He. cbn [obind]. rewrite cdiv_real by exact Hp. cbn [obind].
    rewrite <- RtoC_minus, <- RtoC_mult. destruct (cot_real (PI * ((d - 1) / 2 - x))) as [u ->].
    { intros E. destruct (sin_bound x d H D1 ltac:(lra) E) as [n En]. exact (NB n En). }
    cbn [obind]. destruct (cot_real (PI * (d - 1))) as [v ->]; [now apply sin_PI_D|]. cbn [obind].
    eexists. rewrite <- RtoC_minus, <- RtoC_mult. reflexivity.
Qed.

Lemma g_bound n d : (1 < d <= 3)%R -> g (RtoC (INR n + (d - 1) / 2)) d = None.
Proof.
  intros [D1 D2]. assert (Kn := pos_INR n). set (x := (INR n + (d - 1) / 2)%R). assert (H : (0 < x)%R) by (unfold x; lra).
  assert (X0 : RtoC x <> 0) by (apply C_of_R_neq; lra). unfold g.
  destruct (Req_EM_T d 2) as [E2|N2]; [|destruct (Req_EM_T d 3) as [E3|N3]].
  - rewrite clog_ok by exact X0. cbn [obind]. rewrite <- RtoC_minus. unfold digamma. destruct (pole_dec _) as [_|N]; [reflexivity|]. exfalso. apply N. exists n. f_equal. unfold x. lra.
  - rewrite clog_ok by exact X0. cbn [obind]. rewrite <- RtoC_minus. unfold digamma. destruct (pole_dec _) as [_|N]; [reflexivity|]. exfalso. apply N. exists n. f_equal. unfold x. lra.
  - cbv zeta. rewrite <- RtoC_minus, <- !RtoC_plus.
    destruct (gamma_real ((d - 1) / 2 + x)) as (a & -> & Ha); [lra|]. cbn [obind].
    destruct (gamma_real ((d - 1) / 2)) as (b & -> & Hb); [lra|]. cbn [obind].
    destruct (gamma_real (1 - (d - 1) / 2 + x)) as (e & -> & He); [lra|]. cbn [obind].
    destruct (cpower_real x (d - 2) H) as (p & -> & Hp). cbn [obind]. rewrite <- !RtoC_mult.
    rewrite cdiv_real by (apply Rmult_integral_contrapositive_currified; exact Hb). cbn [obind]. rewrite cdiv_real by exact He. cbn [obind]. rewrite cdiv_real by exact Hp. cbn [obind].
    rewrite <- RtoC_minus, <- RtoC_mult. unfold cot at 1. rewrite Csin_R.
    replace (sin (PI * ((d - 1) / 2 - x))) with 0%R; [rewrite cdiv_0; reflexivity|].
    symmetry. apply sin_eq_0_1. exists (- Z.of_nat n)%Z. rewrite opp_IZR, <- INR_IZR_INZ. unfold x. ring.
Qed.

(** In the upper half plane *)
Lemma Clog_upper (x : C) : (0 < snd x)%R -> (0 < snd (Clog x))%R.
Proof.
  intros H. destruct x as [a y]. cbn [snd] in *. unfold Clog, Carg. cbn [fst snd]. assert (P := PI_RGT_0).
  destruct (Rlt_dec 0 a) as [A|A].
  - rewrite <- atan_0. apply atan_increasing. apply Rdiv_lt_0_compat; assumption.
  - destruct (Rlt_dec a 0) as [B|B].
    + destruct (Rlt_dec y 0) as [Y|Y]; [lra|]. assert (Q := atan_bound (y / a)). lra.
    + destruct (Rlt_dec 0 y); lra.
Qed.
Lemma inv_im (z : C) : z <> 0 -> snd (/ z) = (- snd z / (fst z ^ 2 + snd z ^ 2))%R.
Proof. reflexivity. Qed.
Lemma norm_pos (z : C) : z <> 0 -> (0 < fst z ^ 2 + snd z ^ 2)%R.
Proof.
  destruct z as [a b]. intros H. cbn [fst snd]. destruct (Req_dec a 0) as [->|A]; [destruct (Req_dec b 0) as [->|B]; [now elim H|nra]|nra].
Qed.
Lemma digamma_lower (z : C) : (snd z < 0)%R -> exists v, digamma z = Some v /\ (snd v <= 0)%R.
Proof.
  intros Z. assert (NP : ~ pole z) by (apply nonreal_pole; lra). unfold digamma. destruct (pole_dec _) as [|_]; [contradiction|].
  eexists. split; [reflexivity|]. change (Series (fun k => snd (digamma_term z k)) + - 0 <= 0)%R. destruct (digamma_converges _ NP) as [_ C2].
  assert (S : (0 <= Series (fun k => - snd (digamma_term z k)))%R).
  { rewrite <- (Series_zero (fun _ => 0%R)) by reflexivity. apply Series_le.
    - intros k. split; [lra|]. assert (K := pos_INR k). unfold digamma_term. rewrite <- RtoC_inv by lra.
      assert (N : RtoC (INR k) + z <> 0) by (apply nonreal; simpl; lra).
      assert (Q := norm_pos _ N). replace (- snd (RtoC (/ (INR k + 1)) - / (RtoC (INR k) + z))%C)%R with (snd (/ (RtoC (INR k) + z))%C) by (generalize (/ (RtoC (INR k) + z))%C; intros w; simpl; ring). rewrite inv_im by exact N.
      left. apply Rdiv_lt_0_compat; [simpl; lra|exact Q].
    - apply (ex_series_opp (V := R_NormedModule)) in C2. exact C2. }
  rewrite Series_opp in S. lra.
Qed.
Lemma g_upper (x : C) d : (0 < snd x)%R -> d = 2%R \/ d = 3%R -> exists v, g x d = Some v /\ (0 < snd v)%R.
Proof.
  intros Y D. assert (X0 : x <> 0) by (apply nonreal; lra). assert (L := Clog_upper x Y). unfold g. destruct D as [-> | ->].
  - destruct (Req_EM_T 2 2) as [_|N]; [|lra]. rewrite clog_ok by exact X0. cbn [obind].
    destruct (digamma_lower (RtoC 0.5 - x)) as (v & -> & V); [simpl; lra|]. cbn [obind]. eexists. split; [reflexivity|].
    set (l := Clog x) in *. clearbody l. simpl. lra.
  - destruct (Req_EM_T 3 2) as [E|_]; [lra|]. destruct (Req_EM_T 3 3) as [_|N]; [|lra]. rewrite clog_ok by exact X0. cbn [obind].
    destruct (digamma_lower (1 - x)) as (v & -> & V); [simpl; lra|]. cbn [obind]. rewrite cdiv_ok by exact X0. cbn [obind]. eexists. split; [reflexivity|].
    assert (I : (snd (1 / x)%C < 0)%R).
    { unfold Cdiv. rewrite Cmult_1_l, inv_im by exact X0. assert (Q := norm_pos _ X0). assert (0 < snd x / (fst x ^ 2 + snd x ^ 2))%R by (apply Rdiv_lt_0_compat; assumption). unfold Rdiv in *. lra. }
    set (i := 1 / x) in *. clearbody i. set (l := Clog x) in *. clearbody l. simpl. lra.
Qed.

(** xsi *)
Lemma xsi_below E Rb Eg : (E < Eg)%R -> (0 < Rb)%R -> xsi (RtoC E) Rb Eg = Some (RtoC (sqrt (Rb / (Eg - E)))).
Proof.
  intros H HR. unfold xsi. rewrite <- RtoC_minus, cdiv_real by lra. cbn [obind]. rewrite Csqrt_pos; [reflexivity|]. left. apply Rdiv_lt_0_compat; lra.
Qed.
Lemma xsi_above E Rb Eg : (Eg < E)%R -> (0 < Rb)%R -> xsi (RtoC E) Rb Eg = Some (0, sqrt (Rb / (E - Eg)))%R.
Proof.
  intros H HR. unfold xsi. rewrite <- RtoC_minus, cdiv_real by lra. cbn [obind]. replace (Rb / (Eg - E))%R with (- (Rb / (E - Eg)))%R by (field; lra).
  rewrite Csqrt_neg; [reflexivity|]. left. apply Rdiv_lt_0_compat; lra.
Qed.
Lemma xsi_nonreal (z : C) Rb Eg : snd z <> 0%R -> (0 < Rb)%R -> exists x, xsi z Rb Eg = Some x /\ snd x <> 0%R.
Proof.
  intros H HR. unfold xsi. assert (N : RtoC Eg - z <> 0) by (apply nonreal; simpl; lra). rewrite cdiv_ok by exact N. cbn [obind]. eexists. split; [reflexivity|].
  intros E. assert (S := Csqrt_sqr (RtoC Rb / (RtoC Eg - z))). set (s := Csqrt _) in *. 
  assert (K : RtoC Rb = s * s * (RtoC Eg - z)) by (rewrite S; field; exact N). destruct s as [u v], z as [p q]. simpl in E. subst v.
  assert (K1 := f_equal fst K). assert (K2 := f_equal snd K). simpl in K1, K2, H.
  assert (U : (u * u * q = 0)%R) by (ring_simplify in K2; nra). apply Rmult_integral in U. destruct U as [U|U]; [|contradiction]. rewrite U in K1. lra.
Qed.
Lemma bound_xsi d Rb Eg E (n : nat) : (1 < d)%R -> (0 < Rb)%R -> (E < Eg)%R -> (sqrt (Rb / (Eg - E)) = INR n + (d - 1) / 2 <-> E = Eg - Rb / (INR n + (d - 1) / 2) ^ 2)%R.
Proof.
  intros D HR HE. assert (K := pos_INR n). set (q := (INR n + (d - 1) / 2)%R). assert (Q : (0 < q)%R) by (unfold q; lra). split; intros H.
  - rewrite <- H. replace (sqrt (Rb / (Eg - E)) ^ 2)%R with (sqrt (Rb / (Eg - E)) * sqrt (Rb / (Eg - E)))%R by ring. rewrite sqrt_sqrt; [field; split; lra|]. left. apply Rdiv_lt_0_compat; lra.
  - rewrite H. replace (Rb / (Eg - (Eg - Rb / q ^ 2)))%R with (q * q)%R by (field; split; lra). apply sqrt_square. lra.
Qed.

Lemma xsi_upper (z : C) Rb Eg : (0 < snd z)%R -> (0 < Rb)%R -> exists x, xsi z Rb Eg = Some x /\ (0 < snd x)%R.
Proof.
  intros H HR. unfold xsi. assert (N : RtoC Eg - z <> 0) by (apply nonreal; simpl; lra). rewrite cdiv_ok by exact N. cbn [obind]. eexists. split; [reflexivity|].
  assert (Q : (0 < snd (RtoC Rb / (RtoC Eg - z))%C)%R).
  { assert (P := norm_pos _ N). unfold Cdiv. replace (snd (RtoC Rb * / (RtoC Eg - z))) with (Rb * snd (/ (RtoC Eg - z))%C)%R by (generalize (/ (RtoC Eg - z))%C; intros w; simpl; ring). rewrite inv_im by exact N.
    apply Rmult_lt_0_compat; [exact HR|]. apply Rdiv_lt_0_compat; [simpl; lra|exact P]. }
  assert (S := Csqrt_sqr (RtoC Rb / (RtoC Eg - z))). set (q := RtoC Rb / (RtoC Eg - z)) in *. assert (RE := Csqrt_Re_ge0 q). set (s := Csqrt q) in *.
  clearbody s. rewrite <- S in Q. destruct s as [u v]. cbn [fst snd] in RE. cbn [snd]. simpl in Q. nra.
Qed.
