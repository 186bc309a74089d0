(** C98: wavelengths given as integers. *)
From Coq Require Import Reals ZArith Lra Psatz Lia.
From Coquelicot Require Import Complex.
From Coq Require Import List.
From Verif.Base Require Import Py Cx.
From Verif.Model Require Import Units Dispersions IntWave.
From Verif.Proof Require Import DispersionsP DispersionsP2 IntWaveP.
Import ListNotations.
Open Scope R_scope.
Open Scope py_scope.

(** The formula of a dispersion for a real wavelength *)
Definition csquare (n : option C) : option C := option_map (fun z => z * z)%C n.
Definition reals2 (rep : list (num * num)) : list (R * R) := map (fun t => (num_R (fst t), num_R (snd t))) rep.
Definition formula (d : disp) (x : R) : option C :=
  match d with
  | Cauchy n0 n1 n2 k0 k1 k2 => csquare (cauchy n0 n1 n2 k0 k1 k2 x)
  | CauchyCustom n0 rep => csquare (cauchy_custom (num_R n0) (reals2 rep) x)
  | Polynomial e0 rep => polynomial (num_R e0) (reals2 rep) x
  | LorentzLambda rep => lorentz_lambda (map (fun '(A, lr, g) => (num_R A, num_R lr, num_R g)) rep) x
  | Converting f => f x
  end.

(** The same wavelengths as floats *)
Definition as_floats (a : warg) : warg :=
  match a with WNum x => WNum (NFloat (num_R x)) | WList l => WList (map (fun x => NFloat (num_R x)) l) end.

(** Nothing overflows at the integer wavelength z, and no power has a negative integer exponent. *)
Definition int_abs (a : num) : Z := match a with NInt z => Z.abs z | NFloat _ => 0%Z end.
Definition powers_fit (first : num) (rep : list (num * num)) (bound z : Z) : Prop :=
  (forall f e, In (f, NInt e) rep -> 0 <= e /\ Z.abs z ^ e < 2 ^ 63)%Z /\
  (int_abs first + fold_right (fun t a => match t with (NInt f, NInt e) => Z.abs f * Z.abs z ^ e | _ => 0 end + a) 0 rep < bound)%Z.
Definition fits (d : disp) (z : Z) : Prop :=
  match d with
  | Cauchy _ _ _ _ _ _ => (Z.abs z <= 55108)%Z
  | CauchyCustom n0 rep => powers_fit n0 rep (2 ^ 31) z
  | Polynomial e0 rep => powers_fit e0 rep (2 ^ 63) z
  | LorentzLambda rep => (z * z < 2 ^ 63)%Z /\
      forall A lr g, In (A, lr, g) rep -> (z * z + int_abs lr * int_abs lr < 2 ^ 63 /\ int_abs A * (z * z) < 2 ^ 63)%Z
  | Converting _ => True
  end.

Lemma size_scalar a : size (scalar a) = int_abs a.
Proof. destruct a; reflexivity. Qed.

Lemma powers_fit_size first rep bound z : powers_fit first rep bound z ->
  Forall (fun t => pow_fits (EI z) (snd t)) rep /\ (size (scalar first) + total_size (EI z) rep < bound)%Z.
Proof.
  intros [H1 H2]. split.
  - rewrite Forall_forall. intros [f [e|e]] Hin; cbn [snd pow_fits]; [|exact I]. now apply (H1 f).
  - rewrite size_scalar. eapply Z.le_lt_trans; [|exact H2]. apply Zplus_le_compat_l. clear. induction rep as [|[[f|f] [e|e]] rep IH];
      [apply Z.le_refl|..]; change (total_size (EI z) (?t :: rep)) with (term_size (EI z) t + total_size (EI z) rep)%Z; cbn [fold_right term_size]; unfold total_size in *; cbn [fold_right term_size]; lia.
Qed.

(** One element: an integer that fits, or a float *)
Definition elt_ok (d : disp) (w : elt) : Prop := match w with EI z => fits d z | EF (Some _) => True | _ => False end.

Lemma elt_value d w x : to_R w = Some x -> elt_ok d w -> dielectric_elt d w = Ok (formula d x).
Proof.
  intros W F. destruct d as [n0 n1 n2 k0 k1 k2|n0 rep|e0 rep|rep|f]; cbn [dielectric_elt formula].
  - destruct (cauchy_val w x n0 n1 n2 k0 k1 k2 W) as (a & Ea & Va & Sa).
    + destruct w as [z|[y|]|y]; cbn [elt_ok fits pow_fits] in *; try tauto. split; [lia|]. assert (Q := Z.abs_nonneg z). change (Z.abs z ^ 2)%Z with (Z.abs z * (Z.abs z * 1))%Z. nia.
    + destruct w as [z|[y|]|y]; cbn [elt_ok fits pow_fits] in *; try tauto. split; [lia|].
      apply Z.le_lt_trans with (55108 ^ 4)%Z; [apply Z.pow_le_mono_l; lia|reflexivity].
    + rewrite Ea. cbn [rbind]. f_equal. change (to_C (esquare a)) with (val (emul a a)). rewrite emul_val by (rewrite Sa; reflexivity). rewrite Va.
      unfold oc2, csquare. destruct (cauchy n0 n1 n2 k0 k1 k2 x); reflexivity.
  - destruct w as [z|[y|]|y]; cbn [elt_ok fits] in F; try tauto.
    + apply powers_fit_size in F. destruct F as [H1 H2].
      destruct (powers_val (EI z) x n0 rep W H1 ltac:(lia)) as (a & Ea & Va & Sa). rewrite Ea. cbn [rbind]. f_equal.
      change (to_C (esquare a)) with (val (emul a a)). assert (S0 := size_nonneg a). rewrite emul_val by nia. rewrite Va.
      unfold oc2, csquare, cauchy_custom, polynomial. fold (reals2 rep). destruct (Dispersions.osum _ _); reflexivity.
    + cbn in W. apply Some_eq in W. subst y. destruct (powers_float x n0 rep) as (u & -> & Hu). cbn [rbind]. f_equal.
      change (cauchy_custom (num_R n0) (reals2 rep) x) with (polynomial (num_R n0) (map (fun t => (num_R (fst t), num_R (snd t))) rep) x).
      rewrite <- Hu. destruct u as [u|]; [|reflexivity]. cbn. now rewrite RtoC_mult.
  - destruct w as [z|[y|]|y]; cbn [elt_ok fits] in F; try tauto.
    + apply powers_fit_size in F. destruct F as [H1 H2].
      destruct (powers_val (EI z) x e0 rep W H1 H2) as (a & Ea & Va & Sa). rewrite Ea. cbn [rbind]. f_equal. exact Va.
    + cbn in W. apply Some_eq in W. subst y. destruct (powers_float x e0 rep) as (u & -> & Hu). cbn [rbind]. f_equal. exact Hu.
  - destruct (lorentz_val w x rep W) as (a & Ea & Va).
    + destruct w as [z|[y|]|y]; cbn [elt_ok fits pow_fits] in *; try tauto. split; [lia|]. change (Z.abs z ^ 2)%Z with (Z.abs z * (Z.abs z * 1))%Z. lia.
    + apply Forall_forall. intros [[A lr] g] Hin. destruct w as [z|[y|]|y]; cbn [elt_ok fits] in F; try tauto.
      cbn [lorentz_fits]. destruct F as [_ F]. specialize (F A lr g Hin). rewrite (size_scalar A). destruct lr as [l|l]; cbn [num_square scalar size int_abs] in *; [|rewrite Z.mul_0_l in F; exact F].
      rewrite Z.abs_mul. exact F.
    + rewrite Ea. cbn [rbind]. f_equal. exact Va.
  - rewrite W. reflexivity.
Qed.

Lemma spectrum_value d a : (forallb is_int (warg_list a) = true -> forall z, In (NInt z) (warg_list a) -> fits d z) ->
  spectrum d a = Ok (map (formula d) (map num_R (warg_list a))).
Proof.
  intros H. unfold spectrum, set_lbda. set (l := warg_list a) in *. destruct (forallb is_int l) eqn:E.
  - specialize (H eq_refl). clearbody l. induction l as [|x l IH]; [reflexivity|]. cbn [forallb] in E. apply andb_prop in E. destruct E as [E1 E2].
    destruct x as [z|x]; [|discriminate]. cbn [map rmapM]. rewrite (elt_value d (scalar (NInt z)) (IZR z) eq_refl) by (apply H; now left).
    cbn [rbind]. rewrite IH; [reflexivity|exact E2|]. intros z' Hz. apply H. now right.
  - clear. induction l as [|x l IH]; [reflexivity|]. cbn [map rmapM]. rewrite (elt_value d (EF (Some (num_R x))) (num_R x) eq_refl I). cbn [rbind]. rewrite IH. reflexivity.
Qed.

(** Wavelengths among which one is a float give the documented values, for every dispersion. *)
Theorem C98_float : forall d a, (exists x, In (NFloat x) (warg_list a)) -> spectrum d a = Ok (map (formula d) (map num_R (warg_list a))).
Proof.
  intros d a [x Hx]. apply spectrum_value. intros H. rewrite forallb_forall in H. discriminate (H _ Hx).
Qed.
Print Assumptions C98_float.

(** Integers give the spectrum of the same wavelengths as floats, if nothing overflows and no power
    has a negative integer exponent.  Missing: the other cases, where it is false (below). *)
Theorem C98_same_partial : forall d a, (forall z, In (NInt z) (warg_list a) -> fits d z) -> spectrum d a = spectrum d (as_floats a).
Proof.
  intros d a H. rewrite spectrum_value by (intros _; exact H). rewrite spectrum_value.
  - f_equal. f_equal. destruct a as [x|l]; cbn [as_floats warg_list map]; [destruct x; reflexivity|]. rewrite map_map. apply map_ext. intros x. reflexivity.
  - intros _ z Hz. exfalso. destruct a as [x|l]; cbn [as_floats warg_list] in Hz; [destruct Hz as [Hz|[]]; discriminate|].
    apply in_map_iff in Hz. destruct Hz as (? & ? & _). discriminate.
Qed.
Print Assumptions C98_same_partial.

Example C98_same_example :
  spectrum (Cauchy 1.45 36 0 0 0 0) (WList [NInt 400; NInt 55000]) = spectrum (Cauchy 1.45 36 0 0 0 0) (WList [NFloat 400; NFloat 55000]) /\
  fits (Polynomial (NInt 1) [(NInt 3, NInt 2); (NFloat 0.5, NFloat (-2))]) 1000 /\
  fits (LorentzLambda [(NInt 2, NInt 250, NFloat 3)]) 800.
Proof.
  split; [|split].
  - apply (C98_same_partial _ (WList [NInt 400; NInt 55000])). intros z [H|[H|[]]]; injection H as <-; cbn [fits]; lia.
  - split; [|cbn; lia]. intros f e [H|[H|[]]]; [|discriminate]. injection H as _ <-. split; [lia|reflexivity].
  - split; [reflexivity|]. intros A lr g [H|[]]. injection H as <- <- _. split; reflexivity.
Qed.

(** Integers with a negative integer exponent raise ValueError, whatever the values are. *)
Theorem C98_negative : forall n0 rep zs f e, zs <> [] -> In (f, NInt e) rep -> (e < 0)%Z ->
  let a := WList (map NInt zs) in
  spectrum (CauchyCustom n0 rep) a = Err ValueError /\ spectrum (Polynomial n0 rep) a = Err ValueError /\
  is_ok (spectrum (CauchyCustom n0 rep) (as_floats a)) /\ is_ok (spectrum (Polynomial n0 rep) (as_floats a)).
Proof.
  intros n0 rep zs f e N Hin He a.
  assert (P : forall z, powers_elt n0 rep (EI z) = Err ValueError).
  { intros z. unfold powers_elt. destruct (Nat.eqb_spec (length rep) 0) as [L|_]; [destruct rep; [destruct Hin|discriminate]|].
    match goal with |- (let* s := ?q in _) = _ => assert (Q : q = Err ValueError) end; [|rewrite Q; reflexivity].
    assert (G : forall l, fold_left (fun acc '(f, e) => let* a := acc in let* p := epow (EI z) e in Ok (eadd a (emul (scalar f) p))) l (Err ValueError) = Err ValueError).
    { induction l as [|[f' e'] l IH]; [reflexivity|exact IH]. }
    generalize (EI 0). clear N. induction rep as [|[f' e'] rep IH]; intros acc; [destruct Hin|]. cbn [fold_left rbind].
    destruct (epow (EI z) e') as [p|x] eqn:E; cbn [rbind].
    - destruct Hin as [H|H]; [|now apply IH]. injection H as -> ->. cbn [epow] in E. replace (e <? 0)%Z with true in E by (symmetry; apply Z.ltb_lt; exact He). discriminate.
    - destruct e' as [e'|e']; cbn [epow] in E; [|discriminate]. destruct (e' <? 0)%Z; [|discriminate]. injection E as <-. apply G. }
  assert (S : set_lbda a = map EI zs).
  { unfold set_lbda, a. cbn [warg_list]. replace (forallb is_int (map NInt zs)) with true; [now rewrite map_map|]. symmetry. apply forallb_forall. intros x Hx. apply in_map_iff in Hx. destruct Hx as (z & <- & _). reflexivity. }
  destruct zs as [|z zs]; [congruence|].
  repeat split.
  - unfold spectrum. rewrite S. cbn [map rmapM dielectric_elt]. rewrite P. reflexivity.
  - unfold spectrum. rewrite S. cbn [map rmapM dielectric_elt]. rewrite P. reflexivity.
  - rewrite C98_float; [eexists; reflexivity|]. exists (IZR z). now left.
  - rewrite C98_float; [eexists; reflexivity|]. exists (IZR z). now left.
Qed.
Print Assumptions C98_negative.

(** A single integer wavelength of 500 nm and the exponent -2: the float 500.0 has the value 2.25, the
    integer raises. *)
Theorem C98_negative_refuted : exists d a v, spectrum d (as_floats a) = Ok [Some v] /\ spectrum d a = Err ValueError.
Proof.
  exists (CauchyCustom (NFloat 1) [(NInt 125000, NInt (-2))]), (WNum (NInt 500)), (RtoC 2.25). split; [|reflexivity].
  rewrite C98_float by (exists 500; now left). cbn [as_floats warg_list map num_R formula csquare reals2 fst snd].
  unfold cauchy_custom, osum. cbn [fold_left obind]. unfold rpow. destruct (Rlt_dec 0 500) as [_|N]; [|lra]. cbn [obind option_map].
  change (Ok [csquare (Some (RtoC 1 + (RtoC 0 + RtoC (125000 * Rpower 500 (-2))))%C)] = Ok [Some (RtoC 2.25)]). unfold csquare. cbn [option_map]. do 3 f_equal.
  replace (Rpower 500 (-2)) with (/ 250000).
  - rewrite <- !RtoC_plus, <- RtoC_mult. f_equal. lra.
  - replace (-2)%R with (- (2))%R by lra. rewrite Rpower_Ropp. f_equal. change 2 with (INR 2). rewrite Rpower_pow by lra. simpl. ring.
Qed.
Print Assumptions C98_negative_refuted.

(** The fourth power of the wavelength overflows from 55109 nm on: at 65536 nm it becomes zero and the
    index has no value, at 60000 nm the index is another number. *)
Theorem C98_overflow_refuted : exists d a v1 v2 w, spectrum d (as_floats a) = Ok [Some v1; Some v2] /\
  spectrum d a = Ok [None; Some w] /\ w <> v2.
Proof.
  exists (Cauchy 1 0 1 0 0 0), (WList [NInt 65536; NInt 60000]).
  set (c x := ((RtoC (1 + 10 ^ 2 * 0 / x ^ 2 + 10 ^ 7 * 1 / x ^ 4) + Ci * RtoC (0 + 10 ^ 2 * 0 / x ^ 2 + 10 ^ 7 * 0 / x ^ 4)))%C).
  exists (c 65536 * c 65536)%C, (c 60000 * c 60000)%C.
  set (m := (1 + 10 ^ 2 * 0 / 3600000000 + 10 ^ 7 * 1 / (-5486744073709551616))%R).
  exists ((RtoC m + Ci * RtoC 0) * (RtoC m + Ci * RtoC 0))%C. split; [|split].
  - rewrite C98_float by (exists 65536; now left). cbn [as_floats warg_list map num_R formula].
    assert (V : forall x, x <> 0 -> csquare (cauchy 1 0 1 0 0 0 x) = Some (c x * c x)%C).
    { intros x Hx. unfold cauchy, rdiv. assert (x ^ 2 <> 0 /\ x ^ 4 <> 0) as [P2 P4] by (split; apply pow_nonzero; exact Hx).
      destruct (Req_EM_T (x ^ 2) 0); [contradiction|]. destruct (Req_EM_T (x ^ 4) 0); [contradiction|]. reflexivity. }
    rewrite !V by lra. reflexivity.
  - unfold spectrum, set_lbda. cbn [warg_list forallb is_int andb map scalar rmapM dielectric_elt].
    unfold cauchy_elt. cbn [epow]. replace (2 <? 0)%Z with false by reflexivity. replace (4 <? 0)%Z with false by reflexivity.
    replace (wrap (65536 ^ 2)) with 4294967296%Z by reflexivity. replace (wrap (65536 ^ 4)) with 0%Z by reflexivity.
    replace (wrap (60000 ^ 2)) with 3600000000%Z by reflexivity. replace (wrap (60000 ^ 4)) with (-5486744073709551616)%Z by reflexivity.
    unfold esquare, emul, eadd, lift2, ediv. cbn [rbind to_R to_C obind option_map]. unfold rdiv.
    destruct (Req_EM_T 0 0) as [_|N]; [|congruence]. destruct (Req_EM_T 4294967296 0) as [N|_]; [lra|]. destruct (Req_EM_T 3600000000 0) as [N|_]; [lra|].
    destruct (Req_EM_T (-5486744073709551616) 0) as [N|_]; [lra|]. cbn [obind to_C option_map rbind]. do 3 f_equal. f_equal. fold m.
    replace (0 + 10 ^ 2 * 0 / 3600000000 + 10 ^ 7 * 0 / -5486744073709551616)%R with 0%R by lra. reflexivity.
  - intros E. apply (f_equal Re) in E. unfold c in E. cbn [Re fst snd Cmult Cplus RtoC Ci] in E.
    assert (M : 0 < m < 1) by (unfold m; lra).
    set (n := (1 + 10 ^ 2 * 0 / 60000 ^ 2 + 10 ^ 7 * 1 / 60000 ^ 4)%R) in E. assert (Hn : 1 < n) by (unfold n; lra). clearbody m n.
    unfold Rdiv in E. rewrite !Rmult_0_r, !Rmult_0_l in E. nra.
Qed.
Print Assumptions C98_overflow_refuted.
