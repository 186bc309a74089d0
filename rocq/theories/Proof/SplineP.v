(** The interpolating splines of Model/Spline.v are the splines with the default knots, for C58. *)
From Coq Require Import Reals List Lra Lia Sorted.
From Coquelicot Require Import Complex.
From Verif.Base Require Import Py Cx.
From Verif.Model Require Import Units Tables Spline.
From Verif.Spec Require Import SplineDoc.
Import ListNotations.
Open Scope R_scope.
Open Scope C_scope.
Open Scope py_scope.

Definition rising (p q : point) : Prop := (0 < gap p q)%R.
Definition lows := StronglySorted (fun p q : point => (fst p < fst q)%R).
Lemma lows_2 p q l : lows (p :: q :: l) -> rising p q /\ lows (q :: l).
Proof. intros H. inversion H as [|? ? S F]; subst. inversion F; subst. split; [unfold rising, gap; lra|exact S]. Qed.
Lemma lows_lt p l x : lows (p :: l) -> In x l -> (fst p < fst x)%R.
Proof. intros H Hx. inversion H as [|? ? S F]; subst. rewrite Forall_forall in F. exact (F x Hx). Qed.

(** Elimination *)
Fixpoint sat (u : C) (l : list eqn) (us : list C) : Prop :=
  match l, us with
  | [], [] => True
  | e :: l', v :: us' => RtoC (below e) * u + RtoC (diag e) * v + RtoC (above e) * hd (RtoC 0) us' = rhs e /\ sat v l' us'
  | _, _ => False
  end.
Lemma rdiv_inv a w : rdiv 1 a = Some w -> a <> 0%R /\ w = (/ a)%R.
Proof. unfold rdiv. destruct (Req_EM_T a 0); [discriminate|]. intros H. injection H as <-. split; [assumption|]. unfold Rdiv. ring. Qed.
Lemma solve_sat l : forall q p us, solve q p l = Some us -> sat (p - RtoC q * hd (RtoC 0) us) l us.
Proof.
  induction l as [|e l IH]; intros q p us H; cbn [solve] in H; [injection H as <-; exact I|].
  destruct (rdiv 1 (diag e - below e * q)) as [w|] eqn:W; [|discriminate]. cbn [obind] in H. apply rdiv_inv in W. destruct W as [N ->].
  destruct (solve _ _ l) as [vs|] eqn:S in H; [|discriminate]. cbn [obind] in H. injection H as <-. apply IH in S. cbn [sat hd]. split; [|exact S].
  assert (N' : RtoC (diag e) - RtoC (below e) * RtoC q <> 0) by (rewrite <- RtoC_mult, <- RtoC_minus; now apply C_of_R_neq).
  rewrite RtoC_mult, RtoC_inv, RtoC_minus, RtoC_mult by exact N. field. exact N'.
Qed.
Lemma solve_unique l : forall q p us vs, solve q p l = Some us -> sat (p - RtoC q * hd (RtoC 0) vs) l vs -> vs = us.
Proof.
  induction l as [|e l IH]; intros q p us vs H S; cbn [solve] in H; [injection H as <-; destruct vs; [reflexivity|destruct S]|].
  destruct (rdiv 1 (diag e - below e * q)) as [w|] eqn:W; [|discriminate]. cbn [obind] in H. apply rdiv_inv in W. destruct W as [N ->].
  destruct (solve _ _ l) as [ws|] eqn:E in H; [|discriminate]. cbn [obind] in H. injection H as <-. destruct vs as [|v vs]; [destruct S|]. cbn [sat hd] in S. destruct S as [S1 S2].
  assert (N' : RtoC (diag e) - RtoC (below e) * RtoC q <> 0) by (rewrite <- RtoC_mult, <- RtoC_minus; now apply C_of_R_neq).
  assert (V : v = RtoC (/ (diag e - below e * q)) * (rhs e - RtoC (below e) * p) - RtoC (above e * / (diag e - below e * q)) * hd (RtoC 0) vs).
  { rewrite <- S1. rewrite RtoC_mult, RtoC_inv, RtoC_minus, RtoC_mult by exact N. field. exact N'. }
  rewrite V in S2. assert (Q := IH _ _ _ _ E S2). subst ws. f_equal. exact V.
Qed.
Lemma sat_length l : forall u us, sat u l us -> length us = length l.
Proof. induction l as [|e l IH]; intros u [|v us] H; try destruct H; [reflexivity|]. cbn [length]. f_equal. eapply IH; eassumption. Qed.

(** Sums of jumps *)
Lemma trunc_low k b x : (x <= b)%R -> trunc (S k) b x = 0%R.
Proof. intros H. unfold trunc. destruct (Rlt_dec x b); [reflexivity|]. replace (x - b)%R with 0%R by lra. simpl. ring. Qed.
Lemma trunc_high k b x : (b <= x)%R -> trunc k b x = ((x - b) ^ k)%R.
Proof. intros H. unfold trunc. destruct (Rlt_dec x b); [lra|reflexivity]. Qed.
Lemma jumps_low k bs : forall cs x, Forall (fun b => x <= b)%R bs -> jumps (S k) bs cs x = 0.
Proof.
  induction bs as [|b bs IH]; intros [|c cs] x H; cbn [jumps]; try reflexivity. inversion H; subst. rewrite trunc_low by assumption. rewrite IH by assumption. ring.
Qed.

(** Cubic splines *)
Lemma herm_right p s0 q s1 x : rising p q -> let h := RtoC (gap p q) in let u := RtoC (x - fst q) in
  hermite p s0 q s1 x = snd q + u * (s1 + u * ((s0 + 2 * s1 - 3 * rise p q) / h + u * ((s0 + s1 - 2 * rise p q) / (h * h)))).
Proof.
  intros H h u. unfold rising in H. assert (N : RtoC (gap p q) <> 0) by (apply C_of_R_neq; lra). unfold hermite. fold h in N |- *.
  replace (RtoC (x - fst p)) with (u + h) by (unfold u, h, gap; rewrite <- RtoC_plus; f_equal; ring). unfold rise. fold h. field. exact N.
Qed.
Lemma cross (a b x y : C) : a <> 0 -> b <> 0 -> (x / a = y / b <-> x * b = y * a).
Proof.
  intros A B. split; intros H.
  - replace x with (x / a * a) by (field; exact A). rewrite H. field. exact B.
  - replace x with (x * b / b) by (field; exact B). rewrite H. field. split; assumption.
Qed.
Lemma move (x y : C) : x = y <-> x - y = 0.
Proof. split; intros H; [rewrite H; ring|]. replace x with (x - y + y) by ring. rewrite H. ring. Qed.
Section Three.
Variables (p q r : point) (s0 s1 s2 : C).
Hypothesis H0 : rising p q.
Hypothesis H1 : rising q r.
Let a := RtoC (gap p q).
Let b := RtoC (gap q r).
Let d0 := rise p q.
Let d1 := rise q r.
Local Lemma an : a <> 0. Proof. unfold rising in H0. apply C_of_R_neq. lra. Qed.
Local Lemma bn : b <> 0. Proof. unfold rising in H1. apply C_of_R_neq. lra. Qed.
Local Lemma abn : a + b <> 0. Proof. unfold rising in H0, H1. unfold a, b. rewrite <- RtoC_plus. apply C_of_R_neq. lra. Qed.
Definition mid_eq : Prop := RtoC (below (cubic_mid p q r)) * s0 + RtoC (diag (cubic_mid p q r)) * s1 + RtoC (above (cubic_mid p q r)) * s2 = rhs (cubic_mid p q r).
Lemma mid_form : mid_eq <-> b * s0 + 2 * (a + b) * s1 + a * s2 - 3 * (b * d0 + a * d1) = 0.
Proof. unfold mid_eq, cubic_mid. cbn [below diag above rhs]. rewrite RtoC_mult, RtoC_plus. fold a b d0 d1. apply move. Qed.
Lemma mid_iff : mid_eq <-> (s0 + 2 * s1 - 3 * rise p q) / RtoC (gap p q) = (3 * rise q r - 2 * s1 - s2) / RtoC (gap q r).
Proof.
  rewrite mid_form. fold a b d0 d1. rewrite (cross _ _ _ _ an bn), (move (_ * b)).
  split; intros E; rewrite <- E; ring.
Qed.
Definition same_third : Prop := (s0 + s1 - 2 * rise p q) / (RtoC (gap p q) * RtoC (gap p q)) = (s1 + s2 - 2 * rise q r) / (RtoC (gap q r) * RtoC (gap q r)).
Lemma third_iff : same_third <-> (s0 + s1 - 2 * d0) * (b * b) - (s1 + s2 - 2 * d1) * (a * a) = 0.
Proof. unfold same_third. fold a b d0 d1. rewrite cross by (apply Cmult_neq_0; first [exact an|exact bn]). apply move. Qed.
Lemma over (x y : C) : x = y / (a + b) <-> x * (a + b) - y = 0.
Proof.
  assert (N := abn). split; intros H; [rewrite H; field; exact N|]. replace x with ((x * (a + b) - y + y) / (a + b)) by (field; exact N). rewrite H. field. exact N.
Qed.
Lemma first_iff : mid_eq -> (RtoC (diag (cubic_first p q r)) * s0 + RtoC (above (cubic_first p q r)) * s1 = rhs (cubic_first p q r) <-> same_third).
Proof.
  rewrite mid_form. intros M. rewrite third_iff. unfold cubic_first. cbn [below diag above rhs]. rewrite !RtoC_mult, !RtoC_plus, !RtoC_mult. fold a b d0 d1. rewrite over.
  assert (K : (b * s0 + (a + b) * s1) * (a + b) - (a * a * d1 + b * (2 * b + 3 * a) * d0) = (s0 + s1 - 2 * d0) * (b * b) - (s1 + s2 - 2 * d1) * (a * a)).
  { rewrite <- (Cplus_0_r (_ - (_ + s2 - _) * _)), <- (Cmult_0_r a), <- M. ring. }
  rewrite K. reflexivity.
Qed.
Lemma last_iff : mid_eq -> (RtoC (below (cubic_last p q r)) * s1 + RtoC (diag (cubic_last p q r)) * s2 = rhs (cubic_last p q r) <-> same_third).
Proof.
  rewrite mid_form. intros M. rewrite third_iff. unfold cubic_last. cbn [below diag above rhs]. rewrite !RtoC_mult, !RtoC_plus, !RtoC_mult. fold a b d0 d1. rewrite over.
  assert (K : ((a + b) * s1 + a * s2) * (a + b) - (b * b * d0 + a * (2 * a + 3 * b) * d1) = - ((s0 + s1 - 2 * d0) * (b * b) - (s1 + s2 - 2 * d1) * (a * a))).
  { rewrite <- (Cplus_0_r (- (_ - _))), <- (Cmult_0_r b), <- M. ring. }
  rewrite K. assert (O : forall z : C, - z = 0 -> z = 0) by (intros z Z; replace z with (- - z) by ring; rewrite Z; ring). split; intros E; [now apply O|rewrite E; ring].
Qed.
(** Two neighbouring cubic polynomials *)
Lemma herm_jump : mid_eq -> exists c, forall x, hermite q s1 r s2 x = hermite p s0 q s1 x + c * RtoC ((x - fst q) ^ 3).
Proof.
  intros M. apply mid_iff in M. exists ((s1 + s2 - 2 * d1) / (b * b) - (s0 + s1 - 2 * d0) / (a * a)). intros x. rewrite (herm_right p s0 q s1 x H0). rewrite M. unfold hermite. fold a b d0 d1.
  replace (RtoC ((x - fst q) ^ 3)) with (RtoC (x - fst q) * RtoC (x - fst q) * RtoC (x - fst q)) by (rewrite <- !RtoC_mult; f_equal; ring). ring.
Qed.
Lemma herm_same : mid_eq -> same_third -> forall x, hermite q s1 r s2 x = hermite p s0 q s1 x.
Proof. intros M T x. apply mid_iff in M. rewrite (herm_right p s0 q s1 x H0). rewrite M. unfold same_third in T. rewrite T. reflexivity. Qed.
End Three.

Fixpoint inner2 (l : list point) : list R :=
  match l with p :: ((q :: r :: s :: _) as l') => fst q :: inner2 l' | _ => [] end.
Lemma inner2_above l : forall p q, lows (p :: q :: l) -> Forall (fun b => fst q <= b)%R (inner2 (p :: q :: l)).
Proof.
  induction l as [|r [|s l] IH]; intros p q H; [constructor..|]. cbn [inner2]. constructor; [lra|]. destruct (lows_2 _ _ _ H) as [_ L]. assert (K := IH q r L).
  destruct (lows_2 _ _ _ L) as [R _]. unfold rising, gap in R. cbn [inner2] in K |- *. eapply Forall_impl; [|exact K]. cbn. intros b B. lra.
Qed.
Lemma cubic_chain l : forall p q s ss, lows (p :: q :: l) -> l <> [] -> sat s (cubic_rest (p :: q :: l)) ss ->
  exists cs, length cs = length (inner2 (p :: q :: l)) /\
    forall x, cubic_at (p :: q :: l) (s :: ss) x = Some (hermite p s q (hd (RtoC 0) ss) x + jumps 3 (inner2 (p :: q :: l)) cs x).
Proof.
  induction l as [|r l IH]; intros p q s ss L N S; [contradiction|]. clear N. destruct (lows_2 _ _ _ L) as [R0 L']. destruct (lows_2 _ _ _ L') as [R1 _].
  destruct l as [|r' l].
  - cbn [cubic_rest] in S. destruct ss as [|s1 ss]; [destruct S|]. destruct S as [S1 S]. destruct ss as [|s2 ss]; [destruct S|]. destruct S as [S2 S]. destruct ss; [|destruct S].
    cbn [hd] in *. exists []. split; [reflexivity|]. intros x. cbn [cubic_at inner2 jumps hd]. rewrite Cplus_0_r.
    assert (T : same_third p q r s s1 s2). { apply (last_iff p q r s s1 s2 R0 R1 S1). rewrite <- S2. cbn [above cubic_last]. ring. }
    rewrite (herm_same p q r s s1 s2 R0 R1 S1 T). now destruct (Rle_dec x (fst q)).
  - change (cubic_rest (p :: q :: r :: r' :: l)) with (cubic_mid p q r :: cubic_rest (q :: r :: r' :: l)) in S. destruct ss as [|s1 ss]; [destruct S|]. destruct S as [S1 S].
    destruct (IH q r s1 ss L' ltac:(discriminate) S) as (cs & LC & E). destruct ss as [|s2 ss]; [cbn in S; destruct S|]. cbn [hd] in *.
    destruct (herm_jump p q r s s1 s2 R0 R1 S1) as [c HC]. exists (c :: cs). split; [cbn [inner2 length] in *; now rewrite LC|]. intros x.
    change (inner2 (p :: q :: r :: r' :: l)) with (fst q :: inner2 (q :: r :: r' :: l)). cbn [jumps].
    change (cubic_at (p :: q :: r :: r' :: l) (s :: s1 :: s2 :: ss) x) with (if Rle_dec x (fst q) then Some (hermite p s q s1 x) else cubic_at (q :: r :: r' :: l) (s1 :: s2 :: ss) x).
    destruct (Rle_dec x (fst q)) as [X|X].
    + f_equal. rewrite trunc_low by exact X. rewrite jumps_low; [ring|]. eapply Forall_impl; [|exact (inner2_above _ _ _ L')]. intros b B. cbn in B. unfold rising, gap in R1. lra.
    + rewrite E. f_equal. rewrite HC, trunc_high by lra. ring.
Qed.
Lemma herm_p p s q s' : hermite p s q s' (fst p) = snd p.
Proof. unfold hermite. replace (fst p - fst p)%R with 0%R by ring. ring. Qed.
Lemma herm_q p s q s' : rising p q -> hermite p s q s' (fst q) = snd q.
Proof. intros H. rewrite herm_right by exact H. replace (fst q - fst q)%R with 0%R by ring. cbv zeta. ring. Qed.
Lemma cubic_through l : forall p q ss y, lows (p :: q :: l) -> length ss = length (p :: q :: l) -> In y (p :: q :: l) -> cubic_at (p :: q :: l) ss (fst y) = Some (snd y).
Proof.
  induction l as [|r l IH]; intros p q ss y L N Y; destruct (lows_2 _ _ _ L) as [R0 L'].
  - destruct ss as [|s [|s' [|]]]; try discriminate N. cbn [cubic_at]. destruct Y as [<-|[<-|[]]]; f_equal; [apply herm_p|now apply herm_q].
  - destruct ss as [|s [|s' ss]]; try discriminate N. 
    change (cubic_at (p :: q :: r :: l) (s :: s' :: ss) (fst y)) with (if Rle_dec (fst y) (fst q) then Some (hermite p s q s' (fst y)) else cubic_at (q :: r :: l) (s' :: ss) (fst y)).
    destruct (Rle_dec (fst y) (fst q)) as [X|X].
    + f_equal. destruct Y as [<-|[<-|Y]]; [apply herm_p|now apply herm_q|]. assert (K := lows_lt _ _ _ L' Y). lra.
    + apply IH; [exact L'|cbn [length] in *; lia|]. destruct Y as [<-|Y]; [unfold rising, gap in R0; lra|exact Y].
Qed.

(** The slopes exist *)
Lemma rdiv_some a : a <> 0%R -> rdiv 1 a = Some (/ a)%R.
Proof. intros H. unfold rdiv. destruct (Req_EM_T a 0); [contradiction|]. f_equal. unfold Rdiv. ring. Qed.
Lemma solve_step q p e l : (diag e - below e * q <> 0)%R -> (exists us, solve (above e * / (diag e - below e * q)) (RtoC (/ (diag e - below e * q)) * (rhs e - RtoC (below e) * p)) l = Some us) -> exists us, solve q p (e :: l) = Some us.
Proof. intros N [us E]. cbn [solve]. rewrite rdiv_some by exact N. cbn [obind]. rewrite E. cbn [obind]. eexists. reflexivity. Qed.
Lemma ratio_lt a b : (0 < a)%R -> (a < b)%R -> (0 <= a * / b < 1)%R.
Proof.
  intros A B. split; [apply Rmult_le_pos; [lra|left; apply Rinv_0_lt_compat; lra]|]. apply Rmult_lt_reg_r with b; [lra|]. rewrite Rmult_assoc, Rinv_l by lra. lra.
Qed.
Lemma cubic_rest_ok l : forall p q r w v, lows (p :: q :: r :: l) -> (0 <= w < 1)%R -> exists us, solve w v (cubic_rest (p :: q :: r :: l)) = Some us.
Proof.
  induction l as [|s l IH]; intros p q r w v L W; destruct (lows_2 _ _ _ L) as [R0 L']; destruct (lows_2 _ _ _ L') as [R1 L'']; unfold rising in *.
  - cbn [cubic_rest]. assert (D : (gap p q + gap q r < 2 * (gap p q + gap q r) - gap q r * w)%R) by nra.
    apply solve_step; cbn [diag below above cubic_mid]; [lra|]. apply solve_step; [|now exists []]. cbn [diag below above cubic_last].
    set (z := (2 * (gap p q + gap q r) - gap q r * w)%R) in *. assert (K : (gap p q * / z * (gap p q + gap q r) < gap p q)%R); [|lra].
    rewrite <- (Rmult_1_r (gap p q)) at 3. rewrite Rmult_assoc. apply Rmult_lt_compat_l; [exact R0|]. rewrite Rmult_comm. apply ratio_lt; lra.
  - change (cubic_rest (p :: q :: r :: s :: l)) with (cubic_mid p q r :: cubic_rest (q :: r :: s :: l)).
    assert (D : (gap p q < 2 * (gap p q + gap q r) - gap q r * w)%R) by nra.
    apply solve_step; cbn [diag below above cubic_mid]; [lra|]. apply IH; [exact L'|]. now apply ratio_lt.
Qed.
Lemma cubic_slopes_ok p q r s l : lows (p :: q :: r :: s :: l) -> exists us, cubic_slopes (p :: q :: r :: s :: l) = Some us.
Proof.
  intros L. destruct (lows_2 _ _ _ L) as [R0 L']. destruct (lows_2 _ _ _ L') as [R1 L'']. unfold rising in *. unfold cubic_slopes.
  change (cubic_rest (p :: q :: r :: s :: l)) with (cubic_mid p q r :: cubic_rest (q :: r :: s :: l)).
  apply solve_step; cbn [diag below above cubic_first]; [lra|]. apply solve_step; cbn [diag below above cubic_mid].
  - replace (2 * (gap p q + gap q r) - gap q r * ((gap p q + gap q r) * / (gap q r - 0 * 0)))%R with (gap p q + gap q r)%R; [lra|]. field. lra.
  - apply cubic_rest_ok; [exact L'|]. replace (2 * (gap p q + gap q r) - gap q r * ((gap p q + gap q r) * / (gap q r - 0 * 0)))%R with (gap p q + gap q r)%R by (field; lra). apply ratio_lt; lra.
Qed.

(** Every spline with these knots has these slopes *)
Definition cub (a b c d : C) (x : R) : C := a + RtoC x * (b + RtoC x * (c + RtoC x * d)).
Definition cub' (b c d : C) (x : R) : C := b + 2 * c * RtoC x + 3 * d * (RtoC x * RtoC x).
Lemma rise_gap p q : rising p q -> RtoC (fst q) - RtoC (fst p) <> 0.
Proof. unfold rising, gap. intros H. rewrite <- RtoC_minus. apply C_of_R_neq. lra. Qed.
Lemma herm_cub p q a b c d x : rising p q -> cub a b c d (fst p) = snd p -> cub a b c d (fst q) = snd q ->
  hermite p (cub' b c d (fst p)) q (cub' b c d (fst q)) x = cub a b c d x.
Proof.
  intros R P Q. assert (N := rise_gap p q R). unfold hermite, rise, gap. rewrite <- P, <- Q. unfold cub, cub'. rewrite !RtoC_minus. field. exact N.
Qed.
Lemma mid_cub p q r a b c d e : rising p q -> rising q r ->
  cub a b c d (fst p) = snd p -> cub a b c d (fst q) = snd q -> cub a b c d (fst r) + e * RtoC ((fst r - fst q) ^ 3) = snd r ->
  mid_eq p q r (cub' b c d (fst p)) (cub' b c d (fst q)) (cub' b c d (fst r) + 3 * e * RtoC ((fst r - fst q) ^ 2)).
Proof.
  intros R0 R1 P Q S. assert (N0 := rise_gap p q R0). assert (N1 := rise_gap q r R1). unfold mid_eq, cubic_mid. cbn [below diag above rhs]. unfold rise, gap. rewrite <- P, <- Q, <- S. unfold cub, cub'.
  simpl pow. rewrite !RtoC_mult, !RtoC_plus, !RtoC_minus. field. split; assumption.
Qed.
Lemma third_cub p q r a b c d : rising p q -> rising q r ->
  cub a b c d (fst p) = snd p -> cub a b c d (fst q) = snd q -> cub a b c d (fst r) = snd r ->
  same_third p q r (cub' b c d (fst p)) (cub' b c d (fst q)) (cub' b c d (fst r)).
Proof.
  intros R0 R1 P Q S. assert (N0 := rise_gap p q R0). assert (N1 := rise_gap q r R1). unfold same_third. unfold rise, gap. rewrite <- P, <- Q, <- S. unfold cub, cub'.
  rewrite !RtoC_minus. field. split; assumption.
Qed.
Lemma cubic_any l : forall p q a b c d cs, lows (p :: q :: l) -> l <> [] -> length cs = length (inner2 (p :: q :: l)) ->
  (forall y, In y (p :: q :: l) -> cub a b c d (fst y) + jumps 3 (inner2 (p :: q :: l)) cs (fst y) = snd y) ->
  exists ss, hd (RtoC 0) ss = cub' b c d (fst q) /\ sat (cub' b c d (fst p)) (cubic_rest (p :: q :: l)) ss /\
    forall x, cubic_at (p :: q :: l) (cub' b c d (fst p) :: ss) x = Some (cub a b c d x + jumps 3 (inner2 (p :: q :: l)) cs x).
Proof.
  induction l as [|r l IH]; intros p q a b c d cs L N LC T; [contradiction|]. clear N. destruct (lows_2 _ _ _ L) as [R0 L']. destruct (lows_2 _ _ _ L') as [R1 L''].
  assert (TP := T p ltac:(cbn; tauto)). assert (TQ := T q ltac:(cbn; tauto)). assert (TR := T r ltac:(cbn; tauto)).
  assert (IA := inner2_above _ _ _ L). assert (IB := inner2_above _ _ _ L'). unfold rising, gap in R0, R1.
  rewrite jumps_low, Cplus_0_r in TP by (eapply Forall_impl; [|exact IA]; cbn; intros z Z; lra). rewrite jumps_low, Cplus_0_r in TQ by exact IA.
  destruct l as [|r' l].
  - cbn [inner2 jumps] in *. rewrite Cplus_0_r in TR. exists [cub' b c d (fst q); cub' b c d (fst r)]. split; [reflexivity|].
    assert (M := mid_cub p q r a b c d 0 R0 R1 TP TQ ltac:(rewrite <- TR; ring)). replace (cub' b c d (fst r) + 3 * 0 * RtoC ((fst r - fst q) ^ 2)) with (cub' b c d (fst r)) in M by ring.
    assert (TH := third_cub p q r a b c d R0 R1 TP TQ TR). split.
    + cbn [cubic_rest sat hd]. split; [exact M|]. split; [|exact I]. apply (last_iff p q r _ _ _ R0 R1 M) in TH. rewrite <- TH. cbn [above cubic_last]. ring.
    + intros x. cbn [cubic_at]. rewrite Cplus_0_r, (herm_cub p q a b c d), (herm_cub q r a b c d) by assumption. now destruct (Rle_dec x (fst q)).
  - change (inner2 (p :: q :: r :: r' :: l)) with (fst q :: inner2 (q :: r :: r' :: l)) in *. destruct cs as [|e cs]; [discriminate|]. injection LC as LC. cbn [jumps] in *.
    set (a' := a - e * RtoC (fst q * fst q * fst q)). set (b' := b + 3 * e * RtoC (fst q * fst q)). set (c' := c - 3 * e * RtoC (fst q)). set (d' := d + e).
    assert (E3 : forall x, cub a' b' c' d' x = cub a b c d x + e * RtoC ((x - fst q) ^ 3)).
    { intros x. unfold cub, a', b', c', d'. simpl pow. rewrite !RtoC_mult, !RtoC_minus. ring. }
    assert (E2 : forall x, cub' b' c' d' x = cub' b c d x + 3 * e * RtoC ((x - fst q) ^ 2)).
    { intros x. unfold cub', b', c', d'. simpl pow. rewrite !RtoC_mult, !RtoC_minus. ring. }
    destruct (IH q r a' b' c' d' cs L' ltac:(discriminate) LC) as (ss & HD & S & V).
    { intros y Y. rewrite E3. rewrite <- (T y) by (right; exact Y). rewrite trunc_high; [ring|]. destruct Y as [<-|Y]; [lra|]. left. exact (lows_lt _ _ _ L' Y). }
    assert (EQ : cub' b' c' d' (fst q) = cub' b c d (fst q)) by (rewrite E2; replace ((fst q - fst q) ^ 2)%R with 0%R by ring; ring).
    rewrite EQ in S, V. exists (cub' b c d (fst q) :: ss). split; [reflexivity|]. split.
    + change (cubic_rest (p :: q :: r :: r' :: l)) with (cubic_mid p q r :: cubic_rest (q :: r :: r' :: l)). cbn [sat]. split; [|exact S]. rewrite HD, E2.
      apply (mid_cub p q r a b c d e R0 R1 TP TQ). rewrite <- TR, trunc_high by lra. rewrite jumps_low by exact IB. ring.
    + intros x. destruct ss as [|s2 ss]; [cbn in S; destruct S|].
      change (cubic_at (p :: q :: r :: r' :: l) (cub' b c d (fst p) :: cub' b c d (fst q) :: s2 :: ss) x) with (if Rle_dec x (fst q) then Some (hermite p (cub' b c d (fst p)) q (cub' b c d (fst q)) x) else cubic_at (q :: r :: r' :: l) (cub' b c d (fst q) :: s2 :: ss) x).
      destruct (Rle_dec x (fst q)) as [X|X].
      * f_equal. rewrite (herm_cub p q a b c d) by assumption. rewrite trunc_low by exact X. rewrite jumps_low; [ring|]. eapply Forall_impl; [|exact IB]. cbn. intros z Z. lra.
      * rewrite V. f_equal. rewrite E3, trunc_high by lra. ring.
Qed.
Lemma inner2_knots p q l : cubic_knots (map fst (p :: q :: l)) = inner2 (q :: l).
Proof.
  unfold cubic_knots, inner. cbn [map length skipn]. rewrite map_length. replace (S (S (length l)) - 2 * 2)%nat with (length l - 2)%nat by lia. clear p. revert q.
  induction l as [|r [|s l] IH]; intros q; [reflexivity..|]. destruct l as [|t l]; [reflexivity|].
  change (inner2 (q :: r :: s :: t :: l)) with (fst r :: inner2 (r :: s :: t :: l)). rewrite <- IH. cbn [length map]. replace (S (S (S (length l))) - 2)%nat with (S (S (S (length l)) - 2)) by lia. reflexivity.
Qed.
Lemma herm_poly p s q s' : exists a b c d, forall x, hermite p s q s' x = cub a b c d x.
Proof.
  unfold hermite. set (e := (_ - s') / _). set (f := (s + s' - _) / _). clearbody e f. set (z := RtoC (fst p)).
  exists (snd p - z * s + z * z * e - z * z * z * f), (s - 2 * z * e + 3 * z * z * f), (e - 3 * z * f), f. intros x. cbv zeta. rewrite RtoC_minus. fold z. unfold cub. ring.
Qed.
Lemma cub_poly a b c d x : cub a b c d x = polynomial [a; b; c; d] x.
Proof. unfold cub. cbn [polynomial]. ring. Qed.
Lemma Some_inj {A} (x y : A) : Some x = Some y -> x = y.
Proof. intros H. now injection H. Qed.
Theorem cubic_exists l : lows l -> (4 <= length l)%nat ->
  exists f, spline 3 (cubic_knots (map fst l)) f /\ through l f /\ forall x, cubic_spline l x = Some (f x).
Proof.
  intros L N. destruct l as [|p [|q [|r [|s l]]]]; cbn [length] in N; try lia. clear N. rewrite inner2_knots. unfold cubic_spline. destruct (cubic_slopes_ok p q r s l L) as [us E]. rewrite E. cbn [obind].
  unfold cubic_slopes in E. apply solve_sat in E. destruct us as [|s0 us]; [destruct E|]. cbn [sat] in E. destruct E as [E0 E].
  change (cubic_rest (p :: q :: r :: s :: l)) with (cubic_mid p q r :: cubic_rest (q :: r :: s :: l)) in E. destruct us as [|s1 us]; [destruct E|]. cbn [sat hd] in E, E0. destruct E as [E1 E].
  assert (LL := sat_length _ _ _ E). destruct us as [|s2 us]; [destruct l; destruct E|]. cbn [hd] in E1. destruct (lows_2 _ _ _ L) as [R0 L']. destruct (lows_2 _ _ _ L') as [R1 L''].
  assert (T : same_third p q r s0 s1 s2). { apply (first_iff p q r s0 s1 s2 R0 R1 E1). rewrite <- E0. cbn [below cubic_first]. ring. }
  destruct (cubic_chain (s :: l) q r s1 _ L' ltac:(discriminate) E) as (cs & LC & V). cbn [hd] in V.
  assert (V' : forall x, cubic_at (p :: q :: r :: s :: l) (s0 :: s1 :: s2 :: us) x = Some (hermite q s1 r s2 x + jumps 3 (inner2 (q :: r :: s :: l)) cs x)).
  { intros x. change (cubic_at (p :: q :: r :: s :: l) (s0 :: s1 :: s2 :: us) x) with (if Rle_dec x (fst q) then Some (hermite p s0 q s1 x) else cubic_at (q :: r :: s :: l) (s1 :: s2 :: us) x).
    destruct (Rle_dec x (fst q)) as [X|X]; [|exact (V x)]. f_equal. rewrite (herm_same p q r s0 s1 s2 R0 R1 E1 T). rewrite jumps_low; [ring|].
    eapply Forall_impl; [|exact (inner2_above _ _ _ L')]. cbn. intros z Z. unfold rising, gap in R1. lra. }
  exists (fun x => hermite q s1 r s2 x + jumps 3 (inner2 (q :: r :: s :: l)) cs x). split; [|split; [|exact V']].
  - destruct (herm_poly q s1 r s2) as (a & b & c & d & K). exists [a; b; c; d], cs. split; [reflexivity|]. split; [exact LC|]. intros x. now rewrite K, cub_poly.
  - intros y Y. assert (K := cubic_through (r :: s :: l) p q (s0 :: s1 :: s2 :: us) y L). rewrite V' in K. cbv beta. assert (K' : Some (hermite q s1 r s2 (fst y) + jumps 3 (inner2 (q :: r :: s :: l)) cs (fst y)) = Some (snd y)); [|now injection K'].
    apply K; [|exact Y]. cbn [length] in *. rewrite LL. clear. f_equal. f_equal. revert q r s. induction l as [|t l IH]; intros q r s; [reflexivity|]. 
    change (cubic_rest (q :: r :: s :: t :: l)) with (cubic_mid q r s :: cubic_rest (r :: s :: t :: l)). cbn [length]. f_equal. apply IH.
Qed.
Theorem cubic_unique l g : lows l -> (4 <= length l)%nat -> spline 3 (cubic_knots (map fst l)) g -> through l g -> forall x, cubic_spline l x = Some (g x).
Proof.
  intros L N (P & cs & LP & LC & G) T. destruct l as [|p [|q [|r [|s l]]]]; cbn [length] in N; try lia. clear N. rewrite inner2_knots in LC, G. destruct P as [|a [|b [|c [|d [|]]]]]; try discriminate LP. clear LP.
  destruct (lows_2 _ _ _ L) as [R0 L']. destruct (lows_2 _ _ _ L') as [R1 L'']. assert (IB := inner2_above _ _ _ L').
  assert (G' : forall x, g x = cub a b c d x + jumps 3 (inner2 (p :: q :: r :: s :: l)) (RtoC 0 :: cs) x).
  { intros x. rewrite G, cub_poly. change (inner2 (p :: q :: r :: s :: l)) with (fst q :: inner2 (q :: r :: s :: l)). cbn [jumps]. now rewrite Cmult_0_l, Cplus_0_l. }
  destruct (cubic_any (r :: s :: l) p q a b c d (RtoC 0 :: cs) L ltac:(discriminate)) as (ss & HD & S & V).
  { change (inner2 (p :: q :: r :: s :: l)) with (fst q :: inner2 (q :: r :: s :: l)). cbn [length]. now f_equal. }
  { intros y Y. rewrite <- G'. now apply T. }
  unfold cubic_spline. destruct (cubic_slopes_ok p q r s l L) as [us E]. rewrite E. cbn [obind]. assert (Q : cub' b c d (fst p) :: ss = us); [|rewrite <- Q; intros x; rewrite V, G'; reflexivity].
  unfold cubic_slopes in E. apply (solve_unique _ _ _ _ _ E). cbn [sat hd]. 
  change (cubic_rest (p :: q :: r :: s :: l)) with (cubic_mid p q r :: cubic_rest (q :: r :: s :: l)) in *. split; [|exact S]. rewrite HD.
  destruct ss as [|s1 ss]; [destruct S|]. destruct S as [S1 _]. cbn [hd] in HD. subst s1. 
  assert (TT : forall y, In y [p; q; r] -> cub a b c d (fst y) = snd y).
  { intros y Y. rewrite <- (T y) by (cbn in Y |- *; tauto). rewrite G, cub_poly. rewrite jumps_low; [ring|]. eapply Forall_impl; [|exact IB]. cbn. unfold rising, gap in R0, R1. intros z Z. destruct Y as [<-|[<-|[<-|[]]]]; lra. }
  assert (A := TT p ltac:(cbn; tauto)). assert (B := TT q ltac:(cbn; tauto)). assert (D := TT r ltac:(cbn; tauto)).
  assert (M := mid_cub p q r a b c d 0 R0 R1 A B ltac:(rewrite <- D; ring)).
  replace (cub' b c d (fst r) + 3 * 0 * RtoC ((fst r - fst q) ^ 2)) with (cub' b c d (fst r)) in M by ring.
  assert (TH := third_cub p q r a b c d R0 R1 A B D). apply (first_iff p q r _ _ _ R0 R1 M) in TH. rewrite <- TH. cbn [below cubic_first]. ring.
Qed.

(** Quadratic splines *)
Fixpoint qmids (l : list point) : list R :=
  match l with p :: ((q :: r :: s :: _) as l') => ((fst q + fst r) / 2)%R :: qmids l' | _ => [] end.
Lemma qmids_above l : forall p q r, lows (p :: q :: r :: l) -> Forall (fun b => (fst q + fst r) / 2 <= b)%R (qmids (p :: q :: r :: l)).
Proof.
  induction l as [|s l IH]; intros p q r H; [constructor|]. change (qmids (p :: q :: r :: s :: l)) with (((fst q + fst r) / 2)%R :: qmids (q :: r :: s :: l)). constructor; [lra|].
  destruct (lows_2 _ _ _ H) as [_ L]. destruct (lows_2 _ _ _ L) as [R0 L']. destruct (lows_2 _ _ _ L') as [R1 _]. unfold rising, gap in R0, R1. eapply Forall_impl; [|exact (IH q r s L)]. cbn. intros b B. lra.
Qed.
Lemma qmids_knots p q r l : quadratic_knots (map fst (p :: q :: r :: l)) = qmids (p :: q :: r :: l).
Proof.
  unfold quadratic_knots, inner. revert p q r. induction l as [|s l IH]; intros p q r; [reflexivity|].
  change (qmids (p :: q :: r :: s :: l)) with (((fst q + fst r) / 2)%R :: qmids (q :: r :: s :: l)). rewrite <- IH. cbn [map means length skipn]. 
  match goal with |- context [length ?m] => generalize m end. intros ms.
  replace (S (S (S (length ms))) - 2 * 1)%nat with (S (length ms)) by lia. replace (S (S (length ms)) - 2 * 1)%nat with (length ms) by lia. reflexivity.
Qed.
Definition bf (first : bool) (u : C) : option C := if first then None else Some u.
Definition after (last : bool) (q r : point) (s s' : C) : C :=
  (if last then rise q r - s else 2 * rise q r - (3 * s + s') / 2) / RtoC (gap q r).
Lemma two_n : RtoC 2 <> 0. Proof. apply C_of_R_neq. lra. Qed.
Lemma row_iff first last p q r u s s' : rising p q -> rising q r ->
  let e := quad_row first last p q r in
  RtoC (below e) * u + RtoC (diag e) * s + RtoC (above e) * s' = rhs e <-> curvature (bf first u) p q s = after last q r s s'.
Proof.
  intros R0 R1 e. unfold rising in R0, R1. assert (A : RtoC (gap p q) <> 0) by (apply C_of_R_neq; lra). assert (B : RtoC (gap q r) <> 0) by (apply C_of_R_neq; lra). assert (W := two_n).
  rewrite move, (move (curvature _ _ _ _)). unfold e, quad_row, curvature, bf, after. destruct first, last; cbn [below diag above rhs]; unfold Rdiv; repeat rewrite ?RtoC_plus, ?RtoC_mult; rewrite ?RtoC_inv by lra;
  match goal with |- ?x = RtoC 0 <-> ?y = RtoC 0 => assert (K : x = y); [|rewrite K; reflexivity] end; field; repeat split; assumption.
Qed.
Lemma quad_jump q r s s' c c' x : rising q r -> c = after false q r s s' -> c' = curvature (Some s) q r s' ->
  parabola r s' c' x = parabola q s c x + (c' - c) * RtoC ((x - (fst q + fst r) / 2) ^ 2).
Proof.
  intros R C0 C1. assert (N := rise_gap q r R). assert (W := two_n). rewrite C0, C1. unfold parabola, curvature, after, rise, gap. simpl pow. unfold Rdiv. repeat rewrite ?RtoC_mult, ?RtoC_minus, ?RtoC_plus. rewrite RtoC_inv by lra. field. split; assumption.
Qed.
Lemma quad_chain l : forall first u p q r ss, lows (p :: q :: r :: l) -> sat u (quad_rows first (p :: q :: r :: l)) ss ->
  exists cs, length cs = length (qmids (p :: q :: r :: l)) /\
    forall x, quad_at (bf first u) (p :: q :: r :: l) ss x =
      Some (parabola q (hd (RtoC 0) ss) (curvature (bf first u) p q (hd (RtoC 0) ss)) x + jumps 2 (qmids (p :: q :: r :: l)) cs x).
Proof.
  induction l as [|t l IH]; intros first u p q r ss L S; destruct (lows_2 _ _ _ L) as [R0 L']; destruct (lows_2 _ _ _ L') as [R1 _].
  - destruct ss as [|s ss]; [destruct S|]. exists []. split; [reflexivity|]. intros x. cbn [quad_at qmids jumps hd]. now rewrite Cplus_0_r.
  - change (quad_rows first (p :: q :: r :: t :: l)) with (quad_row first false p q r :: quad_rows false (q :: r :: t :: l)) in S. destruct ss as [|s ss]; [destruct S|]. destruct S as [S1 S].
    apply (row_iff first false p q r u s _ R0 R1) in S1. destruct (IH false s q r t ss L' S) as (cs & LC & V). cbn [bf] in V. set (s' := hd (RtoC 0) ss) in *. set (c := curvature (bf first u) p q s) in *. set (c' := curvature (Some s) q r s') in *.
    exists (c' - c :: cs). change (qmids (p :: q :: r :: t :: l)) with (((fst q + fst r) / 2)%R :: qmids (q :: r :: t :: l)). split; [cbn [length]; now rewrite LC|]. intros x. cbn [jumps hd].
    change (quad_at (bf first u) (p :: q :: r :: t :: l) (s :: ss) x) with (if Rle_dec x ((fst q + fst r) / 2) then Some (parabola q s c x) else quad_at (Some s) (q :: r :: t :: l) ss x).
    destruct (lows_2 _ _ _ L') as [_ L'']. destruct (lows_2 _ _ _ L'') as [R2 _]. unfold rising, gap in R1, R2. destruct (Rle_dec x _) as [X|X].
    + f_equal. rewrite trunc_low by exact X. rewrite jumps_low; [now rewrite Cmult_0_r, !Cplus_0_r|]. eapply Forall_impl; [|exact (qmids_above _ _ _ _ L')]. cbn. intros b B. lra.
    + rewrite V. f_equal. rewrite (quad_jump q r s s' c c' x R1 S1 eq_refl), trunc_high by lra. fold c. ring.
Qed.
Lemma parabola_own q s c : parabola q s c (fst q) = snd q.
Proof. unfold parabola. replace (fst q - fst q)%R with 0%R by ring. ring. Qed.
Lemma parabola_back p q s : rising p q -> parabola q s (curvature None p q s) (fst p) = snd p.
Proof. intros R. assert (N := rise_gap p q R). unfold parabola, curvature, rise, gap. rewrite !RtoC_minus. field. exact N. Qed.
Lemma parabola_next q r s s' : rising q r -> parabola q s (after true q r s s') (fst r) = snd r.
Proof. intros R. assert (N := rise_gap q r R). unfold parabola, after, rise, gap. rewrite !RtoC_minus. field. exact N. Qed.
Lemma quad_through l : forall first u p q r ss y, lows (p :: q :: r :: l) -> sat u (quad_rows first (p :: q :: r :: l)) ss -> In y (q :: r :: l) \/ first = true /\ y = p ->
  quad_at (bf first u) (p :: q :: r :: l) ss (fst y) = Some (snd y).
Proof.
  induction l as [|t l IH]; intros first u p q r ss y L S Y; destruct (lows_2 _ _ _ L) as [R0 L']; destruct (lows_2 _ _ _ L') as [R1 _].
  - destruct ss as [|s ss]; [destruct S|]. cbn [quad_rows sat] in S. destruct S as [S _]. apply (row_iff first true p q r u s _ R0 R1) in S. cbn [quad_at]. f_equal.
    destruct Y as [[<-|[<-|[]]]|[-> ->]]; [apply parabola_own|rewrite S; now apply parabola_next|now apply parabola_back].
  - change (quad_rows first (p :: q :: r :: t :: l)) with (quad_row first false p q r :: quad_rows false (q :: r :: t :: l)) in S. destruct ss as [|s ss]; [destruct S|]. destruct S as [S1 S].
    change (quad_at (bf first u) (p :: q :: r :: t :: l) (s :: ss) (fst y)) with (if Rle_dec (fst y) ((fst q + fst r) / 2) then Some (parabola q s (curvature (bf first u) p q s) (fst y)) else quad_at (bf false s) (q :: r :: t :: l) ss (fst y)).
    assert (R0' := R0). assert (R1' := R1). unfold rising, gap in R0', R1'. destruct (Rle_dec (fst y) _) as [X|X].
    + f_equal. destruct Y as [[<-|Y]|[-> ->]]; [apply parabola_own| |now apply parabola_back]. assert (K : (fst r <= fst y)%R); [|lra].
      destruct Y as [<-|Y]; [lra|]. destruct (lows_2 _ _ _ L') as [_ L'']. left. exact (lows_lt _ _ _ L'' Y).
    + apply IH; [exact L'|exact S|left]. destruct Y as [[<-|Y]|[_ ->]]; [lra|exact Y|lra].
Qed.
Lemma quad_ok l : forall first w v p q r, lows (p :: q :: r :: l) -> (0 <= w < 1)%R -> exists us, solve w v (quad_rows first (p :: q :: r :: l)) = Some us.
Proof.
  induction l as [|t l IH]; intros first w v p q r L W; destruct (lows_2 _ _ _ L) as [R0 L']; destruct (lows_2 _ _ _ L') as [R1 _]; unfold rising in *; apply Rinv_0_lt_compat in R0, R1.
  - cbn [quad_rows]. apply solve_step; [|now exists []]. destruct first; cbn [quad_row below diag above]; nra.
  - change (quad_rows first (p :: q :: r :: t :: l)) with (quad_row first false p q r :: quad_rows false (q :: r :: t :: l)).
    assert (D : (/ gap q r / 2 < diag (quad_row first false p q r) - below (quad_row first false p q r) * w)%R) by (destruct first; cbn [quad_row below diag above]; nra).
    apply solve_step; [lra|]. apply IH; [exact L'|]. apply ratio_lt; [|exact D]. cbn [quad_row above]. lra.
Qed.
Definition qd (a b c : C) (x : R) : C := a + RtoC x * (b + RtoC x * c).
Definition qd' (b c : C) (x : R) : C := b + 2 * c * RtoC x.
Lemma parabola_qd q a b c x : qd a b c (fst q) = snd q -> parabola q (qd' b c (fst q)) c x = qd a b c x.
Proof. intros Q. unfold parabola. rewrite <- Q. unfold qd, qd'. rewrite !RtoC_minus. ring. Qed.
Lemma curv_qd p q a b c : rising p q -> qd a b c (fst p) = snd p -> qd a b c (fst q) = snd q -> curvature None p q (qd' b c (fst q)) = c.
Proof. intros R P Q. assert (N := rise_gap p q R). unfold curvature, rise, gap. rewrite <- P, <- Q. unfold qd, qd'. rewrite !RtoC_minus. field. exact N. Qed.
Lemma after_qd q r a b c s' : rising q r -> qd a b c (fst q) = snd q -> qd a b c (fst r) = snd r -> after true q r (qd' b c (fst q)) s' = c.
Proof. intros R P Q. assert (N := rise_gap q r R). unfold after, rise, gap. rewrite <- P, <- Q. unfold qd, qd'. rewrite !RtoC_minus. field. exact N. Qed.
Lemma mid_qd q r a b c e : rising q r -> let m := RtoC ((fst q + fst r) / 2) in let a' := a + e * (m * m) in let b' := b - 2 * e * m in let c' := c + e in
  qd a b c (fst q) = snd q -> qd a' b' c' (fst r) = snd r ->
  after false q r (qd' b c (fst q)) (qd' b' c' (fst r)) = c /\ curvature (Some (qd' b c (fst q))) q r (qd' b' c' (fst r)) = c'.
Proof.
  intros R m a' b' c' P Q. assert (N := rise_gap q r R). assert (W := two_n). unfold after, curvature, rise, gap. rewrite <- P, <- Q. unfold qd, qd', a', b', c', m. unfold Rdiv. rewrite !RtoC_mult, !RtoC_minus, !RtoC_plus, RtoC_inv by lra. split; field; split; assumption.
Qed.
Lemma quad_any l : forall first u p q r a b c cs, lows (p :: q :: r :: l) -> length cs = length (qmids (p :: q :: r :: l)) ->
  (forall y, In y (q :: r :: l) -> qd a b c (fst y) + jumps 2 (qmids (p :: q :: r :: l)) cs (fst y) = snd y) ->
  curvature (bf first u) p q (qd' b c (fst q)) = c ->
  exists ss, hd (RtoC 0) ss = qd' b c (fst q) /\ sat u (quad_rows first (p :: q :: r :: l)) ss /\
    forall x, quad_at (bf first u) (p :: q :: r :: l) ss x = Some (qd a b c x + jumps 2 (qmids (p :: q :: r :: l)) cs x).
Proof.
  induction l as [|t l IH]; intros first u p q r a b c cs L LC T K; destruct (lows_2 _ _ _ L) as [R0 L']; destruct (lows_2 _ _ _ L') as [R1 L''].
  - cbn [qmids jumps] in *. assert (TQ := T q ltac:(cbn; tauto)). assert (TR := T r ltac:(cbn; tauto)). rewrite Cplus_0_r in TQ, TR. exists [qd' b c (fst q)]. split; [reflexivity|]. split.
    + cbn [quad_rows sat]. split; [|exact I]. apply (row_iff first true p q r u _ _ R0 R1). rewrite K. symmetry. now apply (after_qd q r a b c).
    + intros x. cbn [quad_at]. rewrite K, Cplus_0_r. f_equal. now apply parabola_qd.
  - change (qmids (p :: q :: r :: t :: l)) with (((fst q + fst r) / 2)%R :: qmids (q :: r :: t :: l)) in *. destruct cs as [|e cs]; [discriminate|]. injection LC as LC. cbn [jumps] in *.
    destruct (lows_2 _ _ _ L'') as [R2 _]. assert (IB := qmids_above _ _ _ _ L'). assert (TQ := T q ltac:(cbn; tauto)). assert (TR := T r ltac:(cbn; tauto)). assert (R0' := R0). assert (R1' := R1). unfold rising, gap in R0', R1', R2.
    rewrite trunc_low in TQ by lra. rewrite jumps_low in TQ by (eapply Forall_impl; [|exact IB]; cbn; intros z Z; lra). replace (qd a b c (fst q) + (e * RtoC 0 + 0)) with (qd a b c (fst q)) in TQ by ring.
    rewrite jumps_low in TR by (eapply Forall_impl; [|exact IB]; cbn; intros z Z; lra). rewrite trunc_high in TR by lra.
    set (m := RtoC ((fst q + fst r) / 2)). set (a' := a + e * (m * m)). set (b' := b - 2 * e * m). set (c' := c + e).
    assert (E2 : forall x, qd a' b' c' x = qd a b c x + e * RtoC ((x - (fst q + fst r) / 2) ^ 2)).
    { intros x. unfold qd, a', b', c'. simpl pow. rewrite !RtoC_mult, RtoC_minus. fold m. ring. }
    destruct (mid_qd q r a b c e R1 TQ) as [M1 M2]. { fold m a' b' c'. rewrite E2, <- TR. ring. } fold m a' b' c' in M1, M2.
    destruct (IH false (qd' b c (fst q)) q r t a' b' c' cs L' LC) as (ss & HD & S & V).
    { intros y Y. rewrite E2, <- (T y) by (right; exact Y). rewrite trunc_high; [ring|]. destruct Y as [<-|Y]; [lra|]. assert (Z := lows_lt _ _ _ L'' Y). lra. }
    { exact M2. }
    exists (qd' b c (fst q) :: ss). split; [reflexivity|]. split.
    + change (quad_rows first (p :: q :: r :: t :: l)) with (quad_row first false p q r :: quad_rows false (q :: r :: t :: l)). cbn [sat]. split; [|exact S].
      apply (row_iff first false p q r u _ _ R0 R1). rewrite HD, M1. exact K.
    + intros x. change (quad_at (bf first u) (p :: q :: r :: t :: l) (qd' b c (fst q) :: ss) x) with (if Rle_dec x ((fst q + fst r) / 2) then Some (parabola q (qd' b c (fst q)) (curvature (bf first u) p q (qd' b c (fst q))) x) else quad_at (bf false (qd' b c (fst q))) (q :: r :: t :: l) ss x).
      destruct (Rle_dec x _) as [X|X].
      * rewrite K. f_equal. rewrite (parabola_qd q a b c) by exact TQ. rewrite trunc_low by exact X. rewrite jumps_low; [ring|]. eapply Forall_impl; [|exact IB]. cbn. intros z Z. lra.
      * rewrite V. f_equal. rewrite E2, trunc_high by lra. ring.
Qed.
Lemma parabola_poly q s c : exists a b c', forall x, parabola q s c x = qd a b c' x.
Proof.
  unfold parabola. set (z := RtoC (fst q)). exists (snd q - z * s + z * z * c), (s - 2 * z * c), c. intros x. cbv zeta. rewrite RtoC_minus. fold z. unfold qd. ring.
Qed.
Lemma qd_poly a b c x : qd a b c x = polynomial [a; b; c] x.
Proof. unfold qd. cbn [polynomial]. ring. Qed.
Theorem quad_exists l : lows l -> (3 <= length l)%nat ->
  exists f, spline 2 (quadratic_knots (map fst l)) f /\ through l f /\ forall x, quad_spline l x = Some (f x).
Proof.
  intros L N. destruct l as [|p [|q [|r l]]]; cbn [length] in N; try lia. clear N. rewrite qmids_knots. unfold quad_spline. destruct (quad_ok l true 0%R (RtoC 0) p q r L ltac:(lra)) as [us E]. rewrite E. cbn [obind].
  apply solve_sat in E. destruct (quad_chain l true _ p q r us L E) as (cs & LC & V). cbn [bf] in V. eexists. split; [|split; [|exact V]].
  - destruct (parabola_poly q (hd (RtoC 0) us) (curvature None p q (hd (RtoC 0) us))) as (a & b & c & K). exists [a; b; c], cs. split; [reflexivity|]. split; [exact LC|]. intros x. now rewrite K, qd_poly.
  - intros y Y. cbv beta. assert (K := quad_through l true _ p q r us y L E). cbn [bf] in K. rewrite V in K. apply Some_inj. apply K. destruct Y as [<-|Y]; tauto.
Qed.
Theorem quad_unique l g : lows l -> (3 <= length l)%nat -> spline 2 (quadratic_knots (map fst l)) g -> through l g -> forall x, quad_spline l x = Some (g x).
Proof.
  intros L N (P & cs & LP & LC & G) T. destruct l as [|p [|q [|r l]]]; cbn [length] in N; try lia. clear N. rewrite qmids_knots in LC, G. destruct P as [|a [|b [|c [|]]]]; try discriminate LP. clear LP.
  destruct (lows_2 _ _ _ L) as [R0 L']. destruct (lows_2 _ _ _ L') as [R1 _]. assert (IB := qmids_above _ _ _ _ L). assert (R0' := R0). unfold rising, gap in R0', R1.
  assert (G' : forall x, g x = qd a b c x + jumps 2 (qmids (p :: q :: r :: l)) cs x) by (intros x; rewrite G, qd_poly; reflexivity).
  assert (TT : forall y, In y [p; q] -> qd a b c (fst y) = snd y).
  { intros y Y. rewrite <- (T y) by (cbn in Y |- *; tauto). rewrite G'. rewrite jumps_low; [ring|]. eapply Forall_impl; [|exact IB]. cbn. intros z Z. destruct Y as [<-|[<-|[]]]; lra. }
  destruct (quad_ok l true 0%R (RtoC 0) p q r L ltac:(lra)) as [us E].
  destruct (quad_any l true (RtoC 0 - RtoC 0 * qd' b c (fst q)) p q r a b c cs L LC) as (ss & HD & S & V).
  { intros y Y. rewrite <- G'. apply T. now right. }
  { apply (curv_qd p q a b c R0); apply TT; cbn; tauto. }
  rewrite <- HD in S. assert (Q := solve_unique _ _ _ _ _ E S). unfold quad_spline. rewrite E. cbn [obind]. rewrite <- Q. intros x. rewrite G'. exact (V x).
Qed.
