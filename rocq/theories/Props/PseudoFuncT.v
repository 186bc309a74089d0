(** C103: PseudoDielectricFunction; C104: a substrate made of it. *)
From Coq Require Import Reals Lra Psatz Lia ZArith.
From Coquelicot Require Import Complex.
From Coq Require Import String List Sorted Permutation.
From Verif.Base Require Import Py Cx Mat.
From Verif.Model Require Import Units DeltaRange Ellips Solver2 Tables TableKinds PseudoFunc.
From Verif.Spec Require Import Angle Light Table SplineDoc TableKind PseudoDoc.
From Verif.Proof Require Import UnitsP DispersionsP EllipsP Solver2P Solver2P2 Solver2P3 Solver2P4 TablesP TableKindsP SplineP PseudoFuncP.
From Verif.Props Require Import EllipsT Solver2T PseudoT TableKindsT.
Import ListNotations.
Open Scope R_scope.
Open Scope C_scope.
Open Scope py_scope.

(** C103: one row is the dielectric function of the substrate whose rho it is; there is none if rho = -1. *)
Theorem C103_row : forall angle p d z, cos (rad p) <> 0%R -> cos (rad angle) <> 0%R -> is_rho p d z ->
  pseudo_row angle p d = (if Ceq_dec z (- RtoC 1) then None else Some (bulk_epsilon (rad angle) z)) /\
  pseudo_row angle p d = calc_pseudo_diel (calc_rho p d) angle.
Proof.
  intros angle p d z P A Z. rewrite pseudo_row_calc by assumption. split; [|reflexivity]. apply is_rho_calc in Z. subst z. unfold calc_pseudo_diel, cdiv.
  destruct (Ceq_dec (1 + calc_rho p d) 0) as [E|E], (Ceq_dec (calc_rho p d) (- RtoC 1)) as [F|F]; try reflexivity; exfalso.
  - apply F. transitivity (1 + calc_rho p d - 1); [ring|]. rewrite E. ring.
  - apply E. rewrite F. ring.
Qed.
Print Assumptions C103_row.

(** C103: the dispersion is the cubic spline through the rows and raises outside of them. *)
Theorem C103_table : forall angle lbda psi delta es, length psi = length lbda -> length delta = length lbda ->
  map (fun pd => pseudo_row angle (fst pd) (snd pd)) (combine psi delta) = map Some es -> NoDup lbda -> (4 <= length lbda)%nat ->
  exists t, pseudo_new angle lbda psi delta = Ok t /\
    (forall x y, In (x, y) (combine lbda es) -> pseudo_value t x = Ok (Some y)) /\
    (forall x, inside (combine lbda es) x -> exists v, pseudo_value t x = Ok (Some v) /\ splined 3 cubic_knots (combine lbda es) x v) /\
    (forall x, ~ inside (combine lbda es) x -> pseudo_value t x = Err ValueError).
Proof.
  intros angle lbda psi delta es L1 L2 E N Q. assert (LE : length es = length lbda).
  { apply (f_equal (@length _)) in E. rewrite !map_length, combine_length in E. lia. }
  exists (false, sorted (combine lbda es)). split; [apply (pseudo_new_ok angle lbda psi delta (combine psi delta) es); try assumption; apply broadcast_same; lia|].
  assert (K := cubic_table lbda es LE N Q). split; [|split].
  - intros x y H. rewrite pseudo_value_table. apply (C58_kind_tabulated "cubic" lbda es _ true x y K N); [intros _ W; discriminate W|exact H].
  - intros w H. destruct (C58_kind_meaning "cubic" lbda es _ true w K N ltac:(lia) H) as (v & V & M & _). exists v. rewrite pseudo_value_table. split; [exact V|exact M].
  - intros x H. rewrite pseudo_value_table. exact (C58_kind_outside "cubic" lbda es _ true x K H).
Qed.
Print Assumptions C103_table.

(** The psi and delta that a Result has for a bare substrate in air and light polarised at 45 degrees *)
Definition measured (l u : Z) (angle : R) (a : C) (lb : R) (eps : C) (pd : R * R) : Prop :=
  exists J z, jones2_r (solver2 angle lb (RtoC 1) [] eps) = Some J /\ rho (IZR l, IZR u) J (vec_of [a; a]) = Some z /\
    psi (IZR l, IZR u) J (vec_of [a; a]) = Some (fst pd) /\ delta (IZR l, IZR u) J (vec_of [a; a]) = Some (snd pd).
Lemma measured_row l u angle a lb eps pd : allowed_range l u -> (l = 0 \/ l = -180 \/ l = -360)%Z -> measured l u angle a lb eps pd ->
  cos (rad angle) <> 0%R /\ pseudo_row angle (fst pd) (snd pd) = calc_pseudo_diel (calc_rho (fst pd) (snd pd)) angle.
Proof.
  intros A L (J & z & HJ & Hz & Hp & Hd). destruct (substrate_jones angle lb eps J HJ) as (Hc & _). split; [exact Hc|].
  destruct (C03_psi_delta_rho_partial l u J _ z A L Hz) as (p & d & Ep & Ed & Pb & _). rewrite Hp in Ep. injection Ep as <-.
  apply pseudo_row_calc; [|exact Hc]. assert (K := cos_deg (fst pd) ltac:(lra)). lra.
Qed.
Lemma all_rows (angle : R) lbda pds (f : R -> C) (Q : R -> R * R -> Prop) : (forall lb pd, Q lb pd -> pseudo_row angle (fst pd) (snd pd) = Some (f lb)) -> Forall2 Q lbda pds ->
  map (fun pd => pseudo_row angle (fst pd) (snd pd)) pds = map Some (map f lbda).
Proof. intros H F. induction F as [|lb pd lbda pds K F IH]; [reflexivity|]. cbn [map]. now rewrite IH, (H lb pd K). Qed.
Lemma value_rows lbda (f : R -> C) x : In x lbda -> In (x, f x) (combine lbda (map f lbda)).
Proof. induction lbda as [|y l IH]; intros []; cbn; [subst; now left|right; auto]. Qed.

(** C103: from the psi and delta of a bare substrate in air it is the dielectric function of the substrate
    at all measured wavelengths, and the spline through these values between them. *)
Theorem C103_substrate : forall (l u : Z) angle (a : C) (disp : R -> C) lbda psis deltas,
  allowed_range l u -> (l = 0 \/ l = -180 \/ l = -360)%Z -> (l, u) <> (0, 180)%Z -> a <> 0 -> sin (rad angle) <> 0%R ->
  length psis = length lbda -> length deltas = length lbda -> NoDup lbda -> (4 <= length lbda)%nat ->
  Forall2 (fun lb pd => measured l u angle a lb (disp lb) pd) lbda (combine psis deltas) ->
  exists t, pseudo_new angle lbda psis deltas = Ok t /\
    (forall lb, In lb lbda -> pseudo_value t lb = Ok (Some (disp lb))) /\
    (forall x, inside (combine lbda (map disp lbda)) x -> exists v, pseudo_value t x = Ok (Some v) /\ splined 3 cubic_knots (combine lbda (map disp lbda)) x v) /\
    (forall x, ~ inside (combine lbda (map disp lbda)) x -> pseudo_value t x = Err ValueError).
Proof.
  intros l u angle a disp lbda psis deltas A L NF Na S L1 L2 N Q F.
  assert (E : map (fun pd => pseudo_row angle (fst pd) (snd pd)) (combine psis deltas) = map Some (map disp lbda)).
  { apply (all_rows angle lbda _ disp (fun lb pd => measured l u angle a lb (disp lb) pd)); [|exact F]. intros lb pd M. rewrite (proj2 (measured_row l u angle a lb (disp lb) pd A L M)).
    destruct M as (J & z & HJ & Hz & Hp & Hd). rewrite (C04_substrate_partial l u angle lb (disp lb) a J z _ _ A L NF Na HJ Hz Hp Hd). unfold rad in S. now destruct (Req_EM_T (sin (angle * PI / 180)) 0). }
  destruct (C103_table angle lbda psis deltas (map disp lbda) L1 L2 E N Q) as (t & T & V & I & O). exists t. split; [exact T|]. split; [|split; assumption].
  intros lb H. apply V. now apply value_rows.
Qed.
Print Assumptions C103_substrate.
(** The same in the folded range (0, 180) if the substrate has no gain *)
Theorem C103_folded : forall angle (a : C) (disp : R -> C) lbda psis deltas,
  a <> 0 -> let s := sin (rad angle) in s <> 0%R ->
  length psis = length lbda -> length deltas = length lbda -> NoDup lbda -> (4 <= length lbda)%nat ->
  Forall2 (fun lb pd => measured 0 180 angle a lb (disp lb) pd /\ (0 <= Im (disp lb))%R /\ ~ (Im (disp lb) = 0 /\ s * s - 1 / 10 ^ 20 <= Re (disp lb) < s * s)%R) lbda (combine psis deltas) ->
  exists t, pseudo_new angle lbda psis deltas = Ok t /\ forall lb, In lb lbda -> pseudo_value t lb = Ok (Some (disp lb)).
Proof.
  intros angle a disp lbda psis deltas Na s S L1 L2 N Q F. assert (A : allowed_range 0 180) by (left; split; reflexivity).
  assert (E : map (fun pd => pseudo_row angle (fst pd) (snd pd)) (combine psis deltas) = map Some (map disp lbda)).
  { eapply (all_rows angle lbda _ disp); [|exact F]. cbv beta. intros lb pd (M & G & B). rewrite (proj2 (measured_row 0 180 angle a lb (disp lb) pd A (or_introl eq_refl) M)).
    destruct M as (J & z & HJ & Hz & Hp & Hd). exact (C04_folded_passive angle lb (disp lb) a J z _ _ Na HJ Hz Hp Hd S G B). }
  destruct (C103_table angle lbda psis deltas (map disp lbda) L1 L2 E N Q) as (t & T & V & I & O). exists t. split; [exact T|].
  intros lb H. apply V. now apply value_rows.
Qed.
Print Assumptions C103_folded.

(** A single row without a value takes the values at all wavelengths. *)
Theorem C103_nan : forall angle lbda psi delta, length psi = length lbda -> length delta = length lbda -> NoDup lbda -> (4 <= length lbda)%nat ->
  (exists pd, In pd (combine psi delta) /\ pseudo_row angle (fst pd) (snd pd) = None) ->
  exists t, pseudo_new angle lbda psi delta = Ok t /\
    forall x, (exists y, In y lbda /\ (y <= x)%R) -> (exists y, In y lbda /\ (x <= y)%R) -> pseudo_value t x = Ok None.
Proof.
  intros angle lbda psi delta L1 L2 N Q (pd & Hpd & Epd).
  set (eps := map (fun pd => pseudo_row angle (fst pd) (snd pd)) (combine psi delta)).
  assert (LE : length eps = length lbda) by (unfold eps; rewrite map_length, combine_length; lia).
  assert (X : existsb is_nan eps = true) by (apply existsb_exists; exists None; split; [unfold eps; rewrite <- Epd; now apply (in_map (fun pd => pseudo_row angle (fst pd) (snd pd)))|reflexivity]).
  set (ys := map (fun e : option C => match e with Some e => RtoC 1 | None => RtoC 1 end) eps).
  assert (LY : length ys = length lbda) by (unfold ys; now rewrite map_length). assert (K := cubic_table lbda ys LY N Q). destruct (rows_of_table _ _ _ K) as [R4 INC].
  exists (true, sorted (combine lbda ys)). split.
  - unfold pseudo_new. rewrite broadcast_same by lia. cbn [rbind]. fold eps. rewrite LE, Nat.eqb_refl, X. cbv zeta. fold ys. destruct (Nat.ltb_spec (length (sorted (combine lbda ys))) 4); [lia|]. now rewrite INC.
  - intros x (y1 & H1 & G1) (y2 & H2 & G2). unfold pseudo_value. cbn [fst snd].
    assert (CB : forall y, In y lbda -> exists p, In p (combine lbda ys) /\ fst p = y).
    { intros y Y. clearbody ys. clear - Y LY. revert ys LY. induction lbda as [|b l IH]; intros [|c ys] LY; try discriminate LY; [destruct Y|]. destruct Y as [->|Y]; [exists (y, c); split; [now left|reflexivity]|].
      destruct (IH Y ys ltac:(now injection LY)) as (p & P1 & P2). exists p. split; [now right|exact P2]. }
    destruct (CB y1 H1) as (p1 & P1 & E1). destruct (CB y2 H2) as (p2 & P2 & E2).
    destruct (C58_kind_meaning "cubic" lbda ys _ true x K N ltac:(lia)) as (v & V & _); [split; [exists p1|exists p2]; (split; [assumption|lra])|]. now rewrite V.
Qed.
Print Assumptions C103_nan.

(** Too few rows, repeated wavelengths and arrays of different lengths are rejected. *)
Theorem C103_rejected : forall angle lbda psi delta,
  (length psi <> length delta /\ length psi <> 1%nat /\ length delta <> 1%nat) \/
  (length psi = length delta /\ length psi <> length lbda) \/ (length lbda < 4)%nat \/ ~ NoDup lbda ->
  pseudo_new angle lbda psi delta = Err ValueError.
Proof.
  intros angle lbda psi delta H. unfold pseudo_new. destruct (broadcast psi delta) as [ps|e] eqn:B; cbn [rbind].
  2:{ unfold broadcast in B. destruct (Nat.eqb _ _); [discriminate|]. destruct psi as [|? [|]], delta as [|? [|]]; try discriminate; now injection B as <-. }
  destruct (Nat.eqb_spec (length (map (fun pd => pseudo_row angle (fst pd) (snd pd)) ps)) (length lbda)) as [L|]; [|reflexivity].
  set (eps := map _ ps) in *. set (ys := map _ eps). assert (LY : length ys = length lbda) by (unfold ys; now rewrite map_length).
  cbv zeta. assert (LS : length (sorted (combine lbda ys)) = length lbda).
  { transitivity (length (combine lbda ys)); [symmetry; exact (Permutation_length (sorted_perm _))|]. rewrite combine_length, LY. apply Nat.min_id. }
  destruct (Nat.ltb_spec (length (sorted (combine lbda ys))) 4) as [|G]; [reflexivity|]. destruct (increasing (sorted (combine lbda ys))) eqn:I; [exfalso|reflexivity].
  destruct H as [(H1 & H2 & H3)|[(H1 & H2)|[H|H]]].
  - unfold broadcast in B. apply Nat.eqb_neq in H1. rewrite H1 in B. destruct psi as [|? [|]], delta as [|? [|]]; try discriminate; cbn in H2, H3; lia.
  - unfold broadcast in B. rewrite H1, Nat.eqb_refl in B. injection B as <-. unfold eps in L. rewrite map_length, combine_length, H1, Nat.min_id in L. lia.
  - lia.
  - apply H. assert (P := sorted_perm (combine lbda ys)). apply (increasing_strict _) in I; [|apply sorted_sorted].
    assert (M : map fst (combine lbda ys) = lbda). { clearbody ys. clear - LY. revert ys LY. induction lbda as [|b l IH]; intros [|c ys] LY; try discriminate LY; [reflexivity|]. cbn. f_equal. apply IH. now injection LY. }
    rewrite <- M. eapply Permutation_NoDup; [apply Permutation_sym, Permutation_map; exact P|]. clear - I. induction I as [|p l I IH F]; [constructor|]. cbn. constructor; [|exact IH].
    intros K. apply in_map_iff in K. destruct K as (q & E & K). rewrite Forall_forall in F. specialize (F q K). unfold strictly in F. lra.
Qed.
Print Assumptions C103_rejected.

(** The formula of the documentation, which lacks the square, gives other values. *)
Lemma rho_third : is_rho (rad2deg (atan (1 / 3))) 180 (RtoC (- (1 / 3))).
Proof.
  split; fold (deg2rad (rad2deg (atan (1 / 3)))) (deg2rad 180); replace (deg2rad (rad2deg (atan (1 / 3)))) with (atan (1 / 3)) by (unfold deg2rad, rad2deg; assert (P := PI_RGT_0); field; lra);
    rewrite tan_atan, deg_180; unfold Re, Im; cbn [fst snd RtoC]; rewrite ?cos_PI, ?sin_PI; ring.
Qed.
Theorem C103_documented_refuted : exists angle p d z v, is_rho p d z /\ pseudo_row angle p d = Some v /\ v <> documented_epsilon (rad angle) z.
Proof.
  exists 45%R, (rad2deg (atan (1 / 3))), 180%R, (RtoC (- (1 / 3))), (RtoC (5 / 2)). split; [exact rho_third|].
  assert (S := sin_PI4). assert (K := cos_PI4). assert (H := half2). assert (T := tan_PI4). assert (A : rad 45 = (PI / 4)%R) by (unfold rad; field).
  assert (W : (1 - RtoC (- (1 / 3))) / (1 + RtoC (- (1 / 3))) = RtoC 2).
  { rewrite <- RtoC_minus, <- RtoC_plus, <- RtoC_div by lra. f_equal. field. }
  assert (P : cos (rad (rad2deg (atan (1 / 3)))) <> 0%R).
  { replace (rad (rad2deg (atan (1 / 3)))) with (atan (1 / 3)) by (unfold rad, rad2deg; assert (Q := PI_RGT_0); field; lra). assert (B := atan_bound (1 / 3)). assert (Z := cos_gt_0 (atan (1 / 3))). lra. }
  assert (Q : cos (rad 45) <> 0%R) by (rewrite A, K; apply Rgt_not_eq; apply Rdiv_lt_0_compat; [lra|apply sqrt_lt_R0; lra]).
  rewrite (proj1 (C103_row 45 _ 180 _ P Q rho_third)). destruct (Ceq_dec _ _) as [E|_]; [apply (f_equal fst) in E; cbn in E; lra|]. unfold bulk_epsilon, documented_epsilon. rewrite W, A, T, S, H. split.
  - f_equal. rewrite <- !RtoC_mult, <- RtoC_plus, <- RtoC_mult. f_equal. field.
  - intros E. rewrite <- !RtoC_mult, <- RtoC_plus, <- RtoC_mult in E. apply RtoC_inj in E. lra.
Qed.
Print Assumptions C103_documented_refuted.

Lemma normal_measured lb : (lb <> 0)%R -> exists pd, measured (-180) 180 0 1 lb (RtoC 4) pd.
Proof.
  intros Lb. assert (Z : deg2rad 0 = 0%R) by exact deg_0. assert (Ne : RtoC 4 <> 0) by (apply C_of_R_neq; lra). assert (O1 : RtoC 1 <> 0) by (apply C_of_R_neq; lra).
  assert (KB : kz_half (RtoC (sin (deg2rad 0))) (RtoC 4) = RtoC 2).
  { apply kz_pick; [exact Ne| |unfold Re; cbn [fst RtoC]; lra|left; unfold Im; cbn [snd RtoC]; lra]. rewrite Z, sin_0, <- !RtoC_mult, <- RtoC_minus. f_equal. lra. }
  assert (JJ := substrate_some 0 lb (RtoC 4)). cbv zeta in JJ. rewrite KB, Z, cos_0, (Rabs_pos_eq 1) in JJ by lra.
  assert (HJ := JJ Lb ltac:(lra) Ne). clear JJ. rewrite <- !RtoC_mult, <- !RtoC_plus, <- !RtoC_minus in HJ.
  rewrite <- !RtoC_div in HJ by lra. specialize (HJ ltac:(apply C_of_R_neq; lra) ltac:(apply C_of_R_neq; lra)). set (J := mat_of _) in HJ.
  destruct (rho (-180, 180)%R J (vec_of [RtoC 1; RtoC 1])) as [z|] eqn:HR.
  2:{ exfalso. apply (C04_defined _ _ _ _ _ _ O1 HJ) in HR. apply (f_equal fst) in HR. cbn [fst RtoC] in HR. lra. }
  destruct (C03_psi_delta_rho_partial (-180) 180 _ _ _ ltac:(unfold allowed_range; lia) ltac:(lia) HR) as (p & d & Hp & Hd & _).
  exists (p, d), J, z. repeat split; assumption.
Qed.
Lemma oblique_measured lb : (lb <> 0)%R -> exists pd, measured (-180) 180 45 1 lb (RtoC (5 / 2)) pd.
Proof.
  intros Lb. destruct deg45 as [S K]. assert (H2 : (0 < sqrt 2)%R) by (apply sqrt_lt_R0; lra).
  assert (H0 : (0 < 1 / sqrt 2)%R) by (apply Rdiv_lt_0_compat; lra).
  assert (HS := half2). set (h := (1 / sqrt 2)%R) in *. clearbody h.
  assert (Ne : RtoC (5 / 2) <> 0) by (apply C_of_R_neq; lra). assert (O1 : RtoC 1 <> 0) by (apply C_of_R_neq; lra).
  assert (KB : kz_half (RtoC (sin (deg2rad 45))) (RtoC (5 / 2)) = RtoC (2 * h)).
  { apply kz_pick; [exact Ne| |unfold Re; cbn [fst RtoC]; lra|left; unfold Im; cbn [snd RtoC]; lra]. rewrite S, <- !RtoC_mult, <- RtoC_minus. f_equal. lra. }
  assert (JJ := substrate_some 45 lb (RtoC (5 / 2))). cbv zeta in JJ. rewrite KB, K, (Rabs_pos_eq h) in JJ by lra.
  rewrite <- !RtoC_mult, <- !RtoC_plus, <- !RtoC_minus in JJ. specialize (JJ Lb ltac:(lra) Ne ltac:(apply C_of_R_neq; lra) ltac:(apply C_of_R_neq; lra)). set (J := mat_of _) in JJ.
  destruct (rho (-180, 180)%R J (vec_of [RtoC 1; RtoC 1])) as [z|] eqn:HR.
  2:{ exfalso. apply (C04_defined _ _ _ _ _ _ O1 JJ) in HR. apply (f_equal fst) in HR. cbn [fst RtoC] in HR. lra. }
  destruct (C03_psi_delta_rho_partial (-180) 180 _ _ _ ltac:(unfold allowed_range; lia) ltac:(lia) HR) as (p & d & Hp & Hd & _).
  exists (p, d), J, z. repeat split; assumption.
Qed.
Lemma four_rows (Q : R -> R * R -> Prop) : (forall lb, (lb <> 0)%R -> exists pd, Q lb pd) ->
  exists psis deltas, length psis = 4%nat /\ length deltas = 4%nat /\ Forall2 Q [400; 500; 600; 700]%R (combine psis deltas).
Proof.
  intros H. destruct (H 400%R ltac:(lra)) as ((p1, d1) & Q1). destruct (H 500%R ltac:(lra)) as ((p2, d2) & Q2). destruct (H 600%R ltac:(lra)) as ((p3, d3) & Q3). destruct (H 700%R ltac:(lra)) as ((p4, d4) & Q4).
  exists [p1; p2; p3; p4], [d1; d2; d3; d4]. split; [reflexivity|]. split; [reflexivity|]. repeat (constructor; [assumption|]). constructor.
Qed.
Lemma four_distinct : NoDup [400; 500; 600; 700]%R.
Proof. repeat constructor; cbn; intros K; repeat destruct K as [K|K]; lra. Qed.

(** At normal incidence there are no values. *)
Theorem C103_normal_refuted : exists lbda psis deltas t, NoDup lbda /\ (4 <= length lbda)%nat /\ length psis = length lbda /\ length deltas = length lbda /\
  Forall2 (fun lb pd => measured (-180) 180 0 1 lb (RtoC 4) pd) lbda (combine psis deltas) /\
  pseudo_new 0 lbda psis deltas = Ok t /\ forall lb, In lb lbda -> pseudo_value t lb = Ok None.
Proof.
  destruct (four_rows _ normal_measured) as (psis & deltas & L1 & L2 & F). exists [400; 500; 600; 700]%R, psis, deltas.
  destruct (C103_nan 0 [400; 500; 600; 700]%R psis deltas L1 L2 four_distinct ltac:(cbn; lia)) as (t & T & V).
  { inversion F as [|lb pd lbs pds M F' E1 E2]. exists pd. split; [now left|]. assert (A : allowed_range (-180) 180) by (unfold allowed_range; lia). rewrite (proj2 (measured_row (-180) 180 0 1 400 _ pd A ltac:(lia) M)).
    destruct M as (J & z & HJ & Hz & Hp & Hd). rewrite (C04_substrate_partial (-180) 180 0 400 (RtoC 4) (RtoC 1) J z _ _ A ltac:(lia) ltac:(congruence) ltac:(apply C_of_R_neq; lra) HJ Hz Hp Hd).
    change (0 * PI / 180)%R with (deg2rad 0). rewrite deg_0, sin_0. now destruct (Req_EM_T 0 0). }
  exists t. split; [exact four_distinct|]. split; [cbn; lia|]. do 4 (split; [assumption|]). intros lb H. apply V; exists lb; (split; [exact H|lra]).
Qed.
Print Assumptions C103_normal_refuted.

Example C103_example : exists psis deltas t,
  Forall2 (fun lb pd => measured (-180) 180 45 1 lb (RtoC (5 / 2)) pd) [400; 500; 600; 700]%R (combine psis deltas) /\
  pseudo_new 45 [400; 500; 600; 700]%R psis deltas = Ok t /\ pseudo_value t 500 = Ok (Some (RtoC (5 / 2))).
Proof.
  destruct (four_rows _ oblique_measured) as (psis & deltas & L1 & L2 & F).
  destruct (C103_substrate (-180) 180 45 1 (fun _ => RtoC (5 / 2)) [400; 500; 600; 700]%R psis deltas) as (t & T & V & _); try assumption.
  - unfold allowed_range; lia.
  - lia.
  - congruence.
  - apply C_of_R_neq; lra.
  - change (rad 45) with (deg2rad 45). rewrite (proj1 deg45). assert (H := half2). nra.
  - exact four_distinct.
  - cbn; lia.
  - exists psis, deltas, t. split; [exact F|]. split; [exact T|]. apply V. cbn. tauto.
Qed.

(** C104.  psi and delta from a rho that needs no folding *)
Lemma psi_delta_back l u J (E : nat -> C) p d z : allowed_range l u -> (l = 0 \/ l = -180 \/ l = -360)%Z -> (Im z <= 0)%R -> (0 < p < 90)%R -> (-360 <= d < 360)%R ->
  rho_raw J E = Some z -> is_rho p d z ->
  psi (IZR l, IZR u) J E = Some p /\ exists d', delta (IZR l, IZR u) J E = Some d' /\ in_turn (IZR l) d' /\ same_angle d d'.
Proof.
  intros A L I P D R Z. assert (HR : rho (IZR l, IZR u) J E = Some z).
  { unfold rho. rewrite R. cbn [obind]. f_equal. unfold fold_rho. destruct (andb _ _); [|reflexivity]. unfold Im in I. rewrite Rabs_left1 by exact I. rewrite Ropp_involutive. now destruct z. }
  destruct (C03_psi_delta_rho_partial l u J E z A L HR) as (p' & d' & Hp & Hd & Pb & T & Z'). destruct (rho_unique p d p' d' z P Pb Z Z') as [-> Q]. split; [exact Hp|]. exists d'. split; [exact Hd|]. split; [exact T|].
  apply same_of_cos; [|exact Q]. unfold in_turn in T. destruct L as [->|[->| ->]]; lra.
Qed.
Lemma rho_parts p d : calc_rho p d = (tan (deg2rad p) * cos (deg2rad d), - (tan (deg2rad p) * sin (deg2rad d)))%R.
Proof. assert (K := proj2 (is_rho_calc p d (calc_rho p d)) eq_refl). destruct K as [A B]. apply C_ext; cbn [fst snd]; [exact A|exact B]. Qed.
Lemma tan_45 : tan (deg2rad 45) = 1%R.
Proof. replace (deg2rad 45) with (PI / 4)%R by (unfold deg2rad; field). apply tan_PI4. Qed.
Lemma row_bulk angle p d : (0 < angle < 90)%R -> (0 < p < 90)%R -> (p < 45)%R \/ sin (deg2rad d) <> 0%R ->
  let t := tan (deg2rad p) in let k := quo t (deg2rad d) in (0 < t)%R /\ (t < 1 \/ sin (deg2rad d) <> 0)%R /\
  pseudo_row angle p d = Some (bulk_eps (cos (deg2rad angle)) (sin (deg2rad angle)) k).
Proof.
  intros A P H t k. assert (T : (0 < t)%R) by (apply tan_deg; lra).
  assert (T1 : (t < 1 \/ sin (deg2rad d) <> 0)%R) by (destruct H as [H|H]; [left; rewrite <- tan_45; apply tan_deg_lt; lra|now right]).
  split; [exact T|]. split; [exact T1|]. assert (C1 := cos_deg p ltac:(lra)). assert (C2 := cos_deg angle ltac:(lra)). rewrite pseudo_row_calc by lra. unfold calc_pseudo_diel. rewrite rho_parts. fold t. unfold cdiv.
  destruct (Ceq_dec _ 0) as [E|E]; [exfalso; exact (one_z t (deg2rad d) T T1 E)|]. reflexivity.
Qed.
Lemma bulk_nonzero c s k : (0 < c)%R -> (s <> 0)%R -> (Re k <> 0)%R -> bulk_eps c s k <> 0.
Proof.
  intros Hc Hs Hk E. assert (Q := bulk_sqr c s k Hc). rewrite E in Q. unfold bulk_q in Q.
  assert (X := f_equal fst Q). assert (Y := f_equal snd Q). destruct k as [x y]. unfold Re in Hk. cbn in X, Y, Hk.
  assert (W : (s * s / c <> 0)%R) by (apply Rgt_not_eq, Rdiv_lt_0_compat; nra). set (w := (s * s / c)%R) in *. clearbody w.
  assert (Y0 : (y = 0)%R). { assert (Z : (w * x * (w * y) = 0)%R) by lra. assert (w * x <> 0)%R by (apply Rmult_integral_contrapositive_currified; assumption). assert (w * y = 0)%R by (apply Rmult_integral in Z; tauto). apply Rmult_integral in H0. tauto. }
  subst y. assert (0 < s * s)%R by nra. nra.
Qed.

(** C104: a bare substrate with the pseudo dielectric function of measured data has the measured psi and
    delta, for delta from 0 to 180 degrees; if psi is not below 45 degrees only if the solver can see the
    sign of the wave number's imaginary part, and if eps is not 0. *)
Theorem C104_reproduced : forall (l u : Z) angle lb p d (eps a : C), allowed_range l u -> (l = 0 \/ l = -180 \/ l = -360)%Z ->
  (0 < angle < 90)%R -> (lb <> 0)%R -> (0 < p < 90)%R -> (0 <= d <= 180)%R -> a <> 0 ->
  pseudo_row angle p d = Some eps -> eps <> 1 -> (p = 45%R -> eps <> 0) ->
  (p < 45)%R \/ (forall q : C, q * q = eps - RtoC (sin (rad angle)) * RtoC (sin (rad angle)) -> (1 / 10 ^ 10 < Rabs (Im q))%R) ->
  exists J, jones2_r (solver2 angle lb (RtoC 1) [] eps) = Some J /\
    psi (IZR l, IZR u) J (vec_of [a; a]) = Some p /\
    exists d', delta (IZR l, IZR u) J (vec_of [a; a]) = Some d' /\ in_turn (IZR l) d' /\ same_angle d d'.
Proof.
  intros l u angle lb p d eps a A L An Lb P D Na E N1 N0 HQ. assert (SD : (0 <= sin (deg2rad d))%R).
  { assert (PI0 := PI_RGT_0). apply sin_ge_0; unfold deg2rad; [nra|]. apply Rmult_le_reg_r with 180%R; [lra|]. replace (d * PI / 180 * 180)%R with (d * PI)%R by field. nra. }
  assert (H1 : (p < 45)%R \/ sin (deg2rad d) <> 0%R).
  { destruct HQ as [HQ|HQ]; [now left|right]. intros S0. change (rad angle) with (deg2rad angle) in HQ. assert (Ca := cos_deg angle ltac:(lra)). assert (Cp := cos_deg p ltac:(lra)). rewrite pseudo_row_calc in E by lra. unfold calc_pseudo_diel in E.
    rewrite rho_parts, S0, Rmult_0_r, Ropp_0 in E. fold (RtoC (tan (deg2rad p) * cos (deg2rad d))) in E. set (v := (tan (deg2rad p) * cos (deg2rad d))%R) in *. clearbody v. unfold cdiv in E. destruct (Ceq_dec _ 0) as [|NV] in E; [discriminate|]. cbn [obind] in E. injection E as <-.
    assert (V1 : (1 + v <> 0)%R) by (intros V; apply NV; rewrite <- RtoC_plus, V; reflexivity).
    set (q := (sin (deg2rad angle) * tan (deg2rad angle) * ((1 - v) / (1 + v)))%R). specialize (HQ (RtoC q)).
    assert (X : (1 / 10 ^ 10 < Rabs 0)%R). { apply HQ. unfold q. rewrite <- ?RtoC_plus, <- ?RtoC_minus, <- ?RtoC_div by exact V1. repeat rewrite <- ?RtoC_mult, <- ?RtoC_plus, <- ?RtoC_minus. f_equal. unfold tan, deg2rad in *. field. split; [exact V1|lra]. }
    rewrite Rabs_R0 in X. assert (0 < 1 / 10 ^ 10)%R by (apply Rdiv_lt_0_compat; [lra|apply pow_lt; lra]). lra. }
  destruct (row_bulk angle p d An P H1) as (T & T1 & HR). rewrite HR in E. injection E as <-. change (rad angle) with (deg2rad angle) in HQ.
  set (t := tan (deg2rad p)) in *. set (c := cos (deg2rad angle)) in *. set (s := sin (deg2rad angle)) in *. set (k := quo t (deg2rad d)) in *.
  assert (Hc : (0 < c)%R) by (apply cos_deg; lra). assert (Hs : (0 < s)%R) by (apply sin_deg; lra). assert (SC := sin2_cos2 (deg2rad angle)). unfold Rsqr in SC. fold c s in SC.
  assert (KK : (0 <= Im k)%R /\ (0 < Re k \/ 0 < Im k)%R).
  { destruct (quo_sign t (deg2rad d) T T1) as (G1 & _ & G3). split; [exact (G1 SD)|]. assert (T2 := T1); destruct T2 as [T1'|T1']; [left; exact (quo_pos t (deg2rad d) T T1 T1')|right; apply G3; lra]. }
  destruct KK as [K1 K0].
  assert (Ne : bulk_eps c s k <> 0).
  { destruct (Req_dec p 45) as [P45|P45]; [exact (N0 P45)|]. apply bulk_nonzero; [lra|lra|]. apply (quo_re0 t (deg2rad d) T T1). intros T45. apply P45. apply tan_deg_inj; [lra|lra|]. now rewrite tan_45. }
  assert (K2 : (0 < Re k)%R \/ (forall q : C, q * q = bulk_eps c s k - RtoC s * RtoC s -> (1 / 10 ^ 10 < Rabs (Im q))%R)).
  { destruct HQ as [HQ|HQ]; [left|right; exact HQ]. apply (quo_pos t (deg2rad d) T T1). unfold t. rewrite <- tan_45. apply tan_deg_lt; lra. }
  assert (W : (0 < s * s / c)%R) by (apply Rdiv_lt_0_compat; nra). assert (QP := quo_plus t (deg2rad d) T T1 : 1 + k <> 0). assert (QB := quo_back t (deg2rad d) T T1 : (1 - k) / (1 + k) = _).
  clearbody k.
  assert (QI : Im (bulk_q c s k) = (s * s / c * Im k)%R) by (unfold bulk_q, Im; cbn; ring). assert (QR : Re (bulk_q c s k) = (s * s / c * Re k)%R) by (unfold bulk_q, Re; cbn; ring).
  assert (KB : kz_half (RtoC s) (bulk_eps c s k) = bulk_q c s k).
  { assert (BS := bulk_sqr c s k Hc). destruct K2 as [K2|K2].
    - apply kz_pick; [exact Ne|exact BS|rewrite QR; now apply Rmult_lt_0_compat|left; rewrite QI; apply Rmult_le_pos; [left; exact W|exact K1]].
    - specialize (K2 _ BS). rewrite Rabs_pos_eq in K2 by (rewrite QI; apply Rmult_le_pos; [left; exact W|exact K1]).
      replace (bulk_q c s k) with (- - bulk_q c s k) by ring. apply kz_drop; [exact Ne|rewrite <- BS; ring|]. change (Im (- bulk_q c s k)) with (- Im (bulk_q c s k))%R. lra. }
  assert (D1 : RtoC (c * c) + RtoC (s * s) * k <> 0).
  { intros Q. assert (QX := f_equal fst Q). assert (QY := f_equal snd Q). unfold Re in K0. unfold Im in K0. cbn in QX, QY. rewrite Rmult_0_l, Rminus_0_r in QX. assert (CC : (0 < c * c)%R) by (apply Rmult_lt_0_compat; exact Hc). assert (SS : (0 < s * s)%R) by (apply Rmult_lt_0_compat; exact Hs).
    destruct K0 as [K0|K0]; assert (V := Rmult_lt_0_compat _ _ SS K0); lra. }
  assert (D2 : RtoC (c * c) - RtoC (s * s) * k <> 0).
  { intros Q. apply N1. assert (Sn : RtoC s <> 0) by (apply C_of_R_neq; lra). assert (Cn : RtoC c <> 0) by (apply C_of_R_neq; lra).
    assert (Kk : k = RtoC c * RtoC c / (RtoC s * RtoC s)).
    { transitivity ((RtoC c * RtoC c - (RtoC (c * c) - RtoC (s * s) * k)) / (RtoC s * RtoC s)); [rewrite !RtoC_mult; field; exact Sn|]. rewrite Q. field. exact Sn. }
    unfold bulk_eps. rewrite Kk, !RtoC_mult, RtoC_div by lra. transitivity (RtoC s * RtoC s + RtoC c * RtoC c); [field; auto|]. rewrite <- !RtoC_mult, <- RtoC_plus, SC. reflexivity. }
  destruct (bulk_ratio c s k Hc ltac:(lra) SC QP D1 D2) as (F1 & F2 & F3 & F4).
  assert (JJ := substrate_some angle lb (bulk_eps c s k)). cbv zeta in JJ. fold s c in JJ. rewrite KB, (Rabs_pos_eq c) in JJ by lra. specialize (JJ Lb ltac:(lra) Ne F1 F2).
  eexists. split; [exact JJ|]. assert (ZZ : is_rho p d (calc_rho p d)) by now apply is_rho_calc. apply (psi_delta_back l u _ _ p d (calc_rho p d)); try assumption; try lra.
  - rewrite rho_parts. fold t. unfold Im. cbn. nra.
  - rewrite diag_rho by exact Na. destruct (Ceq_dec _ 0); [contradiction|]. f_equal. rewrite F4, rho_parts. fold t. exact QB.
Qed.
Print Assumptions C104_reproduced.

(** For delta from 180 to 360 degrees the solver takes the other root: psi becomes 90 degrees minus psi and
    delta its negative. *)
Theorem C104_mirrored : forall (l u : Z) angle lb p d (eps a : C), allowed_range l u -> (l = 0 \/ l = -180 \/ l = -360)%Z ->
  (0 < angle < 90)%R -> (lb <> 0)%R -> (0 < p < 90)%R -> (180 < d < 360)%R -> a <> 0 ->
  pseudo_row angle p d = Some eps -> (p = 45%R -> eps <> 0) ->
  (forall q : C, q * q = eps - RtoC (sin (rad angle)) * RtoC (sin (rad angle)) -> (1 / 10 ^ 10 < Rabs (Im q))%R) ->
  exists J, jones2_r (solver2 angle lb (RtoC 1) [] eps) = Some J /\
    psi (IZR l, IZR u) J (vec_of [a; a]) = Some (90 - p)%R /\
    exists d', delta (IZR l, IZR u) J (vec_of [a; a]) = Some d' /\ in_turn (IZR l) d' /\ same_angle (- d) d'.
Proof.
  intros l u angle lb p d eps a A L An Lb P D Na E N0 HQ. assert (SD : (sin (deg2rad d) < 0)%R).
  { assert (Z := sin_deg (d - 180) ltac:(lra)). replace (deg2rad (d - 180)) with (deg2rad d - PI)%R in Z by (unfold deg2rad; field). rewrite sin_minus, cos_PI, sin_PI in Z. lra. }
  destruct (row_bulk angle p d An P (or_intror (Rlt_not_eq _ _ SD))) as (T & T1 & HR). rewrite HR in E. injection E as <-. change (rad angle) with (deg2rad angle) in HQ.
  set (t := tan (deg2rad p)) in *. set (c := cos (deg2rad angle)) in *. set (s := sin (deg2rad angle)) in *. set (k := quo t (deg2rad d)) in *.
  assert (Hc : (0 < c)%R) by (apply cos_deg; lra). assert (Hs : (0 < s)%R) by (apply sin_deg; lra). assert (SC := sin2_cos2 (deg2rad angle)). unfold Rsqr in SC. fold c s in SC.
  assert (K1 := proj1 (proj2 (quo_sign t (deg2rad d) T T1)) SD : (Im k < 0)%R).
  assert (Ne : bulk_eps c s k <> 0).
  { destruct (Req_dec p 45) as [P45|P45]; [exact (N0 P45)|]. apply bulk_nonzero; [lra|lra|]. apply (quo_re0 t (deg2rad d) T T1). intros T45. apply P45. apply tan_deg_inj; [lra|lra|]. now rewrite tan_45. }
  assert (W : (0 < s * s / c)%R) by (apply Rdiv_lt_0_compat; nra). assert (QP := quo_plus t (deg2rad d) T T1 : 1 + k <> 0). assert (QM' := quo_minus t (deg2rad d) T T1 : 1 - k <> 0). assert (QB := quo_back t (deg2rad d) T T1 : (1 - k) / (1 + k) = _).
  clearbody k.
  assert (QQ := bulk_sqr c s k Hc). assert (IQ : (Im (bulk_q c s k) < 0)%R).
  { unfold bulk_q, Im in *. cbn. rewrite Rmult_0_l, Rplus_0_r. assert (Z : (0 < s * s / c * - snd k)%R) by (apply Rmult_lt_0_compat; lra). lra. }
  assert (KB : kz_half (RtoC s) (bulk_eps c s k) = - bulk_q c s k).
  { apply kz_drop; [exact Ne|exact QQ|]. specialize (HQ _ QQ). rewrite Rabs_left in HQ by exact IQ. lra. }
  assert (EM : bulk_eps c s k = bulk_eps c s (- k)) by (unfold bulk_eps; ring). assert (QM : - bulk_q c s k = bulk_q c s (- k)) by (unfold bulk_q; ring).
  assert (IM : forall r w : R, (w <> 0)%R -> RtoC r + RtoC w * k <> 0).
  { intros r w Hw Q. apply (f_equal snd) in Q. unfold Im in K1. cbn in Q. apply Rmult_integral_contrapositive_currified with (r2 := snd k) in Hw; lra. }
  destruct (bulk_ratio c s (- k) Hc ltac:(lra) SC) as (F1 & F2 & F3 & F4).
  { exact QM'. }
  { replace (RtoC (c * c) + RtoC (s * s) * - k) with (RtoC (c * c) + RtoC (- (s * s)) * k) by (rewrite RtoC_opp; ring). apply IM. nra. }
  { replace (RtoC (c * c) - RtoC (s * s) * - k) with (RtoC (c * c) + RtoC (s * s) * k) by ring. apply IM. nra. }
  assert (JJ := substrate_some angle lb (bulk_eps c s k)). cbv zeta in JJ. fold s c in JJ. rewrite KB, (Rabs_pos_eq c) in JJ by lra. rewrite QM in JJ. rewrite EM in *. specialize (JJ Lb ltac:(lra) Ne F1 F2).
  eexists. split; [exact JJ|]. assert (ZZ : is_rho (90 - p) (- d) (calc_rho (90 - p) (- d))) by now apply is_rho_calc. apply (psi_delta_back l u _ _ (90 - p) (- d) (calc_rho (90 - p) (- d))); try assumption; try lra.
  - rewrite rho_parts. assert (T2 := tan_deg (90 - p) ltac:(lra)). replace (deg2rad (- d)) with (- deg2rad d)%R by (unfold deg2rad; field). rewrite sin_neg. unfold Im. cbn. nra.
  - rewrite diag_rho by exact Na. destruct (Ceq_dec _ 0); [contradiction|]. f_equal. rewrite F4.
    assert (Z0 := z_neq t (deg2rad d) T T1). cbv zeta in Z0.
    transitivity (/ ((1 - k) / (1 + k))); [field; repeat split; try assumption; intros G; first [apply QP; rewrite <- G; ring|apply QM'; rewrite <- G; ring]|]. rewrite QB.
    apply (Cmult_cancel (t * cos (deg2rad d), - (t * sin (deg2rad d)))%R); [exact Z0|]. rewrite Cinv_r by exact Z0.
    rewrite rho_parts. replace (deg2rad (- d)) with (- deg2rad d)%R by (unfold deg2rad; field). rewrite sin_neg, cos_neg.
    assert (TT : (tan (deg2rad (90 - p)) = / t)%R).
    { replace (deg2rad (90 - p)) with (PI / 2 - deg2rad p)%R by (unfold deg2rad; field). unfold t, tan. rewrite sin_shift, cos_shift. assert (C1 := cos_deg p ltac:(lra)). assert (S1 := sin_deg p ltac:(lra)). field. lra. }
    rewrite TT. assert (S2 := sin2_cos2 (deg2rad d)). unfold Rsqr in S2. apply C_ext; cbn; field_simplify_eq; try lra; nra.
Qed.
Print Assumptions C104_mirrored.

(** C104 over a whole table: the substrate of the dispersion has the measured psi and delta at all measured
    wavelengths. *)
Definition seen (angle p d : R) : Prop := exists eps, pseudo_row angle p d = Some eps /\ eps <> 1 /\ (p = 45%R -> eps <> 0) /\
  ((p < 45)%R \/ forall q : C, q * q = eps - RtoC (sin (rad angle)) * RtoC (sin (rad angle)) -> (1 / 10 ^ 10 < Rabs (Im q))%R).
Theorem C104_spectrum : forall (l u : Z) angle (a : C) lbda psis deltas, allowed_range l u -> (l = 0 \/ l = -180 \/ l = -360)%Z ->
  (0 < angle < 90)%R -> a <> 0 -> length psis = length lbda -> length deltas = length lbda -> NoDup lbda -> (4 <= length lbda)%nat -> ~ In 0%R lbda ->
  Forall (fun pd => (0 < fst pd < 90)%R /\ (0 <= snd pd <= 180)%R /\ seen angle (fst pd) (snd pd)) (combine psis deltas) ->
  exists t, pseudo_new angle lbda psis deltas = Ok t /\
    forall lb p d, In (lb, (p, d)) (combine lbda (combine psis deltas)) -> exists eps J, pseudo_value t lb = Ok (Some eps) /\
      jones2_r (solver2 angle lb (RtoC 1) [] eps) = Some J /\ psi (IZR l, IZR u) J (vec_of [a; a]) = Some p /\
      exists d', delta (IZR l, IZR u) J (vec_of [a; a]) = Some d' /\ in_turn (IZR l) d' /\ same_angle d d'.
Proof.
  intros l u angle a lbda psis deltas A L An Na L1 L2 N Q Z F.
  set (f := fun pd : R * R => match pseudo_row angle (fst pd) (snd pd) with Some e => e | None => RtoC 0 end).
  assert (G : forall pd, In pd (combine psis deltas) -> pseudo_row angle (fst pd) (snd pd) = Some (f pd)).
  { intros pd H. rewrite Forall_forall in F. destruct (F pd H) as (_ & _ & e & E & _). unfold f. now rewrite E. }
  assert (E : map (fun pd => pseudo_row angle (fst pd) (snd pd)) (combine psis deltas) = map Some (map f (combine psis deltas))) by (rewrite map_map; now apply map_ext_in).
  destruct (C103_table angle lbda psis deltas _ L1 L2 E N Q) as (t & T & V & _). exists t. split; [exact T|].
  intros lb p d H. assert (H' := in_combine_r _ _ _ _ H). rewrite Forall_forall in F. destruct (F _ H') as (P & D & e & Ee & N1 & N0 & HQ). cbn [fst snd] in P, D, N0, HQ, Ee. assert (GE := G _ H'). cbn [fst snd] in GE. rewrite Ee in GE. injection GE as GE.
  assert (Lb : (lb <> 0)%R) by (intros ->; apply Z; exact (in_combine_l _ _ _ _ H)). exists (f (p, d)). rewrite GE in *.
  destruct (C104_reproduced l u angle lb p d (f (p, d)) a A L An Lb P D Na Ee N1 N0 HQ) as (J & HJ & HP & HD).
  exists J. split; [|split; [exact HJ|split; assumption]]. apply V. clear - H. revert lbda H. induction (combine psis deltas) as [|r rs IH]; intros [|b lbda] H; cbn in H; try contradiction. cbn. destruct H as [H|H]; [left; now injection H as -> ->|right; now apply IH].
Qed.
Print Assumptions C104_spectrum.

Definition sample (y : R) : C := (1 / 4, y * sqrt 3 / 4)%R.
Lemma sample_row d y : cos (deg2rad d) = 0%R -> sin (deg2rad d) = y -> (y * y = 1)%R -> pseudo_row 45 30 d = Some (sample y).
Proof.
  intros Hc Hs Hy. destruct (row_bulk 45 30 d ltac:(lra) ltac:(lra) ltac:(left; lra)) as (_ & _ & ->). f_equal. destruct deg45 as [S K]. assert (H2 := half2). assert (H0 : (0 < 1 / sqrt 2)%R) by (apply Rdiv_lt_0_compat; [lra|apply sqrt_lt_R0; lra]).
  rewrite S, K. set (h := (1 / sqrt 2)%R) in *. clearbody h. assert (R3 : (sqrt 3 * sqrt 3 = 3)%R) by (apply sqrt_sqrt; lra). assert (P3 : (0 < sqrt 3)%R) by (apply sqrt_lt_R0; lra).
  assert (T : (tan (deg2rad 30) = 1 / sqrt 3)%R) by (replace (deg2rad 30) with (PI / 6)%R by (unfold deg2rad; field); apply tan_PI6).
  unfold bulk_eps, quo, sample. rewrite Hc, Hs, T. set (r := sqrt 3) in *. clearbody r. rewrite Rmult_0_r.
  assert (KK : (1 - (0, - (1 / r * y))%R) / (1 + (0, - (1 / r * y))%R) = (1 / 2, y * r / 2)%R).
  { assert (M : 1 + (0, - (1 / r * y))%R <> 0) by (intros X; apply (f_equal fst) in X; cbn in X; lra).
    apply (Cmult_cancel (1 + (0, - (1 / r * y))%R)); [exact M|].
    transitivity (1 - (0, - (1 / r * y))%R); [field; exact M|]. apply C_ext; cbn; field_simplify_eq; try lra; try nra. replace (r ^ 2)%R with 3%R by (rewrite <- R3; ring). ring. }
  rewrite KK, H2. replace (h / h * (h / h))%R with 1%R by (field; lra).
  assert (YR : (y * r * (y * r) = 3)%R) by (replace (y * r * (y * r))%R with (y * y * (r * r))%R by ring; rewrite Hy, R3; lra). apply C_ext; cbn; lra.
Qed.
Lemma rows_30 : pseudo_row 45 30 90 = Some (sample 1) /\ pseudo_row 45 30 270 = Some (sample (Ropp 1)).
Proof.
  split; apply sample_row; try lra; rewrite ?deg_90; try (replace (deg2rad 270) with (3 * (PI / 2))%R by (unfold deg2rad; field)); auto using cos_PI2, sin_PI2, cos_3PI2, sin_3PI2.
Qed.

(** C104 is false for delta above 180 degrees: from psi = 30 and delta = 270 degrees the substrate has
    psi = 60 and delta = 90 degrees. *)
Theorem C104_refuted : exists angle p d eps J d', (0 < angle < 90)%R /\ (0 < p < 90)%R /\ (180 < d < 360)%R /\
  pseudo_row angle p d = Some eps /\ jones2_r (solver2 angle 500 (RtoC 1) [] eps) = Some J /\
  psi (0, 360)%R J (vec_of [RtoC 1; RtoC 1]) = Some (90 - p)%R /\ delta (0, 360)%R J (vec_of [RtoC 1; RtoC 1]) = Some d' /\
  (90 - p <> p)%R /\ ~ same_angle d d'.
Proof.
  destruct (C104_mirrored 0 360 45 500 30 270 (sample (Ropp 1)) (RtoC 1)) as (J & HJ & HP & d' & HD & T & SA); try lra; try (unfold allowed_range; lia).
  - apply C_of_R_neq; lra.
  - exact (proj2 rows_30).
  - intros q E. change (rad 45) with (deg2rad 45) in E. rewrite (proj1 deg45) in E. assert (H2 := half2). assert (H0 : (0 < 1 / sqrt 2)%R) by (apply Rdiv_lt_0_compat; [lra|apply sqrt_lt_R0; lra]).
    set (h := (1 / sqrt 2)%R) in *. clearbody h. unfold sample in E. assert (R3 : (sqrt 3 * sqrt 3 = 3)%R) by (apply sqrt_sqrt; lra). assert (P3 : (0 < sqrt 3)%R) by (apply sqrt_lt_R0; lra). set (r := sqrt 3) in *. clearbody r.
    destruct q as [x y]. assert (X := f_equal fst E). assert (Y := f_equal snd E). cbn in X, Y. unfold Im. cbn [snd].
    assert (Y2 : (1 / 4 <= y * y)%R) by nra. destruct (Rle_or_lt 0 y); [rewrite Rabs_pos_eq by lra|rewrite Rabs_left by lra]; nra.
  - exists 45%R, 30%R, 270%R, (sample (Ropp 1)), J, d'. do 3 (split; [lra|]). split; [exact (proj2 rows_30)|]. do 3 (split; [assumption|]). split; [lra|].
    destruct SA as [m M]. intros [n X]. assert (K : (540 = 360 * IZR (n - m) \/ 540 = 360 * IZR (m - n))%R) by (rewrite !minus_IZR; lra).
    destruct K as [K|K]; revert K; rewrite <- mult_IZR; intros K; apply eq_IZR in K; lia.
Qed.
Print Assumptions C104_refuted.

Example C104_example : exists J d', jones2_r (solver2 45 500 (RtoC 1) [] (1 / 4, sqrt 3 / 4)%R) = Some J /\
  psi (0, 360)%R J (vec_of [RtoC 1; RtoC 1]) = Some 30%R /\ delta (0, 360)%R J (vec_of [RtoC 1; RtoC 1]) = Some d' /\ same_angle 90 d'.
Proof.
  replace ((1 / 4, sqrt 3 / 4)%R : C) with (sample 1) by (unfold sample; f_equal; lra).
  destruct (C104_reproduced 0 360 45 500 30 90 (sample 1) (RtoC 1)) as (J & HJ & HP & d' & HD & T & SA); try lra; try (unfold allowed_range; lia).
  - apply C_of_R_neq; lra.
  - exact (proj1 rows_30).
  - intros E. apply (f_equal fst) in E. cbn in E. lra.
  - exists J, d'. auto.
Qed.
