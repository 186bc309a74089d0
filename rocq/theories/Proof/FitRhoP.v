(** Lemmas on the psi/delta fit. *)
From Coq Require Import Reals String Lra Lia ZArith Arith Bool Permutation.
From Coquelicot Require Import Complex.
From Coq Require Import List.
From Verif.Base Require Import Py Cx Mat.
From Verif.Model Require Import Ellips FitRho.
From Verif.Spec Require Import Angle Light FitPicture.
From Verif.Proof Require Import EllipsP.
Import ListNotations.
Open Scope R_scope.
Open Scope list_scope.

Lemma np_sub_ok a b : List.length a = List.length b -> np_sub a b = Ok (map (fun p => fst p - snd p) (combine a b)).
Proof. intros H. unfold np_sub. now rewrite (proj2 (Nat.eqb_eq _ _) H). Qed.

Lemma calc_rho_parts r : calc_rho (m_psi r) (m_delta r) = (rho_re r, rho_im r).
Proof.
  assert (H := proj2 (is_rho_calc (m_psi r) (m_delta r) _) eq_refl). unfold is_rho in H. destruct H as [A B].
  destruct (calc_rho (m_psi r) (m_delta r)) as [x y]. unfold Re, Im in *. cbn [fst snd] in *. now rewrite A, B.
Qed.

Lemma exp_rho_re e : map (@fst R R) (exp_rho e) = map rho_re e.
Proof. unfold exp_rho. rewrite map_map. apply map_ext. intros r. now rewrite calc_rho_parts. Qed.
Lemma exp_rho_im e : map (@snd R R) (exp_rho e) = map rho_im e.
Proof. unfold exp_rho. rewrite map_map. apply map_ext. intros r. now rewrite calc_rho_parts. Qed.
Lemma exp_rho_eq e : exp_rho e = map (fun r => (rho_re r, rho_im r)) e.
Proof. unfold exp_rho. apply map_ext, calc_rho_parts. Qed.

Lemma fit_function_ok e s : List.length (s_rho s) = List.length e ->
  fit_function e s = Ok (map (fun p => rho_re (fst p) - Re (snd p)) (combine e (s_rho s)) ++
                         map (fun p => rho_im (fst p) - Im (snd p)) (combine e (s_rho s))).
Proof.
  intros H. unfold fit_function. rewrite exp_rho_re, exp_rho_im.
  rewrite !np_sub_ok by (rewrite !map_length; auto). unfold rbind.
  assert (A : forall (f : row -> R) (g : C -> R), map (fun p => fst p - snd p) (combine (map f e) (map g (s_rho s))) = map (fun p => f (fst p) - g (snd p)) (combine e (s_rho s))).
  { intros f g. clear. revert e. induction (s_rho s) as [|y l IH]; intros [|x e]; auto. cbn. f_equal. apply IH. }
  f_equal. exact (f_equal2 (@app R) (A rho_re fst) (A rho_im snd)).
Qed.

Lemma all_some_spec {A} (l : list (option A)) m : all_some l = Some m <-> l = map Some m.
Proof.
  revert m. induction l as [|x l IH]; intros m.
  - split; [now intros [= <-]|destruct m; [reflexivity|discriminate]].
  - cbn [all_some]. unfold obind. destruct x as [a|]; [|split; [discriminate|destruct m; discriminate]].
    destruct (all_some l) as [k|] eqn:Q.
    + split.
      * intros [= <-]. cbn. f_equal. now apply IH.
      * destruct m as [|b m]; [discriminate|]. intros [= <- H]. apply IH in H. congruence.
    + split; [discriminate|]. destruct m as [|b m]; [discriminate|]. intros [= <- H]. apply IH in H. discriminate.
Qed.

Lemma sim_of_spec rg E Js s : sim_of rg E Js = Some s ->
  map (fun J => psi rg J E) Js = map Some (s_psi s) /\ map (fun J => delta rg J E) Js = map Some (s_delta s) /\
  map (fun J => rho rg J E) Js = map Some (s_rho s).
Proof.
  unfold sim_of, obind. intros H.
  destruct (all_some (map (fun J => psi rg J E) Js)) as [p|] eqn:P; [|discriminate].
  destruct (all_some (map (fun J => delta rg J E) Js)) as [d|] eqn:D; [|discriminate].
  destruct (all_some (map (fun J => rho rg J E) Js)) as [z|] eqn:Z; [|discriminate].
  injection H as <-. apply all_some_spec in P, D, Z. auto.
Qed.

Lemma sim_of_complete rg E Js s e : sim_of rg E Js = Some s -> List.length Js = List.length e -> complete e s.
Proof.
  intros H L. apply sim_of_spec in H as (A & B & C). apply (f_equal (@List.length _)) in A, B, C. rewrite !map_length in *.
  unfold complete. lia.
Qed.

(** tan is injective on [0, 90) degrees *)
Lemma tan_deg_inj p q : 0 <= p < 90 -> 0 <= q < 90 -> tan (p * PI / 180) = tan (q * PI / 180) -> p = q.
Proof.
  intros P Q H. pose proof PI_RGT_0 as G.
  assert (B : forall x, 0 <= x < 90 -> - (PI / 2) < x * PI / 180 < PI / 2).
  { intros x X. split; [apply Rlt_le_trans with 0; [lra|]; apply Rmult_le_pos; [nra|lra]|].
    replace (PI / 2) with (90 * PI / 180) by field. apply Rmult_lt_compat_r; [lra|]. apply Rmult_lt_compat_r; lra. }
  assert (K : p * PI / 180 = q * PI / 180) by (rewrite <- (atan_tan (p * PI / 180)), <- (atan_tan (q * PI / 180)), H by (apply B; auto); reflexivity).
  apply Rmult_eq_reg_r with PI; lra.
Qed.

Lemma tan_deg_nonneg p : 0 <= p < 90 -> 0 <= tan (p * PI / 180).
Proof.
  intros P. pose proof PI_RGT_0 as G. destruct (Req_dec p 0) as [->|N].
  - replace (0 * PI / 180) with 0 by field. rewrite tan_0. lra.
  - left. apply tan_gt_0.
    + apply Rmult_lt_0_compat; [|lra]. apply Rmult_lt_0_compat; lra.
    + replace (PI / 2) with (90 * PI / 180) by field. apply Rmult_lt_compat_r; [lra|]. apply Rmult_lt_compat_r; lra.
Qed.

Lemma Cmod_cis x : Cmod (cis x) = 1.
Proof. unfold Cmod, cis. cbn [fst snd]. rewrite <- sqrt_1. f_equal. pose proof (sin2_cos2 x) as H. unfold Rsqr in H. nra. Qed.

(** Equal ratios are equal angles *)
Lemma same_rho P D p d : 0 <= P < 90 -> 0 <= p < 90 ->
  (calc_rho P D = calc_rho p d <-> P = p /\ (P = 0 \/ same_angle D d)).
Proof.
  intros HP Hp. pose proof PI_RGT_0 as G. split.
  - intros H. assert (K := H).
    assert (M : forall a b, 0 <= a < 90 -> Cmod (calc_rho a b) = tan (a * PI / 180)).
    { intros a b I. unfold calc_rho. rewrite Cmod_mult, Cexp_mi, Cmod_R.
      rewrite Cmod_cis, Rmult_1_r. apply Rabs_pos_eq, tan_deg_nonneg, I. }
    apply (f_equal Cmod) in H. rewrite !M in H by auto. apply tan_deg_inj in H; auto. subst p. split; [reflexivity|].
    destruct (Req_dec P 0) as [Z|N]; [now left|right].
    assert (T : tan (deg2rad P) <> 0).
    { intros T. apply N. apply tan_deg_inj; auto; [lra|]. unfold deg2rad in T. rewrite T. replace (0 * PI / 180) with 0 by field. symmetry. apply tan_0. }
    unfold calc_rho in K. rewrite !Cexp_mi in K. apply (Cmult_cancel (RtoC (tan (deg2rad P)))) in K; [|now apply C_of_R_neq].
    assert (Q : cis (deg2rad d - deg2rad D) = 1%C).
    { replace (deg2rad d - deg2rad D) with (deg2rad d + - deg2rad D) by ring. rewrite cis_plus, K, <- cis_plus.
      replace (deg2rad d + - deg2rad d) with 0 by ring. apply cis_0. }
    apply cis_eq1 in Q as [k Q]. exists k. unfold deg2rad in Q. apply Rmult_eq_reg_r with PI; lra.
  - intros [<- [->|[k ->]]].
    + unfold calc_rho, deg2rad. replace (0 * PI / 180) with 0 by field. rewrite tan_0. ring.
    + unfold calc_rho. f_equal. rewrite !Cexp_mi.
      replace (- deg2rad (D + 360 * IZR k)) with (- deg2rad D + 2 * PI * IZR (- k)) by (unfold deg2rad; rewrite opp_IZR; field).
      now rewrite cis_turns.
Qed.

Lemma Forall_zero_parts e l : List.length l = List.length e ->
  (Forall (fun x => x = 0) (map (fun p => rho_re (fst p) - Re (snd p)) (combine e l) ++ map (fun p => rho_im (fst p) - Im (snd p)) (combine e l)) <->
   Forall2 (fun r z => calc_rho (m_psi r) (m_delta r) = z) e l).
Proof.
  intros H. rewrite Forall_app. revert e H. induction l as [|z l IH]; intros [|r e] H; try discriminate H.
  - split; [intros _; apply Forall2_nil|split; apply Forall_nil].
  - injection H as H. specialize (IH e H). cbn [combine map fst snd]. split.
    + intros [A B]. apply Forall2_cons; [|apply IH; split; [exact (Forall_inv_tail A)|exact (Forall_inv_tail B)]].
      apply Forall_inv in A, B. rewrite calc_rho_parts. destruct z as [x y]. unfold Re, Im in *. cbn [fst snd] in *. f_equal; lra.
    + intros A. inversion A as [|? ? ? ? A1 A2]; subst. apply IH in A2 as [A2 A3]. rewrite calc_rho_parts. unfold Re, Im. cbn [fst snd].
      split; apply Forall_cons; auto; ring.
Qed.

(** The sum of squares *)
Fixpoint sum (l : list R) : R := match l with [] => 0 | x :: l' => x + sum l' end.
Lemma sum_app a b : sum (a ++ b) = sum a + sum b.
Proof. induction a; cbn; lra. Qed.

(** The display *)
Lemma points_nums x y : List.length y = List.length x -> points (x ++ x) (nums y) = combine x y.
Proof.
  assert (A : forall x x' y, List.length y = List.length x -> points (x ++ x') (nums y) = combine x y); [|apply A].
  clear. induction x as [|a x IH]; intros x' [|b y] H; try discriminate H.
  - now destruct x'.
  - cbn. f_equal. apply IH. cbn in H. lia.
Qed.

Lemma points_nans {A} (e : list A) x x' y : List.length x = List.length e -> points (x ++ x') (nans e ++ y) = points x' y.
Proof. revert x. induction e as [|r e IH]; intros [|a x] H; try discriminate H; [reflexivity|]. cbn. apply IH. cbn in H. lia. Qed.

Lemma points_only {A} (e : list A) x : points x (nans e) = [].
Proof. revert x. induction e as [|r e IH]; intros [|a x]; cbn; auto. Qed.

Lemma points_first x x' y z : List.length y = List.length x -> points (x ++ x') (nums y ++ z) = combine x y ++ points x' z.
Proof.
  revert y. induction x as [|a x IH]; intros [|b y] H; try discriminate H; [reflexivity|].
  cbn. f_equal. apply IH. cbn in H. lia.
Qed.

Lemma pseudo_diel_eq t z : calc_pseudo_diel z t =
  if Req_EM_T (fst z) (-1) then if Req_EM_T (snd z) 0 then None else Some (pseudo_diel t z) else Some (pseudo_diel t z).
Proof.
  unfold calc_pseudo_diel, cdiv, pseudo_diel.
  assert (V : forall q : C, (RtoC (sin (t * PI / 180) * sin (t * PI / 180)) * (1 + RtoC (tan (t * PI / 180) * tan (t * PI / 180)) * (q * q)) =
     RtoC (sin (t * PI / 180) ^ 2) * (1 + RtoC (tan (t * PI / 180) ^ 2) * (q * q)))%C).
  { intros q. cbn [pow]. now rewrite !Rmult_1_r. }
  destruct (Ceq_dec (1 + z) 0) as [H|H]; cbn [obind].
  - destruct z as [x y]. injection H as A B. cbn [fst snd]. destruct (Req_EM_T x (-1)) as [_|N]; [|exfalso; lra].
    destruct (Req_EM_T y 0) as [_|N]; [reflexivity|exfalso; lra].
  - rewrite V. destruct z as [x y]. cbn [fst snd]. destruct (Req_EM_T x (-1)) as [->|N]; [|reflexivity].
    destruct (Req_EM_T y 0) as [->|N]; [|reflexivity]. exfalso. apply H. apply injective_projections; cbn; ring.
Qed.

Lemma points_pseudo part t x x' l : List.length l = List.length x ->
  points (x ++ x') (FitRho.part part (pseudo t l)) = pseudo_points part t (combine x l).
Proof.
  revert x. induction l as [|z l IH]; intros [|a x] H; try discriminate H; [now destruct x'|]. injection H as H.
  cbn [pseudo FitRho.part map app]. fold (pseudo t l) (FitRho.part part (pseudo t l)). rewrite pseudo_diel_eq. cbn [combine pseudo_points].
  destruct (Req_EM_T (fst z) (-1)); [destruct (Req_EM_T (snd z) 0)|]; cbn [option_map points]; rewrite IH by auto; reflexivity.
Qed.

(** The figure has four lines over the doubled index *)
Definition four (e : list row) (f : figure) : Prop :=
  exists a b c d, f_data f = [a; b; c; d] /\ forall t, In t [a; b; c; d] -> t_x t = map m_lbda e ++ map m_lbda e.

Lemma set_all_four e title new f n1 n2 n3 n4 y1 y2 y3 y4 : new = [(n1, y1); (n2, y2); (n3, y3); (n4, y4)] -> four e f ->
  let x := map m_lbda e ++ map m_lbda e in
  set_all title new f = Figure title [Trace n1 x y1; Trace n2 x y2; Trace n3 x y3; Trace n4 x y4].
Proof.
  intros -> (a & b & c & d & F & X) x. unfold set_all. rewrite F. cbn. unfold x.
  rewrite !X by (cbn; auto). reflexivity.
Qed.

Lemma four_traces e title n1 n2 n3 n4 y1 y2 y3 y4 : let x := map m_lbda e ++ map m_lbda e in
  four e (Figure title [Trace n1 x y1; Trace n2 x y2; Trace n3 x y3; Trace n4 x y4]).
Proof. intros x. do 4 eexists. split; [reflexivity|]. intros t [<-|[<-|[<-|[<-|[]]]]]; reflexivity. Qed.

Lemma update_shows o : four (o_exp o) (o_fig o) -> complete (o_exp o) (o_sim o) ->
  exists o', update_selection o = Ok o' /\ o_exp o' = o_exp o /\ o_angle o' = o_angle o /\ o_sim o' = o_sim o /\ o_display o' = o_display o /\
    four (o_exp o) (o_fig o') /\ f_title (o_fig o') = title (o_display o) /\
    map curve (f_data (o_fig o')) = picture (o_display o) (o_exp o) (o_angle o) (o_sim o).
Proof.
  destruct o as [e angle s d f]. cbn [o_exp o_angle o_sim o_display o_fig]. intros F (P & D & Z).
  unfold update_selection. cbn [o_exp o_angle o_sim o_display o_fig].
  assert (Q : forall l : list R, List.length l = List.length e -> List.length l = List.length (map m_lbda e)) by (intros; now rewrite map_length).
  destruct d; unfold set_psi_delta, set_rho, set_pseudo_diel, set_residual, rbind.
  - eexists. split; [reflexivity|]. cbn [o_exp o_angle o_sim o_display o_fig]. do 4 (split; [reflexivity|]).
    erewrite set_all_four by (reflexivity || exact F). split; [apply four_traces|]. split; [reflexivity|].
    cbn [f_data map picture]. unfold curve. cbn [t_name t_x t_y]. rewrite !points_nums by (rewrite ?map_length; auto). reflexivity.
  - eexists. split; [reflexivity|]. cbn [o_exp o_angle o_sim o_display o_fig]. do 4 (split; [reflexivity|]).
    erewrite set_all_four by (reflexivity || exact F). split; [apply four_traces|]. split; [reflexivity|].
    cbn [f_data map picture]. unfold curve. cbn [t_name t_x t_y]. rewrite exp_rho_re, exp_rho_im. rewrite !points_nums by (rewrite ?map_length; auto). reflexivity.
  - rewrite (proj2 (Nat.eqb_eq _ _) Z).
    eexists. split; [reflexivity|]. cbn [o_exp o_angle o_sim o_display o_fig]. do 4 (split; [reflexivity|]).
    erewrite set_all_four by (reflexivity || exact F). split; [apply four_traces|]. split; [reflexivity|].
    cbn [f_data map picture]. unfold curve. cbn [t_name t_x t_y]. rewrite exp_rho_eq. rewrite !points_pseudo by (rewrite ?map_length; auto). reflexivity.
  - rewrite !np_sub_ok by (unfold exp_rho; rewrite ?map_length; auto).
    eexists. split; [reflexivity|]. cbn [o_exp o_angle o_sim o_display o_fig]. do 4 (split; [reflexivity|]).
    erewrite set_all_four by (reflexivity || exact F). split; [apply four_traces|]. split; [reflexivity|].
    cbn [f_data map picture]. unfold curve. cbn [t_name t_x t_y]. rewrite exp_rho_re, exp_rho_im.
    rewrite !points_nums by (rewrite ?map_length, ?combine_length, ?map_length; unfold C in *; lia). reflexivity.
Qed.

Lemma initial_shows c e s : complete e s ->
  four e (initial_figure c e s) /\ Permutation (map curve (f_data (initial_figure c e s))) (picture PsiDelta e 0 s).
Proof.
  intros (P & D & Z). split.
  - destruct c; apply four_traces.
  - assert (X : List.length (map m_lbda e) = List.length e) by apply map_length.
    assert (A : map curve (f_data (initial_figure PsiFirst e s)) = picture PsiDelta e 0 s).
    { unfold initial_figure. cbn [f_data app map]. unfold curve. cbn [t_name t_x t_y].
      rewrite !points_first by (rewrite ?map_length; auto). rewrite !points_only, !app_nil_r, !points_nans by auto.
      assert (K : forall y, List.length y = List.length e -> points (map m_lbda e) (nums y) = combine (map m_lbda e) y).
      { intros y Y. rewrite <- (app_nil_r (map m_lbda e)) at 1. rewrite <- (app_nil_r (nums y)). rewrite points_first by lia. apply app_nil_r. }
      rewrite !K by auto. reflexivity. }
    destruct c; [rewrite A; apply Permutation_refl|]. rewrite <- A. cbn [initial_figure f_data app map]. apply perm_swap.
Qed.

Lemma picture_PsiDelta e a b s : picture PsiDelta e a s = picture PsiDelta e b s.
Proof. reflexivity. Qed.

Lemma display_eqb_eq a b : display_eqb a b = true <-> a = b.
Proof. destruct a, b; split; intros; auto; discriminate. Qed.

Definition shows (o : fitter) : Prop :=
  four (o_exp o) (o_fig o) /\ complete (o_exp o) (o_sim o) /\ f_title (o_fig o) = title (o_display o) /\
  Permutation (map curve (f_data (o_fig o))) (picture (o_display o) (o_exp o) (o_angle o) (o_sim o)).

Lemma events_show l : forall o, shows o -> Forall (complete_event (o_exp o)) l ->
  exists o', events o l = Ok o' /\ o_exp o' = o_exp o /\ o_angle o' = o_angle o /\
    o_sim o' = last_sim (o_sim o) l /\ o_display o' = last_display (o_display o) l /\ shows o'.
Proof.
  induction l as [|v l IH]; intros o S W.
  - exists o. cbn. auto 10.
  - assert (W1 := Forall_inv W). assert (W2 := Forall_inv_tail W). cbn [events last_sim last_display].
    assert (K : exists o1, on_event o v = Ok o1 /\ o_exp o1 = o_exp o /\ o_angle o1 = o_angle o /\
      o_sim o1 = match v with Select _ => o_sim o | Simulate s => s end /\
      o_display o1 = match v with Select d => d | Simulate _ => o_display o end /\ shows o1).
    { destruct S as (F & Q & T & P). destruct v as [d|s]; unfold on_event.
      - destruct (display_eqb d (o_display o)) eqn:B.
        + apply display_eqb_eq in B as ->. exists o. unfold shows. auto 10.
        + destruct (update_shows (Fitter (o_exp o) (o_angle o) (o_sim o) d (o_fig o)) F Q) as (o1 & U & A1 & A2 & A3 & A4 & A5 & A6 & A7).
          cbn [o_exp o_angle o_sim o_display o_fig] in *. exists o1. rewrite A1, A2, A3, A4. repeat (split; [auto; fail|]).
          unfold shows. rewrite A1, A2, A3, A4, A7. auto.
      - destruct (update_shows (Fitter (o_exp o) (o_angle o) s (o_display o) (o_fig o)) F W1) as (o1 & U & A1 & A2 & A3 & A4 & A5 & A6 & A7).
        cbn [o_exp o_angle o_sim o_display o_fig] in *. exists o1. rewrite A1, A2, A3, A4. repeat (split; [auto; fail|]).
        unfold shows. rewrite A1, A2, A3, A4, A7. auto. }
    destruct K as (o1 & E & A1 & A2 & A3 & A4 & A5). rewrite E. cbn [rbind].
    rewrite <- A1 in W2. destruct (IH o1 A5 W2) as (o2 & B1 & B2 & B3 & B4 & B5 & B6). exists o2.
    rewrite B1, B2, B3, B4, B5, A1, A2, A3, A4. destruct v; auto 10.
Qed.
