(** C56, C75: the index profile of a structure and its picture. *)
From Coq Require Import Reals List Lra Lia.
From Coquelicot Require Import Complex.
From Verif.Base Require Import Py Cx Mat.
From Verif.Model Require Import Structure PlotStructure.
From Verif.Spec Require Import Picture.
Import ListNotations.
Open Scope R_scope.

(** The profile with front, the layers and back *)
Definition finite_profile (s : structure mat) : list (R * mat) := concat (map profile (layers s)).
Lemma permittivity_profile_eq s : permittivity_profile s =
  [(None, front_material s)] ++ map (fun p => (Some (fst p), snd p)) (finite_profile s) ++ [(None, back_material s)].
Proof.
  unfold permittivity_profile, finite_profile. do 2 f_equal.
  assert (H : forall ls acc, fold_left (fun acc l => acc ++ map (fun p : R * mat => (Some (fst p), snd p)) (profile l)) ls acc =
     acc ++ map (fun p => (Some (fst p), snd p)) (concat (map profile ls))).
  { induction ls as [|l ls IH]; intros acc; cbn; [now rewrite app_nil_r|]. rewrite IH, map_app, app_assoc. reflexivity. }
  rewrite H. reflexivity.
Qed.

(** C56 along the x axis *)
Theorem C56_x_partial : forall (s : structure mat) (d : direction),
  components d 1%nat = 0 -> components d 2%nat = 0 ->
  exists nf ns nb, index_profile s d = [(None, nf)] ++ ns ++ [(None, nb)] /\
    index_along (components d) (front_material s) nf /\ index_along (components d) (back_material s) nb /\
    Forall2 (fun p q => fst q = Some (fst p) /\ index_along (components d) (snd p) (snd q)) (finite_profile s) ns.
Proof.
  intros s d Y Z.
  assert (K : forall eps, index_along (components d) eps (Csqrt (product d eps 0%nat 0%nat))).
  { intros eps. split; [apply Csqrt_principal|]. rewrite Csqrt_sqr. unfold along, product. cbn [csum].
    rewrite Y, Z. destruct d as [v|v]; cbn [components] in *; ring. }
  unfold index_profile. rewrite permittivity_profile_eq, !map_app, map_map. cbn [map fst snd].
  do 3 eexists. split; [reflexivity|]. split; [apply K|]. split; [apply K|].
  induction (finite_profile s) as [|p l IH]; cbn; constructor; [|exact IH]. split; [reflexivity|apply K].
Qed.
Print Assumptions C56_x_partial.

Definition glass : mat := fun i j => if Nat.eqb i j then RtoC (225 / 100) else RtoC 0.
Definition on_glass : structure mat := Structure mid [Homogeneous 100 glass; Homogeneous 50 mid] glass.

(** Along y the index of glass is shown as zero *)
Theorem C56_refuted : exists (s : structure mat) (v : nat -> R), unit_vector v /\
  forall d, components d = v ->
  exists n h, In (h, n) (index_profile s d) /\ forall eps, In (h, eps) (permittivity_profile s) -> ~ index_along v eps n.
Proof.
  exists on_glass, (fun i => match i with 1%nat => 1 | _ => 0 end). split; [unfold unit_vector; lra|]. intros d E.
  exists (RtoC 0), (Some 100). split.
  - unfold index_profile. right; left. cbn [fst snd]. f_equal.
    transitivity (Csqrt (RtoC 0)); [|rewrite <- (Csqrt_unique (RtoC 0) (RtoC 0)); [reflexivity| |ring]; unfold principal; cbn; lra].
    f_equal. unfold product. destruct d as [v|v]; cbn [components] in E; subst v; ring.
  - intros eps. rewrite permittivity_profile_eq. cbn. intros [[=]|[H|[H|[[=]|[]]]]].
    + injection H as <-. intros [_ Q]. unfold along, glass in Q. cbn in Q. apply (f_equal fst) in Q. cbn in Q. lra.
    + exfalso. apply (f_equal fst) in H. injection H as H. lra.
Qed.
Print Assumptions C56_refuted.

Lemma inner_ends {A} (a b : A) l : inner ([a] ++ l ++ [b]) = l.
Proof. unfold inner. cbn [app tl]. apply removelast_last. Qed.
Lemma last_cumsum l : forall acc, last (acc :: cumsum acc l) 0 = acc + fold_right Rplus 0 l.
Proof.
  induction l as [|x l IH]; intros acc; [cbn; ring|]. change (last (acc :: cumsum acc (x :: l)) 0) with (last ((acc + x) :: cumsum (acc + x) l) 0).
  rewrite IH. cbn. ring.
Qed.
Lemma total_sum l : fold_right Rplus 0 (map fst l) = total l.
Proof. induction l as [|[h n] l IH]; cbn; [reflexivity|now rewrite IH]. Qed.

Lemma steps_stacked l : forall z e (n : list C) x y tail, map fst l = tail -> map snd l = map fst n ->
  exists ps, steps ((z :: cumsum z tail) ++ [e]) (n ++ [x; y]) = ps ++ [(z + total l, e, fst x)] /\ stacked z l ps.
Proof.
  induction l as [|[h r] l IH]; intros z e n x y tail <- N; destruct n as [|c n]; try discriminate.
  - exists []. cbn. rewrite Rplus_0_r. auto.
  - cbn [map fst snd] in *. injection N as -> N. destruct (IH (z + h) e n x y (map fst l) eq_refl N) as (ps & E & P).
    exists ((z, z + h, fst c) :: ps). cbn [cumsum app map fst]. cbn [app] in E.
    change (steps (z :: (z + h) :: ?a) (c :: ?b)) with ((z, z + h, fst c) :: steps ((z + h) :: a) b). rewrite E. split; [|cbn; auto].
    cbn [total app]. replace (z + (h + total l)) with (z + h + total l) by ring. reflexivity.
Qed.

Definition e_x : nat -> R := fun i => match i with O => 1 | _ => 0 end.

(** C75: every layer is drawn between its depths, with the real part of its index along x, and the half spaces
    in front of and behind them *)
Theorem C75_graph : forall (s : structure mat) (margin : R),
  exists nf nb ns pieces g, graph s margin = [(- g, 0, nf)] ++ pieces ++ [(total ns, total ns + g, nb)] /\
    stacked 0 ns pieces /\
    Forall2 (fun p q => fst q = fst p /\ exists n, index_along e_x (snd p) n /\ snd q = fst n) (finite_profile s) ns /\
    (exists n, index_along e_x (front_material s) n /\ nf = fst n) /\ (exists n, index_along e_x (back_material s) n /\ nb = fst n) /\
    (total ns = 0 -> 0 < g) /\ (total ns <> 0 -> g = margin * total ns).
Proof.
  intros s margin. destruct (C56_x_partial s E_X eq_refl eq_refl) as (nf & cs & nb & E & F & B & L).
  change (components E_X) with e_x in F, B, L.
  set (ns := map (fun q : option R * C => (finite (fst q), fst (snd q))) cs).
  assert (H : map finite (inner (map fst ([(None, nf)] ++ cs ++ [(None, nb)]))) = map fst ns).
  { rewrite !map_app. cbn [map fst]. rewrite inner_ends, map_map. unfold ns. rewrite map_map. reflexivity. }
  set (g := if Req_EM_T (total ns) 0 then / 10 ^ 6 else margin * total ns).
  assert (Z : borders margin (map fst (index_profile s E_X)) = [- g] ++ (0 :: cumsum 0 (map fst ns)) ++ [total ns + g]).
  { unfold borders. rewrite E, H, last_cumsum, Rplus_0_l, total_sum. reflexivity. }
  destruct (steps_stacked ns 0 (total ns + g) (map snd cs) nb nb (map fst ns) eq_refl) as (ps & SE & SP).
  { unfold ns. rewrite !map_map. reflexivity. }
  exists (fst nf), (fst nb), ns, ps, g. split; [|split; [exact SP|]].
  - unfold graph. rewrite Z, E, !map_app. cbn [map snd].
    assert (LB : last ([nf] ++ map snd cs ++ [nb]) (RtoC 0) = nb) by (rewrite app_assoc; apply last_last).
    rewrite LB. rewrite <- !app_assoc. cbn [app] in SE |- *.
    change (steps (?a :: 0 :: ?z) (?x :: ?n)) with ((a, 0, fst x) :: steps (0 :: z) n). rewrite SE, Rplus_0_l. reflexivity.
  - split.
    + unfold ns. clear -L. induction L as [|p q l cs [HQ I] L IH]; cbn; constructor; [|exact IH]. cbn. rewrite HQ. eauto.
    + split; [eauto|]. split; [eauto|]. unfold g. destruct (Req_EM_T (total ns) 0) as [T0|T0]; [|tauto].
      split; [|contradiction]. intros _. apply Rinv_0_lt_compat, pow_lt. lra.
Qed.
Print Assumptions C75_graph.

Example C56_example : components E_X 1%nat = 0 /\ components E_X 2%nat = 0 /\ unit_vector (components E_X) /\
  length (index_profile on_glass E_X) = 4%nat.
Proof. split; [reflexivity|]. split; [reflexivity|]. split; [unfold unit_vector; cbn; lra|reflexivity]. Qed.
Example C75_example : exists a b c d, graph on_glass (1 / 10) = [(- (1 / 10 * 150), 0, a); (0, 100, b); (100, 150, c); (150, 150 + 1 / 10 * 150, d)].
Proof.
  unfold graph, borders. cbn [index_profile permittivity_profile on_glass layers fold_left app map profile fst snd inner removelast tl finite cumsum last].
  destruct (Req_EM_T (0 + 100 + 50) 0) as [H|_]; [lra|]. cbn [steps app]. replace (0 + 100) with 100 by ring. replace (100 + 50) with 150 by ring.
  do 4 eexists. reflexivity.
Qed.
