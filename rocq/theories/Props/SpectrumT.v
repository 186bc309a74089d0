(** C99: Solver2x2 computes a spectrum wavelength by wavelength *)
From Coq Require Import Reals Lra Lia Arith.
From Coquelicot Require Import Complex.
From Coq Require Import List.
From Verif.Base Require Import Py Cx Mat.
From Verif.Model Require Import Units Ellips Structure Mixture Solver2 Spectrum Tables.
From Verif.Spec Require Import Pointwise.
From Verif.Proof Require Import SpectrumP SpectrumP2 SpectrumP3.
Import ListNotations.
Open Scope R_scope.
Open Scope py_scope.

Lemma nth_map {A B} (f : A -> B) l i x : nth_error l i = Some x -> nth_error (map f l) i = Some (f x).
Proof. intros H. rewrite nth_error_map, H. reflexivity. Qed.

(** The entries of the result at one wavelength are those of the computation for this wavelength alone. *)
Theorem C99_pointwise th s L r i x : evaluate2 th s L = Ok r -> nth_error L i = Some x -> x <> 0 ->
  exists q, Pointwise.point th s x = Ok q /\
    nth_error (jones_r_diag r) i = Some (option_map fst (rt_p q), option_map fst (rt_s q)) /\
    nth_error (jones_t_diag r) i = Some (option_map snd (rt_p q), option_map snd (rt_s q)) /\
    (forall v, power_correction q = Some v -> nth_error (power r) i = Some (Some v)).
Proof.
  intros E N X0. assert (S := evaluate_spec th s L). rewrite E in S. destruct S as (O & JR & JT & P).
  exists (point_value th s x). split; [apply point_spec, O; eapply nth_error_In; exact N|].
  rewrite JR, JT, P, !(nth_map _ _ _ _ N), (amp_at true), (amp_at false) by exact X0. split; [reflexivity|]. split; [reflexivity|]. intros v Hv. rewrite (power_some _ _ _ _ Hv). reflexivity.
Qed.
Print Assumptions C99_pointwise.

(** The power correction only depends on the outer media at this wavelength. *)
Theorem C99_power th s L r i x : evaluate2 th s L = Ok r -> nth_error L i = Some x ->
  exists f b, tensor_at (front_material s) x = Ok f /\ tensor_at (back_material s) x = Ok b /\
    nth_error (power r) i = Some (power_at th (f 0%nat 0%nat) (b 0%nat 0%nat)).
Proof.
  intros E N. assert (S := evaluate_spec th s L). rewrite E in S. destruct S as (O & _ & _ & P).
  destruct (O x (nth_error_In _ _ N)) as ((f & Hf) & _ & (b & Hb)). exists f, b. split; [exact Hf|]. split; [exact Hb|].
  rewrite P, (nth_map _ _ _ _ N), (gett_ok _ _ _ Hf), (gett_ok _ _ _ Hb). reflexivity.
Qed.
Print Assumptions C99_power.

(** The arrays have one entry for every wavelength. *)
Theorem C99_length th s L r : evaluate2 th s L = Ok r ->
  length (jones_r_diag r) = length L /\ length (jones_t_diag r) = length L /\ length (power r) = length L.
Proof.
  intros E. assert (S := evaluate_spec th s L). rewrite E in S. destruct S as (_ & -> & -> & ->). now rewrite !map_length.
Qed.
Print Assumptions C99_length.

(** The spectrum raises exactly if one of its wavelengths raises alone. *)
Theorem C99_raises th s L : is_ok (evaluate2 th s L) <-> (forall x, In x L -> is_ok (Pointwise.point th s x)).
Proof.
  assert (S := evaluate_spec th s L). destruct (evaluate2 th s L) as [r|].
  - split; [intros _ x Hx|intros _; eexists; reflexivity]. destruct S as (O & _). eexists. apply point_spec, O, Hx.
  - split; [intros [? ?]; discriminate|]. intros H. destruct S as (x & Hx & N). exfalso. apply N, (point_spec th), H, Hx.
Qed.
Print Assumptions C99_raises.

(** Spectra of adjacent ranges can be put together. *)
Theorem C99_concat th s L1 L2 r1 r2 : evaluate2 th s L1 = Ok r1 -> evaluate2 th s L2 = Ok r2 ->
  evaluate2 th s (L1 ++ L2) =
  Ok (ResultArrays (jones_r_diag r1 ++ jones_r_diag r2) (jones_t_diag r1 ++ jones_t_diag r2) (power r1 ++ power r2)).
Proof.
  intros E1 E2. assert (S1 := evaluate_spec th s L1). assert (S2 := evaluate_spec th s L2). assert (S := evaluate_spec th s (L1 ++ L2)).
  rewrite E1 in S1. rewrite E2 in S2. destruct S1 as (O1 & R1 & T1 & P1), S2 as (O2 & R2 & T2 & P2).
  destruct (evaluate2 th s (L1 ++ L2)) as [r|].
  - destruct S as (_ & JR & JT & P). destruct r as [a b c]. cbn [jones_r_diag jones_t_diag power] in *. rewrite R1, R2, T1, T2, P1, P2, <- !map_app. congruence.
  - exfalso. destruct S as (x & Hx & N). apply N. apply in_app_iff in Hx. destruct Hx; [now apply O1|now apply O2].
Qed.
Print Assumptions C99_concat.

(** The wavelengths may be given in any order, repeated or left out. *)
Theorem C99_select th s L r idx L' : evaluate2 th s L = Ok r ->
  map (fun i => nth_error L i) idx = map Some L' ->
  exists r', evaluate2 th s L' = Ok r' /\
    map (fun i => nth_error (jones_r_diag r) i) idx = map Some (jones_r_diag r') /\
    map (fun i => nth_error (jones_t_diag r) i) idx = map Some (jones_t_diag r') /\
    map (fun i => nth_error (power r) i) idx = map Some (power r').
Proof.
  intros E H. assert (S := evaluate_spec th s L). rewrite E in S. destruct S as (O & JR & JT & P).
  assert (I : forall x, In x L' -> In x L).
  { intros x Hx. apply (in_map Some) in Hx. rewrite <- H in Hx. apply in_map_iff in Hx. destruct Hx as (i & Hi & _). eapply nth_error_In. exact Hi. }
  assert (S' := evaluate_spec th s L'). destruct (evaluate2 th s L') as [r'|].
  2:{ exfalso. destruct S' as (x & Hx & N). apply N, O, I, Hx. }
  exists r'. split; [reflexivity|]. destruct S' as (_ & -> & -> & ->). rewrite JR, JT, P. clear - H.
  assert (G : forall {B} (f : R -> B), map (fun i => nth_error (map f L) i) idx = map Some (map f L')).
  { intros B f. revert L' H. induction idx as [|i idx IH]; intros [|x L'] H; try discriminate; [reflexivity|]. cbn [map] in *.
    injection H as H1 H2. rewrite (nth_map _ _ _ _ H1). f_equal. apply IH. exact H2. }
  split; [apply G|]. split; apply G.
Qed.
Print Assumptions C99_select.

(** Glass with a table from 400 nm to 800 nm below a film mixed of two constants. *)
Definition glass : material :=
  let d := Fun (fun x => table_value [(400, RtoC 2.25); (800, RtoC 2.1)] x) in Single d d d.
Definition const (c : R) : material := Single (Const (RtoC c)) (Const (RtoC c)) (Const (RtoC c)).
Definition sample : structure material :=
  Structure (const 1) [Homogeneous 100 (Mixed Bruggeman (const 2) (const 4) 0.5)] glass.

Lemma table_ok x : 400 <= x <= 800 -> is_ok (table_value [(400, RtoC 2.25); (800, RtoC 2.1)] x).
Proof.
  intros H. unfold table_value, interp. cbn [sorted fold_right insert fst]. destruct (Rlt_dec 800 400); [lra|]. cbn [fst last].
  destruct (Rlt_dec x 400); [lra|]. destruct (Rlt_dec 800 x); [lra|]. eexists. reflexivity.
Qed.
Lemma table_err x : x < 400 -> table_value [(400, RtoC 2.25); (800, RtoC 2.1)] x = Err ValueError.
Proof.
  intros H. unfold table_value, interp. cbn [sorted fold_right insert fst]. destruct (Rlt_dec 800 400); [lra|]. cbn [fst last].
  destruct (Rlt_dec x 400); [reflexivity|lra].
Qed.

Example C99_example : is_ok (evaluate2 70 sample [500; 600; 500]) /\ ~ is_ok (evaluate2 70 sample [500; 300]).
Proof.
  split.
  - apply C99_raises. intros x Hx. assert (B : 400 <= x <= 800) by (destruct Hx as [<-|[<-|[<-|[]]]]; lra).
    destruct (table_ok x B) as [v E]. unfold Pointwise.point, elements_at, sample, glass, const, structure_profile.
    cbn [front_material layers back_material profile fold_left map app fst snd rmapM tensor_at eps_at rbind]. rewrite E. cbn [rbind]. eexists. reflexivity.
  - rewrite C99_raises. intros H. destruct (H 300 ltac:(cbn; tauto)) as [v E]. revert E. unfold Pointwise.point, elements_at, sample, glass, const, structure_profile.
    cbn [front_material layers back_material profile fold_left map app fst snd rmapM tensor_at eps_at rbind]. rewrite table_err by lra. discriminate.
Qed.
