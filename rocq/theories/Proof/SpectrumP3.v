(** Lemmas for C99: nan propagation at one wavelength is the model Solver2.v at one wavelength *)
From Coq Require Import Reals Lra Lia Arith.
From Coquelicot Require Import Complex.
From Coq Require Import List.
From Verif.Base Require Import Py Cx Mat.
From Verif.Model Require Import Units Ellips Structure Mixture Solver2 Spectrum.
From Verif.Spec Require Import Pointwise.
From Verif.Proof Require Import SpectrumP SpectrumP2.
Import ListNotations.
Open Scope R_scope.
Open Scope C_scope.
Open Scope py_scope.

Definition fr (p : bool) := if p then fresnel_p else fresnel_s.
Definition some_layer (l : phase_layer) : option C * option C := (Some (fst (fst l)), Some (snd (fst l))).
Definition some_phase (l : phase_layer) : option C := Some (snd l).
Definition some_medium (m : medium) : option C * option C := (Some (fst m), Some (snd m)).

Lemma loop_pt_None p l : forall r, loop_pt p None l r = None.
Proof. induction l as [|[a b] [|[a' b'] l] IHl]; intros [|q r]; try reflexivity. cbn [loop_pt obind]. apply IHl. Qed.

Lemma loop_step p M n th n' th' rest d delta :
  loop_pt p M ((n, th) :: (n', th') :: rest) (d :: delta) =
  loop_pt p (let? M := M in let? L := (let? rt := fres p n n' th th' in let? d := d in layer_matrix d rt) in Some (mmul 2 M L)) ((n', th') :: rest) delta.
Proof. reflexivity. Qed.

Lemma loop_some p ls back : forall M,
  loop_pt p (Some M) (map some_layer ls ++ [some_medium back]) (map some_phase ls) = loop (fr p) M ls back.
Proof.
  induction ls as [|[[n th] d] ls IH]; intros M; [destruct back; reflexivity|].
  assert (E : exists rest, map some_layer ls ++ [some_medium back] = some_medium (next_medium ls back) :: rest).
  { destruct ls as [|[[n' th'] d'] ls]; cbn; eauto. }
  destruct E as (rest & E). cbn [map app]. rewrite E. cbn [loop]. destruct (next_medium ls back) as [n' th'] eqn:NM.
  change (some_layer (n, th, d)) with (Some n, Some th). change (some_phase (n, th, d)) with (Some d). change (some_medium (n', th')) with (Some n', Some th').
  rewrite loop_step.
  change ((Some n', Some th') :: rest) with (some_medium (n', th') :: rest). rewrite <- E.
  change (fres p (Some n) (Some n') (Some th) (Some th')) with (fr p n n' th th'). cbn [obind].
  destruct (fr p n n' th th') as [rt|]; cbn [obind some_phase snd]; [|apply loop_pt_None].
  destruct (layer_matrix d rt) as [Lm|]; cbn [obind]; [apply IH|apply loop_pt_None].
Qed.

Lemma amp_some p front ls back :
  amp_pt p (some_medium front :: map some_layer ls ++ [some_medium back]) (map some_phase ls) = amplitudes (fr p) front ls back.
Proof.
  assert (E : exists rest, map some_layer ls ++ [some_medium back] = some_medium (next_medium ls back) :: rest).
  { destruct ls as [|[[n' th'] d'] ls]; cbn; eauto. }
  destruct E as (rest & E). unfold amp_pt, amplitudes. rewrite E. destruct front as [n th]. destruct (next_medium ls back) as [n' th'] eqn:NM.
  cbn [some_medium fst snd]. change (fres p (Some n) (Some n') (Some th) (Some th')) with (fr p n n' th th').
  change ((Some n', Some th') :: rest) with (some_medium (n', th') :: rest). rewrite <- E.
  destruct (fr p n n' th th') as [rt|]; cbn [obind]; [|now rewrite loop_pt_None].
  destruct (interface_matrix rt) as [M0|]; cbn [obind]; [|now rewrite loop_pt_None]. rewrite loop_some. reflexivity.
Qed.

Definition bad (m : option C * option C) : Prop := fst m = None \/ snd m = None.
Lemma fres_bad p m m' : bad m \/ bad m' -> fres p (fst m) (fst m') (snd m) (snd m') = None.
Proof.
  destruct m as [[n|] [th|]], m' as [[n'|] [th'|]]; unfold bad; cbn; try reflexivity. intros [[|]|[|]]; discriminate.
Qed.

Lemma loop_bad p : forall media delta M, (2 <= length media)%nat -> length media = S (length delta) ->
  Exists bad media \/ In None delta -> loop_pt p M media delta = None.
Proof.
  induction media as [|[n th] media IH]; intros delta M L2 LD H; [cbn in L2; lia|].
  destruct media as [|[n' th'] media]; [cbn in L2; lia|]. destruct delta as [|d delta]; [cbn in LD; lia|].
  rewrite loop_step. destruct M as [M|]; cbn [obind]; [|apply loop_pt_None].
  destruct (fres p n n' th th') as [rt|] eqn:F; cbn [obind]; [|apply loop_pt_None]. destruct d as [d|]; cbn [obind]; [|apply loop_pt_None].
  assert (G1 : ~ bad (n, th)) by (intros K; assert (Q := fres_bad p (n, th) (n', th') (or_introl K)); cbn in Q; congruence).
  assert (G2 : ~ bad (n', th')) by (intros K; assert (Q := fres_bad p (n, th) (n', th') (or_intror K)); cbn in Q; congruence).
  apply IH.
  - cbn in LD. destruct delta as [|q delta]; [|cbn in *; lia]. destruct media; [|discriminate]. exfalso. destruct H as [H|[H|[]]]; [|discriminate].
    inversion H as [? ? K|? ? K]; subst; [contradiction|]. inversion K as [? ? K'|? ? K']; subst; [contradiction|]. inversion K'.
  - cbn in *. lia.
  - destruct H as [H|[H|H]]; [|discriminate|now right]. inversion H; subst; [contradiction|]. now left.
Qed.

Lemma amp_bad p media delta : length media = S (S (length delta)) -> Exists bad media \/ In None delta -> amp_pt p media delta = None.
Proof.
  intros LD H. destruct media as [|[n th] [|[n' th'] rest]]; try discriminate. cbn [amp_pt].
  destruct (fres p n n' th th') as [rt|] eqn:F; cbn [obind]; [|now rewrite loop_pt_None].
  assert (G1 : ~ bad (n, th)) by (intros K; assert (Q := fres_bad p (n, th) (n', th') (or_introl K)); cbn in Q; congruence).
  assert (G2 : ~ bad (n', th')) by (intros K; assert (Q := fres_bad p (n, th) (n', th') (or_intror K)); cbn in Q; congruence).
  rewrite loop_bad; [reflexivity| | |].
  - cbn in LD. destruct delta as [|q delta]; [|cbn in *; lia]. destruct rest; [|discriminate]. exfalso. destruct H as [H|[]].
    inversion H as [? ? K|? ? K]; subst; [contradiction|]. inversion K as [? ? K'|? ? K']; subst; [contradiction|]. inversion K'.
  - cbn in *. lia.
  - destruct H as [H|H]; [|now right]. left. inversion H; subst; [contradiction|assumption].
Qed.

(** Index and angle of a medium, and the phase of a layer, at one wavelength *)
Definition arc (th : R) (fo e : option C) : option C := o1 Casin (odiv (o1 (fun n => n * RtoC (sin (deg2rad th))) (o1 Csqrt fo)) (o1 Csqrt e)).
Definition mp (th : R) (fo e : option C) : option C * option C := (o1 Csqrt e, arc th fo e).
Definition mo (th : R) (fo e : option C) : option C * option C := (o1 Csqrt e, replace_angle (o1 Csqrt e) (arc th fo e)).
Definition del (th x : R) (fo e : option C) (d : R) : option C :=
  o1 (fun y => y * RtoC d) (odiv (o1 (Cmult (2 * RtoC PI)) (o2 Cmult (o1 Csqrt e) (o1 Ccos (arc th fo e)))) (Some (RtoC x))).

Lemma arc_snell th f e : arc th (Some f) (Some e) = snell (Csqrt f) th (Csqrt e).
Proof. unfold arc, snell. cbn. destruct (cdiv _ _); reflexivity. Qed.

Definition pick (p : bool) (r : result2) : option (C * C) := if p then rt_p r else rt_s r.

Lemma all_some_none {A} (l : list (option A)) : all_some l = None -> In None l.
Proof.
  induction l as [|[a|] l IH]; cbn; [discriminate| |now left]. intros H. right. apply IH. destruct (all_some l); [discriminate|reflexivity].
Qed.
Lemma all_some_map {A} (l : list (option A)) v : all_some l = Some v -> l = map Some v.
Proof.
  revert v. induction l as [|[a|] l IH]; cbn; intros v H; [injection H as <-; reflexivity| |discriminate].
  destruct (all_some l) as [v'|]; [|discriminate]. injection H as <-. cbn. now rewrite (IH v' eq_refl).
Qed.

Lemma point_amp p th x fo eo bo ds : x <> 0%R -> length eo = length ds ->
  amp_pt p (mo th fo fo :: map (mp th fo) eo ++ [mo th fo bo]) (map (fun '(e, d) => del th x fo e d) (combine eo ds)) =
  pick p (solved th x ds (fo :: eo ++ [bo])).
Proof.
  intros X0 HL. assert (LD : length (mo th fo fo :: map (mp th fo) eo ++ [mo th fo bo]) = S (S (length (map (fun '(e, d) => del th x fo e d) (combine eo ds))))).
  { cbn. rewrite app_length, !map_length, combine_length, HL, Nat.min_id. cbn. lia. }
  assert (BM : forall e, e = None -> bad (mp th fo e) /\ bad (mo th fo e)) by (intros e ->; split; left; reflexivity).
  destruct (all_some (fo :: eo ++ [bo])) as [l|] eqn:AS.
  2:{ unfold solved. rewrite AS. cbn [pick rt_p rt_s]. replace (pick p (Result2 None None None)) with (@None (C * C)) by (destruct p; reflexivity).
      apply amp_bad; [exact LD|]. left. apply all_some_none in AS. destruct AS as [AS|AS]; [left; apply BM; exact AS|]. right. apply Exists_app.
      apply in_app_iff in AS. destruct AS as [AS|[AS|[]]]; [left|right; left; apply BM; exact AS]. apply Exists_exists. exists (mp th fo None). split; [apply in_map; exact AS|now apply BM]. }
  assert (E := all_some_map _ _ AS). destruct l as [|f l]; [discriminate|]. cbn [map] in E. injection E as Ef El. subst fo.
  assert (Hl : exists es b, l = es ++ [b]).
  { destruct l as [|y l] using rev_ind; [destruct eo; discriminate|eauto]. }
  destruct Hl as (es & b & ->). rewrite map_app in El. cbn [map] in El. apply app_inj_tail in El. destruct El as [-> ->].
  unfold solved. rewrite AS. rewrite last_last, removelast_last. clear AS. rewrite map_length in HL.
  unfold solver2, solver2_media.
  assert (K : exists k, cdiv (2 * RtoC PI) (RtoC x) = Some k /\ k = 2 * RtoC PI / RtoC x).
  { unfold cdiv. destruct (Ceq_dec (RtoC x) 0) as [Q|_]; [apply RtoC_inj in Q; contradiction|]. eauto. }
  destruct K as (k & Ek & Hk).
  set (go := fold_right (fun n acc => let? a := snell (Csqrt f) th n in let? l := acc in Some (a :: l)) (Some [])).
  unfold list_snell. fold go.
  assert (Mc : map (fun l => Csqrt (snd l)) (combine ds es) = map Csqrt es).
  { clear - HL. revert ds HL. induction es as [|e es IH]; intros [|d ds] HL; try discriminate; [reflexivity|]. cbn. now rewrite IH by (now injection HL). }
  rewrite Mc.
  destruct (snell (Csqrt f) th (Csqrt f)) as [af|] eqn:Sf; cbn [obind].
  2:{ replace (pick p (Result2 None None None)) with (@None (C * C)) by (destruct p; reflexivity). apply amp_bad; [exact LD|]. left. left. right. unfold mo. cbn [snd]. rewrite arc_snell, Sf. reflexivity. }
  destruct (go (map Csqrt es)) as [al|] eqn:Sl; cbn [obind].
  2:{ replace (pick p (Result2 None None None)) with (@None (C * C)) by (destruct p; reflexivity). apply amp_bad; [exact LD|]. left. right. apply Exists_app. left.
      clear - Sl. induction es as [|e es IH]; [discriminate|]. cbn [map go fold_right] in Sl. cbn [map]. destruct (snell (Csqrt f) th (Csqrt e)) as [a|] eqn:Se; cbn [obind] in Sl.
      - right. apply IH. fold go in Sl. destruct (go (map Csqrt es)); [discriminate|reflexivity].
      - left. right. unfold mp. cbn [snd]. now rewrite arc_snell. }
  destruct (snell (Csqrt f) th (Csqrt b)) as [ab|] eqn:Sb; cbn [obind].
  2:{ replace (pick p (Result2 None None None)) with (@None (C * C)) by (destruct p; reflexivity). apply amp_bad; [exact LD|]. left. right. apply Exists_app. right. left. right. unfold mo. cbn [snd]. now rewrite arc_snell, Sb. }
  rewrite Ek. cbn [obind].
  set (ls := map (fun '(d, _, (n, th0)) => (n, th0, k * n * Ccos th0 * RtoC d)) (combine (combine ds es) (combine (map Csqrt es) al))).
  assert (A : map (mp th (Some f)) (map Some es) = map some_layer ls /\ map (fun '(e, d) => del th x (Some f) e d) (combine (map Some es) ds) = map some_phase ls).
  { unfold ls. clear - Sl HL Hk X0. revert ds al HL Sl. induction es as [|e es IH]; intros [|d ds] al HL Sl; try discriminate; [cbn in Sl; injection Sl as <-; split; reflexivity|].
    cbn [map go fold_right] in Sl. destruct (snell (Csqrt f) th (Csqrt e)) as [a|] eqn:Se; [|discriminate]. cbn [obind] in Sl. fold go in Sl.
    destruct (go (map Csqrt es)) as [al'|] eqn:Sl'; [|discriminate]. cbn [obind] in Sl. injection Sl as <-.
    destruct (IH ds al' ltac:(now injection HL) eq_refl) as [I1 I2]. cbn [map combine]. rewrite I1, I2. split; f_equal.
    - unfold mp, some_layer. cbn [fst snd o1 option_map]. now rewrite arc_snell, Se.
    - unfold del, some_phase. rewrite arc_snell, Se. cbn [o1 o2 odiv option_map obind snd]. unfold cdiv. destruct (Ceq_dec (RtoC x) 0) as [Q|_]; [apply RtoC_inj in Q; contradiction|].
      cbn. f_equal. subst k. field. intros Q. apply RtoC_inj in Q. contradiction. }
  destruct A as [A1 A2]. rewrite A1, A2.
  assert (MF : mo th (Some f) (Some f) = some_medium (Csqrt f, fix_angle (Csqrt f) af)) by (unfold mo; rewrite arc_snell, Sf; reflexivity).
  assert (MB : mo th (Some f) (Some b) = some_medium (Csqrt b, fix_angle (Csqrt b) ab)) by (unfold mo; rewrite arc_snell, Sb; reflexivity).
  rewrite MF, MB, amp_some. destruct p; reflexivity.
Qed.

Lemma point_power th fo bo :
  ordiv (oreal (o2 Cmult (fst (mo th fo bo)) (o1 Ccos (snd (mo th fo bo))))) (oreal (o2 Cmult (fst (mo th fo fo)) (o1 Ccos (snd (mo th fo fo))))) = power_at th fo bo.
Proof.
  destruct fo as [f|], bo as [b|]; try reflexivity. unfold power_at, mo. cbn [fst snd o1 option_map obind]. rewrite !arc_snell.
  destruct (snell (Csqrt f) th (Csqrt f)), (snell (Csqrt f) th (Csqrt b)); reflexivity.
Qed.

(** The program of a whole structure *)
Definition el (m : material) (x : R) : option C := gett (tensor_at m x) 0%nat 0%nat.
Definition inner_profile (s : structure material) : list (R * material) := concat (map profile (layers s)).

Lemma profile_shape (s : structure material) :
  structure_profile s = (None, front_material s) :: map (fun p => (Some (fst p), snd p)) (inner_profile s) ++ [(None, back_material s)].
Proof.
  unfold structure_profile, inner_profile. f_equal. f_equal.
  assert (G : forall (ls : list (layer material)) acc, fold_left (fun acc l => acc ++ map (fun p : R * material => (Some (fst p), snd p)) (profile l)) ls acc =
    acc ++ map (fun p => (Some (fst p), snd p)) (concat (map profile ls))).
  { induction ls as [|l ls IH]; intros acc; cbn [fold_left map concat]; [now rewrite app_nil_r|]. rewrite IH, map_app, app_assoc. reflexivity. }
  apply G.
Qed.

Definition point_ok (s : structure material) (x : R) : Prop :=
  is_ok (tensor_at (front_material s) x) /\ (forall l, In l (inner_profile s) -> is_ok (tensor_at (snd l) x)) /\ is_ok (tensor_at (back_material s) x).
Definition point_value (th : R) (s : structure material) (x : R) : result2 :=
  solved th x (map fst (inner_profile s)) (el (front_material s) x :: map (fun l => el (snd l) x) (inner_profile s) ++ [el (back_material s) x]).

Lemma rmapM_app {A B} (f : A -> res B) l r : rmapM f (l ++ r) = let* a := rmapM f l in let* b := rmapM f r in Ok (a ++ b).
Proof.
  induction l as [|a l IH]; cbn [app rmapM rbind]; [destruct (rmapM f r); reflexivity|]. destruct (f a); [|reflexivity]. cbn [rbind]. rewrite IH.
  destruct (rmapM f l); [|reflexivity]. cbn [rbind]. destruct (rmapM f r); reflexivity.
Qed.

Lemma gett_ok m x t : tensor_at m x = Ok t -> el m x = t 0%nat 0%nat.
Proof. unfold el. intros ->. reflexivity. Qed.

Lemma elements_ok (p : list (option R * material)) x : (forall l, In l p -> is_ok (tensor_at (snd l) x)) -> elements_at p x = Ok (map (fun l => el (snd l) x) p).
Proof.
  intros H. unfold elements_at. induction p as [|l p IH]; [reflexivity|]. cbn [rmapM map]. destruct (H l (or_introl eq_refl)) as [t E]. rewrite (gett_ok _ _ _ E), E. cbn [rbind].
  rewrite IH by (intros; apply H; now right). reflexivity.
Qed.
Lemma elements_err (p : list (option R * material)) x : is_ok (elements_at p x) -> forall l, In l p -> is_ok (tensor_at (snd l) x).
Proof.
  unfold elements_at. induction p as [|l p IH]; [intros _ l []|]. cbn [rmapM]. intros [v E] k Hk. destruct (tensor_at (snd l) x) as [t|] eqn:T; [|discriminate]. cbn [rbind] in E.
  destruct (rmapM _ p) as [w|] eqn:W; [|discriminate]. destruct Hk as [<-|Hk]; [exists t; exact T|]. apply IH; [exists w; first [exact W|reflexivity]|exact Hk].
Qed.

Lemma point_spec th s x : (point_ok s x -> point th s x = Ok (point_value th s x)) /\ (is_ok (point th s x) -> point_ok s x).
Proof.
  unfold point. rewrite profile_shape. split.
  - intros (F & I & B). rewrite elements_ok.
    + cbn [rbind tl]. unfold point_value. do 2 f_equal.
      * rewrite removelast_last, map_map. reflexivity.
      * cbn [map]. rewrite map_app, map_map. reflexivity.
    + intros l [<-|Hl]; [exact F|]. apply in_app_iff in Hl. destruct Hl as [Hl|[<-|[]]]; [|exact B].
      apply in_map_iff in Hl. destruct Hl as (q & <- & Hq). apply I. exact Hq.
  - intros [v E]. match type of E with context [elements_at ?p x] => destruct (elements_at p x) as [w|] eqn:W; [|discriminate]; assert (Q := elements_err p x (ex_intro _ w W)) end.
    split; [apply (Q _ (or_introl eq_refl))|]. split.
    + intros l Hl. apply (Q (Some (fst l), snd l)). right. apply in_app_iff. left. apply in_map_iff. exists l. split; [reflexivity|exact Hl].
    + apply (Q (None, back_material s)). right. apply in_app_iff. right. now left.
Qed.

Lemma first_elements L m (e : tensors) : Forall2 (fun x t => meq3 t (gett (tensor_at m x))) L e -> map (fun t : omat => t 0%nat 0%nat) e = map (el m) L.
Proof. induction 1 as [|x t L e H F IH]; [reflexivity|]. cbn [map]. rewrite IH. f_equal. apply H; lia. Qed.

Lemma inner_spec L : forall P : list (R * material),
  match rmapM (fun l => let* e := get_tensors (snd l) L in Ok (fst l, e)) (map (fun p => (Some (fst p), snd p)) P) with
  | Ok v => (forall l x, In l P -> In x L -> is_ok (tensor_at (snd l) x)) /\
      exists inner, inner_of v = Some inner /\ map fst inner = map fst P /\ map (fun l => map (fun t : omat => t 0%nat 0%nat) (snd l)) inner = rows_fn L (map (fun l => el (snd l)) P)
  | Err _ => exists l x, In l P /\ In x L /\ ~ is_ok (tensor_at (snd l) x)
  end.
Proof.
  induction P as [|l P IH]; [cbn; split; [intros l x []|exists []; repeat split; reflexivity]|]. cbn [map rmapM fst snd].
  assert (T := tensors_spec L (snd l)). destruct (get_tensors (snd l) L) as [e|]; cbn [rbind].
  2:{ destruct T as (x & Hx & N). exists l, x. split; [now left|]. split; assumption. }
  destruct T as [T1 T2].
  match type of IH with match ?r with _ => _ end => destruct r as [v|] eqn:RM; rewrite ?RM end; cbn [rbind].
  - destruct IH as (I1 & inner & I2 & I3 & I4). split.
    + intros k x [<-|Hk] Hx; [now apply T1|now apply I1].
    + exists ((fst l, e) :: inner). cbn [inner_of]. rewrite I2. cbn [obind map fst snd]. rewrite I3. split; [reflexivity|]. split; [reflexivity|].
      unfold rows_fn in *. cbn [map]. f_equal; [apply first_elements; exact T2|exact I4].
  - destruct IH as (k & x & Hk & Hx & N). exists k, x. split; [now right|]. split; assumption.
Qed.

Lemma point_media th x ef es eb :
  map (at_x x) (combine (csq ef :: map csq es ++ [csq eb]) (angles th (csq ef) (map csq es) (csq eb))) =
  mo th (ef x) (ef x) :: map (mp th (ef x)) (map (fun e : fn => e x) es) ++ [mo th (ef x) (eb x)].
Proof.
  unfold angles. cbn [combine map]. f_equal. rewrite map_map. induction es as [|e es IH]; [reflexivity|]. cbn [map app combine]. rewrite IH. reflexivity.
Qed.
Lemma point_deltas th x ef es : forall ds,
  map (fun d : fn => d x) (deltas th (csq ef) (map csq es) ds) = map (fun '(e, d) => del th x (ef x) e d) (combine (map (fun e : fn => e x) es) ds).
Proof. unfold deltas. induction es as [|e es IH]; intros [|d ds]; try reflexivity. cbn [map combine]. rewrite IH. reflexivity. Qed.

Definition amp_of (p : bool) (th : R) (s : structure material) (x : R) : option (C * C) :=
  let ef := el (front_material s) in let eb := el (back_material s) in let es := map (fun l => el (snd l)) (inner_profile s) in
  amp_pt p (map (at_x x) (combine (csq ef :: map csq es ++ [csq eb]) (angles th (csq ef) (map csq es) (csq eb))))
    (map (fun d : fn => d x) (deltas th (csq ef) (map csq es) (map fst (inner_profile s)))).

Lemma amp_at p th s x : x <> 0%R -> amp_of p th s x = pick p (point_value th s x).
Proof.
  intros X0. unfold amp_of. set (ef := el (front_material s)). set (eb := el (back_material s)). set (es := map (fun l => el (snd l)) (inner_profile s)).
assert (M := point_media th x ef es eb). assert (D := point_deltas th x ef es (map fst (inner_profile s))).
  transitivity (amp_pt p (mo th (ef x) (ef x) :: map (mp th (ef x)) (map (fun e : fn => e x) es) ++ [mo th (ef x) (eb x)])
    (map (fun '(e, d) => del th x (ef x) e d) (combine (map (fun e : fn => e x) es) (map fst (inner_profile s))))); [f_equal; [exact M|exact D]|].
  rewrite point_amp; [|exact X0|unfold es; rewrite !map_length; reflexivity]. unfold point_value, es. rewrite map_map. reflexivity.
Qed.

Lemma evaluate_spec th s L :
  match evaluate2 th s L with
  | Ok r => (forall x, In x L -> point_ok s x) /\ 
      jones_r_diag r = map (fun x => (option_map fst (amp_of true th s x), option_map fst (amp_of false th s x))) L /\
      jones_t_diag r = map (fun x => (option_map snd (amp_of true th s x), option_map snd (amp_of false th s x))) L /\
      power r = map (fun x => power_at th (el (front_material s) x) (el (back_material s) x)) L
  | Err _ => exists x, In x L /\ ~ point_ok s x
  end.
Proof.
  unfold evaluate2, tensors_of_profile. rewrite profile_shape. cbn [rmapM fst snd].
  assert (TF := tensors_spec L (front_material s)). destruct (get_tensors (front_material s) L) as [front|]; cbn [rbind].
  2:{ destruct TF as (x & Hx & N). exists x. split; [exact Hx|]. intros (K & _). contradiction. }
  rewrite rmapM_app. assert (TI := inner_spec L (inner_profile s)).
  match type of TI with match ?r with _ => _ end => destruct r as [v|] eqn:RM; rewrite ?RM end; cbn [rbind].
  2:{ destruct TI as (l & x & Hl & Hx & N). exists x. split; [exact Hx|]. intros (_ & K & _). apply N, K. exact Hl. }
  cbn [rmapM fst snd]. assert (TB := tensors_spec L (back_material s)). destruct (get_tensors (back_material s) L) as [back|]; cbn [rbind].
  2:{ destruct TB as (x & Hx & N). exists x. split; [exact Hx|]. intros (_ & _ & K). contradiction. }
  rewrite removelast_last, last_last. cbn [snd]. destruct TF as [F1 F2], TB as [B1 B2], TI as (I1 & inner & I2 & I3 & I4). rewrite I2.
  erewrite (calculate2_map th L (el (front_material s)) (el (back_material s)) (map (fun l => el (snd l)) (inner_profile s)) (map fst (inner_profile s)));
    [|rewrite !map_length; reflexivity|exact I3|apply first_elements; exact F2|apply first_elements; exact B2|exact I4].
  split; [intros x Hx; split; [now apply F1|]; split; [intros l Hl; now apply I1|now apply B1]|].
  split; [reflexivity|split; [reflexivity|]]. cbn [power]. apply map_ext. intros x. rewrite <- point_power. reflexivity.
Qed.

Lemma power_some th s x v : power_correction (point_value th s x) = Some v -> power_at th (el (front_material s) x) (el (back_material s) x) = Some v.
Proof.
  unfold point_value, solved. destruct (all_some _) as [l|] eqn:AS; [|discriminate]. assert (E := all_some_map _ _ AS). destruct l as [|f l]; [discriminate|].
  cbn [map] in E. injection E as Ef El. rewrite Ef.
  assert (Hl : exists es b, l = es ++ [b]).
  { destruct l as [|y l] using rev_ind; [destruct (inner_profile s); discriminate|eauto]. }
  destruct Hl as (es & b & ->). rewrite map_app in El. cbn [map] in El. apply app_inj_tail in El. destruct El as [_ ->].
  rewrite last_last, removelast_last. unfold solver2, solver2_media, list_snell, power_at. cbn [obind].
  destruct (snell (Csqrt f) th (Csqrt f)) as [af|]; [|discriminate]. cbn [obind].
  destruct (fold_right _ _ _) as [al|]; [|discriminate]. cbn [obind].
  destruct (snell (Csqrt f) th (Csqrt b)) as [ab|]; [|discriminate]. cbn [obind]. destruct (cdiv _ _) as [k|]; [|discriminate]. exact (fun H => H).
Qed.
