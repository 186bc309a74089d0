(** C51: dispersions of the refractiveindex.info database. *)
From Coq Require Import Ascii String Reals ZArith List Arith Bool Lra Lia.
From Coquelicot Require Import Complex.
From Verif.Base Require Import Py Cx.
From Verif.Model Require Import Units FormulaText DispAdd Dispersions Tables Rii.
From Verif.Spec Require Import Adding Database Table.
From Verif.Proof Require Import UnitsP DispersionsP DispAddP DispAddP2 TablesP RiiP.
From Verif.Props Require Import TablesT.
Import ListNotations.
Open Scope R_scope.

Lemma split_word w s : ~ In " "%char w -> split (w ++ " "%char :: s) = w :: split s.
Proof.
  induction w as [|c w IH]; intros N; [reflexivity|]. cbn [app split].
  destruct (Ascii.eqb_spec c " "%char) as [->|_]; [exfalso; apply N; now left|].
  rewrite IH; [reflexivity|]. intros H. apply N. now right.
Qed.
Lemma split_last w : ~ In " "%char w -> split w = [w].
Proof.
  induction w as [|c w IH]; intros N; [reflexivity|]. cbn [split].
  destruct (Ascii.eqb_spec c " "%char) as [->|_]; [exfalso; apply N; now left|].
  rewrite IH; [reflexivity|]. intros H. apply N. now right.
Qed.
Lemma written_read float s cs : written float s cs -> read float s = Ok cs.
Proof.
  unfold read. induction 1 as [w x N V|w x s l N V W IH].
  - rewrite split_last by assumption. cbn. now rewrite V.
  - rewrite split_word by assumption. cbn [rmapM]. now rewrite V, IH.
Qed.

Lemma formula_loads float h n s cs c0 : inv h -> In n [1; 2; 3; 4; 5]%nat -> written float s (c0 :: cs) -> exists h' r,
  get_dispersion float h [Formula n s] = (h', Ok (ORef r)) /\
  forall lbda, get_refractive_index h' r lbda =
    if Nat.eqb n 5 then formula_value n c0 (c0 :: cs) lbda
    else obind (formula_value n c0 (c0 :: cs) lbda) (fun e => Some (Csqrt e)).
Proof.
  intros I IN W. apply written_read in W. destruct (load_one float h (Formula n s) (formula_value n c0 (c0 :: cs)) I) as (h' & r & E & G).
  { cbn [meaning]. replace (existsb (Nat.eqb n) [1; 2; 3; 4; 5]%nat) with true; [now rewrite W|].
    symmetry. apply existsb_exists. exists n. split; [exact IN|apply Nat.eqb_refl]. }
  exists h', r. split; [exact E|]. intros lbda. destruct G as (o & H & K & _ & V). cbn [fst snd] in *.
  unfold entry_kind, index_entry in K. destruct (Nat.eqb n 5).
  - rewrite (get_n_idx h' r o lbda H K). apply V.
  - unfold get_refractive_index. rewrite H, K. now rewrite (get_diel_eps h' r o lbda H K), V.
Qed.

Lemma oplus_some a b v : oplus a b = Some v <-> exists x y, a = Some x /\ b = Some y /\ v = (x + y)%C.
Proof.
  unfold oplus. destruct a as [x|], b as [y|]; cbn; split; try discriminate; try (intros (? & ? & ? & ? & _); discriminate).
  - intros [= <-]. eauto.
  - intros (x' & y' & [= ->] & [= ->] & ->). reflexivity.
Qed.

Lemma pairs_inj ps qs : pairs ps = pairs qs -> ps = qs.
Proof.
  revert qs; induction ps as [|[a b] ps IH]; intros [|[c d] qs] E; try discriminate; [reflexivity|].
  rewrite !pairs_cons in E. injection E as -> -> E. now rewrite (IH qs).
Qed.
Lemma quads_inj ps qs : quadruples ps = quadruples qs -> ps = qs.
Proof.
  revert qs; induction ps as [|[[[a b] c] d] ps IH]; intros [|[[[a' b'] c'] d'] qs] E; try discriminate; [reflexivity|].
  injection E as -> -> -> -> E. now rewrite (IH qs).
Qed.

(** The values of the formulas *)
Lemma formula_value_spec n c0 cs lbda : 0 < lbda -> complete n (c0 :: cs) ->
  forall v, formula_value n c0 (c0 :: cs) lbda = Some v <-> exists q, rii n (c0 :: cs) (lbda / 1000) q /\ v = RtoC q.
Proof.
  intros L C v.
  assert (SP : forall ps w, oplus (sellmeier ps lbda) (Some (RtoC c0)) = Some w <->
     exists s, summed (resonance2 (lbda / 1000)) ps s /\ w = RtoC (1 + c0 + s)).
  { intros ps w. rewrite oplus_some. split.
    - intros (x & y & A & [= <-] & ->). apply sellmeier_spec in A. destruct A as (s & S & ->). exists s. split; [exact S|].
      rewrite <- RtoC_plus. f_equal. ring.
    - intros (s & S & ->). exists (RtoC (1 + s)), (RtoC c0). split; [apply sellmeier_spec; eauto|]. split; [reflexivity|].
      rewrite <- RtoC_plus. f_equal. ring. }
  assert (P4 : forall ps gs w, oplus (polynomial c0 (map to_nm ps) lbda) (sellmeier_custom gs lbda) = Some w <->
     exists s s', summed (resonance4 (lbda / 1000)) gs s /\ summed (monomial (lbda / 1000)) ps s' /\ w = RtoC (c0 + s + s')).
  { intros ps gs w. rewrite oplus_some. split.
    - intros (x & y & A & B & ->). apply polynomial_spec in A; [|exact L]. apply sellmeier_custom_spec in B.
      destruct A as (s' & S' & ->), B as (s & S & ->). exists s, s'. repeat split; auto. rewrite <- RtoC_plus. f_equal. ring.
    - intros (s & s' & S & S' & ->). exists (RtoC (c0 + s')), (RtoC s). rewrite polynomial_spec by exact L. rewrite sellmeier_custom_spec.
      split; [eauto|]. split; [eauto|]. rewrite <- RtoC_plus. f_equal. ring. }
  inversion C as [n' c1 ps IN|c1 gs G|c1 g1 g2 ps]; subst.
  - unfold formula_value. rewrite slices_pairs.
    assert (U : forall qs, pairs qs = pairs ps -> qs = ps) by (intros; now apply pairs_inj).
    destruct IN as [<-|[<-|[<-|[<-|[]]]]].
    + rewrite SP. split.
      * intros (s & S & ->). exists (1 + c0 + s). split; [|reflexivity]. constructor. rewrite summed_map in S.
        eapply summed_ext; [|exact S]. intros [a b] t. reflexivity.
      * intros (q & Q & ->). inversion Q as [c1 qs l s S| | | | |]; subst. apply U in H0. subst qs. exists s. split; [|reflexivity].
        rewrite summed_map. eapply summed_ext; [|exact S]. intros [a b] t. reflexivity.
    + rewrite SP. split.
      * intros (s & S & ->). exists (1 + c0 + s). split; [|reflexivity]. now constructor.
      * intros (q & Q & ->). inversion Q as [|c1 qs l s S| | | |]; subst. apply U in H0. subst qs. eauto.
    + rewrite polynomial_spec by exact L. split.
      * intros (s & S & ->). exists (c0 + s). split; [|reflexivity]. now constructor.
      * intros (q & Q & ->). inversion Q as [| |c1 qs l s S| | |]; subst. apply U in H0. subst qs. eauto.
    + rewrite cauchy_spec by exact L. split.
      * intros (s & S & ->). exists (c0 + s). split; [|reflexivity]. now constructor.
      * intros (q & Q & ->). inversion Q as [| | | | |c1 qs l s S]; subst. apply U in H0. subst qs. eauto.
  - unfold formula_value. destruct (slices_4_short c0 gs G) as [-> ->]. rewrite P4. split.
    + intros (s & s' & S & S' & ->). inversion S'; subst. exists (c0 + s). split; [now constructor|f_equal; ring].
    + intros (q & Q & ->). inversion Q as [| | |c1 gs' l s G' S|c1 g1 g2 ps l s s' S S' |]; subst.
      * apply quads_inj in H0. subst gs'. exists s, 0. split; [exact S|]. split; [constructor|f_equal; ring].
      * rename H0 into E. destruct ps as [|[a b] ps].
        -- assert (E' : quadruples [g1; g2] = quadruples gs) by (rewrite <- (app_nil_r (quadruples [g1; g2])); exact E).
           apply quads_inj in E'. subst gs. eauto 6.
        -- exfalso. apply (f_equal (@length R)) in E. destruct g1 as [[[? ?] ?] ?], g2 as [[[? ?] ?] ?].
           destruct gs as [|[[[? ?] ?] ?] [|[[[? ?] ?] ?] [|? ?]]]; cbn in E, G; lia.
  - match goal with |- context [formula_value 4 c0 (c0 :: ?X)] => change X with (quadruples [g1; g2] ++ pairs ps) end.
    unfold formula_value. destruct (slices_4 c0 g1 g2 ps) as [-> ->]. rewrite P4. split.
    + intros (s & s' & S & S' & ->). exists (c0 + s + s'). split; [now constructor|reflexivity].
    + intros (q & Q & ->). inversion Q as [| | |c1 gs' l s G' S |c1 g1' g2' ps' l s s' S S' |]; subst; rename H0 into E.
      * destruct ps as [|[a b] ps].
        -- assert (E' : quadruples gs' = quadruples [g1; g2]) by (rewrite E; apply app_nil_r).
           apply quads_inj in E'. subst gs'. exists s, 0. split; [exact S|]. split; [constructor|f_equal; ring].
        -- exfalso. apply (f_equal (@length R)) in E. destruct g1 as [[[? ?] ?] ?], g2 as [[[? ?] ?] ?].
           destruct gs' as [|[[[? ?] ?] ?] [|[[[? ?] ?] ?] [|? ?]]]; cbn in E, G'; lia.
      * destruct g1 as [[[? ?] ?] ?], g2 as [[[? ?] ?] ?], g1' as [[[? ?] ?] ?], g2' as [[[? ?] ?] ?].
        injection E as -> -> -> -> -> -> -> -> E. change (pairs ps' = pairs ps) in E. apply pairs_inj in E. subst ps'. eauto 6.
Qed.

Lemma complete_ne n cs : complete n cs -> exists c0 cs', cs = c0 :: cs' /\ In n [1; 2; 3; 4; 5]%nat.
Proof. intros [m c0 ps IN|c0 gs G|c0 g1 g2 ps]; eexists; eexists; (split; [reflexivity|]); [cbn in *; tauto|cbn; tauto|cbn; tauto]. Qed.
Lemma rii_complete n cs l q : rii n cs l q -> complete n cs.
Proof. intros []; constructor; cbn; auto. Qed.

(** A formula *)
Theorem C51_formula : forall (float : text -> option R) (h : heap) (n : nat) (s : text) (cs : list R) (lbda q : R),
  reachable h -> 0 < lbda -> written float s cs -> rii n cs (lbda / 1000) q ->
  exists h' r v, get_dispersion float h [Formula n s] = (h', Ok (ORef r)) /\
    get_refractive_index h' r lbda = Some v /\ (n = 5%nat -> v = RtoC q) /\ (n <> 5%nat -> root q v).
Proof.
  intros float h n s cs lbda q RH L W Q. pose proof (rii_complete _ _ _ _ Q) as C.
  destruct (complete_ne _ _ C) as (c0 & cs' & -> & IN).
  destruct (formula_loads float h n s cs' c0 (reach_inv h RH) IN W) as (h' & r & E & V).
  pose proof (proj2 (formula_value_spec n c0 cs' lbda L C (RtoC q)) (ex_intro _ q (conj Q eq_refl))) as F.
  exists h', r. specialize (V lbda). rewrite F in V. destruct (Nat.eqb_spec n 5) as [->|N].
  - exists (RtoC q). split; [exact E|]. split; [exact V|]. split; [reflexivity|congruence].
  - exists (Csqrt (RtoC q)). split; [exact E|]. split; [exact V|]. split; [contradiction|]. intros _. split; [apply Csqrt_sqr|apply Csqrt_principal].
Qed.
Print Assumptions C51_formula.

(** Where the formula has no value there is no refractive index *)
Theorem C51_undefined : forall (float : text -> option R) (h : heap) (n : nat) (s : text) (cs : list R) (lbda : R),
  reachable h -> 0 < lbda -> written float s cs -> complete n cs -> (forall q, ~ rii n cs (lbda / 1000) q) ->
  exists h' r, get_dispersion float h [Formula n s] = (h', Ok (ORef r)) /\ get_refractive_index h' r lbda = None.
Proof.
  intros float h n s cs lbda RH L W C NQ. destruct (complete_ne _ _ C) as (c0 & cs' & -> & IN).
  destruct (formula_loads float h n s cs' c0 (reach_inv h RH) IN W) as (h' & r & E & V).
  exists h', r. split; [exact E|]. rewrite V. destruct (formula_value n c0 (c0 :: cs') lbda) as [v|] eqn:F; [|now destruct (Nat.eqb n 5)].
  exfalso. apply (formula_value_spec n c0 cs' lbda L C) in F. destruct F as (q & Q & _). exact (NQ q Q).
Qed.
Print Assumptions C51_undefined.

(** Tables *)
Lemma on_table_scale rows lbda v : on_table (map (fun '(l, y) => (l * 1000, y)) rows) lbda v -> on_table rows (lbda / 1000) v.
Proof.
  intros (a & b & t & (A & B & LT & NB) & T & X & F).
  apply in_map_iff in A. destruct A as ([la ya] & <- & A). apply in_map_iff in B. destruct B as ([lb yb] & <- & B). cbn [fst snd] in *.
  exists (la, ya), (lb, yb), t. cbn [fst snd]. split; [|split; [exact T|split; [subst lbda; field|exact F]]].
  split; [exact A|]. split; [exact B|]. cbn. split; [lra|]. intros [lp yp] P.
  specialize (NB (lp * 1000, yp)). cbn in NB. assert (IN : In (lp * 1000, yp) (map (fun '(l, y) => (l * 1000, y)) rows)).
  { apply in_map_iff. now exists (lp, yp). }
  destruct (NB IN) as [Q|Q]; cbn [fst] in Q |- *; [left|right]; lra.
Qed.
Lemma inside_scale (rows : list (R * C)) lbda : inside rows (lbda / 1000) -> inside (map (fun '(l, y) => (l * 1000, y)) rows) lbda.
Proof.
  intros (([l y] & A & B) & ([l' y'] & A' & B')). cbn in B, B'. split.
  - exists (l * 1000, y). split; [apply in_map_iff; now exists (l, y)|]. cbn. lra.
  - exists (l' * 1000, y'). split; [apply in_map_iff; now exists (l', y')|]. cbn. lra.
Qed.

(** The rows of a table as (wavelength, complex refractive index) *)
Definition index_rows (e : entry) : list (R * C) :=
  match e with
  | TabNK rows => map (fun '(l, n, k) => (l, (n, k))) rows
  | TabN rows => map (fun '(l, n) => (l, (n, 0))) rows
  | TabK rows => map (fun '(l, k) => (l, (0, k))) rows
  | _ => []
  end.

Lemma meaning_rows float e : index_rows e <> [] ->
  meaning float e = Ok (rows_value (map (fun '(l, y) => (l * 1000, y)) (index_rows e))).
Proof.
  intros NE.
  assert (T : forall {X} (f : X -> R) (g : X -> C) (l : list X), l <> [] ->
    table (map (fun l => l * 1000) (map f l)) (map g l) = Ok (map (fun '(l, y) => (l * 1000, y)) (map (fun x => (f x, g x)) l))).
  { intros X f g l N. unfold table. rewrite !map_length, Nat.eqb_refl. destruct l as [|x l]; [contradiction|].
    cbn [map]. f_equal. cbn [combine]. f_equal. clear. induction l; cbn; congruence. }
  destruct e as [rows|rows|rows|n s|]; cbn [index_rows] in NE |- *; try contradiction; cbn [meaning].
  - rewrite T by (intros ->; now apply NE). cbn [rmap]. do 3 f_equal. apply map_ext. intros [[l n] k]. reflexivity.
  - rewrite T by (intros ->; now apply NE). cbn [rmap]. do 3 f_equal. apply map_ext. intros [l n]. reflexivity.
  - rewrite T by (intros ->; now apply NE). cbn [rmap]. do 3 f_equal. apply map_ext. intros [l k]. reflexivity.
Qed.
Lemma rows_load float h e : inv h -> index_rows e <> [] -> exists h' r,
  get_dispersion float h [e] = (h', Ok (ORef r)) /\
  forall lbda, get_refractive_index h' r lbda = rows_value (map (fun '(l, y) => (l * 1000, y)) (index_rows e)) lbda.
Proof.
  intros I NE. destruct (load_one float h e _ I (meaning_rows float e NE)) as (h' & r & E & G). exists h', r. split; [exact E|].
  destruct G as (o & H & K & _ & V). cbn [fst snd] in *. intros lbda. rewrite (get_n_idx h' r o lbda H); [apply V|].
  rewrite K. unfold entry_kind. destruct e; cbn in NE |- *; try reflexivity; contradiction.
Qed.
Lemma scale_nodup (rows : list (R * C)) : NoDup (map fst rows) -> NoDup (map fst (map (fun '(l, y) => (l * 1000, y)) rows)).
Proof.
  intros N. rewrite map_map. replace (map _ rows) with (map (fun l => l * 1000) (map fst rows)).
  - apply FinFun.Injective_map_NoDup; [|exact N]. intros x y E. lra.
  - rewrite map_map. apply map_ext. now intros [l y].
Qed.

Theorem C51_table_partial : forall (float : text -> option R) (h : heap) (e : entry) (lbda : R),
  reachable h -> NoDup (map fst (index_rows e)) -> (2 <= length (index_rows e))%nat ->
  exists h' r, get_dispersion float h [e] = (h', Ok (ORef r)) /\
    (inside (index_rows e) (lbda / 1000) ->
      exists v, get_refractive_index h' r lbda = Some v /\ on_table (index_rows e) (lbda / 1000) v) /\
    (forall v, In (lbda / 1000, v) (index_rows e) -> get_refractive_index h' r lbda = Some v) /\
    (~ inside (index_rows e) (lbda / 1000) -> get_refractive_index h' r lbda = None).
Proof.
  intros float h e lbda RH N L.
  destruct (rows_load float h e (reach_inv h RH)) as (h' & r & E & V); [intros Z; rewrite Z in L; cbn in L; lia|].
  exists h', r. split; [exact E|]. specialize (V lbda). set (rows := index_rows e) in *. clearbody rows.
  set (big := map (fun '(l, y) => (l * 1000, y)) rows) in *. assert (NB : NoDup (map fst big)) by now apply scale_nodup.
  assert (LB : (2 <= length big)%nat) by (unfold big; now rewrite map_length). split; [|split].
  - intros I. destruct (C58_between_partial big lbda NB LB (inside_scale rows lbda I)) as (v & T & O).
    exists v. split; [|now apply on_table_scale]. rewrite V. unfold rows_value. now rewrite T.
  - intros v IN. rewrite V. unfold rows_value. rewrite (C58_tabulated_partial big lbda v NB LB); [reflexivity|].
    unfold big. apply in_map_iff. exists (lbda / 1000, v). split; [|exact IN]. f_equal. field.
  - intros NI. rewrite V. unfold rows_value. rewrite C58_outside; [reflexivity|]. intros (([l y] & A & B) & ([l' y'] & A' & B')). apply NI.
    unfold big in A, A'. apply in_map_iff in A, A'. destruct A as ([l1 y1] & [= <- <-] & A), A' as ([l2 y2] & [= <- <-] & A').
    cbn in B, B'. split; [exists (l1, y1)|exists (l2, y2)]; (split; [assumption|]); cbn; lra.
Qed.
Print Assumptions C51_table_partial.

(** Several elements: the refractive indices add up as soon as there is a table or a formula 5; otherwise
    the squares add up. *)
Definition gives_index (e : entry) : Prop :=
  match e with TabNK _ | TabN _ | TabK _ => True | Formula n _ => n = 5%nat | Other => False end.
Definition loads (float : text -> option R) (e : entry) (hr : heap * nat) : Prop :=
  get_dispersion float [] [e] = (fst hr, Ok (ORef (snd hr))).

Lemma loads_meaning float e hr : loads float e hr -> exists v, meaning float e = Ok v /\ good (fst hr) (e, v) (snd hr).
Proof.
  intros E. unfold loads in E. destruct (meaning float e) as [v|x] eqn:M.
  - exists v. split; [reflexivity|]. destruct (load_one float [] e v inv_nil M) as (h' & r & E' & G).
    rewrite E in E'. injection E' as <- <-. exact G.
  - exfalso. destruct (load_err float [] [e] [] e x [] [] inv_nil eq_refl (Forall2_nil _) M) as (h' & E'). rewrite E in E'. discriminate.
Qed.
Lemma gives_index_entry e : gives_index e <-> index_entry e = true.
Proof. destruct e; cbn; try tauto. - split; [now intros ->|apply Nat.eqb_eq]. - split; [tauto|discriminate]. Qed.

Theorem C51_several : forall (float : text -> option R) (h : heap) (data : list entry) (parts : list (heap * nat)) (lbda : R),
  reachable h -> (2 <= length data)%nat -> Forall2 (loads float) data parts ->
  exists h' r, get_dispersion float h data = (h', Ok (ORef r)) /\
    ((exists e, In e data /\ gives_index e) ->
      get_refractive_index h' r lbda = total (map (fun '(h, r) => get_refractive_index h r lbda) parts)) /\
    ((forall e, In e data -> ~ gives_index e) ->
      get_dielectric h' r lbda = total (map (fun '(h, r) => get_dielectric h r lbda) parts)).
Proof.
  intros float h data parts lbda RH L F.
  assert (M : exists vs, Forall2 (fun e v => meaning float e = Ok v) data vs /\
     map (fun ev => as_value ev lbda) (combine data vs) = map (fun '(h, r) => get_refractive_index h r lbda) parts /\
     ((forall e, In e data -> ~ gives_index e) ->
       map (fun ev => snd ev lbda) (combine data vs) = map (fun '(h, r) => get_dielectric h r lbda) parts)).
  { clear L. induction F as [|e [hp rp] data parts E F IH]; [exists []; repeat split; constructor|].
    destruct IH as (vs & A & B & D). destruct (loads_meaning float e (hp, rp) E) as (v & ME & G). exists (v :: vs).
    destruct G as (o & H & K & _ & V). cbn [fst snd] in *. split; [now constructor|]. cbn [combine map]. split.
    - f_equal; [|exact B]. unfold as_value. cbn [fst snd]. unfold entry_kind in K. destruct (index_entry e).
      + rewrite (get_n_idx hp rp o lbda H K). symmetry. apply V.
      + unfold get_refractive_index. rewrite H, K, (get_diel_eps hp rp o lbda H K), V. reflexivity.
    - intros NG. f_equal; [|apply D; intros; apply NG; now right]. cbn [snd]. rewrite (get_diel_eps hp rp o lbda H).
      + symmetry. apply V.
      + rewrite K. unfold entry_kind. assert (Q := NG e (or_introl eq_refl)). rewrite gives_index_entry in Q. now destruct (index_entry e). }
  destruct M as (vs & A & B & D).
  destruct (load_many float h data vs (reach_inv h RH) L A) as (h' & r & ps & E & W). exists h', r. split; [exact E|]. split.
  - intros (e & IN & G). apply gives_index_entry in G.
    replace (existsb index_entry data) with true in W by (symmetry; apply existsb_exists; eauto).
    destruct W as [H W]. rewrite (get_n_idx h' r _ lbda H eq_refl), W, B. symmetry. apply total_osum.
  - intros NG. replace (existsb index_entry data) with false in W.
    + destruct W as [H W]. rewrite (get_diel_eps h' r _ lbda H eq_refl), W, (D NG). symmetry. apply total_osum.
    + symmetry. destruct (existsb index_entry data) eqn:EX; [|reflexivity]. apply existsb_exists in EX. destruct EX as (e & IN & G).
      apply gives_index_entry in G. now elim (NG e IN).
Qed.
Print Assumptions C51_several.

(** The usual case: a formula for n and a table of k *)
Theorem C51_with_k_partial : forall (float : text -> option R) (h : heap) (n : nat) (s : text) (cs : list R) (rows : list (R * R)) (lbda q k : R),
  reachable h -> 0 < lbda -> written float s cs -> rii n cs (lbda / 1000) q ->
  NoDup (map fst rows) -> (2 <= length rows)%nat -> In (lbda / 1000, k) rows ->
  exists h' r v, get_dispersion float h [Formula n s; TabK rows] = (h', Ok (ORef r)) /\
    (n = 5%nat -> v = RtoC q) /\ (n <> 5%nat -> root q v) /\
    get_refractive_index h' r lbda = Some (v + (0, k))%C.
Proof.
  intros float h n s cs rows lbda q k RH L W Q ND LE IN.
  assert (R0 : reachable []) by now exists [].
  destruct (C51_formula float [] n s cs lbda q R0 L W Q) as (h1 & r1 & v & E1 & V1 & A5 & A4).
  destruct (C51_table_partial float [] (TabK rows) lbda R0) as (h2 & r2 & E2 & _ & T & _).
  { cbn. rewrite map_map. replace (map _ rows) with (map fst rows); [exact ND|]. apply map_ext. now intros [? ?]. }
  { cbn. now rewrite map_length. }
  destruct (C51_several float h [Formula n s; TabK rows] [(h1, r1); (h2, r2)] lbda RH) as (h' & r & E & V & _).
  { cbn. lia. }
  { repeat constructor; assumption. }
  exists h', r, v. split; [exact E|]. split; [exact A5|]. split; [exact A4|].
  rewrite V by (exists (TabK rows); cbn; auto). cbn [map total]. rewrite V1, (T (0, k)).
  - f_equal. ring.
  - cbn. apply in_map_iff. now exists (lbda / 1000, k).
Qed.
Print Assumptions C51_with_k_partial.

(** Other types of data, and a text with something that is not a number between two blanks *)
Theorem C51_other : forall (float : text -> option R) (h : heap) (n : nat) (s : text), ~ In n [1; 2; 3; 4; 5]%nat ->
  snd (get_dispersion float h [Formula n s]) = Err ValueError /\ snd (get_dispersion float h [Other]) = Err ValueError.
Proof.
  intros float h n s N. split; [|reflexivity]. unfold get_dispersion. cbn [build_all build]. unfold formula.
  destruct (existsb (Nat.eqb n) [1; 2; 3; 4; 5]%nat) eqn:EX; [|reflexivity]. exfalso. apply N.
  apply existsb_exists in EX. destruct EX as (m & M & E). apply Nat.eqb_eq in E. now subst m.
Qed.
Print Assumptions C51_other.
Lemma split_ne s : split s <> [].
Proof. destruct s as [|c s]; [discriminate|]. cbn. destruct (Ascii.eqb c " "%char); [discriminate|]. destruct (split s); discriminate. Qed.
Lemma split_app a s : split (a ++ " "%char :: s) = split a ++ split s.
Proof.
  induction a as [|c a IH]; [reflexivity|]. cbn [app split]. destruct (Ascii.eqb c " "%char); [now rewrite IH|].
  rewrite IH. pose proof (split_ne a) as N. destruct (split a); [contradiction|reflexivity].
Qed.
Lemma read_error float s w : In w (split s) -> float w = None -> read float s = Err ValueError.
Proof.
  unfold read. intros IN N. induction (split s) as [|v l IH]; [destruct IN|]. cbn [rmapM].
  destruct (float v) as [x|] eqn:V; [|reflexivity]. destruct IN as [->|IN]; [congruence|]. now rewrite (IH IN).
Qed.
Theorem C51_blanks : forall (float : text -> option R) (h : heap) (n : nat) (a b : text), float [] = None ->
  snd (get_dispersion float h [Formula n (a ++ " "%char :: " "%char :: b)]) = Err ValueError.
Proof.
  intros float h n a b F0. unfold get_dispersion. cbn [build_all build]. unfold formula. destruct (existsb _ _); [|reflexivity].
  rewrite (read_error float _ []); [reflexivity| |exact F0]. rewrite split_app. apply in_or_app. right. now left.
Qed.
Print Assumptions C51_blanks.

(** A last coefficient without its partner has no effect *)
Theorem C51_unpaired : forall (float : text -> option R) (h : heap) (n : nat) (s t : text) (c x : R) (ps : list (R * R)) (lbda : R),
  reachable h -> In n [1; 2; 3; 5]%nat -> written float s (c :: pairs ps) -> written float t (c :: pairs ps ++ [x]) ->
  exists h1 r1 h2 r2, get_dispersion float h [Formula n s] = (h1, Ok (ORef r1)) /\
    get_dispersion float h [Formula n t] = (h2, Ok (ORef r2)) /\
    get_refractive_index h1 r1 lbda = get_refractive_index h2 r2 lbda.
Proof.
  intros float h n s t c x ps lbda RH IN W W'. pose proof (reach_inv h RH) as I.
  assert (IN' : In n [1; 2; 3; 4; 5]%nat) by (cbn in *; tauto).
  destruct (formula_loads float h n s _ c I IN' W) as (h1 & r1 & E1 & V1).
  destruct (formula_loads float h n t _ c I IN' W') as (h2 & r2 & E2 & V2).
  exists h1, r1, h2, r2. split; [exact E1|]. split; [exact E2|]. rewrite V1, V2.
  replace (formula_value n c (c :: pairs ps ++ [x])) with (formula_value n c (c :: pairs ps)); [reflexivity|].
  assert (P : let l := c :: pairs ps ++ [x] in combine (slice 1 (length l) 2 l) (slice 2 (length l) 2 l) = ps).
  { cbn zeta. rewrite !slice_all. cbn [every Nat.sub]. clear. induction ps as [|[a b] ps IH]; [reflexivity|].
    rewrite pairs_cons. cbn [app every Nat.sub combine]. now rewrite IH. }
  unfold formula_value. rewrite slices_pairs, P. destruct IN as [<-|[<-|[<-|[<-|[]]]]]; reflexivity.
Qed.
Print Assumptions C51_unpaired.

(** Fused silica like: n^2 = 1 + 0 + l^2/(l^2 - 1/100), at 500 nm, and l = 1 micrometre for the formula 4 *)
Definition digit (w : text) : option R :=
  match word w with
  | "0"%string => Some 0 | "1"%string => Some 1 | "2"%string => Some 2 | "-2"%string => Some (-2) | ".1"%string => Some (1 / 10) | _ => None
  end.
Example C51_example : exists h r v, get_dispersion digit [] [Formula 1 (chars "0 1 .1")] = (h, Ok (ORef r)) /\
  get_refractive_index h r 500 = Some v /\ root (1 + 0 + (25 / 24 + 0)) v.
Proof.
  destruct (C51_formula digit [] 1 (chars "0 1 .1") [0; 1; 1 / 10] 500 (1 + 0 + (25 / 24 + 0))) as (h & r & v & E & V & _ & A).
  - now exists [].
  - lra.
  - apply (written_more digit (chars "0") 0 (chars "1 .1")); [intros [H|[]]; discriminate|reflexivity|].
    apply (written_more digit (chars "1") 1 (chars ".1")); [intros [H|[]]; discriminate|reflexivity|].
    apply written_one; [intros [H|[H|[]]]; discriminate|reflexivity].
  - apply (rii1 0 [(1, 1 / 10)]). apply more_terms; [|constructor]. replace (500 / 1000) with (1 / 2) by field. split; [lra|]. field.
  - exists h, r, v. split; [exact E|]. split; [exact V|]. apply A. discriminate.
Qed.
Example C51_example4 : rii 4 [1; 2; 0; 2; -2; 1; 0; 0; 1; 1; 2] 1 (1 + (2 * 1 / (1 ^ 2 - / 4) + (1 * 1 / (1 ^ 2 - 0) + 0)) + (1 * 1 + 0)).
Proof.
  assert (P1 : forall y, power 1 y 1) by (intros y; left; split; [lra|]; unfold Rpower; now rewrite ln_1, Rmult_0_r, exp_0).
  apply (rii4_more 1 (2, 0, 2, -2) (1, 0, 0, 1) [(1, 2)]).
  - apply more_terms; [|apply more_terms; [|constructor]].
    + exists 1, (/ 4). split; [apply P1|]. split; [|split; [lra|reflexivity]].
      right; right. exists (-2)%Z. split; [reflexivity|]. split; [left; lra|]. unfold powerRZ. change (Pos.to_nat 2) with 2%nat. field.
    + exists 1, 0. split; [apply P1|]. split; [right; left; repeat split; lra|]. split; [lra|reflexivity].
  - apply more_terms; [|constructor]. exists 1. split; [apply P1|reflexivity].
Qed.
Example C51_example_table : inside (index_rows (TabK [(2, 5); (1, 3)])) (1000 / 1000) /\ In (1000 / 1000, (0, 3)) (index_rows (TabK [(2, 5); (1, 3)])).
Proof.
  split; [split; [exists (1, (0, 3))|exists (2, (0, 5))]; cbn; split; auto; lra|].
  cbn. right. left. f_equal. field.
Qed.
