(** C57, C76: Mueller matrices in data frames, the residual of the fit and its figure. *)
From Coq Require Import Reals String List Arith Bool Lia Lra Permutation.
From Verif.Base Require Import Py.
From Verif.Model Require Import MMatrixFit.
From Verif.Spec Require Import Labels.
From Verif.Proof Require Import MMatrixFitP.
Import ListNotations.
Open Scope R_scope.
Open Scope list_scope.

(** Element Mij is in the column Mij, if the experimental columns are M11, M12, ..., M44 in this order *)
Theorem C57_columns_partial : forall (exp : frame) (mm : list mueller),
  f_columns exp = labels -> length (f_index exp) = length mm ->
  exists df, mmatrix_to_dataframe exp mm None = Ok df /\ f_columns df = labels /\ f_index df = f_index exp /\ well_formed df /\
    forall k m i j, nth_error mm k = Some m -> (i < 4)%nat -> (j < 4)%nat -> holds_at df k (label i j) (m i j).
Proof.
  intros exp mm F L. unfold mmatrix_to_dataframe. rewrite F, L. change (length labels) with 16%nat. rewrite !Nat.eqb_refl. cbn [andb].
  eexists. split; [reflexivity|]. split; [reflexivity|]. split; [reflexivity|]. split.
  - split; cbn; [now rewrite map_length|]. apply Forall_forall. intros row R. apply in_map_iff in R. now destruct R as (m & <- & _).
  - intros k m i j M I J. apply holds_cell; [reflexivity|assumption|assumption|]. cbn [f_rows]. exists (flatten m).
    rewrite nth_error_map, M. split; [reflexivity|now apply flatten_at].
Qed.
Print Assumptions C57_columns_partial.

(** Another number of columns or of matrices is refused *)
Theorem C57_rejects : forall (exp : frame) (mm : list mueller) identifier,
  length (f_columns exp) <> 16%nat \/ length (f_index exp) <> length mm -> mmatrix_to_dataframe exp mm identifier = Err ValueError.
Proof.
  intros exp mm identifier H. unfold mmatrix_to_dataframe.
  assert (L : length (match identifier with Some d => map (fun c => (c ++ "_" ++ d)%string) (f_columns exp) | None => f_columns exp end) =
    length (f_columns exp)) by (destruct identifier; [apply map_length|reflexivity]).
  rewrite L. destruct (Nat.eqb_spec (length (f_columns exp)) 16) as [A|A]; [|reflexivity].
  destruct (Nat.eqb_spec (length (f_index exp)) (length mm)) as [B|B]; [|reflexivity]. destruct H; contradiction.
Qed.
Print Assumptions C57_rejects.

(** In the data of the model with the experiment beside it *)
Theorem C57_model_data_partial : forall (exp : frame) (mm : list mueller) (fitted : bool),
  f_columns exp = labels -> well_formed exp -> length (f_index exp) = length mm ->
  exists df, get_model_data exp mm fitted true = Ok df /\ f_index df = f_index exp /\
    (forall k i j x, (i < 4)%nat -> (j < 4)%nat -> holds_at exp k (label i j) x -> holds_at df k (label i j) x) /\
    forall k m i j, nth_error mm k = Some m -> (i < 4)%nat -> (j < 4)%nat ->
      holds_at df k (label i j ++ (if fitted then "_fit" else "_model"))%string (m i j).
Proof.
  intros exp mm fitted F [WL WF] L. unfold get_model_data, mmatrix_to_dataframe. rewrite F, L. rewrite F in WF. rewrite map_length. change (length labels) with 16%nat.
  rewrite !Nat.eqb_refl. cbn [andb rbind]. unfold concat_columns. cbn [f_columns f_rows f_index]. rewrite F. eexists. split; [reflexivity|]. split; [reflexivity|].
  set (suffix := ("_" ++ (if fitted then "fit" else "model"))%string).
  assert (S : (if fitted then "_fit" else "_model")%string = suffix) by now destruct fitted. rewrite S.
  set (cols := labels ++ map (fun c => (c ++ suffix)%string) labels).
  assert (ND : NoDup cols).
  { assert (D : forall l : list string, (forall a b, (a < b < length l)%nat -> nth a l ""%string <> nth b l ""%string) -> NoDup l).
    { induction l as [|x l IH]; intros H; constructor.
      - intros I. destruct (In_nth _ _ ""%string I) as (n & LN & E). apply (H 0%nat (Datatypes.S n)); cbn; [lia|]. now rewrite E.
      - apply IH. intros a b LN. apply (H (Datatypes.S a) (Datatypes.S b)). cbn. lia. }
    apply D. change (length cols) with 32%nat. intros a b LN. unfold cols, suffix.
    destruct fitted; do 32 (destruct a as [|a]; [do 32 (destruct b as [|b]; [first [lia|discriminate]|]); lia|]); lia. }
  split.
  - intros k i j x I J H. destruct (proj1 (holds_cell exp k i j x F I J) H) as (row & R & X).
    assert (K : (k < length mm)%nat) by (rewrite <- L, <- WL; apply nth_error_Some; congruence).
    destruct (nth_error mm k) as [m|] eqn:M; [|exfalso; apply nth_error_None in M; lia].
    exists (4 * i + j)%nat, (row ++ flatten m). cbn [f_columns f_rows concat_columns].
    assert (C : nth_error cols (4 * i + j) = Some (label i j)).
    { unfold cols. rewrite nth_error_app1; [now apply label_at|]. change (length labels) with 16%nat. lia. }
    split; [exact C|]. split; [exact (nodup_at _ _ _ ND C)|]. split.
    + rewrite nth_error_map. rewrite (nth_error_combine _ _ k row (flatten m)); [reflexivity|exact R|]. now rewrite nth_error_map, M.
    + rewrite nth_error_app1; [exact X|]. apply nth_error_Some. congruence.
  - intros k m i j M I J.
    assert (K : (k < length mm)%nat) by (apply nth_error_Some; congruence).
    destruct (nth_error (f_rows exp) k) as [row|] eqn:R; [|exfalso; apply nth_error_None in R; lia].
    assert (LR : length row = 16%nat) by (apply nth_error_In in R; rewrite Forall_forall in WF; now apply WF).
    exists (16 + (4 * i + j))%nat, (row ++ flatten m). cbn [f_columns f_rows concat_columns].
    assert (C : nth_error cols (16 + (4 * i + j)) = Some (label i j ++ suffix)%string).
    { unfold cols. rewrite nth_error_app2 by (change (length labels) with 16%nat; lia). change (length labels) with 16%nat.
      replace (16 + (4 * i + j) - 16)%nat with (4 * i + j)%nat by lia. now rewrite nth_error_map, label_at. }
    split; [exact C|]. split; [exact (nodup_at _ _ _ ND C)|]. split.
    + rewrite nth_error_map. rewrite (nth_error_combine _ _ k row (flatten m)); [reflexivity|exact R|]. now rewrite nth_error_map, M.
    + rewrite nth_error_app2 by lia. rewrite LR. replace (16 + (4 * i + j) - 16)%nat with (4 * i + j)%nat by lia. now apply flatten_at.
Qed.
Print Assumptions C57_model_data_partial.

(** The residual vanishes exactly when all elements agree *)
Theorem C57_residual_partial : forall (exp : frame) (mm : list mueller),
  f_columns exp = labels -> well_formed exp -> length (f_index exp) = length mm ->
  exists r, fit_function exp mm = Ok r /\ length r = length mm /\
    (zero r <-> forall k m i j, nth_error mm k = Some m -> (i < 4)%nat -> (j < 4)%nat -> holds_at exp k (label i j) (m i j)).
Proof.
  intros exp mm F W L. destruct (residual_values exp mm F W L) as (r & E & LR & H). exists r. split; [exact E|]. split; [exact LR|].
  destruct W as [WL WF]. rewrite F in WF. split.
  - intros Z k m i j M I J. assert (K : (k < length mm)%nat) by (apply nth_error_Some; congruence).
    destruct (nth_error (f_rows exp) k) as [row|] eqn:R; [|exfalso; apply nth_error_None in R; lia].
    assert (LW : length row = 16%nat) by (apply nth_error_In in R; rewrite Forall_forall in WF; now apply WF).
    apply holds_cell; try assumption. exists row. split; [exact R|]. destruct (H k m row M R) as (d & D & Q).
    rewrite (nth_error_nth' _ 0) by lia. f_equal. specialize (Z k d D i j I J). rewrite Q in Z by assumption. lra.
  - intros A k d D i j I J. assert (K : (k < length mm)%nat) by (rewrite <- LR; apply nth_error_Some; congruence).
    destruct (nth_error mm k) as [m|] eqn:M; [|exfalso; apply nth_error_None in M; lia].
    destruct (proj1 (holds_cell exp k i j _ F I J) (A k m i j M I J)) as (row & R & X).
    destruct (H k m row M R) as (d' & D' & Q). rewrite D in D'. injection D' as <-. rewrite Q by assumption.
    apply nth_error_nth with (d := 0) in X. rewrite X. ring.
Qed.
Print Assumptions C57_residual_partial.

(** A sample with elements distinct from each other, with the columns in order or column by column *)
Definition numbered : mueller := fun i j => INR (4 * i + j).
Definition transposed : list string := flat_map (fun j => map (fun i => label i j) [0; 1; 2; 3]%nat) [0; 1; 2; 3]%nat.
Definition measured : frame := Frame labels [500] [flatten numbered].
Definition by_column : frame := Frame transposed [500] [flatten (fun i j => numbered j i)].

Lemma transposed_perm : Permutation labels transposed.
Proof.
  assert (N : NoDup transposed).
  { assert (D : forall l : list string, (forall a b, (a < b < length l)%nat -> nth a l ""%string <> nth b l ""%string) -> NoDup l).
    { induction l as [|x l IH]; intros H; constructor.
      - intros I. destruct (In_nth _ _ ""%string I) as (n & LN & E). apply (H 0%nat (Datatypes.S n)); cbn; [lia|]. now rewrite E.
      - apply IH. intros a b LN. apply (H (Datatypes.S a) (Datatypes.S b)). cbn. lia. }
    apply D. change (length transposed) with 16%nat. intros a b L.
    do 16 (destruct a as [|a]; [do 16 (destruct b as [|b]; [first [lia|discriminate]|]); lia|]). lia. }
  apply NoDup_Permutation; [apply labels_nodup|exact N|]. intros x. cbn [labels transposed flat_map map app In]. tauto.
Qed.

Lemma by_column_holds i j : (i < 4)%nat -> (j < 4)%nat -> holds_at by_column 0 (label i j) (numbered i j).
Proof.
  intros I J. exists (4 * j + i)%nat, (flatten (fun i j => numbered j i)).
  assert (C : nth_error transposed (4 * j + i) = Some (label i j)) by (four i; four j; reflexivity).
  split; [exact C|]. split; [apply nodup_at; [|exact C]|].
  - exact (Permutation_NoDup transposed_perm labels_nodup).
  - split; [reflexivity|]. now rewrite flatten_at.
Qed.

(** With the columns in another order the model data get wrong labels, and the residual does not vanish although
    all elements agree *)
Theorem C57_order_refuted : exists (exp : frame) (mm : list mueller) (m : mueller) (df : frame) (r : list mueller),
  Permutation labels (f_columns exp) /\ well_formed exp /\ length (f_index exp) = length mm /\ nth_error mm 0 = Some m /\
  mmatrix_to_dataframe exp mm None = Ok df /\ (exists x, holds_at df 0 (label 0 1) x /\ x <> m 0%nat 1%nat) /\
  (forall i j, (i < 4)%nat -> (j < 4)%nat -> holds_at exp 0 (label i j) (m i j)) /\
  fit_function exp mm = Ok r /\ ~ zero r.
Proof.
  exists by_column, [numbered], numbered, (Frame transposed [500] [flatten numbered]),
    [minus (fun i j => nth (4 * i + j) (flatten (fun i j => numbered j i)) 0) numbered].
  split; [exact transposed_perm|]. split; [split; [reflexivity|repeat constructor]|]. split; [reflexivity|]. split; [reflexivity|].
  split; [reflexivity|]. split.
  - exists (numbered 1 0)%nat. split; [|unfold numbered; cbn; lra]. exists 4%nat, (flatten numbered). split; [reflexivity|].
    split; [|split; reflexivity]. apply nodup_at; [|reflexivity]. exact (Permutation_NoDup transposed_perm labels_nodup).
  - split; [exact by_column_holds|]. split; [reflexivity|].
    intros Z. specialize (Z 0%nat _ eq_refl 0%nat 1%nat ltac:(lia) ltac:(lia)). unfold minus, numbered in Z. cbn in Z. lra.
Qed.
Print Assumptions C57_order_refuted.

(** The fitting class needs the three display arguments *)
Definition given (name : string) (kwargs : list (string * bool)) : Prop := exists v, In (name, v) kwargs.
Lemma lookup_given name kwargs : (exists v, lookup name kwargs = Some v) <-> given name kwargs.
Proof.
  unfold given. induction kwargs as [|[a v] l IH]; cbn; [firstorder discriminate|]. destruct (String.eqb_spec a name) as [->|N].
  - split; eauto.
  - rewrite IH. split; [intros (w & W); eauto|]. intros (w & [[= <- <-]|W]); [contradiction|eauto].
Qed.

Lemma plot_ok exp df single : f_columns exp = labels -> f_columns df = labels -> exists l, plot_mmatrix [exp; df] single = Ok l.
Proof.
  intros F G. destruct exp as [ec ei er], df as [dc di dr]. cbn in F, G. subst ec dc. eexists. reflexivity.
Qed.

Theorem C57_init : forall (exp : frame) (mm : list mueller) (kwargs : list (string * bool)),
  f_columns exp = labels -> length (f_index exp) = length mm ->
  ((exists o, init exp mm kwargs = Ok o) <->
     given "display_single" kwargs /\ given "sharex" kwargs /\ given "full_scale" kwargs) /\
  ((exists o, init exp mm kwargs = Ok o) \/ init exp mm kwargs = Err AttributeError).
Proof.
  intros exp mm kwargs F L. destruct (C57_columns_partial exp mm F L) as (df & E & G & _). rewrite <- !lookup_given.
  unfold init. rewrite E. cbn [rbind].
  destruct (lookup "display_single" kwargs) as [d|]; cbn [attribute rbind]; [|split; [|now right]; split; [intros (o & [=])|intros ((v & [=]) & _)]].
  destruct (lookup "sharex" kwargs) as [s|]; cbn [attribute rbind]; [|split; [|now right]; split; [intros (o & [=])|intros (_ & (v & [=]) & _)]].
  destruct (lookup "full_scale" kwargs) as [f|]; cbn [attribute rbind]; [|split; [|now right]; split; [intros (o & [=])|intros (_ & _ & (v & [=]))]].
  destruct (plot_ok exp df d F G) as (l & P). rewrite P. cbn. split; [|left; eauto]. split; eauto 10.
Qed.
Print Assumptions C57_init.

Theorem C57_init_refuted : exists (exp : frame) (mm : list mueller),
  f_columns exp = labels /\ well_formed exp /\ length (f_index exp) = length mm /\ init exp mm [] = Err AttributeError.
Proof. exists measured, [numbered]. repeat split; cbn; repeat constructor. Qed.
Print Assumptions C57_init_refuted.

(** C76: what the figure shows: the experiment in the even lines, the model or its difference in the odd lines *)
Definition shows_fit (exp : frame) (single residual : bool) (mm : list mueller) (l : list trace) : Prop :=
  length l = 32%nat /\
  forall i j (e : nat -> R) (m : nat -> R), (i < 4)%nat -> (j < 4)%nat ->
    (forall k, (k < length (f_index exp))%nat -> holds_at exp k (label i j) (e k)) ->
    (forall k a, nth_error mm k = Some a -> m k = a i j) ->
    (exists t, nth_error l (2 * (4 * i + j)) = Some t /\ shows single i j " " (f_index exp) e t) /\
    (exists t, nth_error l (2 * (4 * i + j) + 1) = Some t /\
       shows single i j (if residual then " Residual" else " theory") (f_index exp) (if residual then fun k => m k - e k else m) t).

Lemma plot_shows exp mm df l single : f_columns exp = labels -> well_formed exp -> length (f_index exp) = length mm ->
  mmatrix_to_dataframe exp mm None = Ok df -> plot_mmatrix [exp; df] single = Ok l -> shows_fit exp single false mm l.
Proof.
  intros F W L E P. destruct (C57_columns_partial exp mm F L) as (df' & E' & G & X & GW & H). rewrite E in E'. injection E' as <-.
  assert (P' : plot_mmatrix [Frame labels (f_index exp) (f_rows exp); Frame labels (f_index df) (f_rows df)] single = Ok l)
    by (rewrite <- F at 1; rewrite <- G; destruct exp, df; exact P).
  clear P. cbn in P'. injection P' as <-.
  split; [reflexivity|]. intros i j e m I J VE VM.
  assert (CE : column exp (label i j) = Ok (map e (seq 0 (length (f_index exp))))) by (apply column_values; try assumption; exact (proj1 W)).
  assert (CD : column df (label i j) = Ok (map m (seq 0 (length (f_index exp))))).
  { apply column_values; try assumption; [rewrite (proj1 GW), X; reflexivity|]. intros k K.
    destruct (nth_error mm k) as [a|] eqn:A; [|exfalso; apply nth_error_None in A; lia]. rewrite (VM k a A). now apply H. }
  unfold column in CE, CD. rewrite F, position_label in CE by assumption. rewrite G, position_label in CD by assumption.
  assert (CE' : map (fun row => nth (4 * i + j) row 0) (f_rows exp) = map e (seq 0 (length (f_index exp)))) by congruence.
  assert (CD' : map (fun row => nth (4 * i + j) row 0) (f_rows df) = map m (seq 0 (length (f_index exp)))) by congruence.
  clear CE CD. rewrite X in *.
  four i; four j; (split; eexists; (split; [reflexivity|]); (split; [reflexivity|]); (split; [reflexivity|]); (split; [first [exact CE'|exact CD']|now destruct single])).
Qed.

Theorem C76_figure_partial : forall (exp : frame) (mm : list mueller) kwargs o,
  f_columns exp = labels -> well_formed exp -> length (f_index exp) = length mm ->
  init exp mm kwargs = Ok o -> shows_fit exp (display_single o) false mm (fig o) /\ exp_mm o = exp /\ show_residual o = false.
Proof.
  intros exp mm kwargs o F W L E. destruct (C57_columns_partial exp mm F L) as (df & D & G & _).
  unfold init in E. rewrite D in E. cbn [rbind] in E.
  destruct (lookup "display_single" kwargs) as [d|]; cbn [attribute rbind] in E; [|discriminate].
  destruct (lookup "sharex" kwargs) as [s|]; cbn [attribute rbind] in E; [|discriminate].
  destruct (lookup "full_scale" kwargs) as [f|]; cbn [attribute rbind] in E; [|discriminate].
  destruct (plot_mmatrix [exp; df] d) as [l|] eqn:P; cbn [rbind] in E; [|discriminate]. injection E as <-. cbn.
  split; [|split; reflexivity]. exact (plot_shows exp mm df l d F W L D P).
Qed.
Print Assumptions C76_figure_partial.

(** After any sequence of changes the figure shows the last ones *)
Inductive change := Parameters (mm : list mueller) | Residual (mm : list mueller) (new : bool).
Definition matrices (c : change) : list mueller := match c with Parameters mm | Residual mm _ => mm end.
Definition apply_change (o : fitter) (c : change) : res fitter :=
  match c with Parameters mm => update_selection o mm | Residual mm new => update_residual o mm new end.
Fixpoint run (o : fitter) (cs : list change) : res fitter :=
  match cs with [] => Ok o | c :: cs' => match apply_change o c with Ok o' => run o' cs' | Err e => Err e end end.
(** The last matrices and the last choice of the residual *)
Fixpoint present (mm : list mueller) (residual : bool) (cs : list change) : list mueller * bool :=
  match cs with
  | [] => (mm, residual)
  | Parameters mm' :: cs' => present mm' residual cs'
  | Residual mm' new :: cs' => present mm' new cs'
  end.

Lemma update_shows exp o mm0 r0 mm : f_columns exp = labels -> well_formed exp -> length (f_index exp) = length mm ->
  exp_mm o = exp -> shows_fit exp (display_single o) r0 mm0 (fig o) -> length (f_index exp) = length mm0 ->
  exists o', update_selection o mm = Ok o' /\ exp_mm o' = exp /\ display_single o' = display_single o /\
    show_residual o' = show_residual o /\ shows_fit exp (display_single o) (show_residual o) mm (fig o').
Proof.
  intros F W L EX [SL SH] L0. destruct (C57_columns_partial exp mm F L) as (df & D & G & X & GW & H).
  unfold update_selection. rewrite EX, D. cbn [rbind]. set (model_df := if show_residual o then frame_minus df exp else df).
  assert (FM : f_columns model_df = labels) by (unfold model_df; destruct (show_residual o); exact G).
  assert (LM : length (f_rows model_df) = length (f_index exp)).
  { unfold model_df. destruct (show_residual o); [|rewrite (proj1 GW), X; reflexivity]. cbn. rewrite map_length, combine_length.
    rewrite (proj1 GW), X, (proj1 W). lia. }
  assert (V : forall k i j, (k < length (f_index exp))%nat -> (i < 4)%nat -> (j < 4)%nat ->
     forall a e, nth_error mm k = Some a -> holds_at exp k (label i j) e ->
     holds_at model_df k (label i j) (if show_residual o then a i j - e else a i j)).
  { intros k i j K I J a e A HE. pose proof (H k a i j A I J) as HA. unfold model_df. destruct (show_residual o); [|exact HA].
    apply holds_cell; [exact G|assumption|assumption|].
    destruct (proj1 (holds_cell _ _ _ _ _ F I J) HE) as (re & RE & XE). destruct (proj1 (holds_cell _ _ _ _ _ G I J) HA) as (ra & RA & XA).
    cbn [f_rows frame_minus]. rewrite nth_error_map, (nth_error_combine _ _ _ _ _ RA RE). eexists. split; [reflexivity|].
    cbn [fst snd]. rewrite nth_error_map, (nth_error_combine _ _ _ _ _ XA XE). reflexivity. }
  rewrite FM.
  destruct (set_traces_spec model_df (show_residual o)
     (fun c => match column model_df c with Ok y => y | Err _ => [] end) labels 0 (fig o)) as (m & M & LMM & KE & CH).
  { intros c C. unfold column. rewrite FM. destruct (In_nth_error _ _ C) as (k & K).
    assert (K16 : (k < 16)%nat) by (change 16%nat with (length labels); apply nth_error_Some; congruence).
    destruct (index_of k K16) as (i & j & I & J & ->). rewrite label_at in K by assumption. injection K as <-.
    now rewrite position_label. }
  { rewrite SL. cbn. lia. }
  rewrite M. cbn [rbind]. eexists. split; [reflexivity|]. cbn. split; [reflexivity|]. split; [reflexivity|]. split; [reflexivity|].
  split; [lia|]. intros i j e mv I J VE VM.
  set (m0 := fun k => match nth_error mm0 k with Some a => a i j | None => 0 end).
  destruct (SH i j e m0 I J VE) as ((t & T & TS) & (t' & T' & TS')); [intros k a A; unfold m0; now rewrite A|]. split.
  - exists t. split; [|exact TS]. rewrite KE; [exact T|]. intros a. left. lia.
  - assert (LA := label_at i j I J). pose proof (CH _ _ _ LA T') as Q. cbn [Nat.add] in Q. eexists. split; [exact Q|].
    destruct TS' as (N & TX & TY & TP). split; [cbn; now destruct (show_residual o)|]. split; [exact TX|]. split; [|exact TP]. cbn [t_y].
    rewrite (column_values model_df i j (if show_residual o then fun k => mv k - e k else mv) (length (f_index exp)) FM I J LM); [reflexivity|].
    intros k K. destruct (nth_error mm k) as [a|] eqn:A; [|exfalso; apply nth_error_None in A; lia].
    pose proof (V k i j K I J a (e k) A (VE k K)) as Z. rewrite <- (VM k a A) in Z. now destruct (show_residual o).
Qed.

Theorem C76_history_partial : forall (exp : frame) (mm : list mueller) kwargs o (cs : list change),
  f_columns exp = labels -> well_formed exp -> length (f_index exp) = length mm ->
  init exp mm kwargs = Ok o -> Forall (fun c => length (matrices c) = length (f_index exp)) cs ->
  exists o', run o cs = Ok o' /\ exp_mm o' = exp /\
    shows_fit exp (display_single o) (snd (present mm false cs)) (fst (present mm false cs)) (fig o').
Proof.
  intros exp mm kwargs o cs F W L E LC. destruct (C76_figure_partial exp mm kwargs o F W L E) as (S & EX & SR). clear E.
  assert (G : forall cs o mm r, exp_mm o = exp -> show_residual o = r -> length (f_index exp) = length mm -> shows_fit exp (display_single o) r mm (fig o) ->
    Forall (fun c => length (matrices c) = length (f_index exp)) cs ->
    exists o', run o cs = Ok o' /\ exp_mm o' = exp /\ shows_fit exp (display_single o) (snd (present mm r cs)) (fst (present mm r cs)) (fig o')).
  { clear -F W. induction cs as [|c cs IH]; intros o mm r EX SR L S LC; [exists o; auto|]. inversion LC as [|? ? LC1 LC2]; subst.
    destruct c as [mm'|mm' new]; cbn [matrices run apply_change present] in *.
    - destruct (update_shows (exp_mm o) o mm (show_residual o) mm' F W (eq_sym LC1) eq_refl S L) as (o' & U & A & B & C & D).
      rewrite U. rewrite <- B in D |- *. apply IH; auto.
    - unfold update_residual. set (o1 := Fitter _ _ _ _ _ new _).
      destruct (update_shows (exp_mm o) o1 mm (show_residual o) mm' F W (eq_sym LC1) eq_refl S L) as (o' & U & A & B & C & D).
      rewrite U. change (display_single o) with (display_single o1). rewrite <- B in D |- *. apply IH; auto. }
  rewrite <- EX in *. apply G; auto.
Qed.
Print Assumptions C76_history_partial.

Example C57_example : f_columns measured = labels /\ well_formed measured /\ length (f_index measured) = length [numbered] /\
  (exists o, init measured [numbered] [("sharex", true); ("display_single", false); ("full_scale", true); ("method", true)]%string = Ok o /\
     fit_kwargs o = [("method", true)]%string) /\
  holds_at measured 0 "M23" 6.
Proof.
  split; [reflexivity|]. split; [split; [reflexivity|repeat constructor]|]. split; [reflexivity|]. split; [eexists; split; reflexivity|].
  change "M23"%string with (label 1 2). replace 6 with (numbered 1%nat 2%nat) by (unfold numbered; cbn; lra).
  apply holds_cell; [reflexivity|lia|lia|]. eexists. split; reflexivity.
Qed.

(** A new fit, then the residual, then back to a fit. *)
Example C76_example : exists o o', init measured [numbered] [("sharex", true); ("display_single", false); ("full_scale", true)]%string = Ok o /\
  run o [Parameters [numbered]; Residual [numbered] true; Parameters [numbered]] = Ok o' /\
  shows_fit measured false true [numbered] (fig o').
Proof.
  assert (W : well_formed measured) by (split; [reflexivity|repeat constructor]).
  assert (E : exists o, init measured [numbered] [("sharex", true); ("display_single", false); ("full_scale", true)]%string = Ok o /\ display_single o = false)
    by (eexists; split; reflexivity).
  destruct E as (o & E & D).
  destruct (C76_history_partial measured [numbered] _ o [Parameters [numbered]; Residual [numbered] true; Parameters [numbered]] eq_refl W eq_refl E) as (o' & R & _ & S).
  - repeat constructor.
  - exists o, o'. rewrite D in S. auto.
Qed.
