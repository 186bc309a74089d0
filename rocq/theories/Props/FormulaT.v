(** C22, C23: formula dispersions. *)
From Coq Require Import Reals String List Arith Bool Lia Lra.
From Coquelicot Require Import Complex.
From Verif.Base Require Import Py Cx.
From Verif.Model Require Import Formula.
From Verif.Spec Require Import Meaning.
From Verif.Proof Require Import FormulaP.
From Coq Require Import List.
Import ListNotations.
Open Scope string_scope.
Open Scope nat_scope.
Open Scope list_scope.

(** What a formula means at the wavelength x for an object with these parameters *)
Definition formula_at {ar} (o : fobj ar) (e : expr) (x : elt ar) : option (elt ar) :=
  let y := f_axis_fn o x in
  meaning (elt ar) (number ar) (constant ar) (bin ar) (fn ar) (total ar)
    (outer (f_axis o) y (f_single o)) (map (inner (f_axis o) y (f_single o)) (f_rep o)) e.

Lemma construct_inv ar cls f axis single rep u o : NoDup (map fst rep) -> construct ar cls f axis single rep u = Ok o ->
  exists m, Forall (fun p => length (snd p) = m) rep /\ f_rep o = map (set_at rep) (seq 0 m) /\ (rep = [] -> m = 0) /\
    f_dl o = (if m =? 0 then [] else rep) /\ f_formula o = f /\ f_axis o = axis /\ f_single o = single /\ axis_fn ar u = Ok (f_axis_fn o) /\
    cls = match f with Assign r _ | AssignKkr r _ => r end.
Proof.
  intros N H. unfold construct in H. rewrite to_sets_spec in H. set (m := match rep with [] => 0 | p :: _ => length (snd p) end) in *.
  destruct (forallb (fun p => length (snd p) =? m) rep) eqn:F; [|discriminate]. cbn [rbind] in H.
  assert (FF : Forall (fun p : string * list (elt ar) => length (snd p) = m) rep) by (apply Forall_forall; intros p I; rewrite forallb_forall in F; apply F in I; now apply Nat.eqb_eq).
  assert (R : cls = match f with Assign r _ | AssignKkr r _ => r end) by (destruct cls, f as [[]|[]]; cbn in H; congruence).
  assert (D : to_lists (map (set_at rep) (seq 0 m)) = if m =? 0 then [] else rep).
  { destruct (Nat.eqb_spec m 0) as [E|E]; [rewrite E; reflexivity|]. apply to_lists_sets; auto. lia. }
  destruct (axis_fn ar u) as [g|] eqn:G; [|destruct cls, f as [[]|[]]; discriminate]. cbn [rbind] in H.
  exists m. assert (Q : o = mkfobj f axis single (map (set_at rep) (seq 0 m)) (to_lists (map (set_at rep) (seq 0 m))) g) by (destruct cls, f as [[]|[]]; congruence). subst o. cbn.
  repeat split; auto. intros ->. reflexivity.
Qed.

Lemma related ar (rep : list (string * list (elt ar))) m : Forall (fun p => length (snd p) = m) rep -> (rep = [] -> m = 0) ->
  let dl := if m =? 0 then [] else rep in let sets := map (set_at rep) (seq 0 m) in
  check_sets ar dl = true /\ n_sets ar dl = length sets /\
  forall k l, get dl k = Some l -> length l = length sets /\ forall j s, nth_error sets j = Some s -> named s k = nth_error l j.
Proof.
  intros F Z dl sets. assert (LS : length sets = m) by (unfold sets; now rewrite map_length, seq_length). unfold dl. destruct (Nat.eqb_spec m 0) as [E|E].
  - repeat split; try (now rewrite LS, E); discriminate.
  - destruct rep as [|p rep]; [now destruct E; apply Z|]. assert (NS : n_sets ar (p :: rep) = m) by exact (Forall_inv F). split; [|split].
    + unfold check_sets. rewrite NS. apply forallb_forall. intros q I. rewrite Forall_forall in F. apply Nat.eqb_eq. now apply F.
    + now rewrite LS.
    + intros k l G. assert (L : length l = m). { unfold get in G. destruct find as [q|] eqn:FF; [|discriminate]. injection G as <-. apply find_some in FF. rewrite Forall_forall in F. now apply F. }
      split; [now rewrite LS|]. intros j s S1. unfold sets in S1. rewrite map_nth_err in S1. destruct (nth_error (seq 0 m) j) as [j'|] eqn:J; [|discriminate]. injection S1 as <-.
      assert (JM : j < m) by (rewrite <- (seq_length m 0); apply nth_error_Some; congruence). apply nth_error_nth with (d := 0) in J. rewrite seq_nth in J by exact JM. cbn in J. subst j'.
      change (get (set_at (p :: rep) j) k = nth_error l j). rewrite (get_set_at _ j k m F JM), G. reflexivity.
Qed.

(** C22: the array that is returned has at each wavelength the value of the formula there; a formula
    that does not depend on the wavelength may return one number. *)
Theorem C22_value : forall ar cls f axis single rep u o lbda v,
  compatible ar -> NoDup (map fst rep) -> construct ar cls f axis single rep u = Ok o ->
  dispersion_function o (Array lbda) = Ok v ->
  exists e, f = Assign cls e /\
  match v with
  | V l => length l = length lbda /\ forall i x, nth_error lbda i = Some x -> exists y, nth_error l i = Some y /\ formula_at o e x = Some y
  | S y => forall x, In x lbda -> formula_at o e x = Some y
  | _ => False
  end.
Proof.
  intros ar cls f axis single rep u o lbda v CO N H D. destruct (construct_inv _ _ _ _ _ _ _ _ N H) as (m & F & FR & Z & FD & FF & FA & FS & FU & R).
  destruct (related ar rep m F Z) as (CH & NS & RG). cbv zeta in *. rewrite <- FD in CH, NS, RG. rewrite <- FR in NS, RG.
  unfold dispersion_function, transform in D. rewrite CH, FF in D. destruct f as [r e|r e].
  - destruct (eval ar (f_axis o) (map (f_axis_fn o) lbda) (f_single o) (f_dl o) e) as [w|] eqn:E; [|discriminate]. cbn [rbind snd] in D. injection D as ->.
    exists e. split; [now subst|]. apply (eval_stands ar CO _ _ _ _ (f_rep o) NS RG) in E. rewrite map_length in E. destruct v as [a|l|l|l]; cbn in E; try tauto.
    + intros x I. apply In_nth_error in I. destruct I as [i I]. assert (LI : i < length lbda) by (apply nth_error_Some; congruence). specialize (E i LI). unfold at_e in E. rewrite map_nth_err, I in E. exact E.
    + destruct E as [L E]. split; [exact L|]. intros i x I. assert (LI : i < length lbda) by (apply nth_error_Some; congruence). specialize (E i LI). unfold at_e in E. rewrite map_nth_err, I in E. cbn [option_map] in E.
      destruct (nth_error l i) as [y|] eqn:Y; [|apply nth_error_None in Y; lia]. eauto.
  - destruct (eval ar (f_axis o) (map (f_axis_fn o) lbda) (f_single o) (f_dl o) e); discriminate.
Qed.
Print Assumptions C22_value.

(** A formula uses known names and functions with one argument, and sums over terms with the axis. *)
Section Known.
Context {ar : arith} (o : fobj ar).
Definition known (n : string) : Prop := n = f_axis o \/ exists a, named (f_single o) n = Some a.
Definition fine (f : string) : Prop := In f ["sin"; "cos"; "tan"; "sqrt"; "dawsn"; "ln"; "log"].
Fixpoint proper_r (e : rexpr) : Prop :=
  match e with
  | RNum _ => True
  | RName n => known n \/ (f_rep o <> [] /\ Forall (fun s => exists a, named s n = Some a) (f_rep o))
  | RBuiltin n => In n builtins
  | RFunc f a => fine f /\ proper_r a
  | RBin _ a b => proper_r a /\ proper_r b
  end.
Fixpoint uses_axis (e : rexpr) : Prop :=
  match e with
  | RName n => n = f_axis o
  | RFunc _ a => uses_axis a
  | RBin _ a b => uses_axis a \/ uses_axis b
  | _ => False
  end.
Fixpoint proper (e : expr) : Prop :=
  match e with
  | ENum _ => True
  | EName n => known n
  | EBuiltin n => In n builtins
  | EFunc f a => fine f /\ proper a
  | EBin _ a b => proper a /\ proper b
  | ESum r => proper_r r /\ uses_axis r
  end.
End Known.

(** Arithmetic of scalars that raises nothing *)
Definition never_raises (ar : arith) : Prop := (forall o a b, is_ok (sbin ar o a b)) /\ (forall f a, is_ok (sfn ar f a)).

Lemma func_ok ar f x : never_raises ar -> fine f -> exists v, func ar f x = Ok v /\
  match x, v with S _, S _ | V _, V _ | P _, P _ | M _, M _ => True | _, _ => False end.
Proof.
  intros [_ NR] F. unfold func. assert (E : existsb (String.eqb f) functions = true /\ (f =? "heaviside")%string = false).
  { cbn in F. repeat (destruct F as [<-|F]; [split; reflexivity|]). destruct F. }
  destruct E as [-> ->]. destruct x as [a|l|l|l]; try (eexists; split; [reflexivity|exact I]). destruct (NR f a) as [b ->]. cbn. eexists. split; [reflexivity|exact I].
Qed.

Lemma binary_ok ar o x y : never_raises ar -> (match x, y with V _, (P _|M _) | (P _|M _), V _ => False | _, _ => True end) ->
  exists v, binary ar o x y = Ok v /\
  match v with
  | M _ => True | S _ => (exists a, x = S a) /\ exists b, y = S b
  | V _ => (exists l, x = V l) \/ exists l, y = V l
  | P _ => (forall l, x <> M l) /\ forall l, y <> M l
  end /\ ((exists l, x = M l) \/ (exists l, y = M l) -> exists l, v = M l).
Proof.
  intros [NR _] H. destruct x as [a|l|l|l], y as [b|k|k|k]; cbn in *; try (now destruct H);
    try (eexists; split; [reflexivity|]; split; [first [exact I | now left; eauto | now right; eauto | split; congruence]|]; intros [[? Q]|[? Q]]; try discriminate; eauto).
  destruct (NR o a b) as [c ->]. cbn. eexists; split; [reflexivity|]. split; [eauto|]. intros [[? Q]|[? Q]]; discriminate.
Qed.

Lemma find_named {X} (d : list (string * X)) n : get d n = named d n.
Proof. reflexivity. Qed.

Lemma proper_r_eval ar o (lbda : list (elt ar)) e : never_raises ar ->
  (forall n, f_rep o <> [] -> Forall (fun s => exists a, named s n = Some a) (f_rep o) -> exists l, get (f_dl o) n = Some l) ->
  proper_r o e -> exists v, eval_r ar (f_axis o) lbda (f_single o) (f_dl o) e = Ok v /\ (forall l, v <> V l) /\ (uses_axis o e -> exists l, v = M l).
Proof.
  intros NR DL. induction e as [s|n|n|f e IH|op a IHa b IHb]; cbn [proper_r uses_axis eval_r].
  - intros _. eexists; split; [reflexivity|]. split; [congruence|intros []].
  - intro H. unfold param_name. destruct (String.eqb_spec n (f_axis o)) as [E|E]; [eexists; split; [reflexivity|]; split; [congruence|eauto]|].
    destruct H as [[H|[a H]]|[H1 H2]]; [congruence| |].
    + rewrite find_named, H. eexists; split; [reflexivity|]. split; congruence.
    + destruct (get (f_single o) n); [eexists; split; [reflexivity|]; split; congruence|]. destruct (DL n H1 H2) as [l ->]. eexists; split; [reflexivity|]. split; congruence.
  - intro H. unfold builtin. assert (E : existsb (String.eqb n) builtins = true) by (apply existsb_exists; exists n; split; [exact H|apply String.eqb_refl]). rewrite E. eexists; split; [reflexivity|]. split; [congruence|intros []].
  - intros [F H]. destruct (IH H) as (x & -> & NV & AX). cbn [rbind]. destruct (func_ok ar f x NR F) as (v & E & K). exists v. split; [exact E|]. split.
    + intros l ->. destruct x; try tauto. now apply (NV l0).
    + intro U. destruct (AX U) as [l ->]. destruct v; try tauto. eauto.
  - intros [H1 H2]. destruct (IHa H1) as (x & -> & NX & AX). destruct (IHb H2) as (y & -> & NY & AY). cbn [rbind].
    destruct (binary_ok ar op x y NR) as (v & E & K & Q).
    { destruct x, y; auto; try (now apply (NX l)); now apply (NY l0). }
    exists v. split; [exact E|]. split.
    + intros l ->. destruct K as [[k K]|[k K]]; [now apply (NX k)|now apply (NY k)].
    + intros [U|U]; apply Q; [left; now apply AX|right; now apply AY].
Qed.

Lemma proper_eval ar o (lbda : list (elt ar)) e : never_raises ar ->
  (forall n, f_rep o <> [] -> Forall (fun s => exists a, named s n = Some a) (f_rep o) -> exists l, get (f_dl o) n = Some l) ->
  proper o e -> exists v, eval ar (f_axis o) lbda (f_single o) (f_dl o) e = Ok v /\ (forall l, v <> P l) /\ (forall l, v <> M l).
Proof.
  intros NR DL. induction e as [s|n|n|f e IH|op a IHa b IHb|r]; cbn [proper eval].
  - intros _. eexists; split; [reflexivity|]. split; congruence.
  - intro H. unfold single_param_name. destruct (String.eqb_spec n (f_axis o)) as [E|E]; [eexists; split; [reflexivity|]; split; congruence|].
    destruct H as [H|[a H]]; [congruence|]. rewrite find_named, H. eexists; split; [reflexivity|]. split; congruence.
  - intro H. unfold builtin. assert (E : existsb (String.eqb n) builtins = true) by (apply existsb_exists; exists n; split; [exact H|apply String.eqb_refl]). rewrite E. eexists; split; [reflexivity|]. split; congruence.
  - intros [F H]. destruct (IH H) as (x & -> & NP & NM). cbn [rbind]. destruct (func_ok ar f x NR F) as (v & E & K). exists v. split; [exact E|].
    split; intros l ->; destruct x; try tauto; [now apply (NP l0)|now apply (NM l0)].
  - intros [H1 H2]. destruct (IHa H1) as (x & -> & PX & MX). destruct (IHb H2) as (y & -> & PY & MY). cbn [rbind].
    destruct x as [a0|l|l|l]; try (now destruct (PX l)); try (now destruct (MX l)); destruct y as [b0|k|k|k]; try (now destruct (PY k)); try (now destruct (MY k)); cbn [binary];
      try (eexists; split; [reflexivity|]; split; congruence).
    destruct (proj1 NR op a0 b0) as [c ->]. cbn. eexists; split; [reflexivity|]. split; congruence.
  - intros [H U]. destruct (proper_r_eval ar o lbda r NR DL H) as (x & -> & _ & AX). cbn [rbind]. destruct (AX U) as [l ->]. cbn. eexists; split; [reflexivity|]. split; congruence.
Qed.

(** C22: such a formula is evaluated without an exception. *)
Theorem C22_defined : forall ar cls e axis single rep u o lbda,
  never_raises ar -> NoDup (map fst rep) -> construct ar cls (Assign cls e) axis single rep u = Ok o -> proper o e ->
  is_ok (dispersion_function o (Array lbda)).
Proof.
  intros ar cls e axis single rep u o lbda NR N H PR. destruct (construct_inv _ _ _ _ _ _ _ _ N H) as (m & F & FR & Z & FD & FF & FA & FS & FU & R).
  destruct (related ar rep m F Z) as (CH & NS & RG). cbv zeta in *. rewrite <- FD in CH. unfold dispersion_function, transform. rewrite CH, FF.
  destruct (proper_eval ar o (map (f_axis_fn o) lbda) e NR) as (v & -> & _); [|exact PR|eexists; reflexivity].
  intros n NE FA2. destruct (Nat.eqb_spec m 0) as [->|M0]; [now rewrite FR in NE|]. rewrite FD.
  rewrite FR in FA2. destruct m as [|m]; [lia|]. cbn [seq map] in FA2. destruct (Forall_inv FA2) as [a A].
  change (get (set_at rep 0) n = Some a) in A. rewrite (get_set_at rep 0 n (Datatypes.S m) F) in A by lia. destruct (get rep n); [eauto|discriminate].
Qed.
Print Assumptions C22_defined.

(** Exact arithmetic, where None is "not a number" *)
Definition exact (num const : string -> option C) (fn : string -> C -> option C) (power : C -> C -> option C) : arith :=
  let lift2 f (a b : option C) := match a, b with Some x, Some y => f x y | _, _ => None end in
  let op o := match o with
    | Formula.Add => lift2 (fun x y => Some (Cplus x y)) | Sub => lift2 (fun x y => Some (Cminus x y))
    | Mul => lift2 (fun x y => Some (Cmult x y)) | Div => lift2 cdiv | Pow => lift2 power end in
  let raise x := match x with Some a => Ok (Some a) | None => Err ZeroDivisionError end in
  let f1 f a := match a with Some x => fn f x | None => None end in
  {| elt := option C; number := num; constant := const; bin := op;
     sbin := fun o a b => raise (op o a b); fn := f1; sfn := fun f a => raise (f1 f a);
     total := fold_right (op Formula.Add) (Some (RtoC 0)) |}.

Lemma exact_compatible num const fn power : compatible (exact num const fn power).
Proof.
  split; cbn.
  - intros o a b c. destruct (match o with Formula.Add => _ | Sub => _ | Mul => _ | Div => _ | Pow => _ end a b); congruence.
  - intros f a b. destruct (match a with Some x => fn f x | None => None end); congruence.
Qed.

(** Small whole numbers, no powers and functions *)
Definition ex_num (s : string) : option C :=
  if (s =? "1")%string then Some (RtoC 1) else if (s =? "2")%string then Some (RtoC 2) else None.
Definition ex := exact ex_num (fun _ => None) (fun _ _ => None) (fun _ _ => None).

(** C22: but a sum of terms without the wavelength fails, although it has a value. *)
Theorem C22_sum_refuted : exists e rep o, construct ex Eps (Assign Eps e) "lbda" [] rep None = Ok o /\
  (forall x, formula_at o e x <> None) /\ (forall l, dispersion_function o (Array l) = Err AxisError).
Proof.
  exists (ESum (RName "A")), [("A", [Some (RtoC 1); Some (RtoC 2)])]. eexists. split; [reflexivity|]. split; [|reflexivity]. intros x H. cbn in H. discriminate.
Qed.
Print Assumptions C22_sum_refuted.

(** C22: every formula with heaviside fails. *)
Theorem C22_heaviside_refuted : exists e o, construct ex Eps (Assign Eps e) "lbda" [] [] None = Ok o /\
  (forall x, formula_at o e x <> None) /\ (forall l, dispersion_function o (Array l) = Err TypeError).
Proof.
  exists (EFunc "heaviside" (EName "lbda")). eexists. split; [reflexivity|]. split; [|reflexivity]. intros x H. cbn in H. discriminate.
Qed.
Print Assumptions C22_heaviside_refuted.

(** C22: formulas with a Kramers-Kronig term are accepted by the constructor, and never evaluated. *)
Theorem C22_kkr_refuted : exists e o, construct ex Eps (AssignKkr Eps e) "lbda" [] [] None = Ok o /\
  (forall l, dispersion_function o (Array l) = Err NotImplementedError).
Proof. exists (ENum "1"). eexists. split; reflexivity. Qed.
Print Assumptions C22_kkr_refuted.

(** C22: unlike other dispersions, a single wavelength is refused. *)
Theorem C22_scalar : forall ar (o : fobj ar) x, dispersion_function o (Scalar x) = Err TypeError.
Proof. reflexivity. Qed.
Print Assumptions C22_scalar.

(** C22: with a unit, the axis has the value of the wavelength, or of the photon energy, in this
    unit.  nm is the length of a nanometre and hc Planck's constant times the speed of light, in
    SI units, si the size of the unit. *)
Theorem C22_unit : forall (nm hc si x : R) num const fn power, let ar := exact num const fn power in
  nm <> 0%R -> si <> 0%R -> x <> 0%R ->
  (exists g y, axis_fn ar (Some (Length (Some (RtoC (nm / si))))) = Ok g /\ g (Some (RtoC x)) = Some (RtoC y) /\ (y * si = x * nm)%R) /\
  (exists g y, axis_fn ar (Some (Energy (Some (RtoC (hc / nm / si))))) = Ok g /\ g (Some (RtoC x)) = Some (RtoC y) /\ (y * si = hc / (x * nm))%R) /\
  axis_fn ar (Some OtherUnit) = Err ValueError.
Proof.
  intros nm hc si x num const fn power ar N S X. split; [|split; [|reflexivity]].
  - eexists. exists (nm / si * x)%R. split; [reflexivity|]. split; [cbn; now rewrite RtoC_mult|]. now field.
  - eexists. exists (hc / nm / si / x)%R. split; [reflexivity|]. split; [|now field]. cbn. rewrite cdiv_some by (intro H; apply RtoC_inj in H; contradiction). rewrite (RtoC_div (hc / nm / si)) by exact X. reflexivity.
Qed.
Print Assumptions C22_unit.

(** C22: the class must fit the representation of the formula. *)
Theorem C22_representation : forall ar cls f axis single rep u o, NoDup (map fst rep) ->
  construct ar cls f axis single rep u = Ok o -> match f with Assign r _ | AssignKkr r _ => r = cls end.
Proof. intros ar cls f axis single rep u o N H. destruct (construct_inv _ _ _ _ _ _ _ _ N H) as (m & _ & _ & _ & _ & _ & _ & _ & _ & ->). now destruct f. Qed.
Print Assumptions C22_representation.

(** C23: lists of the same length give one set for each position. *)
Theorem C23_sets : forall ar cls f axis single rep u o, NoDup (map fst rep) -> construct ar cls f axis single rep u = Ok o ->
  (forall k l, In (k, l) rep -> length l = length (f_rep o)) /\
  (forall i s, nth_error (f_rep o) i = Some s -> forall k, named s k = match named rep k with Some l => nth_error l i | None => None end).
Proof.
  intros ar cls f axis single rep u o N H. destruct (construct_inv _ _ _ _ _ _ _ _ N H) as (m & F & FR & Z & _). rewrite FR, map_length, seq_length. rewrite Forall_forall in F. split.
  - intros k l I. exact (F _ I).
  - intros i s E k. rewrite map_nth_err in E. destruct (nth_error (seq 0 m) i) as [j|] eqn:J; [|discriminate]. injection E as <-.
    assert (IM : i < m) by (rewrite <- (seq_length m 0); apply nth_error_Some; congruence). apply nth_error_nth with (d := 0) in J. rewrite seq_nth in J by exact IM. cbn in J. subst j.
    change (get (set_at rep i) k = match get rep k with Some l => nth_error l i | None => None end). apply (get_set_at rep i k m); [now apply Forall_forall|exact IM].
Qed.
Print Assumptions C23_sets.

(** C23: lists of different length are rejected. *)
Theorem C23_rejected : forall ar cls f axis single rep u k l k' l',
  In (k, l) rep -> In (k', l') rep -> length l <> length l' -> construct ar cls f axis single rep u = Err ValueError.
Proof.
  intros ar cls f axis single rep u k l k' l' I I' L. unfold construct. rewrite to_sets_spec. destruct forallb eqn:F; [|reflexivity].
  rewrite forallb_forall in F. apply F in I, I'. apply Nat.eqb_eq in I, I'. cbn in *. congruence.
Qed.
Print Assumptions C23_rejected.

(** C23: equal lengths, a known unit and the right class are accepted. *)
Theorem C23_accepted : forall ar cls e axis single rep g u m,
  Forall (fun p => length (snd p) = m) rep -> axis_fn ar u = Ok g ->
  is_ok (construct ar cls (Assign cls e) axis single rep u).
Proof.
  intros ar cls e axis single rep g u m F G. unfold construct. rewrite to_sets_spec, G.
  assert (E : forallb (fun p : string * list (elt ar) => length (snd p) =? match rep with [] => 0 | q :: _ => length (snd q) end) rep = true).
  { apply forallb_forall. intros p I. rewrite Forall_forall in F. apply Nat.eqb_eq. rewrite (F p I). destruct rep as [|q rep]; [destruct I|]. symmetry. apply F. now left. }
  rewrite E. cbn [rbind]. destruct cls; eexists; reflexivity.
Qed.
Print Assumptions C23_accepted.

(** C23: sets that are added later are ignored. *)
Theorem C23_add_ignored : forall ar (o : fobj ar) s l, f_rep (add_set o s) = f_rep o ++ [s] /\ dispersion_function (add_set o s) l = dispersion_function o l.
Proof. intros. split; reflexivity. Qed.
Print Assumptions C23_add_ignored.

Theorem C23_add_refuted : exists e o s x y, construct ex Eps (Assign Eps e) "lbda" [] [("A", [Some (RtoC 1)])] None = Ok o /\
  dispersion_function (add_set o s) (Array [x]) = Ok (V [y]) /\ formula_at (add_set o s) e x <> Some y.
Proof.
  exists (ESum (RBin Mul (RName "A") (RName "lbda"))). eexists. exists [("A", Some (RtoC 2))], (Some (RtoC 1)), (Some (Cplus (Cmult (RtoC 1) (RtoC 1)) (RtoC 0))). split; [reflexivity|]. split; [reflexivity|].
  cbn. intro H. injection H as H _. lra.
Qed.
Print Assumptions C23_add_refuted.

(** eps = 1 + sum[A * lbda / (B - lbda)] *)
Example C22_example :
  let e := EBin Formula.Add (ENum "1") (ESum (RBin Div (RBin Mul (RName "A") (RName "lbda")) (RBin Sub (RName "B") (RName "lbda")))) in
  let rep := [("A", [Some (RtoC 1); Some (RtoC 2)]); ("B", [Some (RtoC 3); Some (RtoC 4)])] in
  compatible ex /\ NoDup (map fst rep) /\ exists o l,
    construct ex Eps (Assign Eps e) "lbda" [] rep None = Ok o /\ proper o e /\
    dispersion_function o (Array [Some (RtoC 1); Some (RtoC 2)]) = Ok (V l) /\ length l = 2 /\ length (f_rep o) = 2 /\
    nth_error l 0 = Some (Some (RtoC (1 + (1 / 2 + 2 / 3)))).
Proof.
  intros e rep. split; [apply exact_compatible|]. split; [repeat constructor; cbn; intuition discriminate|].
  eexists. eexists. split; [reflexivity|]. split.
  { cbn. unfold known. cbn. repeat split; auto 6; right; (split; [discriminate|repeat constructor; cbn; eauto]). }
  split; [cbn; reflexivity|]. split; [reflexivity|]. split; [reflexivity|].
  cbn. rewrite !cdiv_some by (intro H; injection H as H; lra). f_equal. f_equal. apply C_ext; cbn; field.
Qed.

(** Whole numbers without exceptions: eps = A * lbda + sum[B * lbda] *)
Definition whole : arith :=
  let op o := match o with Formula.Add => Nat.add | Sub => Nat.sub | Mul => Nat.mul | Div => Nat.div | Pow => Nat.pow end in
  {| elt := nat; number := String.length; constant := String.length; bin := op; sbin := fun o a b => Ok (op o a b);
     fn := fun _ x => x; sfn := fun _ x => Ok x; total := fold_right Nat.add 0 |}.

Example C22_defined_example :
  let e := EBin Formula.Add (EBin Mul (EName "A") (EName "lbda")) (ESum (RBin Mul (RName "B") (RName "lbda"))) in
  never_raises whole /\ compatible whole /\ exists o, construct whole Index (Assign Index e) "lbda" [("A", 2)] [("B", [1; 10])] None = Ok o /\
    proper o e /\ dispersion_function o (Array [3; 4]) = Ok (@V whole [39; 52]).
Proof.
  intro e. split; [split; intros; eexists; reflexivity|]. split; [split; cbn; congruence|]. eexists. split; [reflexivity|]. split; [|reflexivity].
  cbn. unfold known. cbn. repeat split; eauto 6. right. split; [discriminate|repeat constructor; cbn; eauto].
Qed.

(** Two lists of two numbers give two sets; a list more or a number less is refused. *)
Example C23_example :
  let e := ESum (RBin Mul (RName "A") (RName "B")) in
  let A := [Some (RtoC 1); Some (RtoC 2)] in
  (exists o, construct ex Eps (Assign Eps e) "lbda" [] [("A", A); ("B", A)] None = Ok o /\
     nth_error (f_rep o) 1 = Some [("A", Some (RtoC 2)); ("B", Some (RtoC 2))] /\ length (f_rep o) = 2) /\
  construct ex Eps (Assign Eps e) "lbda" [] [("A", A); ("B", [Some (RtoC 1)])] None = Err ValueError.
Proof.
  intros e A. split.
  - eexists. split; [reflexivity|]. split; reflexivity.
  - apply (C23_rejected ex Eps (Assign Eps e) "lbda" [] _ None "A" A "B" [Some (RtoC 1)]); [now left|right; now left|discriminate].
Qed.
