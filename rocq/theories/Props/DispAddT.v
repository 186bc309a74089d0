(** C11-C16: adding dispersions. *)
From Coq Require Import Reals List Arith Bool Lia Lra Permutation.
From Coquelicot Require Import Complex.
From Verif.Base Require Import Py Cx.
From Verif.Model Require Import DispAdd.
From Verif.Spec Require Import Adding.
From Verif.Proof Require Import DispAddP DispAddP2.
Import ListNotations.
Open Scope R_scope.
Open Scope C_scope.

(** Sample objects: a dielectric dispersion with constant value x, and sums. *)
Definition eps0 (x : R) : R -> option C := fun _ => Some (RtoC x).

Ltac obs := unfold operand_optics, optics, get_refractive_index, get_dielectric, value, osum, oplus;
  cbn -[Cplus RtoC Csqrt]; unfold osum, oplus; cbn -[Cplus RtoC Csqrt].

Lemma reach_cmds cs : reachable (fold_left exec cs []).
Proof. now exists cs. Qed.

(** ** C11 *)

(** One addition, any operands, after any history: the value is the sum of the values the
    operands had before. *)
Theorem C11_add : forall h l r h' a, reachable h -> py_add h l r = (h', Ok a) ->
  forall lbda, operand_optics h' a lbda = total [operand_optics h l lbda; operand_optics h r lbda].
Proof. intros h l r h' a Rh. exact (py_add_value h l r h' a (reach_inv h Rh)). Qed.
Print Assumptions C11_add.

(** Any expression in which no existing sum object is used twice. *)
Theorem C11_expression_partial : forall e h h' a, reachable h ->
  Forall (exists_in h) (operands e) -> NoDup (sum_operands h (operands e)) ->
  eval_expr h e = (h', Ok a) ->
  forall lbda, operand_optics h' a lbda =
    total (map (fun o => operand_optics h o lbda) (operands e)).
Proof. intros e h h' a Rh. exact (expr_value e h h' a (reach_inv h Rh)). Qed.
Print Assumptions C11_expression_partial.

(** Order and bracketing do not matter. *)
Theorem C11_order_partial : forall e1 e2 h h1 h2 a1 a2, reachable h ->
  Permutation (operands e1) (operands e2) ->
  Forall (exists_in h) (operands e1) -> NoDup (sum_operands h (operands e1)) ->
  eval_expr h e1 = (h1, Ok a1) -> eval_expr h e2 = (h2, Ok a2) ->
  forall lbda, operand_optics h1 a1 lbda = operand_optics h2 a2 lbda.
Proof.
  intros e1 e2 h h1 h2 a1 a2 Rh P L N E1 E2 lbda. pose proof (reach_inv h Rh) as I.
  rewrite (expr_value e1 h h1 a1 I L N E1 lbda).
  assert (L2 : Forall (exists_in h) (operands e2)) by (eapply Permutation_Forall; eauto).
  assert (N2 : NoDup (sum_operands h (operands e2))).
  { eapply Permutation_NoDup; [|exact N]. unfold sum_operands. now apply Permutation_flat_map. }
  rewrite (expr_value e2 h h2 a2 I L2 N2 E2 lbda).
  apply total_perm. now apply Permutation_map.
Qed.
Print Assumptions C11_order_partial.

(** With a sum used twice the value is wrong: (s + 1) + s for the sum s = 2 + 3 is 12, not 11. *)
Theorem C11_shared_sum_refuted : exists e h h' a, reachable h /\
  Forall (exists_in h) (operands e) /\ eval_expr h e = (h', Ok a) /\
  exists lbda, operand_optics h' a lbda <>
    total (map (fun o => operand_optics h o lbda) (operands e)).
Proof.
  exists (EAdd (EAdd (EVal (ORef 2)) (EVal (ONum 1))) (EVal (ORef 2))).
  exists (fold_left exec [CNew KEps LPlain (eps0 2); CNew KEps LPlain (eps0 3); CAdd (ORef 0) (ORef 1)] []).
  eexists _, _. split; [apply reach_cmds|]. split; [simpl; repeat constructor|].
  split; [reflexivity|]. exists 1%R. obs.
  intros E. injection E as E. lra.
Qed.
Print Assumptions C11_shared_sum_refuted.

(** Swapping the operands may turn a value into an error. *)
Theorem C11_order_refuted : exists h l r h' a e, reachable h /\
  py_add h l r = (h', Ok a) /\ py_add h r l = (h, Err e).
Proof.
  exists (fold_left exec [CNew KEps LPlain (eps0 2); CNew KEps LPseudo (eps0 3)] []), (ORef 0), (ORef 1).
  eexists _, _, _. split; [apply reach_cmds|]. split; reflexivity.
Qed.
Print Assumptions C11_order_refuted.

(** The hypotheses of the expression theorem hold for (d + 1) + (s + d) with s = 2 + 3, d = 2. *)
Example C11_example : exists h h' a,
  let e := EAdd (EAdd (EVal (ORef 0)) (EVal (ONum 1))) (EAdd (EVal (ORef 2)) (EVal (ORef 0))) in
  reachable h /\ Forall (exists_in h) (operands e) /\ NoDup (sum_operands h (operands e)) /\
  sum_operands h (operands e) = [2%nat] /\ eval_expr h e = (h', Ok a) /\
  operand_optics h' a 1 = Some (RtoC 10).
Proof.
  exists (fold_left exec [CNew KEps LPlain (eps0 2); CNew KEps LPlain (eps0 3); CAdd (ORef 0) (ORef 1)] []).
  eexists _, _. cbv zeta. split; [apply reach_cmds|]. split; [simpl; repeat constructor|].
  split; [cbn; repeat constructor; auto|]. split; [reflexivity|]. split; [reflexivity|].
  obs. f_equal.
  apply C_ext; simpl; ring.
Qed.

(** ** C12 *)

(** Without a sum among the operands nothing that existed before changes. *)
Theorem C12_operands_partial : forall h l r h' x, reachable h -> h' = fst (py_add h l r) ->
  sum_operands h [l; r] = [] -> (x < length h)%nat ->
  nth_error h' x = nth_error h x /\
  forall lbda, get_dielectric h' x lbda = get_dielectric h x lbda /\
               get_refractive_index h' x lbda = get_refractive_index h x lbda.
Proof.
  intros h l r h' x Rh -> N L. pose proof (reach_inv h Rh) as I.
  unfold sum_operands in N. simpl in N. rewrite app_nil_r in N. apply app_eq_nil in N as [A B].
  pose proof (py_add_inv h l r I) as I'.
  destruct (py_add h l r) as [h' r0] eqn:E. destruct (py_add_frame h l r h' r0 I E A B) as (e & ->).
  simpl in *. split; [now apply nth_error_app1|]. intros lbda. now apply get_diel_app.
Qed.
Print Assumptions C12_operands_partial.

(** In general only the sums that are operands themselves can change. *)
Theorem C12_only_sum_operands_change : forall h l r x o, reachable h ->
  nth_error h x = Some o -> ~ In x (sum_operands h [l; r]) ->
  nth_error (fst (py_add h l r)) x = Some o.
Proof.
  intros h l r x o Rh Hx N. pose proof (reach_inv h Rh) as I.
  destruct (py_add h l r) as [h' [a|e]] eqn:E; simpl.
  - destruct (py_add_ok _ _ _ _ _ I E) as [(y & z & -> & -> & -> & ->)|A]; [auto|].
    apply A; auto. intros [[->| ->] (k & ps & H)]; apply N; apply in_sum_operands;
      (split; [simpl; auto|unfold sum_at; now rewrite H]).
  - now rewrite (py_add_err _ _ _ _ _ I E).
Qed.
Print Assumptions C12_only_sum_operands_change.

(** A failing addition changes nothing. *)
Theorem C12_error_changes_nothing : forall h l r h' e, reachable h ->
  py_add h l r = (h', Err e) -> h' = h.
Proof. intros h l r h' e Rh. exact (py_add_err h l r h' e (reach_inv h Rh)). Qed.
Print Assumptions C12_error_changes_nothing.

(** A sum on the left is changed into the result. *)
Theorem C12_left_sum_becomes_result : forall h s k ps r h' a, reachable h ->
  nth_error h s = Some (Sum k ps) -> py_add h (ORef s) r = (h', Ok a) ->
  a = ORef s /\
  forall lbda, optics h' s lbda = total [optics h s lbda; operand_optics h r lbda].
Proof.
  intros h s k ps r h' a Rh Hs E. pose proof (reach_inv h Rh) as I.
  assert (A : a = ORef s).
  { unfold py_add, disp_add in E. rewrite Hs in E. now apply (sum_add_ok h s k ps r h' a I Hs) in E. }
  split; auto. intros lbda. subst a. exact (py_add_value h (ORef s) r h' (ORef s) I E lbda).
Qed.
Print Assumptions C12_left_sum_becomes_result.

Theorem C12_left_sum_refuted : exists h l r h' a, reachable h /\ py_add h l r = (h', Ok a) /\
  exists x lbda, l = ORef x /\ get_dielectric h' x lbda <> get_dielectric h x lbda.
Proof.
  exists (fold_left exec [CNew KEps LPlain (eps0 2); CNew KEps LPlain (eps0 3); CAdd (ORef 0) (ORef 1)] []),
    (ORef 2), (ONum 1).
  eexists _, _. split; [apply reach_cmds|]. split; [reflexivity|]. exists 2%nat, 1%R.
  split; [reflexivity|]. obs.
  intros E. injection E as E. lra.
Qed.
Print Assumptions C12_left_sum_refuted.

Theorem C12_right_sum_refuted : exists h l r h' a, reachable h /\ py_add h l r = (h', Ok a) /\
  exists x lbda, r = ORef x /\ get_dielectric h' x lbda <> get_dielectric h x lbda.
Proof.
  exists (fold_left exec [CNew KEps LPlain (eps0 2); CNew KEps LPlain (eps0 3); CAdd (ORef 0) (ORef 1)] []),
    (ORef 0), (ORef 2).
  eexists _, _. split; [apply reach_cmds|]. split; [reflexivity|]. exists 2%nat, 1%R.
  split; [reflexivity|]. obs.
  intros E. injection E as E. lra.
Qed.
Print Assumptions C12_right_sum_refuted.

Example C12_example : exists h h' a, reachable h /\ sum_operands h [ORef 0; ORef 1] = [] /\
  py_add h (ORef 0) (ORef 1) = (h', Ok a) /\ length h = 2%nat.
Proof.
  exists (fold_left exec [CNew KEps LPlain (eps0 2); CNew KEps LPlain (eps0 3)] []).
  eexists _, _. split; [apply reach_cmds|]. repeat split.
Qed.

(** ** C13 *)
Theorem C13_sums_flat_and_kinded : forall h, reachable h -> flat h.
Proof. exact reach_flat. Qed.
Print Assumptions C13_sums_flat_and_kinded.

(** Mixing kinds raises and changes nothing; the exception is TypeError unless the left operand
    is a pseudo dielectric function. *)
Theorem C13_mixed_kinds : forall h x y ox oy, nth_error h x = Some ox -> nth_error h y = Some oy ->
  okind ox <> okind oy ->
  exists e, py_add h (ORef x) (ORef y) = (h, Err e) /\
    ((forall v, ox <> Leaf KEps LPseudo v) -> (forall v, ox <> Leaf KIdx LPseudo v) -> e = TypeError).
Proof.
  intros h x y ox oy Hx Hy N. eexists. split; [exact (mixed_err h x y ox oy Hx Hy N)|].
  intros A B. destruct ox as [k [] v| |]; auto. destruct k; [now destruct (A v)|now destruct (B v)].
Qed.
Print Assumptions C13_mixed_kinds.

Theorem C13_mixed_type_error_refuted : exists h x y ox oy e, reachable h /\
  nth_error h x = Some ox /\ nth_error h y = Some oy /\ okind ox <> okind oy /\
  py_add h (ORef x) (ORef y) = (h, Err e) /\ e <> TypeError.
Proof.
  exists (fold_left exec [CNew KEps LPseudo (eps0 2); CNew KIdx LPlain (eps0 3)] []), 0%nat, 1%nat.
  eexists _, _, _. split; [apply reach_cmds|]. repeat split; discriminate.
Qed.
Print Assumptions C13_mixed_type_error_refuted.

(** A reachable heap with a sum of three parts, made from two sums. *)
Example C13_example : exists h, reachable h /\ nth_error h 4 = Some (Sum KEps [3; 0; 1]%nat).
Proof.
  exists (fold_left exec [CNew KEps LPlain (eps0 2); CNew KEps LPlain (eps0 3); CAdd (ORef 0) (ORef 1);
    CNew KEps LTable (eps0 3); CAdd (ORef 3) (ORef 2)] []).
  split; [apply reach_cmds|reflexivity].
Qed.

(** ** C14 *)

(** A tabulated permittivity plus a number or any other dielectric dispersion that is no table;
    an index table plus any index dispersion that is no table. The result is a new object. *)
Theorem C14_table_sum_partial : forall h t k v o, reachable h ->
  nth_error h t = Some (Leaf k LTable v) ->
  (exists x, o = ONum x /\ k = KEps) \/
  (exists r x, o = ORef r /\ nth_error h r = Some x /\ okind x = k /\ (forall v', x <> Leaf k LTable v')) ->
  exists h' s, py_add h (ORef t) o = (h', Ok (ORef s)) /\ (length h <= s)%nat /\
    forall lbda, optics h' s lbda = total [optics h t lbda; operand_optics h o lbda].
Proof.
  intros h t k v o Rh Ht Ho. pose proof (reach_inv h Rh) as I.
  destruct (table_sum h t k v o I Ht Ho) as (h' & s & E & L). exists h', s. split; [auto|].
  split; [auto|]. exact (py_add_value h (ORef t) o h' (ORef s) I E).
Qed.
Print Assumptions C14_table_sum_partial.

(** Index table plus number: always InvalidParameters, from either side. *)
Theorem C14_index_table_number_fails : forall h t v x, nth_error h t = Some (Leaf KIdx LTable v) ->
  py_add h (ORef t) (ONum x) = (h, Err InvalidParameters) /\
  py_add h (ONum x) (ORef t) = (h, Err InvalidParameters).
Proof. intros h t v x H. unfold py_add, disp_add, table_add. now rewrite H. Qed.
Print Assumptions C14_index_table_number_fails.

(** Two permittivity tables: always NotImplementedError. *)
Theorem C14_two_tables_fail : forall h t u v w, nth_error h t = Some (Leaf KEps LTable v) ->
  nth_error h u = Some (Leaf KEps LTable w) ->
  py_add h (ORef t) (ORef u) = (h, Err NotImplementedError).
Proof. intros h t u v w H H'. unfold py_add, disp_add, table_add. now rewrite H, H'. Qed.
Print Assumptions C14_two_tables_fail.

(** Hence the claim is false: a table of refractive indices plus 1. *)
Theorem C14_table_sum_refuted : exists h t v x e, reachable h /\
  nth_error h t = Some (Leaf KIdx LTable v) /\ py_add h (ORef t) (ONum x) = (h, Err e).
Proof.
  exists (fold_left exec [CNew KIdx LTable (eps0 2)] []), 0%nat, (eps0 2), 1%R, InvalidParameters.
  split; [apply reach_cmds|]. split; reflexivity.
Qed.
Print Assumptions C14_table_sum_refuted.

(** Two tables do add up once one of them is inside a sum. *)
Example C14_example : exists h h' s, reachable h /\
  nth_error h 0 = Some (Leaf KEps LTable (eps0 2)) /\ nth_error h 1 = Some (Leaf KEps LTable (eps0 3)) /\
  eval_expr h (EAdd (EAdd (EVal (ORef 0)) (EVal (ONum 1))) (EVal (ORef 1))) = (h', Ok (ORef s)) /\
  optics h' s 1 = Some (RtoC 6).
Proof.
  exists (fold_left exec [CNew KEps LTable (eps0 2); CNew KEps LTable (eps0 3)] []).
  eexists _, _. split; [apply reach_cmds|]. split; [reflexivity|]. split; [reflexivity|].
  split; [reflexivity|].
  obs. f_equal.
  apply C_ext; simpl; ring.
Qed.

(** ** C15 *)

(** as_index, when it returns, returns a new index dispersion with the optics of the source, now
    and after everything that is done later. *)
Theorem C15_as_index : forall h r h1 x cs, reachable h -> as_index h r = (h1, Ok (ORef x)) ->
  let h2 := fold_left exec cs h1 in
  (exists o, nth_error h1 x = Some o /\ okind o = KIdx) /\ nth_error h x = None /\
  forall lbda, get_dielectric h2 x lbda = get_dielectric h2 r lbda /\
    get_refractive_index h2 x lbda = get_refractive_index h2 r lbda /\
    match get_refractive_index h2 x lbda with
    | Some n => get_dielectric h2 r lbda = Some (n * n)
    | None => get_dielectric h2 r lbda = None
    end.
Proof.
  intros h r h1 x cs Rh E h2. pose proof (reach_inv h Rh) as I.
  destruct (as_index_spec h r h1 x I E) as (o & H & K & -> & ->).
  assert (I1 : inv (h ++ [AsIdx r])).
  { apply inv_app; auto. exists o. split; [now apply app_old|auto]. }
  split; [exists (AsIdx r); split; [apply app_new|auto]|].
  split; [apply nth_error_None; lia|]. intros lbda.
  assert (I2 : inv h2) by now apply run_inv.
  destruct (run_extends cs _ I1 _ _ (app_new h (AsIdx r))) as (o' & A & _ & _ & B).
  rewrite (B eq_refl) in A. destruct (asidx_obs h2 (length h) r lbda I2 A) as [P Q].
  split; [auto|]. split; [auto|]. rewrite <- P. rewrite (n_sqr h2 (length h) lbda I2).
  destruct (get_refractive_index h2 (length h) lbda); auto.
Qed.
Print Assumptions C15_as_index.

(** It returns for sums and for single dispersions without mandatory parameters. *)
Theorem C15_as_index_defined_partial : forall h r o, nth_error h r = Some o -> okind o = KEps ->
  (forall k v, o <> Leaf k LTable v) -> (forall k v, o <> Leaf k LPseudo v) ->
  exists h1 x, as_index h r = (h1, Ok (ORef x)) /\ forall y, nth_error h y <> None -> nth_error h1 y = nth_error h y.
Proof.
  intros h r o H K NT NP. unfold as_index. rewrite H.
  destruct o as [k c v|k ps|s]; simpl in K; try discriminate; subst k;
    [destruct c; [| now destruct (NT KEps v) | now destruct (NP KEps v)]|];
    (eexists _, _; split; [reflexivity|]; intros y Y; apply nth_error_app1; now apply nth_error_Some).
Qed.
Print Assumptions C15_as_index_defined_partial.

(** It never returns for tables and pseudo dielectric functions. *)
Theorem C15_as_index_fails : forall h r c v, nth_error h r = Some (Leaf KEps c v) -> c <> LPlain ->
  as_index h r = (h, Err InvalidParameters).
Proof. intros h r [] v H N; [congruence| |]; unfold as_index; now rewrite H. Qed.
Print Assumptions C15_as_index_fails.

Theorem C15_as_index_refuted : exists h r o e, reachable h /\ nth_error h r = Some o /\
  okind o = KEps /\ as_index h r = (h, Err e).
Proof.
  exists (fold_left exec [CNew KEps LTable (eps0 2)] []), 0%nat.
  eexists _, _. split; [apply reach_cmds|]. repeat split.
Qed.
Print Assumptions C15_as_index_refuted.

Example C15_example : exists h h1, reachable h /\ as_index h 1 = (h1, Ok (ORef 2)) /\
  get_dielectric h1 2 1 = Some (RtoC (-9)) /\ get_refractive_index h1 2 1 = Some (RtoC 3 * Ci).
Proof.
  exists (fold_left exec [CNew KEps LPlain (eps0 2); CNew KEps LPlain (eps0 (-9))] []).
  eexists. split; [apply reach_cmds|]. split; [reflexivity|].
  split; [reflexivity|]. obs. f_equal.
  symmetry. apply Csqrt_unique.
  - right. simpl. split; lra.
  - apply C_ext; simpl; ring.
Qed.

(** ** C16 *)
Theorem C16_n_squared : forall h r lbda, reachable h ->
  get_dielectric h r lbda =
    match get_refractive_index h r lbda with Some n => Some (n * n) | None => None end.
Proof. intros h r lbda Rh. exact (n_sqr h r lbda (reach_inv h Rh)). Qed.
Print Assumptions C16_n_squared.

(** Dielectric dispersions and what as_index makes of them: the index is the root in the right
    half plane, and absorption keeps its sign. *)
Theorem C16_branch : forall h r o lbda n, reachable h -> nth_error h r = Some o ->
  okind o = KEps \/ (exists s, o = AsIdx s) -> get_refractive_index h r lbda = Some n ->
  (0 <= fst n)%R /\
  exists e, get_dielectric h r lbda = Some e /\
    ((0 <= snd e)%R -> (0 <= snd n)%R) /\ ((snd e <= 0)%R -> (0 < fst n)%R -> (snd n <= 0)%R).
Proof.
  intros h r o lbda n Rh H K E. destruct (n_root h r o lbda n (reach_inv h Rh) H K E) as (e & D & ->).
  split; [apply Csqrt_Re_ge0|]. exists e. split; [auto|]. split; [apply Csqrt_Im_ge0|].
  intros S P. assert (Q : snd e = (2 * fst (Csqrt e) * snd (Csqrt e))%R).
  { rewrite <- (Csqrt_sqr e) at 1. simpl. ring. }
  rewrite Q in S. nra.
Qed.
Print Assumptions C16_branch.

(** Index dispersions: the sign is kept when the index is in the right half plane. *)
Theorem C16_index_dispersion_partial : forall h r lbda n e, reachable h ->
  get_refractive_index h r lbda = Some n -> get_dielectric h r lbda = Some e -> (0 < fst n)%R ->
  ((0 <= snd e)%R <-> (0 <= snd n)%R).
Proof.
  intros h r lbda n e Rh N E P. rewrite (n_sqr h r lbda (reach_inv h Rh)), N in E.
  injection E as <-. simpl. split; intros; nra.
Qed.
Print Assumptions C16_index_dispersion_partial.

(** Otherwise not: the index -1 - i, as given by Cauchy(n0=-1, k0=-1). *)
Theorem C16_index_dispersion_refuted : exists h r lbda n e, reachable h /\
  get_refractive_index h r lbda = Some n /\ get_dielectric h r lbda = Some e /\
  (0 <= snd e)%R /\ (snd n < 0)%R.
Proof.
  exists (fold_left exec [CNew KIdx LPlain (fun _ => Some (-1, -1)%R)] []), 0%nat, 1%R.
  eexists _, _. split; [apply reach_cmds|]. split; [reflexivity|]. split; [reflexivity|].
  simpl. split; lra.
Qed.
Print Assumptions C16_index_dispersion_refuted.

Example C16_example : exists h, reachable h /\ get_dielectric h 0 1 = Some (0, 2)%R /\
  get_refractive_index h 0 1 = Some (1, 1)%R.
Proof.
  exists (fold_left exec [CNew KEps LPlain (fun _ => Some (0, 2)%R)] []).
  split; [apply reach_cmds|]. split; [reflexivity|].
  obs. f_equal. symmetry. apply Csqrt_unique.
  - left. simpl. lra.
  - apply C_ext; simpl; ring.
Qed.
