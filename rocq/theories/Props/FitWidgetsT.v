(** C80, C81: the number boxes and the checkboxes of the fit windows. *)
From Coq Require Import Reals ZArith String List Arith Bool Lia Lra.
From Verif.Base Require Import Py.
From Verif.Model Require Import ParamsHist FitGui FitWidgets.
From Verif.Proof Require Import ParamsHistP FitGuiP FitWidgetsP.
Import ListNotations.
Open Scope string_scope.
Open Scope R_scope.
Open Scope list_scope.

(** A window that is opened with the parameters l *)
Definition opened (l : list (string * R)) : gui :=
  let s := new_dict [] l in start (fst s) (mkph (snd s) [] 50).

(** A value between the bounds *)
Definition within (b : bounds) (v : R) : Prop :=
  match lower b with Some a => a <= v | None => True end /\ match upper b with Some c => v <= c | None => True end.
Definition ordered (b : bounds) : Prop :=
  match lower b, upper b with Some a, Some c => a <= c | _, _ => True end.

(** All values that come from the program and from lmfit are within the bounds b *)
Definition values_within (b : string -> bounds) (l : list (string * R)) (actions : list action) : Prop :=
  (forall k v, In (k, v) l -> within (b k) v) /\
  (forall f k, In (Press (Fit f)) actions -> In k (map fst l) -> within (b k) (f k)).
(** Values are changed by typing alone *)
Definition by_typing (actions : list action) : Prop := forall k v, ~ In (Press (Change k v)) actions.

Lemma within_inside b v : within b v <-> inside b v.
Proof.
  unfold within, inside. destruct (lower b), (upper b); split; intros [A B]; repeat split; auto; try (intros ? [= <-]; assumption); try discriminate.
Qed.

Lemma opened_fresh l : opened l = fresh l.
Proof. unfold opened, fresh. now destruct new_dict. Qed.

Lemma boxes_ok w l actions : (forall k, ordered (w k)) -> values_within w l actions -> by_typing actions -> pok w (map fst l) (acts w (create w (opened l)) actions).
Proof.
  intros O [L F] T. rewrite opened_fresh. apply pok_acts.
  - intros k a c A C. specialize (O k). unfold ordered in O. now rewrite A, C in O.
  - apply fresh_pok. intros k v I. apply within_inside. now apply L.
  - exact T.
  - intros f k I K. apply within_inside. now apply (F f).
Qed.

(** C80, for values within the bounds of the widgets: whatever is typed and clicked, there is a box for every
    parameter and it shows its value. *)
Theorem C80_boxes_partial : forall w l actions, (forall k, ordered (w k)) -> values_within w l actions -> by_typing actions ->
  let p := acts w (create w (opened l)) actions in
  (forall k, p_box p k = shown (p_gui p) k) /\ (forall k, p_box p k <> None <-> In k (map fst l)).
Proof.
  intros w l actions O V T p. destruct (boxes_ok w l actions O V T) as [[tags G] H S]. fold p in G, H, S. split; [exact S|]. intro k. rewrite S.
  destruct (shown_has w _ _ tags k G H) as [(v & E & _ & K)|[E K]]; rewrite E; split; auto; try congruence.
Qed.
Print Assumptions C80_boxes_partial.

(** C80: a number typed into a box becomes the value of the parameter, and no other value changes.  A
    number outside of the bounds of the widget is moved to the bound. *)
Theorem C80_typed_partial : forall w l actions k v, (forall k, ordered (w k)) -> values_within w l actions -> by_typing actions -> In k (map fst l) ->
  let p := acts w (create w (opened l)) actions in
  let q := act w p (Type_in k v) in
  (within (w k) v -> shown (p_gui q) k = Some v) /\
  (forall a, lower (w k) = Some a -> v < a -> shown (p_gui q) k = Some a) /\
  (forall c, upper (w k) = Some c -> c < v -> shown (p_gui q) k = Some c) /\
  (forall j, j <> k -> shown (p_gui q) j = shown (p_gui p) j).
Proof.
  intros w l actions k v O V T K p q. destruct (boxes_ok w l actions O V T) as [[tags G] H S]. fold p in G, H, S.
  assert (E : forall j, shown (p_gui q) j = if String.eqb j k then Some (cap (w k) v) else shown (p_gui p) j).
  { intro j. unfold q, act. rewrite S. destruct (shown_has w _ _ tags k G H) as [(old & E & _)|[_ N]]; [|contradiction]. rewrite E.
    destruct (Req_EM_T old (cap (w k) v)) as [->|D].
    - destruct (String.eqb_spec j k) as [->|]; [exact E|reflexivity].
    - cbn [p_gui]. apply (change_shown (fits w (map fst l)) _ tags); [exact G|]. apply H, K. }
  assert (EK := E k). rewrite String.eqb_refl in EK. rewrite EK. split; [|split; [|split]].
  - intro W. now rewrite (cap_inside _ _ (proj1 (within_inside _ _) W)).
  - intros a A L. f_equal. specialize (O k). unfold cap, ordered in *. rewrite A in *. rewrite Rmax_right by lra. destruct (upper (w k)); [|reflexivity]. now apply Rmin_left.
  - intros c C L. f_equal. specialize (O k). unfold cap, ordered in *. rewrite C in *. apply Rmin_right. destruct (lower (w k)) as [a|]; [|lra]. apply Rle_trans with v; [lra|apply Rmax_l].
  - intros j J. rewrite E. destruct (String.eqb_spec j k); [contradiction|reflexivity].
Qed.
Print Assumptions C80_typed_partial.

(** C80, for FitMuellerMatrix: the bounds of the boxes are those of the parameters. *)
Theorem C80_mueller : forall (b : string -> bounds) l actions, (forall k, ordered (b k)) -> values_within b l actions -> by_typing actions ->
  let w k := mm_widget (b k) in
  let p := acts w (create w (opened l)) actions in
  (forall k, p_box p k = shown (p_gui p) k) /\
  forall k v, In k (map fst l) -> within (b k) v -> shown (p_gui (act w p (Type_in k v))) k = Some v.
Proof.
  intros b l actions O V T w p. split; [now apply (C80_boxes_partial b l actions)|]. intros k v K W. exact (proj1 (C80_typed_partial b l actions k v O V T K) W).
Qed.
Print Assumptions C80_mueller.

(** C80, for FitRho: the same if all parameters have a lower bound, and values up to the largest floating point number. *)
Theorem C80_rho_partial : forall (b : string -> bounds) l actions, (forall k, ordered (b k)) -> values_within b l actions -> by_typing actions ->
  (forall k, lower (b k) <> None) -> (forall k a, lower (b k) = Some a -> a <= float_max) ->
  (forall k v, In (k, v) l -> v <= float_max) -> (forall f k, In (Press (Fit f)) actions -> f k <= float_max) ->
  let w k := rho_widget (b k) in
  let p := acts w (create w (opened l)) actions in
  (forall k, p_box p k = shown (p_gui p) k) /\
  forall k v, In k (map fst l) -> within (b k) v -> v <= float_max -> shown (p_gui (act w p (Type_in k v))) k = Some v.
Proof.
  intros b l actions O V T L LM M MF w p.
  assert (R : forall k v, within (b k) v -> v <= float_max -> within (w k) v).
  { intros k v W X. specialize (L k). unfold w, within, rho_widget in *. cbn [lower upper]. destruct (lower (b k)); [|now destruct L]. destruct (upper (b k)); tauto. }
  assert (OW : forall k, ordered (w k)).
  { intro k. specialize (O k). specialize (L k). specialize (LM k). unfold w, ordered, rho_widget in *. cbn [lower upper]. destruct (lower (b k)) as [a|]; [|now destruct L]. destruct (upper (b k)); auto. }
  assert (VW : values_within w l actions).
  { destruct V as [V1 V2]. split; [intros k v I; apply R; eauto|intros f k I K; apply R; eauto]. }
  split; [now apply C80_boxes_partial|]. intros k v K W X. exact (proj1 (C80_typed_partial w l actions k v OW VW T K) (R k v W X)).
Qed.
Print Assumptions C80_rho_partial.

Lemma float_min_pos : 0 < float_min.
Proof. unfold float_min. apply Rinv_0_lt_compat, pow_lt. lra. Qed.

Lemma float_min_max : float_min <= float_max.
Proof.
  assert (P : forall n, 1 <= 2 ^ n) by (intro n; apply pow_R1_Rle; lra).
  assert (Q : forall n, / 2 ^ n <= 1) by (intro n; rewrite <- Rinv_1; apply Rinv_le_contravar; [lra|apply P]).
  unfold float_min, float_max. generalize (P 1023%nat), (Q 1022%nat), (Q 52%nat). generalize (2 ^ 1023) (/ 2 ^ 1022) (/ 2 ^ 52). intros x y z X Y Z.
  apply Rle_trans with 1; [exact Y|]. apply Rle_trans with (1 * x); [lra|]. apply Rmult_le_compat_r; lra.
Qed.

(** C80 is false for FitRho and a parameter without a lower bound: the box of the value -1 shows the smallest
    positive number, and -2 cannot be typed in. *)
Theorem C80_rho_refuted : exists (b : string -> bounds) l k,
  (forall k, ordered (b k)) /\ values_within b l [] /\ within (b k) (-2) /\
  let w k := rho_widget (b k) in
  let p := create w (opened l) in
  shown (p_gui p) k = Some (-1) /\ p_box p k = Some float_min /\
  let q := act w (act w p (Type_in k 1)) (Type_in k (-2)) in
  shown (p_gui q) k = Some float_min.
Proof.
  exists (fun _ => Bounds None None), [("offset", -1)], "offset". cbn zeta.
  assert (O : forall k : string, ordered (Bounds None None)) by (intro k; exact I).
  assert (P := float_min_pos). assert (M := float_min_max).
  assert (C : forall v, v <= float_min -> cap (rho_widget (Bounds None None)) v = float_min).
  { intros v V. unfold cap, rho_widget. cbn [lower upper]. rewrite Rmax_right by exact V. apply Rmin_left, M. }
  assert (C1 : cap (rho_widget (Bounds None None)) 1 = 1).
  { apply cap_inside, within_inside. unfold within, rho_widget. cbn [lower upper].
    assert (Q : forall n, 1 <= 2 ^ n) by (intro n; apply pow_R1_Rle; lra).
    assert (Q2 : forall n, / 2 ^ n <= 1) by (intro n; rewrite <- Rinv_1; apply Rinv_le_contravar; [lra|apply Q]). split; [apply Q2|].
    unfold float_max. generalize (Q 1023%nat) (Q2 52%nat). generalize (2 ^ 1023) (/ 2 ^ 52). intros x z X Z. apply Rle_trans with (1 * x); [lra|]. apply Rmult_le_compat_r; lra. }
  split; [exact O|]. split; [split; [intros k v _; split; exact I|intros f k []]|]. split; [split; exact I|].
  split; [reflexivity|]. split; [cbn [p_box create]; unfold opened, shown; cbn; f_equal; apply C; lra|].
  assert (E : 1 <> float_min).
  { unfold float_min. intro E. assert (Q : 1 <= 2 ^ 1021) by (apply pow_R1_Rle; lra). change 1022%nat with (S 1021) in E. rewrite <- tech_pow_Rmult in E. set (x := 2 ^ 1021) in *. clearbody x.
    assert (B : 1 * (2 * x) = / (2 * x) * (2 * x)) by now rewrite <- E. rewrite Rinv_l in B by lra. lra. }
  cbn [act p_box p_gui create]. unfold option_map. change (shown (opened [("offset", -1)]) "offset") with (Some (-1)). cbn iota beta. rewrite (C (-1)) by lra. rewrite C1.
  destruct (Req_EM_T float_min 1) as [Z|Z]; [congruence|]. cbn [act p_box p_gui]. rewrite String.eqb_refl. rewrite (C (-2)) by lra.
  destruct (Req_EM_T 1 float_min) as [Z2|Z2]; [congruence|]. cbn [p_gui]. reflexivity.
Qed.
Print Assumptions C80_rho_refuted.

(** A session with two parameters: a change, one that is capped, a fit, undo. *)
Example C80_example : let b := fun k => if k =? "d" then Bounds (Some 0) (Some 100) else Bounds (Some 1) None in
  let l := [("d", 20); ("n", 2)] in
  let actions := [Type_in "d" 30; Type_in "d" 500; Press (Fit (fun k => if k =? "d" then 50 else 3)); Type_in "n" 4; Press Undo] in
  let w k := mm_widget (b k) in
  let p := acts w (create w (opened l)) actions in
  (forall k, ordered (b k)) /\ values_within b l actions /\ by_typing actions /\
  p_box p "d" = Some 50 /\ p_box p "n" = Some 3 /\ p_box p "x" = None.
Proof.
  cbn zeta. assert (OB : forall k, ordered (if k =? "d" then Bounds (Some 0) (Some 100) else Bounds (Some 1) None)) by (intro k; destruct (k =? "d"); unfold ordered; cbn; [lra|exact I]).
  set (b := fun k => if k =? "d" then Bounds (Some 0) (Some 100) else Bounds (Some 1) None) in *.
  set (l := [("d", 20); ("n", 2)]). set (actions := [Type_in "d" 30; _; _; _; _]).
  assert (VB : values_within b l actions).
  { split.
    - intros k v [E|[E|[]]]; injection E as <- <-; cbv -[Rle IZR]; lra.
    - intros f k I K. destruct I as [I|[I|[I|[I|[I|[]]]]]]; try discriminate. injection I as <-. destruct K as [<-|[<-|[]]]; cbv -[Rle IZR]; lra. }
  assert (TB : by_typing actions) by (intros k v [I|[I|[I|[I|[I|[]]]]]]; discriminate).
  split; [exact OB|]. split; [exact VB|]. split; [exact TB|].
  set (p := acts _ _ _). destruct (C80_boxes_partial b l actions OB VB TB) as [S _]. change (acts b (create b (opened l)) actions) with p in S.
  assert (C1 : cap (b "d") 30 = 30) by (apply cap_inside, within_inside; cbv -[Rle IZR]; lra).
  assert (C2 : cap (b "d") 500 = 100) by (cbv -[Rmin Rmax IZR]; rewrite Rmax_left by lra; apply Rmin_right; lra).
  assert (C3 : cap (b "n") 4 = 4) by (apply cap_inside, within_inside; cbv -[Rle IZR]; lra).
  assert (C4 : cap (b "d") 20 = 20) by (apply cap_inside, within_inside; cbv -[Rle IZR]; lra).
  assert (C5 : cap (b "n") 3 = 3) by (apply cap_inside, within_inside; cbv -[Rle IZR]; lra).
  assert (G : p_gui p = undo_button (fst (change_widget (fit_button (fst (change_widget (fst (change_widget (opened l) "d" 30)) "d" 100)) (fun k => if k =? "d" then 50 else 3)) "n" 4))).
  { unfold p, acts, actions. cbn [fold_left]. change (fun k => mm_widget (b k)) with b.
    assert (A : act b (create b (opened l)) (Type_in "d" 30) = Panel (fst (change_widget (opened l) "d" 30)) (fun j => if String.eqb j "d" then Some 30 else p_box (create b (opened l)) j)).
    { unfold act. cbn [p_box create]. change (shown (opened l) "d") with (Some 20). cbn [option_map]. rewrite C1, C4. destruct (Req_EM_T 20 30); [lra|reflexivity]. }
    assert (B : act b (act b (create b (opened l)) (Type_in "d" 30)) (Type_in "d" 500) = Panel (fst (change_widget (fst (change_widget (opened l) "d" 30)) "d" 100)) (fun j => if String.eqb j "d" then Some 100 else if String.eqb j "d" then Some 30 else p_box (create b (opened l)) j)).
    { rewrite A. unfold act. cbn [p_box p_gui]. rewrite String.eqb_refl, C2. destruct (Req_EM_T 30 100); [lra|reflexivity]. }
    rewrite B. set (f := fun k : string => if k =? "d" then 50 else 3).
    match goal with |- context [act b (Panel ?g ?x) (Press (Fit f))] => set (q := act b (Panel g x) (Press (Fit f))); assert (Q : p_gui q = fit_button g f) by reflexivity;
      assert (N : shown (p_gui q) "n" = Some 3) by (rewrite Q; apply (fit_shown g f); vm_compute; discriminate);
      assert (X : p_box q "n" = Some 3) by (change (p_box q "n") with (update_widgets b (p_gui q) x "n"); unfold update_widgets; rewrite N; rewrite C5; reflexivity) end.
    clearbody q. rewrite <- Q. assert (Y : act b q (Type_in "n" 4) = Panel (fst (change_widget (p_gui q) "n" 4)) (fun j => if String.eqb j "n" then Some 4 else p_box q j)).
    { unfold act. rewrite X, C3. destruct (Req_EM_T 3 4); [lra|reflexivity]. }
    rewrite Y. reflexivity. }
  rewrite !S, G. repeat split; vm_compute; reflexivity.
Qed.

(** The checkboxes: the flags vary of the parameters named names *)
Definition varying (names : list string) (vary : string -> bool) (actions : list vary_action) : vary_panel :=
  acts_vary (create_vary (opened (map (fun k => (k, flag (vary k))) names)) vary) actions.
(** Whether the next fit varies the parameter k *)
Definition varied (p : vary_panel) (k : string) : option R := shown (v_gui p) k.

(** C81, without undo and redo: a checkbox is set if and only if the fit varies its parameter. *)
Theorem C81_checkbox_partial : forall names vary actions, ~ In UndoVary actions -> ~ In RedoVary actions ->
  let p := varying names vary actions in
  forall k b, v_box p k = Some b -> varied p k = Some (flag b).
Proof.
  intros names vary actions U R p k b. unfold p, varying, varied. rewrite opened_fresh. destruct (flags_start names vary) as [V A]. cbn zeta in *. now apply agree_acts.
Qed.
Print Assumptions C81_checkbox_partial.

(** C81: the same for every history that ends with the button that resets the parameters. *)
Theorem C81_reset : forall names vary actions,
  let p := varying names vary (actions ++ [InitialVary]) in
  forall k b, v_box p k = Some b -> varied p k = Some (flag b).
Proof.
  intros names vary actions p k b. unfold p, varying, varied, acts_vary. rewrite fold_left_app. cbn [fold_left]. fold (acts_vary (create_vary (opened (map (fun k => (k, flag (vary k))) names)) vary) actions).
  rewrite opened_fresh. destruct (flags_start names vary) as [V _]. cbn zeta in V. apply (vok_acts actions) in V. unfold flags in V. set (q := acts_vary _ _) in *. cbn [act_vary v_gui v_box].
  destruct V as [_ V _ _ I]. intro B. rewrite initial_shown by exact (FitGuiP.v_initial _ V). now apply I.
Qed.
Print Assumptions C81_reset.

(** C81: every parameter has a checkbox, which shows what was chosen last. *)
Theorem C81_last : forall names vary actions k, In k names ->
  v_box (varying names vary actions) k =
  Some (fold_left (fun b a => match a with Toggle j c => if j =? k then c else b | _ => b end) actions (vary k)).
Proof.
  intros names vary actions k K. unfold varying, acts_vary. assert (B : v_box (create_vary (opened (map (fun k => (k, flag (vary k))) names)) vary) k = Some (vary k)).
  { rewrite opened_fresh. unfold create_vary. cbn [v_box]. destruct (flags_start names vary) as [[_ _ _ _ _] _]. unfold option_map. change (map (fun k0 => (k0, flag (vary k0))) names) with (flags names vary).
    destruct (fresh_value (flags names vary) k) as (-> & _). destruct (new_dict_spec [] (flags names vary)) as (_ & _ & _ & _ & E). rewrite E, flags_find. destruct in_dec; [reflexivity|contradiction]. }
  revert B. generalize (create_vary (opened (map (fun k => (k, flag (vary k))) names)) vary). generalize (vary k). clear K.
  induction actions as [|a l IH]; intros b p B; [exact B|]. cbn [fold_left]. apply IH. destruct a as [j c|j| | | |]; cbn [act_vary v_box]; auto.
  destruct (v_box p j) as [o|] eqn:E.
  - cbn [v_box]. rewrite String.eqb_sym. destruct (String.eqb j k); [reflexivity|exact B].
  - destruct (String.eqb_spec j k) as [->|]; [congruence|exact B].
Qed.
Print Assumptions C81_last.

(** C81 is false with undo: a value is changed, the checkbox is cleared, and Undo brings back a Parameter
    object that is varied. *)
Theorem C81_undo_refuted : exists names vary actions k,
  let p := varying names vary actions in
  v_box p k = Some false /\ varied p k = Some (flag true).
Proof.
  exists ["d"], (fun _ => true), [Value "d"; Toggle "d" false; UndoVary], "d". split; reflexivity.
Qed.
Print Assumptions C81_undo_refuted.

Example C81_example : let p := varying ["d"; "n"] (fun k => k =? "d") [Toggle "n" true; Value "n"; FitAll; Toggle "d" false; Value "d"] in
  v_box p "d" = Some false /\ varied p "d" = Some 0 /\ v_box p "n" = Some true /\ varied p "n" = Some 1.
Proof. cbn zeta. repeat split; vm_compute; reflexivity. Qed.
