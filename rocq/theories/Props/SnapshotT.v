(** C59: a result does not change with the objects it was computed from (src/elli/solver.py,
    src/elli/experiment.py, src/elli/result.py). *)
From Coq Require Import Reals Lra String List Arith Bool Lia.
From Coquelicot Require Import Complex.
From Verif.Base Require Import Py Cx Mat.
From Verif.Model Require Import DeltaRange Ellips Snapshot.
From Verif.Proof Require Import DeltaRangeP EllipsP.
From Verif.Props Require Import EllipsT.
Import ListNotations.
Open Scope nat_scope.
Open Scope string_scope.
Open Scope list_scope.

Section Any.
Variable D : Type.
Variable solve : heap D -> nat -> D * D * D.
Variable default_range : D.

(** All references lead to objects *)
Definition closed (h : heap D) : Prop :=
  forall a k b, get h a k = Some (Ref b) -> b < length h.

(** The objects lo, ..., hi-1 are not assigned to *)
Definition untouched (lo hi : nat) (o : op D) : Prop :=
  match o with Set_ a _ _ => a < lo \/ hi <= a | _ => True end.

Lemma set_length (h : heap D) a k v : length (set h a k v) = length h.
Proof. revert a. induction h as [|n h IH]; intros [|a]; cbn; auto. Qed.

Lemma set_other (h : heap D) a k v b : b <> a -> nth b (set h a k v) [] = nth b h [].
Proof. revert a b. induction h as [|n h IH]; intros [|a] [|b] N; cbn; auto; first [now destruct N | apply IH; lia]. Qed.

Lemma set_node_find (n : node D) k v j : find (fun f => fst f =? j) (set_node D n k v) =
  if k =? j then Some (k, v) else find (fun f => fst f =? j) n.
Proof.
  induction n as [|[i w] n IH]; cbn; [destruct (k =? j); reflexivity|].
  destruct (String.eqb_spec i k).
  - subst. cbn. destruct (k =? j); reflexivity.
  - cbn. rewrite IH. destruct (String.eqb_spec i j); [|reflexivity]. destruct (String.eqb_spec k j); [congruence|reflexivity].
Qed.

Lemma set_same (h : heap D) a k v : a < length h -> nth a (set h a k v) [] = set_node D (nth a h []) k v.
Proof. revert a. induction h as [|n h IH]; intros [|a] L; cbn in *; try lia; auto. apply IH. lia. Qed.

Lemma get_nth (h h' : heap D) a b k : nth a h [] = nth b h' [] -> get h a k = get h' b k.
Proof. unfold get. now intros ->. Qed.

(** Two heaps that agree on objects closed under references give the same data *)
Lemma read_agree (h h' : heap D) (P : nat -> Prop) :
  (forall a, P a -> nth a h' [] = nth a h []) ->
  (forall a k b, P a -> get h a k = Some (Ref b) -> P b) ->
  forall path a, P a -> read h' a path = read h a path.
Proof.
  intros E C path. induction path as [|k p IH]; intros a Pa; [reflexivity|]. cbn.
  rewrite (get_nth h' h a a k (E a Pa)). destruct (get h a k) as [[d|b]|] eqn:G; auto. apply IH. eapply C; eauto.
Qed.

Lemma get_shift (h : heap D) a k : a < length h ->
  get (h ++ map (shift_node (length h)) h) (length h + a) k = option_map (shift_val (length h)) (get h a k).
Proof.
  intro L. unfold get. rewrite app_nth2_plus. change (@nil (string * val D)) with (shift_node (D := D) (length h) []) at 1. rewrite map_nth.
  generalize (nth a h []). intro n. induction n as [|[i w] n IH]; cbn; [reflexivity|]. destruct (i =? k); [reflexivity|]. exact IH.
Qed.

Lemma get_app (h g : heap D) a k : a < length h -> get (h ++ g) a k = get h a k.
Proof. intro L. apply get_nth. now apply app_nth1. Qed.

(** deepcopy gives the same data *)
Lemma read_copy (h : heap D) : closed h -> forall g path a, a < length h ->
  read ((h ++ map (shift_node (length h)) h) ++ g) (length h + a) path = read h a path.
Proof.
  intros C g path. induction path as [|k p IH]; intros a L; [reflexivity|]. cbn.
  rewrite get_app by (rewrite app_length, map_length; lia). rewrite get_shift by exact L.
  destruct (get h a k) as [[d|b]|] eqn:G; cbn; auto. apply IH. eapply C; eauto.
Qed.

Lemma eval_unfold (h : heap D) e h' r : evaluate solve default_range h e = (h', r) ->
  exists jr jt pc, h' = (h ++ map (shift_node (length h)) h) ++
    [[("experiment", Ref (length h + e)); ("_jones_matrix_r", Leaf jr); ("_jones_matrix_t", Leaf jt);
      ("_delta_range", Leaf default_range); ("_power_correction", Leaf pc)]] /\
    r = length h + length h /\ solve (h ++ map (shift_node (length h)) h) (length h + e) = (jr, jt, pc).
Proof.
  unfold evaluate, deepcopy. destruct (solve _ _) as [[jr jt] pc] eqn:S. intro H. injection H as <- <-. exists jr, jt, pc.
  split; [reflexivity|]. split; [now rewrite app_length, map_length|reflexivity].
Qed.

(** The objects of the result: the copies and the result itself *)
Lemma own_closed (h : heap D) e h' r : closed h -> e < length h -> evaluate solve default_range h e = (h', r) ->
  forall a k b, length h <= a < S r -> get h' a k = Some (Ref b) -> length h <= b < S r.
Proof.
  intros C L E a k b A G. destruct (eval_unfold _ _ _ _ E) as (jr & jt & pc & -> & -> & _).
  destruct (Nat.eq_dec a (length h + length h)) as [->|N].
  - unfold get in G. rewrite app_nth2 in G by (rewrite app_length, map_length; lia). rewrite app_length, map_length, Nat.sub_diag in G.
    cbn [nth] in G. cbn [find fst] in G. destruct ("experiment" =? k); [injection G as <-; lia|].
    repeat (match type of G with context [if ?c then _ else _] => destruct c; [discriminate|] end). discriminate.
  - rewrite get_app in G by (rewrite app_length, map_length; lia). replace a with (length h + (a - length h)) in G by lia.
    rewrite get_shift in G by lia. destruct (get h (a - length h) k) as [[d|b']|] eqn:G'; cbn in G; try discriminate. injection G as <-.
    apply C in G'. lia.
Qed.

Lemma step_other (h : heap D) o lo hi : hi <= length h -> untouched lo hi o ->
  hi <= length (step solve default_range h o) /\ forall a, lo <= a < hi -> nth a (step solve default_range h o) [] = nth a h [].
Proof.
  intros L U. destruct o as [n|b k v|e]; cbn [step] in *.
  - split; [rewrite app_length; lia|]. intros a A. apply app_nth1. lia.
  - split; [rewrite set_length; lia|]. intros a A. apply set_other. cbn in U. lia.
  - destruct (evaluate solve default_range h e) as [h' r] eqn:E. destruct (eval_unfold _ _ _ _ E) as (jr & jt & pc & -> & _ & _). cbn [fst].
    split; [rewrite !app_length; lia|]. intros a A. rewrite <- app_assoc. apply app_nth1. lia.
Qed.

Lemma run_other (ops : list (op D)) lo hi : forall h, hi <= length h -> Forall (untouched lo hi) ops ->
  hi <= length (run solve default_range h ops) /\ forall a, lo <= a < hi -> nth a (run solve default_range h ops) [] = nth a h [].
Proof.
  induction ops as [|o ops IH]; intros h L F; [split; auto|]. inversion F as [|? ? U F']. subst. cbn.
  destruct (step_other h o lo hi L U) as [L1 E1]. destruct (IH _ L1 F') as [L2 E2]. split; [exact L2|]. intros a A. rewrite E2 by exact A. now apply E1.
Qed.

(** C59: after evaluate, no program that leaves the objects of the result itself alone, however it
    changes the experiment, the structure, the layers, the materials and all that they consist of,
    changes anything that can be read from the result.  The objects of the result are new. *)
Theorem C59_snapshot : forall (h : heap D) e h' r ops path, closed h -> e < length h ->
  evaluate solve default_range h e = (h', r) ->
  Forall (untouched (length h) (S r)) ops ->
  read (run solve default_range h' ops) r path = read h' r path.
Proof.
  intros h e h' r ops path C L E F. assert (LH : S r <= length h').
  { destruct (eval_unfold _ _ _ _ E) as (jr & jt & pc & -> & -> & _). rewrite !app_length, map_length. cbn. lia. }
  destruct (run_other ops (length h) (S r) h' LH F) as [_ N].
  apply (read_agree h' _ (fun a => length h <= a < S r)).
  - exact N.
  - intros a k b A G. eapply own_closed; eauto.
  - destruct (eval_unfold _ _ _ _ E) as (jr & jt & pc & -> & -> & _). lia.
Qed.

(** C59: in particular an operation on an object that existed before evaluate. *)
Theorem C59_old_objects : forall (h : heap D) e h' r (writes : list (nat * string * val D)) path, closed h -> e < length h ->
  evaluate solve default_range h e = (h', r) ->
  Forall (fun w => fst (fst w) < length h) writes ->
  read (run solve default_range h' (map (fun w => Set_ (fst (fst w)) (snd (fst w)) (snd w)) writes)) r path = read h' r path.
Proof.
  intros h e h' r writes path C L E F. eapply C59_snapshot; eauto. rewrite Forall_map. eapply Forall_impl; [|exact F]. intros w W. cbn. now left.
Qed.

(** C59: result.experiment keeps the data that the experiment had when it was evaluated. *)
Theorem C59_experiment : forall (h : heap D) e h' r ops path, closed h -> e < length h ->
  evaluate solve default_range h e = (h', r) ->
  Forall (untouched (length h) (S r)) ops ->
  read (run solve default_range h' ops) r ("experiment" :: path) = read h e path.
Proof.
  intros h e h' r ops path C L E F. rewrite (C59_snapshot h e h' r ops _ C L E F).
  destruct (eval_unfold _ _ _ _ E) as (jr & jt & pc & -> & -> & _). cbn [read].
  assert (G : get ((h ++ map (shift_node (length h)) h) ++
     [[("experiment", Ref (length h + e)); ("_jones_matrix_r", Leaf jr); ("_jones_matrix_t", Leaf jt); ("_delta_range", Leaf default_range); ("_power_correction", Leaf pc)]])
      (length h + length h) "experiment" = Some (Ref (length h + e))).
  { unfold get. rewrite app_nth2 by (rewrite app_length, map_length; lia). rewrite app_length, map_length, Nat.sub_diag. reflexivity. }
  rewrite G. now apply read_copy.
Qed.

(** C59: evaluate changes none of the objects of the program. *)
Theorem C59_evaluate_pure : forall (h : heap D) e h' r path a, closed h -> a < length h ->
  evaluate solve default_range h e = (h', r) -> read h' a path = read h a path.
Proof.
  intros h e h' r path a C A E. destruct (eval_unfold _ _ _ _ E) as (jr & jt & pc & -> & -> & _).
  apply (read_agree h _ (fun a => a < length h)); auto.
  - intros b B. rewrite <- app_assoc. now apply app_nth1.
  - intros b k c B G. eapply C; eauto.
Qed.

(** C59: as_delta_range returns the same object, and nothing but the range has changed. *)
Theorem C59_as_delta_range : forall (h : heap D) r range, r < length h ->
  snd (as_delta_range h r range) = r /\
  read (fst (as_delta_range h r range)) r ["_delta_range"] = Some range /\
  (forall a k, (a <> r \/ k <> "_delta_range") -> get (fst (as_delta_range h r range)) a k = get h a k).
Proof.
  intros h r range L. unfold as_delta_range. cbn [fst snd]. split; [reflexivity|]. split.
  - cbn [read]. unfold get. rewrite set_same by exact L. rewrite set_node_find. cbn. reflexivity.
  - intros a k N. destruct (Nat.eq_dec a r) as [->|A]; [|apply get_nth; now apply set_other].
    unfold get. rewrite set_same by exact L. rewrite set_node_find. destruct (String.eqb_spec "_delta_range" k); [|reflexivity].
    destruct N as [N|N]; [now destruct N|]. now destruct N.
Qed.
End Any.
Print Assumptions C59_snapshot.
Print Assumptions C59_experiment.
Print Assumptions C59_as_delta_range.

(** C59: what changes with the range: psi never; rho only for the range (0, 180); Delta by twice
    the difference of the lower bounds, modulo a full turn. *)
Theorem C59_presentation : forall (rg rg' : drange) (J : mat) (E : nat -> C),
  psi rg J E = psi rg' J E /\
  ((fst rg <> 0 \/ snd rg <> 180)%R -> (fst rg' <> 0 \/ snd rg' <> 180)%R ->
   rho rg J E = rho rg' J E /\
   forall d, delta rg J E = Some d -> exists d' k, delta rg' J E = Some d' /\ (d' = d + 2 * (fst rg' - fst rg) + 360 * IZR k)%R).
Proof.
  intros rg rg' J E. split.
  - unfold psi, rho, obind. destruct (rho_raw J E) as [z|]; [|reflexivity]. f_equal. unfold psi_of. now rewrite !fold_mod.
  - intros N N'. assert (RH : rho rg J E = rho rg' J E).
    { unfold rho, obind. destruct (rho_raw J E); [|reflexivity]. f_equal. now rewrite !fold_id. }
    split; [exact RH|]. unfold delta. rewrite RH. unfold obind. intro d. destruct (rho rg' J E) as [z|]; [|discriminate]. intro H. injection H as <-.
    unfold delta_of. destruct (np_mod_cong (- rad2deg (Carg z) + fst rg) 360) as [k1 ->]. destruct (np_mod_cong (- rad2deg (Carg z) + fst rg') 360) as [k2 ->].
    eexists _, (k2 - k1)%Z. split; [reflexivity|]. rewrite minus_IZR. ring.
Qed.
Print Assumptions C59_presentation.

(** C59: so the range (-90, 270) does not only change the presentation of Delta, *)
Theorem C59_delta_refuted : exists (J : mat) (E : nat -> C) d d',
  delta (-180, 180)%R J E = Some d /\ delta (-90, 270)%R J E = Some d' /\ forall k, (d' <> d + 360 * IZR k)%R.
Proof.
  assert (H := proj1 C03_example). destruct (C59_presentation (-180, 180)%R (-90, 270)%R J_ex E_ex) as [_ P].
  destruct P as [_ P]; [left; cbn; lra|left; cbn; lra|]. unfold delta, obind in *. rewrite H in *. destruct (P _ eq_refl) as (d' & k & D & K).
  exists J_ex, E_ex, (delta_of (-180, 180)%R (Ci / RtoC 2)%C), d'. rewrite H. split; [reflexivity|]. split; [exact D|]. intros j Hj. rewrite K in Hj. cbn [fst] in Hj.
  assert (X : (IZR (2 * j) = IZR (2 * k + 1))%R) by (rewrite plus_IZR, !mult_IZR; lra). apply eq_IZR in X. lia.
Qed.

(** and the range (0, 180) changes rho. *)
Theorem C59_rho_refuted : exists (J : mat) (E : nat -> C), rho (-180, 180)%R J E <> None /\ rho (0, 180)%R J E <> rho (-180, 180)%R J E.
Proof.
  exists J_ex, E_ex. assert (H := proj1 C03_example). rewrite H. split; [discriminate|]. unfold rho, obind in *. destruct (rho_raw J_ex E_ex) as [z|]; [|discriminate].
  rewrite fold_id in H by (left; cbn; lra). injection H as ->. unfold fold_rho. cbn [fst snd]. unfold Reqb. destruct Req_EM_T; [|lra]. destruct Req_EM_T; [|lra]. cbn [andb].
  assert (S : snd (Ci / RtoC 2)%C = (/ 2)%R) by (unfold Cdiv, Cmult, Ci, Cinv; cbn; field).
  rewrite S. rewrite Rabs_right by lra. intro K. injection K as K. lra.
Qed.

(** A non-trivial case: an experiment whose structure has a layer with thickness 10; afterwards the
    layer, the experiment and its structure are changed. *)
Definition ex_heap : heap nat :=
  [[("structure", Ref 1); ("theta_i", Leaf 70)]; [("layer", Ref 2); ("front", Ref 3)]; [("d", Leaf 10); ("material", Ref 3)]; [("n", Leaf 2)]].
Definition ex_ops : list (op nat) :=
  [Set_ 2 "d" (Leaf 99); Set_ 3 "n" (Leaf 5); New [("layer", Ref 3)]; Set_ 0 "structure" (Ref 9); Evaluate 0; Set_ 0 "theta_i" (Leaf 1)].

Example C59_example :
  let '(h, r) := evaluate (fun h a => match read h a ["structure"; "layer"; "d"] with Some d => (d, d + 1, 7) | None => (0, 0, 0) end) 0 ex_heap 0 in
  let h' := run (fun _ _ => (0, 0, 0)) 0 h ex_ops in
  closed nat ex_heap /\ Forall (untouched nat (length ex_heap) (S r)) ex_ops /\
  read h' 2 ["d"] = Some 99 /\ read h' 0 ["theta_i"] = Some 1 /\
  read h' r ["experiment"; "structure"; "layer"; "d"] = Some 10 /\
  read h' r ["experiment"; "structure"; "layer"; "material"; "n"] = Some 2 /\
  read h' r ["_jones_matrix_t"] = Some 11.
Proof.
  cbn. split.
  - intros a k b. unfold get. destruct a as [|[|[|[|a]]]]; cbn; try (destruct a; discriminate);
      repeat (match goal with |- context [if ?c then _ else _] => destruct c end); intro H; try discriminate; injection H as <-; lia.
  - split; [|repeat split]. repeat constructor; cbn; lia.
Qed.
