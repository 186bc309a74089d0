(** C45, C46: the names under which a Result gives its quantities (src/elli/result.py). *)
From Coq Require Import Reals Lra String Ascii List Arith Bool.
From Coquelicot Require Import Complex.
From Verif.Base Require Import Py Cx Mat.
From Verif.Model Require Import Ellips ResultAttr.
From Verif.Spec Require Import Names.
From Verif.Proof Require Import ResultAttrP.
Import ListNotations.
Open Scope string_scope.

(** C45: every documented name gives the array, or the element of the array, that it stands for.
    [dunders] are the names every Python object has. *)
Theorem C45_whole : forall dunders n a, own_names dunders -> In (n, a) whole_names ->
  get_attr dunders n = Ok (Whole a).
Proof. intros d n a D H. rewrite get_attr_public; [now apply whole_table|exact D|now apply names_public in H]. Qed.

Theorem C45_element : forall dunders n m k a b i j, own_names dunders ->
  In (n, (m, k)) matrix_names -> In (a, i) letters -> In (b, j) letters -> (i < k)%nat -> (j < k)%nat ->
  get_attr dunders (suffixed n a b) = Ok (Elem m i j).
Proof.
  intros d n m k a b i j D H A B I J. rewrite get_attr_public by (auto; eapply suffixed_public; eauto).
  rewrite (elem_table n m k a b i j H A B). apply Nat.ltb_lt in I, J. now rewrite I, J.
Qed.
Print Assumptions C45_element.

(** C45: no other public name gives a value, but for the three public attributes that are no
    quantities. *)
Theorem C45_only : forall dunders name v, own_names dunders -> public name -> get_attr dunders name = Ok v ->
  (exists a, In (name, a) whole_names /\ v = Whole a) \/
  (exists n m k a b i j, name = suffixed n a b /\ In (n, (m, k)) matrix_names /\ In (a, i) letters /\ In (b, j) letters /\
     (i < k)%nat /\ (j < k)%nat /\ v = Elem m i j) \/
  In name ["experiment"; "get"; "as_delta_range"] /\ v = Whole name.
Proof.
  intros d name v D P. rewrite get_attr_public by auto. unfold get_attr. destruct (lookup [] name) as [k|] eqn:L.
  - intro H. injection H as <-. destruct (member_known name k P L) as [M|M]; [left; eauto|right; right; auto].
  - destruct (rsplit name) as [[p s]|] eqn:S.
    + assert (N := rsplit_spec _ _ _ S). assert (PP : public p) by (subst name; now apply public_prefix in P).
      destruct (dunder_split name p s PP S) as [K U]. destruct (known_dec p) as [Kp|Kp]; [|rewrite (U Kp); discriminate].
      specialize (K Kp). destruct (unpack s) as [[i j]|e] eqn:UN; [|rewrite K; discriminate].
      destruct (find _ matrix_names) as [[p' [m k]]|] eqn:F; [|destruct K as [-> | ->]; discriminate].
      rewrite K. destruct ((i <? k)%nat && (j <? k)%nat)%bool eqn:B; [|discriminate]. intro H. injection H as <-.
      apply find_matrix in F. cbn in F. destruct F as [-> F]. apply unpack_ok in UN. destruct UN as (a & b & -> & A & Bb).
      apply andb_true_iff in B. rewrite !Nat.ltb_lt in B. right; left. exists p, m, k, a, b, i, j. unfold suffixed. destruct B as [B1 B2]. split; [exact N|]. split; [exact F|]. auto.
    + destruct (dunder_none name P S L) as [K U]. destruct (known_dec name) as [Kn|Kn]; [|rewrite (U Kn); discriminate].
      destruct (K Kn) as (a & A & ->). intro H. injection H as <-. left. eauto.
Qed.
Print Assumptions C45_only.

(** C45: AttributeError is raised exactly for the names that are not known, and that have not a
    known name before their last underscore; the other names that give no value raise ValueError,
    IndexError or TypeError. *)
Theorem C45_attribute_error : forall dunders name, own_names dunders -> public name ->
  (get_attr dunders name = Err AttributeError <->
   ~ known name /\ forall p s, name = p ++ String "_" s -> (forall u w, s <> u ++ String "_" w) -> ~ known p).
Proof.
  intros d name D P. rewrite get_attr_public by auto. unfold get_attr. destruct (lookup [] name) as [k|] eqn:L.
  - split; [discriminate|]. intros [N _]. exfalso. apply N. unfold known. apply in_or_app.
    destruct (member_known name k P L) as [M|M]; [left|now right]. apply in_map_iff. now exists (name, name).
  - destruct (rsplit name) as [[p s]|] eqn:S.
    + assert (N := rsplit_spec _ _ _ S). assert (NS : forall u w, s <> u ++ String "_" w) by (apply rsplit_last in S; now apply rsplit_none).
      assert (PP : public p) by (subst name; now apply public_prefix in P).
      destruct (dunder_split name p s PP S) as [K U]. split.
      * intro H. assert (Kp : ~ known p).
        { intro Kp. specialize (K Kp). destruct (unpack s) as [[i j]|]; [|congruence].
          destruct (find _ matrix_names) as [[p' [m k]]|]; [|destruct K; congruence]. rewrite K in H. destruct (_ && _)%bool; discriminate. }
        split.
        { intro Kn. rewrite (known_split name Kn L) in S. discriminate. }
        { intros p' s' E NS'. assert (E2 : rsplit name = Some (p', s')) by (subst name; rewrite E; now apply rsplit_app). rewrite S in E2. injection E2 as <- <-. exact Kp. }
      * intros [_ H]. apply U. now apply (H p s).
    + destruct (dunder_none name P S L) as [K U]. split.
      * intro H. split; [intro Kn; destruct (K Kn) as (a & _ & E); congruence|]. intros p s E. exfalso. now apply (rsplit_none _ S p s).
      * intros [H _]. now apply U.
Qed.

Theorem C45_error_class : forall dunders name e, own_names dunders -> public name -> get_attr dunders name = Err e ->
  In e [AttributeError; ValueError; IndexError; TypeError].
Proof.
  intros d name e D P. rewrite get_attr_public by auto. unfold get_attr. destruct (lookup [] name) as [k|] eqn:L; [discriminate|].
  destruct (rsplit name) as [[p s]|] eqn:S.
  - assert (PP : public p) by (apply rsplit_spec in S; subst name; now apply public_prefix in P).
    destruct (dunder_split name p s PP S) as [K U]. destruct (known_dec p) as [Kp|Kp].
    + specialize (K Kp). destruct (unpack s) as [[i j]|].
      * destruct (find _ matrix_names) as [[p' [m k]]|]; [|destruct K as [-> | ->]; intro H; injection H as <-; cbn; tauto].
        rewrite K. destruct (_ && _)%bool; [discriminate|]. intro H; injection H as <-; cbn; tauto.
      * rewrite K. intro H; injection H as <-; cbn; tauto.
    + rewrite (U Kp). intro H; injection H as <-; cbn; tauto.
  - destruct (dunder_none name P S L) as [K U]. destruct (known_dec name) as [Kn|Kn].
    + destruct (K Kn) as (a & _ & ->). discriminate.
    + rewrite (U Kn). intro H; injection H as <-; cbn; tauto.
Qed.

(** C45: the claim about undocumented names is false: psi_xy raises ValueError (so that hasattr
    fails instead of answering False), psi_t_pp raises IndexError. *)
Theorem C45_undocumented_refuted : exists name, public name /\
  (forall a, ~ In (name, a) whole_names) /\
  (forall n a b, name = suffixed n a b -> (exists m k, In (n, (m, k)) matrix_names) -> ~ ((exists i, In (a, i) letters) /\ exists j, In (b, j) letters)) /\
  forall dunders, own_names dunders -> get_attr dunders name = Err ValueError.
Proof.
  exists "psi_xy". assert (P : public "psi_xy") by (intros s H; discriminate H). split; [exact P|]. split; [|split].
  - intros a H. unfold whole_names in H. cbn [In] in H. repeat (destruct H as [H|H]; [discriminate H|]). exact H.
  - intros n a b E (m & k & I) [(i & A) _]. unfold matrix_names in I. cbn [In] in I.
    repeat (destruct I as [I|I]; [injection I as <- _ _; try discriminate E; injection E as <- <-; unfold letters in A; cbn [In] in A;
      repeat (destruct A as [A|A]; [discriminate A|]); exact A|]). exact I.
  - intros d D. rewrite get_attr_public by auto. reflexivity.
Qed.

Definition Jp : mat := mat_of [[RtoC 1; RtoC 0]; [RtoC 0; RtoC 0]].
Definition Jsp : mat := mat_of [[RtoC 0; RtoC 0]; [RtoC 1; RtoC 0]].

Lemma Jp_rc : jones_matrix_rc Jp 0%nat 1%nat = RtoC (- / 2).
Proof.
  assert (E : (1 / sqrt 2 * (1 / sqrt 2) = / 2)%R).
  { replace (1 / sqrt 2 * (1 / sqrt 2))%R with (/ (sqrt 2 * sqrt 2))%R by (field; apply Rgt_not_eq, sqrt_lt_R0; lra). rewrite sqrt_sqrt by lra. reflexivity. }
  rewrite <- E. unfold jones_matrix_rc, mmul, circ_d_inv, circ_c, mscal, mat_of, Jp. cbn. apply C_ext; cbn; ring.
Qed.

(** C45: the circular letters do not give circular coefficients. *)
Theorem C45_circular_refuted : exists (Jr Jt : mat), forall dunders, own_names dunders ->
  exists v, get_attr dunders "r_LR" = Ok v /\ amplitude Jr Jt v <> Some (jones_matrix_rc Jr 0%nat 1%nat).
Proof.
  exists Jp, (mat_of []). intros d D. exists (Elem "jones_matrix_r" 0 1).
  split; [apply (C45_element d "r" "jones_matrix_r" 2 "L" "R" 0 1); auto; cbn; tauto|].
  cbn [amplitude]. rewrite Jp_rc. intro H. injection H as H. lra.
Qed.

(** C45: and the letters of an element are the outgoing and then the incident polarisation, not
    "from s to p" as documented. *)
Theorem C45_order : forall dunders (Jr Jt : mat) a b i j, own_names dunders ->
  In (a, i) letters -> In (b, j) letters -> (i < 2)%nat -> (j < 2)%nat ->
  exists v w, get_attr dunders (suffixed "r" a b) = Ok v /\ amplitude Jr Jt v = Some (from_to Jr j i) /\
    get_attr dunders (suffixed "t" a b) = Ok w /\ amplitude Jr Jt w = Some (from_to Jt j i).
Proof.
  intros d Jr Jt a b i j D A B I J.
  assert (F : forall K : mat, K i j = from_to K j i).
  { intro K. unfold from_to. destruct j as [|[|]]; cbn; [ring|ring|exfalso; inversion J as [|? J2]; inversion J2 as [|? J3]; inversion J3]. }
  exists (Elem "jones_matrix_r" i j), (Elem "jones_matrix_t" i j). rewrite <- !F.
  split; [apply (C45_element d "r" "jones_matrix_r" 2); auto; cbn; tauto|]. split; [reflexivity|].
  split; [apply (C45_element d "t" "jones_matrix_t" 2); auto; cbn; tauto|]. reflexivity.
Qed.
Print Assumptions C45_order.

Theorem C45_order_refuted : exists (Jr Jt : mat), forall dunders, own_names dunders ->
  exists v, get_attr dunders "r_sp" = Ok v /\ amplitude Jr Jt v <> Some (from_to Jr 1 0).
Proof.
  exists Jsp, (mat_of []). intros d D. exists (Elem "jones_matrix_r" 1 0).
  split; [apply (C45_element d "r" "jones_matrix_r" 2 "s" "p" 1 0); auto; cbn; tauto|].
  cbn. intro H. injection H as H _. lra.
Qed.

(** C46: the claim is false for every name that has a value: get always raises. *)
Theorem C46_get_refuted : exists name, forall dunders, own_names dunders ->
  exists v, get_attr dunders name = Ok v /\ get name <> Ok v.
Proof. exists "psi". intros d D. exists (Whole "psi"). split; [apply C45_whole; auto; cbn; tauto|discriminate]. Qed.

Theorem C46_never : forall name v, get name <> Ok v.
Proof. discriminate. Qed.

Example C45_examples :
  own_names ["__class__"; "__init__"] /\
  get_attr ["__class__"; "__init__"] "Ψ_ps" = Ok (Elem "psi_matrix" 0 1) /\
  get_attr ["__class__"; "__init__"] "psi_matrix_t_12" = Ok (Elem "psi_matrix_t" 0 1) /\
  get_attr ["__class__"; "__init__"] "mueller_matrix_34" = Ok (Elem "mueller_matrix" 2 3) /\
  get_attr ["__class__"; "__init__"] "ρ" = Ok (Whole "rho") /\
  get_attr ["__class__"; "__init__"] "psi_t_pp" = Err IndexError /\
  get_attr ["__class__"; "__init__"] "get_pp" = Err TypeError /\
  get_attr ["__class__"; "__init__"] "r_13" = Err IndexError /\
  get_attr ["__class__"; "__init__"] "Ψ_t" = Err ValueError /\
  get_attr ["__class__"; "__init__"] "foo_pp" = Err AttributeError.
Proof. split; [repeat constructor; eexists; reflexivity|]. repeat split. Qed.
