From Coq Require Import Reals List Arith Bool Lia Permutation.
From Coquelicot Require Import Complex.
From Verif.Base Require Import Py Cx.
From Verif.Model Require Import DispAdd.
From Verif.Spec Require Import Adding.
From Verif.Proof Require Import DispAddP.
Import ListNotations.
Open Scope R_scope.
Open Scope C_scope.
Open Scope list_scope.
Open Scope nat_scope.

Lemma reach_inv h : reachable h -> inv h.
Proof. intros [cs ->]. apply run_inv, inv_nil. Qed.

Lemma reach_flat h : reachable h -> flat h.
Proof.
  intros Rh s k ps p Hs P. pose proof (reach_inv h Rh s _ Hs) as G. simpl in G.
  rewrite Forall_forall in G. now apply G.
Qed.

Lemma get_diel_eps h r o lbda : nth_error h r = Some o -> okind o = KEps ->
  get_dielectric h r lbda = value h r lbda.
Proof. intros H K. unfold get_dielectric. rewrite H. destruct o; try discriminate; now rewrite K. Qed.
Lemma get_n_idx h r o lbda : nth_error h r = Some o -> okind o = KIdx ->
  get_refractive_index h r lbda = value h r lbda.
Proof. intros H K. unfold get_refractive_index. rewrite H. now rewrite K. Qed.

Lemma optics_value h r lbda : optics h r lbda = value h r lbda.
Proof.
  unfold optics. destruct (nth_error h r) as [o|] eqn:H.
  - destruct (okind o) eqn:K; [eapply get_diel_eps; eauto|eapply get_n_idx; eauto].
  - unfold value. rewrite (eval_S 3), H. reflexivity.
Qed.
Lemma operand_optics_oval h o lbda : operand_optics h o lbda = oval h o lbda.
Proof. destruct o; simpl; auto. apply optics_value. Qed.

Lemma total_osum l : total l = osum l.
Proof.
  induction l as [|[x|] l IH]; [reflexivity| |].
  - change (Some x :: l) with ([Some x] ++ l). rewrite osum_app, osum_one, <- IH.
    simpl. unfold oplus. destruct (total l); reflexivity.
  - change (None :: l) with ([None] ++ l). rewrite osum_app, osum_one. reflexivity.
Qed.

Lemma osum_perm l l' : Permutation l l' -> osum l = osum l'.
Proof.
  intros P. induction P as [|x l l' P IH|x y l|l1 l2 l3 P1 IH1 P2 IH2]; auto.
  - change (x :: l) with ([x] ++ l). change (x :: l') with ([x] ++ l'). now rewrite !osum_app, IH.
  - change (y :: x :: l) with ([y] ++ [x] ++ l). change (x :: y :: l) with ([x] ++ [y] ++ l).
    rewrite !osum_app, !oplus_assoc. f_equal. apply oplus_comm.
  - congruence.
Qed.

(** ** Several sums of one kind change *)
Lemma value_frame_kind h h' k (S : nat -> Prop) x o lbda : inv h -> inv h' ->
  (forall y oy, nth_error h y = Some oy -> ~ S y -> nth_error h' y = Some oy) ->
  (forall y, S y -> exists ps, nth_error h y = Some (Sum k ps)) ->
  nth_error h x = Some o -> okind o = k -> ~ S x -> value h' x lbda = value h x lbda.
Proof.
  intros I I' F HS Hx K N.
  assert (NS : forall y oy, nth_error h y = Some oy -> is_sum oy = false -> ~ S y).
  { intros y oy Hy Sy A. destruct (HS y A) as (ps & B). rewrite Hy in B. injection B as ->. discriminate. }
  assert (LV : forall y ky c v, nth_error h y = Some (Leaf ky c v) -> value h' y lbda = value h y lbda).
  { intros y ky c v Hy. rewrite (value_leaf h y lbda ky c v Hy).
    apply (value_leaf h' y lbda ky c v). apply F; auto. eapply NS; eauto. }
  assert (IV : k = KIdx -> forall y t, nth_error h y = Some (AsIdx t) -> value h' y lbda = value h y lbda).
  { intros -> y t Hy. assert (Hy' : nth_error h' y = Some (AsIdx t)) by (apply F; auto; eapply NS; eauto).
    rewrite (value_asidx h y lbda t I Hy), (value_asidx h' y lbda t I' Hy').
    destruct (I _ _ Hy) as (ot & Ht & Kt).
    assert (Nt : ~ S t).
    { intros A. destruct (HS t A) as (ps & B). rewrite Ht in B. injection B as ->. discriminate. }
    f_equal. destruct ot as [kt c v|kt ps|t2]; simpl in Kt; try discriminate; [eapply LV; eauto|].
    subst kt. rewrite (value_sum h t lbda _ _ I Ht), (value_sum h' t lbda _ _ I' (F _ _ Ht Nt)).
    f_equal. apply map_ext_in. intros p P. pose proof (I _ _ Ht) as G. simpl in G.
    rewrite Forall_forall in G. destruct (G p P) as (op & A & B & D).
    destruct op as [kp c v|kp pp|tp]; try discriminate. eapply LV; eauto. }
  destruct o as [kx c v|kx ps|t].
  - eapply LV; eauto.
  - simpl in K. subst kx.
    rewrite (value_sum h x lbda _ _ I Hx), (value_sum h' x lbda _ _ I' (F _ _ Hx N)).
    f_equal. apply map_ext_in. intros p P. pose proof (I _ _ Hx) as G. simpl in G.
    rewrite Forall_forall in G. destruct (G p P) as (op & A & B & D).
    destruct op as [kp c v|kp pp|tp]; try discriminate; [eapply LV; eauto|]. eapply IV; eauto.
  - eapply IV; eauto.
Qed.

(** ** The kinds of the operands of a successful addition agree. *)
Definition has_kind (h : heap) (k : kind) (o : operand) : Prop :=
  match o with
  | ONum _ => True
  | ORef r => exists x, nth_error h r = Some x /\ okind x = k
  | OOther => False
  end.

Lemma has_kind_ext h h' k o : extends h h' -> has_kind h k o -> has_kind h' k o.
Proof.
  intros X. destruct o as [n|r|]; simpl; auto. intros (x & A & B).
  destruct (X r x A) as (x' & A' & B' & _). exists x'. split; congruence.
Qed.

Lemma sum_add_kind h s k ps o h' a : nth_error h s = Some (Sum k ps) ->
  sum_add h s o = (h', Ok a) -> has_kind h k o.
Proof.
  intros Hs. unfold sum_add. rewrite Hs. destruct o as [n|r|]; simpl; auto; [|discriminate].
  destruct (nth_error h r) as [o|] eqn:Hr; [|discriminate].
  destruct (kind_eqb (okind o) k) eqn:K; [|discriminate]. apply kind_eqb_eq in K. intros _. eauto.
Qed.

Lemma disp_add_kind h x o h' a : inv h -> disp_add h x o = (h', Ok a) ->
  exists k, has_kind h k (ORef x) /\ has_kind h k o /\ has_kind h' k a.
Proof.
  intros I E. assert (A : added h (ORef x) o h' a) by now apply disp_add_ok.
  assert (NK : forall h0 k ops h2 b, inv h0 -> (forall y, In (ORef y) ops -> y < length h0) ->
      new_sum h0 k ops = (h2, Ok b) -> has_kind h2 k b).
  { intros h0 k ops h2 b I0 L E0. destruct (new_sum_made h0 k ops I0) as (_ & _ & V).
    rewrite E0 in V. simpl in V. destruct (V b eq_refl L) as (ps & -> & B & _).
    simpl. eauto. }
  unfold disp_add in E. destruct (nth_error h x) as [ox|] eqn:Hx; [|discriminate].
  pose proof (nth_lt _ _ _ Hx) as Lx.
  assert (NN : forall k n, okind ox = k -> new_sum (h ++ [const_leaf k n]) k [ORef x; ORef (length h)] = (h', Ok a) ->
     exists k, has_kind h k (ORef x) /\ has_kind h k (ONum n) /\ has_kind h' k a).
  { intros k n K E0. exists k. split; [simpl; eauto|]. split; [exact Logic.I|].
    eapply NK; [|  |exact E0].
    - apply inv_app; auto. apply good_const.
    - intros y [Y|[Y|[]]]; injection Y as <-; rewrite app_length; simpl; lia. }
  assert (N2 : forall k y oy z w, okind ox = k -> nth_error h y = Some oy -> okind oy = k ->
     (z = x /\ w = y \/ z = y /\ w = x) ->
     new_sum h k [ORef z; ORef w] = (h', Ok a) ->
     exists k, has_kind h k (ORef x) /\ has_kind h k (ORef y) /\ has_kind h' k a).
  { intros k y oy z w K Hy Ky ZW E0. exists k. split; [simpl; eauto|]. split; [simpl; eauto|].
    eapply NK; [exact I|  |exact E0]. apply nth_lt in Hy.
    intros q [Y|[Y|[]]]; injection Y as <-; destruct ZW as [[-> ->]|[-> ->]]; auto. }
  assert (P : forall k, okind ox = k -> plain_add h x k o = (h', Ok a) ->
     exists k, has_kind h k (ORef x) /\ has_kind h k o /\ has_kind h' k a).
  { clear E. intros k K E. unfold plain_add in E. destruct o as [n|r|]; [eapply NN; eauto| |discriminate].
    destruct (nth_error h r) as [or|] eqn:Hr; [|discriminate].
    destruct (kind_eqb (okind or) k) eqn:Kr; [|discriminate]. apply kind_eqb_eq in Kr.
    destruct or as [k2 [] v2|k2 ps|sr]; try (eapply (N2 k r _ x r); eauto; fail).
    - unfold table_add in E. rewrite Hx, K, kind_eqb_refl in E.
      destruct ox as [k3 [] v3|k3 p3|s3]; try discriminate; eapply (N2 k r _ r x); eauto.
    - injection E as <- <-. exists k. split; [simpl; eauto|]. split; [simpl; eauto|].
      simpl. rewrite update_same by (eapply nth_lt; eauto). eauto. }
  destruct ox as [k c v|k ps|s].
  - destruct c; [eapply P; eauto| |discriminate]. unfold table_add in E.
    destruct o as [n|r|]; [destruct k; [eapply NN; eauto|discriminate]| |discriminate].
    destruct (nth_error h r) as [or|] eqn:Hr; [|discriminate].
    destruct (kind_eqb (okind or) k) eqn:Kr; [|discriminate]. apply kind_eqb_eq in Kr.
    destruct or as [k2 [] v2|k2 ps|sr]; try discriminate; eapply (N2 k r _ x r); eauto.
  - exists k. split; [simpl; eauto|]. split; [eapply sum_add_kind; eauto|].
    destruct (sum_add_ok h x k ps o h' a I Hx E) as [-> [_ _ _ _ (ps' & B & _)]]. simpl. eauto.
  - eapply P; eauto.
Qed.

Lemma py_add_kind h l r h' a : inv h -> py_add h l r = (h', Ok a) ->
  exists k, has_kind h k l /\ has_kind h k r /\ has_kind h' k a.
Proof.
  intros I. unfold py_add. destruct l as [x|x|], r as [y|y|]; try discriminate.
  - intros E. injection E as <- <-. exists KEps. simpl. auto.
  - intros E. destruct (disp_add_kind _ _ _ _ _ I E) as (k & A & B & D). exists k. auto.
  - intros E. now apply disp_add_kind.
  - intros E. now apply disp_add_kind.
  - intros E. now apply disp_add_kind.
  - intros E. destruct (disp_add_kind _ _ _ _ _ I E) as (k & A & B & D). destruct B.
Qed.

(** ** Expressions *)
Record done (h : heap) (e : expr) (h' : heap) (a : operand) : Prop := {
  dn_inv : inv h';
  dn_ext : extends h h';
  dn_same : forall x o, nth_error h x = Some o -> ~ In x (sum_operands h (operands e)) ->
     nth_error h' x = Some o;
  dn_kind : exists k, has_kind h' k a /\ Forall (has_kind h k) (operands e);
  dn_num : (forall r, a <> ORef r) -> forall r, ~ In (ORef r) (operands e);
  dn_ref : forall r, a = ORef r -> length h <= r \/ In (ORef r) (operands e);
  dn_val : forall lbda, oval h' a lbda = osum (map (fun o => oval h o lbda) (operands e))
}.

Lemma in_sum_operands h l x : In x (sum_operands h l) <-> In (ORef x) l /\ sum_at h x = true.
Proof.
  unfold sum_operands. rewrite in_flat_map. split.
  - intros (o & A & B). destruct o as [n|r|]; simpl in B; try tauto.
    destruct (sum_at h r) eqn:E; [|tauto]. destruct B as [->|[]]. auto.
  - intros [A B]. exists (ORef x). split; auto. simpl. rewrite B. now left.
Qed.

Lemma sum_at_ext h h' x : extends h h' -> x < length h -> sum_at h' x = sum_at h x.
Proof.
  intros X L. unfold sum_at. destruct (nth_error h x) as [o|] eqn:E; [|apply nth_error_None in E; lia].
  destruct (X x o E) as (o' & A & B & D & F). rewrite A. destruct o, o'; try discriminate; auto.
Qed.

Lemma sum_operands_ext h h' l : extends h h' -> Forall (exists_in h) l ->
  sum_operands h' l = sum_operands h l.
Proof.
  intros X F. unfold sum_operands. induction F as [|o l A F IH]; auto. simpl. rewrite IH. f_equal.
  destruct o as [n|r|]; simpl in *; auto. now rewrite (sum_at_ext h h' r X A).
Qed.

Lemma sum_at_kind h x k o : sum_at h x = true -> nth_error h x = Some o -> okind o = k ->
  exists ps, nth_error h x = Some (Sum k ps).
Proof.
  unfold sum_at. intros S H K. rewrite H in S. destruct o; try discriminate. simpl in K. subst. eauto.
Qed.

Lemma extends_len h h' : extends h h' -> length h <= length h'.
Proof.
  intros X. destruct (Nat.le_gt_cases (length h) (length h')) as [L|L]; auto. exfalso.
  destruct (nth_error h (length h')) as [o|] eqn:E.
  - destruct (X _ _ E) as (o' & A & _). apply nth_lt in A. lia.
  - apply nth_error_None in E. lia.
Qed.

Lemma NoDup_app_parts (a b : list nat) : NoDup (a ++ b) ->
  NoDup a /\ NoDup b /\ forall x, In x a -> ~ In x b.
Proof.
  induction a as [|x a IH]; simpl; intros N.
  - split; [constructor|]. split; auto.
  - inversion N as [|? ? A B]; subst. destruct (IH B) as (P & Q & S).
    split; [constructor; auto; intros D; apply A; apply in_or_app; auto|]. split; auto.
    intros y [<-|Y]; auto. intros D. apply A. apply in_or_app. auto.
Qed.

Lemma leaf_done h o k : inv h -> has_kind h k o -> done h (EVal o) h o.
Proof.
  intros I K. constructor; simpl.
  - auto.
  - apply extends_refl.
  - auto.
  - exists k. auto.
  - intros N r [->|[]]. now apply (N r).
  - intros r ->. auto.
  - intros. now rewrite osum_one.
Qed.

Lemma num_dec (a : operand) : (exists r, a = ORef r) \/ (forall r, a <> ORef r).
Proof. destruct a as [n|r|]; [right; discriminate|left; eauto|right; discriminate]. Qed.

Lemma add_done h e1 e2 h1 a1 h2 a2 h3 a : inv h ->
  Forall (exists_in h) (operands e1) -> Forall (exists_in h) (operands e2) ->
  NoDup (sum_operands h (operands e1 ++ operands e2)) ->
  done h e1 h1 a1 -> done h1 e2 h2 a2 -> py_add h2 a1 a2 = (h3, Ok a) ->
  done h (EAdd e1 e2) h3 a.
Proof.
  intros I L1 L2 ND D1 D2 E.
  destruct D1 as [I1 X1 F1 (k1 & K1 & G1) N1 R1 V1], D2 as [I2 X2 F2 (k2 & K2 & G2) N2 R2 V2].
  unfold sum_operands in ND. rewrite flat_map_app in ND. fold (sum_operands h (operands e1)) in ND.
  fold (sum_operands h (operands e2)) in ND.
  apply NoDup_app_parts in ND as (ND1 & ND2 & DJ).
  assert (SO2 : sum_operands h1 (operands e2) = sum_operands h (operands e2))
    by (apply sum_operands_ext; auto).
  assert (L2' : forall r, In (ORef r) (operands e2) -> r < length h).
  { intros r A. rewrite Forall_forall in L2. exact (L2 _ A). }
  assert (L1' : forall r, In (ORef r) (operands e1) -> r < length h).
  { intros r A. rewrite Forall_forall in L1. exact (L1 _ A). }
  assert (NO1 : ~ In OOther (operands e1)) by (rewrite Forall_forall in G1; intros A; exact (G1 _ A)).
  assert (NO2 : ~ In OOther (operands e2)) by (rewrite Forall_forall in G2; intros A; exact (G2 _ A)).
  pose proof (extends_len _ _ X1) as Len1. pose proof (extends_len _ _ X2) as Len2.
  (* kinds *)
  destruct (py_add_kind h2 a1 a2 h3 a I2 E) as (k & Ka1 & Ka2 & Ka).
  assert (E1 : forall r, In (ORef r) (operands e1) -> has_kind h k (ORef r)).
  { intros r A. destruct (num_dec a1) as [(q & ->)|B]; [|exfalso; exact (N1 B r A)].
    destruct K1 as (o & Q1 & Q2). destruct Ka1 as (o' & Q3 & Q4).
    destruct (X2 q o Q1) as (o'' & Q5 & Q6 & _).
    assert (k1 = k) as <- by congruence. rewrite Forall_forall in G1. now apply G1. }
  assert (E2 : forall r, In (ORef r) (operands e2) -> has_kind h k (ORef r)).
  { intros r A. destruct (num_dec a2) as [(q & ->)|B]; [|exfalso; exact (N2 B r A)].
    destruct K2 as (o & Q1 & Q2). destruct Ka2 as (o' & Q3 & Q4).
    assert (k2 = k) as <- by congruence. rewrite Forall_forall in G2.
    destruct (G2 _ A) as (o2 & Q5 & Q6). specialize (L2' r A).
    destruct (nth_error h r) as [oo|] eqn:Or; [|apply nth_error_None in Or; lia].
    destruct (X1 r oo Or) as (o3 & Q7 & Q8 & _). exists oo. split; [auto|congruence]. }
  assert (S1 : forall y, In y (sum_operands h (operands e1)) -> exists ps, nth_error h y = Some (Sum k ps)).
  { intros y A. apply in_sum_operands in A as [A B]. destruct (E1 y A) as (o & P & Q).
    eapply sum_at_kind; eauto. }
  assert (S2 : forall y, In y (sum_operands h1 (operands e2)) -> exists ps, nth_error h1 y = Some (Sum k ps)).
  { intros y A. apply in_sum_operands in A as [A B].
    destruct (has_kind_ext h h1 k (ORef y) X1 (E2 y A)) as (o & P & Q). eapply sum_at_kind; eauto. }
  (* values of the operands of e2 are not changed by e1 *)
  assert (VO : forall o lbda, In o (operands e2) -> oval h1 o lbda = oval h o lbda).
  { intros [n|r|] lbda A; simpl; auto. destruct (E2 r A) as (o & P & Q).
    apply (value_frame_kind h h1 k (fun y => In y (sum_operands h (operands e1))) r o lbda); auto.
    intros B. apply (DJ r B). apply in_sum_operands. apply in_sum_operands in B. tauto. }
  assert (VA : forall lbda, oval h2 a1 lbda = oval h1 a1 lbda).
  { intros lbda. destruct a1 as [n|r|]; simpl; auto. destruct K1 as (o & P & Q).
    assert (Kr : okind o = k).
    { destruct Ka1 as (o' & Q3 & Q4). destruct (X2 r o P) as (o'' & Q5 & Q6 & _). congruence. }
    apply (value_frame_kind h1 h2 k (fun y => In y (sum_operands h1 (operands e2))) r o lbda); auto.
    rewrite SO2. intros B. apply in_sum_operands in B as [B B'].
    destruct (R1 r eq_refl) as [C|C].
    - specialize (L2' r B). lia.
    - apply (DJ r); apply in_sum_operands; auto. }
  assert (Fin : forall x o, nth_error h x = Some o -> ~ In x (sum_operands h (operands (EAdd e1 e2))) ->
     nth_error h2 x = Some o /\ ~ (sum_at h2 x = true /\ (a1 = ORef x \/ a2 = ORef x))).
  { intros x o Hx N. simpl in N. pose proof (nth_lt _ _ _ Hx) as Lx.
    assert (N' : ~ In x (sum_operands h (operands e1)) /\ ~ In x (sum_operands h (operands e2))).
    { rewrite !in_sum_operands in *. split; intros [A B]; apply N; split; auto; apply in_or_app; auto. }
    destruct N' as [Na Nb].
    assert (H2 : nth_error h2 x = Some o) by (apply F2; [now apply F1|now rewrite SO2]).
    split; [auto|]. intros [S A]. apply N. apply in_sum_operands. split.
    - apply in_or_app. destruct A as [->| ->].
      + destruct (R1 x eq_refl) as [C|C]; [lia|auto].
      + destruct (R2 x eq_refl) as [C|C]; [lia|auto].
    - unfold sum_at in *. rewrite Hx. now rewrite H2 in S. }
  assert (Vsum : forall lbda, osum (map (fun o => oval h o lbda) (operands e1 ++ operands e2)) =
     oplus (oval h2 a1 lbda) (oval h2 a2 lbda)).
  { intros lbda. rewrite map_app, osum_app, VA, V1, V2. f_equal. f_equal. apply map_ext_in.
    intros o A. symmetry. now apply VO. }
  assert (GA : Forall (has_kind h k) (operands e1 ++ operands e2)).
  { rewrite Forall_forall. intros [n|r|] A; [exact Logic.I| |]; apply in_app_or in A.
    - destruct A; auto.
    - tauto. }
  destruct (py_add_ok h2 a1 a2 h3 a I2 E) as [(x & y & -> & -> & -> & ->)|AD].
  - constructor; auto.
    + eapply extends_trans; eauto.
    + intros z o Hz N. now apply Fin.
    + exists k. auto.
    + intros _ r A. simpl in A. apply in_app_or in A as [A|A]; [eapply N1|eapply N2]; eauto; discriminate.
    + discriminate.
    + intros lbda. simpl operands. rewrite Vsum. simpl. unfold oplus; simpl. f_equal.
      apply RtoC_plus.
  - destruct AD as [I3 Len3 X3 F3 (s & ks & ps & -> & Hs & Rs) V3]. constructor; auto.
    + eapply extends_trans; [exact X1|]. eapply extends_trans; eauto.
    + intros z o Hz N. destruct (Fin z o Hz N) as [A B]. apply F3; auto.
      intros [C (kk & pp & D)]. apply B. split; [unfold sum_at; now rewrite D|tauto].
    + exists k. auto.
    + intros N. exfalso. now apply (N s).
    + intros r A. injection A as <-. destruct Rs as [C|[C D]]; [left; lia|].
      simpl. destruct C as [->| ->].
      * destruct (R1 s eq_refl) as [P|P]; [now left|right; apply in_or_app; auto].
      * destruct (R2 s eq_refl) as [P|P]; [left; lia|right; apply in_or_app; auto].
    + intros lbda. simpl operands. now rewrite Vsum, V3.
Qed.

Lemma exists_kind h o : exists_in h o -> o <> OOther -> exists k, has_kind h k o.
Proof.
  destruct o as [n|r|]; simpl; intros L N.
  - exists KEps. auto.
  - destruct (nth_error h r) as [x|] eqn:E; [|apply nth_error_None in E; lia].
    exists (okind x), x. auto.
  - congruence.
Qed.

Lemma exists_ext h h' l : extends h h' -> Forall (exists_in h) l -> Forall (exists_in h') l.
Proof.
  intros X F. pose proof (extends_len _ _ X). eapply Forall_impl; [|exact F].
  intros [n|r|]; simpl; auto. lia.
Qed.

Lemma expr_done : forall e h h' a, inv h -> Forall (exists_in h) (operands e) ->
  NoDup (sum_operands h (operands e)) -> eval_expr h e = (h', Ok a) ->
  e = EVal OOther /\ h' = h /\ a = OOther \/ done h e h' a.
Proof.
  induction e as [o|e1 IH1 e2 IH2]; intros h h' a I L ND E.
  - injection E as <- <-. inversion L as [|? ? A _]; subst.
    destruct o as [n|r|]; [right|right|left; auto];
      (destruct (exists_kind h _ A) as (k & K); [discriminate|]; eapply leaf_done; eauto).
  - simpl in E. simpl operands in L, ND. apply Forall_app in L as [L1 L2].
    destruct (eval_expr h e1) as [h1 [a1|x1]] eqn:E1; [|discriminate].
    destruct (eval_expr h1 e2) as [h2 [a2|x2]] eqn:E2; [|discriminate].
    pose proof ND as ND0.
    unfold sum_operands in ND0. rewrite flat_map_app in ND0.
    apply NoDup_app_parts in ND0 as (ND1 & ND2 & _).
    destruct (IH1 h h1 a1 I L1 ND1 E1) as [(-> & -> & ->)|D1].
    { exfalso. clear IH1. destruct (IH2 h h2 a2 I L2 ND2 E2) as [(-> & -> & ->)|D2]; [discriminate|].
      destruct (py_add_kind _ _ _ _ _ (dn_inv _ _ _ _ D2) E) as (k & [] & _). }
    pose proof (dn_inv _ _ _ _ D1) as I1. pose proof (dn_ext _ _ _ _ D1) as X1.
    destruct (IH2 h1 h2 a2 I1 (exists_ext _ _ _ X1 L2)) as [(-> & -> & ->)|D2].
    { rewrite sum_operands_ext with (h := h); auto. }
    { auto. }
    { exfalso. destruct (py_add_kind _ _ _ _ _ I1 E) as (k & _ & [] & _). }
    right. eapply add_done; eauto.
Qed.

Lemma expr_value e h h' a : inv h -> Forall (exists_in h) (operands e) ->
  NoDup (sum_operands h (operands e)) -> eval_expr h e = (h', Ok a) ->
  forall lbda, operand_optics h' a lbda = total (map (fun o => operand_optics h o lbda) (operands e)).
Proof.
  intros I L ND E lbda. rewrite total_osum, operand_optics_oval.
  rewrite (map_ext _ _ (fun o => operand_optics_oval h o lbda)).
  destruct (expr_done e h h' a I L ND E) as [(-> & -> & ->)|D].
  - simpl. now rewrite osum_one.
  - apply D.
Qed.

Lemma total_perm l l' : Permutation l l' -> total l = total l'.
Proof. rewrite !total_osum. apply osum_perm. Qed.

Lemma expr_frame e h h' a x o : inv h -> Forall (exists_in h) (operands e) ->
  NoDup (sum_operands h (operands e)) -> eval_expr h e = (h', Ok a) ->
  nth_error h x = Some o -> ~ In x (sum_operands h (operands e)) -> nth_error h' x = Some o.
Proof.
  intros I L ND E Hx N. destruct (expr_done e h h' a I L ND E) as [(-> & -> & ->)|D]; auto.
  now apply (dn_same _ _ _ _ D).
Qed.

(** ** One addition *)
Lemma py_add_value h l r h' a : inv h -> py_add h l r = (h', Ok a) ->
  forall lbda, operand_optics h' a lbda = total [operand_optics h l lbda; operand_optics h r lbda].
Proof.
  intros I E lbda. rewrite total_osum, osum_two, !operand_optics_oval.
  destruct (py_add_ok _ _ _ _ _ I E) as [(x & y & -> & -> & -> & ->)|A]; [|apply A].
  simpl. unfold oplus; simpl. f_equal. apply RtoC_plus.
Qed.

Definition not_sum (h : heap) (o : operand) : Prop := sum_operand h o = [].

Lemma not_mutated h l r x : not_sum h l -> not_sum h r -> ~ mutated h l r x.
Proof.
  unfold not_sum. intros A B [[->| ->] (k & ps & H)]; [clear B|clear A]; simpl in *;
    unfold sum_at in *; rewrite H in *; discriminate.
Qed.

Lemma py_add_frame h l r h' res0 : inv h -> py_add h l r = (h', res0) ->
  not_sum h l -> not_sum h r -> exists e, h' = h ++ e.
Proof.
  intros I E NL NR.
  assert (S : forall x o, nth_error h x = Some o -> nth_error h' x = Some o).
  { destruct res0 as [a|e].
    - destruct (py_add_ok _ _ _ _ _ I E) as [(x & y & -> & -> & -> & ->)|A]; [auto|].
      intros x o H. apply A; auto. now apply not_mutated.
    - apply py_add_err in E as ->; auto. }
  clear E. exists (skipn (length h) h').
  assert (F : firstn (length h) h' = h).
  { clear I NL NR. revert h' S. induction h as [|o h IH]; intros h' S; [reflexivity|].
    destruct h' as [|o' h']; [pose proof (S 0 o eq_refl); discriminate|].
    simpl. pose proof (S 0 o eq_refl) as Q. injection Q as ->. f_equal. apply IH.
    intros x y H. exact (S (Datatypes.S x) y H). }
  rewrite <- F at 1. symmetry. apply firstn_skipn.
Qed.

Lemma get_diel_app h e x lbda : inv h -> inv (h ++ e) -> x < length h ->
  get_dielectric (h ++ e) x lbda = get_dielectric h x lbda /\
  get_refractive_index (h ++ e) x lbda = get_refractive_index h x lbda.
Proof.
  intros I I' L. assert (V : forall y, y < length h -> value (h ++ e) y lbda = value h y lbda)
    by (intros; now apply value_app).
  unfold get_refractive_index, get_dielectric. rewrite nth_error_app1 by auto.
  destruct (nth_error h x) as [[k c v|k ps|s]|] eqn:E; auto.
  - rewrite V; auto.
  - rewrite V; auto.
  - destruct (I _ _ E) as (o & A & _). apply nth_lt in A. simpl. rewrite !V; auto.
Qed.

Lemma py_add_inv h l r : inv h -> inv (fst (py_add h l r)).
Proof. intros I. exact (exec_inv h (CAdd l r) I). Qed.

Lemma mixed_err h x y ox oy : nth_error h x = Some ox -> nth_error h y = Some oy ->
  okind ox <> okind oy ->
  py_add h (ORef x) (ORef y) = (h, Err match ox with Leaf _ LPseudo _ => NotImplementedError | _ => TypeError end).
Proof.
  intros Hx Hy N. unfold py_add, disp_add. rewrite Hx.
  assert (K : forall k, okind ox = k -> kind_eqb (okind oy) k = false).
  { intros k <-. destruct (kind_eqb (okind oy) (okind ox)) eqn:E; auto. apply kind_eqb_eq in E. congruence. }
  destruct ox as [k c v|k ps|s].
  - destruct c; [unfold plain_add|unfold table_add|reflexivity]; rewrite Hy, K; auto.
  - unfold sum_add. rewrite Hx, Hy, K; auto.
  - unfold plain_add. rewrite Hy, K; auto.
Qed.

(** ** Tables *)
Lemma table_sum h t k v o : inv h -> nth_error h t = Some (Leaf k LTable v) ->
  (exists x, o = ONum x /\ k = KEps) \/
  (exists r x, o = ORef r /\ nth_error h r = Some x /\ okind x = k /\ (forall v', x <> Leaf k LTable v')) ->
  exists h' s, py_add h (ORef t) o = (h', Ok (ORef s)) /\ length h <= s.
Proof.
  intros I Ht Ho. unfold py_add, disp_add. rewrite Ht. unfold table_add.
  assert (Q : forall h0 r, inv h0 -> nth_error h0 t = Some (Leaf k LTable v) -> length h <= length h0 ->
     (exists x, nth_error h0 r = Some x /\ okind x = k) ->
     exists h' s, new_sum h0 k [ORef t; ORef r] = (h', Ok (ORef s)) /\ length h <= s).
  { intros h0 r I0 Ht0 L0 Hr. destruct (new_sum_ok2 h0 k t r I0) as (h' & a & E); [eexists; eauto|auto|].
    destruct (new_sum_made h0 k [ORef t; ORef r] I0) as (_ & _ & V). rewrite E in V. simpl in V.
    destruct (V a eq_refl) as (ps & -> & _).
    { destruct Hr as (x & Hr & _). apply nth_lt in Hr, Ht0.
      intros y [Y|[Y|[]]]; injection Y as <-; auto. }
    eauto. }
  destruct Ho as [(x & -> & ->)|(r & x & -> & Hr & K & N)].
  - apply Q.
    + apply inv_app; auto. apply good_const.
    + now apply app_old.
    + rewrite app_length. lia.
    + eexists. split; [apply app_new|auto].
  - rewrite Hr, K, kind_eqb_refl. destruct x as [k2 c2 v2|k2 ps|s2]; simpl in K.
    + subst k2. destruct c2; [| |]; try (apply Q; eauto; fail). exfalso. now apply (N v2).
    + apply Q; eauto.
    + apply Q; eauto.
Qed.

(** ** as_index *)
Lemma as_index_spec h r h' x : inv h -> as_index h r = (h', Ok (ORef x)) ->
  exists o, nth_error h r = Some o /\ okind o = KEps /\ x = length h /\ h' = h ++ [AsIdx r].
Proof.
  intros I. unfold as_index. destruct (nth_error h r) as [[[] [] v|[] ps|s]|] eqn:E; try discriminate;
    intros Q; injection Q as <- <-; eexists; (split; [reflexivity|auto]).
Qed.

Lemma exec_extends h c : inv h -> extends h (exec h c).
Proof.
  intros I. destruct c as [k c v|k ops|r|l r]; simpl.
  - destruct k, c; auto using extends_refl, extends_app.
  - destruct (new_sum_made h k ops I) as [[] _]. auto.
  - unfold as_index. destruct (nth_error h r) as [[[] [] v|[] ps|s]|] eqn:E; simpl;
      auto using extends_refl, extends_app.
  - destruct (py_add h l r) as [h' [a|e]] eqn:E; simpl.
    + destruct (py_add_ok h l r h' a I E) as [(x & y & _ & _ & _ & ->)|[]]; auto using extends_refl.
    + rewrite (py_add_err h l r h' e I E). apply extends_refl.
Qed.

Lemma run_extends cs : forall h, inv h -> extends h (fold_left exec cs h).
Proof.
  induction cs as [|c cs IH]; simpl; intros h I; [apply extends_refl|].
  eapply extends_trans; [now apply exec_extends|]. apply IH. now apply exec_inv.
Qed.

Lemma asidx_obs h x r lbda : inv h -> nth_error h x = Some (AsIdx r) ->
  get_dielectric h x lbda = get_dielectric h r lbda /\
  get_refractive_index h x lbda = get_refractive_index h r lbda.
Proof.
  intros I H. destruct (I _ _ H) as (o & A & K).
  assert (D : get_dielectric h x lbda = get_dielectric h r lbda).
  { rewrite (get_diel_eps h r o lbda A K). unfold get_dielectric. now rewrite H. }
  split; auto. rewrite (get_n_idx h x (AsIdx r) lbda H eq_refl).
  rewrite (value_asidx h x lbda r I H). unfold get_refractive_index. rewrite A, K.
  now rewrite (get_diel_eps h r o lbda A K).
Qed.

(** ** n^2 = eps *)
Lemma n_sqr h r lbda : inv h ->
  get_dielectric h r lbda = match get_refractive_index h r lbda with Some n => Some (n * n)%C | None => None end.
Proof.
  intros I. unfold get_refractive_index. destruct (nth_error h r) as [o|] eqn:H.
  2: { unfold get_dielectric. now rewrite H. }
  destruct (okind o) eqn:K.
  - destruct (get_dielectric h r lbda) as [e|]; simpl; auto. f_equal. symmetry. apply Csqrt_sqr.
  - destruct o as [k c v|k ps|s]; simpl in K.
    + unfold get_dielectric. rewrite H. simpl. rewrite K. reflexivity.
    + unfold get_dielectric. rewrite H. simpl. rewrite K. reflexivity.
    + unfold get_dielectric. rewrite H. rewrite (value_asidx h r lbda s I H).
      destruct (value h s lbda); simpl; auto. f_equal. symmetry. apply Csqrt_sqr.
Qed.

Lemma n_root h r o lbda n : inv h -> nth_error h r = Some o ->
  okind o = KEps \/ (exists s, o = AsIdx s) -> get_refractive_index h r lbda = Some n ->
  exists e, get_dielectric h r lbda = Some e /\ n = Csqrt e.
Proof.
  intros I H K E. unfold get_refractive_index in E. rewrite H in E. destruct K as [K|[s ->]].
  - rewrite K in E. destruct (get_dielectric h r lbda) as [e|]; [|discriminate].
    injection E as <-. eauto.
  - simpl in E. rewrite (value_asidx h r lbda s I H) in E. unfold get_dielectric. rewrite H.
    destruct (value h s lbda) as [e|]; [|discriminate]. injection E as <-. eauto.
Qed.
