(** Lemmas for C100: the program of a whole structure. *)
From Coq Require Import Reals Lra Lia Arith.
From Coquelicot Require Import Complex.
From Coq Require Import List.
From Verif.Base Require Import Py Cx Mat Mexp Det.
From Verif.Model Require Import Units Ellips Structure Mixture Solver2 Solver4 Spectrum Spectrum4.
From Verif.Spec Require Import Pointwise Pointwise4.
From Verif.Proof Require Import SpectrumP SpectrumP2 SpectrumP3 Spectrum4P Spectrum4P2.
Import ListNotations.
Open Scope R_scope.
Open Scope C_scope.
Open Scope py_scope.

Definition gt (m : material) (x : R) : omat := gett (tensor_at m x).
Definition layer_gt (l : R * material) : layer_fn := (fst l, gt (snd l)).

Lemma stacked_gt L m (e : tensors) : Forall2 (fun x t => meq3 t (gett (tensor_at m x))) L e -> stacked L e (gt m).
Proof.
  intros F i j Hi Hj. unfold element. induction F as [|x t L e H F IH]; [reflexivity|]. cbn [map]. rewrite IH. f_equal. apply H; assumption.
Qed.

Lemma inner_stacked L : forall P : list (R * material),
  match rmapM (fun l => let* e := get_tensors (snd l) L in Ok (fst l, e)) (map (fun p => (Some (fst p), snd p)) P) with
  | Ok v => (forall l x, In l P -> In x L -> is_ok (tensor_at (snd l) x)) /\
      exists inner, inner_of v = Some inner /\ Forall2 (stacked_layer L) inner (map layer_gt P)
  | Err _ => exists l x, In l P /\ In x L /\ ~ is_ok (tensor_at (snd l) x)
  end.
Proof.
  induction P as [|l P IH]; [cbn; split; [intros l x []|exists []; split; [reflexivity|constructor]]|]. cbn [map rmapM fst snd].
  assert (T := tensors_spec L (snd l)). destruct (get_tensors (snd l) L) as [e|]; cbn [rbind].
  2:{ destruct T as (x & Hx & N). exists l, x. split; [now left|]. split; assumption. }
  destruct T as [T1 T2].
  match type of IH with match ?r with _ => _ end => destruct r as [v|] eqn:RM; rewrite ?RM end; cbn [rbind].
  - destruct IH as (I1 & inner & I2 & I3). split.
    + intros k x [<-|Hk] Hx; [now apply T1|now apply I1].
    + exists ((fst l, e) :: inner). cbn [inner_of]. rewrite I2. cbn [obind map]. split; [reflexivity|]. constructor; [|exact I3]. split; [reflexivity|]. cbn [snd layer_gt]. now apply stacked_gt.
  - destruct IH as (k & x & Hk & Hx & N). exists k, x. split; [now right|]. split; assumption.
Qed.

Section Eigen.
Variable eig : mat -> option ((nat -> C) * mat).

Definition at4 (p : propagator) (iso : bool) (th : R) (s : structure material) (x : R) : res (omat * omat) :=
  point4 eig p iso th x (gt (front_material s) x) (map (at_w x) (map layer_gt (inner_profile s))) (gt (back_material s) x).

Lemma evaluate4_spec p iso th s L :
  match evaluate4 eig p iso th s L with
  | Ok r => (forall x, In x L -> point_ok s x) /\ exists a, (forall x, In x L -> at4 p iso th s x = Ok (a x)) /\
      jones_r_arr r = map (fun x => fst (a x)) L /\ jones_t_arr r = map (fun x => snd (a x)) L /\
      power_arr r = map (fun x => power1 iso th (gt (front_material s) x) (gt (back_material s) x)) L
  | Err e => (exists x, In x L /\ ~ point_ok s x) \/ (e = LinAlgError /\ exists x, In x L /\ at4 p iso th s x = Err LinAlgError)
  end.
Proof.
  unfold evaluate4, tensors_of_profile. rewrite profile_shape. cbn [rmapM fst snd].
  assert (TF := tensors_spec L (front_material s)). destruct (get_tensors (front_material s) L) as [front|]; cbn [rbind].
  2:{ left. destruct TF as (x & Hx & N). exists x. split; [exact Hx|]. intros (K & _). contradiction. }
  rewrite rmapM_app. assert (TI := inner_stacked L (inner_profile s)).
  match type of TI with match ?r with _ => _ end => destruct r as [v|] eqn:RM; rewrite ?RM end; cbn [rbind].
  2:{ left. destruct TI as (l & x & Hl & Hx & N). exists x. split; [exact Hx|]. intros (_ & K & _). apply N, K. exact Hl. }
  cbn [rmapM fst snd]. assert (TB := tensors_spec L (back_material s)). destruct (get_tensors (back_material s) L) as [back|]; cbn [rbind].
  2:{ left. destruct TB as (x & Hx & N). exists x. split; [exact Hx|]. intros (_ & _ & K). contradiction. }
  rewrite removelast_last, last_last. cbn [snd]. destruct TF as [F1 F2], TB as [B1 B2], TI as (I1 & inner & I2 & I3). rewrite I2.
  assert (S := calculate4_spec eig p iso th L front inner back _ _ _ (stacked_gt _ _ _ F2) I3 (stacked_gt _ _ _ B2)).
  destruct (calculate4 eig p iso th L front inner back) as [r|e]; [|right; exact S].
  split; [intros x Hx; split; [now apply F1|]; split; [intros l Hl; now apply I1|now apply B1]|]. exact S.
Qed.

Lemma single_spec p iso th s x :
  match evaluate4 eig p iso th s [x] with
  | Ok r => point_ok s x /\ exists a, at4 p iso th s x = Ok a /\
      r = Result4Arrays [fst a] [snd a] [power1 iso th (gt (front_material s) x) (gt (back_material s) x)]
  | Err e => ~ point_ok s x \/ (e = LinAlgError /\ at4 p iso th s x = Err LinAlgError)
  end.
Proof.
  assert (S := evaluate4_spec p iso th s [x]). destruct (evaluate4 eig p iso th s [x]) as [r|e].
  - destruct S as (O & a & A & R1 & R2 & R3). split; [apply O; now left|]. exists (a x). split; [apply A; now left|].
    destruct r as [r1 r2 r3]. cbn [jones_r_arr jones_t_arr power_arr map] in *. congruence.
  - destruct S as [(y & [<-|[]] & N)|(-> & y & [<-|[]] & N)]; [left|right; split]; auto.
Qed.

Lemma single_ok p iso th s x a : point_ok s x -> at4 p iso th s x = Ok a ->
  evaluate4 eig p iso th s [x] = Ok (Result4Arrays [fst a] [snd a] [power1 iso th (gt (front_material s) x) (gt (back_material s) x)]).
Proof.
  intros O A. assert (S := single_spec p iso th s x). destruct (evaluate4 eig p iso th s [x]) as [r|e].
  - destruct S as (_ & a' & A' & ->). congruence.
  - destruct S as [S|(_ & S)]; [contradiction|congruence].
Qed.
Lemma single_err p iso th s x : point_ok s x -> at4 p iso th s x = Err LinAlgError -> evaluate4 eig p iso th s [x] = Err LinAlgError.
Proof.
  intros O A. assert (S := single_spec p iso th s x). destruct (evaluate4 eig p iso th s [x]) as [r|e].
  - destruct S as (_ & a' & A' & ->). congruence.
  - destruct S as [S|(-> & S)]; [contradiction|reflexivity].
Qed.

Lemma computable_ok s x : computable s x -> point_ok s x.
Proof.
  unfold computable. rewrite profile_shape. intros H. split; [apply (H _ (or_introl eq_refl))|]. split.
  - intros l Hl. apply (H (Some (fst l), snd l)). right. apply in_app_iff. left. apply in_map_iff. exists l. split; [reflexivity|exact Hl].
  - apply (H (None, back_material s)). right. apply in_app_iff. right. now left.
Qed.

Lemma has_tensor_gt m x e : has_tensor m x e -> is_ok (tensor_at m x) /\ sim 3 (gt m x) e.
Proof. intros (t & E & H). split; [exists t; exact E|]. unfold gt. rewrite E. exact H. Qed.

Lemma Forall2_len {A B} (P : A -> B -> Prop) l m : Forall2 P l m -> length l = length m.
Proof. induction 1; cbn; congruence. Qed.

Lemma sample_split s x f ls b : sample_at s x f ls b ->
  point_ok s x /\ sim 3 (gt (front_material s) x) f /\ sim 3 (gt (back_material s) x) b /\
  Forall2 (fun l l' => fst l = fst l' /\ sim 3 (snd l) (snd l')) (map (at_w x) (map layer_gt (inner_profile s))) ls.
Proof.
  unfold sample_at. rewrite profile_shape. intros F. inversion F as [|? ? ? ? [_ H0] F']; subst. cbn [snd] in H0.
  assert (HL := Forall2_len _ _ _ F'). rewrite !app_length, !map_length in HL. cbn [length] in HL.
  destruct (has_tensor_gt _ _ _ H0) as [O0 S0]. clear F H0. 
  assert (G : forall (P : list (R * material)) mb ls b, length P = length ls -> Forall2 (fun l l' => fst l = fst l' /\ has_tensor (snd l) x (snd l')) (map (fun p => (Some (fst p), snd p)) P ++ [(@None R, mb)]) (map (fun l => (Some (fst l), snd l)) ls ++ [(None, b)]) ->
    (forall l, In l P -> is_ok (tensor_at (snd l) x)) /\ has_tensor mb x b /\ Forall2 (fun l l' => fst l = fst l' /\ sim 3 (snd l) (snd l')) (map (at_w x) (map layer_gt P)) ls).
  { clear. induction P as [|l P IH]; intros mb [|l' ls] b HL F; try discriminate.
    - cbn in F. inversion F as [|? ? ? ? [_ H] _]; subst. cbn [snd] in H. split; [intros l []|]. split; [exact H|constructor].
    - cbn [map app] in F. inversion F as [|? ? ? ? [E H] F']; subst. cbn [fst snd] in *. destruct (IH mb ls b ltac:(now injection HL) F') as (I1 & I2 & I3).
      destruct (has_tensor_gt _ _ _ H) as [O S]. split; [intros k [<-|Hk]; auto|]. split; [exact I2|]. cbn [map]. constructor; [|exact I3].
      split; [cbn; congruence|exact S]. }
  assert (HL' : length (inner_profile s) = length ls) by lia.
  destruct (G _ _ _ _ HL' F') as (I1 & I2 & I3). destruct (has_tensor_gt _ _ _ I2) as [Ob Sb]. split; [|now split]. split; [exact O0|]. split; assumption.
Qed.

Lemma power_val th (ef eb : omat) (f b : mat) : sim 3 ef f -> sim 3 eb b ->
  power1 true th ef eb = rdiv (Re (get_k_z b (reduced_k_x th f))) (Re (get_k_z f (reduced_k_x th f))).
Proof. intros F B. unfold power1, kz1, kx1. rewrite F, B by lia. reflexivity. Qed.

Lemma iso_value p th s x f ls b : (p = Eig -> elementwise eig) -> sample_at s x f ls b ->
  match evaluate4 eig p true th s [x] with
  | Ok r => entry_of r (solver4 (single eig p) th x f ls b)
  | Err e => e = LinAlgError /\ solver4 (single eig p) th x f ls b = None
  end.
Proof.
  intros X H. destruct (sample_split _ _ _ _ _ H) as (O & Sf & Sb & F).
  assert (V := point_val eig p true th x (gt (front_material s) x) (gt (back_material s) x) _ f ls (transition_matrix_iso_halfspace (reduced_k_x th f) b false) X (Sf 0%nat 0%nat ltac:(lia) ltac:(lia)) F).
  unfold exit1 in V. rewrite (Sb 0%nat 0%nat) in V by lia. specialize (V (iso_exit_val _ _)). fold (at4 p true th s x) in V.
  assert (S := single_spec p true th s x).
  assert (EQ : solver4 (single eig p) th x f ls b = let? j := (let? M := transition_matrix_iso_halfspace (reduced_k_x th f) b false in jones4 (single eig p) th x f ls M) in
     Some (Result4 (fst j) (snd j) (rdiv (Re (get_k_z b (reduced_k_x th f))) (Re (get_k_z f (reduced_k_x th f)))))).
  { unfold solver4. destruct (transition_matrix_iso_halfspace _ b false); [|reflexivity]. cbn [obind]. destruct (jones4 _ _ _ _ _ _) as [[? ?]|]; reflexivity. }
  rewrite EQ. clear EQ. destruct (evaluate4 eig p true th s [x]) as [r|e].
  - destruct S as (_ & [ar at'] & A & ->). rewrite A in V. cbn [fst snd]. exists ar, at', (power1 true th (gt (front_material s) x) (gt (back_material s) x)). split; [reflexivity|].
    destruct (let? M := _ in _) as [[jr jt]|]; cbn [obind fst snd jones_r4 jones_t4 power_correction4]; [|exact V]. destruct V as [V1 V2].
    split; [intros i j Hi Hj; split; [now apply V1|now apply V2]|]. now apply power_val.
  - destruct S as [S|(-> & A)]; [contradiction|]. rewrite A in V. split; [reflexivity|]. rewrite V. reflexivity.
Qed.

Lemma aniso_value p th s x f ls b : elementwise eig -> sample_at s x f ls b ->
  match evaluate4 eig p false th s [x] with
  | Ok r => entry_of r (let? d := build_delta_matrix (reduced_k_x th f) b in let? qp := eig d in solver4_aniso (single eig p) th x f ls b qp)
  | Err e => e = LinAlgError /\ (let? d := build_delta_matrix (reduced_k_x th f) b in let? qp := eig d in solver4_aniso (single eig p) th x f ls b qp) = None
  end.
Proof.
  intros X H. destruct (sample_split _ _ _ _ _ H) as (O & Sf & Sb & F).
  set (M := let? d := build_delta_matrix (reduced_k_x th f) b in let? qp := eig d in transition_matrix_halfspace qp).
  assert (V := point_val eig p false th x (gt (front_material s) x) (gt (back_material s) x) _ f ls M (fun _ => X) (Sf 0%nat 0%nat ltac:(lia) ltac:(lia)) F).
  assert (DV := delta_val (reduced_k_x th f) _ _ Sb).
  assert (HV : match exit1 eig false (Some (reduced_k_x th f)) (gt (back_material s) x) with Ok m => hasval m M colbad | Err _ => M = None end).
  { unfold exit1, half1, eig_one, M. destruct (build_delta_matrix (reduced_k_x th f) b) as [D|]; cbn [hasval obind] in *.
    - destruct (values_sim _ _ _ DV) as (v & -> & Mv). rewrite (X v D Mv). destruct (eig D) as [qp|]; cbn [rbind obind]; [|reflexivity].
      destruct (transition_matrix_halfspace qp) as [m|]; cbn [hasval of_opt]; [apply sim_of_mat|]. intros j Hj. exists 0%nat. split; [lia|reflexivity].
    - destruct DV as (i & j & Hi & Hj & E). rewrite (values_bad 4 _ i j Hi Hj E). reflexivity. }
  specialize (V HV). fold (at4 p false th s x) in V. clear HV DV.
  assert (S := single_spec p false th s x).
  assert (EQ : (let? d := build_delta_matrix (reduced_k_x th f) b in let? qp := eig d in solver4_aniso (single eig p) th x f ls b qp) =
     let? j := (let? M := M in jones4 (single eig p) th x f ls M) in Some (Result4 (fst j) (snd j) (Some 1%R))).
  { unfold M, solver4_aniso. destruct (build_delta_matrix (reduced_k_x th f) b) as [D|]; [|reflexivity]. cbn [obind]. destruct (eig D) as [qp|]; [|reflexivity]. cbn [obind].
    destruct (transition_matrix_halfspace qp); [|reflexivity]. cbn [obind]. destruct (jones4 _ _ _ _ _ _) as [[? ?]|]; reflexivity. }
  rewrite EQ. clear EQ. destruct (evaluate4 eig p false th s [x]) as [r|e].
  - destruct S as (_ & [ar at'] & A & ->). rewrite A in V. cbn [fst snd]. exists ar, at', (Some 1%R). split; [reflexivity|].
    destruct (let? M := M in _) as [[jr jt]|]; cbn [obind fst snd jones_r4 jones_t4 power_correction4]; [|exact V]. destruct V as [V1 V2].
    split; [intros i j Hi Hj; split; [now apply V1|now apply V2]|]. reflexivity.
  - destruct S as [S|(-> & A)]; [contradiction|]. rewrite A in V. split; [reflexivity|]. rewrite V. reflexivity.
Qed.

(** Linear and Expm never raise by themselves *)
Lemma prop_ok p d t x : p <> Eig -> exists m, prop1 eig p d t x = Ok m.
Proof. destruct p; [intros _|intros _|contradiction]; cbn [prop1]; eexists; reflexivity. Qed.
Lemma layers_ok p k x inner : p <> Eig -> forall m, exists m', layers1 eig p k x inner (Ok m) = Ok m'.
Proof.
  intros NE. unfold layers1. induction (rev inner) as [|l ls IH]; intros m; cbn [fold_left]; [now exists m|].
  cbn [rbind]. destruct (prop_ok p (delta1 k (snd l)) (- fst l)%R x NE) as [mp ->]. cbn [rbind]. apply IH.
Qed.

Lemma iso_singular p th s x f ls b : p <> Eig -> sample_at s x f ls b ->
  (evaluate4 eig p true th s [x] = Err LinAlgError <-> exists m, transfer (single eig p) th x f ls b = Some m /\ minv 2 (incident_block m) = None).
Proof.
  intros NE H. destruct (sample_split _ _ _ _ _ H) as (O & Sf & Sb & F).
  set (k := reduced_k_x th f).
  assert (EX := iso_exit_val k b). set (M := transition_matrix_iso_halfspace k b false) in *.
  assert (LV := layers_val eig p k x (fun E => match NE E with end) _ ls F (Ok (iso1 (Some k) (Some (b 0%nat 0%nat)) false)) M EX).
  destruct (layers_ok p (Some k) x (map (at_w x) (map layer_gt (inner_profile s))) NE (iso1 (Some k) (Some (b 0%nat 0%nat)) false)) as [m Em].
  rewrite Em in LV. assert (FV := iso_front_val k f). set (fm := iso1 (Some k) (Some (f 0%nat 0%nat)) true) in *.
  assert (A4 : at4 p true th s x = let* t := inv_one 2 (sub [2; 0]%nat [2; 0]%nat (omul_n 4 fm m)) in Ok (omul_n 2 (sub [3; 1]%nat [2; 0]%nat (omul_n 4 fm m)) t, t)).
  { unfold at4, point4, transfer1, exit1. rewrite (Sf 0%nat 0%nat), (Sb 0%nat 0%nat) by lia. change (kx1 th (Some (f 0%nat 0%nat))) with (Some k). rewrite Em. reflexivity. }
  assert (TR : transfer (single eig p) th x f ls b = let? m := (let? M := M in layer_product (single eig p) k x ls M) in let? a := transition_matrix_iso_halfspace k f true in Some (mmul 4 a m)).
  { unfold transfer. fold k. fold M. destruct M; reflexivity. }
  assert (TV : match transfer (single eig p) th x f ls b with Some A => sim 4 (omul_n 4 fm m) A | None => allbad (omul_n 4 fm m) end).
  { rewrite TR. destruct (let? M := M in _) as [A|]; cbn [obind hasval] in *.
    - destruct (transition_matrix_iso_halfspace k f true) as [B|]; cbn [obind hasval] in *; [now apply omul_sim|].
      intros i j Hi Hj. destruct (FV i Hi) as (q & Hq & E). now apply (omul_left fm m i j q).
    - intros i j Hi Hj. destruct (LV j Hj) as (q & Hq & E). now apply (omul_right fm m i j q). }
  assert (IFF : at4 p true th s x = Err LinAlgError <-> exists m, transfer (single eig p) th x f ls b = Some m /\ minv 2 (incident_block m) = None).
  { rewrite A4. destruct (transfer (single eig p) th x f ls b) as [A|].
    - assert (S1 : sim 2 (sub [2; 0]%nat [2; 0]%nat (omul_n 4 fm m)) (incident_block A)).
      { intros i j Hi Hj. unfold sub, incident_block, mat_of. destruct i as [|[|i]], j as [|[|j]]; try lia; cbn [nth]; apply TV; lia. }
      destruct (values_sim _ _ _ S1) as (v & V & Mv). unfold inv_one. rewrite V. destruct (minv 2 v) as [vi|] eqn:MI; cbn [rbind].
      + destruct (minv_meq 2 v _ vi (or_introl eq_refl) Mv MI) as (B' & E' & _). split; [discriminate|]. intros (m' & E & N). injection E as <-. congruence.
      + split; [intros _|reflexivity]. exists A. split; [reflexivity|]. destruct (minv 2 (incident_block A)) as [B'|] eqn:MB; [|reflexivity].
        destruct (minv_meq 2 _ v B' (or_introl eq_refl) (fun i j Hi Hj => eq_sym (Mv i j Hi Hj)) MB) as (B'' & Q & _). congruence.
    - unfold inv_one. rewrite (values_bad 2 _ 0 0); [|lia|lia|unfold sub; cbn [nth]; apply TV; lia]. cbn [rbind]. split; [discriminate|intros (m' & E & _); discriminate]. }
  rewrite <- IFF. assert (S := single_spec p true th s x). destruct (evaluate4 eig p true th s [x]) as [r|e].
  - destruct S as (_ & a & A & _). split; [discriminate|congruence].
  - destruct S as [S|(-> & A)]; [contradiction|]. split; [intros _; exact A|reflexivity].
Qed.

(** nan *)
Ltac nn E Q Q2 := first [exact E | apply Q2; first [left; nn E Q Q2 | right; nn E Q Q2] | apply Q; first [left; nn E Q Q2 | right; nn E Q Q2]].
Lemma delta_nan k e i j : (i < 3)%nat -> (j < 3)%nat -> e i j = None -> bad4 (delta1 k e).
Proof.
  intros Hi Hj E. unfold bad4, delta1, omat_of.
  destruct k as [k|].
  2:{ exists 0%nat, 0%nat. split; [lia|]. split; [lia|]. cbn [nth o1 option_map o2 obind]. reflexivity. }
  assert (Q : forall a b : option C, (a = None \/ b = None) -> odiv a b = None).
  { intros [a|] [b|] [H|H]; try discriminate; reflexivity. }
  assert (Q2 : forall f (a b : option C), (a = None \/ b = None) -> o2 f a b = None).
  { intros f [a|] [b|] [H|H]; try discriminate; reflexivity. }
  assert (P : (i = 0 \/ i = 1 \/ i = 2)%nat /\ (j = 0 \/ j = 1 \/ j = 2)%nat) by lia.
  destruct P as [[->|[->| ->]] [->|[->| ->]]].
  - exists 3%nat, 0%nat. split; [lia|]. split; [lia|]. cbn [nth]. nn E Q Q2.
  - exists 3%nat, 1%nat. split; [lia|]. split; [lia|]. cbn [nth]. nn E Q Q2.
  - exists 3%nat, 3%nat. split; [lia|]. split; [lia|]. cbn [nth]. nn E Q Q2.
  - exists 2%nat, 0%nat. split; [lia|]. split; [lia|]. cbn [nth]. nn E Q Q2.
  - exists 2%nat, 1%nat. split; [lia|]. split; [lia|]. cbn [nth]. nn E Q Q2.
  - exists 2%nat, 3%nat. split; [lia|]. split; [lia|]. cbn [nth]. nn E Q Q2.
  - exists 0%nat, 0%nat. split; [lia|]. split; [lia|]. cbn [nth]. nn E Q Q2.
  - exists 0%nat, 1%nat. split; [lia|]. split; [lia|]. cbn [nth]. nn E Q Q2.
  - exists 0%nat, 0%nat. split; [lia|]. split; [lia|]. cbn [nth]. nn E Q Q2.
Qed.

Lemma layers1_cons p k x l inner ex : layers1 eig p k x (l :: inner) ex =
  let* m := layers1 eig p k x inner ex in let* m_p := prop1 eig p (delta1 k (snd l)) (- fst l)%R x in Ok (omul_n 4 m_p m).
Proof. unfold layers1. cbn [rev]. rewrite fold_left_app. reflexivity. Qed.

Lemma prop_bad p d t x : p <> Eig -> bad4 d -> exists m, prop1 eig p d t x = Ok m /\ bad4 m.
Proof.
  intros NE B. assert (V := prop_val eig p d None t x (fun E => match NE E with end) B). destruct (prop_ok p d t x NE) as [m E]. rewrite E in V. exists m. split; [exact E|exact V].
Qed.
Lemma col_product a b : bad4 a \/ colbad b -> colbad (omul_n 4 a b).
Proof.
  intros [(i & k & Hi & Hk & E)|B] j Hj; [exists i; split; [exact Hi|now apply (omul_left a b i j k)]|]. destruct (B j Hj) as (k & Hk & E). exists 0%nat. split; [lia|]. now apply (omul_right a b 0 j k).
Qed.
Lemma layers_bad p k x inner ex : p <> Eig -> (colbad ex \/ exists l, In l inner /\ bad4 (delta1 k (snd l))) ->
  exists m, layers1 eig p k x inner (Ok ex) = Ok m /\ colbad m.
Proof.
  intros NE. induction inner as [|l inner IH]; intros H.
  - exists ex. split; [reflexivity|]. destruct H as [H|(l & [] & _)]; exact H.
  - rewrite layers1_cons. destruct H as [H|(l' & [<-|Hl] & B)].
    + destruct (IH (or_introl H)) as (m & -> & C). cbn [rbind]. destruct (prop_ok p (delta1 k (snd l)) (- fst l)%R x NE) as [mp ->]. cbn [rbind]. eexists. split; [reflexivity|]. apply col_product. now right.
    + destruct (layers_ok p k x inner NE ex) as [m ->]. cbn [rbind]. destruct (prop_bad p _ (- fst l)%R x NE B) as (mp & -> & Bm). cbn [rbind]. eexists. split; [reflexivity|]. apply col_product. now left.
    + destruct (IH (or_intror (ex_intro _ l' (conj Hl B)))) as (m & -> & C). cbn [rbind]. destruct (prop_ok p (delta1 k (snd l)) (- fst l)%R x NE) as [mp ->]. cbn [rbind]. eexists. split; [reflexivity|]. apply col_product. now right.
Qed.

Lemma is_nan_gt m x i j : is_nan m x i j -> gt m x i j = None.
Proof. intros (t & E & H). unfold gt. rewrite E. exact H. Qed.
Lemma iso1_nan k e : k = None \/ e = None -> colbad (iso1 k e false) /\ rowbad (iso1 k e true).
Proof.
  intros H. assert (Cn : cos1 k e = None) by (destruct H as [-> | ->]; [destruct e; reflexivity|destruct k; reflexivity]).
  unfold iso1. rewrite Cn. split; intros i Hi; unfold omat_of; destruct (four i Hi) as [->|[->|[->| ->]]];
    solve [exists 0%nat; split; [lia|destruct e; reflexivity]|exists 1%nat; split; [lia|destruct e; reflexivity]|exists 2%nat; split; [lia|destruct e; reflexivity]|exists 3%nat; split; [lia|destruct e; reflexivity]].
Qed.

Lemma inner_in_spec s m : inner_in s m -> exists l, In l (inner_profile s) /\ snd l = m.
Proof.
  intros (d & H). rewrite profile_shape in H. destruct H as [H|H]; [discriminate|]. apply in_app_iff in H. destruct H as [H|[H|[]]]; [|discriminate].
  apply in_map_iff in H. destruct H as (l & E & Hl). exists l. split; [exact Hl|]. congruence.
Qed.

Lemma nan_entry p th s x : p <> Eig -> computable s x ->
  is_nan (front_material s) x 0 0 \/ is_nan (back_material s) x 0 0 \/ (exists m i j, inner_in s m /\ (i < 3)%nat /\ (j < 3)%nat /\ is_nan m x i j) ->
  exists r, evaluate4 eig p true th s [x] = Ok r /\ entry_of r None.
Proof.
  intros NE O H. apply computable_ok in O.
  set (k := kx1 th (gt (front_material s) x 0%nat 0%nat)). set (fm := iso1 k (gt (front_material s) x 0%nat 0%nat) true). set (ex := iso1 k (gt (back_material s) x 0%nat 0%nat) false).
  set (inner := map (at_w x) (map layer_gt (inner_profile s))).
  assert (B : exists m, layers1 eig p k x inner (Ok ex) = Ok m /\ allbad (omul_n 4 fm m)).
  { destruct H as [H|[H|(m & i & j & Hm & Hi & Hj & H)]].
    - apply is_nan_gt in H. destruct (layers_ok p k x inner NE ex) as [m E]. exists m. split; [exact E|]. intros i j Hi Hj.
      destruct (proj2 (iso1_nan k (gt (front_material s) x 0%nat 0%nat) (or_intror H)) i Hi) as (q & Hq & Eq). now apply (omul_left fm m i j q).
    - apply is_nan_gt in H. destruct (layers_bad p k x inner ex NE) as (m & E & Cm); [left; apply iso1_nan; now right|]. exists m. split; [exact E|].
      intros i j Hi Hj. destruct (Cm j Hj) as (q & Hq & Eq). now apply (omul_right fm m i j q).
    - apply inner_in_spec in Hm. destruct Hm as (l & Hl & <-). apply is_nan_gt in H.
      destruct (layers_bad p k x inner ex NE) as (m & E & Cm).
      + right. exists (at_w x (layer_gt l)). split; [unfold inner; now apply in_map, in_map|]. apply (delta_nan k _ i j Hi Hj). exact H.
      + exists m. split; [exact E|]. intros a b Ha Hb. destruct (Cm b Hb) as (q & Hq & Eq). now apply (omul_right fm m a b q). }
  destruct B as (m & E & A). 
  assert (A4 : at4 p true th s x = Ok (omul_n 2 (sub [3; 1]%nat [2; 0]%nat (omul_n 4 fm m)) none4, none4)).
  { unfold at4, point4, transfer1, exit1. fold k. fold inner. fold ex. rewrite E. cbn [rbind]. fold fm. unfold inv_one. rewrite (values_bad 2 _ 0 0); [|lia|lia|unfold sub; cbn [nth]; apply A; lia]. reflexivity. }
  rewrite (single_ok p true th s x _ O A4). eexists. split; [reflexivity|]. eexists _, _, _. split; [reflexivity|]. cbn [fst snd]. intros i j Hi Hj. split; [|reflexivity].
  apply (osum_none 2 _ 0); [lia|]. unfold sub. cbn [nth]. rewrite A; [reflexivity| |lia]. destruct i as [|[|i]]; cbn; lia.
Qed.

Lemma nan_raises p iso th s x : computable s x ->
  (p = Eig /\ exists m i j, inner_in s m /\ (i < 3)%nat /\ (j < 3)%nat /\ is_nan m x i j) \/
  (iso = false /\ exists i j, (i < 3)%nat /\ (j < 3)%nat /\ is_nan (back_material s) x i j) ->
  evaluate4 eig p iso th s [x] = Err LinAlgError.
Proof.
  intros O H. apply computable_ok in O. assert (S := single_spec p iso th s x). destruct (evaluate4 eig p iso th s [x]) as [r|e].
  2:{ destruct S as [S|(-> & _)]; [contradiction|reflexivity]. }
  exfalso. destruct S as (_ & a & A & _). unfold at4, point4, transfer1 in A.
  set (k := kx1 th (gt (front_material s) x 0%nat 0%nat)) in *. set (inner := map (at_w x) (map layer_gt (inner_profile s))) in *.
  assert (B : forall m, layers1 eig p k x inner (exit1 eig iso k (gt (back_material s) x)) = Ok m -> False).
  { destruct H as [(-> & m & i & j & Hm & Hi & Hj & H)|(-> & i & j & Hi & Hj & H)].
    - apply inner_in_spec in Hm. destruct Hm as (l & Hl & <-). apply is_nan_gt in H.
      assert (Hin : In (at_w x (layer_gt l)) inner) by (unfold inner; now apply in_map, in_map). clearbody inner. clear A.
      induction inner as [|l' inner IH]; [destruct Hin|]. intros m E. rewrite layers1_cons in E. destruct (layers1 eig Eig k x inner _) as [m'|]; [|discriminate]. cbn [rbind] in E.
      destruct Hin as [->|Hin].
      + destruct (delta_nan k (snd (at_w x (layer_gt l))) i j Hi Hj H) as (a' & b' & Ha & Hb & N). cbn [prop1] in E. unfold eig_one in E. rewrite (values_bad 4 _ a' b' Ha Hb N) in E. discriminate.
      + exact (IH Hin m' eq_refl).
    - apply is_nan_gt in H. destruct (delta_nan k (gt (back_material s) x) i j Hi Hj H) as (a' & b' & Ha & Hb & N). unfold exit1, half1, eig_one. rewrite (values_bad 4 _ a' b' Ha Hb N). cbn [rbind].
      intros m. clearbody inner. clear A. revert m. induction inner as [|l inner IH]; intros m E; [discriminate|]. rewrite layers1_cons in E. destruct (layers1 _ _ _ _ inner _) as [m'|]; [|discriminate]. exact (IH m' eq_refl). }
  destruct (layers1 eig p k x inner _) as [m|]; [exact (B m eq_refl)|discriminate].
Qed.
End Eigen.
