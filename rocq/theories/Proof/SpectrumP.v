(** Lemmas for C99: the array program of Model/Spectrum.v acts on each wavelength. *)
From Coq Require Import Reals Lra Lia Arith FinFun.
From Coquelicot Require Import Complex.
From Coq Require Import List.
From Verif.Base Require Import Py Cx Mat.
From Verif.Model Require Import Units Ellips Structure Mixture Solver2 Spectrum.
From Verif.Spec Require Import Pointwise.
Import ListNotations.
Open Scope R_scope.
Open Scope C_scope.
Open Scope py_scope.

Lemma bc2_map {X A B D} (f : A -> B -> D) (g : X -> A) (h : X -> B) L :
  bc2 f (map g L) (map h L) = Ok (map (fun x => f (g x) (h x)) L).
Proof.
  unfold bc2. rewrite !map_length, Nat.eqb_refl. f_equal. induction L as [|x L IH]; [reflexivity|]. cbn. now rewrite IH.
Qed.

(** Dispersions *)
Section Ind.
Variable P : dispersion -> Prop.
Hypothesis H1 : forall c, P (Const c).
Hypothesis H2 : forall f, P (Fun f).
Hypothesis H3 : forall l, Forall P l -> P (Sum l).
Hypothesis H4 : forall n, P n -> P (Index n).
Fixpoint dispersion_ind' (d : dispersion) : P d :=
  match d with
  | Const c => H1 c
  | Fun f => H2 f
  | Sum l => H3 l ((fix go l : Forall P l := match l with [] => Forall_nil _ | d :: l => Forall_cons _ (dispersion_ind' d) (go l) end) l)
  | Index n => H4 n (dispersion_ind' n)
  end.
End Ind.

Definition get (r : res (option C)) : option C := match r with Ok v => v | Err _ => None end.
Definition rep (v : dval) (a : R -> option C) (L : list R) : Prop :=
  match v with Scal c => forall x, In x L -> a x = c | Arr l => l = map a L end.

Lemma rep_ext v a b L : (forall x, In x L -> a x = b x) -> rep v a L -> rep v b L.
Proof.
  intros H. destruct v as [c|l]; cbn; intros G.
  - intros x Hx. rewrite <- H by exact Hx. now apply G.
  - rewrite G. apply map_ext_in. exact H.
Qed.

Lemma dadd_rep v w a b L : rep v a L -> rep w b L ->
  exists u, dadd v w = Ok u /\ rep u (fun x => let? p := a x in let? q := b x in Some (p + q)) L.
Proof.
  intros Hv Hw. destruct v as [c|l], w as [c'|l']; cbn in *.
  - eexists. split; [reflexivity|]. intros x Hx. rewrite Hv, Hw by exact Hx. reflexivity.
  - eexists. split; [reflexivity|]. cbn. subst l'. rewrite map_map. apply map_ext_in. intros x Hx. rewrite Hv by exact Hx. reflexivity.
  - eexists. split; [reflexivity|]. cbn. subst l. rewrite map_map. apply map_ext_in. intros x Hx. rewrite Hw by exact Hx. reflexivity.
  - subst. rewrite bc2_map. cbn. eexists. split; reflexivity.
Qed.

Lemma rmapM_cases {A B} (f : A -> res B) (L : list A) :
  (exists v, rmapM f L = Ok v /\ Forall2 (fun x y => f x = Ok y) L v) \/
  (exists e x, rmapM f L = Err e /\ In x L /\ f x = Err e).
Proof.
  induction L as [|a L IH]; [left; exists []; split; [reflexivity|constructor]|]. cbn [rmapM].
  destruct (f a) as [b|e] eqn:E; [|right; exists e, a; split; [reflexivity|]; split; [now left|exact E]].
  destruct IH as [(v & -> & F)|(e & x & -> & Hx & Ex)].
  - left. exists (b :: v). split; [reflexivity|]. constructor; assumption.
  - right. exists e, x. split; [reflexivity|]. split; [now right|exact Ex].
Qed.

Lemma F2_get (f : R -> res (option C)) L v : Forall2 (fun x y => f x = Ok y) L v -> v = map (fun x => get (f x)) L.
Proof. induction 1 as [|x y L v H F IH]; [reflexivity|]. cbn [map]. rewrite H, IH. reflexivity. Qed.

Lemma disp_spec L d :
  match dielectric d L with
  | Ok v => (forall x, In x L -> is_ok (eps_at d x)) /\ rep v (fun x => get (eps_at d x)) L
  | Err _ => exists x, In x L /\ ~ is_ok (eps_at d x)
  end.
Proof.
  induction d as [c|f|l IH|n IH] using dispersion_ind'; cbn [dielectric eps_at].
  - split; [intros; eexists; reflexivity|]. intros x _. reflexivity.
  - destruct (rmapM_cases f L) as [(v & -> & F)|(e & x & -> & Hx & Ex)]; cbn [rbind].
    + split; [|apply F2_get; exact F]. intros x Hx.
      clear -F Hx. induction F as [|a b L v H F IH]; [destruct Hx|]. destruct Hx as [->|Hx]; [eexists; exact H|now apply IH].
    + exists x. split; [exact Hx|]. rewrite Ex. intros [? ?]. discriminate.
  - match goal with |- context [?g l (Scal (Some (RtoC 0)))] => set (go := g) end.
    set (gp x := fix go l acc := match l with [] => Ok acc | d :: l => let* v := eps_at d x in go l (let? a := acc in let? b := v in Some (a + b)) end).
    assert (G : forall acc (a : R -> option C), rep acc a L ->
      match go l acc with
      | Ok v => (forall x, In x L -> is_ok (gp x l (a x))) /\ rep v (fun x => get (gp x l (a x))) L
      | Err _ => exists x, In x L /\ ~ is_ok (gp x l (a x))
      end).
    { induction IH as [|d l Hd Hl IHl]; intros acc a Ha; cbn.
      - split; [intros; eexists; reflexivity|]. exact Ha.
      - destruct (dielectric d L) as [v|e]; cbn [rbind].
        + destruct Hd as [O V]. destruct (dadd_rep _ _ _ _ L Ha V) as (u & -> & U). cbn [rbind].
          specialize (IHl u _ U). destruct (go l u) as [w|e].
          * destruct IHl as [I1 I2]. split.
            -- intros x Hx. destruct (O x Hx) as [y Hy]. specialize (I1 x Hx). rewrite Hy in I1 |- *. exact I1.
            -- eapply rep_ext; [|exact I2]. intros x Hx. destruct (O x Hx) as [y Hy]. cbn beta. rewrite Hy. reflexivity.
          * destruct IHl as (x & Hx & N). exists x. split; [exact Hx|]. intros K. apply N. destruct (O x Hx) as [y Hy]. rewrite Hy in K |- *. exact K.
        + destruct Hd as (x & Hx & N). exists x. split; [exact Hx|]. intros K. apply N. destruct (eps_at d x) as [y|]; [eexists; reflexivity|]. destruct K; discriminate. }
    apply (G (Scal (Some (RtoC 0))) (fun _ => Some (RtoC 0))). intros x _. reflexivity.
  - destruct (dielectric n L) as [v|e]; cbn [rbind].
    + destruct IH as [O V]. split.
      * intros x Hx. destruct (O x Hx) as [y ->]. eexists. reflexivity.
      * destruct v as [c|l]; cbn in *.
        -- intros x Hx. specialize (V x Hx). destruct (O x Hx) as [y Hy]. rewrite Hy in V |- *. cbn in *. subst. destruct c; reflexivity.
        -- subst l. rewrite map_map. apply map_ext_in. intros x Hx. destruct (O x Hx) as [[y|] ->]; reflexivity.
    + destruct IH as (x & Hx & N). exists x. split; [exact Hx|]. intros K. apply N. destruct (eps_at n x) as [y|]; [eexists; reflexivity|]. destruct K; discriminate.
Qed.

(** Tensors *)
Definition meq3 (a b : omat) : Prop := forall i j, (i < 3)%nat -> (j < 3)%nat -> a i j = b i j.
Definition gett (r : res omat) : omat := match r with Ok t => t | Err _ => fun _ _ => None end.

Lemma F2_map {A B} (P : A -> B -> Prop) (f : A -> B) L : (forall x, In x L -> P x (f x)) -> Forall2 P L (map f L).
Proof. induction L as [|x L IH]; intros H; constructor; [apply H; now left|apply IH; intros y Hy; apply H; now right]. Qed.
Lemma F2_length {A B} (P : A -> B -> Prop) L l : Forall2 P L l -> length L = length l.
Proof. induction 1; cbn; congruence. Qed.
Lemma F2_impl {A B} (P Q : A -> B -> Prop) L l : (forall x y, In x L -> P x y -> Q x y) -> Forall2 P L l -> Forall2 Q L l.
Proof. intros H F. induction F as [|x y L l Pxy F IH]; constructor; [apply H; [now left|exact Pxy]|apply IH; intros; apply H; [now right|assumption]]. Qed.

Lemma set_diag_rep e i v a L (T : R -> omat) : Forall2 (fun x t => t = T x) L e -> rep v a L ->
  exists e', set_diag e i v = Ok e' /\ Forall2 (fun x t => t = oset (T x) i i (a x)) L e'.
Proof.
  intros F V. destruct v as [c|l]; cbn in *.
  - eexists. split; [reflexivity|]. induction F as [|x t L e Ht F IH]; [constructor|]. cbn [map]. constructor; [subst t; rewrite (V x (or_introl eq_refl)); reflexivity|].
    apply IH. intros y Hy. apply V. now right.
  - subst l. rewrite map_length, (F2_length _ _ _ F), Nat.eqb_refl. eexists. split; [reflexivity|].
    clear -F. induction F as [|x t L e Ht F IH]; [constructor|]. cbn [map combine]. constructor; [now subst t|exact IH].
Qed.

(** Tensors by position: reading and assigning elements *)
Definition in_range (n : nat) (p : index3) : Prop := (fst p < n /\ fst (snd p) < 3 /\ snd (snd p) < 3)%nat.
Lemma positions_spec n p : In p (positions n) <-> in_range n p.
Proof.
  unfold positions, in_range. destruct p as [k [i j]]. cbn [fst snd].
  rewrite (in_prod_iff (seq 0 n) (list_prod (seq 0 3) (seq 0 3)) k (i, j)), (in_prod_iff (seq 0 3) (seq 0 3) i j), !in_seq. lia.
Qed.
Lemma positions_nodup n : NoDup (positions n).
Proof.
  assert (P : forall A B (l : list A) (m : list B), NoDup l -> NoDup m -> NoDup (list_prod l m)).
  { intros A B l m Hl Hm. induction Hl as [|a l Ha Hl IH]; cbn; [constructor|].
    assert (D : forall x, In x (map (fun y => (a, y)) m) -> ~ In x (list_prod l m)).
    { intros [a' b'] H1 H2. apply in_map_iff in H1. destruct H1 as (y & E & _). injection E as <- _. apply in_prod_iff in H2. tauto. }
    assert (NM : NoDup (map (fun y => (a, y)) m)) by (apply FinFun.Injective_map_NoDup; [intros u v E; congruence|exact Hm]).
    revert D NM. generalize (map (fun y : B => (a, y)) m). intros r D NM. induction NM as [|x r Hx NM IHr]; [exact IH|]. cbn. constructor.
    - rewrite in_app_iff. intros [H|H]; [contradiction|]. apply (D x); [now left|exact H].
    - apply IHr. intros y Hy. apply D. now right. }
  unfold positions. apply P; [|apply P]; apply seq_NoDup.
Qed.

Lemma set3_length e p v : length (set3 e p v) = length e.
Proof. destruct p as [n [i j]]. unfold set3. rewrite map_length, combine_length, seq_length. lia. Qed.
Lemma nth_error_set3 e n i j v k : nth_error (set3 e (n, (i, j)) v) k =
  option_map (fun m => if Nat.eqb k n then oset m i j v else m) (nth_error e k).
Proof.
  unfold set3. assert (G : forall s, nth_error (map (fun '(k, m) => if Nat.eqb k n then oset m i j v else m) (combine (seq s (length e)) e)) k =
    option_map (fun m => if Nat.eqb (s + k) n then oset m i j v else m) (nth_error e k)); [|apply (G 0%nat)].
  revert k. induction e as [|m e IH]; intros k s; [destruct k; reflexivity|]. cbn [length seq combine map]. destruct k as [|k]; cbn [nth_error option_map].
  - now rewrite Nat.add_0_r.
  - rewrite IH. now rewrite Nat.add_succ_comm.
Qed.
Lemma get3_set3 e p v q : in_range (length e) p -> get3 (set3 e p v) q = if (if Nat.eq_dec (fst q) (fst p) then if Nat.eq_dec (fst (snd q)) (fst (snd p)) then if Nat.eq_dec (snd (snd q)) (snd (snd p)) then true else false else false else false) then v else get3 e q.
Proof.
  destruct p as [n [i j]], q as [k [i' j']]. unfold in_range. cbn [fst snd]. intros [H _]. unfold get3 at 1. rewrite nth_error_set3. unfold get3.
  destruct (nth_error e k) as [m|] eqn:E; cbn [option_map].
  - destruct (Nat.eq_dec k n) as [->|N]; [rewrite Nat.eqb_refl|rewrite (proj2 (Nat.eqb_neq k n) N); reflexivity]. unfold oset.
    destruct (Nat.eq_dec i' i) as [->|Ni]; [rewrite Nat.eqb_refl|rewrite (proj2 (Nat.eqb_neq i' i) Ni); reflexivity].
    destruct (Nat.eq_dec j' j) as [->|Nj]; [now rewrite Nat.eqb_refl|now rewrite (proj2 (Nat.eqb_neq j' j) Nj)].
  - destruct (Nat.eq_dec k n) as [->|N]; [|reflexivity]. apply nth_error_None in E. lia.
Qed.
Lemma get3_set3_same e p v : in_range (length e) p -> get3 (set3 e p v) p = v.
Proof. intros H. rewrite get3_set3 by exact H. destruct (Nat.eq_dec (fst p) (fst p)); [|congruence]. destruct (Nat.eq_dec (fst (snd p)) (fst (snd p))); [|congruence]. destruct (Nat.eq_dec (snd (snd p)) (snd (snd p))); congruence. Qed.
Lemma get3_set3_other e p v q : in_range (length e) p -> q <> p -> get3 (set3 e p v) q = get3 e q.
Proof.
  intros H N. rewrite get3_set3 by exact H. destruct p as [n [i j]], q as [k [i' j']]. cbn [fst snd].
  destruct (Nat.eq_dec k n) as [->|]; [|reflexivity]. destruct (Nat.eq_dec i' i) as [->|]; [|reflexivity]. destruct (Nat.eq_dec j' j) as [->|]; [congruence|reflexivity].
Qed.

Lemma assign_get g ps : forall e, Forall (in_range (length e)) ps -> NoDup ps ->
  length (assign e ps (map g ps)) = length e /\
  (forall q, In q ps -> get3 (assign e ps (map g ps)) q = g q) /\ (forall q, ~ In q ps -> get3 (assign e ps (map g ps)) q = get3 e q).
Proof.
  induction ps as [|p ps IH]; intros e F N; [split; [reflexivity|split; [intros q []|reflexivity]]|].
  inversion F as [|? ? Hp F']; subst. inversion N as [|? ? Np N']; subst.
  unfold assign. cbn [map combine fold_left]. fold (assign (set3 e p (g p)) ps (map g ps)).
  destruct (IH (set3 e p (g p))) as (A & B & D); [rewrite set3_length; exact F'|exact N'|]. rewrite set3_length in A. split; [exact A|]. split.
  - intros q [<-|Hq]; [|now apply B]. rewrite D by exact Np. now apply get3_set3_same.
  - intros q Hq. rewrite D by (intros K; apply Hq; now right). apply get3_set3_other; [exact Hp|]. intros ->. apply Hq. now left.
Qed.

Lemma brugg_value f h g : oeq h g = false ->
  (let root_h := o1 Csqrt h in let root_g := o1 Csqrt g in
   let p := odiv root_h root_g in
   let b := o1 (Cmult (RtoC (1 / 4))) (o2 Cplus (o1 (Cmult (RtoC (3 * f - 1))) (o2 Cminus (odiv (Some (RtoC 1)) p) p)) p) in
   o2 Cmult (o2 Cmult (o2 Cplus b (o1 (fun x => Csqrt (x * x + RtoC (1 / 2))) b)) root_h) root_g) = mixed Bruggeman f h g.
Proof.
  destruct h as [h|], g as [g|]; cbn [o1 option_map mixed lift2m obind oeq odiv]; intros E; try reflexivity.
  - unfold bruggeman. destruct (Ceq_dec h g) as [|N]; [discriminate|]. destruct (cdiv (Csqrt h) (Csqrt g)) as [p|]; [|reflexivity]. cbn [obind].
    destruct (cdiv 1 p) as [ip|]; reflexivity.
Qed.

Lemma bruggeman_arrays_spec f e_h e_g : length e_h = length e_g ->
  exists e, bruggeman_arrays f e_h e_g = Ok e /\ length e = length e_h /\
    forall p, in_range (length e_h) p -> get3 e p = mixed Bruggeman f (get3 e_h p) (get3 e_g p).
Proof.
  intros HL. unfold bruggeman_arrays. rewrite HL, Nat.eqb_refl, <- HL. cbn [negb].
  set (E := filter (fun p => oeq (get3 e_h p) (get3 e_g p)) (positions (length e_h))). set (D := filter (fun p => negb (oeq (get3 e_h p) (get3 e_g p))) (positions (length e_h))).
  rewrite bc2_map. cbn [rbind]. rewrite map_map, bc2_map. cbn [rbind]. rewrite map_map, bc2_map. cbn [rbind]. rewrite !map_map, bc2_map. cbn [rbind].
  rewrite bc2_map. cbn [rbind]. rewrite bc2_map. cbn [rbind]. eexists. split; [reflexivity|].
  set (e0 := map _ e_h).
  assert (L0 : length e0 = length e_h) by apply map_length.
  assert (RE : Forall (in_range (length e0)) E).
  { rewrite L0. apply Forall_forall. intros p Hp. apply filter_In in Hp. apply positions_spec. tauto. }
  assert (RD : Forall (in_range (length e0)) D).
  { rewrite L0. apply Forall_forall. intros p Hp. apply filter_In in Hp. apply positions_spec. tauto. }
  destruct (assign_get (get3 e_h) E e0 RE) as (A1 & A2 & A3); [apply NoDup_filter, positions_nodup|].
  match goal with |- context [assign ?e D (map ?g D)] => destruct (assign_get g D e) as (B1 & B2 & B3); [rewrite A1; exact RD|apply NoDup_filter, positions_nodup|] end.
  split; [congruence|]. intros p Hp. apply positions_spec in Hp. destruct (oeq (get3 e_h p) (get3 e_g p)) eqn:Q.
  - rewrite B3 by (unfold D; rewrite filter_In, Q; intros [_ K]; discriminate). rewrite A2 by (unfold E; rewrite filter_In, Q; auto).
    destruct (get3 e_h p) as [h|], (get3 e_g p) as [g|]; try discriminate. cbn in Q |- *. unfold bruggeman. destruct (Ceq_dec h g) as [_|N]; [reflexivity|discriminate].
  - rewrite B2 by (unfold D; rewrite filter_In, Q; auto). exact (brugg_value f _ _ Q).
Qed.

Lemma garnett_value f h g : garnett f h g = mixed MaxwellGarnett f h g.
Proof.
  destruct h as [h|], g as [g|]; unfold garnett; cbn [mixed lift2m is_zero o1 o2 odiv option_map obind].
  - unfold maxwell_garnett. destruct (Ceq_dec h 0), (Ceq_dec g 0); reflexivity.
  - destruct (Ceq_dec h 0); reflexivity.
  - reflexivity.
  - reflexivity.
Qed.

Lemma F2_nth {A B} (P : A -> B -> Prop) L l : length L = length l ->
  (forall n x y, nth_error L n = Some x -> nth_error l n = Some y -> P x y) -> Forall2 P L l.
Proof.
  revert l. induction L as [|a L IH]; intros [|b l] E H; try discriminate; constructor.
  - now apply (H 0%nat).
  - apply IH; [now injection E|]. intros n x y. apply (H (S n)).
Qed.
Lemma nth_F2 {A B} (P : A -> B -> Prop) L l n x y : Forall2 P L l -> nth_error L n = Some x -> nth_error l n = Some y -> P x y.
Proof. intros F. revert n. induction F as [|a b L l Pab F IH]; intros [|n]; cbn; try discriminate; [congruence|apply IH]. Qed.
Lemma F2_in {A B} (P : A -> B -> Prop) L l x : Forall2 P L l -> In x L -> exists y, In y l /\ P x y.
Proof. induction 1 as [|a b L l Pab F IH]; intros []; [subst; exists b; split; [now left|assumption]|]. destruct (IH H) as (y & ? & ?). exists y. split; [now right|assumption]. Qed.

Lemma bc2_F2 {X A B D} (f : A -> B -> D) (P : X -> A -> Prop) (Q : X -> B -> Prop) (S : X -> D -> Prop) L x y :
  (forall l a b, P l a -> Q l b -> S l (f a b)) -> Forall2 P L x -> Forall2 Q L y -> exists z, bc2 f x y = Ok z /\ Forall2 S L z.
Proof.
  intros H F G. unfold bc2. rewrite <- (F2_length _ _ _ F), <- (F2_length _ _ _ G), Nat.eqb_refl. eexists. split; [reflexivity|].
  revert y G. induction F as [|l a L x Pa F IH]; intros y G; inversion G; subst; cbn; constructor; auto.
Qed.

Lemma mix_arrays_spec k f L e_h e_g (h g : R -> omat) :
  Forall2 (fun x t => meq3 t (h x)) L e_h -> Forall2 (fun x t => meq3 t (g x)) L e_g ->
  exists e, mix_arrays k f e_h e_g = Ok e /\ Forall2 (fun x t => meq3 t (fun i j => mixed k f (h x i j) (g x i j))) L e.
Proof.
  intros H G. destruct k; cbn [mix_arrays].
  - eapply bc2_F2; [|exact H|exact G]. intros x a b Ha Hb i j Hi Hj. unfold elementwise. rewrite Ha, Hb by assumption. destruct (h x i j), (g x i j); reflexivity.
  - eapply bc2_F2; [|exact H|exact G]. intros x a b Ha Hb i j Hi Hj. unfold elementwise. rewrite Ha, Hb by assumption. destruct (h x i j), (g x i j); reflexivity.
  - eapply bc2_F2; [|exact H|exact G]. intros x a b Ha Hb i j Hi Hj. unfold elementwise. rewrite Ha, Hb by assumption. apply garnett_value.
  - assert (LH := F2_length _ _ _ H). assert (LG := F2_length _ _ _ G).
    destruct (bruggeman_arrays_spec f e_h e_g ltac:(congruence)) as (e & -> & LE & V). eexists. split; [reflexivity|].
    apply F2_nth; [congruence|]. intros n x t Hx Ht i j Hi Hj.
    assert (NL : (n < length L)%nat) by (apply nth_error_Some; congruence).
    destruct (nth_error e_h n) as [th|] eqn:Eh; [|apply nth_error_None in Eh; lia]. destruct (nth_error e_g n) as [tg|] eqn:Eg; [|apply nth_error_None in Eg; lia].
    specialize (V (n, (i, j))). unfold get3 in V. rewrite Ht, Eh, Eg in V. rewrite V by (unfold in_range; cbn; lia).
    rewrite (nth_F2 _ _ _ _ _ _ H Hx Eh) by assumption. rewrite (nth_F2 _ _ _ _ _ _ G Hx Eg) by assumption. reflexivity.
Qed.

Lemma tensors_spec L m :
  match get_tensors m L with
  | Ok e => (forall x, In x L -> is_ok (tensor_at m x)) /\ Forall2 (fun x t => meq3 t (gett (tensor_at m x))) L e
  | Err _ => exists x, In x L /\ ~ is_ok (tensor_at m x)
  end.
Proof.
  induction m as [a b c|r m IH|k h IHh g IHg f]; cbn [get_tensors tensor_at].
  - assert (F0 : Forall2 (fun (x : R) t => t = ((fun _ _ => Some (RtoC 0)) : omat)) L (repeat ((fun _ _ => Some (RtoC 0)) : omat) (length L))).
    { clear. induction L as [|x L IH]; cbn; constructor; auto. }
    assert (D : forall d, (exists x, In x L /\ ~ is_ok (eps_at d x)) -> forall F : R -> res omat, (forall x, ~ is_ok (eps_at d x) -> ~ is_ok (F x)) -> exists x, In x L /\ ~ is_ok (F x)).
    { intros d (x & Hx & N) F H. exists x. split; [exact Hx|]. apply H. exact N. }
    assert (K : forall d x, ~ is_ok (eps_at d x) -> exists e, eps_at d x = Err e).
    { intros d x N. destruct (eps_at d x) as [v|e]; [destruct N; eexists; reflexivity|eauto]. }
    assert (Sa := disp_spec L a). destruct (dielectric a L) as [va|e]; cbn [rbind].
    2:{ apply (D a Sa). intros x N. destruct (K _ _ N) as [ex ->]. cbn. intros [? ?]. discriminate. }
    destruct Sa as [Oa Va]. destruct (set_diag_rep _ 0 _ _ L _ F0 Va) as (e1 & -> & F1). cbn [rbind].
    assert (Sb := disp_spec L b). destruct (dielectric b L) as [vb|e]; cbn [rbind].
    2:{ apply (D b Sb). intros x N. destruct (K _ _ N) as [ex ->]. destruct (eps_at a x); cbn; intros [? ?]; discriminate. }
    destruct Sb as [Ob Vb]. destruct (set_diag_rep _ 1 _ _ L _ F1 Vb) as (e2 & -> & F2). cbn [rbind].
    assert (Sc := disp_spec L c). destruct (dielectric c L) as [vc|e]; cbn [rbind].
    2:{ apply (D c Sc). intros x N. destruct (K _ _ N) as [ex ->]. destruct (eps_at a x), (eps_at b x); cbn; intros [? ?]; discriminate. }
    destruct Sc as [Oc Vc]. destruct (set_diag_rep _ 2 _ _ L _ F2 Vc) as (e3 & -> & F3).
    split.
    + intros x Hx. destruct (Oa x Hx) as [ya ->], (Ob x Hx) as [yb ->], (Oc x Hx) as [yc ->]. eexists. reflexivity.
    + eapply F2_impl; [|exact F3]. intros x t Hx -> i j Hi Hj. cbn beta.
      destruct (Oa x Hx) as [ya ->], (Ob x Hx) as [yb ->], (Oc x Hx) as [yc ->]. cbn [rbind gett get]. unfold oset.
      destruct i as [|[|[|i]]], j as [|[|[|j]]]; cbn; try reflexivity; lia.
  - destruct (get_tensors m L) as [e|ex]; cbn [rbind].
    + destruct IH as [O F]. split.
      * intros x Hx. destruct (O x Hx) as [y ->]. eexists. reflexivity.
      * unfold rotate. clear - O F. induction F as [|x t L e Ht F IH]; cbn [map]; constructor.
        -- destruct (O x (or_introl eq_refl)) as [y Hy]. rewrite Hy in Ht |- *. cbn [gett rbind] in *. intros i j Hi Hj.
           unfold omul, osum3, of_mat. rewrite !Ht by lia. reflexivity.
        -- apply IH. intros y Hy. apply O. now right.
    + destruct IH as (x & Hx & N). exists x. split; [exact Hx|]. intros K. apply N. destruct (tensor_at m x); [eexists; reflexivity|]. destruct K; discriminate.
  - destruct (get_tensors h L) as [eh|ex]; cbn [rbind].
    2:{ destruct IHh as (x & Hx & N). exists x. split; [exact Hx|]. intros K. apply N. destruct (tensor_at h x); [eexists; reflexivity|]. destruct K; discriminate. }
    destruct IHh as [Oh Fh]. destruct (get_tensors g L) as [eg|ex]; cbn [rbind].
    2:{ destruct IHg as (x & Hx & N). exists x. split; [exact Hx|]. intros K. apply N. destruct (tensor_at g x); [eexists; reflexivity|]. destruct (tensor_at h x), K; discriminate. }
    destruct IHg as [Og Fg]. destruct (mix_arrays_spec k f L eh eg _ _ Fh Fg) as (e & -> & F). split.
    + intros x Hx. destruct (Oh x Hx) as [y ->], (Og x Hx) as [z ->]. eexists. reflexivity.
    + eapply F2_impl; [|exact F]. intros x t Hx Ht i j Hi Hj. rewrite Ht by assumption. destruct (Oh x Hx) as [y ->], (Og x Hx) as [z ->]. reflexivity.
Qed.
