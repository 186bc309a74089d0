(** Lemmas for C100: the array program of Model/Spectrum4.v acts on each wavelength. *)
From Coq Require Import Reals Lra Lia Arith.
From Coquelicot Require Import Complex.
From Coq Require Import List.
From Verif.Base Require Import Py Cx Mat Mexp Det.
From Verif.Model Require Import Units Ellips Structure Mixture Solver2 Solver4 Spectrum Spectrum4.
From Verif.Spec Require Import Pointwise.
From Verif.Proof Require Import SpectrumP SpectrumP2 SpectrumP3.
Import ListNotations.
Open Scope R_scope.
Open Scope C_scope.
Open Scope py_scope.

(** An array computation agrees with one that acts on single wavelengths *)
Definition agree {A} (L : list R) (r : res (list A)) (f : R -> res A) : Prop :=
  match r with
  | Ok l => exists a, l = map a L /\ forall x, In x L -> f x = Ok (a x)
  | Err e => e = LinAlgError /\ exists x, In x L /\ f x = Err LinAlgError
  end.

Lemma agree_ok {A} (a : R -> A) L : agree L (Ok (map a L)) (fun x => Ok (a x)).
Proof. exists a. split; [reflexivity|]. reflexivity. Qed.
Lemma agree_ext {A} L (r : res (list A)) f g : (forall x, In x L -> f x = g x) -> agree L r f -> agree L r g.
Proof.
  intros H. destruct r as [l|e]; cbn.
  - intros (a & E & G). exists a. split; [exact E|]. intros x Hx. rewrite <- H by exact Hx. now apply G.
  - intros (E & x & Hx & G). split; [exact E|]. exists x. split; [exact Hx|]. now rewrite <- H.
Qed.
Lemma agree_bind {A B} L (r : res (list A)) (k : list A -> res (list B)) f (g : R -> A -> res B) :
  agree L r f -> (forall a, agree L (k (map a L)) (fun x => g x (a x))) ->
  agree L (let* l := r in k l) (fun x => let* v := f x in g x v).
Proof.
  intros H K. destruct r as [l|e]; cbn [rbind].
  - destruct H as (a & -> & G). apply (agree_ext _ _ (fun x => g x (a x))); [|apply K]. intros x Hx. now rewrite (G x Hx).
  - destruct H as (-> & x & Hx & G). split; [reflexivity|]. exists x. split; [exact Hx|]. now rewrite G.
Qed.
Lemma agree_rmapM {A B} (h : A -> res B) (a : R -> A) (d : B) L : (forall v e, h v = Err e -> e = LinAlgError) ->
  agree L (rmapM h (map a L)) (fun x => h (a x)).
Proof.
  intros H. induction L as [|x L IH]; [exists (fun _ => d); split; [reflexivity|intros x []]|].
  cbn [map rmapM]. destruct (h (a x)) as [v|e] eqn:E; cbn [rbind].
  - destruct (rmapM h (map a L)) as [l|e] eqn:E'; cbn [rbind].
    + destruct IH as (b & -> & G). exists (fun y => match h (a y) with Ok v => v | Err _ => d end). cbn [map]. rewrite E. split.
      * f_equal. apply map_ext_in. intros y Hy. now rewrite (G y Hy).
      * intros y [<-|Hy]; [now rewrite E|]. now rewrite (G y Hy).
    + destruct IH as (-> & y & Hy & G). split; [reflexivity|]. exists y. split; [now right|exact G].
  - split; [now apply (H _ _ E)|]. exists x. split; [now left|]. rewrite E. f_equal. now apply (H _ _ E).
Qed.

(** Rows *)
Lemma lift_map f (g h : R -> option C) L : lift f (Ok (map g L)) (Ok (map h L)) = Ok (map (fun x => f (g x) (h x)) L).
Proof. unfold lift. cbn [rbind]. apply bc2_map. Qed.
Lemma neg_map (g : R -> option C) L : neg (Ok (map g L)) = Ok (map (fun x => o1 Copp (g x)) L).
Proof. unfold neg. cbn [rbind]. now rewrite map_map. Qed.
Lemma repeat_len {A B} (c : B) (L : list A) : repeat c (length L) = map (fun _ => c) L.
Proof. induction L; cbn; [reflexivity|now f_equal]. Qed.

Lemma rmapM_Ok {A} (l : list A) : rmapM (fun r => r) (map Ok l) = Ok l.
Proof. induction l as [|a l IH]; cbn; [reflexivity|now rewrite IH]. Qed.
Lemma seq_map {A B} (f : nat -> B) (g : A -> B) (L : list A) (d : A) : (forall k, (k < length L)%nat -> f k = g (nth k L d)) -> map f (seq 0 (length L)) = map g L.
Proof.
  intros H. revert f H. induction L as [|x L IH]; intros f H; [reflexivity|]. cbn [length seq map]. f_equal; [apply (H 0%nat); cbn; lia|].
  rewrite <- seq_shift, map_map. apply IH. intros k Hk. apply (H (S k)). cbn. lia.
Qed.

Lemma np_array_map (L : list R) (F : list (list (R -> option C))) : hd [] F <> [] ->
  np_array (map (map (fun g => Ok (map g L))) F) = Ok (map (fun x => omat_of (map (map (fun g => g x)) F)) L).
Proof.
  intros N. unfold np_array, row.
  assert (E : rmapM (fun l => rmapM (fun r => r) l) (map (map (fun g => Ok (map g L))) F) = Ok (map (map (fun g => map g L)) F)).
  { clear N. induction F as [|l F IH]; [reflexivity|]. cbn [map rmapM]. rewrite IH.
    replace (map (fun g : R -> option C => Ok (map g L)) l) with (map Ok (map (fun g : R -> option C => map g L) l)) by now rewrite map_map.
    rewrite rmapM_Ok. reflexivity. }
  rewrite E. cbn [rbind].
  assert (HN : length (hd [] (hd [] (map (map (fun g : R -> option C => map g L)) F))) = length L).
  { destruct F as [|[|g l] F]; cbn in *; try contradiction. now rewrite map_length. }
  rewrite HN.
  assert (HF : forallb (fun l : list row => forallb (fun r => Nat.eqb (length r) (length L)) l) (map (map (fun g => map g L)) F) = true).
  { apply forallb_forall. intros l Hl. apply in_map_iff in Hl. destruct Hl as (q & <- & _). apply forallb_forall. intros r Hr.
    apply in_map_iff in Hr. destruct Hr as (g & <- & _). rewrite map_length. apply Nat.eqb_refl. }
  unfold row in HF. rewrite HF. f_equal. apply (seq_map _ _ L 0%R). intros k Hk. f_equal. rewrite !map_map. apply map_ext. intros l. rewrite !map_map. apply map_ext.
  intros g. rewrite (nth_indep _ None (g 0%R)) by now rewrite map_length. apply map_nth.
Qed.

(** The steps at one wavelength *)
Definition delta1 (k : option C) (e : omat) : omat :=
  let z := Some (RtoC 0) in let o := Some (RtoC 1) in
  let e i j := e i j in
  omat_of
    [[odiv (o2 Cmult (o1 Copp k) (e 2%nat 0%nat)) (e 2%nat 2%nat); odiv (o2 Cmult (o1 Copp k) (e 2%nat 1%nat)) (e 2%nat 2%nat); z; o2 Cminus o (odiv (o2 Cmult k k) (e 2%nat 2%nat))];
     [z; z; o1 Copp o; z];
     [o2 Cminus (odiv (o2 Cmult (e 1%nat 2%nat) (e 2%nat 0%nat)) (e 2%nat 2%nat)) (e 1%nat 0%nat);
      o2 Cplus (o2 Cminus (o2 Cmult k k) (e 1%nat 1%nat)) (odiv (o2 Cmult (e 1%nat 2%nat) (e 2%nat 1%nat)) (e 2%nat 2%nat)); z; odiv (o2 Cmult k (e 1%nat 2%nat)) (e 2%nat 2%nat)];
     [o2 Cminus (e 0%nat 0%nat) (odiv (o2 Cmult (e 0%nat 2%nat) (e 2%nat 0%nat)) (e 2%nat 2%nat));
      o2 Cminus (e 0%nat 1%nat) (odiv (o2 Cmult (e 0%nat 2%nat) (e 2%nat 1%nat)) (e 2%nat 2%nat)); z; odiv (o2 Cmult (o1 Copp k) (e 0%nat 2%nat)) (e 2%nat 2%nat)]].

(** eps is the array of the tensors e x *)
Definition stacked (L : list R) (eps : tensors) (e : R -> omat) : Prop :=
  forall i j, (i < 3)%nat -> (j < 3)%nat -> element eps i j = map (fun x => e x i j) L.

Lemma build_delta_map L (k : R -> option C) eps e : stacked L eps e ->
  build_delta_arrays (map k L) eps = Ok (map (fun x => delta1 (k x) (e x)) L).
Proof.
  intros H. unfold build_delta_arrays. rewrite map_length, !repeat_len.
  rewrite !H by lia. cbv zeta. rewrite !neg_map, !lift_map.
  refine (np_array_map L [[_; _; _; _]; [_; _; _; _]; [_; _; _; _]; [_; _; _; _]] _). discriminate.
Qed.

Definition cos1 (k e : option C) : option C := o1 (fun s => Csqrt (1 - s * s)) (odiv k (o1 Csqrt e)).
Definition iso1 (k : option C) (e : option C) (inv : bool) : omat :=
  let z := Some (RtoC 0) in let o := Some (RtoC 1) in
  let n := o1 Csqrt e in let c := cos1 k e in
  if inv then fun i j => o1 (Cmult (RtoC (1 / 2))) (omat_of
    [[z; o; odiv (odiv (o1 Copp o) c) n; z];
     [z; o; odiv (odiv o c) n; z];
     [odiv o c; z; z; odiv o n];
     [odiv (o1 Copp o) c; z; z; odiv o n]] i j)
  else omat_of
    [[z; z; c; o1 Copp c];
     [o; o; z; z];
     [o2 Cmult (o1 Copp n) c; o2 Cmult n c; z; z];
     [z; z; n; n]].
Lemma iso_map L (k : R -> option C) eps e inv : stacked L eps e ->
  iso_halfspace_arrays (map k L) eps inv = Ok (map (fun x => iso1 (k x) (e x 0%nat 0%nat) inv) L).
Proof.
  intros H. unfold iso_halfspace_arrays. rewrite map_length, !repeat_len. rewrite !H by lia. cbv zeta.
  rewrite !map_map, !lift_map. cbn [rbind]. rewrite !map_map. rewrite !neg_map, !lift_map. destruct inv.
  - match goal with |- (let* a := np_array ?M in _) = _ => assert (E : np_array M = Ok (map (fun x => omat_of
      [[Some (RtoC 0); Some (RtoC 1); odiv (odiv (o1 Copp (Some (RtoC 1))) (cos1 (k x) (e x 0%nat 0%nat))) (o1 Csqrt (e x 0%nat 0%nat)); Some (RtoC 0)];
       [Some (RtoC 0); Some (RtoC 1); odiv (odiv (Some (RtoC 1)) (cos1 (k x) (e x 0%nat 0%nat))) (o1 Csqrt (e x 0%nat 0%nat)); Some (RtoC 0)];
       [odiv (Some (RtoC 1)) (cos1 (k x) (e x 0%nat 0%nat)); Some (RtoC 0); Some (RtoC 0); odiv (Some (RtoC 1)) (o1 Csqrt (e x 0%nat 0%nat))];
       [odiv (o1 Copp (Some (RtoC 1))) (cos1 (k x) (e x 0%nat 0%nat)); Some (RtoC 0); Some (RtoC 0); odiv (Some (RtoC 1)) (o1 Csqrt (e x 0%nat 0%nat))]]) L)) end.
    { refine (np_array_map L [[_; _; _; _]; [_; _; _; _]; [_; _; _; _]; [_; _; _; _]] _). discriminate. }
    rewrite E. cbn [rbind]. rewrite map_map. reflexivity.
  - refine (np_array_map L [[_; _; _; _]; [_; _; _; _]; [_; _; _; _]; [_; _; _; _]] _). discriminate.
Qed.

Lemma matmul_map n (a b : R -> omat) L : matmul n (map a L) (map b L) = Ok (map (fun x => omul_n n (a x) (b x)) L).
Proof. apply bc2_map. Qed.
Lemma inv_err n m e : inv_one n m = Err e -> e = LinAlgError.
Proof. unfold inv_one. destruct (values n m) as [v|]; [|discriminate]. destruct (minv n v); [discriminate|]. intros H. now injection H as <-. Qed.

Section Eigen.
Variable eig : mat -> option ((nat -> C) * mat).
Lemma eig_err m e : eig_one eig m = Err e -> e = LinAlgError.
Proof. unfold eig_one. destruct (values 4 m) as [v|]; [|intros H; now injection H as <-]. destruct (eig v); [discriminate|]. intros H. now injection H as <-. Qed.

Definition scaled1 (delta : omat) (x : R) : omat := fun i j => o2 Cmult (delta i j) (option_map RtoC (wave_number x)).
Definition sort1 (qw : (nat -> C) * mat) : (nat -> C) * mat := let i := lexsort (fst qw) in (take_vec (fst qw) i, take_cols (snd qw) i).
Definition exp1 (qw : (nat -> C) * mat) (t x : R) : omat := fun i j => if Nat.eqb i j then
  (let? e := rdiv 1 x in Some (Cexp (fst qw i * (2 * Ci) * RtoC t * RtoC PI * RtoC e))) else Some (RtoC 0).
Definition prop1 (p : propagator) (delta : omat) (t x : R) : res omat :=
  match p with
  | Linear => Ok (fun i j => o2 Cplus (Some (mid i j)) (o1 (Cmult (Ci * RtoC t)) (scaled1 delta x i j)))
  | Expm => Ok (of_opt (option_map (mexp 4) (values 4 (fun i j => o1 (Cmult (Ci * RtoC t)) (scaled1 delta x i j)))))
  | Eig => let* qw := eig_one eig delta in
      let* wi := inv_one 4 (of_mat (snd (sort1 qw))) in
      Ok (omul_n 4 (omul_n 4 (of_mat (snd (sort1 qw))) (exp1 (sort1 qw) t x)) wi)
  end.

Definition none4 : omat := fun _ _ => None.
Definition eig0 : (nat -> C) * mat := (fun _ => RtoC 0, fun _ _ => RtoC 0).

Lemma bc2_id {X A B D} (f : A -> B -> D) (g : X -> A) (h : X -> B) L L' : L' = map h L ->
  bc2 f (map g L) L' = Ok (map (fun x => f (g x) (h x)) L).
Proof. intros ->. apply bc2_map. Qed.

Lemma propagation_agree p L (d : R -> omat) t :
  agree L (propagation eig p (map d L) t L) (fun x => prop1 p (d x) t x).
Proof.
  unfold propagation, prop1. destruct p.
  - unfold times_wave_number. rewrite bc2_map. cbn [rbind]. rewrite map_map. exact (agree_ok _ L).
  - unfold times_wave_number. rewrite bc2_map. cbn [rbind]. rewrite !map_map. exact (agree_ok _ L).
  - apply (agree_bind L _ _ (fun x => eig_one eig (d x)) (fun x qw => let* wi := inv_one 4 (of_mat (snd (sort1 qw))) in
      Ok (omul_n 4 (omul_n 4 (of_mat (snd (sort1 qw))) (exp1 (sort1 qw) t x)) wi))).
    { apply (agree_rmapM _ _ eig0). intros v e. apply eig_err. }
    intros qw. cbv zeta. rewrite map_map.
    assert (S : map (fun x => let '(q, w) := qw x in (take_vec q (lexsort q), take_cols w (lexsort q))) L = map (fun x => sort1 (qw x)) L).
    { apply map_ext. intros x. unfold sort1. destruct (qw x). reflexivity. }
    rewrite S. clear S. set (sq := fun x => sort1 (qw x)).
    apply (agree_bind L _ _ (fun x => inv_one 4 (of_mat (snd (sq x)))) (fun x wi => Ok (omul_n 4 (omul_n 4 (of_mat (snd (sq x))) (exp1 (sq x) t x)) wi))).
    { apply (agree_rmapM (fun qw => inv_one 4 (of_mat (snd qw))) sq none4). intros v e. apply inv_err. }
    intros wi. rewrite (bc2_id _ sq (fun x => x)) by (symmetry; apply map_id). cbn [rbind]. rewrite !map_map.
    match goal with |- agree L (let* wp := ?M in _) _ => change M with (matmul 4 (map (fun x => of_mat (snd (sq x))) L) (map (fun x => exp1 (sq x) t x) L)) end.
    rewrite matmul_map. cbn [rbind].
    rewrite matmul_map. exact (agree_ok _ L).
Qed.

Definition half1 (delta : omat) : res omat := let* e := eig_one eig delta in Ok (of_opt (transition_matrix_halfspace e)).
Lemma halfspace_agree L (d : R -> omat) : agree L (halfspace_arrays eig (map d L)) (fun x => half1 (d x)).
Proof.
  unfold halfspace_arrays, half1.
  apply (agree_bind L _ _ (fun x => eig_one eig (d x)) (fun x e => Ok (of_opt (transition_matrix_halfspace e)))).
  - apply (agree_rmapM _ _ eig0). intros v e. apply eig_err.
  - intros a. rewrite map_map. exact (agree_ok _ L).
Qed.

Definition layers1 (p : propagator) (k : option C) (x : R) (inner : list (R * omat)) (m : res omat) : res omat :=
  fold_left (fun acc l => let* m := acc in let* m_p := prop1 p (delta1 k (snd l)) (- fst l)%R x in Ok (omul_n 4 m_p m)) (rev inner) m.

Definition layer_fn := (R * (R -> omat))%type.
Definition at_w (x : R) (l : layer_fn) : R * omat := (fst l, snd l x).
Definition stacked_layer (L : list R) (l : R * tensors) (l' : layer_fn) : Prop := fst l = fst l' /\ stacked L (snd l) (snd l').

Lemma Forall2_rev {A B} (P : A -> B -> Prop) l l' : Forall2 P l l' -> Forall2 P (rev l) (rev l').
Proof. induction 1; cbn; [constructor|]. apply Forall2_app; [assumption|]. constructor; [assumption|constructor]. Qed.

Lemma fold_agree p L (k : R -> option C) : forall (inner : list (R * tensors)) (inner' : list layer_fn), Forall2 (stacked_layer L) inner inner' -> forall acc facc, agree L acc facc ->
  agree L (fold_left (fun acc l =>
      let* m_t := acc in
      let* delta := build_delta_arrays (map k L) (snd l) in
      let* m_p := propagation eig p delta (- fst l)%R L in
      matmul 4 m_p m_t) inner acc)
    (fun x => fold_left (fun acc l => let* m := acc in let* m_p := prop1 p (delta1 (k x) (snd l)) (- fst l)%R x in Ok (omul_n 4 m_p m)) (map (at_w x) inner') (facc x)).
Proof.
  induction 1 as [|l l' inner inner' [H1 H2] F IH]; intros acc facc G; [exact G|]. cbn [fold_left map]. apply IH.
  apply (agree_bind L _ _ facc (fun x m => let* m_p := prop1 p (delta1 (k x) (snd (at_w x l'))) (- fst (at_w x l'))%R x in Ok (omul_n 4 m_p m))); [exact G|].
  intros m. rewrite (build_delta_map L k (snd l) (snd l') H2). cbn [rbind]. rewrite H1.
  apply (agree_bind L _ _ (fun x => prop1 p (delta1 (k x) (snd l' x)) (- fst l')%R x) (fun x m_p => Ok (omul_n 4 m_p (m x)))).
  - apply propagation_agree.
  - intros a. rewrite matmul_map. exact (agree_ok _ L).
Qed.

(** The program at one wavelength *)
Definition kx1 (th : R) (e : option C) : option C := o1 (fun n => n * RtoC (sin (deg2rad th))) (o1 Csqrt e).
Definition exit1 (iso_back : bool) (k : option C) (eb : omat) : res omat :=
  if iso_back then Ok (iso1 k (eb 0%nat 0%nat) false) else half1 (delta1 k eb).
Definition transfer1 (p : propagator) (iso_back : bool) (th x : R) (ef : omat) (inner : list (R * omat)) (eb : omat) : res omat :=
  let k := kx1 th (ef 0%nat 0%nat) in
  let* m := layers1 p k x inner (exit1 iso_back k eb) in
  Ok (omul_n 4 (iso1 k (ef 0%nat 0%nat) true) m).
Definition kz1 (e k : option C) : option C := o1 Csqrt (o2 Cminus (o2 Cmult (o1 Csqrt e) (o1 Csqrt e)) (o2 Cmult k k)).
Definition power1 (iso_back : bool) (th : R) (ef eb : omat) : option R :=
  let k := kx1 th (ef 0%nat 0%nat) in
  if iso_back then ordiv (oreal (kz1 (eb 0%nat 0%nat) k)) (oreal (kz1 (ef 0%nat 0%nat) k)) else Some 1%R.
Definition point4 (p : propagator) (iso_back : bool) (th x : R) (ef : omat) (inner : list (R * omat)) (eb : omat) : res (omat * omat) :=
  let* m := transfer1 p iso_back th x ef inner eb in
  let* t := inv_one 2 (sub [2; 0]%nat [2; 0]%nat m) in
  Ok (omul_n 2 (sub [3; 1]%nat [2; 0]%nat m) t, t).

Lemma kz_map L eps e (k : R -> option C) : stacked L eps e -> k_z_arrays eps (map k L) = Ok (map (fun x => kz1 (e x 0%nat 0%nat) (k x)) L).
Proof.
  intros H. unfold k_z_arrays. rewrite H by lia. rewrite map_map, !lift_map. cbn [rbind]. rewrite map_map. reflexivity.
Qed.

Lemma calculate4_spec p iso th L front inner back ef inner' eb :
  stacked L front ef -> Forall2 (stacked_layer L) inner inner' -> stacked L back eb ->
  match calculate4 eig p iso th L front inner back with
  | Ok r => exists a, (forall x, In x L -> point4 p iso th x (ef x) (map (at_w x) inner') (eb x) = Ok (a x)) /\
      jones_r_arr r = map (fun x => fst (a x)) L /\ jones_t_arr r = map (fun x => snd (a x)) L /\
      power_arr r = map (fun x => power1 iso th (ef x) (eb x)) L
  | Err e => e = LinAlgError /\ exists x, In x L /\ point4 p iso th x (ef x) (map (at_w x) inner') (eb x) = Err LinAlgError
  end.
Proof.
  intros HF HI HB. unfold calculate4. cbv zeta.
  set (k := fun x => kx1 th (ef x 0%nat 0%nat)).
  assert (K : map (o1 (fun n => n * RtoC (sin (deg2rad th)))) (map (o1 Csqrt) (element front 0 0)) = map k L).
  { rewrite HF by lia. rewrite !map_map. reflexivity. }
  rewrite K. clear K.
  assert (EX : agree L (if iso then iso_halfspace_arrays (map k L) back false else let* delta := build_delta_arrays (map k L) back in halfspace_arrays eig delta)
    (fun x => exit1 iso (k x) (eb x))).
  { unfold exit1. destruct iso.
    - rewrite (iso_map L k back eb false HB). exact (agree_ok _ L).
    - rewrite (build_delta_map L k back eb HB). cbn [rbind]. apply halfspace_agree. }
  assert (FO := fold_agree p L k (rev inner) (rev inner') (Forall2_rev _ _ _ HI) _ _ EX).
  set (ex := if iso then _ else _) in *.
  set (step := fun acc (l : R * tensors) => let* m_t := acc in let* delta := build_delta_arrays (map k L) (snd l) in let* m_p := propagation eig p delta (- fst l)%R L in matmul 4 m_p m_t) in *.
  assert (EE : (let* m_t := ex in fold_left step (rev inner) (Ok m_t)) = fold_left step (rev inner) ex).
  { destruct ex as [m|e]; [reflexivity|]. cbn [rbind]. clear FO. induction (rev inner) as [|l ls IH]; [reflexivity|]. exact IH. }
  assert (MT : agree L (let* m_t := ex in let* m_t := fold_left step (rev inner) (Ok m_t) in let* m_lf := iso_halfspace_arrays (map k L) front true in matmul 4 m_lf m_t)
    (fun x => transfer1 p iso th x (ef x) (map (at_w x) inner') (eb x))).
  { replace (let* m_t := ex in let* m_t := fold_left step (rev inner) (Ok m_t) in let* m_lf := iso_halfspace_arrays (map k L) front true in matmul 4 m_lf m_t)
      with (let* m_t := fold_left step (rev inner) ex in let* m_lf := iso_halfspace_arrays (map k L) front true in matmul 4 m_lf m_t)
      by (rewrite <- EE; destruct ex; reflexivity).
    unfold transfer1, layers1. apply (agree_ext L _ (fun x => let* m := fold_left (fun acc l => let* m := acc in let* m_p := prop1 p (delta1 (k x) (snd l)) (- fst l)%R x in Ok (omul_n 4 m_p m)) (map (at_w x) (rev inner')) (exit1 iso (k x) (eb x)) in
      Ok (omul_n 4 (iso1 (k x) (ef x 0%nat 0%nat) true) m))).
    { intros x _. rewrite <- map_rev. reflexivity. }
    apply (agree_bind L _ _ _ (fun x m => Ok (omul_n 4 (iso1 (k x) (ef x 0%nat 0%nat) true) m)) FO).
    intros a. rewrite (iso_map L k front ef true HF). cbn [rbind]. rewrite matmul_map. exact (agree_ok _ L). }
  clear FO EE EX.
  assert (Q : forall (B : Type) (f : list omat -> res B), (let* m_t := ex in let* m_t := fold_left step (rev inner) (Ok m_t) in let* m_lf := iso_halfspace_arrays (map k L) front true in let* m_t := matmul 4 m_lf m_t in f m_t)
     = (let* m_t := (let* m_t := ex in let* m_t := fold_left step (rev inner) (Ok m_t) in let* m_lf := iso_halfspace_arrays (map k L) front true in matmul 4 m_lf m_t) in f m_t)).
  { intros B f. destruct ex as [m|e]; [|reflexivity]. cbn [rbind]. destruct (fold_left step (rev inner) (Ok m)) as [m'|e]; [|reflexivity]. cbn [rbind].
    destruct (iso_halfspace_arrays (map k L) front true); reflexivity. }
  rewrite Q. clear Q.
  match type of MT with agree L ?r _ => destruct r as [l|e] end; cbn [rbind].
  2:{ destruct MT as (-> & x & Hx & E). split; [reflexivity|]. exists x. split; [exact Hx|]. unfold point4. rewrite E. reflexivity. }
  destruct MT as (m & -> & E). rewrite map_map.
  assert (IV := agree_rmapM (inv_one 2) (fun x => sub [2; 0]%nat [2; 0]%nat (m x)) none4 L (inv_err 2)).
  destruct (rmapM (inv_one 2) (map (fun x => sub [2; 0]%nat [2; 0]%nat (m x)) L)) as [l|e]; cbn [rbind].
  2:{ destruct IV as (-> & x & Hx & E'). split; [reflexivity|]. exists x. split; [exact Hx|]. unfold point4. rewrite (E x Hx). cbn [rbind]. rewrite E'. reflexivity. }
  destruct IV as (t & -> & E'). rewrite map_map, matmul_map. cbn [rbind].
  assert (PW : (if iso then let* k_z_f := k_z_arrays front (map k L) in let* k_z_b := k_z_arrays back (map k L) in bc2 ordiv (map oreal k_z_b) (map oreal k_z_f)
      else Ok (map (fun _ => Some 1%R) L)) = Ok (map (fun x => power1 iso th (ef x) (eb x)) L)).
  { unfold power1. destruct iso; [|reflexivity]. rewrite (kz_map L front ef k HF), (kz_map L back eb k HB). cbn [rbind]. rewrite !map_map. apply bc2_map. }
  rewrite PW. cbn [rbind jones_r_arr jones_t_arr power_arr].
  exists (fun x => (omul_n 2 (sub [3; 1]%nat [2; 0]%nat (m x)) (t x), t x)). split; [|repeat split; reflexivity].
  intros x Hx. unfold point4. rewrite (E x Hx). cbn [rbind]. rewrite (E' x Hx). reflexivity.
Qed.
End Eigen.
