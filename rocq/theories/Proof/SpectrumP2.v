(** Lemmas for C99: Solver2x2 on arrays and at one wavelength *)
From Coq Require Import Reals Lra Lia Arith.
From Coquelicot Require Import Complex.
From Coq Require Import List.
From Verif.Base Require Import Py Cx Mat.
From Verif.Model Require Import Units Ellips Structure Mixture Solver2 Spectrum.
From Verif.Spec Require Import Pointwise.
From Verif.Proof Require Import SpectrumP.
Import ListNotations.
Open Scope R_scope.
Open Scope C_scope.
Open Scope py_scope.

Ltac arrays := repeat (rewrite bc2_map; cbn [rbind]; rewrite ?map_map).

Definition fres (p : bool) (n n' th th' : option C) : option (C * C) :=
  let? n := n in let? n' := n' in let? th := th in let? th' := th' in
  (if p then fresnel_p else fresnel_s) n n' th th'.

Lemma fresnel_rows_map p (n n' th th' : R -> option C) L :
  fresnel_rows p (map n L) (map n' L) (map th L) (map th' L) =
  Ok (map (fun x => option_map fst (fres p (n x) (n' x) (th x) (th' x))) L,
      map (fun x => option_map snd (fres p (n x) (n' x) (th x) (th' x))) L).
Proof.
  unfold fresnel_rows. rewrite !map_map. arrays.
  destruct p; arrays; do 2 f_equal; apply map_ext; intros x;
    destruct (n x) as [a|], (n' x) as [b|], (th x) as [c|], (th' x) as [d|]; try reflexivity; cbn [o1 o2 odiv option_map obind fres];
    unfold fresnel_p, fresnel_s, cdiv; destruct (Ceq_dec _ 0); reflexivity.
Qed.

Definition ent (M : option mat) (i j : nat) : option C := option_map (fun M => M i j) M.
Definition rowsm (Mx : R -> option mat) (L : list R) : mat2 :=
  ((map (fun x => ent (Mx x) 0 0) L, map (fun x => ent (Mx x) 0 1) L), (map (fun x => ent (Mx x) 1 0) L, map (fun x => ent (Mx x) 1 1) L)).

Lemma pairs4 {A} (a b c d a' b' c' d' : A) : a = a' -> b = b' -> c = c' -> d = d' -> ((a, b), (c, d)) = ((a', b'), (c', d')).
Proof. congruence. Qed.
Lemma rowsm_ext M N L : (forall x i j, (i < 2)%nat -> (j < 2)%nat -> ent (M x) i j = ent (N x) i j) -> rowsm M L = rowsm N L.
Proof. intros H. apply pairs4; apply map_ext; intros x; apply H; lia. Qed.

Lemma mat2_mul_map M N L : mat2_mul (rowsm M L) (rowsm N L) = Ok (rowsm (fun x => let? A := M x in let? B := N x in Some (mmul 2 A B)) L).
Proof.
  unfold rowsm, mat2_mul, dot2. arrays. f_equal. 
  assert (G : forall i j x, o2 Cplus (o2 Cmult (ent (M x) i 0) (ent (N x) 0 j)) (o2 Cmult (ent (M x) i 1) (ent (N x) 1 j)) = ent (let? A := M x in let? B := N x in Some (mmul 2 A B)) i j).
  { intros i j x. destruct (M x), (N x); try reflexivity. cbn. f_equal. unfold mmul. cbn. ring. }
  apply pairs4; apply map_ext; intros x; apply G.
Qed.

Lemma mat2_div_map (a b c d t : R -> option C) L (M : R -> option mat) :
  (forall x, odiv (a x) (t x) = ent (M x) 0 0 /\ odiv (b x) (t x) = ent (M x) 0 1 /\ odiv (c x) (t x) = ent (M x) 1 0 /\ odiv (d x) (t x) = ent (M x) 1 1) ->
  mat2_div ((map a L, map b L), (map c L, map d L)) (map t L) = Ok (rowsm M L).
Proof.
  intros H. unfold mat2_div, rowsm. arrays. f_equal. apply pairs4; apply map_ext; intros x; apply H.
Qed.

Fixpoint loop_pt (p : bool) (M : option mat) (media : list (option C * option C)) (delta : list (option C)) : option mat :=
  match media, delta with
  | (n, th) :: (((n', th') :: _) as rest), d :: delta =>
      loop_pt p (let? M := M in let? L := (let? rt := fres p n n' th th' in let? d := d in layer_matrix d rt) in Some (mmul 2 M L)) rest delta
  | _, _ => M
  end.

Lemma layer_entries (rt : option (C * C)) (d : option C) :
  let em := o1 (fun x => Cexp (- Ci * x)) d in let ep := o1 (fun x => Cexp (Ci * x)) d in
  let r := option_map fst rt in let t := option_map snd rt in
  let M := let? rt := rt in let? d := d in layer_matrix d rt in
  odiv em t = ent M 0 0 /\ odiv (o2 Cmult r em) t = ent M 0 1 /\ odiv (o2 Cmult r ep) t = ent M 1 0 /\ odiv ep t = ent M 1 1.
Proof.
  destruct rt as [[r t]|], d as [d|]; cbn [option_map fst snd o1 o2 odiv obind]; try (repeat split; reflexivity).
  unfold layer_matrix, mdivc, cdiv. destruct (Ceq_dec t 0); repeat split; reflexivity.
Qed.

Definition at_x (x : R) (m : (R -> option C) * (R -> option C)) : option C * option C := (fst m x, snd m x).
Definition rows_of (L : list R) (m : (R -> option C) * (R -> option C)) : row * row := (map (fst m) L, map (snd m) L).

Lemma loop_map p L media : forall delta M,
  loop_arrays p (rowsm M L) (map (rows_of L) media) (map (fun d => map d L) delta) =
  Ok (rowsm (fun x => loop_pt p (M x) (map (at_x x) media) (map (fun d => d x) delta)) L).
Proof.
  induction media as [|[n th] media IH]; intros delta M; [reflexivity|]. destruct media as [|[n' th'] rest]; [reflexivity|]. destruct delta as [|d delta]; [reflexivity|].
  cbn [map rows_of at_x fst snd loop_arrays loop_pt]. rewrite fresnel_rows_map. cbn [rbind]. rewrite !map_map. arrays.
  erewrite mat2_div_map; [|intros x; apply (layer_entries (fres p (n x) (n' x) (th x) (th' x)) (d x))]. cbn [rbind]. rewrite mat2_mul_map. cbn [rbind].
  exact (IH delta _).
Qed.

Definition amp_pt (p : bool) (media : list (option C * option C)) (delta : list (option C)) : option (C * C) :=
  match media with
  | (n, th) :: (((n', th') :: _) as rest) =>
      let? M := loop_pt p (let? rt := fres p n n' th th' in interface_matrix rt) rest delta in
      let? r := cdiv (M 1%nat 0%nat) (M 0%nat 0%nat) in
      let? t := cdiv 1 (M 0%nat 0%nat) in
      Some (r, t)
  | _ => None
  end.

Lemma interface_entries (rt : option (C * C)) :
  let r := option_map fst rt in let t := option_map snd rt in let M := let? rt := rt in interface_matrix rt in
  odiv (Some (RtoC 1)) t = ent M 0 0 /\ odiv r t = ent M 0 1 /\ odiv r t = ent M 1 0 /\ odiv (Some (RtoC 1)) t = ent M 1 1.
Proof.
  destruct rt as [[r t]|]; cbn [option_map fst snd odiv obind]; [|repeat split; reflexivity].
  unfold interface_matrix, mdivc, cdiv. destruct (Ceq_dec t 0); repeat split; reflexivity.
Qed.

Lemma repeat_map {A} (a : A) (L : list R) : repeat a (length L) = map (fun _ => a) L.
Proof. induction L; cbn; congruence. Qed.

Lemma amplitudes_map p L m m' media delta :
  amplitudes_arrays p (map (rows_of L) (m :: m' :: media)) (map (fun d => map d L) delta) =
  Ok (map (fun x => option_map fst (amp_pt p (map (at_x x) (m :: m' :: media)) (map (fun d => d x) delta))) L,
      map (fun x => option_map snd (amp_pt p (map (at_x x) (m :: m' :: media)) (map (fun d => d x) delta))) L).
Proof.
  destruct m as [n th], m' as [n' th']. unfold amplitudes_arrays. cbn [map rows_of fst snd]. rewrite fresnel_rows_map. cbn [rbind].
  rewrite map_length, repeat_map.
  erewrite mat2_div_map; [|intros x; apply (interface_entries (fres p (n x) (n' x) (th x) (th' x)))]. cbn [rbind].
  assert (E := loop_map p L ((n', th') :: media) delta (fun x => let? rt := fres p (n x) (n' x) (th x) (th' x) in interface_matrix rt)).
  cbn [map rows_of fst snd] in E. rewrite E. cbn [rbind]. unfold rowsm. arrays. do 2 f_equal; apply map_ext; intros x; cbn [map at_x fst snd amp_pt];
    destruct (loop_pt _ _ _ _) as [M|]; cbn; try reflexivity; unfold cdiv; destruct (Ceq_dec _ 0); reflexivity.
Qed.

Definition fn := R -> option C.
Definition rows_fn (L : list R) (l : list fn) : list row := map (fun g => map g L) l.
Definition sn (theta_i : R) (nf n : fn) : fn := fun x => o1 Casin (odiv (o1 (fun n => n * RtoC (sin (deg2rad theta_i))) (nf x)) (n x)).
Definition fixf (n a : fn) : fn := fun x => replace_angle (n x) (a x).

Lemma rmapM_map_ok {A B D} (f : B -> res D) (g : A -> B) (h : A -> D) l : (forall a, f (g a) = Ok (h a)) -> rmapM f (map g l) = Ok (map h l).
Proof. intros H. induction l as [|a l IH]; [reflexivity|]. cbn. now rewrite H, IH. Qed.

Lemma snell_map th L nf inner nb :
  list_snell_arrays th (rows_fn L (nf :: inner ++ [nb])) =
  Ok (rows_fn L (fixf nf (sn th nf nf) :: map (sn th nf) inner ++ [fixf nb (sn th nf nb)])).
Proof.
  unfold list_snell_arrays, rows_fn. cbn [map]. rewrite map_map.
  rewrite (rmapM_map_ok _ (fun g : fn => map g L) (fun g => map (fun x => odiv (o1 (fun n => n * RtoC (sin (deg2rad th))) (nf x)) (g x)) L) (nf :: inner ++ [nb])) by (intros g; apply bc2_map).
  cbn [rbind map]. rewrite !map_map. rewrite bc2_map. cbn [rbind].
  rewrite (map_app _ inner [nb]). cbn [map]. rewrite !map_app. cbn [map].
  rewrite !app_comm_cons, !last_last. rewrite !map_map, bc2_map. cbn [rbind]. unfold upd_last. rewrite removelast_last. f_equal. rewrite <- app_comm_cons. do 2 f_equal.
  rewrite <- app_comm_cons. f_equal. f_equal. apply map_ext. intros g. now rewrite map_map.
Qed.

Lemma combine_map {X A B} (f : X -> A) (g : X -> B) L : combine (map f L) (map g L) = map (fun x => (f x, g x)) L.
Proof. induction L; cbn; congruence. Qed.

(** The angles and phases as functions of the wavelength *)
Definition angles (th : R) (nf : fn) (inner : list fn) (nb : fn) : list fn :=
  fixf nf (sn th nf nf) :: map (sn th nf) inner ++ [fixf nb (sn th nf nb)].
Definition ncos (n a : fn) : fn := fun x => o2 Cmult (n x) (o1 Ccos (a x)).
Definition phase (nc : fn) (d : R) : fn := fun x => o1 (fun y => y * RtoC d) (odiv (o1 (Cmult (2 * RtoC PI)) (nc x)) (Some (RtoC x))).
Definition deltas (th : R) (nf : fn) (inner : list fn) (ds : list R) : list fn :=
  map (fun '(n, d) => phase (ncos n (sn th nf n)) d) (combine inner ds).
Definition csq (e : fn) : fn := fun x => o1 Csqrt (e x).

Lemma bc2_eq {A B D} (f : A -> B -> D) x y : length x = length y -> bc2 f x y = Ok (map (fun '(a, b) => f a b) (combine x y)).
Proof. intros H. unfold bc2. now rewrite H, Nat.eqb_refl. Qed.

Lemma rows2_map f L (a b : list fn) : length a = length b ->
  rows2 f (rows_fn L a) (rows_fn L b) = Ok (rows_fn L (map (fun '(g, h) => fun x => f (g x) (h x)) (combine a b))).
Proof.
  intros H. assert (E : length (rows_fn L a) = length (rows_fn L b)) by (unfold rows_fn; rewrite !map_length; exact H).
  unfold rows2. rewrite bc2_eq by exact E. cbn [rbind]. clear E. unfold rows_fn.
  revert b H. induction a as [|g a IH]; intros [|h b] H; try discriminate; [reflexivity|]. cbn [map combine rmapM]. rewrite bc2_map.
  rewrite IH by (now injection H). reflexivity.
Qed.

Lemma deltas_map th L nf ns : forall ds,
  map (fun '(k, d) => map (o1 (fun x => x * RtoC d)) k) (combine (rows_fn L (map (fun n => (fun x => odiv (o1 (Cmult (2 * RtoC PI)) (ncos n (sn th nf n) x)) (Some (RtoC x))) : fn) ns)) ds) =
    map (fun d => map d L) (deltas th nf ns ds).
Proof. unfold deltas, rows_fn. induction ns as [|n ns IH]; intros [|d ds]; try reflexivity. cbn [map combine]. rewrite map_map. f_equal. apply IH. Qed.

Lemma calculate2_map th L (ef eb : fn) (es : list fn) ds (front : tensors) (inner : list (R * tensors)) (back : tensors) :
  length es = length ds -> map fst inner = ds ->
  map (fun m : omat => m 0%nat 0%nat) front = map ef L -> map (fun m : omat => m 0%nat 0%nat) back = map eb L ->
  map (fun l => map (fun m : omat => m 0%nat 0%nat) (snd l)) inner = rows_fn L es ->
  let nf := csq ef in let nb := csq eb in let ns := map csq es in
  let media x := map (at_x x) (combine (nf :: ns ++ [nb]) (angles th nf ns nb)) in
  let delta x := map (fun d => d x) (deltas th nf ns ds) in
  calculate2 th L front inner back = Ok (ResultArrays
    (map (fun x => (option_map fst (amp_pt true (media x) (delta x)), option_map fst (amp_pt false (media x) (delta x)))) L)
    (map (fun x => (option_map snd (amp_pt true (media x) (delta x)), option_map snd (amp_pt false (media x) (delta x)))) L)
    (map (fun x => ordiv (oreal (ncos nb (fixf nb (sn th nf nb)) x)) (oreal (ncos nf (fixf nf (sn th nf nf)) x))) L)).
Proof.
  intros HL HD HF HB HI nf nb ns media delta. unfold calculate2. cbv zeta beta. rewrite HD.
  match goal with |- context [vstack ?x] => replace x with (map ef L :: rows_fn L es ++ [map eb L]) by (f_equal; [symmetry; exact HF|f_equal; [symmetry; exact HI|f_equal; symmetry; exact HB]]) end.
  assert (V : vstack (map ef L :: rows_fn L es ++ [map eb L]) = Ok (rows_fn L (ef :: es ++ [eb]))).
  { unfold vstack, rows_fn. cbn [map]. rewrite map_app. cbn [map].
    replace (forallb _ _) with true; [reflexivity|]. symmetry. apply forallb_forall. intros r Hr. rewrite map_length.
    apply in_app_iff in Hr. destruct Hr as [Hr|[<-|[]]]; [|rewrite map_length; apply Nat.eqb_refl].
    apply in_map_iff in Hr. destruct Hr as (g & <- & _). rewrite map_length. apply Nat.eqb_refl. }
  rewrite V. cbn [rbind].
  assert (N : map (map (o1 Csqrt)) (rows_fn L (ef :: es ++ [eb])) = rows_fn L (nf :: ns ++ [nb])).
  { transitivity (rows_fn L (map csq (ef :: es ++ [eb]))).
    - unfold rows_fn. rewrite !map_map. apply map_ext. intros g. apply map_map.
    - cbn [map]. rewrite map_app. reflexivity. }
  rewrite N. clear N. rewrite snell_map. cbn [rbind]. fold (angles th nf ns nb).
  assert (AC : map (map (o1 Ccos)) (rows_fn L (angles th nf ns nb)) = rows_fn L (map (fun a x => o1 Ccos (a x)) (angles th nf ns nb))).
  { unfold rows_fn. rewrite !map_map. apply map_ext. intros g. apply map_map. }
  assert (LA : length (nf :: ns ++ [nb]) = length (angles th nf ns nb)).
  { unfold angles. cbn. rewrite !app_length, map_length. reflexivity. }
  rewrite AC.
  set (NC := ncos nf (fixf nf (sn th nf nf)) :: map (fun n => ncos n (sn th nf n)) ns ++ [ncos nb (fixf nb (sn th nf nb))]).
  assert (CM : map (fun '(g, h) => fun x => o2 Cmult (g x) (h x)) (combine (nf :: ns ++ [nb]) (map (fun a x => o1 Ccos (a x)) (angles th nf ns nb))) = NC).
  { unfold angles, NC. cbn [map combine]. f_equal. generalize nf at 1 3. clear. intros f0. rewrite map_app. induction ns as [|n ns IH]; [reflexivity|]. cbn [map combine app]. f_equal. exact IH. }
  assert (R2 : rows2 (o2 Cmult) (rows_fn L (nf :: ns ++ [nb])) (rows_fn L (map (fun a x => o1 Ccos (a x)) (angles th nf ns nb))) = Ok (rows_fn L NC)).
  { rewrite rows2_map by (rewrite map_length; exact LA). f_equal. f_equal. exact CM. }
  rewrite R2. cbn [rbind]. clear R2 CM.
  assert (KZ : rows1 odiv (map (map (o1 (Cmult (2 * RtoC PI)))) (rows_fn L NC)) (map (fun l => Some (RtoC l)) L) =
    Ok (rows_fn L (map (fun nc : fn => (fun x => odiv (o1 (Cmult (2 * RtoC PI)) (nc x)) (Some (RtoC x))) : fn) NC))).
  { unfold rows1, rows_fn. rewrite !map_map. apply rmapM_map_ok. intros g. rewrite map_map. apply bc2_map. }
  match type of KZ with _ = ?r => match goal with |- context [rows1 odiv ?a ?b] => replace (rows1 odiv a b) with r by (symmetry; exact KZ) end end. cbn [rbind]. clear KZ.
  assert (TL : removelast (tl (rows_fn L (map (fun nc : fn => (fun x => odiv (o1 (Cmult (2 * RtoC PI)) (nc x)) (Some (RtoC x))) : fn) NC))) =
    rows_fn L (map (fun n => (fun x => odiv (o1 (Cmult (2 * RtoC PI)) (ncos n (sn th nf n) x)) (Some (RtoC x))) : fn) ns)).
  { unfold NC, rows_fn. cbn [map tl]. rewrite !map_app. cbn [map]. rewrite removelast_last, !map_map. reflexivity. }
  match type of TL with _ = ?r => match goal with |- context [removelast ?a] => replace (removelast a) with r by (symmetry; exact TL) end end. clear TL. rewrite bc2_eq by (unfold rows_fn, ns; rewrite !map_length; exact HL). cbn [rbind].
  assert (DE : map (fun '(k, d) => map (o1 (fun x => x * RtoC d)) k) (combine (rows_fn L (map (fun n => (fun x => odiv (o1 (Cmult (2 * RtoC PI)) (ncos n (sn th nf n) x)) (Some (RtoC x))) : fn) ns)) ds) =
    map (fun d => map d L) (deltas th nf ns ds)).
  { apply deltas_map. }
  match goal with |- context [amplitudes_arrays false ?m ?dd] => set (M := m); replace dd with (map (fun d => map d L) (deltas th nf ns ds)) by (symmetry; exact DE) end. clear DE.
  assert (ME : M = map (rows_of L) (combine (nf :: ns ++ [nb]) (angles th nf ns nb))).
  { unfold M, rows_fn. revert LA. generalize (nf :: ns ++ [nb]) (angles th nf ns nb). clear. intros a. induction a as [|g a IH]; intros [|h b] E; try discriminate; [reflexivity|]. cbn [map combine]. rewrite IH by (now injection E). reflexivity. }
  rewrite ME. clear M ME.
  assert (SH : exists m m' rest, combine (nf :: ns ++ [nb]) (angles th nf ns nb) = m :: m' :: rest).
  { unfold angles. destruct ns as [|n r]; cbn; eauto. }
  destruct SH as (m & m' & rest & SH). unfold media. rewrite SH. rewrite !amplitudes_map. cbn [rbind fst snd].
  assert (LN : last (rows_fn L NC) [] = map (ncos nb (fixf nb (sn th nf nb))) L /\ hd [] (rows_fn L NC) = map (ncos nf (fixf nf (sn th nf nf))) L).
  { unfold NC, rows_fn. cbn [map hd]. split; [|reflexivity]. rewrite map_app. cbn [map]. rewrite app_comm_cons. apply last_last. }
  destruct LN as [-> ->]. rewrite !map_map, bc2_map. cbn [rbind]. unfold zip. rewrite !combine_map. reflexivity.
Qed.
