From Coq Require Import Reals Lra Psatz.
From Coquelicot Require Import Complex.
From Coq Require Import List.
From Verif.Base Require Import Py Cx Mat.
From Verif.Model Require Import Units Ellips Structure Solver2.
From Verif.Spec Require Import Stack.
From Verif.Proof Require Import StackP FluxP UnitsP DispersionsP StructureP Solver2P Solver2P2 Solver2P3.
Import ListNotations.
Open Scope R_scope.
Open Scope C_scope.
Open Scope py_scope.

(** Both polarisations at once: [true] is s *)
Definition pf (b : bool) := if b then fresnel_s else fresnel_p.
Definition pc (b : bool) := if b then char_s else char_p.
Definition rt (b : bool) (x : result2) := if b then rt_s x else rt_p x.
Lemma pf_char b n n' th th' : pf b n n' th th' = fresnel_g (pc b (n, th)) (pc b (n', th')).
Proof. destruct b; [apply fresnel_s_g|apply fresnel_p_g]. Qed.

Definition input_ok (lb : R) (ef : C) (ls : list (R * C)) (eb : C) : Prop :=
  (lb <> 0)%R /\ ef <> 0 /\ eb <> 0 /\ Forall (fun l => snd l <> RtoC 0) ls.

Lemma solver2_eq th lb ef ls eb : input_ok lb ef ls eb -> let kx := kx_of th ef in
  solver2 th lb ef ls eb =
  let f := half_of kx ef in let b := half_of kx eb in let l := map (layer_of (k0 lb) kx) ls in
  Result2 (amplitudes fresnel_p f l b) (amplitudes fresnel_s f l b) (rdiv (Re (kz_half kx eb)) (Re (kz_half kx ef))).
Proof.
  intros (L & N0 & N1 & F). cbv zeta. unfold solver2. rewrite media_some by assumption. reflexivity.
Qed.

Lemma solver2_inv th lb ef ls eb : ~ input_ok lb ef ls eb -> solver2 th lb ef ls eb = Result2 None None None.
Proof.
  intros N. unfold solver2. destruct (solver2_media th lb ef ls eb) as [[[f l] b]|] eqn:E; [|reflexivity].
  apply media_inv in E. exfalso. apply N. unfold input_ok. tauto.
Qed.

Lemma input_dec lb ef ls eb : input_ok lb ef ls eb \/ ~ input_ok lb ef ls eb.
Proof.
  unfold input_ok. destruct (Req_EM_T lb 0); [right; tauto|]. destruct (Ceq_dec ef 0); [right; tauto|].
  destruct (Ceq_dec eb 0); [right; tauto|].
  destruct (Forall_dec (fun l : R * C => snd l <> RtoC 0)) with (l := ls); [|left|right; tauto].
  - intros x. destruct (Ceq_dec (snd x) 0) as [e|ne]; [right; intros K; now apply K|left; exact ne].
  - tauto.
Qed.

Lemma rt_some b th lb ef ls eb x : rt b (solver2 th lb ef ls eb) = Some x ->
  input_ok lb ef ls eb /\
  amplitudes (pf b) (half_of (kx_of th ef) ef) (map (layer_of (k0 lb) (kx_of th ef)) ls) (half_of (kx_of th ef) eb) = Some x.
Proof.
  destruct (input_dec lb ef ls eb) as [I|I].
  - rewrite solver2_eq by exact I. destruct b; cbn [rt rt_s rt_p pf]; auto.
  - rewrite solver2_inv by exact I. destruct b; discriminate.
Qed.
Lemma rt_eq b th lb ef ls eb : input_ok lb ef ls eb ->
  rt b (solver2 th lb ef ls eb) =
  amplitudes (pf b) (half_of (kx_of th ef) ef) (map (layer_of (k0 lb) (kx_of th ef)) ls) (half_of (kx_of th ef) eb).
Proof. intros I. rewrite solver2_eq by exact I. destruct b; reflexivity. Qed.

(** amplitudes depend on nonsing and on the wave relation only *)
Lemma amplitudes_none b f ls k : ~ nonsing (pc b f) (map (char_layer (pc b)) ls) (pc b k) -> amplitudes (pf b) f ls k = None.
Proof.
  intros N. destruct (amplitudes (pf b) f ls k) as [[r t]|] eqn:E; [|reflexivity].
  apply (amplitudes_iff (pf b) (pc b) (pf_char b)) in E. tauto.
Qed.
Lemma nonsing_dec m ls k : nonsing m ls k \/ ~ nonsing m ls k.
Proof.
  revert m. induction ls as [|l ls IH]; intros m; cbn [nonsing];
    (destruct (Ceq_dec (fst m) 0); [right; tauto|]); (destruct (Ceq_dec (snd m) 0); [right; tauto|]).
  - destruct (Ceq_dec (snd m * fst (next_pq [] k) + fst m * snd (next_pq [] k)) 0); [right|left]; tauto.
  - destruct (Ceq_dec (snd m * fst (next_pq (l :: ls) k) + fst m * snd (next_pq (l :: ls) k)) 0); [right; tauto|].
    destruct (IH (fst l)); [left|right]; tauto.
Qed.
Lemma amplitudes_equal b f k ls ls' :
  let m := pc b f in let l := map (char_layer (pc b)) ls in let l' := map (char_layer (pc b)) ls' in
  (nonsing m l (pc b k) <-> nonsing m l' (pc b k)) ->
  (nonsing m l (pc b k) -> same_waves l l') ->
  amplitudes (pf b) f ls k = amplitudes (pf b) f ls' k.
Proof.
  cbv zeta. intros E S. destruct (nonsing_dec (pc b f) (map (char_layer (pc b)) ls) (pc b k)) as [N|N].
  - apply (amplitudes_same (pf b) (pc b) (pf_char b)); [exact N|now apply E|now apply S].
  - rewrite !amplitudes_none; [reflexivity| |exact N]. intros K. apply N, E, K.
Qed.
Lemma amplitudes_both b f k ls ls' x y :
  same_waves (map (char_layer (pc b)) ls) (map (char_layer (pc b)) ls') \/
  (nonsing (pc b f) (map (char_layer (pc b)) ls) (pc b k) -> nonsing (pc b f) (map (char_layer (pc b)) ls') (pc b k) ->
   same_waves (map (char_layer (pc b)) ls) (map (char_layer (pc b)) ls')) ->
  amplitudes (pf b) f ls k = Some x -> amplitudes (pf b) f ls' k = Some y -> x = y.
Proof.
  intros S E1 E2. destruct x as [r t], y as [r' t'].
  assert (N1 := proj1 (proj1 (amplitudes_iff (pf b) (pc b) (pf_char b) f ls k r t) E1)).
  assert (N2 := proj1 (proj1 (amplitudes_iff (pf b) (pc b) (pf_char b) f ls' k r' t') E2)).
  assert (Q := amplitudes_same (pf b) (pc b) (pf_char b) f k ls ls' N1 N2). cbv zeta in Q.
  rewrite Q in E1 by (destruct S as [S|S]; [exact S|now apply S]). congruence.
Qed.

(** Splitting *)
Lemma nonsing_app m pre l post post' k : fst l = fst l ->
  (nonsing (fst l) post k <-> nonsing (fst l) post' k) ->
  (nonsing m (pre ++ l :: post) k <-> nonsing m (pre ++ l :: post') k).
Proof.
  intros _ H. revert m. induction pre as [|a pre IH]; intros m; cbn [app nonsing next_pq].
  - tauto.
  - specialize (IH (fst a)). destruct pre; cbn [app next_pq] in *; tauto.
Qed.

Lemma nonsing_double (l l' : C * C * C) post k : fst l' = fst l ->
  (nonsing (fst l) (l' :: post) k <-> nonsing (fst l) post k).
Proof.
  intros E. cbn [nonsing next_pq]. rewrite E. split; [tauto|]. intros H.
  assert (P : fst (fst l) <> 0 /\ snd (fst l) <> 0) by (destruct post; cbn [nonsing] in H; tauto).
  destruct P as [P Q]. split; [exact P|]. split; [exact Q|]. split; [|exact H].
  replace (snd (fst l) * fst (fst l) + fst (fst l) * snd (fst l)) with (2 * (snd (fst l) * fst (fst l))) by ring.
  intros K. apply C_integral in K. destruct K as [K|K]; [apply RtoC_inj in K; lra|].
  apply C_integral in K. tauto.
Qed.

Lemma nonsing_head m pre l l' post k : fst l' = fst l ->
  (nonsing m (pre ++ l :: post) k <-> nonsing m (pre ++ l' :: post) k).
Proof.
  intros E. revert m. induction pre as [|a pre IH]; intros m; cbn [app nonsing next_pq].
  - rewrite E. tauto.
  - specialize (IH (fst a)). destruct pre; cbn [app next_pq] in *; rewrite ?E in *; tauto.
Qed.

Lemma layer_split b k kx d1 d2 eps :
  exists (p q c1 c2 : C), char_layer (pc b) (layer_of k kx (d1, eps)) = (p, q, c1) /\
    char_layer (pc b) (layer_of k kx (d2, eps)) = (p, q, c2) /\
    char_layer (pc b) (layer_of k kx ((d1 + d2)%R, eps)) = (p, q, c1 + c2).
Proof.
  destruct (pc b (Csqrt eps, Casin (kx / Csqrt eps))) as [p q] eqn:E.
  exists p, q, (k * Csqrt eps * Ccos (Casin (kx / Csqrt eps)) * RtoC d1), (k * Csqrt eps * Ccos (Casin (kx / Csqrt eps)) * RtoC d2).
  unfold char_layer, layer_of. cbn [fst snd]. rewrite E, RtoC_plus.
  split; [reflexivity|]. split; [reflexivity|]. f_equal. ring.
Qed.

Lemma ok_replace lb ef eb pre mid mid' post : input_ok lb ef (pre ++ mid ++ post) eb ->
  (Forall (fun l => snd l <> RtoC 0) mid -> Forall (fun l => snd l <> RtoC 0) mid') ->
  input_ok lb ef (pre ++ mid' ++ post) eb.
Proof.
  intros (L & A & B & F) H. repeat apply Forall_app in F as [? F]. unfold input_ok.
  rewrite !Forall_app in *. tauto.
Qed.

Lemma rt_split b th lb ef eb pre d1 d2 eps post :
  rt b (solver2 th lb ef (pre ++ (d1, eps) :: (d2, eps) :: post) eb) =
  rt b (solver2 th lb ef (pre ++ ((d1 + d2)%R, eps) :: post) eb).
Proof.
  destruct (input_dec lb ef (pre ++ (d1, eps) :: (d2, eps) :: post) eb) as [I|I].
  - assert (I' : input_ok lb ef (pre ++ ((d1 + d2)%R, eps) :: post) eb).
    { apply (ok_replace lb ef eb pre [(d1, eps); (d2, eps)] [((d1 + d2)%R, eps)] post I).
      intros F. inversion F; subst. constructor; [assumption|constructor]. }
    rewrite !rt_eq by assumption. set (kx := kx_of th ef). rewrite !map_app. cbn [map].
    destruct (layer_split b (k0 lb) kx d1 d2 eps) as (p & q & c1 & c2 & E1 & E2 & E3).
    apply amplitudes_equal; cbv zeta; rewrite !map_app; cbn [map]; rewrite E1, E2, E3.
    + etransitivity; [apply (nonsing_app _ _ (p, q, c1) _ (map (char_layer (pc b)) (map (layer_of (k0 lb) kx) post)) _ eq_refl)|].
      * apply (nonsing_double (p, q, c1) (p, q, c2)). reflexivity.
      * apply nonsing_head. reflexivity.
    + intros N. apply nonsing_layers in N. unfold layers_ok in N. apply Forall_app in N. destruct N as [_ N].
      inversion N as [|x l [P Q] _]; subst. cbn [fst snd] in P, Q. apply same_waves_pre, split_layer; assumption.
  - assert (I' : ~ input_ok lb ef (pre ++ ((d1 + d2)%R, eps) :: post) eb).
    { intros K. apply I. apply (ok_replace lb ef eb pre [((d1 + d2)%R, eps)] [(d1, eps); (d2, eps)] post K).
      intros F. inversion F; subst. constructor; [assumption|]. constructor; [assumption|constructor]. }
    rewrite !solver2_inv by assumption. reflexivity.
Qed.

Lemma result2_ext (x y : result2) : (forall b, rt b x = rt b y) -> power_correction x = power_correction y -> x = y.
Proof. destruct x, y. intros H E. assert (H1 := H true). assert (H2 := H false). cbn in *. subst. reflexivity. Qed.

Lemma pc_eq th lb ef eb ls ls' : (input_ok lb ef ls eb <-> input_ok lb ef ls' eb) ->
  power_correction (solver2 th lb ef ls eb) = power_correction (solver2 th lb ef ls' eb).
Proof.
  intros E. destruct (input_dec lb ef ls eb) as [I|I].
  - assert (I' := proj1 E I). rewrite !solver2_eq by assumption. reflexivity.
  - assert (I' : ~ input_ok lb ef ls' eb) by tauto. rewrite !solver2_inv by assumption. reflexivity.
Qed.

Lemma solver2_split th lb ef eb pre d1 d2 eps post :
  solver2 th lb ef (pre ++ (d1, eps) :: (d2, eps) :: post) eb =
  solver2 th lb ef (pre ++ ((d1 + d2)%R, eps) :: post) eb.
Proof.
  apply result2_ext; [intros b; apply rt_split|]. apply pc_eq. split; intros I.
  - apply (ok_replace lb ef eb pre [(d1, eps); (d2, eps)] [((d1 + d2)%R, eps)] post I).
    intros F. inversion F; subst. constructor; [assumption|constructor].
  - apply (ok_replace lb ef eb pre [((d1 + d2)%R, eps)] [(d1, eps); (d2, eps)] post I).
    intros F. inversion F; subst. constructor; [assumption|]. constructor; [assumption|constructor].
Qed.

Lemma solver2_slices th lb ef eb pre eps post ds : ds <> [] ->
  solver2 th lb ef (pre ++ map (fun d => (d, eps)) ds ++ post) eb =
  solver2 th lb ef (pre ++ (Rsum ds, eps) :: post) eb.
Proof.
  intros N. destruct ds as [|d ds]; [contradiction|]. clear N. revert d. induction ds as [|d' ds IH]; intros d.
  - cbn [map app]. replace (Rsum [d]) with d by (unfold Rsum; simpl; ring). reflexivity.
  - cbn [map app]. rewrite solver2_split. change (((d + d')%R, eps) :: map (fun d0 => (d0, eps)) ds ++ post)
      with (map (fun d0 => (d0, eps)) ((d + d')%R :: ds) ++ post). rewrite IH.
    replace (Rsum (d :: d' :: ds)) with (Rsum ((d + d')%R :: ds)) by (unfold Rsum; simpl; ring). reflexivity.
Qed.

(** Zero thickness *)
Lemma rt_zero b th lb ef eb pre eps post x y :
  rt b (solver2 th lb ef (pre ++ (0%R, eps) :: post) eb) = Some x ->
  rt b (solver2 th lb ef (pre ++ post) eb) = Some y -> x = y.
Proof.
  intros H K. apply rt_some in H, K. destruct H as [_ H], K as [_ K]. set (kx := kx_of th ef) in *.
  rewrite map_app in H, K. cbn [map] in H. revert H K. apply amplitudes_both. right. intros N _.
  rewrite !map_app in *. cbn [map] in *. apply nonsing_layers in N. unfold layers_ok in N. apply Forall_app in N. destruct N as [_ N].
  inversion N as [|a l [P Q] _]; subst. apply same_waves_pre.
  unfold char_layer, layer_of in P, Q |- *. cbn [fst snd] in *.
  replace (k0 lb * Csqrt eps * Ccos (Casin (kx / Csqrt eps)) * RtoC 0) with (RtoC 0) by ring.
  destruct (pc b (Csqrt eps, Casin (kx / Csqrt eps))) as [p q]. apply zero_layer; assumption.
Qed.

(** Other branch of the angle in a layer *)
Lemma flip_char b n th delta : exists p q : C, char_layer (pc b) (n, th, delta) = (p, q, delta) /\
  char_layer (pc b) (n, RtoC PI - th, - delta) = (p, - q, - delta).
Proof.
  destruct b; unfold char_layer, pc, char_s, char_p; cbn [fst snd]; rewrite Ccos_PI_minus.
  - exists 1, (n * Ccos th). split; [reflexivity|]. f_equal. f_equal. ring.
  - exists n, (Ccos th). split; reflexivity.
Qed.
Lemma amplitudes_flip b f k pre n th delta post x y :
  amplitudes (pf b) f (pre ++ (n, th, delta) :: post) k = Some x ->
  amplitudes (pf b) f (pre ++ (n, RtoC PI - th, - delta) :: post) k = Some y -> x = y.
Proof.
  apply amplitudes_both. left. rewrite !map_app. cbn [map].
  destruct (flip_char b n th delta) as (p & q & -> & ->). apply same_waves_pre, flip_layer.
Qed.
