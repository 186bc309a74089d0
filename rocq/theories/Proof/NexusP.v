(** Lemmas on NeXus groups for C55. *)
From Coq Require Import Reals String List Arith Bool Lia.
From Coquelicot Require Import Complex.
From Coq Require Import List.
From Verif.Base Require Import Py Cx.
From Verif.Model Require Import DispAdd Tables Nexus.
From Verif.Spec Require Import Adding NexusFile.
From Verif.Proof Require Import DispAddP DispAddP2.
Import ListNotations.
Open Scope list_scope.

Section NexusP.
Variable Fn : Type.
Variable formula : kind -> Fn -> res (R -> option C).
Local Notation get_dispersion := (get_dispersion Fn formula).
Local Notation gives := (gives Fn formula).
Local Notation describes := (describes Fn formula).

Lemma gives_read c k b v : gives c k b v -> read_child Fn formula c = Some (Ok (Leaf k (if b then LTable else LPlain) v)).
Proof.
  intros G. destruct G as [d v E|d v E|w n e l E|w e l E]; cbn.
  - unfold get_dispersion_function. cbn. now rewrite E.
  - unfold get_dispersion_function. cbn. now rewrite E.
  - unfold get_dispersion_table. cbn. now rewrite E.
  - unfold get_dispersion_table. cbn. now rewrite E.
Qed.

(** A heap that keeps all objects of another *)
Definition keeps (h h' : heap) : Prop := exists e, h' = h ++ e.
Lemma keeps_refl h : keeps h h.
Proof. exists []. now rewrite app_nil_r. Qed.
Lemma keeps_trans a b c : keeps a b -> keeps b c -> keeps a c.
Proof. intros (e & ->) (f & ->). exists (e ++ f). now rewrite app_assoc. Qed.
Lemma keeps_one h o : keeps h (h ++ [o]).
Proof. now exists [o]. Qed.
Lemma keeps_prefix (h h' : heap) : length h <= length h' -> (forall x o, nth_error h x = Some o -> nth_error h' x = Some o) -> keeps h h'.
Proof.
  revert h'. induction h as [|a h IH]; intros h' L H; [now exists h'|].
  destruct h' as [|a' h']; [cbn in L; lia|]. pose proof (H 0 a eq_refl) as E. injection E as ->.
  destruct (IH h') as (e & ->); [cbn in L; lia|intros x o X; exact (H (S x) o X)|]. now exists e.
Qed.
Lemma keeps_value h h' r lbda : keeps h h' -> inv h -> inv h' -> r < length h -> value h' r lbda = value h r lbda.
Proof. intros (e & ->) I I' L. now apply value_app. Qed.
Lemma keeps_dielectric h h' r lbda : keeps h h' -> inv h -> inv h' -> r < length h -> get_dielectric h' r lbda = get_dielectric h r lbda.
Proof.
  intros (e & ->) I I' L. unfold get_dielectric. rewrite nth_error_app1 by exact L.
  destruct (nth_error h r) as [o|] eqn:E; [|reflexivity].
  assert (V : forall x, x < length h -> value (h ++ e) x lbda = value h x lbda) by (intros; now apply value_app).
  destruct o as [k c v|k ps|s].
  - now rewrite (V r L).
  - now rewrite (V r L).
  - destruct (I _ _ E) as (o & O & _). apply V. eapply nth_lt; eauto.
Qed.

Lemma inv_leaf h k b v : inv h -> inv (h ++ [Leaf k (if b : bool then LTable else LPlain) v]).
Proof. intros I. apply inv_app; [exact I|]. cbn. destruct b; discriminate. Qed.

(** The accumulated dispersion *)
Definition accumulated (h : heap) (a : nat) (k : kind) (one : option bool) : Prop :=
  match one with
  | Some b => exists v, nth_error h a = Some (Leaf k (if b then LTable else LPlain) v)
  | None => exists ps, nth_error h a = Some (Sum k ps)
  end.

Lemma add_one h0 h a k one b v : keeps h0 h -> inv h -> length h0 <= a -> accumulated h a k one -> (one, b) <> (Some true, true) ->
  exists h' s, py_add (h ++ [Leaf k (if b then LTable else LPlain) v]) (ORef a) (ORef (length h)) = (h', Ok (ORef s)) /\
    keeps h0 h' /\ inv h' /\ length h0 <= s /\ accumulated h' s k None /\
    forall lbda, value h' s lbda = oplus (value h a lbda) (v lbda).
Proof.
  intros K I L A NT. set (o := Leaf k (if b then LTable else LPlain) v). set (h1 := h ++ [o]).
  assert (I1 : inv h1) by (apply inv_leaf, I).
  assert (N1 : nth_error h1 (length h) = Some o) by apply app_new.
  assert (LA : a < length h) by (destruct one as [c|]; destruct A as (? & A); eapply nth_lt; eauto).
  assert (OK : exists h' s ps, py_add h1 (ORef a) (ORef (length h)) = (h', Ok (ORef s)) /\ nth_error h' s = Some (Sum k ps)).
  { assert (NS : forall x y, good_part h1 k x -> good_part h1 k y -> exists h' s ps, new_sum h1 k [ORef x; ORef y] = (h', Ok (ORef s)) /\ nth_error h' s = Some (Sum k ps)).
    { intros x y X Y. destruct (new_sum_ok2 h1 k x y I1 X) as (h' & r & E); [destruct Y as (oy & Y & _ & KY); eauto|].
      destruct (new_sum_made h1 k [ORef x; ORef y] I1) as (_ & _ & V). rewrite E in V. cbn in V. destruct (V r eq_refl) as (ps & -> & P & _).
      - intros z [[= <-]|[[= <-]|[]]]; [destruct X as (? & Z & _)|destruct Y as (? & Z & _)]; eapply nth_lt; exact Z.
      - exists h', (length h1), ps. auto. }
    assert (GO : good_part h1 k (length h)) by (exists o; split; [exact N1|split; reflexivity]).
    cbn [py_add]. unfold disp_add. destruct one as [c|]; destruct A as (w & A).
    - assert (GA : good_part h1 k a) by (exists (Leaf k (if c then LTable else LPlain) w); split; [now apply app_old|split; reflexivity]).
      rewrite (app_old _ [o] _ _ A : nth_error h1 a = _). destruct c.
      + unfold table_add. rewrite N1. cbn [okind o]. rewrite kind_eqb_refl. destruct b; [now elim NT|]. now apply NS.
      + unfold plain_add. rewrite N1. cbn [okind o]. rewrite kind_eqb_refl. destruct b; [|now apply NS].
        unfold table_add. rewrite (app_old _ [o] _ _ A : nth_error h1 a = _). cbn [okind]. rewrite kind_eqb_refl. now apply NS.
    - rewrite (app_old _ [o] _ _ A : nth_error h1 a = _). unfold sum_add. rewrite (app_old _ [o] _ _ A : nth_error h1 a = _), N1. cbn [okind o].
      rewrite kind_eqb_refl. do 3 eexists. split; [reflexivity|]. apply update_same. unfold h1. rewrite app_length. cbn. lia. }
  destruct OK as (h' & s & ps & E & P). exists h', s. split; [exact E|].
  destruct (py_add_ok _ _ _ _ _ I1 E) as [(x & y & [=] & _)|AD].
  assert (K1 : keeps h0 h1) by (eapply keeps_trans; [exact K|apply keeps_one]).
  destruct AD as [AI AL AX AS (s' & k' & ps' & SE & SP & SL) AV].
  split; [|split; [exact AI|]].
  - apply keeps_prefix.
    + destruct K1 as (e & K1). rewrite K1, app_length in AL. lia.
    + intros x ox X. apply AS.
      * destruct K1 as (e & ->). now apply app_old.
      * intros [[[= <-]|[= <-]] _]; apply nth_lt in X; [lia|]. destruct K as (e & ->). rewrite app_length in X. lia.
  - injection SE as <-. split; [|split; [exists ps; exact P|]].
    + destruct SL as [SL|[[[= <-]|[= <-]] _]].
      * destruct K1 as (e & K1). rewrite K1, app_length in SL. lia.
      * exact L.
      * destruct K as (e & ->). rewrite app_length. lia.
    + intros lbda. specialize (AV lbda). cbn [oval] in AV. rewrite AV. f_equal.
      * apply keeps_value; [apply keeps_one|exact I|exact I1|exact LA].
      * now apply (value_leaf h1 (length h) lbda k (if b then LTable else LPlain) v).
Qed.

Lemma get_dispersion_from g k vs : describes g k vs -> forall h0 h a one (f : R -> option C),
  keeps h0 h -> inv h -> length h0 <= a -> accumulated h a k one ->
  (one = Some true -> match vs with (true, _) :: _ => False | _ => True end) ->
  (forall lbda, value h a lbda = f lbda) ->
  exists h' s, get_dispersion h (Some a) g = (h', Ok (Some s)) /\ keeps h0 h' /\ inv h' /\ length h0 <= s /\
    (exists one', accumulated h' s k one') /\
    forall lbda, value h' s lbda = oplus (f lbda) (osum (map (fun v => snd v lbda) vs)).
Proof.
  induction 1 as [k|g k vs D IH|c g k b v vs G D IH]; intros h0 h a one f K I L A NT V.
  - exists h, a. split; [reflexivity|]. split; [exact K|]. split; [exact I|]. split; [exact L|]. split; [eauto|].
    intros lbda. cbn [map]. change (osum []) with (Some (RtoC 0)). now rewrite oplus_0_r.
  - cbn. apply (IH h0 h a one); assumption.
  - cbn [Nexus.get_dispersion]. rewrite (gives_read c k b v G).
    destruct (add_one h0 h a k one b v K I L A) as (h1 & s & E & K1 & I1 & L1 & A1 & V1).
    { intros [= -> ->]. exact (NT eq_refl). }
    rewrite E. destruct (IH h0 h1 s None (fun lbda => oplus (f lbda) (v lbda)) K1 I1 L1 A1) as (h' & s' & E' & Q).
    + discriminate.
    + intros lbda. now rewrite V1, V.
    + exists h', s'. split; [exact E'|]. destruct Q as (Q1 & Q2 & Q3 & Q4 & Q5). repeat (split; [assumption|]).
      intros lbda. rewrite Q5. cbn [map]. change (?x :: ?l) with ([x] ++ l). rewrite osum_app, osum_one. now rewrite oplus_assoc.
Qed.

Lemma accumulated_kind h a k one : accumulated h a k one -> exists o, nth_error h a = Some o /\ okind o = k.
Proof. destruct one; intros (x & A); eexists; (split; [exact A|reflexivity]). Qed.

Lemma accumulated_dielectric h a k one lbda : accumulated h a k one -> get_dielectric h a lbda =
  match k with KEps => value h a lbda | KIdx => match value h a lbda with Some n => Some (n * n)%C | None => None end end.
Proof.
  intros A. unfold get_dielectric. destruct one as [b|]; destruct A as (x & A); rewrite A; cbn [okind]; destruct k; reflexivity.
Qed.

Lemma get_dispersion_ok g k vs h : describes g k vs -> vs <> [] -> ~ two_tables vs -> inv h ->
  exists h' s, get_dispersion h None g = (h', Ok (Some s)) /\ keeps h h' /\ inv h' /\ length h <= s < length h' /\
    forall lbda, get_dielectric h' s lbda = permittivity k vs lbda.
Proof.
  induction 1 as [k|g k vs D IH|c g k b v vs G D IH]; intros NE NT I.
  - now elim NE.
  - cbn. now apply IH.
  - cbn [Nexus.get_dispersion]. rewrite (gives_read c k b v G). clear IH.
    destruct (get_dispersion_from g k vs D h (h ++ [Leaf k (if b then LTable else LPlain) v]) (length h) (Some b) v) as (h' & s & E & K & I' & L & (one & A) & V).
    + apply keeps_one.
    + apply inv_leaf, I.
    + lia.
    + exists v. apply app_new.
    + intros [= ->]. destruct vs as [|[[] w] vs]; [auto| |auto]. now apply NT.
    + intros lbda. apply (value_leaf _ _ _ k (if b then LTable else LPlain)). apply app_new.
    + exists h', s. split; [exact E|]. split; [exact K|]. split; [exact I'|]. split.
      * split; [exact L|]. destruct (accumulated_kind _ _ _ _ A) as (o & O & _). eapply nth_lt; eauto.
      * intros lbda. rewrite (accumulated_dielectric _ _ _ _ _ A), V. unfold permittivity. cbn [map snd].
        assert (T : total (v lbda :: map (fun v0 => snd v0 lbda) vs) = oplus (v lbda) (osum (map (fun v0 => snd v0 lbda) vs))).
        { rewrite total_osum. change (?x :: ?l) with ([x] ++ l). now rewrite osum_app, osum_one. }
        rewrite T. reflexivity.
Qed.

(** Groups without a dispersion *)
Lemma get_dispersion_none g h : Forall (fun c => c = OtherClass) g -> get_dispersion h None g = (h, Ok None).
Proof. induction 1 as [|c g -> F IH]; [reflexivity|exact IH]. Qed.

(** Two tables at the beginning *)
Lemma get_dispersion_tables g k vs h : describes g k vs -> two_tables vs ->
  exists h', get_dispersion h None g = (h', Err NotImplementedError).
Proof.
  intros D. revert h. induction D as [k|g k vs D IH|c g k b v vs G D IH]; intros h T; [destruct T|now apply IH|].
  destruct b; [|destruct T]. cbn [Nexus.get_dispersion]. rewrite (gives_read c k true v G). clear IH.
  set (h1 := h ++ [Leaf k LTable v]). assert (A : nth_error h1 (length h) = Some (Leaf k LTable v)) by apply app_new.
  clearbody h1. revert h1 A. clear G c. induction D as [k|g k vs D IH|c g k b w vs G D IH]; intros h1 A; [destruct T| |].
  - cbn. now apply IH.
  - destruct b; [|destruct T]. cbn [Nexus.get_dispersion]. rewrite (gives_read c k true w G).
    assert (E : py_add (h1 ++ [Leaf k LTable w]) (ORef (length h)) (ORef (length h1)) = (h1 ++ [Leaf k LTable w], Err NotImplementedError)).
    { cbn [py_add]. unfold disp_add. rewrite (app_old _ _ _ _ A). unfold table_add. rewrite app_new. cbn [okind].
      now rewrite kind_eqb_refl. }
    rewrite E. eauto.
Qed.
End NexusP.
