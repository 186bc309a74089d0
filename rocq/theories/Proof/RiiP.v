(** Lemmas for Props/RiiT.v. *)
From Coq Require Import Ascii Reals ZArith List Arith Bool Lra Lia.
From Coquelicot Require Import Complex.
From Verif.Base Require Import Py Cx.
From Verif.Model Require Import Units FormulaText DispAdd Dispersions Tables Rii.
From Verif.Spec Require Import Adding Database.
From Verif.Proof Require Import UnitsP DispersionsP DispAddP DispAddP2.
Import ListNotations.
Open Scope R_scope.
Open Scope py_scope.

(** ** Sums of terms *)
Lemma rpow_power x y v : rpow x y = Some v <-> power x y v.
Proof.
  unfold rpow, power. destruct (Rlt_dec 0 x) as [P|P].
  - split; [intros [= <-]; now left|]. intros [[_ ->]|[[Z _]|(z & -> & _ & ->)]]; [reflexivity|lra|].
    f_equal. now rewrite <- powerRZ_Rpower.
  - assert (IP : forall z : Z, Int_part (IZR z) = z).
    { intros z. unfold Int_part. rewrite <- (tech_up (IZR z) (z + 1)%Z); [lia| |]; rewrite plus_IZR; lra. }
    destruct (Req_EM_T y (IZR (Int_part y))) as [Y|Y].
    + destruct (Req_EM_T x 0) as [->|X].
      * destruct (Rlt_dec y 0) as [N|N].
        -- split; [discriminate|]. intros [[A _]|[(_ & A & _)|(z & -> & [A| ->] & _)]]; try (exfalso; lra); exfalso; congruence.
        -- destruct (Req_EM_T y 0) as [->|Y0].
           ++ split; [intros [= <-]; right; right; exists 0%Z; repeat split; auto|].
              intros [[A _]|[(_ & A & _)|(z & E & _ & ->)]]; try lra. apply eq_IZR in E. now subst z.
           ++ split; [intros [= <-]; right; left; repeat split; lra|].
              intros [[A _]|[(_ & A & ->)|(z & -> & [A| ->] & _)]]; try (exfalso; lra); try reflexivity; exfalso; congruence.
      * split; [intros [= <-]; right; right; exists (Int_part y); auto|].
        intros [[A _]|[(A & _)|(z & -> & _ & ->)]]; try lra. now rewrite IP.
    + destruct (Req_EM_T x 0) as [->|X].
      * destruct (Rlt_dec 0 y).
        -- split; [intros [= <-]; right; left; auto|]. intros [[A _]|[(_ & A & ->)|(z & -> & _)]]; try lra; [reflexivity|].
           exfalso. apply Y. now rewrite IP.
        -- split; [discriminate|]. intros [[A _]|[(_ & A & ->)|(z & -> & _)]]; try lra. exfalso. apply Y. now rewrite IP.
      * split; [discriminate|]. intros [[A _]|[(A & _)|(z & -> & _)]]; try lra. exfalso. apply Y. now rewrite IP.
Qed.

Lemma rdiv_quotient x y q : rdiv x y = Some q <-> quotient x y q.
Proof.
  unfold rdiv, quotient. destruct (Req_EM_T y 0) as [->|N].
  - split; [discriminate|]. intros [H _]. now elim H.
  - split; [intros [= <-]; auto|]. now intros [_ ->].
Qed.

Lemma summed_osum {A} (f : A -> option C) (term : A -> R -> Prop) :
  (forall x v, f x = Some v <-> exists t, term x t /\ v = RtoC t) ->
  forall l v, Dispersions.osum f l = Some v <-> exists s, summed term l s /\ v = RtoC s.
Proof.
  intros H l. induction l as [|x l IH]; intros v.
  - rewrite osum_nil. split; [intros [= <-]; exists 0; split; [constructor|reflexivity]|].
    intros (s & E & ->). inversion E; subst. reflexivity.
  - rewrite osum_cons. split.
    + intros E. osplit E. injection E as <-. apply H in E0. destruct E0 as (t & T & ->). destruct (proj1 (IH _) eq_refl) as (s & S' & ->).
      exists (t + s). split; [now constructor|]. now rewrite RtoC_plus.
    + intros (s & E & ->). inversion E as [|? ? t s' T S']; subst.
      rewrite (proj2 (H x (RtoC t))) by eauto. cbn [obind]. rewrite (proj2 (IH (RtoC s'))) by eauto. cbn [obind]. now rewrite RtoC_plus.
Qed.

Lemma summed_map {A B} (g : A -> B) (term : B -> R -> Prop) l s :
  summed term (map g l) s <-> summed (fun x => term (g x)) l s.
Proof.
  revert s; induction l as [|x l IH]; intros s; split; intros E; inversion E; subst; cbn; constructor; auto; now apply IH.
Qed.
Lemma summed_ext {A} (P Q : A -> R -> Prop) l s : (forall x t, P x t <-> Q x t) -> summed P l s <-> summed Q l s.
Proof.
  intros H. revert s; induction l as [|x l IH]; intros s; split; intros E; inversion E; subst; constructor; auto; try (now apply H); now apply IH.
Qed.

Lemma sellmeier_spec ps lbda v : sellmeier ps lbda = Some v <->
  exists s, summed (resonance2 (lbda / 1000)) ps s /\ v = RtoC (1 + s).
Proof.
  unfold sellmeier. replace (lbda / 10 ^ 3) with (lbda / 1000) by (f_equal; ring).
  set (f := fun '(A, B) => _). pose proof (summed_osum f (resonance2 (lbda / 1000))) as H.
  assert (T : forall x w, f x = Some w <-> exists t, resonance2 (lbda / 1000) x t /\ w = RtoC t).
  { intros [a b] w. unfold f, resonance2. split.
    - intros E. osplit E. injection E as <-. apply rdiv_quotient in E0. eauto.
    - intros (t & Q & ->). apply rdiv_quotient in Q. now rewrite Q. }
  specialize (H T). clearbody f. split.
  - intros E. osplit E. injection E as <-. apply H in E0. destruct E0 as (s & S' & ->). exists s. split; [exact S'|]. now rewrite RtoC_plus.
  - intros (s & S' & ->). rewrite (proj2 (H ps (RtoC s))) by eauto. cbn [obind]. now rewrite RtoC_plus.
Qed.

Lemma to_nm_monomial lbda p t : 0 < lbda ->
  (let '(f, e) := to_nm p in t = f * Rpower lbda e) <-> monomial (lbda / 1000) p t.
Proof.
  intros L. destruct p as [f e]. cbn [to_nm monomial].
  assert (P : Rpower lbda e = Rpower 1000 e * Rpower (lbda / 1000) e).
  { rewrite Rpower_mult_distr by lra. replace (1000 * (lbda / 1000)) with lbda by field. reflexivity. }
  pose proof (exp_pos (e * ln 1000)) as X. fold (Rpower 1000 e) in X.
  assert (Q : f / Rpower 1000 e * Rpower lbda e = f * Rpower (lbda / 1000) e) by (rewrite P; field; lra).
  split.
  - intros ->. exists (Rpower (lbda / 1000) e). split; [left; split; [lra|reflexivity]|exact Q].
  - intros (v & [[_ ->]|[(Z & _)|(z & -> & _ & ->)]] & ->); [now rewrite Q|exfalso; lra|].
    rewrite Q. now rewrite <- powerRZ_Rpower by lra.
Qed.

Lemma powers_spec ps lbda v : 0 < lbda ->
  Dispersions.osum (fun '(f, e) => let? p := rpow lbda e in Some (RtoC (f * p))) (map to_nm ps) = Some v <->
  exists s, summed (monomial (lbda / 1000)) ps s /\ v = RtoC s.
Proof.
  intros L. set (f := fun '(_, _) => _).
  rewrite (summed_osum f (fun p t => let '(f, e) := p in t = f * Rpower lbda e)).
  - split; intros (s & S' & ->); exists s; (split; [|reflexivity]).
    + rewrite summed_map in S'. eapply summed_ext; [|exact S']. intros x t. symmetry. now apply to_nm_monomial.
    + rewrite summed_map. eapply summed_ext; [|exact S']. intros x t. now apply to_nm_monomial.
  - intros [g e] w. unfold f, rpow. destruct (Rlt_dec 0 lbda); [|contradiction]. cbn [obind]. split.
    + intros [= <-]. eauto.
    + intros (t & -> & ->). reflexivity.
Qed.
Lemma polynomial_spec c0 ps lbda v : 0 < lbda -> polynomial c0 (map to_nm ps) lbda = Some v <->
  exists s, summed (monomial (lbda / 1000)) ps s /\ v = RtoC (c0 + s).
Proof.
  intros L. unfold polynomial. pose proof (fun v => powers_spec ps lbda v L) as H.
  destruct (Dispersions.osum _ _) as [w|]; cbn [obind]; split.
  - intros [= <-]. destruct (proj1 (H w) eq_refl) as (s & S' & ->). exists s. split; [exact S'|]. now rewrite RtoC_plus.
  - intros (s & S' & ->). pose proof (proj2 (H (RtoC s)) (ex_intro _ s (conj S' eq_refl))) as [= ->]. now rewrite RtoC_plus.
  - discriminate.
  - intros (s & S' & ->). pose proof (proj2 (H (RtoC s)) (ex_intro _ s (conj S' eq_refl))) as Q. discriminate.
Qed.
Lemma cauchy_spec c0 ps lbda v : 0 < lbda -> cauchy_custom c0 (map to_nm ps) lbda = Some v <->
  exists s, summed (monomial (lbda / 1000)) ps s /\ v = RtoC (c0 + s).
Proof. apply polynomial_spec. Qed.

Lemma sellmeier_custom_spec gs lbda v : sellmeier_custom gs lbda = Some v <->
  exists s, summed (resonance4 (lbda / 1000)) gs s /\ v = RtoC s.
Proof.
  unfold sellmeier_custom. replace (lbda / 10 ^ 3) with (lbda / 1000) by (f_equal; ring). apply summed_osum.
  intros [[[a e] b] d] w. unfold resonance4. split.
  - intros E. osplit E. injection E as <-. exists x1. split; [|reflexivity].
    exists x, x0. rewrite <- !rpow_power, <- rdiv_quotient. auto.
  - intros (t & (p & q & P & Q & D) & ->). apply rpow_power in P, Q. apply rdiv_quotient in D. rewrite P. cbn [obind]. rewrite Q. cbn [obind]. now rewrite D.
Qed.

(** ** Slices *)
Lemma pairs_cons a b ps : pairs ((a, b) :: ps) = a :: b :: pairs ps.
Proof. reflexivity. Qed.
Lemma every_pairs_0 ps : every 0 2 (pairs ps) = map fst ps.
Proof. induction ps as [|[a b] ps IH]; [reflexivity|]. rewrite pairs_cons. cbn [every Nat.sub map fst]. now rewrite IH. Qed.
Lemma every_pairs_1 ps : every 1 2 (pairs ps) = map snd ps.
Proof. induction ps as [|[a b] ps IH]; [reflexivity|]. rewrite pairs_cons. cbn [every Nat.sub map snd]. now rewrite IH. Qed.
Lemma combine_fst_snd (ps : list (R * R)) : combine (map fst ps) (map snd ps) = ps.
Proof. induction ps as [|[a b] ps IH]; cbn; [reflexivity|]. now rewrite IH. Qed.
Lemma slice_all n s l : slice n (length l) s l = every n s l.
Proof. unfold slice. now rewrite firstn_all. Qed.
Lemma slices_pairs c0 ps : let l := c0 :: pairs ps in
  combine (slice 1 (length l) 2 l) (slice 2 (length l) 2 l) = ps.
Proof. cbn zeta. rewrite !slice_all. cbn [every Nat.sub]. rewrite every_pairs_0, every_pairs_1. apply combine_fst_snd. Qed.

(** The formula 4 *)
Lemma slices_4 c0 g1 g2 ps : let l := c0 :: quadruples [g1; g2] ++ pairs ps in
  combine (slice 9 (length l) 2 l) (slice 10 (length l) 2 l) = ps /\
  combine (combine (combine (slice 1 6 4 l) (slice 2 7 4 l)) (slice 3 8 4 l)) (slice 4 9 4 l) = [g1; g2].
Proof.
  destruct g1 as [[[a b] c] d], g2 as [[[a' b'] c'] d']. cbn zeta. split.
  - rewrite !slice_all. cbn [quadruples flat_map app every Nat.sub]. rewrite every_pairs_0, every_pairs_1. apply combine_fst_snd.
  - destruct ps as [|[p q] ps]; reflexivity.
Qed.
Lemma slices_4_short c0 gs : (length gs <= 2)%nat -> let l := c0 :: quadruples gs in
  combine (slice 9 (length l) 2 l) (slice 10 (length l) 2 l) = [] /\
  combine (combine (combine (slice 1 6 4 l) (slice 2 7 4 l)) (slice 3 8 4 l)) (slice 4 9 4 l) = gs.
Proof.
  intros L. destruct gs as [|[[[a b] c] d] [|[[[a' b'] c'] d'] [|? ?]]]; cbn in L; [| | |lia]; split; reflexivity.
Qed.

(** ** Objects *)
Open Scope nat_scope.
Lemma same_app (h h' : heap) : same_but None h h' -> exists e, h' = h ++ e.
Proof.
  revert h'. induction h as [|o h IH]; intros h' S; [now exists h'|].
  pose proof (S 0%nat o eq_refl) as H. destruct h' as [|o' h']; [specialize (H ltac:(discriminate)); discriminate|].
  specialize (H ltac:(discriminate)). injection H as ->.
  destruct (IH h') as (e & ->); [|now exists e]. intros r x R _. apply (S (Datatypes.S r) x R). discriminate.
Qed.
Lemma made_value h h' r o lbda : inv h -> made h h' -> nth_error h r = Some o ->
  nth_error h' r = Some o /\ value h' r lbda = value h r lbda.
Proof.
  intros I M H. split; [apply (md_same _ _ M); [exact H|discriminate]|].
  destruct (same_app h h' (md_same _ _ M)) as (e & E). subst h'. apply value_app; [exact I|exact (md_inv _ _ M)|now apply nth_lt in H].
Qed.

Lemma made_app2 h o o' : inv h -> (forall h, good_obj h o) -> (forall h, good_obj h o') -> made h (h ++ [o; o']).
Proof.
  intros I G G'. change [o; o'] with ([o] ++ [o']). rewrite app_assoc.
  eapply made_trans; [apply made_app; [exact I|apply G]|]. apply made_app; [apply inv_app; auto|apply G'].
Qed.
Lemma plain_good k v h : good_obj h (Leaf k LPlain v).
Proof. cbn. discriminate. Qed.

Lemma add_two h v w : inv h -> exists h' r ps,
  py_add (h ++ [Leaf KEps LPlain v; Leaf KEps LPlain w]) (ORef (length h)) (ORef (length h + 1)) = (h', Ok (ORef r)) /\
  made h h' /\ length h <= r /\ nth_error h' r = Some (Sum KEps ps) /\
  forall lbda, value h' r lbda = oplus (v lbda) (w lbda).
Proof.
  intros I. set (h1 := h ++ _).
  assert (M1 : made h h1) by (apply made_app2; [exact I|intros; apply plain_good|intros; apply plain_good]).
  pose proof (md_inv _ _ M1) as I1.
  assert (A : nth_error h1 (length h) = Some (Leaf KEps LPlain v)) by (unfold h1; rewrite nth_error_app2, Nat.sub_diag; auto).
  assert (B : nth_error h1 (length h + 1) = Some (Leaf KEps LPlain w)).
  { unfold h1. rewrite nth_error_app2 by lia. replace (length h + 1 - length h) with 1 by lia. reflexivity. }
  assert (E : py_add h1 (ORef (length h)) (ORef (length h + 1)) = new_sum h1 KEps [ORef (length h); ORef (length h + 1)]).
  { unfold py_add, disp_add. rewrite A. unfold plain_add. rewrite B. reflexivity. }
  clearbody h1. rewrite E.
  destruct (new_sum_ok2 h1 KEps (length h) (length h + 1) I1) as (h' & a & N).
  { exists (Leaf KEps LPlain v). auto. }
  { exists (Leaf KEps LPlain w). auto. }
  destruct (new_sum_made h1 KEps [ORef (length h); ORef (length h + 1)] I1) as (M & _ & V).
  rewrite N in *. cbn [fst snd] in *. destruct (V a eq_refl) as (ps & -> & S' & W).
  { intros x [[= <-]|[[= <-]|[]]]; [exact (nth_lt _ _ _ A)|exact (nth_lt _ _ _ B)]. }
  exists h', (length h1), ps. split; [reflexivity|]. split; [eapply made_trans; eauto|]. split; [exact (md_len _ _ M1)|].
  split; [exact S'|]. intros lbda. rewrite W. cbn [map oval].
  rewrite (value_leaf _ _ _ _ _ _ A), (value_leaf _ _ _ _ _ _ B). apply osum_two.
Qed.

Lemma sum_loop_total ops : forall h s k ps, nth_error h s = Some (Sum k ps) ->
  Forall (fun o => exists r x, o = ORef r /\ nth_error h r = Some x /\ okind x = k) ops ->
  exists h', sum_loop h s ops = (h', Ok (ORef s)).
Proof.
  induction ops as [|o ops IH]; intros h s k ps Hs F; [now exists h|].
  inversion F as [|? ? (r & x & -> & Hr & K) F']; subst. cbn [sum_loop]. unfold sum_add. rewrite Hs, Hr, kind_eqb_refl.
  assert (U : forall ps', exists h', sum_loop (update h s (Sum (okind x) ps')) s ops = (h', Ok (ORef s))).
  { intros ps'. apply (IH _ s (okind x) ps').
    - apply update_same. now apply nth_lt in Hs.
    - eapply Forall_impl; [|exact F']. intros o (r' & x' & -> & Hr' & K'). destruct (Nat.eq_dec r' s) as [->|N].
      + exists s, (Sum (okind x) ps'). split; [reflexivity|]. split; [apply update_same; now apply nth_lt in Hs|reflexivity].
      + exists r', x'. now rewrite update_other. }
  destruct x; apply U.
Qed.
Lemma new_sum_total h k rs : (forall r, In r rs -> exists x, nth_error h r = Some x /\ okind x = k) ->
  exists h', new_sum h k (map ORef rs) = (h', Ok (ORef (length h))).
Proof.
  intros H. unfold new_sum. eapply sum_loop_total; [apply app_new|]. apply Forall_forall. intros o I.
  apply in_map_iff in I. destruct I as (r & <- & I). destruct (H r I) as (x & X & K). exists r, x. split; [reflexivity|].
  split; [now apply app_old|exact K].
Qed.

(** ** Loading *)
Section Load.
Variable float : text -> option R.

(** What an element means *)
Definition rows_value (rows : list point) (lbda : R) : option C :=
  match table_value rows lbda with Ok v => v | Err _ => None end.
Definition formula_value (n : nat) (c0 : R) (cs : list R) : R -> option C :=
  let ps := combine (slice 1 (length cs) 2 cs) (slice 2 (length cs) 2 cs) in
  match n with
  | 1 => fun lbda => oplus (sellmeier (map (fun '(a, b) => (a, b ^ 2)%R) ps) lbda) (Some (RtoC c0))
  | 2 => fun lbda => oplus (sellmeier ps lbda) (Some (RtoC c0))
  | 3 => polynomial c0 (map to_nm ps)
  | 4 => fun lbda =>
      oplus (polynomial c0 (map to_nm (combine (slice 9 (length cs) 2 cs) (slice 10 (length cs) 2 cs))) lbda)
        (sellmeier_custom (combine (combine (combine (slice 1 6 4 cs) (slice 2 7 4 cs)) (slice 3 8 4 cs)) (slice 4 9 4 cs)) lbda)
  | _ => cauchy_custom c0 (map to_nm ps)
  end.
Definition meaning (e : entry) : res (R -> option C) :=
  let tab l n := rmap rows_value (table (map (fun l => l * 1000)%R l) n) in
  match e with
  | TabNK rows => tab (map (fun '(l, _, _) => l) rows) (map (fun '(_, n, k) => (n, k)) rows)
  | TabN rows => tab (map fst rows) (map (fun '(_, n) => RtoC n) rows)
  | TabK rows => tab (map fst rows) (map (fun '(_, k) => (0%R, k)) rows)
  | Formula n s =>
      if existsb (Nat.eqb n) [1; 2; 3; 4; 5] then
        match read float s with
        | Err x => Err x
        | Ok [] => Err IndexError
        | Ok ((c0 :: _) as cs) => Ok (formula_value n c0 cs)
        end
      else Err ValueError
  | Other => Err ValueError
  end.

Definition convertible (o : obj) : Prop :=
  match o with Leaf KEps LPlain _ | Sum KEps _ | Leaf KIdx _ _ => True | _ => False end.
Definition entry_kind (e : entry) : kind := if index_entry e then KIdx else KEps.
Definition good (h : heap) (ev : entry * (R -> option C)) (r : nat) : Prop :=
  exists o, nth_error h r = Some o /\ okind o = entry_kind (fst ev) /\ convertible o /\
    forall lbda, value h r lbda = snd ev lbda.

Lemma good_made h h' ev r : inv h -> made h h' -> good h ev r -> good h' ev r.
Proof.
  intros I M (o & H & K & Co & V). exists o. destruct (made_value h h' r o 0%R I M H) as [H' _].
  split; [exact H'|]. split; [exact K|]. split; [exact Co|]. intros lbda. rewrite <- V. now apply made_value with o.
Qed.

Lemma table_made h rows : inv h -> made h (h ++ [table_leaf rows]).
Proof. intros I. apply made_app; [exact I|]. cbn. discriminate. Qed.

Lemma new_table_spec h e l n : inv h -> index_entry e = true ->
  match rmap rows_value (table (map (fun l => l * 1000)%R l) n) with
  | Err x => new_table h l n = (h, Err x)
  | Ok v => exists h' r, new_table h l n = (h', Ok (ORef r)) /\ made h h' /\ good h' (e, v) r
  end.
Proof.
  intros I IE. unfold new_table. destruct (table _ n) as [rows|x]; cbn [rmap]; [|reflexivity].
  exists (h ++ [table_leaf rows]), (length h). split; [reflexivity|]. split; [now apply table_made|].
  exists (table_leaf rows). split; [apply app_new|]. split; [cbn; unfold entry_kind; cbn; now rewrite IE|]. split; [exact Logic.I|].
  intros lbda. now rewrite (value_leaf _ _ _ _ _ _ (app_new h (table_leaf rows))).
Qed.

Lemma build_spec h e : inv h ->
  match meaning e with
  | Err x => build float h e = (h, Err x)
  | Ok v => exists h' r, build float h e = (h', Ok (ORef r)) /\ made h h' /\ good h' (e, v) r
  end.
Proof.
  intros I.
  assert (LEAF : forall k v e, entry_kind e = k -> exists h' r, (h ++ [Leaf k LPlain v], Ok (ORef (length h))) = (h', Ok (ORef r)) /\
    made h h' /\ good h' (e, v) r).
  { intros k v e' K. exists (h ++ [Leaf k LPlain v]), (length h). split; [reflexivity|].
    split; [apply made_app; [exact I|apply plain_good]|].
    exists (Leaf k LPlain v). split; [apply app_new|]. split; [now rewrite <- K|]. split; [now destruct k|].
    intros lbda. now rewrite (value_leaf _ _ _ _ _ _ (app_new h (Leaf k LPlain v))). }
  assert (TWO : forall v w e, entry_kind e = KEps -> exists h' r,
    py_add (h ++ [Leaf KEps LPlain v; Leaf KEps LPlain w]) (ORef (length h)) (ORef (length h + 1)) = (h', Ok (ORef r)) /\
    made h h' /\ good h' (e, fun lbda => oplus (v lbda) (w lbda)) r).
  { intros v w e' K. destruct (add_two h v w I) as (h' & r & ps & E & M & _ & S' & V). exists h', r. split; [exact E|]. split; [exact M|].
    exists (Sum KEps ps). split; [exact S'|]. split; [now rewrite <- K|]. split; [exact Logic.I|exact V]. }
  destruct e as [rows|rows|rows|n s|]; cbn [meaning build]; try (now apply new_table_spec); [|reflexivity].
  unfold formula. destruct (existsb (Nat.eqb n) [1; 2; 3; 4; 5]) eqn:EX; [|reflexivity].
  destruct (read float s) as [[|c0 cs]|x]; [reflexivity| |reflexivity].
  apply existsb_exists in EX. destruct EX as (m & M & EQ). apply Nat.eqb_eq in EQ. subst m.
  destruct M as [<-|[<-|[<-|[<-|[<-|[]]]]]]; unfold formula_value; cbv zeta; first [apply TWO; reflexivity|apply LEAF; reflexivity].
Qed.

Lemma build_all_spec data : forall h vs, inv h -> Forall2 (fun e v => meaning e = Ok v) data vs ->
  exists h' rs, build_all float h data = (h', Ok (map ORef rs)) /\ made h h' /\ Forall2 (good h') (combine data vs) rs.
Proof.
  induction data as [|e data IH]; intros h vs I F; inversion F as [|? v ? vs' E F']; subst.
  - exists h, []. split; [reflexivity|]. split; [now apply made_refl|constructor].
  - pose proof (build_spec h e I) as B. rewrite E in B. destruct B as (h1 & r & B & M & G).
    destruct (IH h1 vs' (md_inv _ _ M) F') as (h2 & rs & B2 & M2 & G2).
    exists h2, (r :: rs). cbn [build_all]. rewrite B, B2. split; [reflexivity|]. split; [eapply made_trans; eauto|].
    cbn [combine]. constructor; [|exact G2]. eapply good_made; [exact (md_inv _ _ M)|exact M2|exact G].
Qed.
Lemma build_all_err data : forall h pre e x post vs, inv h -> data = pre ++ e :: post ->
  Forall2 (fun e v => meaning e = Ok v) pre vs -> meaning e = Err x ->
  exists h', build_all float h data = (h', Err x).
Proof.
  intros h pre. revert h data. induction pre as [|d pre IH]; intros h data e x post vs I -> F E; cbn [app build_all].
  - pose proof (build_spec h e I) as B. rewrite E in B. rewrite B. eauto.
  - inversion F as [|? v ? vs' D F']; subst. pose proof (build_spec h d I) as B. rewrite D in B. destruct B as (h1 & r & B & M & _).
    destruct (IH h1 _ e x post vs' (md_inv _ _ M) eq_refl F' E) as (h2 & B2). rewrite B, B2. eauto.
Qed.

Definition as_value (ev : entry * (R -> option C)) (lbda : R) : option C :=
  if index_entry (fst ev) then snd ev lbda else obind (snd ev lbda) (fun e => Some (Csqrt e)).
Definition indexed (h : heap) (ev : entry * (R -> option C)) (r : nat) : Prop :=
  exists o, nth_error h r = Some o /\ okind o = KIdx /\ forall lbda, value h r lbda = as_value ev lbda.
Lemma indexed_made h h' ev r : inv h -> made h h' -> indexed h ev r -> indexed h' ev r.
Proof.
  intros I M (o & H & K & V). exists o. destruct (made_value h h' r o 0%R I M H) as [H' _].
  split; [exact H'|]. split; [exact K|]. intros lbda. rewrite <- V. now apply made_value with o.
Qed.

Lemma to_index_spec evs : forall h rs, inv h -> Forall2 (good h) evs rs ->
  exists h' rs', to_index h (map ORef rs) = (h', Ok (map ORef rs')) /\ made h h' /\ Forall2 (indexed h') evs rs'.
Proof.
  induction evs as [|ev evs IH]; intros h rs I F; inversion F as [|? r ? rs' G F']; subst.
  - exists h, []. split; [reflexivity|]. split; [now apply made_refl|constructor].
  - destruct G as (o & H & K & Co & V). cbn [map to_index]. rewrite H, K. unfold entry_kind in *. destruct (index_entry (fst ev)) eqn:IE; cbn [kind_eqb].
    + destruct (IH h rs' I F') as (h2 & rs2 & E2 & M2 & G2). rewrite E2. exists h2, (r :: rs2). split; [reflexivity|]. split; [exact M2|].
      constructor; [|exact G2]. eapply indexed_made; [exact I|exact M2|]. exists o. split; [exact H|]. split; [exact K|].
      intros lbda. unfold as_value. rewrite IE. apply V.
    + assert (A : as_index h r = (h ++ [AsIdx r], Ok (ORef (length h)))).
      { unfold as_index. rewrite H. destruct o as [[] []|[]|]; cbn in K, Co; try discriminate; try contradiction; reflexivity. }
      assert (M1 : made h (h ++ [AsIdx r])) by (apply made_app; [exact I|]; exists o; split; [now apply app_old|exact K]).
      rewrite A. pose proof (md_inv _ _ M1) as I1.
      destruct (IH (h ++ [AsIdx r]) rs' I1) as (h2 & rs2 & E2 & M2 & G2).
      { clear -I M1 F'. induction F'; constructor; auto. eapply good_made; eauto. }
      rewrite E2. exists h2, (length h :: rs2). split; [reflexivity|]. split; [eapply made_trans; eauto|].
      constructor; [|exact G2]. eapply indexed_made; [exact I1|exact M2|]. exists (AsIdx r). split; [apply app_new|]. split; [reflexivity|].
      intros lbda. rewrite (value_asidx _ _ _ _ I1 (app_new h (AsIdx r))). unfold as_value. rewrite IE.
      destruct (made_value h _ r o lbda I M1 H) as [_ ->]. now rewrite V.
Qed.

Lemma map_values {A} (P : A -> nat -> Prop) (f : A -> option C) h lbda l rs : Forall2 P l rs ->
  (forall a r, P a r -> value h r lbda = f a) ->
  map (fun o => oval h o lbda) (map ORef rs) = map f l.
Proof. intros F H. induction F; cbn; [reflexivity|]. rewrite (H _ _ H0). now f_equal. Qed.

Lemma Forall2_bounded {A} (P : A -> nat -> Prop) (Q : nat -> Prop) l rs : Forall2 P l rs ->
  (forall a r, P a r -> Q r) -> forall r, In r rs -> Q r.
Proof. intros F H. induction F; intros r []; subst; eauto. Qed.

(** One element, and several *)
Lemma load_one h e v : inv h -> meaning e = Ok v -> exists h' r,
  get_dispersion float h [e] = (h', Ok (ORef r)) /\ good h' (e, v) r.
Proof.
  intros I E. pose proof (build_spec h e I) as B. rewrite E in B. destruct B as (h1 & r & B & M & G).
  exists h1, r. unfold get_dispersion. cbn [build_all]. rewrite B. now split.
Qed.
Lemma load_err h data pre e x post vs : inv h -> data = pre ++ e :: post ->
  Forall2 (fun e v => meaning e = Ok v) pre vs -> meaning e = Err x ->
  exists h', get_dispersion float h data = (h', Err x).
Proof.
  intros I D F E. destruct (build_all_err data h pre e x post vs I D F E) as (h' & B). exists h'. unfold get_dispersion. now rewrite B.
Qed.

Lemma load_many h data vs : inv h -> 2 <= length data -> Forall2 (fun e v => meaning e = Ok v) data vs ->
  exists h' r ps, get_dispersion float h data = (h', Ok (ORef r)) /\
    if existsb index_entry data
    then nth_error h' r = Some (Sum KIdx ps) /\ forall lbda, value h' r lbda = DispAdd.osum (map (fun ev => as_value ev lbda) (combine data vs))
    else nth_error h' r = Some (Sum KEps ps) /\ forall lbda, value h' r lbda = DispAdd.osum (map (fun ev => snd ev lbda) (combine data vs)).
Proof.
  intros I L F. destruct (build_all_spec data h vs I F) as (h1 & rs & B & M & G). pose proof (md_inv _ _ M) as I1.
  assert (LR : 2 <= length rs).
  { assert (LD : length vs = length data) by (clear -F; induction F; cbn; auto).
    assert (LC : length rs = length (combine data vs)) by (clear -G; induction G; cbn; auto).
    rewrite LC, combine_length. lia. }
  unfold get_dispersion. rewrite B. destruct rs as [|r1 [|r2 rs]]; cbn in LR; try lia. cbn [map].
  change (ORef r1 :: ORef r2 :: map ORef rs) with (map ORef (r1 :: r2 :: rs)). set (ls := r1 :: r2 :: rs) in *. clearbody ls.
  destruct (existsb index_entry data) eqn:EX.
  - destruct (to_index_spec _ h1 ls I1 G) as (h2 & rs' & T & M2 & G2). rewrite T. pose proof (md_inv _ _ M2) as I2.
    destruct (new_sum_total h2 KIdx rs') as (h3 & N).
    { eapply Forall2_bounded; [exact G2|]. intros ev r (o & H & K & _). eauto. }
    destruct (new_sum_made h2 KIdx (map ORef rs') I2) as (M3 & _ & V). rewrite N in *. cbn [fst snd] in V.
    destruct (V _ eq_refl) as (ps & _ & S' & W).
    { intros x X. apply in_map_iff in X. destruct X as (y & [= <-] & X). revert y X.
      eapply Forall2_bounded; [exact G2|]. intros ev r (o & H & _). now apply nth_lt in H. }
    exists h3, (length h2), ps. split; [reflexivity|]. split; [exact S'|]. intros lbda. rewrite W. f_equal.
    eapply map_values; [exact G2|]. intros ev r (o & _ & _ & Q). apply Q.
  - assert (KE : forall ev r, In ev (combine data vs) -> good h1 ev r -> exists o, nth_error h1 r = Some o /\ okind o = KEps).
    { intros [e v] r IN (o & H & K & _). exists o. split; [exact H|]. rewrite K. unfold entry_kind. cbn.
      apply in_combine_l in IN. assert (Q : index_entry e = false).
      { destruct (index_entry e) eqn:Q; [|reflexivity]. assert (TT : existsb index_entry data = true) by (apply existsb_exists; eauto). congruence. }
      now rewrite Q. }
    assert (KA : forall r, In r ls -> exists o, nth_error h1 r = Some o /\ okind o = KEps).
    { clear -G KE. induction G; intros r []; subst; [eapply KE; [now left|eassumption]|]. apply IHG; auto. intros ev r' IN; apply KE; now right. }
    destruct (new_sum_total h1 KEps ls KA) as (h3 & N).
    destruct (new_sum_made h1 KEps (map ORef ls) I1) as (M3 & _ & V). rewrite N in *. cbn [fst snd] in V.
    destruct (V _ eq_refl) as (ps & _ & S' & W).
    { intros x X. apply in_map_iff in X. destruct X as (y & [= <-] & X). destruct (KA y X) as (o & H & _). now apply nth_lt in H. }
    exists h3, (length h1), ps. split; [reflexivity|]. split; [exact S'|]. intros lbda. rewrite W. f_equal.
    eapply map_values; [exact G|]. intros ev r (o & _ & _ & _ & Q). apply Q.
Qed.
End Load.
