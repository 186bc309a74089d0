From Coq Require Import Ascii List Arith Bool Lia.
From Verif.Model Require Import FormulaText Regex.
From Verif.Spec Require Import Language.
Import ListNotations.

Lemma nullable_lang r : nullable r = true <-> lang r [].
Proof.
  induction r; cbn; try (split; [discriminate|now inversion 1]).
  - split; [constructor|reflexivity].
  - rewrite andb_true_iff, IHr1, IHr2. split; [intros [A B]; exact (lang_cat _ _ [] [] A B)|].
    inversion 1 as [| |? ? a b A B E| | | |]; subst. match goal with H : _ ++ _ = [] |- _ => apply app_eq_nil in H as [-> ->] end. auto.
  - rewrite orb_true_iff, IHr1, IHr2. split; [intros [A|A]; [now apply lang_left|now apply lang_right]|inversion 1; auto].
  - split; [constructor|reflexivity].
Qed.

Lemma star_cons r c s : lang (Star r) (c :: s) -> exists a b, s = a ++ b /\ lang r (c :: a) /\ lang (Star r) b.
Proof.
  intros L. remember (Star r) as t eqn:T. remember (c :: s) as u eqn:U. revert s U.
  induction L as [| | | | |r'|r' a b A _ B IH]; intros s' U; try discriminate. injection T as ->.
  destruct a as [|d a]; cbn in U; [apply IH; auto|]. injection U as -> <-. eauto.
Qed.

Lemma rest_lang r c s : lang (rest c r) s <-> lang r (c :: s).
Proof.
  revert s. induction r as [| |p|r1 IH1 r2 IH2|r1 IH1 r2 IH2|r IH]; intros s; cbn [rest].
  - split; inversion 1.
  - split; inversion 1.
  - destruct (p c) eqn:P; (split; inversion 1; subst); try (constructor; auto; fail); congruence.
  - assert (E : lang (Cat (rest c r1) r2) s <-> exists a b, s = a ++ b /\ lang r1 (c :: a) /\ lang r2 b).
    { split.
      - inversion 1; subst. apply IH1 in H2. eauto.
      - intros (a & b & -> & A & B). constructor; [now apply IH1|auto]. }
    assert (F : lang (Cat r1 r2) (c :: s) <-> (exists a b, s = a ++ b /\ lang r1 (c :: a) /\ lang r2 b) \/ (lang r1 [] /\ lang r2 (c :: s))).
    { split.
      - intros L. remember (c :: s) as u eqn:U. inversion L as [| |? ? a b A B| | | |]; subst. destruct a as [|d a]; cbn in *.
        + subst. auto.
        + match goal with H : _ :: _ = _ :: _ |- _ => injection H as -> <- end. left. eauto.
      - intros [(a & b & -> & A & B)|[A B]]; [exact (lang_cat _ _ (c :: a) b A B)|exact (lang_cat _ _ [] _ A B)]. }
    rewrite F, <- E. destruct (nullable r1) eqn:N.
    + apply nullable_lang in N. split.
      * inversion 1; subst; [left; auto|right; split; [auto|now apply IH2]].
      * intros [A|[_ A]]; [now apply lang_left|apply lang_right; now apply IH2].
    + split; [auto|]. intros [A|[A _]]; [auto|]. apply nullable_lang in A. congruence.
  - split; inversion 1; subst; [apply lang_left; now apply IH1|apply lang_right; now apply IH2|apply lang_left; now apply IH1|apply lang_right; now apply IH2].
  - split.
    + inversion 1; subst. apply IH in H2. exact (lang_more r (c :: a) b H2 H4).
    + intros L. destruct (star_cons _ _ _ L) as (a & b & -> & A & B). constructor; [now apply IH|auto].
Qed.

Lemma fullmatch_lang r s : fullmatch r s = true <-> lang r s.
Proof. revert r. induction s as [|c s IH]; intros r; cbn; [apply nullable_lang|]. rewrite IH. apply rest_lang. Qed.

Lemma anything_lang s : lang anything s.
Proof. induction s as [|c s IH]; [constructor|]. apply (lang_more _ [c] s); [now constructor|exact IH]. Qed.

Lemma cat_lang r t s : lang (Cat r t) s <-> exists a b, s = a ++ b /\ lang r a /\ lang t b.
Proof. split; [inversion 1; subst; eauto|]. intros (a & b & -> & A & B). now constructor. Qed.

Lemma alt_lang r t s : lang (Alt r t) s <-> lang r s \/ lang t s.
Proof. split; [inversion 1; auto|]. intros [A|A]; [now apply lang_left|now apply lang_right]. Qed.

Lemma chr_lang p s : lang (Chr p) s <-> exists c, s = [c] /\ p c = true.
Proof. split; [inversion 1; eauto|]. intros (c & -> & P). now constructor. Qed.

Lemma empty_lang s : lang Empty s <-> s = [].
Proof. split; [now inversion 1|intros ->; constructor]. Qed.

Lemma star_chr p s : lang (Star (Chr p)) s <-> Forall (fun c => p c = true) s.
Proof.
  split.
  - induction s as [|c s IH]; intros L; [constructor|]. destruct (star_cons _ _ _ L) as (a & b & -> & A & B).
    apply chr_lang in A as (d & [= <- ->] & P). constructor; auto.
  - induction 1 as [|c s P _ IH]; [constructor|]. apply (lang_more _ [c] s); [now constructor|auto].
Qed.

Lemma plus_chr p s : lang (plus (Chr p)) s <-> s <> [] /\ Forall (fun c => p c = true) s.
Proof.
  unfold plus. rewrite cat_lang. split.
  - intros (a & b & -> & A & B). apply chr_lang in A as (c & -> & P). apply star_chr in B. split; [discriminate|now constructor].
  - intros [N F]. destruct s as [|c s]; [congruence|]. inversion F; subst. exists [c], s. split; [reflexivity|]. split; [now constructor|now apply star_chr].
Qed.

Lemma search_lang r s : search r s = true <-> exists a m b, s = a ++ m ++ b /\ lang r m.
Proof.
  unfold search. rewrite fullmatch_lang, cat_lang. split.
  - intros (a & x & -> & _ & X). apply cat_lang in X as (m & b & -> & M & _). eauto.
  - intros (a & m & b & -> & M). exists a, (m ++ b). split; [reflexivity|]. split; [apply anything_lang|].
    apply cat_lang. exists m, b. split; [reflexivity|]. split; [exact M|apply anything_lang].
Qed.

Lemma search_start_lang r s : search_start r s = true <-> exists m b, s = m ++ b /\ lang r m.
Proof.
  unfold search_start. rewrite fullmatch_lang, cat_lang. split; [intros (m & b & -> & M & _); eauto|].
  intros (m & b & -> & M). exists m, b. auto using anything_lang.
Qed.

Lemma search_line_lang r s : search_line r s = true <-> lang r s \/ exists s', s = s' ++ [newline] /\ lang r s'.
Proof.
  unfold search_line. rewrite fullmatch_lang, cat_lang. split.
  - intros (a & b & -> & A & B). apply alt_lang in B as [B|B].
    + apply empty_lang in B as ->. rewrite app_nil_r. auto.
    + apply chr_lang in B as (c & -> & E). apply Ascii.eqb_eq in E as ->. eauto.
  - intros [L|(s' & -> & L)].
    + exists s, []. rewrite app_nil_r. split; [reflexivity|]. split; [exact L|]. apply alt_lang. left. constructor.
    + exists s', [newline]. split; [reflexivity|]. split; [exact L|]. apply alt_lang. right. constructor. apply Ascii.eqb_refl.
Qed.
