(** Lemmas for Props/FormulaTextT.v: the shift-reduce parser and the lexer of Model/FormulaText.v
    against the texts of Spec/Rendering.v. *)
From Coq Require Import Ascii String List Arith Bool Lia.
From Verif.Base Require Import Py.
From Verif.Model Require Import Formula FormulaText.
From Verif.Spec Require Import Rendering.
Import ListNotations.
Open Scope list_scope.

Ltac apps := cbn [app]; repeat (rewrite <- app_assoc; cbn [app]); try reflexivity.

(** ** Parser: lists of terminals *)
Inductive gram (i : bool) : nat -> tree -> list token -> Prop :=
| g_num n : gram i 3 (Num n) [TNum n]
| g_name n : i = false -> gram i 3 (SingleName n) [TName n]
| g_inner n : i = true -> gram i 3 (ParamName n) [TName n]
| g_builtin b : gram i 3 (Builtin b) [TBuiltin b]
| g_func f t ts : gram i 0 t ts -> gram i 3 (Func f t) (TFunc f :: TLPar :: ts ++ [TRPar])
| g_sum t ts : i = false -> gram true 0 t ts -> gram i 3 (Sum t) (TSum :: TLBr :: ts ++ [TRBr])
| g_paren t ts : gram i 0 t ts -> gram i 3 t (TLPar :: ts ++ [TRPar])
| g_pow a b ts us : gram i 3 a ts -> gram i 3 b us -> gram i 2 (Bin Pow a b) (ts ++ TOp Pow :: us)
| g_term o a b ts us : o = Mul \/ o = Div -> gram i 1 a ts -> gram i 2 b us -> gram i 1 (Bin o a b) (ts ++ TOp o :: us)
| g_expr o a b ts us : o = Formula.Add \/ o = Sub -> gram i 0 a ts -> gram i 1 b us ->
    gram i 0 (Bin o a b) (ts ++ TOp o :: us)
| g_level p t ts : gram i (Datatypes.S p) t ts -> gram i p t ts.

Lemma run_app q f st ts us : run q f st (ts ++ us) =
  match run q f st ts with Some (q', f', st') => run q' f' st' us | None => None end.
Proof.
  revert q f st; induction ts as [|t ts IH]; intros q f st; cbn; [reflexivity|].
  destruct (shift q f st t) as [[[q' f'] st']|]; [apply IH|reflexivity].
Qed.

Definition reads (p : nat) (i : bool) (t : tree) (ts : list token) : Prop :=
  forall f st, in_sum st = i ->
  match p with
  | 0 => f = empty -> exists g v, run Want f st ts = Some (Have v, g, st) /\ red_expr g v = t
  | 1 => pf f = None -> pt f = None ->
         exists g v, run Want f st ts = Some (Have v, g, st) /\ pe g = pe f /\ red_term g v = t
  | 2 => pf f = None ->
         exists g v, run Want f st ts = Some (Have v, g, st) /\ pe g = pe f /\ pt g = pt f /\ red_factor g v = t
  | _ => run Want f st ts = Some (Have t, f, st)
  end.

Lemma gram_reads i p t ts : gram i p t ts -> reads p i t ts.
Proof.
  induction 1 as [i n|i n Hi|i n Hi|i b|i fn t ts _ IH|i t ts Hi _ IH|i t ts _ IH|i a b ts us _ IHa _ IHb
                 |i o a b ts us Ho _ IHa _ IHb|i o a b ts us Ho _ IHa _ IHb|i p t ts H IH]; intros f st E.
  - reflexivity.
  - cbn. rewrite E, Hi. reflexivity.
  - cbn. rewrite E, Hi. reflexivity.
  - reflexivity.
  - cbn. rewrite run_app. destruct (IH empty ((f, FuncOf fn) :: st) E eq_refl) as (g & v & R & V).
    rewrite R. cbn. now rewrite V.
  - cbn. rewrite E, Hi. cbn. rewrite run_app. destruct (IH empty ((f, SumOf) :: st) eq_refl eq_refl) as (g & v & R & V).
    rewrite R. cbn. now rewrite V.
  - cbn. rewrite run_app. destruct (IH empty ((f, Paren) :: st) E eq_refl) as (g & v & R & V).
    rewrite R. cbn. now rewrite V.
  - intros F. rewrite run_app. rewrite (IHa f st E). cbn. rewrite F.
    exists (mkframe (pe f) (pt f) (Some a)), b. rewrite (IHb _ st E). repeat split.
  - intros F T. rewrite run_app. destruct (IHa f st E F T) as (g & v & R & P & V). rewrite R.
    assert (HM : shift (Have v) g st (TOp o) = Some (Want, mkframe (pe g) (Some (a, o)) None, st))
      by (destruct Ho; subst o; cbn; rewrite V; reflexivity).
    cbn [run]. rewrite HM.
    destruct (IHb (mkframe (pe g) (Some (a, o)) None) st E eq_refl) as (g2 & v2 & R2 & P2 & T2 & V2).
    exists g2, v2. rewrite R2. split; [reflexivity|]. split; [rewrite P2; exact P|].
    unfold red_term. rewrite T2. cbn. now rewrite V2.
  - intros F. rewrite run_app. destruct (IHa f st E F) as (g & v & R & V). rewrite R.
    assert (HM : shift (Have v) g st (TOp o) = Some (Want, mkframe (Some (a, o)) None None, st))
      by (destruct Ho; subst o; cbn; rewrite V; reflexivity).
    cbn [run]. rewrite HM.
    destruct (IHb (mkframe (Some (a, o)) None None) st E eq_refl eq_refl) as (g2 & v2 & R2 & P2 & V2).
    exists g2, v2. rewrite R2. split; [reflexivity|].
    unfold red_expr. rewrite P2. cbn. now rewrite V2.
  - specialize (IH f st E). destruct p as [|[|[|p]]]; cbn in IH.
    + intros ->. destruct (IH eq_refl eq_refl) as (g & v & R & P & V). exists g, v. split; [exact R|].
      unfold red_expr. rewrite P. exact V.
    + intros F T. destruct (IH F) as (g & v & R & P & T2 & V). exists g, v. split; [exact R|]. split; [exact P|].
      unfold red_term. rewrite T2, T. exact V.
    + intros F. exists f, t. split; [exact IH|]. repeat split. unfold red_factor. now rewrite F.
    + exact IH.
Qed.

Lemma gram_parse_expr t ts : gram false 0 t ts -> parse_tokens false ts = Some t.
Proof.
  intros G. destruct (gram_reads _ _ _ _ G empty [] eq_refl eq_refl) as (g & v & R & V).
  unfold parse_tokens. rewrite R. now rewrite V.
Qed.
Lemma gram_parse_term t ts : gram false 1 t ts -> parse_tokens true ts = Some t.
Proof.
  intros G. destruct (gram_reads _ _ _ _ G empty [] eq_refl eq_refl eq_refl) as (g & v & R & P & V).
  unfold parse_tokens. rewrite R, P. cbn. now rewrite V.
Qed.

(** What has been read so far *)
Definition pe_ok i (x : option (tree * binop)) ts :=
  match x with
  | None => ts = []
  | Some (a, o) => (o = Formula.Add \/ o = Sub) /\ exists us, gram i 0 a us /\ ts = us ++ [TOp o]
  end.
Definition pt_ok i (x : option (tree * binop)) ts :=
  match x with
  | None => ts = []
  | Some (a, o) => (o = Mul \/ o = Div) /\ exists us, gram i 1 a us /\ ts = us ++ [TOp o]
  end.
Definition pf_ok i (x : option tree) ts :=
  match x with None => ts = [] | Some a => exists us, gram i 3 a us /\ ts = us ++ [TOp Pow] end.
Definition frame_ok i (f : frame) ts :=
  exists x y z, ts = x ++ y ++ z /\ pe_ok i (pe f) x /\ pt_ok i (pt f) y /\ pf_ok i (pf f) z.
Inductive stack_ok : stack -> list token -> Prop :=
| s_nil : stack_ok [] []
| s_paren f st ts us : stack_ok st ts -> frame_ok (in_sum st) f us -> stack_ok ((f, Paren) :: st) (ts ++ us ++ [TLPar])
| s_func f w st ts us : stack_ok st ts -> frame_ok (in_sum st) f us ->
    stack_ok ((f, FuncOf w) :: st) (ts ++ us ++ [TFunc w; TLPar])
| s_sum f st ts us : stack_ok st ts -> frame_ok (in_sum st) f us -> in_sum st = false ->
    stack_ok ((f, SumOf) :: st) (ts ++ us ++ [TSum; TLBr]).
Definition state_ok i (q : state) ts :=
  match q with
  | Want => ts = []
  | Have v => gram i 3 v ts
  | WantPar w => ts = [TFunc w]
  | WantBr => i = false /\ ts = [TSum]
  end.
Definition inv q f st ts :=
  exists a b c, ts = a ++ b ++ c /\ stack_ok st a /\ frame_ok (in_sum st) f b /\ state_ok (in_sum st) q c.

Lemma frame_empty i : frame_ok i empty [].
Proof. exists [], [], []. repeat split. Qed.

Lemma red_factor_ok i f v z c : pf_ok i (pf f) z -> gram i 3 v c -> gram i 2 (red_factor f v) (z ++ c).
Proof.
  unfold red_factor. destruct (pf f) as [a|]; cbn; intros Z V.
  - destruct Z as (us & A & ->). rewrite <- app_assoc. cbn. now apply g_pow.
  - subst z. now apply g_level.
Qed.
Lemma red_term_ok i f v y z c : pt_ok i (pt f) y -> pf_ok i (pf f) z -> gram i 3 v c ->
  gram i 1 (red_term f v) (y ++ z ++ c).
Proof.
  intros Y Z V. pose proof (red_factor_ok i f v z c Z V) as F.
  unfold red_term. destruct (pt f) as [[a o]|]; cbn in Y.
  - destruct Y as (Ho & us & A & ->). rewrite <- app_assoc. cbn. now apply g_term.
  - subst y. now apply g_level.
Qed.
Lemma red_expr_ok i f v b c : frame_ok i f b -> gram i 3 v c -> gram i 0 (red_expr f v) (b ++ c).
Proof.
  intros (x & y & z & -> & X & Y & Z) V. pose proof (red_term_ok i f v y z c Y Z V) as T.
  unfold red_expr. rewrite <- !app_assoc. destruct (pe f) as [[a o]|]; cbn in X.
  - destruct X as (Ho & us & A & ->). rewrite <- app_assoc. cbn. now apply g_expr.
  - subst x. now apply g_level.
Qed.

Lemma shift_inv q f st ts t q' f' st' :
  inv q f st ts -> shift q f st t = Some (q', f', st') -> inv q' f' st' (ts ++ [t]).
Proof.
  intros (a & b & c & -> & SA & FB & QC) E. rewrite <- !app_assoc.
  destruct q as [|v|w|]; cbn in QC.
  - (* an operand *)
    subst c. destruct t; cbn in E; try discriminate.
    + injection E as <- <- <-. exists a, b, [TNum s]. repeat split; auto. apply g_num.
    + injection E as <- <- <-. exists a, b, [TName s]. repeat split; auto. cbn.
      destruct (in_sum st) eqn:I; [now apply g_inner|now apply g_name].
    + injection E as <- <- <-. exists a, b, [TBuiltin s]. repeat split; auto. apply g_builtin.
    + injection E as <- <- <-. exists a, b, [TFunc s]. repeat split; auto.
    + destruct (in_sum st) eqn:I; [discriminate|]. injection E as <- <- <-. exists a, b, [TSum]. repeat split; auto.
      now rewrite I.
    + injection E as <- <- <-. exists (a ++ b ++ [TLPar]), [], []. cbn. rewrite !app_nil_r. repeat split.
      * now apply s_paren.
      * apply frame_empty.
  - (* after an operand *)
    destruct t as [| | | | |o| | | |]; cbn in E; try discriminate.
    + assert (X : exists x y z, b = x ++ y ++ z /\ pe_ok (in_sum st) (pe f) x /\ pt_ok (in_sum st) (pt f) y
                  /\ pf_ok (in_sum st) (pf f) z) by exact FB.
      destruct X as (x & y & z & -> & X & Y & Z).
      destruct o.
      * injection E as <- <- <-. exists a, (((x ++ y ++ z) ++ c) ++ [TOp Formula.Add]), []. repeat split; auto.
        { now rewrite app_nil_r, <- !app_assoc. }
        exists (((x ++ y ++ z) ++ c) ++ [TOp Formula.Add]), [], []. rewrite !app_nil_r. repeat split; auto.
        exists ((x ++ y ++ z) ++ c). split; [|reflexivity]. now apply red_expr_ok.
      * injection E as <- <- <-. exists a, (((x ++ y ++ z) ++ c) ++ [TOp Sub]), []. repeat split; auto.
        { now rewrite app_nil_r, <- !app_assoc. }
        exists (((x ++ y ++ z) ++ c) ++ [TOp Sub]), [], []. rewrite !app_nil_r. repeat split; auto.
        exists ((x ++ y ++ z) ++ c). split; [|reflexivity]. now apply red_expr_ok.
      * injection E as <- <- <-. exists a, (x ++ (y ++ z ++ c) ++ [TOp Mul]), []. repeat split; auto.
        { now rewrite app_nil_r, <- !app_assoc. }
        exists x, ((y ++ z ++ c) ++ [TOp Mul]), []. rewrite !app_nil_r. repeat split; auto.
        exists (y ++ z ++ c). split; [|reflexivity]. now apply red_term_ok.
      * injection E as <- <- <-. exists a, (x ++ (y ++ z ++ c) ++ [TOp Div]), []. repeat split; auto.
        { now rewrite app_nil_r, <- !app_assoc. }
        exists x, ((y ++ z ++ c) ++ [TOp Div]), []. rewrite !app_nil_r. repeat split; auto.
        exists (y ++ z ++ c). split; [|reflexivity]. now apply red_term_ok.
      * destruct (pf f) as [p|] eqn:P; [discriminate|]. cbn in Z. subst z.
        injection E as <- <- <-. exists a, (x ++ y ++ c ++ [TOp Pow]), []. repeat split; auto.
        { now rewrite !app_nil_r, <- !app_assoc. }
        exists x, y, (c ++ [TOp Pow]). repeat split; auto. exists c. now split.
    + destruct st as [|[g [|w|]] st]; try discriminate; injection E as <- <- <-; inversion SA; subst.
      * exists ts, us, (TLPar :: (b ++ c) ++ [TRPar]). repeat split; auto.
        { now rewrite <- !app_assoc. }
        apply g_paren. now apply red_expr_ok.
      * exists ts, us, (TFunc w :: TLPar :: (b ++ c) ++ [TRPar]). repeat split; auto.
        { now rewrite <- !app_assoc. }
        apply g_func. now apply red_expr_ok.
    + destruct st as [|[g [|w|]] st]; try discriminate; injection E as <- <- <-; inversion SA; subst.
      exists ts, us, (TSum :: TLBr :: (b ++ c) ++ [TRBr]). repeat split; auto.
      { now rewrite <- !app_assoc. }
      apply g_sum; [assumption|]. now apply (red_expr_ok true).
  - subst c. destruct t; cbn in E; try discriminate. injection E as <- <- <-.
    exists (a ++ b ++ [TFunc w; TLPar]), [], []. repeat split.
    + cbn. now rewrite !app_nil_r.
    + now apply s_func.
    + apply frame_empty.
  - destruct QC as [I ->]. destruct t; cbn in E; try discriminate. injection E as <- <- <-.
    exists (a ++ b ++ [TSum; TLBr]), [], []. repeat split.
    + cbn. now rewrite !app_nil_r.
    + now apply s_sum.
    + apply frame_empty.
Qed.

Lemma run_inv ts : forall q f st us q' f' st',
  inv q f st us -> run q f st ts = Some (q', f', st') -> inv q' f' st' (us ++ ts).
Proof.
  induction ts as [|t ts IH]; intros q f st us q' f' st' I R; cbn in R.
  - injection R as <- <- <-. now rewrite app_nil_r.
  - destruct (shift q f st t) as [[[q1 f1] st1]|] eqn:E; [|discriminate].
    change (t :: ts) with ([t] ++ ts). rewrite app_assoc. eapply IH; [|exact R]. eapply shift_inv; eauto.
Qed.

Lemma inv_start : inv Want empty [] [].
Proof. exists [], [], []. repeat split. constructor. apply frame_empty. Qed.

Lemma parse_gram kkr ts t : parse_tokens kkr ts = Some t -> gram false (if kkr then 1 else 0) t ts.
Proof.
  unfold parse_tokens. destruct (run Want empty [] ts) as [[[[|v|w|] f] [|p st]]|] eqn:R; try discriminate.
  pose proof (run_inv _ _ _ _ _ _ _ _ inv_start R) as (a & b & c & E & SA & FB & QC). cbn in E. subst ts.
  inversion SA; subst. cbn in FB, QC. cbn [app].
  destruct kkr.
  - destruct FB as (x & y & z & -> & X & Y & Z).
    destruct (pe f) as [[? ?]|]; [discriminate|]. cbn in X. subst x. intros [= <-].
    cbn [app]. rewrite <- app_assoc. now apply red_term_ok.
  - intros [= <-]. now apply red_expr_ok.
Qed.

(** ** Characters *)
Lemma is_digit_spec c : is_digit c = true <-> In c (chars "0123456789").
Proof.
  split.
  - destruct c as [[] [] [] [] [] [] [] []]; vm_compute; intros H; try discriminate; tauto.
  - cbn. intros H. repeat destruct H as [<-|H]; try reflexivity. destruct H.
Qed.
Lemma is_letter_spec c : is_letter c = true <-> letter c.
Proof.
  split.
  - unfold letter. destruct c as [[] [] [] [] [] [] [] []]; vm_compute; intros H; try discriminate; tauto.
  - cbn. intros H. repeat destruct H as [<-|H]; try reflexivity. destruct H.
Qed.
Lemma is_blank_spec c : is_blank c = true <-> c = " "%char \/ c = "009"%char.
Proof.
  unfold is_blank. rewrite orb_true_iff, !Ascii.eqb_eq. reflexivity.
Qed.
Lemma is_sign_spec c : is_sign c = true <-> c = "+"%char \/ c = "-"%char.
Proof. unfold is_sign. rewrite orb_true_iff, !Ascii.eqb_eq. reflexivity. Qed.
Lemma is_name_char_spec c : is_name_char c = true <-> letter c \/ In c (chars "0123456789").
Proof. unfold is_name_char. now rewrite orb_true_iff, is_letter_spec, is_digit_spec. Qed.

Lemma chars_word s : chars (word s) = s.
Proof. apply list_ascii_of_string_of_list_ascii. Qed.
Lemma word_chars s : word (chars s) = s.
Proof. apply string_of_list_ascii_of_string. Qed.
Lemma chars_app a b : chars (a ++ b)%string = chars a ++ chars b.
Proof. induction a; cbn; [reflexivity|now f_equal]. Qed.

Lemma skip_blanks b s : blanks b -> skip (b ++ s) = skip s.
Proof.
  induction 1 as [|c b H _ IH]; [reflexivity|]. cbn. apply is_blank_spec in H. now rewrite H.
Qed.
Lemma skip_split s : exists b, blanks b /\ s = b ++ skip s.
Proof.
  induction s as [|c s (b & B & E)]; [now exists []; split; [constructor|]|].
  cbn. destruct (is_blank c) eqn:K.
  - exists (c :: b). split; [|cbn; now f_equal]. constructor; [now apply is_blank_spec|exact B].
  - exists []. split; [constructor|reflexivity].
Qed.
Lemma skip_length s : length (skip s) <= length s.
Proof. induction s as [|c s IH]; cbn; [lia|]. destruct (is_blank c); cbn; lia. Qed.

(** The rest of a text does not begin with such a character *)
Definition stops (p : ascii -> bool) (r : text) : Prop := match r with c :: _ => p c = false | [] => True end.

Lemma span_app p a r : Forall (fun c => p c = true) a -> stops p r -> span p (a ++ r) = (a, r).
Proof.
  induction 1 as [|c a H _ IH]; intros S; cbn.
  - destruct r as [|c r]; [reflexivity|]. cbn in S. cbn. now rewrite S.
  - now rewrite H, IH.
Qed.
Lemma span_spec p s a r : span p s = (a, r) -> s = a ++ r /\ Forall (fun c => p c = true) a /\ stops p r.
Proof.
  revert a r; induction s as [|c s IH]; intros a r E; cbn in E.
  - injection E as <- <-. repeat split; constructor.
  - destruct (p c) eqn:K.
    + destruct (span p s) as [a' r'] eqn:E2. injection E as <- <-.
      destruct (IH _ _ eq_refl) as (-> & F & S). repeat split; auto.
    + injection E as <- <-. repeat split; [constructor|exact K].
Qed.

Lemma strip_app w r : strip w (w ++ r) = Some r.
Proof. induction w as [|c w IH]; [now destruct r|]. cbn. now rewrite Ascii.eqb_refl. Qed.
Lemma strip_spec w s r : strip w s = Some r -> s = w ++ r.
Proof.
  revert s; induction w as [|a w IH]; intros s E; cbn in E.
  - destruct s; now injection E as <-.
  - destruct s as [|b s]; [discriminate|]. destruct (Ascii.eqb_spec a b) as [->|]; [|discriminate].
    cbn. f_equal. now apply IH.
Qed.
Lemma first_word_spec ws s w r : first_word ws s = Some (w, r) -> In w ws /\ s = chars w ++ r.
Proof.
  induction ws as [|v ws IH]; cbn; [discriminate|].
  destruct (strip (chars v) s) as [r'|] eqn:E.
  - intros [= <- <-]. split; [now left|]. now apply strip_spec.
  - intros H. destruct (IH H). split; [now right|assumption].
Qed.
Lemma first_word_none ws s : first_word ws s = None <-> forall w, In w ws -> strip (chars w) s = None.
Proof.
  induction ws as [|v ws IH]; cbn; [now split|].
  destruct (strip (chars v) s) as [r'|] eqn:E.
  - split; [discriminate|]. intros H. rewrite H in E by now left. discriminate.
  - rewrite IH. split; intros H w; [intros [<-|K]|]; auto.
Qed.

(** A word of name characters that begins a text that goes on after [x] with something else, already
    begins [x] *)
Lemma strip_delim w x r : Forall (fun c => is_name_char c = true) w -> stops is_name_char r ->
  strip w (x ++ r) = match strip w x with Some y => Some (y ++ r) | None => None end.
Proof.
  intros W S. revert x; induction W as [|c w C W IH]; intros x.
  - destruct x; [cbn; now destruct r|reflexivity].
  - destruct x as [|d x]; cbn.
    + destruct r as [|d r]; [reflexivity|]. cbn in S. destruct (Ascii.eqb_spec c d) as [->|]; [congruence|reflexivity].
    + destruct (Ascii.eqb_spec c d); [apply IH|reflexivity].
Qed.

Lemma words_name_chars w : In w (func_words ++ builtin_words) -> Forall (fun c => is_name_char c = true) (chars w).
Proof.
  intros H.
  assert (A : forallb (fun w => forallb is_name_char (chars w)) (func_words ++ builtin_words) = true) by reflexivity.
  rewrite forallb_forall in A. specialize (A w H). rewrite forallb_forall in A. now apply Forall_forall.
Qed.

Lemma first_word_delim ws x r : (forall w, In w ws -> Forall (fun c => is_name_char c = true) (chars w)) ->
  stops is_name_char r ->
  first_word ws (x ++ r) = match first_word ws x with Some (w, y) => Some (w, y ++ r) | None => None end.
Proof.
  intros W S. induction ws as [|v ws IH]; [reflexivity|]. cbn.
  rewrite strip_delim; [|apply W; now left|exact S].
  destruct (strip (chars v) x); [reflexivity|]. apply IH. intros w H. apply W. now right.
Qed.

(** ** Terminals *)
Definition number_end (c : ascii) : bool := is_digit c || (c =? ".")%char || (c =? "e")%char || (c =? "E")%char.

Lemma digits_digit d : digits d <-> Forall (fun c => is_digit c = true) d.
Proof. split; apply Forall_impl; intros c; apply is_digit_spec. Qed.

Lemma stops_digit r : stops number_end r -> stops is_digit r.
Proof. destruct r as [|c r]; [auto|]. cbn. unfold number_end. destruct (is_digit c); [discriminate|reflexivity]. Qed.

Lemma sign_spec s sg r : sign s = (sg, r) -> s = sg ++ r /\ sign_text sg /\ (sg = [] -> stops is_sign r).
Proof.
  unfold sign. destruct s as [|c s].
  - intros [= <- <-]. repeat split. now left.
  - destruct (is_sign c) eqn:K; intros [= <- <-].
    + repeat split; [|discriminate]. right. apply is_sign_spec in K. destruct K as [->| ->]; auto.
    + repeat split; [now left|]. intros _. exact K.
Qed.
Lemma sign_app sg r : sign_text sg -> (sg = [] -> stops is_sign r) -> sign (sg ++ r) = (sg, r).
Proof.
  intros [->|[->| ->]] S; [|reflexivity|reflexivity].
  specialize (S eq_refl). destruct r as [|c r]; [reflexivity|]. cbn in *. now rewrite S.
Qed.

Lemma exponent_spec s x r : exponent s = (x, r) -> s = x ++ r /\ exponent_text x.
Proof.
  unfold exponent. destruct s as [|c s]; [intros [= <- <-]; split; [reflexivity|now left]|].
  destruct ((c =? "e")%char || (c =? "E")%char) eqn:K; [|intros [= <- <-]; split; [reflexivity|now left]].
  destruct (sign s) as [sg s2] eqn:E1. destruct (span is_digit s2) as [d s3] eqn:E2.
  destruct (sign_spec _ _ _ E1) as (-> & SG & _). destruct (span_spec _ _ _ _ E2) as (-> & D & _).
  destruct d as [|d0 d]; intros [= <- <-].
  - split; [reflexivity|now left].
  - split; [cbn; now rewrite <- app_assoc|]. right. exists c, sg, (d0 :: d). repeat split; auto; [|now apply digits_digit|discriminate].
    apply orb_true_iff in K. rewrite !Ascii.eqb_eq in K. exact K.
Qed.
Lemma digit_not_sign c : is_digit c = true -> is_sign c = false.
Proof. destruct (is_sign c) eqn:K; [|reflexivity]. apply is_sign_spec in K. destruct K as [->| ->]; discriminate. Qed.
Lemma exponent_app x r : exponent_text x -> stops number_end r -> exponent (x ++ r) = (x, r).
Proof.
  intros [->|(c & sg & d & C & SG & D & ND & ->)] S.
  - destruct r as [|c r]; [reflexivity|]. cbn in *. unfold number_end in S.
    destruct (c =? "e")%char; [rewrite !orb_true_r in S; discriminate|].
    destruct (c =? "E")%char; [rewrite !orb_true_r in S; discriminate|]. reflexivity.
  - cbn [app exponent].
    assert (K : ((c =? "e")%char || (c =? "E")%char) = true) by (apply orb_true_iff; rewrite !Ascii.eqb_eq; exact C).
    rewrite K, <- app_assoc. rewrite sign_app; [|exact SG|].
    + rewrite span_app; [|now apply digits_digit|now apply stops_digit]. now destruct d.
    + intros _. destruct d as [|d0 d]; [contradiction|]. cbn. apply digit_not_sign.
      apply digits_digit in D. exact (Forall_inv D).
Qed.

Lemma exponent_no_digit x r : exponent_text x -> stops number_end r -> stops is_digit (x ++ r).
Proof.
  intros [->|(c & sg & d & C & _ & _ & _ & ->)] S; [now apply stops_digit|].
  cbn. destruct C as [->| ->]; reflexivity.
Qed.
Lemma exponent_no_dot x r : exponent_text x -> stops number_end r -> stops (Ascii.eqb ".") (x ++ r).
Proof.
  intros [->|(c & sg & d & C & _ & _ & _ & ->)] S.
  - destruct r as [|c r]; [exact I|]. cbn [stops app] in *. unfold number_end in S.
    rewrite Ascii.eqb_sym. destruct (c =? ".")%char; [|reflexivity]. rewrite orb_true_r in S. discriminate.
  - cbn [app stops]. destruct C as [->| ->]; reflexivity.
Qed.

Lemma number_spec s n r : number s = Some (n, r) -> s = n ++ r /\ exists sg, literal sg n.
Proof.
  unfold number. destruct (sign s) as [sg s1] eqn:E1. destruct (span is_digit s1) as [ip s2] eqn:E2.
  destruct (sign_spec _ _ _ E1) as (-> & SG & _). destruct (span_spec _ _ _ _ E2) as (-> & D & _).
  assert (CASE : forall s2', s2' = s2 -> stops (Ascii.eqb ".") s2' ->
    match ip with [] => None | _ => let (ex, s5) := exponent s2' in Some (sg ++ ip ++ ex, s5) end = Some (n, r) ->
    sg ++ ip ++ s2' = n ++ r /\ exists sg, literal sg n).
  { intros s2' E _ H. destruct ip as [|i ip]; [discriminate|]. destruct (exponent s2') as [ex s5] eqn:E3.
    injection H as <- <-. destruct (exponent_spec _ _ _ E3) as (-> & EX). split; [now apps|].
    exists sg. split; [exact SG|]. exists (i :: ip), ex. repeat split; auto.
    exists (i :: ip). split; [now apply digits_digit|]. left. split; [discriminate|reflexivity]. }
  destruct s2 as [|c s2]; [now apply CASE|].
  destruct (Ascii.eqb_spec "." c) as [<-|N].
  - destruct (span is_digit s2) as [fp s4] eqn:E4. destruct (span_spec _ _ _ _ E4) as (-> & D2 & _).
    destruct (ip ++ fp) as [|z zs] eqn:Z; [discriminate|].
    destruct (exponent s4) as [ex s5] eqn:E5. intros [= <- <-]. destruct (exponent_spec _ _ _ E5) as (-> & EX).
    split; [now apps|].
    exists sg. split; [exact SG|]. exists (ip ++ "."%char :: fp), ex. repeat split; auto.
    + exists ip. split; [now apply digits_digit|]. right. exists fp. split; [now apply digits_digit|]. rewrite Z. split; [discriminate|reflexivity].
    + now rewrite <- app_assoc.
  - intros H. apply (CASE (c :: s2)); [reflexivity|now apply Ascii.eqb_neq|].
    revert H. destruct c as [[] [] [] [] [] [] [] []]; try (intros H; exact H). contradiction N. reflexivity.
Qed.

Lemma number_app sg n r : literal sg n -> stops number_end r -> number (n ++ r) = Some (n, r).
Proof.
  intros (SG & m & x & (i & D & M) & X & ->) S. unfold number.
  assert (ST : sg = [] -> stops is_sign ((m ++ x) ++ r)).
  { intros _. destruct M as [(N & ->)|(f & F & N & ->)].
    - destruct i as [|c i]; [contradiction|]. cbn. apply digit_not_sign. apply digits_digit in D. exact (Forall_inv D).
    - destruct i as [|c i]; [reflexivity|]. cbn. apply digit_not_sign. apply digits_digit in D. exact (Forall_inv D). }
  rewrite <- app_assoc. rewrite (sign_app sg _ SG ST). rewrite <- app_assoc.
  destruct M as [(N & ->)|(f & F & N & ->)].
  - rewrite span_app; [|now apply digits_digit|now apply exponent_no_digit].
    pose proof (exponent_no_dot x r X S) as ND. pose proof (exponent_app x r X S) as EX.
    destruct i as [|c i]; [contradiction|].
    destruct (x ++ r) as [|e y] eqn:Y; [rewrite EX; reflexivity|].
    cbn in ND. destruct e as [[] [] [] [] [] [] [] []]; try (rewrite EX; reflexivity). discriminate ND.
  - rewrite <- app_assoc. cbn [app]. rewrite span_app; [|now apply digits_digit|reflexivity].
    rewrite span_app; [|now apply digits_digit|now apply exponent_no_digit].
    destruct (i ++ f) as [|z zs] eqn:Z; [contradiction|].
    rewrite exponent_app by assumption. do 2 f_equal. now rewrite <- app_assoc.
Qed.

(** The text of a terminal, and what the lexer accepts where *)
Definition ttext (t : token) : text :=
  match t with
  | TNum s | TName s | TBuiltin s | TFunc s => chars s
  | TSum => chars "sum"
  | TOp Formula.Add => chars "+" | TOp Sub => chars "-" | TOp Mul => chars "*" | TOp Div => chars "/" | TOp Pow => chars "**"
  | TLPar => chars "(" | TRPar => chars ")" | TLBr => chars "[" | TRBr => chars "]"
  end.
Definition fits (i : bool) (m : mode) (t : token) : Prop :=
  match m, t with
  | Operand, TNum s => exists sg, literal sg (chars s)
  | Operand, TName s => identifier s /\ free i s
  | Operand, TBuiltin s => In s builtin_words
  | Operand, TFunc s => In s func_words
  | Operand, TSum => i = false
  | Operand, TLPar => True
  | Operator, (TOp _ | TRPar | TRBr) => True
  | AfterFunc, TLPar => True
  | AfterSum, TLBr => True
  | _, _ => False
  end.
Inductive spells : bool -> mode -> list token -> text -> Prop :=
| sp_nil i m b : blanks b -> spells i m [] b
| sp_cons i m b t ts s : blanks b -> fits i m t -> spells (next_inner i t) (next_mode t) ts s ->
    spells i m (t :: ts) (b ++ ttext t ++ s).

Lemma blank_stops b s p : (forall c, is_blank c = true -> p c = false) -> blanks b -> stops p s -> stops p (b ++ s).
Proof.
  intros P B S. destruct b as [|c b]; [exact S|]. cbn. apply P. apply is_blank_spec. exact (Forall_inv B).
Qed.
Lemma spells_stops i ts s p : (forall c, is_blank c = true -> p c = false) ->
  (forall c, In c (chars "+-*/)]") -> p c = false) -> spells i Operator ts s -> stops p s.
Proof.
  intros PB PO H. inversion H as [? ? b B|? ? b t us u B F SP]; subst.
  - rewrite <- (app_nil_r s). apply blank_stops; auto. exact I.
  - apply blank_stops; auto. destruct t as [| | | | |o| | | |]; try destruct F; cbn; try (apply PO; cbn; tauto).
    destruct o; cbn; apply PO; cbn; tauto.
Qed.
Lemma spells_stops_name i ts s : spells i Operator ts s -> stops is_name_char s.
Proof.
  apply spells_stops.
  - intros c H. apply is_blank_spec in H. destruct H as [->| ->]; reflexivity.
  - intros c H. cbn in H. repeat destruct H as [<-|H]; try reflexivity. destruct H.
Qed.
Lemma spells_stops_number i ts s : spells i Operator ts s -> stops number_end s.
Proof.
  apply spells_stops.
  - intros c H. apply is_blank_spec in H. destruct H as [->| ->]; reflexivity.
  - intros c H. cbn in H. repeat destruct H as [<-|H]; try reflexivity. destruct H.
Qed.

Lemma in_func w : In w func_words -> In w (func_words ++ builtin_words).
Proof. intros H. apply in_or_app. now left. Qed.
Lemma in_builtin w : In w builtin_words -> In w (func_words ++ builtin_words).
Proof. intros H. apply in_or_app. now right. Qed.

Lemma reserved_spec w : In w reserved <-> In w (func_words ++ builtin_words).
Proof. cbn. tauto. Qed.
Lemma starts_strip w n : starts w n <-> strip (chars w) (chars n) <> None.
Proof.
  split.
  - intros (r & ->). rewrite chars_app, strip_app. discriminate.
  - intros H. destruct (strip (chars w) (chars n)) as [r|] eqn:E; [|contradiction]. apply strip_spec in E.
    exists (word r). rewrite <- (word_chars n), E. rewrite <- (word_chars (w ++ word r)%string), chars_app, chars_word. reflexivity.
Qed.
Lemma free_words i n : free i n -> first_word func_words (chars n) = None /\ first_word builtin_words (chars n) = None.
Proof.
  intros (H & _). split; apply first_word_none; intros w W.
  - destruct (strip (chars w) (chars n)) eqn:E; [|reflexivity]. exfalso. apply (H w); [now apply reserved_spec, in_func|].
    apply starts_strip. congruence.
  - destruct (strip (chars w) (chars n)) eqn:E; [|reflexivity]. exfalso. apply (H w); [now apply reserved_spec, in_builtin|].
    apply starts_strip. congruence.
Qed.

(** Numbers begin with none of the words *)
Lemma literal_head sg n : literal sg n -> exists c s, n = c :: s /\ (is_sign c = true \/ is_digit c = true \/ c = "."%char).
Proof.
  intros (SG & m & x & (i & D & M) & X & ->). apply digits_digit in D.
  destruct SG as [->|[->| ->]].
  - destruct M as [(N & ->)|(f & F & N & ->)].
    + destruct i as [|c i]; [contradiction|]. exists c, (i ++ x). split; [reflexivity|]. right; left. exact (Forall_inv D).
    + destruct i as [|c i]; [exists "."%char, (f ++ x); auto|]. exists c, ((i ++ "."%char :: f) ++ x). split; [reflexivity|].
      right; left. exact (Forall_inv D).
  - exists "+"%char, (m ++ x). auto.
  - exists "-"%char, (m ++ x). auto.
Qed.
Lemma literal_func sg n r : literal sg n -> first_word func_words (n ++ r) = None.
Proof.
  intros L. destruct (literal_head _ _ L) as (c & s & -> & H).
  apply first_word_none. intros w W. cbn in W.
  destruct H as [H|[H|H]]; [apply is_sign_spec in H; destruct H as [->| ->]|apply is_digit_spec in H; cbn in H|subst c];
    repeat (destruct W as [<-|W]; [try reflexivity; repeat (destruct H as [<-|H]; [reflexivity|]); destruct H|]); destruct W.
Qed.
(** 1j is not the beginning of a number: no literal contains a j *)
Lemma literal_no_j sg n : literal sg n -> ~ In "j"%char n.
Proof.
  assert (DJ : forall d, digits d -> ~ In "j"%char d).
  { intros d D I. unfold digits in D. rewrite Forall_forall in D. specialize (D _ I). cbn in D.
    repeat destruct D as [D|D]; try discriminate D. destruct D. }
  assert (SJ : forall s, sign_text s -> ~ In "j"%char s).
  { intros s [->|[->| ->]]; cbn; intros K; repeat destruct K as [K|K]; try discriminate K; assumption. }
  intros (SG & m & x & (i & D & M) & X & ->) I. rewrite !in_app_iff in I. destruct I as [I|[I|I]].
  - exact (SJ _ SG I).
  - destruct M as [(N & ->)|(f & F & N & ->)]; [exact (DJ _ D I)|].
    rewrite in_app_iff in I. destruct I as [I|[I|I]]; [exact (DJ _ D I)|discriminate I|exact (DJ _ F I)].
  - destruct X as [->|(c & s & d & C & S & DD & _ & ->)]; [destruct I|].
    destruct I as [I|I]; [destruct C; subst c; discriminate I|]. rewrite in_app_iff in I. destruct I as [I|I]; [exact (SJ _ S I)|exact (DJ _ DD I)].
Qed.
Lemma literal_builtin sg n r : literal sg n -> stops is_name_char r -> first_word builtin_words (n ++ r) = None.
Proof.
  intros L S. rewrite first_word_delim; [|intros w W; now apply words_name_chars, in_builtin|exact S].
  destruct (first_word builtin_words n) as [[w y]|] eqn:E; [|reflexivity]. exfalso.
  apply first_word_spec in E. destruct E as (W & E).
  pose proof (literal_no_j _ _ L) as NJ. destruct (literal_head _ _ L) as (c & s & EC & H).
  cbn in W. repeat destruct W as [<-|W]; try destruct W; cbn in E; rewrite E in EC; injection EC as <- _;
    try (destruct H as [H|[H|H]]; discriminate H).
  apply NJ. rewrite E. cbn. tauto.
Qed.

Lemma identifier_head n : identifier n -> exists c s, chars n = c :: s /\ is_letter c = true /\ Forall (fun c => is_name_char c = true) (c :: s).
Proof.
  intros (c & s & E & L & F). exists c, s. split; [exact E|]. apply is_letter_spec in L. split; [exact L|]. constructor.
  - unfold is_name_char. now rewrite L.
  - eapply Forall_impl; [|exact F]. intros d. apply is_name_char_spec.
Qed.

Lemma lex_token_ok i m t ts s : fits i m t -> spells (next_inner i t) (next_mode t) ts s ->
  lex_token i m (ttext t ++ s) = Some (t, s).
Proof.
  intros F SP. destruct m.
  - destruct t as [n|n|n|n| |o| | | |]; cbn in F; try (destruct F; fail).
    + (* number *)
      cbn [next_inner next_mode] in SP. destruct F as (sg & L). cbn [lex_token ttext]. unfold lex_operand.
      rewrite (literal_func _ _ _ L), (literal_builtin _ _ _ L (spells_stops_name _ _ _ SP)).
      destruct (literal_head _ _ L) as (c & u & E & H).
      rewrite (number_app _ _ _ L (spells_stops_number _ _ _ SP)), E. cbn [app].
      assert (NL : is_letter c = false).
      { destruct H as [H|[H|H]]; [apply is_sign_spec in H; destruct H as [->| ->]|apply is_digit_spec in H; cbn in H|subst c]; try reflexivity.
        repeat (destruct H as [<-|H]; [reflexivity|]). destruct H. }
      assert (NP : (c =? "(")%char = false).
      { destruct H as [H|[H|H]]; [apply is_sign_spec in H; destruct H as [->| ->]|apply is_digit_spec in H; cbn in H|subst c]; try reflexivity.
        repeat (destruct H as [<-|H]; [reflexivity|]). destruct H. }
      rewrite NL, NP. change (c :: u ++ s) with ((c :: u) ++ s). rewrite <- E. now rewrite word_chars.
    + (* name *)
      cbn [next_inner next_mode] in SP. destruct F as (ID & FR). cbn [lex_token ttext]. unfold lex_operand.
      pose proof (spells_stops_name _ _ _ SP) as ST.
      destruct (free_words _ _ FR) as [E1 E2].
      rewrite first_word_delim; [|intros w W; now apply words_name_chars, in_func|exact ST]. rewrite E1.
      rewrite first_word_delim; [|intros w W; now apply words_name_chars, in_builtin|exact ST]. rewrite E2.
      destruct (identifier_head _ ID) as (c & u & E & L & A).
      rewrite E. cbn [app]. rewrite L. change (c :: u ++ s) with ((c :: u) ++ s).
      rewrite span_app; [|exact A|exact ST]. rewrite <- E, word_chars.
      destruct (String.eqb_spec n "sum") as [->|]; [|now rewrite andb_false_r].
      destruct i; [reflexivity|]. exfalso. apply (proj2 FR); reflexivity.
    + (* constant *)
      cbn [next_inner next_mode] in SP. cbn [lex_token ttext]. unfold lex_operand.
      pose proof (spells_stops_name _ _ _ SP) as ST.
      rewrite first_word_delim; [|intros w W; now apply words_name_chars, in_func|exact ST].
      rewrite first_word_delim; [|intros w W; now apply words_name_chars, in_builtin|exact ST].
      cbn in F. repeat destruct F as [<-|F]; try reflexivity. destruct F.
    + (* function *)
      cbn [next_inner next_mode] in SP. cbn [lex_token ttext]. unfold lex_operand.
      cbn [In func_words] in F. repeat destruct F as [<-|F]; try reflexivity. destruct F.
    + (* sum *)
      cbn [next_inner next_mode] in SP. subst i.
      assert (ST : stops is_name_char s).
      { inversion SP as [? ? b B|? ? b t us u B FT SP2]; subst.
        - rewrite <- (app_nil_r s). apply blank_stops; [|exact B|exact I].
          intros c H. apply is_blank_spec in H. destruct H as [->| ->]; reflexivity.
        - apply blank_stops; [|exact B|].
          + intros c H. apply is_blank_spec in H. destruct H as [->| ->]; reflexivity.
          + destruct t; try destruct FT. reflexivity. }
      cbn [lex_token ttext]. unfold lex_operand.
      rewrite first_word_delim; [|intros w W; now apply words_name_chars, in_func|exact ST].
      rewrite first_word_delim; [|intros w W; now apply words_name_chars, in_builtin|exact ST].
      change (first_word func_words (chars "sum")) with (@None (string * text)).
      change (first_word builtin_words (chars "sum")) with (@None (string * text)). cbn iota.
      change (chars "sum" ++ s) with ("s"%char :: ("u"%char :: "m"%char :: s)). cbn iota.
      change (is_letter "s") with true. cbn iota.
      change ("s"%char :: "u"%char :: "m"%char :: s) with (chars "sum" ++ s).
      rewrite span_app; [reflexivity| |exact ST]. now repeat constructor.
    + reflexivity.
  - destruct t as [| | | | |o| | | |]; cbn in F; try destruct F; try reflexivity.
    destruct o; try reflexivity. cbn [next_inner next_mode] in SP. cbn [ttext lex_token].
    (* "*" must not be followed by another one *)
    assert (ST : stops (Ascii.eqb "*") s).
    { inversion SP as [? ? b B|? ? b t us u B FT SP2]; subst.
      - rewrite <- (app_nil_r s). apply blank_stops; [|exact B|exact I].
        intros c H. apply is_blank_spec in H. destruct H as [->| ->]; reflexivity.
      - apply blank_stops; [|exact B|].
        + intros c H. apply is_blank_spec in H. destruct H as [->| ->]; reflexivity.
        + destruct t as [n|n|n|n| |o| | | |]; cbn [fits] in FT; try (destruct FT; fail); cbn [ttext].
          * destruct FT as (sg & L). destruct (literal_head _ _ L) as (c & v & -> & H). cbn.
            destruct H as [H|[H|H]]; [apply is_sign_spec in H; destruct H as [->| ->]|apply is_digit_spec in H; cbn in H|subst c]; try reflexivity.
            repeat (destruct H as [<-|H]; [reflexivity|]). destruct H.
          * destruct FT as (ID & _). destruct (identifier_head _ ID) as (c & v & -> & L & _). cbn [app stops].
            destruct (Ascii.eqb_spec "*" c) as [<-|]; [discriminate L|reflexivity].
          * cbn [In builtin_words] in FT. repeat destruct FT as [<-|FT]; try reflexivity. destruct FT.
          * cbn [In func_words] in FT. repeat destruct FT as [<-|FT]; try reflexivity. destruct FT.
          * reflexivity.
          * reflexivity. }
    cbn [chars list_ascii_of_string app lex_operator]. destruct s as [|c s]; [reflexivity|].
    cbn in ST. destruct c as [[] [] [] [] [] [] [] []]; try reflexivity. discriminate ST.
  - destruct t as [| | | | |o| | | |]; cbn in F; try destruct F. reflexivity.
  - destruct t as [| | | | |o| | | |]; cbn in F; try destruct F. reflexivity.
Qed.

Lemma free_from_words i n : first_word func_words (chars n) = None -> first_word builtin_words (chars n) = None ->
  (i = false -> n <> "sum"%string) -> free i n.
Proof.
  intros A B C. split; [|exact C]. intros w W ST. apply starts_strip in ST. apply ST.
  apply reserved_spec, in_app_or in W. destruct W as [W|W].
  - rewrite first_word_none in A. now apply A.
  - rewrite first_word_none in B. now apply B.
Qed.

Lemma lex_token_spec i m s t r : lex_token i m s = Some (t, r) -> s = ttext t ++ r /\ fits i m t.
Proof.
  destruct m; cbn [lex_token].
  - unfold lex_operand.
    destruct (first_word func_words s) as [[w r1]|] eqn:E1.
    { intros [= <- <-]. apply first_word_spec in E1. destruct E1 as [W ->]. now split. }
    destruct (first_word builtin_words s) as [[w r1]|] eqn:E2.
    { intros [= <- <-]. apply first_word_spec in E2. destruct E2 as [W ->]. now split. }
    destruct s as [|c s]; [discriminate|].
    destruct (is_letter c) eqn:L.
    { destruct (span is_name_char (c :: s)) as [n r1] eqn:SP.
      destruct (span_spec _ _ _ _ SP) as (E & A & ST).
      assert (N : exists n', n = c :: n').
      { destruct n as [|d n']; [|injection E as <- _; now exists n'].
        cbn in E. rewrite <- E in ST. cbn in ST. unfold is_name_char in ST. rewrite L in ST. discriminate ST. }
      destruct N as (n' & ->).
      assert (ID : identifier (word (c :: n'))).
      { exists c, n'. rewrite chars_word. repeat split; [now apply is_letter_spec|].
        eapply Forall_impl; [|exact (Forall_inv_tail A)]. intros d. apply is_name_char_spec. }
      assert (FR : forall b, (b = false -> word (c :: n') <> "sum"%string) -> free b (word (c :: n'))).
      { intros b B. rewrite E in E1, E2. apply free_from_words; [| |exact B]; rewrite chars_word.
        - rewrite first_word_delim in E1; [|intros w W; now apply words_name_chars, in_func|exact ST].
          destruct (first_word func_words (c :: n')) as [[? ?]|]; [discriminate|reflexivity].
        - rewrite first_word_delim in E2; [|intros w W; now apply words_name_chars, in_builtin|exact ST].
          destruct (first_word builtin_words (c :: n')) as [[? ?]|]; [discriminate|reflexivity]. }
      destruct (String.eqb_spec (word (c :: n')) "sum") as [W|W]; [destruct i|]; cbn [negb andb].
      - intros H. assert (HT : t = TName (word (c :: n')) /\ r = r1) by (split; congruence). destruct HT as [-> ->].
        cbn [ttext fits]. rewrite chars_word.
        split; [exact E|]. split; [exact ID|]. apply FR. discriminate.
      - intros [= <- <-]. cbn [ttext fits]. rewrite <- W, chars_word. now split.
      - rewrite andb_false_r. intros H. assert (HT : t = TName (word (c :: n')) /\ r = r1) by (split; congruence). destruct HT as [-> ->].
        cbn [ttext fits]. rewrite chars_word.
        split; [exact E|]. split; [exact ID|]. apply FR. intros _. exact W. }
    destruct (Ascii.eqb_spec c "(") as [->|NP]; [intros [= <- <-]; now split|].
    destruct (number (c :: s)) as [[nn r1]|] eqn:NU; [|discriminate]. intros H.
    assert (HT : t = TNum (word nn) /\ r = r1) by (split; congruence). destruct HT as [-> ->].
    destruct (number_spec _ _ _ NU) as (E & LI). cbn [ttext fits]. rewrite chars_word. now split.
  - unfold lex_operator. destruct s as [|c s]; [discriminate|].
    destruct (Ascii.eqb_spec c "*") as [->|N].
    + destruct s as [|d s]; [intros [= <- <-]; now split|].
      destruct (Ascii.eqb_spec d "*") as [->|N2]; [intros [= <- <-]; now split|].
      intros H. assert (H2 : Some (TOp Mul, d :: s) = Some (t, r)).
      { revert H. destruct d as [[] [] [] [] [] [] [] []]; try (intros H; exact H). contradiction N2. reflexivity. }
      injection H2 as <- <-. now split.
    + destruct c as [[] [] [] [] [] [] [] []]; try discriminate; try (intros [= <- <-]; now split).
      contradiction N. reflexivity.
  - destruct s as [|c s]; [discriminate|]. destruct c as [[] [] [] [] [] [] [] []]; try discriminate. intros [= <- <-]; now split.
  - destruct s as [|c s]; [discriminate|]. destruct c as [[] [] [] [] [] [] [] []]; try discriminate. intros [= <- <-]; now split.
Qed.

Lemma fits_nonempty i m t : fits i m t -> exists c s, ttext t = c :: s /\ is_blank c = false.
Proof.
  destruct t as [n|n|n|n| |o| | | |]; cbn [fits ttext]; destruct m; try (intros []; fail); intros F;
    try (eexists _, _; split; [reflexivity|reflexivity]).
  - destruct F as (sg & L). destruct (literal_head _ _ L) as (c & s & -> & H). exists c, s. split; [reflexivity|].
    destruct H as [H|[H|H]]; [apply is_sign_spec in H; destruct H as [->| ->]|apply is_digit_spec in H; cbn in H|subst c]; try reflexivity.
    repeat (destruct H as [<-|H]; [reflexivity|]). destruct H.
  - destruct F as (ID & _). destruct (identifier_head _ ID) as (c & s & -> & L & _). exists c, s. split; [reflexivity|].
    destruct (is_blank c) eqn:B; [|reflexivity]. apply is_blank_spec in B. destruct B as [->| ->]; discriminate L.
  - cbn [In builtin_words] in F. repeat destruct F as [<-|F]; try (eexists _, _; split; reflexivity). destruct F.
  - cbn [In func_words] in F. repeat destruct F as [<-|F]; try (eexists _, _; split; reflexivity). destruct F.
  - destruct o; eexists _, _; split; reflexivity.
Qed.

Lemma lex_unfold n i m s : lex n i m s =
  match skip s with
  | [] => Some []
  | c :: s' =>
      match n with
      | O => None
      | Datatypes.S n' =>
          match lex_token i m (c :: s') with
          | Some (t, r) => option_map (cons t) (lex n' (next_inner i t) (next_mode t) r)
          | None => None
          end
      end
  end.
Proof. destruct n; cbn [lex]; destruct (skip s); reflexivity. Qed.

Lemma spells_lex i m ts s : spells i m ts s -> forall n, length s <= n -> lex n i m s = Some ts.
Proof.
  induction 1 as [i m b B|i m b t ts s B F SP IH]; intros n LE; rewrite lex_unfold.
  - rewrite <- (app_nil_r b), skip_blanks by exact B. reflexivity.
  - rewrite skip_blanks by exact B. destruct (fits_nonempty _ _ _ F) as (c & u & E & NB).
    pose proof (lex_token_ok _ _ _ _ _ F SP) as LT.
    assert (SK : skip (ttext t ++ s) = c :: u ++ s) by (rewrite E; cbn; now rewrite NB).
    rewrite SK. rewrite E in LT. cbn [app] in LT. rewrite LT.
    rewrite !app_length, E in LE. cbn in LE.
    destruct n as [|n]; [lia|]. rewrite IH by lia. reflexivity.
Qed.

Lemma lex_spells n : forall i m s ts, lex n i m s = Some ts -> spells i m ts s.
Proof.
  induction n as [|n IH]; intros i m s ts; rewrite lex_unfold; destruct (skip_split s) as (b & B & E);
    destruct (skip s) as [|c s'] eqn:SK.
  - intros [= <-]. rewrite E, app_nil_r. now constructor.
  - discriminate.
  - intros [= <-]. rewrite E, app_nil_r. now constructor.
  - destruct (lex_token i m (c :: s')) as [[t r]|] eqn:LT; [|discriminate].
    destruct (lex n (next_inner i t) (next_mode t) r) as [us|] eqn:L; [|discriminate]. cbn. intros [= <-].
    destruct (lex_token_spec _ _ _ _ _ LT) as (E2 & F). rewrite E, E2. constructor; auto.
Qed.

(** ** Texts and lists of terminals *)
Lemma spells_blanks i m ts s b : blanks b -> spells i m ts s -> spells i m ts (b ++ s).
Proof.
  intros B H. inversion H; subst.
  - constructor. now apply Forall_app.
  - rewrite app_assoc. constructor; auto. now apply Forall_app.
Qed.
Lemma blanks_nil : blanks [].
Proof. constructor. Qed.
Local Hint Resolve blanks_nil : core.

Lemma usual_gram i p t s : usual false true free i p t s ->
  exists ts, gram i p t ts /\ forall us u, spells i Operator us u -> spells i Operand (ts ++ us) (s ++ u).
Proof.
  induction 1 as [i n L|i n c L|i n Hi ID FR|i n Hi ID FR|i b W|i f b t s W B _ (ts & G & IH)
                 |i b t s Hi B _ (ts & G & IH)|i t s _ (ts & G & IH)
                 |i a s b t _ (ts & GA & IHa) _ (us & GB & IHb)|i a s b t _ (ts & GA & IHa) _ (us & GB & IHb)
                 |i a s b t _ (ts & GA & IHa) _ (us & GB & IHb)|i a s b t _ (ts & GA & IHa) _ (us & GB & IHb)
                 |i a s b t _ (ts & GA & IHa) _ (us & GB & IHb)
                 |i p t s _ (ts & G & IH)|i p b t s c B C _ (ts & G & IH)].
  - exists [TNum n]. split; [apply g_num|]. intros us u SP. apply (sp_cons i Operand [] (TNum n)); auto. now exists [].
  - exists [TNum n]. split; [apply g_num|]. intros us u SP. apply (sp_cons i Operand [] (TNum n)); auto. now exists [c].
  - exists [TName n]. split; [now apply g_name|]. intros us u SP. subst i. apply (sp_cons false Operand [] (TName n)); auto. now split.
  - exists [TName n]. split; [now apply g_inner|]. intros us u SP. subst i. apply (sp_cons true Operand [] (TName n)); auto. now split.
  - exists [TBuiltin b]. split; [apply g_builtin|]. intros us u SP. apply (sp_cons i Operand [] (TBuiltin b)); auto.
    cbn in *. tauto.
  - exists (TFunc f :: TLPar :: ts ++ [TRPar]). split; [now apply g_func|]. intros us u SP.
    rewrite <- !app_assoc. cbn [app]. rewrite <- app_assoc.
    apply (sp_cons i Operand [] (TFunc f)); auto; [cbn in *; tauto|].
    apply (sp_cons i AfterFunc b TLPar); [exact B|exact I|]. apply IH. now apply (sp_cons i Operator [] TRPar).
  - exists (TSum :: TLBr :: ts ++ [TRBr]). split; [now apply g_sum|]. intros us u SP. subst i.
    cbn [chars list_ascii_of_string app]. rewrite <- !app_assoc. cbn [app]. rewrite <- !app_assoc.
    apply (sp_cons false Operand [] TSum); auto; [reflexivity|].
    apply (sp_cons false AfterSum b TLBr); [exact B|exact I|]. apply IH. now apply (sp_cons true Operator [] TRBr).
  - exists (TLPar :: ts ++ [TRPar]). split; [now apply g_paren|]. intros us u SP.
    cbn [chars list_ascii_of_string app]. rewrite <- !app_assoc. cbn [app].
    apply (sp_cons i Operand [] TLPar); auto; [exact I|]. apply IH. now apply (sp_cons i Operator [] TRPar).
  - exists (ts ++ TOp Pow :: us). split; [now apply g_pow|]. intros vs v SP. rewrite <- !app_assoc. cbn [app].
    apply IHa. apply (sp_cons i Operator [] (TOp Pow)); [auto|exact I|now apply IHb].
  - exists (ts ++ TOp Mul :: us). split; [apply g_term; auto|]. intros vs v SP. rewrite <- !app_assoc. cbn [app].
    apply IHa. apply (sp_cons i Operator [] (TOp Mul)); [auto|exact I|now apply IHb].
  - exists (ts ++ TOp Div :: us). split; [apply g_term; auto|]. intros vs v SP. rewrite <- !app_assoc. cbn [app].
    apply IHa. apply (sp_cons i Operator [] (TOp Div)); [auto|exact I|now apply IHb].
  - exists (ts ++ TOp Formula.Add :: us). split; [apply g_expr; auto|]. intros vs v SP. rewrite <- !app_assoc. cbn [app].
    apply IHa. apply (sp_cons i Operator [] (TOp Formula.Add)); [auto|exact I|now apply IHb].
  - exists (ts ++ TOp Sub :: us). split; [apply g_expr; auto|]. intros vs v SP. rewrite <- !app_assoc. cbn [app].
    apply IHa. apply (sp_cons i Operator [] (TOp Sub)); [auto|exact I|now apply IHb].
  - exists ts. split; [now apply g_level|exact IH].
  - exists ts. split; [exact G|]. intros us u SP. rewrite <- !app_assoc. apply spells_blanks; [exact B|].
    apply IH. now apply spells_blanks.
Qed.

Local Notation us_text := (usual false true free).

Lemma u_lead i p t b s : blanks b -> us_text i p t s -> us_text i p t (b ++ s).
Proof. intros B H. rewrite <- (app_nil_r s). apply u_blanks; auto. Qed.
Lemma u_trail i p t b s : blanks b -> us_text i p t s -> us_text i p t (s ++ b).
Proof. intros B H. exact (u_blanks _ _ _ _ _ [] _ _ _ blanks_nil B H). Qed.

Lemma spells_cons_inv i m t us s : spells i m (t :: us) s ->
  exists b u, s = b ++ ttext t ++ u /\ blanks b /\ fits i m t /\ spells (next_inner i t) (next_mode t) us u.
Proof. intros H. inversion H; subst. eexists _, _. repeat split; eauto. Qed.

Lemma gram_usual i p t ts : gram i p t ts -> forall us s, spells i Operand (ts ++ us) s ->
  exists s1 u, s = s1 ++ u /\ us_text i p t s1 /\ spells i Operator us u.
Proof.
  induction 1 as [i n|i n Hi|i n Hi|i b|i f t ts G IH|i t ts Hi G IH|i t ts G IH|i a b ts us GA IHa GB IHb
                 |i o a b ts us Ho GA IHa GB IHb|i o a b ts us Ho GA IHa GB IHb|i p t ts G IH]; intros vs s SP.
  - apply spells_cons_inv in SP. destruct SP as (b & u & -> & B & (sg & L) & SP).
    exists (b ++ chars n), u. rewrite <- app_assoc. split; [reflexivity|]. split; [|exact SP].
    apply u_lead; [exact B|]. pose proof L as (SG & _). destruct SG as [->|[->| ->]].
    + now apply u_number.
    + apply (u_signed false true free i n "+"%char). exact L.
    + apply (u_signed false true free i n "-"%char). exact L.
  - apply spells_cons_inv in SP. destruct SP as (b & u & -> & B & (ID & FR) & SP). subst i.
    exists (b ++ chars n), u. rewrite <- app_assoc. split; [reflexivity|]. split; [|exact SP].
    apply u_lead; [exact B|]. now apply u_name.
  - apply spells_cons_inv in SP. destruct SP as (b & u & -> & B & (ID & FR) & SP). subst i.
    exists (b ++ chars n), u. rewrite <- app_assoc. split; [reflexivity|]. split; [|exact SP].
    apply u_lead; [exact B|]. now apply u_inner_name.
  - apply spells_cons_inv in SP. destruct SP as (bl & u & -> & B & W & SP).
    exists (bl ++ chars b), u. rewrite <- app_assoc. split; [reflexivity|]. split; [|exact SP].
    apply u_lead; [exact B|]. apply u_builtin. cbn in *. tauto.
  - cbn [app] in SP. apply spells_cons_inv in SP. destruct SP as (b & u & -> & B & W & SP). cbn [next_inner next_mode] in SP.
    apply spells_cons_inv in SP. destruct SP as (b2 & u2 & -> & B2 & _ & SP). cbn [next_inner next_mode] in SP.
    rewrite <- app_assoc in SP. apply IH in SP. destruct SP as (s1 & u3 & -> & U & SP). cbn [app] in SP.
    apply spells_cons_inv in SP. destruct SP as (b3 & u4 & -> & B3 & _ & SP). cbn [next_inner next_mode] in SP.
    exists (b ++ chars f ++ b2 ++ chars "(" ++ (s1 ++ b3) ++ chars ")"), u4.
    split; [cbn [ttext]; now rewrite <- !app_assoc|]. split; [|exact SP].
    apply u_lead; [exact B|]. apply u_func; auto; [cbn in *; tauto|]. now apply u_trail.
  - cbn [app] in SP. subst i. apply spells_cons_inv in SP. destruct SP as (b & u & -> & B & W & SP). cbn [next_inner next_mode] in SP.
    apply spells_cons_inv in SP. destruct SP as (b2 & u2 & -> & B2 & _ & SP). cbn [next_inner next_mode] in SP.
    rewrite <- app_assoc in SP. apply IH in SP. destruct SP as (s1 & u3 & -> & U & SP). cbn [app] in SP.
    apply spells_cons_inv in SP. destruct SP as (b3 & u4 & -> & B3 & _ & SP). cbn [next_inner next_mode] in SP.
    exists (b ++ chars "sum" ++ b2 ++ chars "[" ++ (s1 ++ b3) ++ chars "]"), u4.
    split; [cbn [ttext]; now rewrite <- !app_assoc|]. split; [|exact SP].
    apply u_lead; [exact B|]. apply u_sum; auto. now apply u_trail.
  - cbn [app] in SP. apply spells_cons_inv in SP. destruct SP as (b & u & -> & B & W & SP). cbn [next_inner next_mode] in SP.
    rewrite <- app_assoc in SP. apply IH in SP. destruct SP as (s1 & u3 & -> & U & SP). cbn [app] in SP.
    apply spells_cons_inv in SP. destruct SP as (b3 & u4 & -> & B3 & _ & SP). cbn [next_inner next_mode] in SP.
    exists (b ++ chars "(" ++ (s1 ++ b3) ++ chars ")"), u4.
    split; [cbn [ttext]; now rewrite <- !app_assoc|]. split; [|exact SP].
    apply u_lead; [exact B|]. apply u_paren. now apply u_trail.
  - rewrite <- app_assoc in SP. apply IHa in SP. destruct SP as (s1 & u1 & -> & U1 & SP). cbn [app] in SP.
    apply spells_cons_inv in SP. destruct SP as (b1 & u2 & -> & B & _ & SP). cbn [next_inner next_mode] in SP.
    apply IHb in SP. destruct SP as (s2 & u3 & -> & U2 & SP).
    exists ((s1 ++ b1) ++ chars "**" ++ s2), u3. split; [cbn [ttext]; now rewrite <- !app_assoc|]. split; [|exact SP].
    apply u_pow; [now apply u_trail|exact U2].
  - rewrite <- app_assoc in SP. apply IHa in SP. destruct SP as (s1 & u1 & -> & U1 & SP). cbn [app] in SP.
    apply spells_cons_inv in SP. destruct SP as (b1 & u2 & -> & B & _ & SP). cbn [next_inner next_mode] in SP.
    apply IHb in SP. destruct SP as (s2 & u3 & -> & U2 & SP).
    exists ((s1 ++ b1) ++ ttext (TOp o) ++ s2), u3. split; [now rewrite <- !app_assoc|]. split; [|exact SP].
    destruct Ho as [->| ->]; [apply u_mul|apply u_div]; try exact U2; now apply u_trail.
  - rewrite <- app_assoc in SP. apply IHa in SP. destruct SP as (s1 & u1 & -> & U1 & SP). cbn [app] in SP.
    apply spells_cons_inv in SP. destruct SP as (b1 & u2 & -> & B & _ & SP). cbn [next_inner next_mode] in SP.
    apply IHb in SP. destruct SP as (s2 & u3 & -> & U2 & SP).
    exists ((s1 ++ b1) ++ ttext (TOp o) ++ s2), u3. split; [now rewrite <- !app_assoc|]. split; [|exact SP].
    destruct Ho as [->| ->]; [apply u_add|apply u_sub]; try exact U2; now apply u_trail.
  - destruct (IH _ _ SP) as (s1 & u & E & U & SP2). exists s1, u. repeat split; auto. now apply u_level.
Qed.

(** ** Trees and expressions *)
Lemma to_rexpr_of e : to_rexpr (tree_of_r e) = Some e.
Proof. induction e as [| | |f e IH|o a IHa b IHb]; cbn; try reflexivity; [now rewrite IH|now rewrite IHa, IHb]. Qed.
Lemma to_expr_of e : to_expr (tree_of e) = Some e.
Proof.
  induction e as [| | |f e IH|o a IHa b IHb|r]; cbn; try reflexivity; [now rewrite IH|now rewrite IHa, IHb|].
  now rewrite to_rexpr_of.
Qed.
Lemma to_rexpr_inv t : forall e, to_rexpr t = Some e -> t = tree_of_r e.
Proof.
  induction t as [s|s|s|s|f t IH|o a IHa b IHb|t IH]; intros e; cbn; try discriminate; try (intros [= <-]; reflexivity).
  - destruct (to_rexpr t) as [x|]; [|discriminate]. cbn. intros [= <-]. cbn. now rewrite <- (IH x eq_refl).
  - destruct (to_rexpr a) as [x|]; [|discriminate]. destruct (to_rexpr b) as [y|]; [|discriminate]. intros [= <-].
    cbn. now rewrite <- (IHa x eq_refl), <- (IHb y eq_refl).
Qed.
Lemma to_expr_inv t : forall e, to_expr t = Some e -> t = tree_of e.
Proof.
  induction t as [s|s|s|s|f t IH|o a IHa b IHb|t IH]; intros e; cbn; try discriminate; try (intros [= <-]; reflexivity).
  - destruct (to_expr t) as [x|]; [|discriminate]. cbn. intros [= <-]. cbn. now rewrite <- (IH x eq_refl).
  - destruct (to_expr a) as [x|]; [|discriminate]. destruct (to_expr b) as [y|]; [|discriminate]. intros [= <-].
    cbn. now rewrite <- (IHa x eq_refl), <- (IHb y eq_refl).
  - destruct (to_rexpr t) as [x|] eqn:E; [|discriminate]. cbn. intros [= <-]. cbn. now rewrite (to_rexpr_inv _ _ E).
Qed.
(** Inside of a sum there are only inner names and no sum *)
Lemma gram_to_rexpr i p t ts : gram i p t ts -> i = true -> exists e, to_rexpr t = Some e.
Proof.
  induction 1 as [i n|i n Hi|i n Hi|i b|i f t ts G IH|i t ts Hi G IH|i t ts G IH|i a b ts us GA IHa GB IHb
                 |i o a b ts us Ho GA IHa GB IHb|i o a b ts us Ho GA IHa GB IHb|i p t ts G IH]; intros E; subst; try discriminate;
    cbn; eauto.
  - destruct (IH eq_refl) as (e & ->). cbn. eauto.
  - destruct (IHa eq_refl) as (x & ->), (IHb eq_refl) as (y & ->). eauto.
  - destruct (IHa eq_refl) as (x & ->), (IHb eq_refl) as (y & ->). eauto.
  - destruct (IHa eq_refl) as (x & ->), (IHb eq_refl) as (y & ->). eauto.
Qed.
Lemma gram_to_expr i p t ts : gram i p t ts -> i = false -> exists e, to_expr t = Some e.
Proof.
  induction 1 as [i n|i n Hi|i n Hi|i b|i f t ts G IH|i t ts Hi G IH|i t ts G IH|i a b ts us GA IHa GB IHb
                 |i o a b ts us Ho GA IHa GB IHb|i o a b ts us Ho GA IHa GB IHb|i p t ts G IH]; intros E; subst; try discriminate;
    cbn; eauto.
  - destruct (IH eq_refl) as (e & ->). cbn. eauto.
  - destruct (gram_to_rexpr _ _ _ _ G eq_refl) as (e & ->). cbn. eauto.
  - destruct (IHa eq_refl) as (x & ->), (IHb eq_refl) as (y & ->). eauto.
  - destruct (IHa eq_refl) as (x & ->), (IHb eq_refl) as (y & ->). eauto.
  - destruct (IHa eq_refl) as (x & ->), (IHb eq_refl) as (y & ->). eauto.
Qed.

(** ** Whole formulas *)
Lemma keyword_app w b s : blanks b -> (exists c r, chars w = c :: r /\ is_blank c = false) ->
  keyword w (b ++ chars w ++ s) = Some s.
Proof.
  intros B (c & r & E & NB). unfold keyword. rewrite skip_blanks by exact B. rewrite E. cbn [app skip]. rewrite NB.
  change (c :: r ++ s) with ((c :: r) ++ s). apply strip_app.
Qed.
Lemma keyword_spec w s r : keyword w s = Some r -> exists b, blanks b /\ s = b ++ chars w ++ r.
Proof.
  unfold keyword. intros H. apply strip_spec in H. destruct (skip_split s) as (b & B & E). exists b. rewrite H in E. now split.
Qed.
(** A text that the lexer accepts does not begin with <kkr> *)
Lemma spells_no_kkr i t ts s : spells i Operand (t :: ts) s -> keyword "<kkr>" s = None.
Proof.
  intros SP. destruct (keyword "<kkr>" s) as [r|] eqn:K; [|reflexivity]. exfalso.
  apply keyword_spec in K. destruct K as (b & B & ->).
  pose proof (spells_lex _ _ _ _ SP _ (le_n _)) as L. rewrite lex_unfold, skip_blanks in L by exact B.
  cbn [chars list_ascii_of_string app skip] in L. change (is_blank "<") with false in L. cbn iota in L.
  destruct (length _) in L; [discriminate|]. cbn in L. discriminate.
Qed.
Lemma gram_nonempty i p t ts : gram i p t ts -> ts <> [].
Proof.
  induction 1; try discriminate; try assumption; intros E; apply app_eq_nil in E; destruct E as [_ E]; discriminate E.
Qed.
Lemma identifier_by n : match chars n with c :: s => is_letter c && forallb is_name_char s | [] => false end = true -> identifier n.
Proof.
  destruct (chars n) as [|c s] eqn:E; [discriminate|]. intros H. apply andb_true_iff in H. destruct H as [L F].
  exists c, s. rewrite E. repeat split; [now apply is_letter_spec|]. rewrite forallb_forall in F.
  apply Forall_forall. intros d D. apply is_name_char_spec. now apply F.
Qed.
Lemma free_by i n : first_word func_words (chars n) = None -> first_word builtin_words (chars n) = None ->
  negb i && (n =? "sum")%string = false -> free i n.
Proof.
  intros A B C. apply free_from_words; auto. intros -> ->. discriminate C.
Qed.
