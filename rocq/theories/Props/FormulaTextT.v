(** C24: the text of a formula. *)
From Coq Require Import Ascii String List Arith Bool Lia.
From Verif.Base Require Import Py.
From Verif.Model Require Import Formula FormulaText.
From Verif.Spec Require Import Rendering.
From Verif.Proof Require Import FormulaTextP.
Import ListNotations.
Open Scope list_scope.

Lemma header_assign r b c s : blanks b -> blanks c -> keyword "<kkr>" s = None ->
  header (b ++ left_side r ++ c ++ chars "=" ++ s) = Some (r, false, s).
Proof.
  intros B C K. unfold header.
  assert (EQ : keyword "=" (c ++ chars "=" ++ s) = Some s)
    by (apply keyword_app; [exact C|eexists _, _; split; reflexivity]).
  destruct r; cbn [left_side].
  - rewrite keyword_app; [|exact B|eexists _, _; split; reflexivity]. cbn [obind]. rewrite EQ. cbn [obind]. now rewrite K.
  - assert (N : keyword "eps" (b ++ chars "n" ++ c ++ chars "=" ++ s) = None).
    { unfold keyword. rewrite skip_blanks by exact B. reflexivity. }
    rewrite N. rewrite keyword_app; [|exact B|eexists _, _; split; reflexivity]. cbn [obind]. rewrite EQ. cbn [obind]. now rewrite K.
Qed.
Lemma header_kkr r b c d k l m s : blanks b -> blanks c -> blanks d -> blanks k -> blanks l -> blanks m ->
  header (b ++ left_side r ++ c ++ chars "=" ++ d ++ chars "<kkr>" ++ k ++ chars "+" ++ l ++ chars "1j" ++ m ++ chars "*" ++ s)
  = Some (r, true, s).
Proof.
  intros B C D K L M. unfold header.
  set (rest := d ++ chars "<kkr>" ++ k ++ chars "+" ++ l ++ chars "1j" ++ m ++ chars "*" ++ s).
  assert (EQ : keyword "=" (c ++ chars "=" ++ rest) = Some rest)
    by (apply keyword_app; [exact C|eexists _, _; split; reflexivity]).
  assert (KK : match keyword "<kkr>" rest with
               | Some s3 => obind (keyword "+" s3) (fun s4 => obind (keyword "1j" s4) (fun s5 => obind (keyword "*" s5) (fun s6 => Some (r, true, s6))))
               | None => Some (r, false, rest) end = Some (r, true, s)).
  { unfold rest. rewrite keyword_app; [|exact D|eexists _, _; split; reflexivity].
    rewrite keyword_app; [|exact K|eexists _, _; split; reflexivity]. cbn [obind].
    rewrite keyword_app; [|exact L|eexists _, _; split; reflexivity]. cbn [obind].
    rewrite keyword_app; [|exact M|eexists _, _; split; reflexivity]. reflexivity. }
  destruct r; cbn [left_side].
  - rewrite keyword_app; [|exact B|eexists _, _; split; reflexivity]. cbn [obind]. rewrite EQ. cbn [obind]. exact KK.
  - assert (N : keyword "eps" (b ++ chars "n" ++ c ++ chars "=" ++ rest) = None).
    { unfold keyword. rewrite skip_blanks by exact B. reflexivity. }
    rewrite N. rewrite keyword_app; [|exact B|eexists _, _; split; reflexivity]. cbn [obind]. rewrite EQ. cbn [obind]. exact KK.
Qed.

(** Exactly these texts are read, and each as the formula that it renders *)
Theorem C24_exact : forall (f : formula) (s : text), parse s = Ok f <-> rendered false true free f s.
Proof.
  intros f s. split.
  - unfold parse. destruct (header s) as [[[r kkr] s1]|] eqn:H; cbn [obind]; [|discriminate].
    destruct (lex (length s1) false Operand s1) as [ts|] eqn:L; cbn [obind]; [|discriminate].
    destruct (parse_tokens kkr ts) as [t|] eqn:P; cbn [obind]; [|discriminate].
    destruct (to_expr t) as [e|] eqn:E; cbn [obind]; [|discriminate]. intros [= <-].
    apply to_expr_inv in E. subst t. apply parse_gram in P. apply lex_spells in L.
    rewrite <- (app_nil_r ts) in L. destruct (gram_usual _ _ _ _ P _ _ L) as (s2 & u & -> & U & SP).
    inversion SP as [? ? ? B|]; subst. apply (u_trail _ _ _ _ _ B) in U.
    revert H. unfold header.
    destruct (keyword "eps" s) as [q|] eqn:K1; [|destruct (keyword "n" s) as [q|] eqn:K2; [|discriminate]];
      cbn [obind]; destruct (keyword "=" q) as [q2|] eqn:K3; cbn [obind]; try discriminate;
      (destruct (keyword "<kkr>" q2) as [q3|] eqn:K4;
       [destruct (keyword "+" q3) as [q4|] eqn:K5; cbn [obind]; try discriminate;
        destruct (keyword "1j" q4) as [q5|] eqn:K6; cbn [obind]; try discriminate;
        destruct (keyword "*" q5) as [q6|] eqn:K7; cbn [obind]; try discriminate|]);
      intros [= <- <- Q]; subst.
    + apply keyword_spec in K1, K3, K4, K5, K6, K7.
      destruct K1 as (b1 & B1 & ->), K3 as (b3 & B3 & ->), K4 as (b4 & B4 & ->), K5 as (b5 & B5 & ->), K6 as (b6 & B6 & ->), K7 as (b7 & B7 & ->).
      now apply (r_kkr false true free Eps).
    + apply keyword_spec in K1, K3. destruct K1 as (b1 & B1 & ->), K3 as (b3 & B3 & ->). now apply (r_assign false true free Eps).
    + apply keyword_spec in K2, K3, K4, K5, K6, K7.
      destruct K2 as (b1 & B1 & ->), K3 as (b3 & B3 & ->), K4 as (b4 & B4 & ->), K5 as (b5 & B5 & ->), K6 as (b6 & B6 & ->), K7 as (b7 & B7 & ->).
      now apply (r_kkr false true free Index).
    + apply keyword_spec in K2, K3. destruct K2 as (b1 & B1 & ->), K3 as (b3 & B3 & ->). now apply (r_assign false true free Index).
  - intros R. inversion R as [r e b c s1 B C U|r e b c d k l m s1 B C D K L M U]; subst; unfold parse.
    + destruct (usual_gram _ _ _ _ U) as (ts & G & SP). specialize (SP [] [] (sp_nil _ _ _ blanks_nil)). rewrite !app_nil_r in SP.
      pose proof (gram_nonempty _ _ _ _ G) as NE. destruct ts as [|t0 ts]; [contradiction|].
      rewrite header_assign; [|exact B|exact C|now apply (spells_no_kkr _ _ _ _ SP)]. cbn [obind].
      rewrite (spells_lex _ _ _ _ SP _ (le_n _)). cbn [obind].
      rewrite (gram_parse_expr _ _ G). cbn [obind]. now rewrite to_expr_of.
    + destruct (usual_gram _ _ _ _ U) as (ts & G & SP). specialize (SP [] [] (sp_nil _ _ _ blanks_nil)). rewrite !app_nil_r in SP.
      rewrite header_kkr by assumption. cbn [obind].
      rewrite (spells_lex _ _ _ _ SP _ (le_n _)). cbn [obind].
      rewrite (gram_parse_term _ _ G). cbn [obind]. now rewrite to_expr_of.
Qed.
Print Assumptions C24_exact.

(** Every formula with numbers, names, constants and functions that can be written comes back *)
Lemma u_down i p q t s : p <= q -> usual false true free i q t s -> usual false true free i p t s.
Proof. induction 1 as [|q H IH]; [auto|]. intros U. apply IH. now apply u_level. Qed.

Lemma usual_op i o a b s t : usual false true free i (match o with Pow => 3 | _ => op_level o end) a s ->
  usual false true free i (Datatypes.S (op_level o)) b t -> usual false true free i (op_level o) (Bin o a b) (s ++ op_text o ++ t).
Proof.
  assert (B1 : blanks [" "%char]) by (repeat constructor).
  intros A B.
  destruct o; cbn [op_level op_text] in *; change (s ++ ?x ++ t) with (s ++ x ++ t).
  all: apply (u_trail _ _ _ [" "%char]) in A; [|exact B1]; apply (u_lead _ _ _ [" "%char]) in B; [|exact B1].
  - pose proof (u_add _ _ _ _ _ _ _ _ A B) as U. rewrite <- !app_assoc in U. exact U.
  - pose proof (u_sub _ _ _ _ _ _ _ _ A B) as U. rewrite <- !app_assoc in U. exact U.
  - pose proof (u_mul _ _ _ _ _ _ _ _ A B) as U. rewrite <- !app_assoc in U. exact U.
  - pose proof (u_div _ _ _ _ _ _ _ _ A B) as U. rewrite <- !app_assoc in U. exact U.
  - pose proof (u_pow false true free _ _ _ _ _ A B) as U. rewrite <- !app_assoc in U. exact U.
Qed.

Lemma u_parens i p b t s : (b = true \/ usual false true free i p t s) -> usual false true free i 0 t s -> p <= 3 ->
  usual false true free i p t (parens b s).
Proof.
  intros H U P. destruct b; cbn [parens].
  - apply (u_down i p 3); [exact P|]. now apply u_paren.
  - destruct H as [H|H]; [discriminate|exact H].
Qed.

Lemma literal_usual i n : (exists sg, literal sg (chars n)) -> usual false true free i 3 (Num n) (chars n).
Proof.
  intros (sg & L). pose proof L as (SG & _). destruct SG as [->|[->| ->]].
  - now apply u_number.
  - apply (u_signed false true free i n "+"%char). exact L.
  - apply (u_signed false true free i n "-"%char). exact L.
Qed.

Lemma show_usual t : forall i p, p <= 3 -> writable free i t -> usual false true free i p t (show p t).
Proof.
  induction t as [n|n|n|n|f t IH|o a IHa b IHb|t IH]; intros i p P W; cbn [show writable] in *.
  - apply u_parens; [right|apply (u_down i 0 3); [lia|]|exact P]; [apply (u_down i p 3); [exact P|]|]; now apply literal_usual.
  - destruct W as (-> & ID & F). apply (u_down false p 3); [exact P|]. now apply u_name.
  - destruct W as (-> & ID & F). apply (u_down true p 3); [exact P|]. now apply u_inner_name.
  - apply (u_down i p 3); [exact P|]. now apply u_builtin.
  - destruct W as (F & W). apply (u_down i p 3); [exact P|].
    apply (u_func _ _ _ _ f []); [exact F|constructor|]. now apply IH; [lia|].
  - destruct W as (WA & WB).
    assert (U : usual false true free i (op_level o) (Bin o a b)
      (show (match o with Pow => 3 | _ => op_level o end) a ++ op_text o ++ show (Datatypes.S (op_level o)) b)).
    { apply usual_op; [apply IHa; [destruct o; cbn; lia|exact WA]|apply IHb; [destruct o; cbn; lia|exact WB]]. }
    apply u_parens; [|apply (u_down i 0 (op_level o)); [lia|exact U]|exact P].
    destruct (Nat.ltb_spec (op_level o) p); [now left|right]. now apply (u_down i p (op_level o)).
  - destruct W as (-> & W). apply (u_down false p 3); [exact P|].
    apply (u_sum _ _ _ _ []); [reflexivity|constructor|]. now apply IH; [lia|].
Qed.

Theorem C24_show_partial : forall (r : repr) (e : expr), writable free false (tree_of e) ->
  parse (left_side r ++ chars "=" ++ show 0 (tree_of e)) = Ok (Assign r e).
Proof.
  intros r e W. apply C24_exact. apply (r_assign _ _ _ r e [] []); [constructor|constructor|]. apply show_usual; [lia|exact W].
Qed.
Print Assumptions C24_show_partial.

Theorem C24_kkr_partial : forall (r : repr) (e : expr), writable free false (tree_of e) ->
  parse (left_side r ++ chars "=<kkr>+1j*" ++ show 1 (tree_of e)) = Ok (AssignKkr r e).
Proof.
  intros r e W. apply C24_exact.
  apply (r_kkr _ _ _ r e [] [] [] [] [] []); [constructor|constructor|constructor|constructor|constructor|constructor|]. apply show_usual; [lia|exact W].
Qed.
Print Assumptions C24_kkr_partial.

(** No text has two meanings *)
Theorem C24_unique : forall (f g : formula) (s : text),
  rendered false true free f s -> rendered false true free g s -> f = g.
Proof. intros f g s F G. apply C24_exact in F, G. congruence. Qed.
Print Assumptions C24_unique.

(** Whatever is not the text of a formula is an error of the parser *)
Theorem C24_error : forall s : text, (forall f, ~ rendered false true free f s) -> parse s = Err ParseError.
Proof.
  intros s H. destruct (parse s) as [f|e] eqn:P.
  - exfalso. apply (H f). now apply C24_exact.
  - revert P. unfold parse. destruct (obind _ _); [discriminate|]. congruence.
Qed.
Print Assumptions C24_error.

(** By the usual rules the exponent of a power may be a power; the grammar has no rule for it. *)
Theorem C24_power_refuted : exists (f : formula) (s : text),
  rendered true false free f s /\ parse s = Err ParseError.
Proof.
  exists (Assign Eps (EBin Pow (ENum "2") (EBin Pow (ENum "3") (ENum "2")))), (chars "eps=2**3**2").
  split; [|vm_compute; reflexivity].
  assert (L : forall c, In c (chars "0123456789") -> literal [] [c]).
  { intros c C. split; [now left|]. exists [c], []. repeat split; [|now left].
    exists [c]. split; [now constructor|]. left. split; [discriminate|reflexivity]. }
  apply (r_assign _ _ _ Eps _ [] [] (chars "2**3**2")); [constructor|constructor|].
  apply u_level, u_level. cbn [tree_of].
  apply (u_pow true false free false (Num "2") (chars "2") (Bin Pow (Num "3") (Num "2")) (chars "3**2")).
  - apply u_number, L. cbn. tauto.
  - apply (u_pow true false free false (Num "3") (chars "3") (Num "2") (chars "2")).
    + apply u_number, L. cbn. tauto.
    + apply u_level. apply u_number, L. cbn. tauto.
Qed.
Print Assumptions C24_power_refuted.

Lemma usual_level name i p t s : usual true false name i p t s -> p <= 3.
Proof. induction 1; lia. Qed.
Lemma signed_parens name i p t s : usual true false name i p t s -> p = 3 -> t = Num "-2" -> In "("%char s.
Proof.
  induction 1; intros P T; try discriminate.
  - injection T as ->. exfalso. destruct H as (_ & m & x & (d & D & M) & _ & E). cbn in E.
    destruct M as [(N & ->)|(fr & F & N & ->)]; destruct d as [|c d]; try contradiction; cbn in E; try discriminate E;
      injection E as E _; inversion D as [|? ? C _]; subst; cbn in C; repeat destruct C as [C|C]; try discriminate C; assumption.
  - apply in_or_app. left. now left.
  - subst p. pose proof (usual_level _ _ _ _ _ H). lia.
  - apply in_or_app. right. apply in_or_app. left. now apply IHusual.
Qed.
Lemma power_parens name i p t s b : usual true false name i p t s -> t = Bin Pow (Num "-2") b -> In "("%char s.
Proof.
  induction 1; intros T; try discriminate.
  - apply in_or_app. left. now left.
  - injection T as -> _. apply in_or_app. left. now apply (signed_parens _ _ _ _ _ H).
  - now apply IHusual.
  - apply in_or_app. right. apply in_or_app. left. now apply IHusual.
Qed.

(** By the usual rules -2**2 is -(2**2), and not the square of -2; the grammar reads the square of -2. *)
Theorem C24_sign_refuted : exists (f : formula) (s : text),
  parse s = Ok f /\ ~ rendered true false any f s.
Proof.
  exists (Assign Eps (EBin Pow (ENum "-2") (ENum "2"))), (chars "eps=-2**2").
  split; [vm_compute; reflexivity|]. intros R.
  assert (NP : ~ In "("%char (chars "eps=-2**2")).
  { cbn. intros H. repeat destruct H as [H|H]; try discriminate H. assumption. }
  apply NP. inversion R as [r e b c s B C U E1 E2|]; subst.
  pose proof (power_parens _ _ _ _ _ _ U eq_refl) as K.
  change (chars "eps=-2**2") with ["e"; "p"; "s"; "="; "-"; "2"; "*"; "*"; "2"]%char. rewrite <- E2.
  apply in_or_app. right. right. right. right. apply in_or_app. right. now right.
Qed.
Print Assumptions C24_sign_refuted.

(** There is no other minus sign than the one of a number *)
Theorem C24_minus_refuted : exists n : string, identifier n /\ free false n /\
  parse (chars "eps=-" ++ chars n) = Err ParseError /\ parse (chars "eps=1-" ++ chars n) <> Err ParseError.
Proof.
  exists "x"%string. split; [|split; [|split; [vm_compute; reflexivity|]]].
  - now apply identifier_by.
  - now apply free_by.
  - vm_compute. discriminate.
Qed.
Print Assumptions C24_minus_refuted.

(** A parameter can have exactly the names that begin with no word of the grammar *)
Theorem C24_names : forall n : string, identifier n ->
  (parse (chars "eps=" ++ chars n) = Ok (Assign Eps (EName n)) <-> free false n).
Proof.
  intros n ID. split.
  - intros P. apply C24_exact in P. inversion P as [r e b c s B C U E1 E2|]; subst.
    assert (G : forall i p t u, usual false true free i p t u -> t = SingleName n -> free false n).
    { intros i p t u. induction 1; intros T; try discriminate; auto. injection T as ->. assumption. }
    exact (G _ _ _ _ U eq_refl).
  - intros F. apply C24_exact. apply (r_assign _ _ _ Eps (EName n) [] []); [constructor|constructor|].
    apply (u_down false 0 3); [lia|]. now apply u_name.
Qed.
Print Assumptions C24_names.

(** So not every identifier: "height" begins with h, Planck's constant *)
Theorem C24_name_refuted : exists n : string, identifier n /\ parse (chars "eps=" ++ chars n) = Err ParseError.
Proof.
  exists "height"%string. split; [|vm_compute; reflexivity].
  now apply identifier_by.
Qed.
Print Assumptions C24_name_refuted.

(** eps = 1 + (a - b) * 2.5e-3 / sum[B * lbda ** 2] - (x - y) ** (-2) *)
Example C24_example :
  let e := EBin Sub
             (EBin Formula.Add (ENum "1")
               (EBin Div (EBin Mul (EBin Sub (EName "a") (EName "b")) (ENum "2.5e-3"))
                         (ESum (RBin Mul (RName "B") (RBin Pow (RName "lbda") (RNum "2"))))))
             (EBin Pow (EBin Sub (EName "x") (EName "y")) (ENum "-2")) in
  show 0 (tree_of e) = chars "1 + (a - b) * 2.5e-3 / sum[B * lbda ** 2] - (x - y) ** (-2)" /\
  parse (chars "eps = 1 + (a - b) * 2.5e-3 / sum[B * lbda ** 2] - (x - y) ** (-2)") = Ok (Assign Eps e) /\
  parse (chars " eps=1+((a-b))*2.5e-3/sum [ B*lbda**2 ] - (x-y)**-2 ") = Ok (Assign Eps e).
Proof. split; [|split]; vm_compute; reflexivity. Qed.

Example C24_writable_example : writable free false (tree_of (EBin Mul (EName "gamma") (ENum "-.5e+3"))).
Proof.
  cbn. split.
  - split; [reflexivity|]. split; [now apply identifier_by|now apply free_by].
  - destruct (number_spec (chars "-.5e+3") (chars "-.5e+3") [] eq_refl) as (_ & H). exact H.
Qed.
