(** src/elli/formula_parser/dispersion_function_grammar.lark and parser.py:160-187: from the text of a
    formula to its tree.  lark itself is not part of the repository; of it the following is assumed.
    The LALR parser finds the tree of the grammar.  The lexer is contextual: it looks only for the
    terminals that the parser can accept next, first FUNC and BUILTIN (priority 1), and takes the
    longest match of NAME and SIGNED_NUMBER; a NAME that equals a keyword that is accepted is this
    keyword.  Blanks and tabs before a terminal are skipped (%ignore WS_INLINE). *)
From Coq Require Import Ascii String List Arith Bool.
From Verif.Base Require Import Py.
From Verif.Model Require Import Formula.
Import ListNotations.
Open Scope char_scope.
Open Scope list_scope.
Open Scope py_scope.

Definition text := list ascii.
Definition chars (s : string) : text := list_ascii_of_string s.
Definition word (t : text) : string := string_of_list_ascii t.

Definition between (a b c : ascii) : bool := (nat_of_ascii a <=? nat_of_ascii c)%nat && (nat_of_ascii c <=? nat_of_ascii b)%nat.
Definition is_digit (c : ascii) : bool := between "0" "9" c.
Definition is_letter (c : ascii) : bool := between "a" "z" c || between "A" "Z" c || (c =? "_").
Definition is_name_char (c : ascii) : bool := is_letter c || is_digit c.
Definition is_blank (c : ascii) : bool := (c =? " ") || (c =? "009").
Definition is_sign (c : ascii) : bool := (c =? "+") || (c =? "-").

Fixpoint skip (s : text) : text :=
  match s with c :: s' => if is_blank c then skip s' else s | [] => [] end.

(** The longest prefix of such characters, and the rest *)
Fixpoint span (p : ascii -> bool) (s : text) : text * text :=
  match s with
  | c :: s' => if p c then let (a, b) := span p s' in (c :: a, b) else ([], s)
  | [] => ([], [])
  end.

Fixpoint strip (w s : text) : option text :=
  match w, s with
  | [], _ => Some s
  | a :: w', b :: s' => if a =? b then strip w' s' else None
  | _, [] => None
  end.

(** The first of the words that the text starts with *)
Fixpoint first_word (ws : list string) (s : text) : option (string * text) :=
  match ws with
  | [] => None
  | w :: ws' => match strip (chars w) s with Some r => Some (w, r) | None => first_word ws' s end
  end.

(** grammar line 48: SIGNED_NUMBER of lark's common.lark *)
Definition sign (s : text) : text * text :=
  match s with c :: s' => if is_sign c then ([c], s') else ([], s) | [] => ([], []) end.
Definition exponent (s : text) : text * text :=
  match s with
  | c :: s1 =>
      if (c =? "e") || (c =? "E") then
        let (sg, s2) := sign s1 in
        let (d, s3) := span is_digit s2 in
        match d with [] => ([], s) | _ => (c :: sg ++ d, s3) end
      else ([], s)
  | [] => ([], [])
  end.
Definition number (s : text) : option (text * text) :=
  let (sg, s1) := sign s in
  let (ip, s2) := span is_digit s1 in
  match s2 with
  | "." :: s3 =>
      let (fp, s4) := span is_digit s3 in
      match ip ++ fp with
      | [] => None
      | _ => let (ex, s5) := exponent s4 in Some (sg ++ ip ++ "." :: fp ++ ex, s5)
      end
  | _ =>
      match ip with
      | [] => None
      | _ => let (ex, s5) := exponent s2 in Some (sg ++ ip ++ ex, s5)
      end
  end.

Inductive token :=
| TNum (s : string) | TName (s : string) | TBuiltin (s : string) | TFunc (s : string)
| TSum | TOp (o : binop) | TLPar | TRPar | TLBr | TRBr.

(** What the parser can accept next: an operand, an operator or closing bracket, "(" after a
    function, "[" after sum *)
Inductive mode := Operand | Operator | AfterFunc | AfterSum.

(** grammar lines 44-45 *)
Definition func_words : list string := ["heaviside"; "dawsn"; "sqrt"; "sin"; "cos"; "tan"; "log"; "ln"]%string.
Definition builtin_words : list string := ["eps_0"; "hbar"; "1j"; "pi"; "h"; "c"]%string.

(** One terminal where an operand is expected.  [inner]: inside sum[...], where "sum" is a name. *)
Definition lex_operand (inner : bool) (s : text) : option (token * text) :=
  match first_word func_words s with
  | Some (w, r) => Some (TFunc w, r)
  | None =>
      match first_word builtin_words s with
      | Some (w, r) => Some (TBuiltin w, r)
      | None =>
          match s with
          | [] => None
          | c :: s' =>
              if is_letter c then
                let (n, r) := span is_name_char s in
                if negb inner && (word n =? "sum")%string then Some (TSum, r) else Some (TName (word n), r)
              else if c =? "(" then Some (TLPar, s')
              else match number s with Some (n, r) => Some (TNum (word n), r) | None => None end
          end
      end
  end.

Definition lex_operator (s : text) : option (token * text) :=
  match s with
  | "*" :: "*" :: r => Some (TOp Pow, r)
  | "*" :: r => Some (TOp Mul, r)
  | "/" :: r => Some (TOp Div, r)
  | "+" :: r => Some (TOp Add, r)
  | "-" :: r => Some (TOp Sub, r)
  | ")" :: r => Some (TRPar, r)
  | "]" :: r => Some (TRBr, r)
  | _ => None
  end.

Definition lex_token (inner : bool) (m : mode) (s : text) : option (token * text) :=
  match m with
  | Operand => lex_operand inner s
  | Operator => lex_operator s
  | AfterFunc => match s with "(" :: r => Some (TLPar, r) | _ => None end
  | AfterSum => match s with "[" :: r => Some (TLBr, r) | _ => None end
  end.

Definition next_mode (t : token) : mode :=
  match t with
  | TNum _ | TName _ | TBuiltin _ | TRPar | TRBr => Operator
  | TFunc _ => AfterFunc
  | TSum => AfterSum
  | TOp _ | TLPar | TLBr => Operand
  end.
Definition next_inner (inner : bool) (t : token) : bool :=
  match t with TLBr => true | TRBr => false | _ => inner end.

(** All terminals; each has at least one character, so that [n] need not exceed the length. *)
Fixpoint lex (n : nat) (inner : bool) (m : mode) (s : text) : option (list token) :=
  match skip s with
  | [] => Some []
  | s' =>
      match n with
      | O => None
      | Datatypes.S n' =>
          let? p := lex_token inner m s' in
          let (t, r) := p in
          option_map (cons t) (lex n' (next_inner inner t) (next_mode t) r)
      end
  end.

(** The tree of lark, with its own names for parameters outside and inside of sums *)
Inductive tree :=
| Num (s : string) | SingleName (s : string) | ParamName (s : string) | Builtin (s : string)
| Func (f : string) (t : tree) | Bin (o : binop) (a b : tree) | Sum (t : tree).

(** The parser: the part of an expression before the current operand, waiting for it: [pe] an
    expression and + or -, [pt] a term and * or /, [pf] the base of a power.  [op] is what was opened
    around it. *)
Inductive opened := Paren | FuncOf (f : string) | SumOf.
Record frame := mkframe { pe : option (tree * binop); pt : option (tree * binop); pf : option tree }.
Definition empty : frame := mkframe None None None.

(** grammar lines 15-16, 35-36 factor *)
Definition red_factor (f : frame) (v : tree) : tree := match pf f with Some a => Bin Pow a v | None => v end.
(** grammar lines 11-13, 31-33 term *)
Definition red_term (f : frame) (v : tree) : tree :=
  match pt f with Some (a, o) => Bin o a (red_factor f v) | None => red_factor f v end.
(** grammar lines 7-9, 26-28 expression *)
Definition red_expr (f : frame) (v : tree) : tree :=
  match pe f with Some (a, o) => Bin o a (red_term f v) | None => red_term f v end.

Definition stack := list (frame * opened).
Definition in_sum (st : stack) : bool := existsb (fun p => match snd p with SumOf => true | _ => false end) st.

(** The state: an operand is expected; after an operand; after FUNC; after "sum" *)
Inductive state := Want | Have (v : tree) | WantPar (f : string) | WantBr.

(** One terminal: grammar lines 19-24, 38-42 for the operands *)
Definition shift (q : state) (f : frame) (st : stack) (t : token) : option (state * frame * stack) :=
  match q, t with
  | Want, TNum s => Some (Have (Num s), f, st)
  | Want, TName s => Some (Have (if in_sum st then ParamName s else SingleName s), f, st)
  | Want, TBuiltin s => Some (Have (Builtin s), f, st)
  | Want, TFunc w => Some (WantPar w, f, st)
  | Want, TSum => if in_sum st then None else Some (WantBr, f, st)
  | Want, TLPar => Some (Want, empty, (f, Paren) :: st)
  | WantPar w, TLPar => Some (Want, empty, (f, FuncOf w) :: st)
  | WantBr, TLBr => Some (Want, empty, (f, SumOf) :: st)
  | Have v, TOp Pow => match pf f with Some _ => None | None => Some (Want, mkframe (pe f) (pt f) (Some v), st) end
  | Have v, TOp Mul => Some (Want, mkframe (pe f) (Some (red_term f v, Mul)) None, st)
  | Have v, TOp Div => Some (Want, mkframe (pe f) (Some (red_term f v, Div)) None, st)
  | Have v, TOp Add => Some (Want, mkframe (Some (red_expr f v, Add)) None None, st)
  | Have v, TOp Sub => Some (Want, mkframe (Some (red_expr f v, Sub)) None None, st)
  | Have v, TRPar =>
      match st with
      | (g, Paren) :: st' => Some (Have (red_expr f v), g, st')
      | (g, FuncOf w) :: st' => Some (Have (Func w (red_expr f v)), g, st')
      | _ => None
      end
  | Have v, TRBr =>
      match st with
      | (g, SumOf) :: st' => Some (Have (Sum (red_expr f v)), g, st')
      | _ => None
      end
  | _, _ => None
  end.

Fixpoint run (q : state) (f : frame) (st : stack) (ts : list token) : option (state * frame * stack) :=
  match ts with
  | [] => Some (q, f, st)
  | t :: ts' =>
      match shift q f st t with Some (q', f', st') => run q' f' st' ts' | None => None end
  end.

(** grammar lines 4-5: an expression, or, after the mark of a Kramers-Kronig term, a term *)
Definition parse_tokens (kkr : bool) (ts : list token) : option tree :=
  match run Want empty [] ts with
  | Some (Have v, f, []) =>
      if kkr then match pe f with None => Some (red_term f v) | Some _ => None end else Some (red_expr f v)
  | _ => None
  end.

(** The tree as the transformer sees it (Model/Formula.v) *)
Fixpoint to_rexpr (t : tree) : option rexpr :=
  match t with
  | Num s => Some (RNum s) | ParamName s => Some (RName s) | Builtin s => Some (RBuiltin s)
  | Func f a => option_map (RFunc f) (to_rexpr a)
  | Bin o a b => match to_rexpr a, to_rexpr b with Some x, Some y => Some (RBin o x y) | _, _ => None end
  | SingleName _ | Sum _ => None
  end.
Fixpoint to_expr (t : tree) : option expr :=
  match t with
  | Num s => Some (ENum s) | SingleName s => Some (EName s) | Builtin s => Some (EBuiltin s)
  | Func f a => option_map (EFunc f) (to_expr a)
  | Bin o a b => match to_expr a, to_expr b with Some x, Some y => Some (EBin o x y) | _, _ => None end
  | Sum a => option_map ESum (to_rexpr a)
  | ParamName _ => None
  end.

(** grammar lines 1-2 and 4-5: the start of a formula; true for a Kramers-Kronig term *)
Definition keyword (w : string) (s : text) : option text := strip (chars w) (skip s).
Definition header (s : text) : option (repr * bool * text) :=
  let? p := match keyword "eps" s with
            | Some r => Some (Eps, r)
            | None => match keyword "n" s with Some r => Some (Index, r) | None => None end
            end in
  let (rp, s1) := p in
  let? s2 := keyword "=" s1 in
  match keyword "<kkr>" s2 with
  | Some s3 =>
      let? s4 := keyword "+" s3 in let? s5 := keyword "1j" s4 in let? s6 := keyword "*" s5 in
      Some (rp, true, s6)
  | None => Some (rp, false, s2)
  end.

(** parser.py:171-187 parse_formula *)
Definition parse (s : text) : res formula :=
  match
    (let? h := header s in
     let '(rp, kkr, s1) := h in
     let? ts := lex (length s1) false Operand s1 in
     let? t := parse_tokens kkr ts in
     let? e := to_expr t in
     Some (if kkr then AssignKkr rp e else Assign rp e))
  with
  | Some f => Ok f
  | None => Err ParseError
  end.
