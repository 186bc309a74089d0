(** The texts of a formula by the usual rules: * and / bind closer than + and -, ** closer than
    these; + - * / group to the left; any part may stand in parentheses; blanks may stand before and
    after everything.  The two questions on which the rules of Python and those of the grammar can
    differ are parameters: [chain], whether a power may be the exponent of another one without
    parentheses, and [signed], whether a number with a sign may be the base of a power without them.
    [name] tells which names a parameter may have, outside (false) and inside (true) of a sum. *)
From Coq Require Import Ascii String List.
From Verif.Model Require Import Formula FormulaText.
Import ListNotations.
Open Scope list_scope.

Definition blanks (b : text) : Prop := Forall (fun c => c = " "%char \/ c = "009"%char) b.
Definition digits (d : text) : Prop := Forall (fun c => In c (chars "0123456789")) d.
Definition letter (c : ascii) : Prop :=
  In c (chars "abcdefghijklmnopqrstuvwxyzABCDEFGHIJKLMNOPQRSTUVWXYZ_").

(** A letter, then letters and digits *)
Definition identifier (n : string) : Prop :=
  exists c s, chars n = c :: s /\ letter c /\ Forall (fun c => letter c \/ In c (chars "0123456789")) s.

(** 12, 12., 12.5, .5 *)
Definition mantissa (m : text) : Prop :=
  exists i, digits i /\
    ((i <> [] /\ m = i) \/ (exists f, digits f /\ i ++ f <> [] /\ m = i ++ "."%char :: f)).
Definition sign_text (s : text) : Prop := s = [] \/ s = ["+"%char] \/ s = ["-"%char].
(** e5, E-5 *)
Definition exponent_text (x : text) : Prop :=
  x = [] \/ exists c s d, (c = "e"%char \/ c = "E"%char) /\ sign_text s /\ digits d /\ d <> [] /\ x = c :: s ++ d.
Definition literal (sg n : text) : Prop :=
  sign_text sg /\ exists m x, mantissa m /\ exponent_text x /\ n = sg ++ m ++ x.

(** The level: 0 sums and differences, 1 products and quotients, 2 powers, 3 what needs no parentheses *)
Section Usual.
Variables (chain signed : bool) (name : bool -> string -> Prop).

Inductive usual (inner : bool) : nat -> tree -> text -> Prop :=
| u_number n : literal [] (chars n) -> usual inner 3 (Num n) (chars n)
| u_signed n c : literal [c] (chars n) -> usual inner (if signed then 3 else 2) (Num n) (chars n)
| u_name n : inner = false -> identifier n -> name false n -> usual inner 3 (SingleName n) (chars n)
| u_inner_name n : inner = true -> identifier n -> name true n -> usual inner 3 (ParamName n) (chars n)
| u_builtin b : In b ["1j"; "pi"; "eps_0"; "hbar"; "h"; "c"]%string -> usual inner 3 (Builtin b) (chars b)
| u_func f b t s :
    In f ["sin"; "cos"; "tan"; "sqrt"; "dawsn"; "ln"; "log"; "heaviside"]%string -> blanks b ->
    usual inner 0 t s -> usual inner 3 (Func f t) (chars f ++ b ++ chars "(" ++ s ++ chars ")")
| u_sum b t s :
    inner = false -> blanks b -> usual true 0 t s ->
    usual inner 3 (Sum t) (chars "sum" ++ b ++ chars "[" ++ s ++ chars "]")
| u_paren t s : usual inner 0 t s -> usual inner 3 t (chars "(" ++ s ++ chars ")")
| u_pow a s b t : usual inner 3 a s -> usual inner (if chain then 2 else 3) b t ->
    usual inner 2 (Bin Pow a b) (s ++ chars "**" ++ t)
| u_mul a s b t : usual inner 1 a s -> usual inner 2 b t -> usual inner 1 (Bin Mul a b) (s ++ chars "*" ++ t)
| u_div a s b t : usual inner 1 a s -> usual inner 2 b t -> usual inner 1 (Bin Div a b) (s ++ chars "/" ++ t)
| u_add a s b t : usual inner 0 a s -> usual inner 1 b t -> usual inner 0 (Bin Add a b) (s ++ chars "+" ++ t)
| u_sub a s b t : usual inner 0 a s -> usual inner 1 b t -> usual inner 0 (Bin Sub a b) (s ++ chars "-" ++ t)
| u_level p t s : usual inner (Datatypes.S p) t s -> usual inner p t s
| u_blanks p b t s c : blanks b -> blanks c -> usual inner p t s -> usual inner p t (b ++ s ++ c).
End Usual.

(** The tree of an expression *)
Fixpoint tree_of_r (e : rexpr) : tree :=
  match e with
  | RNum s => Num s | RName s => ParamName s | RBuiltin s => Builtin s
  | RFunc f a => Func f (tree_of_r a) | RBin o a b => Bin o (tree_of_r a) (tree_of_r b)
  end.
Fixpoint tree_of (e : expr) : tree :=
  match e with
  | ENum s => Num s | EName s => SingleName s | EBuiltin s => Builtin s
  | EFunc f a => Func f (tree_of a) | EBin o a b => Bin o (tree_of a) (tree_of b)
  | ESum a => Sum (tree_of_r a)
  end.

Definition left_side (r : repr) : text := match r with Eps => chars "eps" | Index => chars "n" end.

(** The text of a whole formula *)
Inductive rendered (chain signed : bool) (name : bool -> string -> Prop) : formula -> text -> Prop :=
| r_assign r e b c s : blanks b -> blanks c -> usual chain signed name false 0 (tree_of e) s ->
    rendered chain signed name (Assign r e) (b ++ left_side r ++ c ++ chars "=" ++ s)
| r_kkr r e b c d k l m s :
    blanks b -> blanks c -> blanks d -> blanks k -> blanks l -> blanks m ->
    usual chain signed name false 1 (tree_of e) s ->
    rendered chain signed name (AssignKkr r e)
      (b ++ left_side r ++ c ++ chars "=" ++ d ++ chars "<kkr>" ++ k ++ chars "+" ++ l ++ chars "1j" ++ m ++ chars "*" ++ s).

(** The names that are left to parameters: none that begins with the name of a function or a
    constant, and outside of sums not "sum" *)
Definition starts (w n : string) : Prop := exists r, n = (w ++ r)%string.
Definition reserved : list string :=
  ["sin"; "cos"; "tan"; "sqrt"; "dawsn"; "ln"; "log"; "heaviside"; "1j"; "pi"; "eps_0"; "hbar"; "h"; "c"]%string.
Definition free (inner : bool) (n : string) : Prop :=
  (forall w, In w reserved -> ~ starts w n) /\ (inner = false -> n <> "sum"%string).
Definition any (inner : bool) (n : string) : Prop := True.

(** A formula written with as few parentheses as these rules allow, except around the powers in
    powers *)
Definition has_sign (n : string) : bool := match chars n with "+"%char :: _ | "-"%char :: _ => true | _ => false end.
Definition op_text (o : binop) : text :=
  match o with Add => chars " + " | Sub => chars " - " | Mul => chars " * " | Div => chars " / " | Pow => chars " ** " end.
Definition op_level (o : binop) : nat := match o with Add | Sub => 0 | Mul | Div => 1 | Pow => 2 end.
Definition parens (b : bool) (s : text) : text := if b then chars "(" ++ s ++ chars ")" else s.
Fixpoint show (p : nat) (t : tree) : text :=
  match t with
  | Num n => parens (has_sign n && Nat.leb 3 p) (chars n)
  | SingleName n | ParamName n | Builtin n => chars n
  | Func f a => chars f ++ chars "(" ++ show 0 a ++ chars ")"
  | Sum a => chars "sum" ++ chars "[" ++ show 0 a ++ chars "]"
  | Bin o a b =>
      let q := op_level o in
      parens (Nat.ltb q p)
        (show (match o with Pow => 3 | _ => q end) a ++ op_text o ++ show (Datatypes.S q) b)
  end.

(** Numbers, names, constants and functions that can be written *)
Fixpoint writable (name : bool -> string -> Prop) (i : bool) (t : tree) : Prop :=
  match t with
  | Num n => exists sg, literal sg (chars n)
  | SingleName n => i = false /\ identifier n /\ name false n
  | ParamName n => i = true /\ identifier n /\ name true n
  | Builtin b => In b ["1j"; "pi"; "eps_0"; "hbar"; "h"; "c"]%string
  | Func f a => In f ["sin"; "cos"; "tan"; "sqrt"; "dawsn"; "ln"; "log"; "heaviside"]%string /\ writable name i a
  | Sum a => i = false /\ writable name true a
  | Bin _ a b => writable name i a /\ writable name i b
  end.
