(** Dispersions of the refractiveindex.info database:
    src/elli/database/refractive_index_info.py:279-423 get_dispersion.

    The input is the list DATA of the yaml file.  The rows of tables are given as numbers (reading them
    with pandas is not modelled), the coefficients as text; [float] is Python's conversion of a text to a
    number, which raises ValueError ([None]) for a text that is not a number. *)
From Coq Require Import Ascii Reals List Arith Bool.
From Coquelicot Require Import Complex.
From Verif.Base Require Import Py Cx.
From Verif.Model Require Import FormulaText DispAdd Dispersions Tables.
Import ListNotations.
Open Scope R_scope.
Open Scope py_scope.

(** One element of DATA; the number of a formula is the digit of "formula 1" and so on, [Other] any
    other type *)
Inductive entry :=
| TabNK (rows : list (R * R * R))
| TabN (rows : list (R * R))
| TabK (rows : list (R * R))
| Formula (number : nat) (coefficients : text)
| Other.

(** str.split(" ") *)
Fixpoint split (s : text) : list text :=
  match s with
  | [] => [[]]
  | c :: s' =>
      if Ascii.eqb c " "%char then [] :: split s'
      else match split s' with w :: ws => (c :: w) :: ws | [] => [[c]] end
  end.

(** l[slice(start, stop, step)] for positive numbers *)
Fixpoint every (n step : nat) (l : list R) : list R :=
  match l with
  | [] => []
  | x :: l' => match n with O => x :: every (step - 1) step l' | S n' => every n' step l' end
  end.
Definition slice (start stop step : nat) (l : list R) : list R := every start step (firstn stop l).

(** table_index.py:56-79: a Table whose function raises, or is nan, has no value *)
Definition table_leaf (rows : list point) : obj :=
  Leaf KIdx LTable (fun lbda => match table_value rows lbda with Ok v => v | Err _ => None end).
(** refractive_index_info.py:298-332 Table(lbda=df.index, n=...) with the wavelengths of the file * 1000 *)
Definition new_table (h : heap) (lbda : list R) (n : list C) : heap * res operand :=
  match table (map (fun l => l * 1000) lbda) n with
  | Err e => (h, Err e)
  | Ok rows => (h ++ [table_leaf rows], Ok (ORef (length h)))
  end.

Section File.
Variable float : text -> option R.

(** 335-337 and so on: list(map(float, ….split(" "))) *)
Definition read (s : text) : res (list R) :=
  rmapM (fun w => match float w with Some x => Ok x | None => Err ValueError end) (split s).

(** 369, 391, 404: f_i / 1e3**e_i, e_i *)
Definition to_nm (p : R * R) : R * R := let '(f, e) := p in (f / Rpower 1000 e, e).

(** 334-407: the dispersion of a formula *)
Definition formula (h : heap) (number : nat) (s : text) : heap * res operand :=
  if existsb (Nat.eqb number) [1; 2; 3; 4; 5]%nat then
    match read s with
    | Err e => (h, Err e)
    | Ok [] => (h, Err IndexError)
    | Ok ((c0 :: _) as coeffs) =>
        let odd := slice 1 (length coeffs) 2 coeffs in
        let even := slice 2 (length coeffs) 2 coeffs in
        let sellmeier_of rep :=
          py_add (h ++ [Leaf KEps LPlain (sellmeier rep); const_leaf KEps c0])
            (ORef (length h)) (ORef (length h + 1)) in
        match number with
        | 1%nat => sellmeier_of (map (fun '(a, b) => (a, b ^ 2)) (combine odd even))
        | 2%nat => sellmeier_of (combine odd even)
        | 3%nat => (h ++ [Leaf KEps LPlain (polynomial c0 (map to_nm (combine odd even)))], Ok (ORef (length h)))
        | 4%nat =>
            let a := slice 1 6 4 coeffs in
            let e1 := slice 2 7 4 coeffs in
            let b := slice 3 8 4 coeffs in
            let e2 := slice 4 9 4 coeffs in
            let f := slice 9 (length coeffs) 2 coeffs in
            let e := slice 10 (length coeffs) 2 coeffs in
            py_add (h ++ [Leaf KEps LPlain (polynomial c0 (map to_nm (combine f e)));
                          Leaf KEps LPlain (sellmeier_custom (combine (combine (combine a e1) b) e2))])
              (ORef (length h)) (ORef (length h + 1))
        | _ => (h ++ [Leaf KIdx LPlain (cauchy_custom c0 (map to_nm (combine odd even)))], Ok (ORef (length h)))
        end
    end
  else (h, Err ValueError).

(** 297-412: one element of DATA *)
Definition build (h : heap) (e : entry) : heap * res operand :=
  match e with
  | TabNK rows => new_table h (map (fun '(l, _, _) => l) rows) (map (fun '(_, n, k) => (n, k)) rows)
  | TabN rows => new_table h (map fst rows) (map (fun '(_, n) => RtoC n) rows)
  | TabK rows => new_table h (map fst rows) (map (fun '(_, k) => (0, k)) rows)
  | Formula n s => formula h n s
  | Other => (h, Err ValueError)
  end.
(** 308, 320, 332, 407: contains_index_dispersion is set *)
Definition index_entry (e : entry) : bool :=
  match e with Formula n _ => Nat.eqb n 5 | Other => false | _ => true end.

(** 297-412: the loop *)
Fixpoint build_all (h : heap) (data : list entry) : heap * res (list operand) :=
  match data with
  | [] => (h, Ok [])
  | e :: data' =>
      match build h e with
      | (h1, Err x) => (h1, Err x)
      | (h1, Ok o) => match build_all h1 data' with
                      | (h2, Err x) => (h2, Err x)
                      | (h2, Ok os) => (h2, Ok (o :: os))
                      end
      end
  end.

(** 418-420: as_index of those that are no IndexDispersion *)
Fixpoint to_index (h : heap) (os : list operand) : heap * res (list operand) :=
  match os with
  | [] => (h, Ok [])
  | o :: os' =>
      let is_index := match o with
                      | ORef r => match nth_error h r with Some x => kind_eqb (okind x) KIdx | None => false end
                      | _ => false
                      end in
      match (if is_index then (h, Ok o)
             else match o with ORef r => as_index h r | _ => (h, Err AttributeError) end) with
      | (h1, Err x) => (h1, Err x)
      | (h1, Ok o') => match to_index h1 os' with
                       | (h2, Err x) => (h2, Err x)
                       | (h2, Ok os2) => (h2, Ok (o' :: os2))
                       end
      end
  end.

(** 292-423 *)
Definition get_dispersion (h : heap) (data : list entry) : heap * res operand :=
  match build_all h data with
  | (h1, Err x) => (h1, Err x)
  | (h1, Ok [o]) => (h1, Ok o)
  | (h1, Ok os) =>
      if existsb index_entry data then
        match to_index h1 os with
        | (h2, Err x) => (h2, Err x)
        | (h2, Ok os') => new_sum h2 KIdx os'
        end
      else new_sum h1 KEps os
  end.
End File.
