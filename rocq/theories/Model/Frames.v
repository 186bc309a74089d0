(** Dispersions evaluated on Python values, and their data frames:
    src/elli/dispersions/base_dispersion.py:25-27, 112-179, 238-263, 288-290, 333-421. *)
From Coq Require Import Reals List Bool.
From Coquelicot Require Import Complex.
From Verif.Base Require Import Py Cx.
Import ListNotations.
Open Scope R_scope.
Open Scope C_scope.
Open Scope py_scope.

(** The wavelength argument: left out, a number, a one-dimensional NumPy array of floats, a list or
    tuple of floats.  Other array-likes are not modelled. *)
Inductive wl := WNone | WNum (x : R) | WArr (l : list R) | WSeq (l : list R).
(** A result: a number or array without axes, or an array with one axis; [None] is nan or infinite *)
Inductive value := V0 (c : option C) | V1 (l : list (option C)).
Definition vmap (f : C -> C) (v : value) : value :=
  match v with V0 c => V0 (option_map f c) | V1 l => V1 (map (option_map f) l) end.

(** + of numbers and arrays; arrays of different lengths do not occur *)
Definition oadd (a b : option C) : option C := let? x := a in let? y := b in Some (x + y).
Definition vadd (a b : value) : value :=
  match a, b with
  | V0 x, V0 y => V0 (oadd x y)
  | V0 x, V1 l => V1 (map (oadd x) l)
  | V1 l, V0 y => V1 (map (fun x => oadd x y) l)
  | V1 l, V1 m => V1 (map (fun p => oadd (fst p) (snd p)) (combine l m))
  end.

(** The classes of dispersions that are no sums.
    [Const]: the result is a parameter, whatever the wavelength (epsilon_inf.py:27-28,
    constant_refractive_index.py:26-27, and the formulas that add up oscillators if there are none);
    [touches] says that the wavelength is computed with before (sellmeier.py:31, for example).
    [Arith]: the wavelength is used in arithmetic at each point (cauchy.py:33-46,
    sellmeier.py:30-34 and the other formulas, in exact arithmetic; of Formula and FormulaIndex only
    for numbers and arrays).
    [Tab]: interp1d on the range lo to hi (table_epsilon.py:49-55, 77-78, table_index.py:47-54, 78-79,
    pseudo_dielectric.py:58-67); [own] is the default range that the tables set. *)
Inductive single :=
| Const (touches : bool) (c : option C)
| Arith (f : R -> option C)
| Tab (lo hi : R) (own : option (list R)) (f : R -> option C).
Inductive kind := KEps | KIdx.   (* subclass of Dispersion / of IndexDispersion *)
Inductive disp :=
| One (k : kind) (s : single)
| Total (k : kind) (parts : list disp)   (* DispersionSum, IndexDispersionSum *)
| AsIndex (d : disp).                    (* base_dispersion.py:238-263 as_index *)
Definition kind_of (d : disp) : kind := match d with One k _ => k | Total k _ => k | AsIndex _ => KIdx end.

(** np.linspace(200, 1000, 801) (base_dispersion.py:26) *)
Definition default_range : list R := map (fun i => (200 + INR i * ((1000 - 200) / 800))%R) (seq 0 801).
(** default_lbda_range of an object: the class attribute unless a table has set its own *)
Definition default_of (d : disp) : list R :=
  match d with One _ (Tab _ _ (Some own) _) => own | _ => default_range end.

Definition in_range (lo hi x : R) : bool := if Rle_dec lo x then (if Rle_dec x hi then true else false) else false.
(** dielectric_function or refractive_index of one class (the lines above); a list supports neither
    **, nor / and * with a float; interp1d converts lists to arrays and raises ValueError if any
    wavelength lies outside its range.  WNone does not reach these methods. *)
Definition single_at (s : single) (w : wl) : res value :=
  match s, w with
  | Const true c, WSeq _ => Err TypeError
  | Const _ c, _ => Ok (V0 c)
  | Arith f, WNum x => Ok (V0 (f x))
  | Arith f, WArr l => Ok (V1 (map f l))
  | Arith f, _ => Err TypeError
  | Tab lo hi _ f, WNum x => if in_range lo hi x then Ok (V0 (f x)) else Err ValueError
  | Tab lo hi _ f, WArr l | Tab lo hi _ f, WSeq l =>
      if forallb (in_range lo hi) l then Ok (V1 (map f l)) else Err ValueError
  | Tab lo hi _ f, WNone => Err TypeError
  end.

(** The method that the class defines: dielectric_function of Dispersions, refractive_index of
    IndexDispersions (base_dispersion.py:364-368, 407-411 for sums, where sum() starts with 0, and
    250-258 for as_index) *)
Fixpoint own_function (d : disp) (w : wl) : res value :=
  match d with
  | One _ s => single_at s w
  | Total _ parts =>
      (fix go (acc : value) (ps : list disp) : res value :=
         match ps with [] => Ok acc | p :: ps => let* v := own_function p w in go (vadd acc v) ps end)
        (V0 (Some (RtoC 0))) parts
  | AsIndex d => rmap (vmap Csqrt) (own_function d w)
  end.
(** dielectric_function (base_dispersion.py:288-290 for IndexDispersions, 255 for as_index) *)
Definition dielectric_function (d : disp) (w : wl) : res value :=
  match d with
  | AsIndex d' => own_function d' w
  | _ => match kind_of d with
         | KEps => own_function d w
         | KIdx => rmap (vmap (fun n => n * n)) (own_function d w)
         end
  end.
Definition or_default (d : disp) (w : wl) : wl := match w with WNone => WArr (default_of d) | _ => w end.
(** base_dispersion.py:112-116 *)
Definition get_dielectric (d : disp) (w : wl) : res value := dielectric_function d (or_default d w).
(** base_dispersion.py:118-125; the sqrt of numpy.lib.scimath *)
Definition get_refractive_index (d : disp) (w : wl) : res value :=
  match kind_of d with
  | KIdx => own_function d (or_default d w)
  | KEps => rmap (vmap Csqrt) (dielectric_function d (or_default d w))
  end.

(** A data frame with two columns; the index is named "Wavelength" *)
Record frame := Frame { index : list R; col1 : list (option R); col2 : list (option R) }.
(** pd.DataFrame with a dict of columns and an index: numbers are repeated.  pd.Index of a number
    raises TypeError. *)
Definition column (n : nat) (f : C -> R) (v : value) : list (option R) :=
  match v with V0 c => repeat (option_map f c) n | V1 l => map (option_map f) l end.
Definition make_frame (w : wl) (conjugate : bool) (v : value) : res frame :=
  match w with
  | WArr l | WSeq l => Ok (Frame l (column (length l) Re v) (column (length l) (fun c => if conjugate then (- Im c)%R else Im c) v))
  | _ => Err TypeError
  end.
(** base_dispersion.py:127-152; the columns are called ϵ1 and ϵ2 *)
Definition get_dielectric_df (d : disp) (w : wl) (conjugate : bool) : res frame :=
  let w := or_default d w in
  let* eps := get_dielectric d w in
  make_frame w conjugate eps.
(** base_dispersion.py:154-179; the columns are called n and k *)
Definition get_refractive_index_df (d : disp) (w : wl) (conjugate : bool) : res frame :=
  let w := or_default d w in
  let* nk := get_refractive_index d w in
  make_frame w conjugate nk.
