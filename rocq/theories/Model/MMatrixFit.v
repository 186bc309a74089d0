(** src/elli/fitting/decorator_mmatrix.py and plot/mueller_matrix.py: Mueller matrices in data frames, the residual
    of the fit, the fitting class and its figure.  Colours, dashes, axis titles and the widgets are not modelled. *)
From Coq Require Import Reals String List Arith Bool.
From Verif.Base Require Import Py.
Import ListNotations.
Open Scope R_scope.
Open Scope string_scope.
Open Scope list_scope.
Open Scope py_scope.

(** A data frame of numbers; all its rows have one entry for each column *)
Record frame := Frame { f_columns : list string; f_index : list R; f_rows : list (list R) }.

Fixpoint position (name : string) (l : list string) : option nat :=
  match l with
  | [] => None
  | c :: l' => if String.eqb c name then Some 0%nat else option_map S (position name l')
  end.
(** df[name] for a frame with distinct columns *)
Definition column (df : frame) (name : string) : res (list R) :=
  match position name (f_columns df) with
  | Some k => Ok (map (fun row => nth k row 0) (f_rows df))
  | None => Err KeyError
  end.

(** A Mueller matrix; an array of shape (n, 4, 4) is a list of them *)
Definition mueller := nat -> nat -> R.
(** numpy's reshape(-1, 16) of an array of shape (n, 4, 4): row-major *)
Definition flatten (m : mueller) : list R := map (fun k => m (k / 4)%nat (k mod 4)%nat) (seq 0 16).

(** decorator_mmatrix.py:28-58 mmatrix_to_dataframe; pandas refuses columns or an index of another length *)
Definition mmatrix_to_dataframe (exp : frame) (mm : list mueller) (identifier : option string) : res frame :=
  let columns := match identifier with
                 | Some d => map (fun c => (c ++ "_" ++ d)%string) (f_columns exp)
                 | None => f_columns exp
                 end in
  if (Nat.eqb (List.length columns) 16 && Nat.eqb (List.length (f_index exp)) (List.length mm))%bool
  then Ok (Frame columns (f_index exp) (map flatten mm)) else Err ValueError.

(** reshape(-1, 4, 4) of a flat list *)
Fixpoint chunks (n : nat) (l : list R) : list mueller :=
  match n with
  | O => []
  | S n' => (fun i j => nth (4 * i + j) l 0) :: chunks n' (skipn 16 l)
  end.
Definition reshape44 (df : frame) : res (list mueller) :=
  let l := concat (f_rows df) in
  if Nat.eqb (List.length l mod 16) 0 then Ok (chunks (List.length l / 16) l) else Err ValueError.

(** The difference of two arrays of shapes (n, 4, 4) and (m, 4, 4) with broadcasting *)
Definition minus (a b : mueller) : mueller := fun i j => a i j - b i j.
Definition subtract (a b : list mueller) : res (list mueller) :=
  if Nat.eqb (List.length a) (List.length b) then Ok (map (fun p => minus (fst p) (snd p)) (combine a b))
  else match a, b with
       | [x], _ => Ok (map (minus x) b)
       | _, [y] => Ok (map (fun x => minus x y) a)
       | _, _ => Err ValueError
       end.

(** 163-180 fit_function; [mm] is self.model(lbda, params).mueller_matrix *)
Definition fit_function (exp : frame) (mm : list mueller) : res (list mueller) :=
  let* e := reshape44 exp in subtract e mm.

(** pd.concat([a, b], axis=1) of frames with the same index *)
Definition concat_columns (a b : frame) : frame :=
  Frame (f_columns a ++ f_columns b) (f_index a) (map (fun p => fst p ++ snd p) (combine (f_rows a) (f_rows b))).

(** 203-246 get_model_data: [fitted] tells that no parameters are given *)
Definition get_model_data (exp : frame) (mm : list mueller) (fitted append : bool) : res frame :=
  let desc := if fitted then "fit" else "model" in
  let* df := mmatrix_to_dataframe exp mm (Some desc) in
  Ok (if append then concat_columns exp df else df).

(** A line in a figure: its name, its points and, in a grid, the row and column of its plot *)
Record trace := Trace { t_name : string; t_x : list R; t_y : list R; t_place : option (nat * nat) }.

Fixpoint enumerate {A} (k : nat) (l : list A) : list (nat * A) :=
  match l with [] => [] | x :: l' => (k, x) :: enumerate (S k) l' end.

(** mueller_matrix.py:33-107 plot_mmatrix with the default names, for at most 16 columns *)
Definition trace_name (j : nat) (melem : string) : string :=
  match (j mod 2)%nat with O => (melem ++ " ")%string | _ => (melem ++ " theory")%string end.
Definition plot_mmatrix (dfs : list frame) (single : bool) : res (list trace) :=
  match dfs with
  | [] => Err IndexError
  | df0 :: _ =>
      rmap (@concat _) (rmapM (fun '(i, melem) =>
        rmapM (fun '(j, df) =>
          let* y := column df melem in
          Ok (Trace (trace_name j melem) (f_index df) y
            (if single then None else Some (i / 4 + 1, i mod 4 + 1)%nat)))
          (enumerate 0 dfs)) (enumerate 0 (f_columns df0)))
  end.

(** The fitting object: 337-346.  An attribute that no statement has set is missing. *)
Record fitter := Fitter { exp_mm : frame; display_single : bool; sharex : bool; full_scale : bool;
  fit_kwargs : list (string * bool); show_residual : bool; fig : list trace }.

Fixpoint lookup (k : string) (l : list (string * bool)) : option bool :=
  match l with [] => None | (a, v) :: l' => if String.eqb a k then Some v else lookup k l' end.
Definition without (k : string) (l : list (string * bool)) : list (string * bool) :=
  filter (fun p => negb (String.eqb (fst p) k)) l.

(** 337-366 __init__: the arguments are taken from kwargs, then the attributes are read *)
Definition attribute (x : option bool) : res bool := match x with Some b => Ok b | None => Err AttributeError end.
Definition init (exp : frame) (mm : list mueller) (kwargs : list (string * bool)) : res fitter :=
  let d := lookup "display_single" kwargs in
  let s := lookup "sharex" kwargs in
  let f := lookup "full_scale" kwargs in
  let rest := without "full_scale" (without "sharex" (without "display_single" kwargs)) in
  let* model_df := mmatrix_to_dataframe exp mm None in
  let* single := attribute d in
  let* shared := attribute s in
  let* full := attribute f in
  let* figure := plot_mmatrix [exp; model_df] single in
  Ok (Fitter exp single shared full rest false figure).

(** model_df - exp_mm: the difference of two frames with the same labels *)
Definition frame_minus (a b : frame) : frame :=
  Frame (f_columns a) (f_index a) (map (fun p => map (fun q => fst q - snd q) (combine (fst p) (snd p))) (combine (f_rows a) (f_rows b))).

(** fig.data[k].y = y; fig.data[k].name = name *)
Fixpoint set_trace (k : nat) (name : string) (y : list R) (l : list trace) : res (list trace) :=
  match l with
  | [] => Err IndexError
  | t :: l' =>
      match k with
      | O => Ok (Trace name (t_x t) y (t_place t) :: l')
      | S k' => let* m := set_trace k' name y l' in Ok (t :: m)
      end
  end.
Fixpoint set_traces (i : nat) (df : frame) (residual : bool) (cols : list string) (l : list trace) : res (list trace) :=
  match cols with
  | [] => Ok l
  | c :: cols' =>
      let* y := column df c in
      let* m := set_trace (2 * i + 1) (c ++ (if residual then " Residual" else " theory"))%string y l in
      set_traces (S i) df residual cols' m
  end.

(** 64-92 update_selection with the Mueller matrices of the present parameters *)
Definition update_selection (o : fitter) (mm : list mueller) : res fitter :=
  let* df := mmatrix_to_dataframe (exp_mm o) mm None in
  let model_df := if show_residual o then frame_minus df (exp_mm o) else df in
  let* figure := set_traces 0 model_df (show_residual o) (f_columns model_df) (fig o) in
  Ok (Fitter (exp_mm o) (display_single o) (sharex o) (full_scale o) (fit_kwargs o) (show_residual o) figure).

(** 94-96 update_residual *)
Definition update_residual (o : fitter) (mm : list mueller) (new : bool) : res fitter :=
  update_selection (Fitter (exp_mm o) (display_single o) (sharex o) (full_scale o) (fit_kwargs o) new (fig o)) mm.

(** 258-273 and 295-310: the options of plot and plot_residual *)
Definition option_or (kwarg : option bool) (attr : bool) : bool := match kwarg with Some b => b | None => attr end.
Definition plot (o : fitter) (mm : list mueller) (single : option bool) : res (list trace) :=
  let* df := mmatrix_to_dataframe (exp_mm o) mm None in
  plot_mmatrix [exp_mm o; df] (option_or single (display_single o)).
Definition plot_residual (o : fitter) (mm : list mueller) (single : option bool) : res (list trace) :=
  let* df := mmatrix_to_dataframe (exp_mm o) mm None in
  plot_mmatrix [frame_minus df (exp_mm o)] (option_or single (display_single o)).
