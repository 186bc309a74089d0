(** src/elli/fitting/decorator_psi_delta.py: the residual of a psi/delta fit, the four displays of
    its figure, and the data it hands out.  The measurement has one angle of incidence.  A
    simulation is given by its finite values; a simulation with values that are not finite is not
    modelled, but the pseudo dielectric function may be not finite at single wavelengths. *)
From Coq Require Import Reals String List Arith Bool.
From Coquelicot Require Import Complex.
From Verif.Base Require Import Py Cx Mat.
From Verif.Model Require Import Ellips.
Import ListNotations.
Open Scope R_scope.
Open Scope string_scope.
Open Scope list_scope.
Open Scope py_scope.

(** A row of the measured data: the index and the columns Ψ and Δ *)
Record row := Row { m_lbda : R; m_psi : R; m_delta : R }.
(** What self.model(lbda, params) gives: result.psi, result.delta and result.rho *)
Record sim := Sim { s_psi : list R; s_delta : list R; s_rho : list C }.

(** result.py:57-132 for all wavelengths: the Jones matrices of a Result, its range and its Jones vector *)
Fixpoint all_some {A} (l : list (option A)) : option (list A) :=
  match l with
  | [] => Some []
  | x :: l' => let? a := x in let? m := all_some l' in Some (a :: m)
  end.
Definition sim_of (rg : drange) (E : nat -> C) (Js : list mat) : option sim :=
  let? p := all_some (map (fun J => psi rg J E) Js) in
  let? d := all_some (map (fun J => delta rg J E) Js) in
  let? z := all_some (map (fun J => rho rg J E) Js) in
  Some (Sim p d z).

(** a - b for two arrays of one axis, with broadcasting *)
Definition np_sub (a b : list R) : res (list R) :=
  if Nat.eqb (List.length a) (List.length b) then Ok (map (fun p => fst p - snd p) (combine a b))
  else match a, b with
       | [x], _ => Ok (map (fun y => x - y) b)
       | _, [y] => Ok (map (fun x => x - y) a)
       | _, _ => Err ValueError
       end.

(** utils.py:87-105 calc_rho of the measured data *)
Definition exp_rho (e : list row) : list C := map (fun r => calc_rho (m_psi r) (m_delta r)) e.

(** decorator_psi_delta.py:232-258 fit_function with the arguments of 271-277 *)
Definition fit_function (e : list row) (s : sim) : res (list R) :=
  let rhor := map (@fst R R) (exp_rho e) in
  let rhoi := map (@snd R R) (exp_rho e) in
  let* r := np_sub rhor (map (@fst R R) (s_rho s)) in
  let* i := np_sub rhoi (map (@snd R R) (s_rho s)) in
  Ok (r ++ i).

(** A line of the figure; None is a NaN *)
Record trace := Trace { t_name : string; t_x : list R; t_y : list (option R) }.
Record figure := Figure { f_title : string; f_data : list trace }.

(** The options of the dropdown, 159-164 *)
Inductive display := PsiDelta | Rho | PseudoDiel | Residual.

(** The columns of the measured data: Ψ and Δ in one of the two orders *)
Inductive columns := PsiFirst | DeltaFirst.

Definition nans {A} (l : list A) : list (option R) := map (fun _ => None) l.
Definition nums (l : list R) : list (option R) := map Some l.

(** 402-416: pd.concat without axis=1 puts the simulated rows below the measured ones *)
Definition initial_figure (c : columns) (e : list row) (s : sim) : figure :=
  let x := map m_lbda e ++ map m_lbda e in
  let psi := Trace "Ψ" x (nums (map m_psi e) ++ nans e) in
  let delta := Trace "Δ" x (nums (map m_delta e) ++ nans e) in
  let calc := [Trace "Ψ_calc" x (nans e ++ nums (s_psi s)); Trace "Δ_calc" x (nans e ++ nums (s_delta s))] in
  Figure "Ψ/Δ (°)" (match c with PsiFirst => [psi; delta] | DeltaFirst => [delta; psi] end ++ calc).

(** self.fig.data[k].y = y; self.fig.data[k].name = name *)
Fixpoint set_trace (k : nat) (name : string) (y : list (option R)) (l : list trace) : list trace :=
  match l, k with
  | [], _ => []
  | t :: l', O => Trace name (t_x t) y :: l'
  | t :: l', S k' => t :: set_trace k' name y l'
  end.
Definition set_all (title : string) (new : list (string * list (option R))) (f : figure) : figure :=
  Figure title (fold_left (fun l p => set_trace (fst p) (fst (snd p)) (snd (snd p)) l)
    (combine (seq 0 (List.length new)) new) (f_data f)).

(** 34-58 set_psi_delta(update_exp=True, update_names=True); likewise below *)
Definition set_psi_delta (e : list row) (s : sim) (f : figure) : figure :=
  set_all "Ψ/Δ (°)" [("Ψ", nums (map m_psi e)); ("Δ", nums (map m_delta e)); ("Ψ_calc", nums (s_psi s)); ("Δ_calc", nums (s_delta s))] f.

(** 60-83 set_rho *)
Definition set_rho (e : list row) (s : sim) (f : figure) : figure :=
  set_all "ρ" [("ρr", nums (map (@fst R R) (exp_rho e))); ("ρi", nums (map (@snd R R) (exp_rho e)));
               ("ρr_calc", nums (map (@fst R R) (s_rho s))); ("ρi_calc", nums (map (@snd R R) (s_rho s)))] f.

(** 85-111 set_residual *)
Definition set_residual (e : list row) (s : sim) (f : figure) : res figure :=
  let* a := np_sub (map m_psi e) (s_psi s) in
  let* b := np_sub (map m_delta e) (s_delta s) in
  let* c := np_sub (map (@fst R R) (exp_rho e)) (map (@fst R R) (s_rho s)) in
  let* d := np_sub (map (@snd R R) (exp_rho e)) (map (@snd R R) (s_rho s)) in
  Ok (set_all "Residual" [("Psi Res.", nums a); ("Delta Res.", nums b); ("ρr Res.", nums c); ("ρi Res.", nums d)] f).

(** 113-141 set_pseudo_diel; the data frame of line 126 needs one value for each wavelength *)
Definition pseudo (angle : R) (z : list C) : list (option C) := map (fun r => calc_pseudo_diel r angle) z.
Definition part (p : C -> R) (l : list (option C)) : list (option R) := map (option_map p) l.
Definition set_pseudo_diel (angle : R) (e : list row) (s : sim) (f : figure) : res figure :=
  if Nat.eqb (List.length (s_rho s)) (List.length e) then
    let p := pseudo angle (s_rho s) in
    let q := pseudo angle (exp_rho e) in
    Ok (set_all "ϵ" [("ϵ1", part (@fst R R) q); ("ϵ2", part (@snd R R) q); ("ϵ1_calc", part (@fst R R) p); ("ϵ2_calc", part (@snd R R) p)] f)
  else Err ValueError.

(** 391-425 the object: measured data, angle, present simulation, dropdown and figure *)
Record fitter := Fitter { o_exp : list row; o_angle : R; o_sim : sim; o_display : display; o_fig : figure }.

Definition init (c : columns) (e : list row) (angle : R) (s : sim) : fitter :=
  Fitter e angle s PsiDelta (initial_figure c e s).

(** 143-154 update_selection, with the table of 418-423 *)
Definition update_selection (o : fitter) : res fitter :=
  let e := o_exp o in let s := o_sim o in let f := o_fig o in
  let* g := match o_display o with
            | PsiDelta => Ok (set_psi_delta e s f)
            | Rho => Ok (set_rho e s f)
            | PseudoDiel => set_pseudo_diel (o_angle o) e s f
            | Residual => set_residual e s f
            end in
  Ok (Fitter e (o_angle o) s (o_display o) g).

(** What happens to the object: another option of the dropdown is chosen (choosing the same one
    is no event), or the parameters have new values (a widget, Fit, Undo, Redo or Set initial),
    which give a new simulation. *)
Inductive event := Select (d : display) | Simulate (s : sim).

Definition display_eqb (a b : display) : bool :=
  match a, b with
  | PsiDelta, PsiDelta | Rho, Rho | PseudoDiel, PseudoDiel | Residual, Residual => true
  | _, _ => false
  end.

Definition on_event (o : fitter) (v : event) : res fitter :=
  match v with
  | Select d =>
      if display_eqb d (o_display o) then Ok o
      else update_selection (Fitter (o_exp o) (o_angle o) (o_sim o) d (o_fig o))
  | Simulate s => update_selection (Fitter (o_exp o) (o_angle o) s (o_display o) (o_fig o))
  end.

Fixpoint events (o : fitter) (l : list event) : res fitter :=
  match l with
  | [] => Ok o
  | v :: l' => let* o1 := on_event o v in events o1 l'
  end.

(** Columns of a data frame: their label (a text or, for an unnamed Series in pd.concat, a number)
    and their cells *)
Inductive label := Name (s : string) | Number (n : nat).
Inductive cells := Reals (l : list R) | Complexes (l : list C).
Record frame := Frame { d_index : list R; d_columns : list (label * cells) }.

(** An argument of get_model_data *)
Inductive arg := Text (s : string) | Flag (b : bool).
Definition is_text (a : arg) (s : string) : bool := match a with Text t => String.eqb t s | Flag _ => false end.

Definition exp_columns (c : columns) (e : list row) : list (label * cells) :=
  let p := (Name "Ψ", Reals (map m_psi e)) in
  let d := (Name "Δ", Reals (map m_delta e)) in
  match c with PsiFirst => [p; d] | DeltaFirst => [d; p] end.

(** 315-365 get_model_data: [given] is the simulation with the given parameters, if there are any,
    [fitted] the one with the fitted parameters.  A data frame needs one value for each row of
    the measured data. *)
Definition get_model_data (c : columns) (e : list row) (fitted : sim) (given : option sim) (repr : arg) (append_exp_data : bool) : res frame :=
  if negb (is_text repr "psi-delta" || is_text repr "rho") then Err ValueError else
  let (s, desc) := match given with None => (fitted, "fit") | Some s => (s, "model") end in
  let n := List.length e in
  if negb (Nat.eqb (List.length (s_psi s)) n && Nat.eqb (List.length (s_delta s)) n && Nat.eqb (List.length (s_rho s)) n) then Err ValueError else
  let exp_data := if is_text repr "rho" then [(Number 0, Complexes (exp_rho e))] else exp_columns c e in
  let sim_data := if is_text repr "rho" then [(Name ("ρ_" ++ desc)%string, Complexes (s_rho s))]
                  else [(Name ("Ψ_" ++ desc)%string, Reals (s_psi s)); (Name ("Δ_" ++ desc)%string, Reals (s_delta s))] in
  Ok (Frame (map m_lbda e) (if append_exp_data then exp_data ++ sim_data else sim_data)).

(** decorator.py:73-95 to_csv: the frame that is written; the flag is passed as second
    positional argument *)
Definition to_csv (c : columns) (e : list row) (fitted : sim) (given : option sim) (append_exp_data : bool) : res frame :=
  get_model_data c e fitted given (Flag append_exp_data) false.
