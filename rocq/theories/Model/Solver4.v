(** src/elli/solver4x4.py, at one wavelength.  np.linalg.eig is not modelled: the functions that
    call it take its result (q, w) as an argument, where w has the eigenvectors as columns. *)
From Coq Require Import Reals List.
From Coquelicot Require Import Complex.
From Verif.Base Require Import Py Cx Mat Mexp Det.
From Verif.Model Require Import Units Ellips Structure.
Import ListNotations.
Open Scope R_scope.
Open Scope C_scope.
Open Scope py_scope.

(** solver4x4.py:59-61, 113, 145: 2 pi / lbda; [None] for a zero wavelength *)
Definition wave_number (lbda : R) : option R := rdiv (2 * PI) lbda.

(** solver4x4.py:43-62 PropagatorLinear *)
Definition propagator_linear (delta : mat) (thickness lbda : R) : option mat :=
  let? k := wave_number lbda in
  Some (madd mid (mscal (Ci * RtoC thickness) (mscal (RtoC k) delta))).

(** solver4x4.py:100-117 PropagatorExpm; the matrix exponential of SciPy or PyTorch is taken to be
    exact *)
Definition propagator_expm (delta : mat) (thickness lbda : R) : option mat :=
  let? k := wave_number lbda in
  Some (mexp 4 (mscal (Ci * RtoC thickness) (mscal (RtoC k) delta))).

(** solver4x4.py:139, 222: np.lexsort((-Re q, -Im q)): ascending in the last key first, stable *)
Definition sorts_before (a b : C) : bool :=
  if Rlt_dec (- Im a) (- Im b) then true
  else if Rlt_dec (- Im b) (- Im a) then false
  else if Rlt_dec (- Re a) (- Re b) then true else false.
Fixpoint insert_idx (q : nat -> C) (j : nat) (l : list nat) : list nat :=
  match l with
  | [] => [j]
  | k :: l' => if sorts_before (q k) (q j) then k :: insert_idx q j l' else j :: l
  end.
Definition lexsort (q : nat -> C) : list nat := fold_right (insert_idx q) [] (seq 0 4).

(** np.take_along_axis(., idx, axis=-1), for the eigenvalues and for the columns *)
Definition take_vec {A} (q : nat -> A) (idx : list nat) : nat -> A := fun a => q (nth a idx 0%nat).
Definition take_cols (w : mat) (idx : list nat) : mat := fun i a => w i (nth a idx 0%nat).

(** solver4x4.py:120-152 PropagatorEig *)
Definition propagator_eig (eig : (nat -> C) * mat) (thickness lbda : R) : option mat :=
  let (q0, w0) := eig in
  let i := lexsort q0 in
  let q := take_vec q0 i in
  let w := take_cols w0 i in
  let? w_i := minv 4 w in
  let? e := rdiv 1 lbda in
  let p := mdiag (fun a => Cexp (q a * (2 * Ci) * RtoC thickness * RtoC PI * RtoC e)) in
  Some (mmul 4 (mmul 4 w p) w_i).

(** solver4x4.py:159-202 build_delta_matrix *)
Definition build_delta_matrix (k_x : C) (eps : mat) : option mat :=
  let e00 := eps 0%nat 0%nat in let e01 := eps 0%nat 1%nat in let e02 := eps 0%nat 2%nat in
  let e10 := eps 1%nat 0%nat in let e11 := eps 1%nat 1%nat in let e12 := eps 1%nat 2%nat in
  let e20 := eps 2%nat 0%nat in let e21 := eps 2%nat 1%nat in let e22 := eps 2%nat 2%nat in
  if Ceq_dec e22 0 then None else
  Some (mat_of
    [[- k_x * e20 / e22; - k_x * e21 / e22; RtoC 0; 1 - k_x * k_x / e22];
     [RtoC 0; RtoC 0; - (1); RtoC 0];
     [e12 * e20 / e22 - e10; k_x * k_x - e11 + e12 * e21 / e22; RtoC 0; k_x * e12 / e22];
     [e00 - e02 * e20 / e22; e01 - e02 * e21 / e22; RtoC 0; - k_x * e02 / e22]]).

(** np.argsort(-np.abs([a, b])) of two numbers *)
Definition argsort2 (a b : C) : list nat :=
  if Rlt_dec (- Cmod b) (- Cmod a) then [1; 0]%nat else [0; 1]%nat.

(** solver4x4.py:243-247: e / |e|, or 1 where e is zero *)
Definition unit_phase (e : C) : C := if Ceq_dec e 0 then RtoC 1 else e / RtoC (Cmod e).

(** solver4x4.py:205-259 transition_matrix_halfspace; the result of np.where in line 255 is not
    used by the code, so a vanishing sum gives inf or nan, here [None]. *)
Definition halfspace_order (eig : (nat -> C) * mat) : list nat :=
  let (q0, p0) := eig in
  let idx := lexsort q0 in
  let p := take_cols p0 idx in
  let i1 := argsort2 (p 1%nat 0%nat) (p 1%nat 1%nat) in
  let i2 := map (fun k => (2 + k)%nat) (argsort2 (p 1%nat 2%nat) (p 1%nat 3%nat)) in
  let i := (i1 ++ i2)%list in
  let i := [nth 0 i 0; nth 2 i 0; nth 1 i 0; nth 3 i 0]%nat in
  map (fun k => nth k idx 0%nat) i.
Definition halfspace_phases (p : mat) : mat :=
  let e a := match a with 0%nat | 1%nat => p 1%nat a | _ => p 0%nat a end in
  fun i a => p i a * unit_phase (e a).
Definition transition_matrix_halfspace (eig : (nat -> C) * mat) : option mat :=
  let p := halfspace_phases (take_cols (snd eig) (halfspace_order eig)) in
  let c := p 1%nat 0%nat + p 1%nat 1%nat in
  if Ceq_dec c 0 then None else Some (fun i a => 2 * p i a / c).

(** solver4x4.py:262-304 transition_matrix_iso_halfspace; [None] is the division by zero *)
Definition iso_n (eps : mat) : C := Csqrt (eps 0%nat 0%nat).
Definition iso_cos (k_x : C) (eps : mat) : C :=
  Csqrt (1 - (k_x / iso_n eps) * (k_x / iso_n eps)).
Definition transition_matrix_iso_halfspace (k_x : C) (eps : mat) (inv : bool) : option mat :=
  let n_x := iso_n eps in
  if Ceq_dec n_x 0 then None else
  let cos_phi := iso_cos k_x eps in
  if inv then
    if Ceq_dec cos_phi 0 then None else
    Some (mscal (RtoC (1 / 2)) (mat_of
      [[RtoC 0; RtoC 1; - (1) / cos_phi / n_x; RtoC 0];
       [RtoC 0; RtoC 1; 1 / cos_phi / n_x; RtoC 0];
       [1 / cos_phi; RtoC 0; RtoC 0; 1 / n_x];
       [- (1) / cos_phi; RtoC 0; RtoC 0; 1 / n_x]]))
  else
    Some (mat_of
      [[RtoC 0; RtoC 0; cos_phi; - cos_phi];
       [RtoC 1; RtoC 1; RtoC 0; RtoC 0];
       [- n_x * cos_phi; n_x * cos_phi; RtoC 0; RtoC 0];
       [RtoC 0; RtoC 0; n_x; n_x]]).

(** solver4x4.py:307-322 get_k_z and materials.py:53-62 get_refractive_index (the elementwise
    square root of the tensor) *)
Definition get_k_z (eps : mat) (k_x : C) : C :=
  let nx := Csqrt (eps 0%nat 0%nat) in
  Csqrt (nx * nx - k_x * k_x).

(** solver4x4.py:337-338 *)
Definition reduced_k_x (theta_i : R) (eps_f : mat) : C :=
  Csqrt (eps_f 0%nat 0%nat) * RtoC (sin (deg2rad theta_i)).

Section Calculate.
(** the propagator of the solver: delta matrix, thickness, wavelength *)
Variable propagator : mat -> R -> R -> option mat.

(** solver4x4.py:340, 351-355: the layers from the last to the first *)
Definition layer_product (k_x : C) (lbda : R) (layers : list (R * mat)) (m_t : mat) : option mat :=
  fold_right (fun l acc =>
    let? m := acc in
    let? delta := build_delta_matrix k_x (snd l) in
    let? m_p := propagator delta (- fst l)%R lbda in
    Some (mmul 4 m_p m)) (Some m_t) layers.

(** solver4x4.py:357-374: (jones_matrix_r, jones_matrix_t); the index sets 2::-2 and 3::-2 are
    {2, 0} and {3, 1} *)
Definition jones4 (theta_i lbda : R) (eps_f : mat) (layers : list (R * mat)) (m_exit : mat)
  : option (mat * mat) :=
  let k_x := reduced_k_x theta_i eps_f in
  let? m_t := layer_product k_x lbda layers m_exit in
  let? m_lf := transition_matrix_iso_halfspace k_x eps_f true in
  let m_t := mmul 4 m_lf m_t in
  let t_it := mat_of [[m_t 2%nat 2%nat; m_t 2%nat 0%nat]; [m_t 0%nat 2%nat; m_t 0%nat 0%nat]] in
  let? t_ti := minv 2 t_it in
  let t_rt := mat_of [[m_t 3%nat 2%nat; m_t 3%nat 0%nat]; [m_t 1%nat 2%nat; m_t 1%nat 0%nat]] in
  Some (mmul 2 t_rt t_ti, t_ti).

(** What is passed to Result: the Jones matrices and the power correction, 1 if none is given
    (result.py:365-368).  [None] where numpy raises, or produces nan or inf. *)
Record result4 := Result4 { jones_r4 : mat; jones_t4 : mat; power_correction4 : option R }.

(** solver4x4.py:330-389 calculate, for a back material of the class IsotropicMaterial *)
Definition solver4 (theta_i lbda : R) (eps_f : mat) (layers : list (R * mat)) (eps_b : mat)
  : option result4 :=
  let k_x := reduced_k_x theta_i eps_f in
  let? m_exit := transition_matrix_iso_halfspace k_x eps_b false in
  let? j := jones4 theta_i lbda eps_f layers m_exit in
  let (j_r, j_t) := j in
  Some (Result4 j_r j_t (rdiv (Re (get_k_z eps_b k_x)) (Re (get_k_z eps_f k_x)))).

(** and for any other back material; [eig] is the result of np.linalg.eig for its delta matrix *)
Definition solver4_aniso (theta_i lbda : R) (eps_f : mat) (layers : list (R * mat)) (eps_b : mat)
    (eig : (nat -> C) * mat) : option result4 :=
  let k_x := reduced_k_x theta_i eps_f in
  let? _ := build_delta_matrix k_x eps_b in
  let? m_exit := transition_matrix_halfspace eig in
  let? j := jones4 theta_i lbda eps_f layers m_exit in
  let (j_r, j_t) := j in
  Some (Result4 j_r j_t (Some 1%R)).
End Calculate.

(** Structure.get_permittivity_profile in front of the solver, for an IsotropicMaterial behind it *)
Definition solver4_structure propagator (theta_i lbda : R) (s : structure mat) : option result4 :=
  match structure_profile s with
  | (_, f) :: rest =>
      let? ls := fold_right (fun (l : option R * mat) acc => match fst l with
        | None => None
        | Some d => let? r := acc in Some ((d, snd l) :: r) end) (Some []) (removelast rest) in
      solver4 propagator theta_i lbda f ls (snd (last rest (None, f)))
  | [] => None
  end.
