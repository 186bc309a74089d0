(** The evaluation of a whole list of wavelengths by Solver4x4, from the permittivity profile to the
    Jones matrices, as the array program that it is (the tensors come from Model/Spectrum.v).  An array
    of shape (N,) is a list, an array of shape (N, 4, 4), (N, 3, 3) or (N, 2, 2) a list of matrices;
    [None] is nan or inf.  The wavelengths are floats. *)
From Coq Require Import Reals List Arith.
From Coquelicot Require Import Complex.
From Coq Require Import List.
From Verif.Base Require Import Py Cx Mat Mexp Det.
From Verif.Model Require Import Units Ellips Structure Mixture Solver2 Solver4 Spectrum.
Import ListNotations.
Open Scope R_scope.
Open Scope C_scope.
Open Scope py_scope.

(** Arithmetic of one-dimensional arrays, with broadcasting *)
Definition lift (f : option C -> option C -> option C) (a b : res row) : res row :=
  let* x := a in let* y := b in bc2 f x y.
Definition neg (a : res row) : res row := let* x := a in Ok (map (o1 Copp) x).
Declare Scope row_scope.
Delimit Scope row_scope with row.
Infix "*" := (lift (o2 Cmult)) : row_scope.
Infix "/" := (lift odiv) : row_scope.
Infix "+" := (lift (o2 Cplus)) : row_scope.
Infix "-" := (lift (o2 Cminus)) : row_scope.
Notation "- x" := (neg x) : row_scope.

(** np.moveaxis(np.array([[row, ...], ...]), 2, 0), solver4x4.py:180-202, 281-304: rows of different
    lengths raise ValueError *)
Definition omat_of (l : list (list (option C))) : omat := fun i j => nth j (nth i l []) None.
Definition np_array (a : list (list (res row))) : res (list omat) :=
  let* a := rmapM (fun l => rmapM (fun r => r) l) a in
  let n := length (hd [] (hd [] a)) in
  if forallb (fun l => forallb (fun r => Nat.eqb (length r) n) l) a
  then Ok (map (fun k => omat_of (map (map (fun r => nth k r None)) a)) (seq 0 n))
  else Err ValueError.

(** eps[:, i, j] *)
Definition element (eps : tensors) (i j : nat) : row := map (fun m => m i j) eps.

(** solver4x4.py:159-202 build_delta_matrix; k_x is an array here, so length is its length *)
Definition build_delta_arrays (k : row) (eps : tensors) : res (list omat) :=
  let zeros := Ok (repeat (Some (RtoC 0)) (length k)) in
  let ones := Ok (repeat (Some (RtoC 1)) (length k)) in
  let k_x := Ok k in
  let k_x2 := (k_x * k_x)%row in
  let e i j := Ok (element eps i j) in
  np_array
    [[(- k_x * e 2%nat 0%nat / e 2%nat 2%nat)%row; (- k_x * e 2%nat 1%nat / e 2%nat 2%nat)%row; zeros; (ones - k_x2 / e 2%nat 2%nat)%row];
     [zeros; zeros; (- ones)%row; zeros];
     [(e 1%nat 2%nat * e 2%nat 0%nat / e 2%nat 2%nat - e 1%nat 0%nat)%row;
      (k_x2 - e 1%nat 1%nat + e 1%nat 2%nat * e 2%nat 1%nat / e 2%nat 2%nat)%row; zeros; (k_x * e 1%nat 2%nat / e 2%nat 2%nat)%row];
     [(e 0%nat 0%nat - e 0%nat 2%nat * e 2%nat 0%nat / e 2%nat 2%nat)%row;
      (e 0%nat 1%nat - e 0%nat 2%nat * e 2%nat 1%nat / e 2%nat 2%nat)%row; zeros; (- k_x * e 0%nat 2%nat / e 2%nat 2%nat)%row]].

(** solver4x4.py:262-304 transition_matrix_iso_halfspace *)
Definition iso_halfspace_arrays (k : row) (eps : tensors) (inv : bool) : res (list omat) :=
  let n_x := Ok (map (o1 Csqrt) (element eps 0 0)) in
  let k_x := Ok k in
  let* sin_phi := (k_x / n_x)%row in
  let cos_phi := Ok (map (o1 (fun s => Csqrt (1 - s * s))) sin_phi) in
  let zeros := Ok (repeat (Some (RtoC 0)) (length k)) in
  let ones := Ok (repeat (Some (RtoC 1)) (length k)) in
  if inv then
    let* a := np_array
      [[zeros; ones; (- ones / cos_phi / n_x)%row; zeros];
       [zeros; ones; (ones / cos_phi / n_x)%row; zeros];
       [(ones / cos_phi)%row; zeros; zeros; (ones / n_x)%row];
       [(- ones / cos_phi)%row; zeros; zeros; (ones / n_x)%row]] in
    Ok (map (fun (m : omat) i j => o1 (Cmult (RtoC (1 / 2))) (m i j)) a)
  else
    np_array
      [[zeros; zeros; cos_phi; (- cos_phi)%row];
       [ones; ones; zeros; zeros];
       [(- n_x * cos_phi)%row; (n_x * cos_phi)%row; zeros; zeros];
       [zeros; zeros; n_x; n_x]].

(** The product @ of stacks of n x n matrices; nan spreads also when it is multiplied by zero *)
Fixpoint osum (n : nat) (f : nat -> option C) : option C :=
  match n with O => Some (RtoC 0) | S m => o2 Cplus (osum m f) (f m) end.
Definition omul_n (n : nat) (a b : omat) : omat := fun i j => osum n (fun k => o2 Cmult (a i k) (b k j)).
Definition matmul (n : nat) (a b : list omat) : res (list omat) := bc2 (omul_n n) a b.

(** The numbers of a matrix without nan *)
Definition values (n : nat) (m : omat) : option mat :=
  if forallb (fun i => forallb (fun j => match m i j with Some _ => true | None => false end) (seq 0 n)) (seq 0 n)
  then Some (fun i j => match m i j with Some z => z | None => RtoC 0 end) else None.
Definition of_opt (m : option mat) : omat := match m with Some m => of_mat m | None => fun _ _ => None end.

(** np.linalg.inv of a stack: one singular matrix makes it raise; a matrix with nan counts as regular
    and has no inverse with values.  That LAPACK also reports a column of zeros beside a column with nan
    is not modelled: the matrices of calculate have all or no values in such a case. *)
Definition inv_one (n : nat) (m : omat) : res omat :=
  match values n m with
  | None => Ok (fun _ _ => None)
  | Some v => match minv n v with Some i => Ok (of_mat i) | None => Err LinAlgError end
  end.

Section Eigen.
(** np.linalg.eig of one matrix: eigenvalues and eigenvectors, or LinAlgError *)
Variable eig : mat -> option ((nat -> C) * mat).

(** np.linalg.eig of a stack: nan or inf anywhere makes it raise *)
Definition eig_one (m : omat) : res ((nat -> C) * mat) :=
  match values 4 m with
  | None => Err LinAlgError
  | Some v => match eig v with Some r => Ok r | None => Err LinAlgError end
  end.

Inductive propagator := Linear | Expm | Eig.

(** np.einsum("nij,n->nij", delta, 2 * sc.pi / lbda), solver4x4.py:59-61, 113 *)
Definition times_wave_number (delta : list omat) (lbda : list R) : res (list omat) :=
  bc2 (fun (m : omat) k i j => o2 Cmult (m i j) k) delta (map (fun l => option_map RtoC (wave_number l)) lbda).

(** solver4x4.py:43-62, 100-117, 120-152 calculate_propagation.  expm acts on every matrix of the stack
    and is taken to be exact; for a matrix with nan its result is nan. *)
Definition propagation (p : propagator) (delta : list omat) (thickness : R) (lbda : list R) : res (list omat) :=
  match p with
  | Linear =>
      let* e := times_wave_number delta lbda in
      Ok (map (fun (m : omat) i j => o2 Cplus (Some (mid i j)) (o1 (Cmult (Ci * RtoC thickness)) (m i j))) e)
  | Expm =>
      let* e := times_wave_number delta lbda in
      let mats := map (fun (m : omat) i j => o1 (Cmult (Ci * RtoC thickness)) (m i j)) e in
      Ok (map (fun m => of_opt (option_map (mexp 4) (values 4 m))) mats)
  | Eig =>
      let* qw := rmapM eig_one delta in
      let sorted := map (fun '(q, w) => let i := lexsort q in (take_vec q i, take_cols w i)) qw in
      let* w_i := rmapM (fun qw => inv_one 4 (of_mat (snd qw))) sorted in
      let* q := bc2 (fun (qw : (nat -> C) * mat) l a => let? e := rdiv 1 l in
          Some (Cexp (fst qw a * (2 * Ci) * RtoC thickness * RtoC PI * RtoC e))) sorted lbda in
      let p := map (fun (q : nat -> option C) i j => if Nat.eqb i j then q i else Some (RtoC 0)) q in
      let* wp := matmul 4 (map (fun qw => of_mat (snd qw)) sorted) p in
      matmul 4 wp w_i
  end.

(** solver4x4.py:205-259 transition_matrix_halfspace: the sorting, the phases and the normalisation act
    on each matrix of the stack, see Model/Solver4.v *)
Definition halfspace_arrays (delta : list omat) : res (list omat) :=
  let* qp := rmapM eig_one delta in
  Ok (map (fun e => of_opt (transition_matrix_halfspace e)) qp).

(** m[:, rows, cols] *)
Definition sub (rows cols : list nat) (m : omat) : omat := fun i j => m (nth i rows 0%nat) (nth j cols 0%nat).

(** solver4x4.py:307-322 get_k_z *)
Definition k_z_arrays (eps : tensors) (k : row) : res row :=
  let n := Ok (map (o1 Csqrt) (element eps 0 0)) in
  let* d := (n * n - Ok k * Ok k)%row in
  Ok (map (o1 Csqrt) d).

(** What Result gets; without a power correction it takes ones (result.py:365-368) *)
Record result4_arrays := Result4Arrays { jones_r_arr : list omat; jones_t_arr : list omat; power_arr : list (option R) }.

(** solver4x4.py:330-389 calculate; [iso_back]: the back material is an IsotropicMaterial.  The tensors
    of the outer media, which the code evaluates again, are those of the profile. *)
Definition calculate4 (p : propagator) (iso_back : bool) (theta_i : R) (lbda : list R)
    (front : tensors) (inner : list (R * tensors)) (back : tensors) : res result4_arrays :=
  let k_x := map (o1 (fun n => n * RtoC (sin (deg2rad theta_i)))) (map (o1 Csqrt) (element front 0 0)) in
  let* m_t := if iso_back then iso_halfspace_arrays k_x back false
              else let* delta := build_delta_arrays k_x back in halfspace_arrays delta in
  let* m_t := fold_left (fun acc l =>
      let* m_t := acc in
      let* delta := build_delta_arrays k_x (snd l) in
      let* m_p := propagation p delta (- fst l)%R lbda in
      matmul 4 m_p m_t) (rev inner) (Ok m_t) in
  let* m_lf := iso_halfspace_arrays k_x front true in
  let* m_t := matmul 4 m_lf m_t in
  let t_it := map (sub [2; 0]%nat [2; 0]%nat) m_t in
  let* t_ti := rmapM (inv_one 2) t_it in
  let t_rt := map (sub [3; 1]%nat [2; 0]%nat) m_t in
  let* t_ri := matmul 2 t_rt t_ti in
  let* power := if iso_back then
      let* k_z_f := k_z_arrays front k_x in
      let* k_z_b := k_z_arrays back k_x in
      bc2 ordiv (map oreal k_z_b) (map oreal k_z_f)
    else Ok (map (fun _ => Some 1%R) lbda) in
  Ok (Result4Arrays t_ri t_ti power).

(** experiment.py:152-163 evaluate with Solver4x4; solver.py:28-35 *)
Definition evaluate4 (p : propagator) (iso_back : bool) (theta_i : R) (s : structure material) (lbda : list R)
  : res result4_arrays :=
  let* prof := tensors_of_profile (structure_profile s) lbda in
  match prof with
  | (_, front) :: rest =>
      match inner_of (removelast rest) with
      | Some inner => calculate4 p iso_back theta_i lbda front inner (snd (last rest (None, front)))
      | None => Err ValueError   (* infinite thickness inside: not modelled, impossible for a Structure *)
      end
  | [] => Err IndexError
  end.
End Eigen.
