(** src/elli/solver2x2.py, at one wavelength.  Only the [0, 0] elements of the tensors enter. *)
From Coq Require Import Reals List.
From Coquelicot Require Import Complex.
From Verif.Base Require Import Py Cx Mat.
From Verif.Model Require Import Units Ellips Structure.
Import ListNotations.
Open Scope R_scope.
Open Scope C_scope.
Open Scope py_scope.

(** solver2x2.py:142-147 is_forward_angle *)
Definition is_forward_angle (n theta : C) : bool :=
  let ncostheta := n * Ccos theta in
  if Rlt_dec (1 / 10 ^ 10) (Rabs (Im ncostheta))
  then if Rlt_dec 0 (Im ncostheta) then true else false
  else if Rlt_dec 0 (Re ncostheta) then true else false.

(** solver2x2.py:20: one element of [angles]; [None] is the division by a zero index *)
Definition snell (n0 : C) (theta_i : R) (n : C) : option C :=
  let? q := cdiv (n0 * RtoC (sin (deg2rad theta_i))) n in
  Some (Casin q).

(** solver2x2.py:22-31: the branch of the angles of the half spaces *)
Definition fix_angle (n angle : C) : C :=
  if is_forward_angle n angle then angle else RtoC PI - angle.

(** solver2x2.py:19-33 list_snell for the front, the layers between and the back medium *)
Definition list_snell (theta_i : R) (n_f : C) (n_layers : list C) (n_b : C)
  : option (C * list C * C) :=
  let? a_f := snell n_f theta_i n_f in
  let? a_layers := fold_right (fun n acc =>
      let? a := snell n_f theta_i n in let? l := acc in Some (a :: l)) (Some []) n_layers in
  let? a_b := snell n_f theta_i n_b in
  Some (fix_angle n_f a_f, a_layers, fix_angle n_b a_b).

(** solver2x2.py:116-140 fresnel: (r_s, t_s) and (r_p, t_p) *)
Definition fresnel_s (n_i n_t th_i th_t : C) : option (C * C) :=
  let cos_i := Ccos th_i in
  let cos_t := Ccos th_t in
  let? r_s := cdiv (n_i * cos_i - n_t * cos_t) (n_i * cos_i + n_t * cos_t) in
  let? t_s := cdiv (2 * n_i * cos_i) (n_i * cos_i + n_t * cos_t) in
  Some (r_s, t_s).
Definition fresnel_p (n_i n_t th_i th_t : C) : option (C * C) :=
  let cos_i := Ccos th_i in
  let cos_t := Ccos th_t in
  let? r_p := cdiv (n_t * cos_i - n_i * cos_t) (n_t * cos_i + n_i * cos_t) in
  let? t_p := cdiv (2 * n_i * cos_i) (n_t * cos_i + n_i * cos_t) in
  Some (r_p, t_p).

(** A matrix divided by a number, [None] for zero *)
Definition mdivc (A : mat) (t : C) : option mat :=
  if Ceq_dec t 0 then None else Some (fun i j => A i j / t).

(** solver2x2.py:77-78: [[1, r], [r, 1]] / t *)
Definition interface_matrix (rt : C * C) : option mat :=
  let (r, t) := rt in
  mdivc (mat_of [[RtoC 1; r]; [r; RtoC 1]]) t.

(** solver2x2.py:84-92: [[em, r em], [r ep, ep]] / t *)
Definition layer_matrix (delta : C) (rt : C * C) : option mat :=
  let (r, t) := rt in
  let em := Cexp (- Ci * delta) in
  let ep := Cexp (Ci * delta) in
  mdivc (mat_of [[em; r * em]; [r * ep; ep]]) t.

(** A medium: index and angle; a layer also has its phase. *)
Definition medium := (C * C)%type.
Definition phase_layer := (C * C * C)%type.

Definition next_medium (rest : list phase_layer) (back : medium) : medium :=
  match rest with (n, th, _) :: _ => (n, th) | [] => back end.

Section Polarisation.
Variable fresnel : C -> C -> C -> C -> option (C * C).

(** solver2x2.py:80-92: the loop over the layers *)
Fixpoint loop (M : mat) (layers : list phase_layer) (back : medium) : option mat :=
  match layers with
  | [] => Some M
  | (n, th, delta) :: rest =>
      let (n', th') := next_medium rest back in
      let? rt := fresnel n n' th th' in
      let? L := layer_matrix delta rt in
      loop (mmul 2 M L) rest back
  end.

(** solver2x2.py:76-97: the total matrix, and the reflected and transmitted amplitude *)
Definition amplitudes (front : medium) (layers : list phase_layer) (back : medium)
  : option (C * C) :=
  let (n, th) := front in
  let (n', th') := next_medium layers back in
  let? rt := fresnel n n' th th' in
  let? M0 := interface_matrix rt in
  let? M := loop M0 layers back in
  let? r := cdiv (M 1%nat 0%nat) (M 0%nat 0%nat) in
  let? t := cdiv 1 (M 0%nat 0%nat) in
  Some (r, t).
End Polarisation.

(** What Result gets: the diagonals of the Jones matrices and the power correction; [None] where
    numpy produces nan or inf. *)
Record result2 := Result2 {
  rt_p : option (C * C);   (* (r_pp, t_pp); the off diagonal elements are zero *)
  rt_s : option (C * C);
  power_correction : option R }.

(** solver2x2.py:35-114 calculate: the indices, the angles and phases, the amplitudes.  The
    warnings about active media have no effect on the result. *)
Definition solver2_media (theta_i lbda : R) (eps_f : C) (layers : list (R * C)) (eps_b : C)
  : option (medium * list phase_layer * medium) :=
  let n_f := Csqrt eps_f in
  let n_layers := map (fun l => Csqrt (snd l)) layers in
  let n_b := Csqrt eps_b in
  let? th := list_snell theta_i n_f n_layers n_b in
  let '(th_f, th_layers, th_b) := th in
  let? k := cdiv (2 * RtoC PI) (RtoC lbda) in
  let ls := map (fun '((d, _), (n, th)) => (n, th, k * n * Ccos th * RtoC d))
                (combine layers (combine n_layers th_layers)) in
  Some ((n_f, th_f), ls, (n_b, th_b)).

Definition solver2 (theta_i lbda : R) (eps_f : C) (layers : list (R * C)) (eps_b : C) : result2 :=
  match solver2_media theta_i lbda eps_f layers eps_b with
  | None => Result2 None None None
  | Some (front, ls, back) =>
      Result2 (amplitudes fresnel_p front ls back) (amplitudes fresnel_s front ls back)
        (rdiv (Re (fst back * Ccos (snd back))) (Re (fst front * Ccos (snd front))))
  end.

(** solver2x2.py:37-57 and structure.py:467-486: the solver reads the permittivity profile.
    Infinite thickness of an inner layer is not modelled (such a profile gives no result). *)
Definition inner_layers (p : list (option R * mat)) : option (list (R * C)) :=
  fold_right (fun l acc => match fst l with
    | None => None
    | Some d => let? r := acc in Some ((d, snd l 0%nat 0%nat) :: r) end) (Some []) p.
Definition solver2_structure (theta_i lbda : R) (s : structure mat) : option result2 :=
  match structure_profile s with
  | (_, f) :: rest =>
      let? ls := inner_layers (removelast rest) in
      Some (solver2 theta_i lbda (f 0%nat 0%nat) ls (snd (last rest (None, f)) 0%nat 0%nat))
  | [] => None
  end.

(** solver2x2.py:101-104: the Jones matrices, in the order p, s *)
Definition jones2 (part : C * C -> C) (res : result2) : option mat :=
  let? p := rt_p res in
  let? s := rt_s res in
  Some (mat_of [[part p; RtoC 0]; [RtoC 0; part s]]).
Definition jones2_r : result2 -> option mat := jones2 fst.
Definition jones2_t : result2 -> option mat := jones2 snd.
