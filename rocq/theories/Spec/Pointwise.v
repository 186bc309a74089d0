(** What a sample does at one wavelength, written down without arrays: the permittivity of each
    material is a number (or has no value, or raises), and the sample is handed to the model of
    Solver2x2 at one wavelength. *)
From Coq Require Import Reals List.
From Coquelicot Require Import Complex.
From Coq Require Import List.
From Verif.Base Require Import Py Cx Mat.
From Verif.Model Require Import Units Ellips Structure Mixture Solver2 Spectrum.
Import ListNotations.
Open Scope R_scope.
Open Scope C_scope.
Open Scope py_scope.

Fixpoint eps_at (d : dispersion) (x : R) : res (option C) :=
  match d with
  | Const c => Ok (Some c)
  | Fun f => f x
  | Sum l => (fix go l acc := match l with [] => Ok acc | d :: l => let* v := eps_at d x in go l (let? a := acc in let? b := v in Some (a + b)) end) l (Some (RtoC 0))
  | Index n => let* v := eps_at n x in Ok (let? a := v in Some (a * a))
  end.

(** The nine elements of a tensor *)
Definition lift2m (f : C -> C -> option C) (a b : option C) : option C := let? x := a in let? y := b in f x y.
Definition mixed (k : mixing) (f : R) : option C -> option C -> option C :=
  match k with
  | VCA => lift2m (fun h g => Some (vca f h g))
  | Looyenga => lift2m (fun h g => Some (looyenga f h g))
  | MaxwellGarnett => lift2m (maxwell_garnett f)
  | Bruggeman => lift2m (bruggeman f)
  end.
Fixpoint tensor_at (m : material) (x : R) : res omat :=
  match m with
  | Single a b c =>
      let* a := eps_at a x in let* b := eps_at b x in let* c := eps_at c x in
      Ok (fun i j => match i, j with O, O => a | 1%nat, 1%nat => b | 2%nat, 2%nat => c | _, _ => Some (RtoC 0) end)
  | Rotated r m => let* e := tensor_at m x in Ok (omul (omul (of_mat r) e) (of_mat (mtr r)))
  | Mixed k h g f => let* h := tensor_at h x in let* g := tensor_at g x in Ok (fun i j => mixed k f (h i j) (g i j))
  end.

(** The first elements of the tensors of a profile, if all have a value *)
Definition elements_at (p : list (option R * material)) (x : R) : res (list (option C)) :=
  rmapM (fun l => let* e := tensor_at (snd l) x in Ok (e 0%nat 0%nat)) p.
Fixpoint all_some {A} (l : list (option A)) : option (list A) :=
  match l with [] => Some [] | a :: l => let? a := a in let? l := all_some l in Some (a :: l) end.
Definition thickness_of (d : option R) : R := match d with Some d => d | None => 0%R end.

(** Solver2x2 at one wavelength for these permittivities; no value if one of them has none *)
Definition solved (theta_i x : R) (ds : list R) (eps : list (option C)) : result2 :=
  match all_some eps with
  | Some (f :: rest) => solver2 theta_i x f (combine ds (removelast rest)) (last rest f)
  | _ => Result2 None None None
  end.
Definition point (theta_i : R) (s : structure material) (x : R) : res result2 :=
  let p := structure_profile s in
  let* eps := elements_at p x in
  Ok (solved theta_i x (map (fun l => thickness_of (fst l)) (removelast (tl p))) eps).

(** The power correction Re(n_b cos) / Re(n_f cos), which only the outer media enter *)
Definition power_at (theta_i : R) (eps_f eps_b : option C) : option R :=
  let? f := eps_f in let? b := eps_b in
  let n_f := Csqrt f in let n_b := Csqrt b in
  let? a_f := snell n_f theta_i n_f in
  let? a_b := snell n_f theta_i n_b in
  rdiv (Re (n_b * Ccos (fix_angle n_b a_b))) (Re (n_f * Ccos (fix_angle n_f a_f))).
