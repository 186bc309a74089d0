(** The evaluation of a whole list of wavelengths by Solver2x2, from the dispersions to the Jones
    matrices, as the array program that it is.  A one-dimensional array is a list, an array with more
    axes a list of those or (for tensors) a list of matrices; [None] is nan or inf.  The wavelengths
    are floats (for integers see Model/IntWave.v). *)
From Coq Require Import Reals List Arith.
From Coquelicot Require Import Complex.
From Coq Require Import List.
From Verif.Base Require Import Py Cx Mat.
From Verif.Model Require Import Units Ellips Structure Mixture Solver2.
Import ListNotations.
Open Scope R_scope.
Open Scope C_scope.
Open Scope py_scope.

(** A binary operation of numpy on two one-dimensional arrays, with broadcasting *)
Definition bc2 {A B D} (f : A -> B -> D) (x : list A) (y : list B) : res (list D) :=
  if Nat.eqb (length x) (length y) then Ok (map (fun '(a, b) => f a b) (combine x y))
  else match x, y with
       | [a], _ => Ok (map (f a) y)
       | _, [b] => Ok (map (fun a => f a b) x)
       | _, _ => Err ValueError
       end.

Definition row := list (option C).
Definition o1 (f : C -> C) (a : option C) : option C := option_map f a.
Definition o2 (f : C -> C -> C) (a b : option C) : option C := let? x := a in let? y := b in Some (f x y).
Definition odiv (a b : option C) : option C := let? x := a in let? y := b in cdiv x y.

(** What a dispersion returns: a number or an array *)
Inductive dval := Scal (v : option C) | Arr (l : row).
Definition dadd (a b : dval) : res dval :=
  match a, b with
  | Scal a, Scal b => Ok (Scal (o2 Cplus a b))
  | Scal a, Arr l => Ok (Arr (map (o2 Cplus a) l))
  | Arr l, Scal b => Ok (Arr (map (fun a => o2 Cplus a b) l))
  | Arr l, Arr l' => let* r := bc2 (o2 Cplus) l l' in Ok (Arr r)
  end.

(** Dispersions: EpsilonInf and ConstantRefractiveIndex return a number whatever the wavelengths are
    (epsilon_inf.py:26-27, constant_refractive_index.py:25-26); the formulas and tables act on each
    wavelength and an exception for one is an exception for the array; sums (base_dispersion.py:370-374,
    411-415); an index dispersion squares (base_dispersion.py:310-311), the parts of [Index] are indices. *)
Inductive dispersion :=
  | Const (c : C)
  | Fun (f : R -> res (option C))
  | Sum (l : list dispersion)
  | Index (n : dispersion).

Fixpoint dielectric (d : dispersion) (lbda : list R) : res dval :=
  match d with
  | Const c => Ok (Scal (Some c))
  | Fun f => let* r := rmapM f lbda in Ok (Arr r)
  | Sum l => (fix go l acc := match l with [] => Ok acc | d :: l =>
        let* v := dielectric d lbda in let* a := dadd acc v in go l a end) l (Scal (Some (RtoC 0)))
  | Index n => let* v := dielectric n lbda in
      Ok (match v with Scal v => Scal (o2 Cmult v v) | Arr l => Arr (map (fun v => o2 Cmult v v) l) end)
  end.

(** An array of shape (N, 3, 3) *)
Definition omat := nat -> nat -> option C.
Definition tensors := list omat.

(** Assignment of a dispersion's value to epsilon[:, i, i], materials.py:107-109 *)
Definition oset (m : omat) (i j : nat) (v : option C) : omat :=
  fun i' j' => if (Nat.eqb i' i && Nat.eqb j' j)%bool then v else m i' j'.
Definition set_diag (e : tensors) (i : nat) (v : dval) : res tensors :=
  match v with
  | Scal v => Ok (map (fun m => oset m i i v) e)
  | Arr l => if Nat.eqb (length l) (length e) then Ok (map (fun '(m, v) => oset m i i v) (combine e l))
             else match l with [v] => Ok (map (fun m => oset m i i v) e) | _ => Err ValueError end
  end.

(** R @ epsilon @ R.T of materials.py:111-112 and structure.py:322, a stack of products of 3x3 matrices *)
Definition osum3 (f : nat -> option C) : option C := o2 Cplus (o2 Cplus (f 0%nat) (f 1%nat)) (f 2%nat).
Definition omul (a b : omat) : omat := fun i j => osum3 (fun k => o2 Cmult (a i k) (b k j)).
Definition of_mat (m : mat) : omat := fun i j => Some (m i j).
Definition rotate (r : mat) (e : tensors) : tensors :=
  map (fun m => omul (omul (of_mat r) m) (of_mat (mtr r))) e.

(** Materials: with three dispersions (isotropic, uniaxial and biaxial ones), rotated (also by a
    TwistedLayer, structure.py:310-322), mixed with the fraction f (also by a VaryingMixtureLayer,
    structure.py:384-397) *)
Inductive mixing := VCA | Looyenga | MaxwellGarnett | Bruggeman.
Inductive material :=
  | Single (x y z : dispersion)
  | Rotated (r : mat) (m : material)
  | Mixed (k : mixing) (host guest : material) (f : R).

Definition elementwise (f : option C -> option C -> option C) (a b : omat) : omat := fun i j => f (a i j) (b i j).
Definition is_zero (a : option C) : bool := match a with Some z => if Ceq_dec z 0 then true else false | None => false end.
(** np.equal; nan is not equal to itself *)
Definition oeq (a b : option C) : bool :=
  match a, b with Some x, Some y => if Ceq_dec x y then true else false | _, _ => false end.

(** materials.py:390-418; np.where takes the host where both are zero *)
Definition garnett (f : R) (h g : option C) : option C :=
  let quotient := odiv
    (o2 Cmult h (o2 Cplus (o2 Cplus (o1 (Cmult (2 * RtoC f)) (o2 Cminus g h)) g) (o1 (Cmult 2) h)))
    (o2 Cminus (o2 Cplus (o1 (Cmult 2) h) g) (o1 (Cmult (RtoC f)) (o2 Cminus g h))) in
  if (is_zero h && is_zero g)%bool then h else quotient.

(** materials.py:441-469: the positions of an array of shape (N, 3, 3) at which [p] holds, in the order
    of np.nonzero; reading and assigning the elements at such positions *)
Definition index3 := (nat * (nat * nat))%type.
Definition positions (n : nat) : list index3 := list_prod (seq 0 n) (list_prod (seq 0 3) (seq 0 3)).
Definition get3 (e : tensors) (p : index3) : option C :=
  let '(n, (i, j)) := p in match nth_error e n with Some m => m i j | None => None end.
Definition set3 (e : tensors) (p : index3) (v : option C) : tensors :=
  let '(n, (i, j)) := p in
  map (fun '(k, m) => if Nat.eqb k n then oset m i j v else m) (combine (seq 0 (length e)) e).
Definition assign (e : tensors) (ps : list index3) (v : row) : tensors :=
  fold_left (fun e '(p, v) => set3 e p v) (combine ps v) e.

Definition bruggeman_arrays (f : R) (e_h e_g : tensors) : res tensors :=
  if negb (Nat.eqb (length e_h) (length e_g)) then Err ValueError else   (* np.equal of different shapes *)
  let mask_equal := filter (fun p => oeq (get3 e_h p) (get3 e_g p)) (positions (length e_h)) in
  let mask_different := filter (fun p => negb (oeq (get3 e_h p) (get3 e_g p))) (positions (length e_h)) in
  let root_h := map (fun p => o1 Csqrt (get3 e_h p)) mask_different in
  let root_g := map (fun p => o1 Csqrt (get3 e_g p)) mask_different in
  let* p := bc2 odiv root_h root_g in
  let* d := bc2 (o2 Cminus) (map (odiv (Some (RtoC 1))) p) p in
  let* s := bc2 (o2 Cplus) (map (o1 (Cmult (RtoC (3 * f - 1)))) d) p in
  let b := map (o1 (Cmult (RtoC (1 / 4)))) s in
  let* z := bc2 (o2 Cplus) b (map (o1 (fun x => Csqrt (x * x + RtoC (1 / 2)))) b) in
  let* zh := bc2 (o2 Cmult) z root_h in
  let* v := bc2 (o2 Cmult) zh root_g in
  let e_mix := map (fun _ => (fun _ _ => None) : omat) e_h in
  let e_mix := assign e_mix mask_equal (map (get3 e_h) mask_equal) in
  Ok (assign e_mix mask_different v).

Definition mix_arrays (k : mixing) (f : R) (e_h e_g : tensors) : res tensors :=
  match k with
  | VCA => bc2 (elementwise (fun h g => o2 Cplus (o1 (fun x => x * (1 - RtoC f)) h) (o1 (fun x => x * RtoC f) g))) e_h e_g
  | Looyenga => bc2 (elementwise (fun h g => o1 (fun s => Cpow s 3)
      (o2 Cplus (o1 (fun x => Cpowr x (1 / 3) * (1 - RtoC f)) h) (o1 (fun x => Cpowr x (1 / 3) * RtoC f) g)))) e_h e_g
  | MaxwellGarnett => bc2 (elementwise (garnett f)) e_h e_g
  | Bruggeman => bruggeman_arrays f e_h e_g
  end.

(** materials.py:88-115 SingleMaterial.get_tensor, 295-304 MixtureMaterial.get_tensor *)
Fixpoint get_tensors (m : material) (lbda : list R) : res tensors :=
  match m with
  | Single x y z =>
      let e := repeat ((fun _ _ => Some (RtoC 0)) : omat) (length lbda) in
      let* vx := dielectric x lbda in let* e := set_diag e 0 vx in
      let* vy := dielectric y lbda in let* e := set_diag e 1 vy in
      let* vz := dielectric z lbda in set_diag e 2 vz
  | Rotated r m => let* e := get_tensors m lbda in Ok (rotate r e)
  | Mixed k h g f =>
      let* e_h := get_tensors h lbda in let* e_g := get_tensors g lbda in mix_arrays k f e_h e_g
  end.

(** The arrays of Solver2x2: the rows belong to the media *)
Definition rows2 (f : option C -> option C -> option C) (a b : list row) : res (list row) :=
  let* r := bc2 (fun x y => bc2 f x y) a b in rmapM (fun x => x) r.
(** An array of rows and a one-dimensional array *)
Definition rows1 (f : option C -> option C -> option C) (a : list row) (b : row) : res (list row) :=
  rmapM (fun x => bc2 f x b) a.

(** np.vstack: the rows must have the same length *)
Definition vstack (rows : list row) : res (list row) :=
  match rows with
  | [] => Err ValueError
  | r :: rows' => if forallb (fun x => Nat.eqb (length x) (length r)) rows' then Ok rows else Err ValueError
  end.

(** solver2x2.py:22-31: angles[0] and angles[-1] are replaced, element by element *)
Definition replace_angle (n th : option C) : option C :=
  let? n := n in let? th := th in Some (fix_angle n th).
Definition upd_last {A} (l : list A) (x : A) : list A := removelast l ++ [x].

(** solver2x2.py:19-33 list_snell *)
Definition list_snell_arrays (theta_i : R) (n_list : list row) : res (list row) :=
  match n_list with
  | [] => Err IndexError
  | n0 :: _ =>
      let num := map (o1 (fun n => n * RtoC (sin (deg2rad theta_i)))) n0 in
      let* q := rmapM (fun n => bc2 odiv num n) n_list in
      match map (map (o1 Casin)) q with
      | [] => Err IndexError
      | a0 :: rest =>
          let* a0 := bc2 replace_angle n0 a0 in
          let angles := a0 :: rest in
          let* al := bc2 replace_angle (last n_list n0) (last angles a0) in
          Ok (upd_last angles al)
      end
  end.

(** solver2x2.py:116-140 fresnel on rows: (r, t) of one polarisation *)
Definition fresnel_rows (p : bool) (n_i n_t th_i th_t : row) : res (row * row) :=
  let cos_i := map (o1 Ccos) th_i in
  let cos_t := map (o1 Ccos) th_t in
  let* ii := bc2 (o2 Cmult) n_i cos_i in
  let* ct := bc2 (o2 Cmult) n_t cos_t in
  let* ti := bc2 (o2 Cmult) n_t cos_i in
  let* it := bc2 (o2 Cmult) n_i cos_t in
  let (a, b) := if p then (ti, it) else (ii, ct) in
  let* num := bc2 (o2 Cminus) a b in
  let* den := bc2 (o2 Cplus) a b in
  let* r := bc2 odiv num den in
  let* two := bc2 (o2 Cmult) (map (o1 (Cmult 2)) n_i) cos_i in
  let* t := bc2 odiv two den in
  Ok (r, t).

(** An array of shape (2, 2, N) *)
Definition mat2 := ((row * row) * (row * row))%type.
Definition mat2_div (m : mat2) (t : row) : res mat2 :=
  let '((a, b), (c, d)) := m in
  let* a := bc2 odiv a t in let* b := bc2 odiv b t in
  let* c := bc2 odiv c t in let* d := bc2 odiv d t in Ok ((a, b), (c, d)).
Definition dot2 (a b c d : row) : res row :=
  let* x := bc2 (o2 Cmult) a b in let* y := bc2 (o2 Cmult) c d in bc2 (o2 Cplus) x y.
(** np.einsum("ij...,jk...->ik...") *)
Definition mat2_mul (m l : mat2) : res mat2 :=
  let '((a, b), (c, d)) := m in
  let '((a', b'), (c', d')) := l in
  let* w := dot2 a a' b c' in let* x := dot2 a b' b d' in
  let* y := dot2 c a' d c' in let* z := dot2 c b' d d' in Ok ((w, x), (y, z)).

(** solver2x2.py:80-92: the loop for one polarisation; media: pairs of rows n, th *)
Fixpoint loop_arrays (p : bool) (M : mat2) (media : list (row * row)) (delta : list row) : res mat2 :=
  match media, delta with
  | (n, th) :: (((n', th') :: _) as rest), d :: delta =>
      let* rt := fresnel_rows p n n' th th' in
      let (r, t) := rt in
      let em := map (o1 (fun x => Cexp (- Ci * x))) d in
      let ep := map (o1 (fun x => Cexp (Ci * x))) d in
      let* rem := bc2 (o2 Cmult) r em in
      let* rep := bc2 (o2 Cmult) r ep in
      let* L := mat2_div ((em, rem), (rep, ep)) t in
      let* M := mat2_mul M L in
      loop_arrays p M rest delta
  | _, _ => Ok M
  end.

(** solver2x2.py:76-97: r and t of one polarisation *)
Definition amplitudes_arrays (p : bool) (media : list (row * row)) (delta : list row) : res (row * row) :=
  match media with
  | (n, th) :: (((n', th') :: _) as rest) =>
      let* rt := fresnel_rows p n n' th th' in
      let (r, t) := rt in
      let ones := repeat (Some (RtoC 1)) (length n) in
      let* M := mat2_div ((ones, r), (r, ones)) t in
      let* M := loop_arrays p M rest delta in
      let '((m00, _), (m10, _)) := M in
      let* rtot := bc2 odiv m10 m00 in
      Ok (rtot, map (odiv (Some (RtoC 1))) m00)
  | _ => Err IndexError
  end.

(** What Result gets: for each wavelength the Jones matrices (p, s) and the power correction *)
Definition jones_row := list (option C * option C).
Definition zip {A B} (a : list A) (b : list B) : list (A * B) := combine a b.

(** solver2x2.py:35-114 calculate, from the permittivity profile: thickness and tensors; front and back
    have no thickness.  The warnings have no effect on the result. *)
Record result_arrays := ResultArrays {
  jones_r_diag : jones_row; jones_t_diag : jones_row; power : list (option R) }.
Definition oreal (a : option C) : option R := option_map Re a.
Definition ordiv (a b : option R) : option R := let? x := a in let? y := b in rdiv x y.

Definition calculate2 (theta_i : R) (lbda : list R) (front : tensors) (inner : list (R * tensors)) (back : tensors)
  : res result_arrays :=
  let first_elements (e : tensors) : row := map (fun m => m 0%nat 0%nat) e in
  let* eps := vstack (first_elements front :: map (fun l => first_elements (snd l)) inner ++ [first_elements back]) in
  let n_list := map (map (o1 Csqrt)) eps in
  let* th_list := list_snell_arrays theta_i n_list in
  let* nc := rows2 (o2 Cmult) n_list (map (map (o1 Ccos)) th_list) in
  let* kz_list := rows1 odiv (map (map (o1 (Cmult (2 * RtoC PI)))) nc) (map (fun l => Some (RtoC l)) lbda) in
  let* delta := bc2 (fun k d => map (o1 (fun x => x * RtoC d)) k) (removelast (tl kz_list)) (map fst inner) in
  let media := combine n_list th_list in
  let* s := amplitudes_arrays false media delta in
  let* p := amplitudes_arrays true media delta in
  let* pc := bc2 ordiv (map oreal (last nc [])) (map oreal (hd [] nc)) in
  Ok (ResultArrays (zip (fst p) (fst s)) (zip (snd p) (snd s)) pc).

(** experiment.py:152-163 evaluate with Solver2x2; solver.py:28-35: the solver reads the permittivity
    profile (structure.py:467-486), in which every tensor is evaluated for all wavelengths *)
Definition tensors_of_profile (p : list (option R * material)) (lbda : list R) : res (list (option R * tensors)) :=
  rmapM (fun l => let* e := get_tensors (snd l) lbda in Ok (fst l, e)) p.
Fixpoint inner_of (l : list (option R * tensors)) : option (list (R * tensors)) :=
  match l with
  | [] => Some []
  | (None, _) :: _ => None
  | (Some d, e) :: l => let? r := inner_of l in Some ((d, e) :: r)
  end.
Definition evaluate2 (theta_i : R) (s : structure material) (lbda : list R) : res result_arrays :=
  let* prof := tensors_of_profile (structure_profile s) lbda in
  match prof with
  | (_, front) :: rest =>
      match inner_of (removelast rest) with
      | Some inner => calculate2 theta_i lbda front inner (snd (last rest (None, front)))
      | None => Err ValueError   (* infinite thickness inside: not modelled, impossible for a Structure *)
      end
  | [] => Err IndexError
  end.
