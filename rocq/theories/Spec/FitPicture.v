(** What the figure of a psi/delta fit should show, and what a perfect fit is. *)
From Coq Require Import Reals String List.
From Coquelicot Require Import Complex.
From Verif.Model Require Import FitRho.
Import ListNotations.
Open Scope R_scope.
Open Scope string_scope.
Open Scope list_scope.

(** The points of a line: its finite values at their positions *)
Fixpoint points (x : list R) (y : list (option R)) : list (R * R) :=
  match x, y with
  | a :: x', Some b :: y' => (a, b) :: points x' y'
  | _ :: x', None :: y' => points x' y'
  | _, _ => []
  end.
Definition curve (t : trace) : string * list (R * R) := (t_name t, points (t_x t) (t_y t)).

(** rho from the measured angles: tan(psi) exp(-i delta) *)
Definition rho_re (r : row) : R := tan (m_psi r * PI / 180) * cos (m_delta r * PI / 180).
Definition rho_im (r : row) : R := - (tan (m_psi r * PI / 180) * sin (m_delta r * PI / 180)).

(** The pseudo dielectric function of a substrate with the ratio rho at an angle of incidence t (in
    degrees): sin(t)^2 (1 + tan(t)^2 ((1 - rho)/(1 + rho))^2) *)
Definition pseudo_diel (t : R) (z : C) : C :=
  (RtoC (sin (t * PI / 180) ^ 2) * (1 + RtoC (tan (t * PI / 180) ^ 2) * (((1 - z) / (1 + z)) * ((1 - z) / (1 + z)))))%C.
(** Its points: nothing where rho = -1 *)
Fixpoint pseudo_points (part : C -> R) (t : R) (l : list (R * C)) : list (R * R) :=
  match l with
  | [] => []
  | (x, z) :: l' =>
      if Req_EM_T (fst z) (-1)
      then if Req_EM_T (snd z) 0 then pseudo_points part t l' else (x, part (pseudo_diel t z)) :: pseudo_points part t l'
      else (x, part (pseudo_diel t z)) :: pseudo_points part t l'
  end.

(** The four lines for each display: x is the wavelength *)
Definition picture (d : display) (e : list row) (angle : R) (s : sim) : list (string * list (R * R)) :=
  let at_lbda l := combine (map m_lbda e) l in
  let minus a b := map (fun p : R * R => fst p - snd p) (combine a b) in
  let rho := map (fun r => (rho_re r, rho_im r)) e in
  match d with
  | PsiDelta =>
      [("Ψ", at_lbda (map m_psi e)); ("Δ", at_lbda (map m_delta e));
       ("Ψ_calc", at_lbda (s_psi s)); ("Δ_calc", at_lbda (s_delta s))]
  | Rho =>
      [("ρr", at_lbda (map rho_re e)); ("ρi", at_lbda (map rho_im e));
       ("ρr_calc", at_lbda (map Re (s_rho s))); ("ρi_calc", at_lbda (map Im (s_rho s)))]
  | PseudoDiel =>
      [("ϵ1", pseudo_points Re angle (combine (map m_lbda e) rho));
       ("ϵ2", pseudo_points Im angle (combine (map m_lbda e) rho));
       ("ϵ1_calc", pseudo_points Re angle (combine (map m_lbda e) (s_rho s)));
       ("ϵ2_calc", pseudo_points Im angle (combine (map m_lbda e) (s_rho s)))]
  | Residual =>
      [("Psi Res.", at_lbda (minus (map m_psi e) (s_psi s))); ("Delta Res.", at_lbda (minus (map m_delta e) (s_delta s)));
       ("ρr Res.", at_lbda (minus (map rho_re e) (map Re (s_rho s)))); ("ρi Res.", at_lbda (minus (map rho_im e) (map Im (s_rho s))))]
  end.

Definition title (d : display) : string :=
  match d with PsiDelta => "Ψ/Δ (°)" | Rho => "ρ" | PseudoDiel => "ϵ" | Residual => "Residual" end.

(** The display and the simulation after some events *)
Fixpoint last_display (d : display) (l : list event) : display :=
  match l with [] => d | Select d' :: l' => last_display d' l' | Simulate _ :: l' => last_display d l' end.
Fixpoint last_sim (s : sim) (l : list event) : sim :=
  match l with [] => s | Simulate s' :: l' => last_sim s' l' | Select _ :: l' => last_sim s l' end.

(** One value for each measured row *)
Definition complete (e : list row) (s : sim) : Prop :=
  List.length (s_psi s) = List.length e /\ List.length (s_delta s) = List.length e /\ List.length (s_rho s) = List.length e.
Definition complete_event (e : list row) (v : event) : Prop :=
  match v with Select _ => True | Simulate s => complete e s end.
