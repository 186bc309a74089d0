(** The formulas of the refractiveindex.info database, with the wavelength l in micrometres (C51). *)
From Coq Require Import Ascii Reals ZArith List.
From Coquelicot Require Import Complex.
From Verif.Base Require Import Cx.
Import ListNotations.
Open Scope R_scope.

(** v is x to the power y *)
Definition power (x y v : R) : Prop :=
  (0 < x /\ v = Rpower x y) \/
  (x = 0 /\ 0 < y /\ v = 0) \/
  (exists z : Z, y = IZR z /\ (x <> 0 \/ z = 0%Z) /\ v = powerRZ x z).

(** s is the sum of the terms *)
Inductive summed {A} (term : A -> R -> Prop) : list A -> R -> Prop :=
| no_terms : summed term [] 0
| more_terms x l t s : term x t -> summed term l s -> summed term (x :: l) (t + s).

Definition quotient (x y q : R) : Prop := y <> 0 /\ q = x / y.

Definition pairs (l : list (R * R)) : list R := flat_map (fun '(a, b) => [a; b]) l.
Definition quadruples (l : list (R * R * R * R)) : list R := flat_map (fun '(a, b, c, d) => [a; b; c; d]) l.

(** The terms of the formulas *)
Definition resonance1 (l : R) (p : R * R) (t : R) : Prop := let '(a, b) := p in quotient (a * l ^ 2) (l ^ 2 - b ^ 2) t.
Definition resonance2 (l : R) (p : R * R) (t : R) : Prop := let '(a, b) := p in quotient (a * l ^ 2) (l ^ 2 - b) t.
Definition monomial (l : R) (p : R * R) (t : R) : Prop := let '(f, e) := p in exists v, power l e v /\ t = f * v.
Definition resonance4 (l : R) (p : R * R * R * R) (t : R) : Prop :=
  let '(a, e, b, d) := p in exists v w, power l e v /\ power b d w /\ quotient (a * v) (l ^ 2 - w) t.

(** Which lists of coefficients are complete *)
Inductive complete : nat -> list R -> Prop :=
| complete_pairs n c1 ps : In n [1; 2; 3; 5]%nat -> complete n (c1 :: pairs ps)
| complete_quadruples c1 gs : (length gs <= 2)%nat -> complete 4 (c1 :: quadruples gs)
| complete_4 c1 g1 g2 ps : complete 4 (c1 :: quadruples [g1; g2] ++ pairs ps).

(** The right hand side q of the formula of the given number: n^2 = q for 1 to 4, n = q for 5 *)
Inductive rii : nat -> list R -> R -> R -> Prop :=
| rii1 c1 ps l s : summed (resonance1 l) ps s -> rii 1 (c1 :: pairs ps) l (1 + c1 + s)
| rii2 c1 ps l s : summed (resonance2 l) ps s -> rii 2 (c1 :: pairs ps) l (1 + c1 + s)
| rii3 c1 ps l s : summed (monomial l) ps s -> rii 3 (c1 :: pairs ps) l (c1 + s)
| rii4 c1 gs l s : (length gs <= 2)%nat -> summed (resonance4 l) gs s -> rii 4 (c1 :: quadruples gs) l (c1 + s)
| rii4_more c1 g1 g2 ps l s s' : summed (resonance4 l) [g1; g2] s -> summed (monomial l) ps s' ->
    rii 4 (c1 :: quadruples [g1; g2] ++ pairs ps) l (c1 + s + s')
| rii5 c1 ps l s : summed (monomial l) ps s -> rii 5 (c1 :: pairs ps) l (c1 + s).

(** The refractive index of an absorption free material with n^2 = q *)
Definition root (q : R) (n : C) : Prop := (n * n = RtoC q)%C /\ (0 < fst n \/ fst n = 0 /\ 0 <= snd n).

(** A text of numbers with one blank between two of them; [value] reads a number *)
Inductive written (value : list Ascii.ascii -> option R) : list Ascii.ascii -> list R -> Prop :=
| written_one w x : ~ In " "%char w -> value w = Some x -> written value w [x]
| written_more w x s l : ~ In " "%char w -> value w = Some x -> written value s l ->
    written value (w ++ " "%char :: s) (x :: l).
