(** scipy.special.digamma and gamma of complex numbers: the series of Weierstrass and the product of
    Euler.  [None] at the poles 0, -1, -2, ... *)
From Coq Require Import Reals ZArith Lra Lia.
From Coquelicot Require Import Coquelicot.
From Verif.Base Require Import Py Cx.
Open Scope R_scope.
Open Scope C_scope.
Open Scope py_scope.

Definition pole (z : C) : Prop := exists n : nat, z = RtoC (- INR n).

Lemma pole_dec (z : C) : {pole z} + {~ pole z}.
Proof.
  destruct z as [x y]. destruct (Req_EM_T y 0) as [->|Y].
  2:{ right. intros [n E]. apply Y. exact (f_equal snd E). }
  destruct (Rle_dec x 0) as [X|X].
  2:{ right. intros [n E]. apply X. apply (f_equal fst) in E. simpl in E. assert (0 <= INR n)%R by apply pos_INR. lra. }
  destruct (Req_EM_T (- x) (INR (Z.to_nat (Int_part (- x))))) as [E|N].
  - left. exists (Z.to_nat (Int_part (- x))). rewrite <- E, Ropp_involutive. reflexivity.
  - right. intros [n E]. apply N. apply (f_equal fst) in E. simpl in E. subst x. rewrite Ropp_involutive.
    rewrite Int_part_INR, Nat2Z.id. reflexivity.
Qed.

(** Sum of a complex series *)
Definition CSeries (f : nat -> C) : C := (Series (fun k => fst (f k)), Series (fun k => snd (f k))).

(** Euler's constant *)
Definition euler_gamma : R := Series (fun k => / (INR k + 1) - ln (1 + / (INR k + 1)))%R.
(** psi(z) = - gamma + sum (1 / (k + 1) - 1 / (k + z)) *)
Definition digamma_term (z : C) (k : nat) : C := / RtoC (INR k + 1) - / (RtoC (INR k) + z).
Definition digamma (z : C) : option C :=
  if pole_dec z then None else Some (CSeries (digamma_term z) - RtoC euler_gamma).
(** Gamma(z) = 1 / z prod (1 + 1 / k) ^ z / (1 + z / k) *)
Definition gamma_term (z : C) (k : nat) : C :=
  z * RtoC (ln (1 + / (INR k + 1))) - Clog (1 + z / RtoC (INR k + 1)).
Definition Cgamma (z : C) : option C :=
  if pole_dec z then None else Some (Cexp (CSeries (gamma_term z)) / z).
