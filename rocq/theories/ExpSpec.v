(** The exponential of a matrix: the sum of x^n/n!. *)
From Coq Require Import Reals Factorial.
From Coquelicot Require Import Complex Lim_seq Rbar.
From Verif Require Import MatSpec.
Open Scope C_scope.

Fixpoint mpow (x : cmat) (n : nat) : cmat := match n with O => mid | S k => mmul x (mpow x k) end.
(** 1 + x + ... + x^n/n! *)
Fixpoint mexp_sum (x : cmat) (n : nat) : cmat := match n with
  | O => mid | S k => madd (mexp_sum x k) (mscale (RtoC (/ INR (fact (S k)))) (mpow x (S k))) end.
Definition is_mexp (x e : cmat) : Prop := forall i j, (i < 3)%nat -> (j < 3)%nat ->
  is_lim_seq (fun n => fst (mexp_sum x n i j)) (Finite (fst (e i j))) /\ is_lim_seq (fun n => snd (mexp_sum x n i j)) (Finite (snd (e i j))).
Open Scope R_scope.
(** The code switches to truncated series when the matrix is small, or two eigenvalues are close: this is the rest.  For x hermitian and traceless
    with eigenvalues q, c1 is the half sum of the q^2, c0 the product of the q, and |c0| <= c0_max.  *)
Definition exp_c1 (x : cmat) : R := fst (trace (mmul x x)) / 2.
Definition exp_c0 (x : cmat) : R := fst (det x).
Definition exp_c0_max (x : cmat) : R := 2 * Rpower (exp_c1 x / 3) 1.5.
Definition exact_zone (x : cmat) : Prop :=
  4e-3 <= exp_c1 x /\ 1e-3 <= (exp_c0_max x - Rabs (exp_c0 x)) / exp_c0_max x /\
  0.05 <= sqrt (exp_c1 x) * sin (acos (Rabs (exp_c0 x) / exp_c0_max x) / 3).
