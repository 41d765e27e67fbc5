(* Property C48: the recursive determinant. *)
From mathcomp Require Import all_ssreflect all_algebra all_fingroup.
From mathcomp Require Import complex.
From Verif Require Import DetModel DetProofs.
Import GRing.Theory.
Local Open Scope ring_scope.
Local Open Scope complex_scope.

(* The Leibniz sum over the permutations, for every dimension and every n*n entries by rows, over any real closed field. *)
Theorem C48_determinant :
  forall (K : rcfType) (m : nat -> complex K) (n : nat), (0 < n)%N ->
  matrix_determinant K m n = \sum_(s : 'S_n) (-1) ^+ s * \prod_(i < n) m (i * n + s i)%N.
Proof.
move=> K m n n0; rewrite matrix_determinantE // /determinant.
apply: eq_bigr => s _; congr (_ * _); apply: eq_bigr => i _; by rewrite mxE.
Qed.
Print Assumptions C48_determinant.

(* On a subset s of the columns of a matrix with rows of length N, as the recursion uses it. *)
Theorem C48_minor :
  forall (K : rcfType) (m : nat -> complex K) (s : nat -> nat) (n N : nat), (0 < n)%N ->
  DetModel.determinant K n m s N = \det (\matrix_(i < n, j < n) m (i * N + s j)%N).
Proof. by move=> K m s n N n0; rewrite determinantE. Qed.
Print Assumptions C48_minor.

(* For dimension zero the result is 0, the determinant of the empty matrix being 1. *)
Theorem C48_empty_refuted :
  forall (K : rcfType) (m : nat -> complex K), matrix_determinant K m 0 <> \det (\matrix_(i < 0, j < 0) m (i * 0 + j)%N).
Proof. move=> K m; rewrite det_mx00 /matrix_determinant /=; apply/eqP; by rewrite eq_sym oner_neq0. Qed.
Print Assumptions C48_empty_refuted.

(* A case: the 3x3 identity scaled by i on the first entry. *)
Example C48_meets (K : rcfType) :
  matrix_determinant K (fun k => if k == 0%N then 'i else if (k == 4%N) || (k == 8%N) then 1 else 0) 3 = 'i.
Proof.
rewrite matrix_determinantE // (expand_det_row _ ord0) !big_ord_recl big_ord0 !mxE /= !mul0r !addr0.
rewrite /cofactor expr0 mul1r (expand_det_row _ ord0) !big_ord_recl big_ord0 !mxE /= mul0r !addr0 mul1r /cofactor expr0 mul1r.
by rewrite det_mx11 !mxE /= mulr1.
Qed.
