From mathcomp Require Import all_ssreflect all_algebra.
From mathcomp Require Import complex.
From Verif Require Import DetModel.
Import GRing.Theory.
Local Open Scope ring_scope.
Local Open Scope complex_scope.

Section Det.
Variable K : rcfType.
Local Notation C := (complex K).

Lemma cprodE (b c : C) : complex_prod K b c = b * c.
Proof. by case: b => b0 b1; case: c => c0 c1. Qed.
Lemma csummE (a b c : C) : complex_summ_the_prod K a b c = a + b * c.
Proof. by case: a => a0 a1; case: b => b0 b1; case: c => c0 c1. Qed.
Lemma csubtE (a b c : C) : complex_subt_the_prod K a b c = a - b * c.
Proof. by case: a => a0 a1; case: b => b0 b1; case: c => c0 c1. Qed.

Definition mat (n : nat) (m : nat -> C) (s : nat -> nat) (N : nat) : 'M[C]_n := \matrix_(i, j) m (i * N + s j)%N.

Lemma det_loopE sub m s k p d :
  det_loop K k p sub m s d = d + \sum_(i < k) (-1) ^+ (p + i) * (m (s (p + i)%N) * sub (drop_col s (p + i)%N)).
Proof.
elim: k p d => [|k IH] p d /=; first by rewrite big_ord0 addr0.
rewrite IH big_ord_recl /= addn0.
have -> : (if odd p then complex_subt_the_prod K d (m (s p)) (sub (drop_col s p))
           else complex_summ_the_prod K d (m (s p)) (sub (drop_col s p))) = d + (-1) ^+ p * (m (s p) * sub (drop_col s p)).
  rewrite csubtE csummE -signr_odd. by case: (odd p); rewrite ?expr1 ?mulN1r ?expr0 ?mul1r.
rewrite addrA; congr (_ + _). by apply: eq_bigr => i _; rewrite /= /bump /= add1n addSnnS.
Qed.

Lemma determinantE n m s N : (0 < n)%N -> determinant K n m s N = \det (mat n m s N).
Proof.
elim: n m s => [//|n IH] m s _.
case: n IH => [|[|n]] IH.
- by rewrite /= det_mx11 mxE mul0n add0n.
- rewrite /= csubtE cprodE (expand_det_row _ ord0) !big_ord_recl big_ord0 /cofactor !det_mx11 !mxE /= !mul0n !add0n !mul1n.
  by rewrite addr0 ?expr0 ?expr1 mul1r mulN1r mulrN.
- have -> : determinant K n.+3 m s N =
    det_loop K n.+3 0 (fun l => determinant K n.+2 (fun k => m (N + k)%N) l N) m s 0 by [].
  rewrite det_loopE add0r (expand_det_row _ ord0). apply: eq_bigr => p _.
  rewrite /cofactor !add0n IH // !mxE mul0n add0n mulrCA.
  congr (_ * (_ * \det _)). apply/matrixP => i j. rewrite !mxE /drop_col /= /bump leq0n mulSn.
  rewrite addnA. congr (m (_ + _)%N). by case: ltnP => H; rewrite ?add0n ?add1n.
Qed.

Lemma matrix_determinantE m n : (0 < n)%N -> matrix_determinant K m n = \det (\matrix_(i < n, j < n) m (i * n + j)%N).
Proof. by move=> n0; rewrite /matrix_determinant determinantE. Qed.
End Det.
