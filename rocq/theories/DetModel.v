(** The recursive determinant: src/routines/math_routines.cpp:97-153 (without Eigen), src/new_types/complex.hpp:55-61, 78-84,
    318-341, 421-431.  Exact real arithmetic: the components are in any real closed field. *)
From mathcomp Require Import all_ssreflect all_algebra.
From mathcomp Require Import complex.
Import GRing.Theory.
Local Open Scope ring_scope.
Local Open Scope complex_scope.

Section Det.
Variable K : rcfType.
Local Notation C := (complex K).

(** complex.hpp:421-431: unsafe_complex_prod *)
Definition complex_prod (b c : C) : C :=
  (complex.Re b * complex.Re c - complex.Im b * complex.Im c) +i* (complex.Re b * complex.Im c + complex.Im b * complex.Re c).
(** complex.hpp:318-327: complex_summ_the_prod *)
Definition complex_summ_the_prod (a b c : C) : C :=
  (complex.Re a + (complex.Re b * complex.Re c - complex.Im b * complex.Im c)) +i*
  (complex.Im a + (complex.Re b * complex.Im c + complex.Im b * complex.Re c)).
(** complex.hpp:329-341: complex_subt_the_prod *)
Definition complex_subt_the_prod (a b c : C) : C :=
  (complex.Re a - (complex.Re b * complex.Re c - complex.Im b * complex.Im c)) +i*
  (complex.Im a - (complex.Re b * complex.Im c + complex.Im b * complex.Re c)).

(** math_routines.cpp:112-114: the list of columns without the p-th *)
Definition drop_col (s : nat -> nat) (p : nat) : nat -> nat := fun i => if (i < p)%N then s i else s i.+1.

(** math_routines.cpp:109-128: the loop on p, from p on, k turns left; [sub l] is the determinant of the rows below on the
    columns l *)
Fixpoint det_loop (k p : nat) (sub : (nat -> nat) -> C) (m : nat -> C) (s : nat -> nat) (d : C) : C :=
  match k with
  | 0 => d
  | k'.+1 => let in_det := sub (drop_col s p) in
             det_loop k' p.+1 sub m s
               (if odd p then complex_subt_the_prod d (m (s p)) in_det else complex_summ_the_prod d (m (s p)) in_det)
  end.

(** math_routines.cpp:98-131: determinant(d,m,s,n,N); [m] is the memory from the pointer on, so m+N is a shift *)
Fixpoint determinant (n : nat) (m : nat -> C) (s : nat -> nat) (N : nat) : C :=
  match n with
  | 0 => 0
  | 1 => m (s 0%N)
  | 2 => complex_subt_the_prod (complex_prod (m (s 0%N)) (m (N + s 1%N)%N)) (m (s 1%N)) (m (N + s 0%N)%N)
  | n'.+1 => det_loop n 0 (fun l => determinant n' (fun k => m (N + k)%N) l N) m s 0
  end.

(** math_routines.cpp:134-153: matrix_determinant, [m] being the n*n entries by rows *)
Definition matrix_determinant (m : nat -> C) (n : nat) : C := determinant n m (fun i => i) n.
End Det.
