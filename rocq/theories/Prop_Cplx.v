(** Property theorems C49: complex numbers in memory.  Each theorem is closed by [exact]. *)
From Coq Require Import Reals List.
From Coquelicot Require Import Complex.
From Verif Require Import CplxModel CplxSpec CplxProofs CplxStores CplxExtra.
Open Scope C_scope.

(** [sets o a v]: after [o] the number in [a] is the value [v] of the memory before, and all other numbers are as before.  The
    arguments are arbitrary names, equal or different. *)
(** any coincidence of the arguments is allowed *)
Theorem C49_complex_safe : forall (a b c : path) (r s : R),
  sets (complex_copy a b) a (fun m => m b) /\
  sets (complex_put_to_real a r) a (fun m => RtoC r) /\
  sets (complex_put_to_imag a r) a (fun m => Ci * r) /\
  sets (complex_put_to_zero a) a (fun m => RtoC 0) /\
  sets (complex_conj a b) a (fun m => Cconj (m b)) /\
  sets (complex_minus_conj a b) a (fun m => - Cconj (m b)) /\
  sets (complex_summ a b c) a (fun m => m b + m c) /\
  sets (complex_summ_conj2 a b c) a (fun m => m b + Cconj (m c)) /\
  sets (complex_summ_conj1 a b c) a (fun m => Cconj (m b) + m c) /\
  sets (complex_subt a b c) a (fun m => m b - m c) /\
  sets (complex_subt_conj2 a b c) a (fun m => m b - Cconj (m c)) /\
  sets (complex_subt_conj1 a b c) a (fun m => Cconj (m b) - m c) /\
  sets (complex_summassign a b) a (fun m => m a + m b) /\
  sets (complex_subtassign a b) a (fun m => m a - m b) /\
  sets (complex_iexp a r) a (fun m => cos r + Ci * sin r) /\
  sets (complex_prod_double a b r) a (fun m => m b * r) /\
  sets (complex_prodassign_double a r) a (fun m => m a * r) /\
  sets (complex_prod_idouble a b r) a (fun m => m b * (Ci * r)) /\
  sets (complex_prodassign_idouble a r) a (fun m => m a * (Ci * r)) /\
  sets (complex_summ_the_prod_double a b r) a (fun m => m a + m b * r) /\
  sets (complex_subt_the_prod_double a b r) a (fun m => m a - m b * r) /\
  sets (complex_summ_the_prod_idouble a b r) a (fun m => m a + m b * (Ci * r)) /\
  sets (complex_subt_the_prod_idouble a b r) a (fun m => m a - m b * (Ci * r)) /\
  sets (complex_linear_comb a b r c s) a (fun m => m b * r + m c * s) /\
  sets (complex_summ_the_prod a b c) a (fun m => m a + m b * m c) /\
  sets (complex_subt_the_prod a b c) a (fun m => m a - m b * m c) /\
  sets (complex_summ_the_conj2_prod a b c) a (fun m => m a + m b * Cconj (m c)) /\
  sets (complex_summ_the_conj1_prod a b c) a (fun m => m a + Cconj (m b) * m c) /\
  sets (complex_summ_the_conj_conj_prod a b c) a (fun m => m a + Cconj (m b) * Cconj (m c)) /\
  sets (complex_subt_the_conj2_prod a b c) a (fun m => m a - m b * Cconj (m c)) /\
  sets (complex_subt_the_conj1_prod a b c) a (fun m => m a - Cconj (m b) * m c) /\
  sets (complex_subt_the_conj_conj_prod a b c) a (fun m => m a - Cconj (m b) * Cconj (m c)) /\
  sets (safe_complex_prod a b c) a (fun m => m b * m c) /\
  sets (complex_prodassign a b) a (fun m => m a * m b) /\
  sets (safe_complex_prod_minus a b c) a (fun m => - (m b * m c)) /\
  sets (safe_complex_conj2_prod a b c) a (fun m => m b * Cconj (m c)) /\
  sets (safe_complex_conj2_prod_minus a b c) a (fun m => - (m b * Cconj (m c))) /\
  sets (safe_complex_conj1_prod a b c) a (fun m => Cconj (m b) * m c) /\
  sets (safe_complex_conj1_prod_minus a b c) a (fun m => - (Cconj (m b) * m c)) /\
  sets (safe_complex_prod_i a b) a (fun m => Ci * m b) /\
  sets (assign_complex_prod_i a) a (fun m => Ci * m a) /\
  sets (safe_complex_prod_minus_i a b) a (fun m => - Ci * m b) /\
  sets (assign_complex_prod_minus_i a) a (fun m => - Ci * m a).
Proof. exact (fun a b c r s =>
    (conj (complex_copy_ok a b c r s)
    (conj (complex_put_to_real_ok a b c r s)
    (conj (complex_put_to_imag_ok a b c r s)
    (conj (complex_put_to_zero_ok a b c r s)
    (conj (complex_conj_ok a b c r s)
    (conj (complex_minus_conj_ok a b c r s)
    (conj (complex_summ_ok a b c r s)
    (conj (complex_summ_conj2_ok a b c r s)
    (conj (complex_summ_conj1_ok a b c r s)
    (conj (complex_subt_ok a b c r s)
    (conj (complex_subt_conj2_ok a b c r s)
    (conj (complex_subt_conj1_ok a b c r s)
    (conj (complex_summassign_ok a b c r s)
    (conj (complex_subtassign_ok a b c r s)
    (conj (complex_iexp_ok a b c r s)
    (conj (complex_prod_double_ok a b c r s)
    (conj (complex_prodassign_double_ok a b c r s)
    (conj (complex_prod_idouble_ok a b c r s)
    (conj (complex_prodassign_idouble_ok a b c r s)
    (conj (complex_summ_the_prod_double_ok a b c r s)
    (conj (complex_subt_the_prod_double_ok a b c r s)
    (conj (complex_summ_the_prod_idouble_ok a b c r s)
    (conj (complex_subt_the_prod_idouble_ok a b c r s)
    (conj (complex_linear_comb_ok a b c r s)
    (conj (complex_summ_the_prod_ok a b c r s)
    (conj (complex_subt_the_prod_ok a b c r s)
    (conj (complex_summ_the_conj2_prod_ok a b c r s)
    (conj (complex_summ_the_conj1_prod_ok a b c r s)
    (conj (complex_summ_the_conj_conj_prod_ok a b c r s)
    (conj (complex_subt_the_conj2_prod_ok a b c r s)
    (conj (complex_subt_the_conj1_prod_ok a b c r s)
    (conj (complex_subt_the_conj_conj_prod_ok a b c r s)
    (conj (safe_complex_prod_ok a b c r s)
    (conj (complex_prodassign_ok a b c r s)
    (conj (safe_complex_prod_minus_ok a b c r s)
    (conj (safe_complex_conj2_prod_ok a b c r s)
    (conj (safe_complex_conj2_prod_minus_ok a b c r s)
    (conj (safe_complex_conj1_prod_ok a b c r s)
    (conj (safe_complex_conj1_prod_minus_ok a b c r s)
    (conj (safe_complex_prod_i_ok a b c r s)
    (conj (assign_complex_prod_i_ok a b c r s)
    (conj (safe_complex_prod_minus_i_ok a b c r s) (assign_complex_prod_minus_i_ok a b c r s)))))))))))))))))))))))))))))))))))))))))))). Qed.
Print Assumptions C49_complex_safe.
(** these need an output different from the inputs *)
Theorem C49_complex_unsafe : forall a b c : path, a <> b -> a <> c ->
  sets (unsafe_complex_prod a b c) a (fun m => m b * m c) /\
  sets (unsafe_complex_prod_minus a b c) a (fun m => - (m b * m c)) /\
  sets (unsafe_complex_conj2_prod a b c) a (fun m => m b * Cconj (m c)) /\
  sets (unsafe_complex_conj2_prod_minus a b c) a (fun m => - (m b * Cconj (m c))) /\
  sets (unsafe_complex_conj1_prod a b c) a (fun m => Cconj (m b) * m c) /\
  sets (unsafe_complex_conj1_prod_minus a b c) a (fun m => - (Cconj (m b) * m c)) /\
  sets (unsafe_complex_conj_conj_prod a b c) a (fun m => Cconj (m b) * Cconj (m c)) /\
  sets (unsafe_complex_conj_conj_prod_minus a b c) a (fun m => - (Cconj (m b) * Cconj (m c))) /\
  sets (complex_isumm a b c) a (fun m => m b + Ci * m c) /\
  sets (complex_isubt a b c) a (fun m => m b - Ci * m c) /\
  sets (complex_isummassign a c) a (fun m => m a + Ci * m c) /\
  sets (complex_isubtassign a c) a (fun m => m a - Ci * m c) /\
  sets (complex_summ_the_prod_i a b c) a (fun m => m a + Ci * (m b * m c)) /\
  sets (complex_subt_the_prod_i a b c) a (fun m => m a - Ci * (m b * m c)) /\
  sets (complex_summ_the_conj2_prod_i a b c) a (fun m => m a + Ci * (m b * Cconj (m c))) /\
  sets (complex_subt_the_conj2_prod_i a b c) a (fun m => m a - Ci * (m b * Cconj (m c))) /\
  sets (complex_summ_the_conj_conj_prod_i a b c) a (fun m => m a + Ci * (Cconj (m b) * Cconj (m c))) /\
  sets (complex_subt_the_conj_conj_prod_i a b c) a (fun m => m a - Ci * (Cconj (m b) * Cconj (m c))).
Proof. exact (fun a b c H1 H2 =>
    (conj (unsafe_complex_prod_ok a b c H1 H2)
    (conj (unsafe_complex_prod_minus_ok a b c H1 H2)
    (conj (unsafe_complex_conj2_prod_ok a b c H1 H2)
    (conj (unsafe_complex_conj2_prod_minus_ok a b c H1 H2)
    (conj (unsafe_complex_conj1_prod_ok a b c H1 H2)
    (conj (unsafe_complex_conj1_prod_minus_ok a b c H1 H2)
    (conj (unsafe_complex_conj_conj_prod_ok a b c H1 H2)
    (conj (unsafe_complex_conj_conj_prod_minus_ok a b c H1 H2)
    (conj (complex_isumm_ok a b c H1 H2)
    (conj (complex_isubt_ok a b c H1 H2)
    (conj (complex_isummassign_ok a b c H1 H2)
    (conj (complex_isubtassign_ok a b c H1 H2)
    (conj (complex_summ_the_prod_i_ok a b c H1 H2)
    (conj (complex_subt_the_prod_i_ok a b c H1 H2)
    (conj (complex_summ_the_conj2_prod_i_ok a b c H1 H2)
    (conj (complex_subt_the_conj2_prod_i_ok a b c H1 H2)
    (conj (complex_summ_the_conj_conj_prod_i_ok a b c H1 H2) (complex_subt_the_conj_conj_prod_i_ok a b c H1 H2))))))))))))))))))). Qed.
Print Assumptions C49_complex_unsafe.

(** reciprocal, also in place *)
Theorem C49_reciprocal : forall r c m, m c <> RtoC 0 -> forall p, complex_reciprocal r c m p = if path_dec p r then / m c else m p.
Proof. exact reciprocal_sets. Qed.
Print Assumptions C49_reciprocal.

(** square root with non negative imaginary part, also in place *)
Theorem C49_sqrt : forall r c m, m c <> RtoC 0 ->
  complex_sqrt r c m r * complex_sqrt r c m r = m c /\ (0 <= snd (complex_sqrt r c m r))%R /\
  forall p, p <> r -> complex_sqrt r c m p = m p.
Proof. exact complex_sqrt_ends. Qed.
Print Assumptions C49_sqrt.

(** the products named unsafe are not correct in place *)
Theorem C49_unsafe_refuted : exists a c m, a <> c /\ unsafe_complex_prod a a c m a <> m a * m c.
Proof. exact prod_alias. Qed.
Print Assumptions C49_unsafe_refuted.

(** two routines do not multiply by i, although their name says so: they do the same as those without _i *)
Theorem C49_conj1_i_refuted : forall a b c,
  sets (complex_summ_the_conj1_prod_i a b c) a (fun m => m a + Cconj (m b) * m c) /\
  sets (complex_subt_the_conj1_prod_i a b c) a (fun m => m a - Cconj (m b) * m c).
Proof. exact conj1_i_value. Qed.
Print Assumptions C49_conj1_i_refuted.

(** a case: (1+2i)(1+2i) stored over the factors *)
Example complex_case : let m := fun p => match p with nil => (1, 2)%R | _ => (5, 7)%R end in
  safe_complex_prod nil nil nil m nil = (-3, 4)%R /\ safe_complex_prod nil nil nil m (cons 0%nat nil) = (5, 7)%R /\ (nil : path) <> cons 0%nat nil.
Proof.
  cbv zeta. split; [|split].
  - rewrite (safe_complex_prod_ok nil nil nil 0%R 0%R _ nil). destruct (path_dec nil nil) as [_|N]; [|now elim N]. apply pair_eq; cbn; ring.
  - rewrite (safe_complex_prod_ok nil nil nil 0%R 0%R _ (cons 0%nat nil)). destruct (path_dec (cons 0%nat nil) nil) as [N|_]; [discriminate|reflexivity].
  - discriminate.
Qed.
