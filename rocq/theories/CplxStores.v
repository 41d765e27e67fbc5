(** The routines on complex numbers as single stores. *)
From Coq Require Import Reals FunctionalExtensionality.
From Coquelicot Require Import Complex.
From Verif Require Import CplxModel CplxSpec CplxProofs.
Open Scope C_scope.
Lemma sets_eq o a v : sets o a v -> forall m, o m = upd m a (v m).
Proof. intros H m. apply functional_extensionality. intros p. rewrite H. reflexivity. Qed.
Lemma sets_of o a v : (forall m, o m = upd m a (v m)) -> sets o a v.
Proof. intros H m p. rewrite H. reflexivity. Qed.
Lemma complex_copy_st (a : path) (b : path) m : complex_copy a b m = upd m a (m b).
Proof. exact (sets_eq _ _ _ (complex_copy_ok a b a 0%R 0%R) m). Qed.
Lemma complex_put_to_real_st (a : path) (r : R) m : complex_put_to_real a r m = upd m a (RtoC r).
Proof. exact (sets_eq _ _ _ (complex_put_to_real_ok a a a r 0%R) m). Qed.
Lemma complex_put_to_imag_st (a : path) (r : R) m : complex_put_to_imag a r m = upd m a (Ci * r).
Proof. exact (sets_eq _ _ _ (complex_put_to_imag_ok a a a r 0%R) m). Qed.
Lemma complex_put_to_zero_st (a : path) m : complex_put_to_zero a m = upd m a (RtoC 0).
Proof. exact (sets_eq _ _ _ (complex_put_to_zero_ok a a a 0%R 0%R) m). Qed.
Lemma complex_conj_st (a : path) (b : path) m : complex_conj a b m = upd m a (Cconj (m b)).
Proof. exact (sets_eq _ _ _ (complex_conj_ok a b a 0%R 0%R) m). Qed.
Lemma complex_minus_conj_st (a : path) (b : path) m : complex_minus_conj a b m = upd m a (- Cconj (m b)).
Proof. exact (sets_eq _ _ _ (complex_minus_conj_ok a b a 0%R 0%R) m). Qed.
Lemma complex_summ_st (a : path) (b : path) (c : path) m : complex_summ a b c m = upd m a (m b + m c).
Proof. exact (sets_eq _ _ _ (complex_summ_ok a b c 0%R 0%R) m). Qed.
Lemma complex_summ_conj2_st (a : path) (b : path) (c : path) m : complex_summ_conj2 a b c m = upd m a (m b + Cconj (m c)).
Proof. exact (sets_eq _ _ _ (complex_summ_conj2_ok a b c 0%R 0%R) m). Qed.
Lemma complex_summ_conj1_st (a : path) (b : path) (c : path) m : complex_summ_conj1 a b c m = upd m a (Cconj (m b) + m c).
Proof. exact (sets_eq _ _ _ (complex_summ_conj1_ok a b c 0%R 0%R) m). Qed.
Lemma complex_subt_st (a : path) (b : path) (c : path) m : complex_subt a b c m = upd m a (m b - m c).
Proof. exact (sets_eq _ _ _ (complex_subt_ok a b c 0%R 0%R) m). Qed.
Lemma complex_subt_conj2_st (a : path) (b : path) (c : path) m : complex_subt_conj2 a b c m = upd m a (m b - Cconj (m c)).
Proof. exact (sets_eq _ _ _ (complex_subt_conj2_ok a b c 0%R 0%R) m). Qed.
Lemma complex_subt_conj1_st (a : path) (b : path) (c : path) m : complex_subt_conj1 a b c m = upd m a (Cconj (m b) - m c).
Proof. exact (sets_eq _ _ _ (complex_subt_conj1_ok a b c 0%R 0%R) m). Qed.
Lemma complex_summassign_st (a : path) (b : path) m : complex_summassign a b m = upd m a (m a + m b).
Proof. exact (sets_eq _ _ _ (complex_summassign_ok a b a 0%R 0%R) m). Qed.
Lemma complex_subtassign_st (a : path) (b : path) m : complex_subtassign a b m = upd m a (m a - m b).
Proof. exact (sets_eq _ _ _ (complex_subtassign_ok a b a 0%R 0%R) m). Qed.
Lemma complex_iexp_st (a : path) (r : R) m : complex_iexp a r m = upd m a (cos r + Ci * sin r).
Proof. exact (sets_eq _ _ _ (complex_iexp_ok a a a r 0%R) m). Qed.
Lemma complex_prod_double_st (a : path) (b : path) (r : R) m : complex_prod_double a b r m = upd m a (m b * r).
Proof. exact (sets_eq _ _ _ (complex_prod_double_ok a b a r 0%R) m). Qed.
Lemma complex_prodassign_double_st (a : path) (r : R) m : complex_prodassign_double a r m = upd m a (m a * r).
Proof. exact (sets_eq _ _ _ (complex_prodassign_double_ok a a a r 0%R) m). Qed.
Lemma complex_prod_idouble_st (a : path) (b : path) (r : R) m : complex_prod_idouble a b r m = upd m a (m b * (Ci * r)).
Proof. exact (sets_eq _ _ _ (complex_prod_idouble_ok a b a r 0%R) m). Qed.
Lemma complex_prodassign_idouble_st (a : path) (r : R) m : complex_prodassign_idouble a r m = upd m a (m a * (Ci * r)).
Proof. exact (sets_eq _ _ _ (complex_prodassign_idouble_ok a a a r 0%R) m). Qed.
Lemma complex_summ_the_prod_double_st (a : path) (b : path) (r : R) m : complex_summ_the_prod_double a b r m = upd m a (m a + m b * r).
Proof. exact (sets_eq _ _ _ (complex_summ_the_prod_double_ok a b a r 0%R) m). Qed.
Lemma complex_subt_the_prod_double_st (a : path) (b : path) (r : R) m : complex_subt_the_prod_double a b r m = upd m a (m a - m b * r).
Proof. exact (sets_eq _ _ _ (complex_subt_the_prod_double_ok a b a r 0%R) m). Qed.
Lemma complex_summ_the_prod_idouble_st (a : path) (b : path) (r : R) m : complex_summ_the_prod_idouble a b r m = upd m a (m a + m b * (Ci * r)).
Proof. exact (sets_eq _ _ _ (complex_summ_the_prod_idouble_ok a b a r 0%R) m). Qed.
Lemma complex_subt_the_prod_idouble_st (a : path) (b : path) (r : R) m : complex_subt_the_prod_idouble a b r m = upd m a (m a - m b * (Ci * r)).
Proof. exact (sets_eq _ _ _ (complex_subt_the_prod_idouble_ok a b a r 0%R) m). Qed.
Lemma complex_linear_comb_st (a : path) (b : path) (r : R) (c : path) (s : R) m : complex_linear_comb a b r c s m = upd m a (m b * r + m c * s).
Proof. exact (sets_eq _ _ _ (complex_linear_comb_ok a b c r s) m). Qed.
Lemma complex_summ_the_prod_st (a : path) (b : path) (c : path) m : complex_summ_the_prod a b c m = upd m a (m a + m b * m c).
Proof. exact (sets_eq _ _ _ (complex_summ_the_prod_ok a b c 0%R 0%R) m). Qed.
Lemma complex_subt_the_prod_st (a : path) (b : path) (c : path) m : complex_subt_the_prod a b c m = upd m a (m a - m b * m c).
Proof. exact (sets_eq _ _ _ (complex_subt_the_prod_ok a b c 0%R 0%R) m). Qed.
Lemma complex_summ_the_conj2_prod_st (a : path) (b : path) (c : path) m : complex_summ_the_conj2_prod a b c m = upd m a (m a + m b * Cconj (m c)).
Proof. exact (sets_eq _ _ _ (complex_summ_the_conj2_prod_ok a b c 0%R 0%R) m). Qed.
Lemma complex_summ_the_conj1_prod_st (a : path) (b : path) (c : path) m : complex_summ_the_conj1_prod a b c m = upd m a (m a + Cconj (m b) * m c).
Proof. exact (sets_eq _ _ _ (complex_summ_the_conj1_prod_ok a b c 0%R 0%R) m). Qed.
Lemma complex_summ_the_conj_conj_prod_st (a : path) (b : path) (c : path) m : complex_summ_the_conj_conj_prod a b c m = upd m a (m a + Cconj (m b) * Cconj (m c)).
Proof. exact (sets_eq _ _ _ (complex_summ_the_conj_conj_prod_ok a b c 0%R 0%R) m). Qed.
Lemma complex_subt_the_conj2_prod_st (a : path) (b : path) (c : path) m : complex_subt_the_conj2_prod a b c m = upd m a (m a - m b * Cconj (m c)).
Proof. exact (sets_eq _ _ _ (complex_subt_the_conj2_prod_ok a b c 0%R 0%R) m). Qed.
Lemma complex_subt_the_conj1_prod_st (a : path) (b : path) (c : path) m : complex_subt_the_conj1_prod a b c m = upd m a (m a - Cconj (m b) * m c).
Proof. exact (sets_eq _ _ _ (complex_subt_the_conj1_prod_ok a b c 0%R 0%R) m). Qed.
Lemma complex_subt_the_conj_conj_prod_st (a : path) (b : path) (c : path) m : complex_subt_the_conj_conj_prod a b c m = upd m a (m a - Cconj (m b) * Cconj (m c)).
Proof. exact (sets_eq _ _ _ (complex_subt_the_conj_conj_prod_ok a b c 0%R 0%R) m). Qed.
Lemma safe_complex_prod_st (a : path) (b : path) (c : path) m : safe_complex_prod a b c m = upd m a (m b * m c).
Proof. exact (sets_eq _ _ _ (safe_complex_prod_ok a b c 0%R 0%R) m). Qed.
Lemma complex_prodassign_st (a : path) (b : path) m : complex_prodassign a b m = upd m a (m a * m b).
Proof. exact (sets_eq _ _ _ (complex_prodassign_ok a b a 0%R 0%R) m). Qed.
Lemma safe_complex_prod_minus_st (a : path) (b : path) (c : path) m : safe_complex_prod_minus a b c m = upd m a (- (m b * m c)).
Proof. exact (sets_eq _ _ _ (safe_complex_prod_minus_ok a b c 0%R 0%R) m). Qed.
Lemma safe_complex_conj2_prod_st (a : path) (b : path) (c : path) m : safe_complex_conj2_prod a b c m = upd m a (m b * Cconj (m c)).
Proof. exact (sets_eq _ _ _ (safe_complex_conj2_prod_ok a b c 0%R 0%R) m). Qed.
Lemma safe_complex_conj2_prod_minus_st (a : path) (b : path) (c : path) m : safe_complex_conj2_prod_minus a b c m = upd m a (- (m b * Cconj (m c))).
Proof. exact (sets_eq _ _ _ (safe_complex_conj2_prod_minus_ok a b c 0%R 0%R) m). Qed.
Lemma safe_complex_conj1_prod_st (a : path) (b : path) (c : path) m : safe_complex_conj1_prod a b c m = upd m a (Cconj (m b) * m c).
Proof. exact (sets_eq _ _ _ (safe_complex_conj1_prod_ok a b c 0%R 0%R) m). Qed.
Lemma safe_complex_conj1_prod_minus_st (a : path) (b : path) (c : path) m : safe_complex_conj1_prod_minus a b c m = upd m a (- (Cconj (m b) * m c)).
Proof. exact (sets_eq _ _ _ (safe_complex_conj1_prod_minus_ok a b c 0%R 0%R) m). Qed.
Lemma safe_complex_prod_i_st (a : path) (b : path) m : safe_complex_prod_i a b m = upd m a (Ci * m b).
Proof. exact (sets_eq _ _ _ (safe_complex_prod_i_ok a b a 0%R 0%R) m). Qed.
Lemma assign_complex_prod_i_st (a : path) m : assign_complex_prod_i a m = upd m a (Ci * m a).
Proof. exact (sets_eq _ _ _ (assign_complex_prod_i_ok a a a 0%R 0%R) m). Qed.
Lemma safe_complex_prod_minus_i_st (a : path) (b : path) m : safe_complex_prod_minus_i a b m = upd m a (- Ci * m b).
Proof. exact (sets_eq _ _ _ (safe_complex_prod_minus_i_ok a b a 0%R 0%R) m). Qed.
Lemma assign_complex_prod_minus_i_st (a : path) m : assign_complex_prod_minus_i a m = upd m a (- Ci * m a).
Proof. exact (sets_eq _ _ _ (assign_complex_prod_minus_i_ok a a a 0%R 0%R) m). Qed.
Lemma unsafe_complex_prod_st (a : path) (b : path) (c : path) m : a <> b -> a <> c -> unsafe_complex_prod a b c m = upd m a (m b * m c).
Proof. exact (fun H H0 => sets_eq _ _ _ (unsafe_complex_prod_ok a b c H H0) m). Qed.
Lemma unsafe_complex_prod_minus_st (a : path) (b : path) (c : path) m : a <> b -> a <> c -> unsafe_complex_prod_minus a b c m = upd m a (- (m b * m c)).
Proof. exact (fun H H0 => sets_eq _ _ _ (unsafe_complex_prod_minus_ok a b c H H0) m). Qed.
Lemma unsafe_complex_conj2_prod_st (a : path) (b : path) (c : path) m : a <> b -> a <> c -> unsafe_complex_conj2_prod a b c m = upd m a (m b * Cconj (m c)).
Proof. exact (fun H H0 => sets_eq _ _ _ (unsafe_complex_conj2_prod_ok a b c H H0) m). Qed.
Lemma unsafe_complex_conj2_prod_minus_st (a : path) (b : path) (c : path) m : a <> b -> a <> c -> unsafe_complex_conj2_prod_minus a b c m = upd m a (- (m b * Cconj (m c))).
Proof. exact (fun H H0 => sets_eq _ _ _ (unsafe_complex_conj2_prod_minus_ok a b c H H0) m). Qed.
Lemma unsafe_complex_conj1_prod_st (a : path) (b : path) (c : path) m : a <> b -> a <> c -> unsafe_complex_conj1_prod a b c m = upd m a (Cconj (m b) * m c).
Proof. exact (fun H H0 => sets_eq _ _ _ (unsafe_complex_conj1_prod_ok a b c H H0) m). Qed.
Lemma unsafe_complex_conj1_prod_minus_st (a : path) (b : path) (c : path) m : a <> b -> a <> c -> unsafe_complex_conj1_prod_minus a b c m = upd m a (- (Cconj (m b) * m c)).
Proof. exact (fun H H0 => sets_eq _ _ _ (unsafe_complex_conj1_prod_minus_ok a b c H H0) m). Qed.
Lemma unsafe_complex_conj_conj_prod_st (a : path) (b : path) (c : path) m : a <> b -> a <> c -> unsafe_complex_conj_conj_prod a b c m = upd m a (Cconj (m b) * Cconj (m c)).
Proof. exact (fun H H0 => sets_eq _ _ _ (unsafe_complex_conj_conj_prod_ok a b c H H0) m). Qed.
Lemma unsafe_complex_conj_conj_prod_minus_st (a : path) (b : path) (c : path) m : a <> b -> a <> c -> unsafe_complex_conj_conj_prod_minus a b c m = upd m a (- (Cconj (m b) * Cconj (m c))).
Proof. exact (fun H H0 => sets_eq _ _ _ (unsafe_complex_conj_conj_prod_minus_ok a b c H H0) m). Qed.
Lemma complex_isumm_st (a : path) (b : path) (c : path) m : a <> b -> a <> c -> complex_isumm a b c m = upd m a (m b + Ci * m c).
Proof. exact (fun H H0 => sets_eq _ _ _ (complex_isumm_ok a b c H H0) m). Qed.
Lemma complex_isubt_st (a : path) (b : path) (c : path) m : a <> b -> a <> c -> complex_isubt a b c m = upd m a (m b - Ci * m c).
Proof. exact (fun H H0 => sets_eq _ _ _ (complex_isubt_ok a b c H H0) m). Qed.
Lemma complex_isummassign_st (a : path) (c : path) m : a <> c -> complex_isummassign a c m = upd m a (m a + Ci * m c).
Proof. exact (fun H => sets_eq _ _ _ (complex_isummassign_ok a c c H H) m). Qed.
Lemma complex_isubtassign_st (a : path) (c : path) m : a <> c -> complex_isubtassign a c m = upd m a (m a - Ci * m c).
Proof. exact (fun H => sets_eq _ _ _ (complex_isubtassign_ok a c c H H) m). Qed.
Lemma complex_summ_the_prod_i_st (a : path) (b : path) (c : path) m : a <> b -> a <> c -> complex_summ_the_prod_i a b c m = upd m a (m a + Ci * (m b * m c)).
Proof. exact (fun H H0 => sets_eq _ _ _ (complex_summ_the_prod_i_ok a b c H H0) m). Qed.
Lemma complex_subt_the_prod_i_st (a : path) (b : path) (c : path) m : a <> b -> a <> c -> complex_subt_the_prod_i a b c m = upd m a (m a - Ci * (m b * m c)).
Proof. exact (fun H H0 => sets_eq _ _ _ (complex_subt_the_prod_i_ok a b c H H0) m). Qed.
Lemma complex_summ_the_conj2_prod_i_st (a : path) (b : path) (c : path) m : a <> b -> a <> c -> complex_summ_the_conj2_prod_i a b c m = upd m a (m a + Ci * (m b * Cconj (m c))).
Proof. exact (fun H H0 => sets_eq _ _ _ (complex_summ_the_conj2_prod_i_ok a b c H H0) m). Qed.
Lemma complex_subt_the_conj2_prod_i_st (a : path) (b : path) (c : path) m : a <> b -> a <> c -> complex_subt_the_conj2_prod_i a b c m = upd m a (m a - Ci * (m b * Cconj (m c))).
Proof. exact (fun H H0 => sets_eq _ _ _ (complex_subt_the_conj2_prod_i_ok a b c H H0) m). Qed.
Lemma complex_summ_the_conj_conj_prod_i_st (a : path) (b : path) (c : path) m : a <> b -> a <> c -> complex_summ_the_conj_conj_prod_i a b c m = upd m a (m a + Ci * (Cconj (m b) * Cconj (m c))).
Proof. exact (fun H H0 => sets_eq _ _ _ (complex_summ_the_conj_conj_prod_i_ok a b c H H0) m). Qed.
Lemma complex_subt_the_conj_conj_prod_i_st (a : path) (b : path) (c : path) m : a <> b -> a <> c -> complex_subt_the_conj_conj_prod_i a b c m = upd m a (m a - Ci * (Cconj (m b) * Cconj (m c))).
Proof. exact (fun H H0 => sets_eq _ _ _ (complex_subt_the_conj_conj_prod_i_ok a b c H H0) m). Qed.
Ltac stores neq := repeat first
  [ rewrite complex_copy_st
  | rewrite complex_put_to_real_st
  | rewrite complex_put_to_imag_st
  | rewrite complex_put_to_zero_st
  | rewrite complex_conj_st
  | rewrite complex_minus_conj_st
  | rewrite complex_summ_st
  | rewrite complex_summ_conj2_st
  | rewrite complex_summ_conj1_st
  | rewrite complex_subt_st
  | rewrite complex_subt_conj2_st
  | rewrite complex_subt_conj1_st
  | rewrite complex_summassign_st
  | rewrite complex_subtassign_st
  | rewrite complex_iexp_st
  | rewrite complex_prod_double_st
  | rewrite complex_prodassign_double_st
  | rewrite complex_prod_idouble_st
  | rewrite complex_prodassign_idouble_st
  | rewrite complex_summ_the_prod_double_st
  | rewrite complex_subt_the_prod_double_st
  | rewrite complex_summ_the_prod_idouble_st
  | rewrite complex_subt_the_prod_idouble_st
  | rewrite complex_linear_comb_st
  | rewrite complex_summ_the_prod_st
  | rewrite complex_subt_the_prod_st
  | rewrite complex_summ_the_conj2_prod_st
  | rewrite complex_summ_the_conj1_prod_st
  | rewrite complex_summ_the_conj_conj_prod_st
  | rewrite complex_subt_the_conj2_prod_st
  | rewrite complex_subt_the_conj1_prod_st
  | rewrite complex_subt_the_conj_conj_prod_st
  | rewrite safe_complex_prod_st
  | rewrite complex_prodassign_st
  | rewrite safe_complex_prod_minus_st
  | rewrite safe_complex_conj2_prod_st
  | rewrite safe_complex_conj2_prod_minus_st
  | rewrite safe_complex_conj1_prod_st
  | rewrite safe_complex_conj1_prod_minus_st
  | rewrite safe_complex_prod_i_st
  | rewrite assign_complex_prod_i_st
  | rewrite safe_complex_prod_minus_i_st
  | rewrite assign_complex_prod_minus_i_st
  | rewrite unsafe_complex_prod_st by neq
  | rewrite unsafe_complex_prod_minus_st by neq
  | rewrite unsafe_complex_conj2_prod_st by neq
  | rewrite unsafe_complex_conj2_prod_minus_st by neq
  | rewrite unsafe_complex_conj1_prod_st by neq
  | rewrite unsafe_complex_conj1_prod_minus_st by neq
  | rewrite unsafe_complex_conj_conj_prod_st by neq
  | rewrite unsafe_complex_conj_conj_prod_minus_st by neq
  | rewrite complex_isumm_st by neq
  | rewrite complex_isubt_st by neq
  | rewrite complex_isummassign_st by neq
  | rewrite complex_isubtassign_st by neq
  | rewrite complex_summ_the_prod_i_st by neq
  | rewrite complex_subt_the_prod_i_st by neq
  | rewrite complex_summ_the_conj2_prod_i_st by neq
  | rewrite complex_subt_the_conj2_prod_i_st by neq
  | rewrite complex_summ_the_conj_conj_prod_i_st by neq
  | rewrite complex_subt_the_conj_conj_prod_i_st by neq ].
