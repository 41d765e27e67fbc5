From Coq Require Import Reals Lra List.
From Coquelicot Require Import Complex.
From Verif Require Import CplxModel CplxSpec.
Open Scope C_scope.

Lemma upd_same m a v : upd m a v a = v. Proof. unfold upd. destruct (path_dec a a); congruence. Qed.
Lemma upd_other m a v p : p <> a -> upd m a v p = m p. Proof. unfold upd. destruct (path_dec p a); congruence. Qed.
Lemma pair_eq (x y : C) : fst x = fst y -> snd x = snd y -> x = y. Proof. destruct x, y. cbn. congruence. Qed.
Lemma Cconj_fst x : fst (Cconj x) = fst x. Proof. reflexivity. Qed.
Lemma set_re_im a x y m p : set_im a y (set_re a x m) p = if path_dec p a then (x, y) else m p.
Proof. unfold set_im, set_re, re, upd. destruct (path_dec p a); [|reflexivity]. destruct (path_dec a a); [reflexivity|congruence]. Qed.
Lemma set_im_re a x y m p : set_re a x (set_im a y m) p = if path_dec p a then (x, y) else m p.
Proof. unfold set_im, set_re, im, upd. destruct (path_dec p a); [|reflexivity]. destruct (path_dec a a); [reflexivity|congruence]. Qed.
Lemma re_set_re a x m p : re (set_re a x m) p = if path_dec p a then x else re m p.
Proof. unfold set_re, re, upd. destruct (path_dec p a); reflexivity. Qed.
Lemma im_set_re a x m p : im (set_re a x m) p = im m p.
Proof. unfold set_re, im, upd. destruct (path_dec p a); subst; reflexivity. Qed.
Lemma im_set_im a x m p : im (set_im a x m) p = if path_dec p a then x else im m p.
Proof. unfold set_im, im, upd. destruct (path_dec p a); reflexivity. Qed.
Lemma re_set_im a x m p : re (set_im a x m) p = re m p.
Proof. unfold set_im, re, upd. destruct (path_dec p a); subst; reflexivity. Qed.

Ltac crunch :=
  intros; unfold sets; intros m p;
  repeat (cbv zeta; rewrite ?set_re_im, ?set_im_re, ?re_set_re, ?im_set_re, ?im_set_im, ?re_set_im);
  unfold re, im in *;
  repeat match goal with |- context [path_dec ?x ?y] => destruct (path_dec x y); subst; try congruence end;
  try (apply pair_eq; cbn [fst snd Cplus Cmult Cminus Copp Cconj RtoC Ci]; ring).
Lemma complex_copy_ok (a b c : path) (r s : R) : sets (complex_copy a b) a (fun m => m b).
Proof. unfold complex_copy. crunch. Qed.
Lemma complex_put_to_real_ok (a b c : path) (r s : R) : sets (complex_put_to_real a r) a (fun m => RtoC r).
Proof. unfold complex_put_to_real. crunch. Qed.
Lemma complex_put_to_imag_ok (a b c : path) (r s : R) : sets (complex_put_to_imag a r) a (fun m => Ci * r).
Proof. unfold complex_put_to_imag. crunch. Qed.
Lemma complex_put_to_zero_ok (a b c : path) (r s : R) : sets (complex_put_to_zero a) a (fun m => RtoC 0).
Proof. unfold complex_put_to_zero, complex_put_to_real. crunch. Qed.
Lemma complex_conj_ok (a b c : path) (r s : R) : sets (complex_conj a b) a (fun m => Cconj (m b)).
Proof. unfold complex_conj. crunch. Qed.
Lemma complex_minus_conj_ok (a b c : path) (r s : R) : sets (complex_minus_conj a b) a (fun m => - Cconj (m b)).
Proof. unfold complex_minus_conj. crunch. Qed.
Lemma complex_summ_ok (a b c : path) (r s : R) : sets (complex_summ a b c) a (fun m => m b + m c).
Proof. unfold complex_summ. crunch. Qed.
Lemma complex_summ_conj2_ok (a b c : path) (r s : R) : sets (complex_summ_conj2 a b c) a (fun m => m b + Cconj (m c)).
Proof. unfold complex_summ_conj2. crunch. Qed.
Lemma complex_summ_conj1_ok (a b c : path) (r s : R) : sets (complex_summ_conj1 a b c) a (fun m => Cconj (m b) + m c).
Proof. unfold complex_summ_conj1, complex_summ_conj2. crunch. Qed.
Lemma complex_subt_ok (a b c : path) (r s : R) : sets (complex_subt a b c) a (fun m => m b - m c).
Proof. unfold complex_subt. crunch. Qed.
Lemma complex_subt_conj2_ok (a b c : path) (r s : R) : sets (complex_subt_conj2 a b c) a (fun m => m b - Cconj (m c)).
Proof. unfold complex_subt_conj2. crunch. Qed.
Lemma complex_subt_conj1_ok (a b c : path) (r s : R) : sets (complex_subt_conj1 a b c) a (fun m => Cconj (m b) - m c).
Proof. unfold complex_subt_conj1. crunch. Qed.
Lemma complex_summassign_ok (a b c : path) (r s : R) : sets (complex_summassign a b) a (fun m => m a + m b).
Proof. unfold complex_summassign, complex_summ. crunch. Qed.
Lemma complex_subtassign_ok (a b c : path) (r s : R) : sets (complex_subtassign a b) a (fun m => m a - m b).
Proof. unfold complex_subtassign, complex_subt. crunch. Qed.
Lemma complex_iexp_ok (a b c : path) (r s : R) : sets (complex_iexp a r) a (fun m => cos r + Ci * sin r).
Proof. unfold complex_iexp. crunch. Qed.
Lemma complex_prod_double_ok (a b c : path) (r s : R) : sets (complex_prod_double a b r) a (fun m => m b * r).
Proof. unfold complex_prod_double. crunch. Qed.
Lemma complex_prodassign_double_ok (a b c : path) (r s : R) : sets (complex_prodassign_double a r) a (fun m => m a * r).
Proof. unfold complex_prodassign_double, complex_prod_double. crunch. Qed.
Lemma complex_prod_idouble_ok (a b c : path) (r s : R) : sets (complex_prod_idouble a b r) a (fun m => m b * (Ci * r)).
Proof. unfold complex_prod_idouble. crunch. Qed.
Lemma complex_prodassign_idouble_ok (a b c : path) (r s : R) : sets (complex_prodassign_idouble a r) a (fun m => m a * (Ci * r)).
Proof. unfold complex_prodassign_idouble, complex_prod_idouble. crunch. Qed.
Lemma complex_summ_the_prod_double_ok (a b c : path) (r s : R) : sets (complex_summ_the_prod_double a b r) a (fun m => m a + m b * r).
Proof. unfold complex_summ_the_prod_double. crunch. Qed.
Lemma complex_subt_the_prod_double_ok (a b c : path) (r s : R) : sets (complex_subt_the_prod_double a b r) a (fun m => m a - m b * r).
Proof. unfold complex_subt_the_prod_double. crunch. Qed.
Lemma complex_summ_the_prod_idouble_ok (a b c : path) (r s : R) : sets (complex_summ_the_prod_idouble a b r) a (fun m => m a + m b * (Ci * r)).
Proof. unfold complex_summ_the_prod_idouble. crunch. Qed.
Lemma complex_subt_the_prod_idouble_ok (a b c : path) (r s : R) : sets (complex_subt_the_prod_idouble a b r) a (fun m => m a - m b * (Ci * r)).
Proof. unfold complex_subt_the_prod_idouble. crunch. Qed.
Lemma complex_linear_comb_ok (a b c : path) (r s : R) : sets (complex_linear_comb a b r c s) a (fun m => m b * r + m c * s).
Proof. unfold complex_linear_comb. crunch. Qed.
Lemma complex_summ_the_prod_ok (a b c : path) (r s : R) : sets (complex_summ_the_prod a b c) a (fun m => m a + m b * m c).
Proof. unfold complex_summ_the_prod. crunch. Qed.
Lemma complex_subt_the_prod_ok (a b c : path) (r s : R) : sets (complex_subt_the_prod a b c) a (fun m => m a - m b * m c).
Proof. unfold complex_subt_the_prod. crunch. Qed.
Lemma complex_summ_the_conj2_prod_ok (a b c : path) (r s : R) : sets (complex_summ_the_conj2_prod a b c) a (fun m => m a + m b * Cconj (m c)).
Proof. unfold complex_summ_the_conj2_prod. crunch. Qed.
Lemma complex_summ_the_conj1_prod_ok (a b c : path) (r s : R) : sets (complex_summ_the_conj1_prod a b c) a (fun m => m a + Cconj (m b) * m c).
Proof. unfold complex_summ_the_conj1_prod, complex_summ_the_conj2_prod. crunch. Qed.
Lemma complex_summ_the_conj_conj_prod_ok (a b c : path) (r s : R) : sets (complex_summ_the_conj_conj_prod a b c) a (fun m => m a + Cconj (m b) * Cconj (m c)).
Proof. unfold complex_summ_the_conj_conj_prod. crunch. Qed.
Lemma complex_subt_the_conj2_prod_ok (a b c : path) (r s : R) : sets (complex_subt_the_conj2_prod a b c) a (fun m => m a - m b * Cconj (m c)).
Proof. unfold complex_subt_the_conj2_prod. crunch. Qed.
Lemma complex_subt_the_conj1_prod_ok (a b c : path) (r s : R) : sets (complex_subt_the_conj1_prod a b c) a (fun m => m a - Cconj (m b) * m c).
Proof. unfold complex_subt_the_conj1_prod, complex_subt_the_conj2_prod. crunch. Qed.
Lemma complex_subt_the_conj_conj_prod_ok (a b c : path) (r s : R) : sets (complex_subt_the_conj_conj_prod a b c) a (fun m => m a - Cconj (m b) * Cconj (m c)).
Proof. unfold complex_subt_the_conj_conj_prod. crunch. Qed.
Lemma safe_complex_prod_ok (a b c : path) (r s : R) : sets (safe_complex_prod a b c) a (fun m => m b * m c).
Proof. unfold safe_complex_prod. crunch. Qed.
Lemma complex_prodassign_ok (a b c : path) (r s : R) : sets (complex_prodassign a b) a (fun m => m a * m b).
Proof. unfold complex_prodassign, safe_complex_prod. crunch. Qed.
Lemma safe_complex_prod_minus_ok (a b c : path) (r s : R) : sets (safe_complex_prod_minus a b c) a (fun m => - (m b * m c)).
Proof. unfold safe_complex_prod_minus. crunch. Qed.
Lemma safe_complex_conj2_prod_ok (a b c : path) (r s : R) : sets (safe_complex_conj2_prod a b c) a (fun m => m b * Cconj (m c)).
Proof. unfold safe_complex_conj2_prod. crunch. Qed.
Lemma safe_complex_conj2_prod_minus_ok (a b c : path) (r s : R) : sets (safe_complex_conj2_prod_minus a b c) a (fun m => - (m b * Cconj (m c))).
Proof. unfold safe_complex_conj2_prod_minus. crunch. Qed.
Lemma safe_complex_conj1_prod_ok (a b c : path) (r s : R) : sets (safe_complex_conj1_prod a b c) a (fun m => Cconj (m b) * m c).
Proof. unfold safe_complex_conj1_prod, safe_complex_conj2_prod. crunch. Qed.
Lemma safe_complex_conj1_prod_minus_ok (a b c : path) (r s : R) : sets (safe_complex_conj1_prod_minus a b c) a (fun m => - (Cconj (m b) * m c)).
Proof. unfold safe_complex_conj1_prod_minus, safe_complex_conj2_prod_minus. crunch. Qed.
Lemma safe_complex_prod_i_ok (a b c : path) (r s : R) : sets (safe_complex_prod_i a b) a (fun m => Ci * m b).
Proof. unfold safe_complex_prod_i. crunch. Qed.
Lemma assign_complex_prod_i_ok (a b c : path) (r s : R) : sets (assign_complex_prod_i a) a (fun m => Ci * m a).
Proof. unfold assign_complex_prod_i, safe_complex_prod_i. crunch. Qed.
Lemma safe_complex_prod_minus_i_ok (a b c : path) (r s : R) : sets (safe_complex_prod_minus_i a b) a (fun m => - Ci * m b).
Proof. unfold safe_complex_prod_minus_i. crunch. Qed.
Lemma assign_complex_prod_minus_i_ok (a b c : path) (r s : R) : sets (assign_complex_prod_minus_i a) a (fun m => - Ci * m a).
Proof. unfold assign_complex_prod_minus_i, safe_complex_prod_minus_i. crunch. Qed.
Lemma unsafe_complex_prod_ok (a b c : path) : a <> b -> a <> c -> sets (unsafe_complex_prod a b c) a (fun m => m b * m c).
Proof. unfold unsafe_complex_prod. crunch. Qed.
Lemma unsafe_complex_prod_minus_ok (a b c : path) : a <> b -> a <> c -> sets (unsafe_complex_prod_minus a b c) a (fun m => - (m b * m c)).
Proof. unfold unsafe_complex_prod_minus. crunch. Qed.
Lemma unsafe_complex_conj2_prod_ok (a b c : path) : a <> b -> a <> c -> sets (unsafe_complex_conj2_prod a b c) a (fun m => m b * Cconj (m c)).
Proof. unfold unsafe_complex_conj2_prod. crunch. Qed.
Lemma unsafe_complex_conj2_prod_minus_ok (a b c : path) : a <> b -> a <> c -> sets (unsafe_complex_conj2_prod_minus a b c) a (fun m => - (m b * Cconj (m c))).
Proof. unfold unsafe_complex_conj2_prod_minus. crunch. Qed.
Lemma unsafe_complex_conj1_prod_ok (a b c : path) : a <> b -> a <> c -> sets (unsafe_complex_conj1_prod a b c) a (fun m => Cconj (m b) * m c).
Proof. unfold unsafe_complex_conj1_prod, unsafe_complex_conj2_prod. crunch. Qed.
Lemma unsafe_complex_conj1_prod_minus_ok (a b c : path) : a <> b -> a <> c -> sets (unsafe_complex_conj1_prod_minus a b c) a (fun m => - (Cconj (m b) * m c)).
Proof. unfold unsafe_complex_conj1_prod_minus, unsafe_complex_conj2_prod_minus. crunch. Qed.
Lemma unsafe_complex_conj_conj_prod_ok (a b c : path) : a <> b -> a <> c -> sets (unsafe_complex_conj_conj_prod a b c) a (fun m => Cconj (m b) * Cconj (m c)).
Proof. unfold unsafe_complex_conj_conj_prod. crunch. Qed.
Lemma unsafe_complex_conj_conj_prod_minus_ok (a b c : path) : a <> b -> a <> c -> sets (unsafe_complex_conj_conj_prod_minus a b c) a (fun m => - (Cconj (m b) * Cconj (m c))).
Proof. unfold unsafe_complex_conj_conj_prod_minus. crunch. Qed.
Lemma complex_isumm_ok (a b c : path) : a <> b -> a <> c -> sets (complex_isumm a b c) a (fun m => m b + Ci * m c).
Proof. unfold complex_isumm. crunch. Qed.
Lemma complex_isubt_ok (a b c : path) : a <> b -> a <> c -> sets (complex_isubt a b c) a (fun m => m b - Ci * m c).
Proof. unfold complex_isubt. crunch. Qed.
Lemma complex_isummassign_ok (a b c : path) : a <> b -> a <> c -> sets (complex_isummassign a c) a (fun m => m a + Ci * m c).
Proof. unfold complex_isummassign, complex_isumm. crunch. Qed.
Lemma complex_isubtassign_ok (a b c : path) : a <> b -> a <> c -> sets (complex_isubtassign a c) a (fun m => m a - Ci * m c).
Proof. unfold complex_isubtassign, complex_isubt. crunch. Qed.
Lemma complex_summ_the_prod_i_ok (a b c : path) : a <> b -> a <> c -> sets (complex_summ_the_prod_i a b c) a (fun m => m a + Ci * (m b * m c)).
Proof. unfold complex_summ_the_prod_i. crunch. Qed.
Lemma complex_subt_the_prod_i_ok (a b c : path) : a <> b -> a <> c -> sets (complex_subt_the_prod_i a b c) a (fun m => m a - Ci * (m b * m c)).
Proof. unfold complex_subt_the_prod_i. crunch. Qed.
Lemma complex_summ_the_conj2_prod_i_ok (a b c : path) : a <> b -> a <> c -> sets (complex_summ_the_conj2_prod_i a b c) a (fun m => m a + Ci * (m b * Cconj (m c))).
Proof. unfold complex_summ_the_conj2_prod_i. crunch. Qed.
Lemma complex_subt_the_conj2_prod_i_ok (a b c : path) : a <> b -> a <> c -> sets (complex_subt_the_conj2_prod_i a b c) a (fun m => m a - Ci * (m b * Cconj (m c))).
Proof. unfold complex_subt_the_conj2_prod_i. crunch. Qed.
Lemma complex_summ_the_conj_conj_prod_i_ok (a b c : path) : a <> b -> a <> c -> sets (complex_summ_the_conj_conj_prod_i a b c) a (fun m => m a + Ci * (Cconj (m b) * Cconj (m c))).
Proof. unfold complex_summ_the_conj_conj_prod_i. crunch. Qed.
Lemma complex_subt_the_conj_conj_prod_i_ok (a b c : path) : a <> b -> a <> c -> sets (complex_subt_the_conj_conj_prod_i a b c) a (fun m => m a - Ci * (Cconj (m b) * Cconj (m c))).
Proof. unfold complex_subt_the_conj_conj_prod_i. crunch. Qed.
