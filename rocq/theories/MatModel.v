(** Colours and colour matrices in memory: src/new_types/su3_op.hpp, su3_op.cpp.  Same conventions as CplxModel: a matrix is the path
    of its first dimension.  Local variables of a function are paths given as last arguments ("stack slots"): what they hold before
    is arbitrary, and they are different from the arguments whenever the function is called.  Exact real arithmetic. *)
From Coq Require Import Reals List.
From Coquelicot Require Import Complex.
From Verif Require Import CplxModel.
Import ListNotations.
Open Scope R_scope.

(** src/new_types/su3.hpp:12 *)
Definition NCOL : nat := 3.

(** UNROLL_FOR(i,lo,hi): src/metaprogramming/unroll.hpp:19-21 *)
Definition unroll_for (lo hi : nat) (body : nat -> mem -> mem) (m : mem) : mem :=
  fold_left (fun m i => body i m) (seq lo (hi - lo)) m.
Definition for_cols (body : nat -> mem -> mem) : mem -> mem := unroll_for 0 NCOL body.
Definition then_ (f g : mem -> mem) (m : mem) : mem := g (f m).
Notation "f ;; g" := (then_ f g) (at level 100, right associativity).
(** the same for a double accumulated along the loop *)
Definition acc_for (lo hi : nat) (f : nat -> R) (init : R) : R := fold_left (fun r i => r + f i) (seq lo (hi - lo)) init.

(** ** Colours: su3_op.hpp:47-53, 134-142, 229-345, 395-409, 427-440 *)
Definition color_put_to_zero (m_ : path) := for_cols (fun ic => complex_put_to_zero m_@[ic]).
Definition color_copy (a b : path) := for_cols (fun ic => complex_copy a@[ic] b@[ic]).
Definition color_summ (a b c : path) := for_cols (fun ic => complex_summ a@[ic] b@[ic] c@[ic]).
Definition color_isumm (a b c : path) := for_cols (fun ic => complex_isumm a@[ic] b@[ic] c@[ic]).
Definition color_isubt (a b c : path) := for_cols (fun ic => complex_isubt a@[ic] b@[ic] c@[ic]).
Definition color_subt (a b c : path) := for_cols (fun ic => complex_subt a@[ic] b@[ic] c@[ic]).
Definition color_summassign (a b : path) := color_summ a a b.
Definition color_subtassign (a b : path) := color_subt a a b.
Definition color_prod_double (a b : path) (c : R) := for_cols (fun ic => complex_prod_double a@[ic] b@[ic] c).
Definition color_prod_idouble (a b : path) (c : R) := for_cols (fun ic => complex_prod_idouble a@[ic] b@[ic] c).
Definition color_summ_the_prod_double (a b : path) (c : R) := for_cols (fun ic => complex_summ_the_prod_double a@[ic] b@[ic] c).
Definition color_summ_the_prod_idouble (a b : path) (c : R) := for_cols (fun ic => complex_summ_the_prod_idouble a@[ic] b@[ic] c).
Definition color_summ_the_prod_complex (a b c : path) := for_cols (fun ic => complex_summ_the_prod a@[ic] b@[ic] c).
Definition color_subt_the_prod_complex (a b c : path) := for_cols (fun ic => complex_subt_the_prod a@[ic] b@[ic] c).
Definition color_linear_comb (a b : path) (cb : R) (c : path) (cc : R) := for_cols (fun ic => complex_linear_comb a@[ic] b@[ic] cb c@[ic] cc).
(** su3_op.hpp:429-439, 443-453 *)
Definition color_scalar_prod (a b c : path) : mem -> mem :=
  unsafe_complex_conj1_prod a b@[0%nat] c@[0%nat];;
  unroll_for 1 NCOL (fun ic => complex_summ_the_conj1_prod a b@[ic] c@[ic]).
Definition color_norm2 (m : mem) (c : path) : R := acc_for 0 NCOL (fun ic => complex_norm2 m c@[ic]) 0.
(** su3_op.hpp:457-490 *)
Definition safe_color_prod_complex (out inp f : path) := for_cols (fun ic => safe_complex_prod out@[ic] inp@[ic] f).
Definition unsafe_color_prod_complex (out inp f : path) := for_cols (fun ic => unsafe_complex_prod out@[ic] inp@[ic] f).
Definition safe_color_prod_complex_conj (out inp f : path) := for_cols (fun ic => safe_complex_conj2_prod out@[ic] inp@[ic] f).
Definition unsafe_color_prod_complex_conj (out inp f : path) := for_cols (fun ic => unsafe_complex_conj2_prod out@[ic] inp@[ic] f).

(** ** Matrices: su3_op.hpp:56-62, 90-129, 145-153 *)
Definition su3_put_to_zero (m_ : path) := for_cols (fun ic => color_put_to_zero m_@[ic]).
Definition su3_put_to_id (m_ : path) : mem -> mem := su3_put_to_zero m_;; for_cols (fun ic => set_re m_@[ic]@[ic] 1).
Definition su3_put_to_diag_complex (m_ inp : path) : mem -> mem := su3_put_to_zero m_;; for_cols (fun ic => complex_copy m_@[ic]@[ic] inp).
Definition su3_put_to_diag_color (m_ inp : path) : mem -> mem := su3_put_to_zero m_;; for_cols (fun ic => complex_copy m_@[ic]@[ic] inp@[ic]).
Definition su3_put_to_diag_double (m_ : path) (inp : R) : mem -> mem := su3_put_to_zero m_;; for_cols (fun ic => set_re m_@[ic]@[ic] inp).
Definition su3_copy (a b : path) := for_cols (fun ic => color_copy a@[ic] b@[ic]).

(** su3_op.hpp:157-163, 195-222: NDIM=4 matrices *)
Definition NDIM : nat := 4.
Definition quad_su3_copy (a b : path) := unroll_for 0 NDIM (fun i => su3_copy a@[i] b@[i]).
Definition quad_su3_nissa_to_ildg_reord (out inp buff : path) : mem -> mem :=
  quad_su3_copy buff inp;; unroll_for 0 NDIM (fun mu => su3_copy out@[Nat.modulo (mu + NDIM - 1) NDIM] buff@[mu]).
Definition quad_su3_ildg_to_nissa_reord (out inp buff : path) : mem -> mem :=
  quad_su3_copy buff inp;; unroll_for 0 NDIM (fun mu => su3_copy out@[Nat.modulo (mu + 1) NDIM] buff@[mu]).

(** su3_op.hpp:495-503 *)
Definition su3_build_third_row (o : path) : mem -> mem :=
  unsafe_complex_conj_conj_prod o@[2%nat]@[0%nat] o@[0%nat]@[1%nat] o@[1%nat]@[2%nat];;
  complex_subt_the_conj_conj_prod o@[2%nat]@[0%nat] o@[0%nat]@[2%nat] o@[1%nat]@[1%nat];;
  unsafe_complex_conj_conj_prod o@[2%nat]@[1%nat] o@[0%nat]@[2%nat] o@[1%nat]@[0%nat];;
  complex_subt_the_conj_conj_prod o@[2%nat]@[1%nat] o@[0%nat]@[0%nat] o@[1%nat]@[2%nat];;
  unsafe_complex_conj_conj_prod o@[2%nat]@[2%nat] o@[0%nat]@[0%nat] o@[1%nat]@[1%nat];;
  complex_subt_the_conj_conj_prod o@[2%nat]@[2%nat] o@[0%nat]@[1%nat] o@[1%nat]@[0%nat].

(** su3_op.hpp:520-528, 531-542, 679-680 *)
Definition su3_trace (tr m_ : path) : mem -> mem :=
  complex_copy tr m_@[0%nat]@[0%nat];; unroll_for 1 NCOL (fun ic => complex_summassign tr m_@[ic]@[ic]).
Definition su3_real_trace (m : mem) (m_ : path) : R := acc_for 1 NCOL (fun ic => re m m_@[ic]@[ic]) (re m m_@[0%nat]@[0%nat]).
Definition su3_summ_the_trace (tr m_ : path) := for_cols (fun ic => complex_summ tr tr m_@[ic]@[ic]).

(** su3_op.hpp:545-568; [a] is the local variable *)
Definition su3_det (d u a : path) : mem -> mem :=
  unsafe_complex_prod a u@[1%nat]@[1%nat] u@[2%nat]@[2%nat];;
  complex_subt_the_prod a u@[1%nat]@[2%nat] u@[2%nat]@[1%nat];;
  unsafe_complex_prod d u@[0%nat]@[0%nat] a;;
  unsafe_complex_prod a u@[1%nat]@[2%nat] u@[2%nat]@[0%nat];;
  complex_subt_the_prod a u@[1%nat]@[0%nat] u@[2%nat]@[2%nat];;
  complex_summ_the_prod d u@[0%nat]@[1%nat] a;;
  unsafe_complex_prod a u@[1%nat]@[0%nat] u@[2%nat]@[1%nat];;
  complex_subt_the_prod a u@[1%nat]@[1%nat] u@[2%nat]@[0%nat];;
  complex_summ_the_prod d u@[0%nat]@[2%nat] a.

(** su3_op.hpp:571-589 *)
Definition su3_real_det (m : mem) (u : path) : R :=
  let r i j := re m u@[i]@[j] in let i_ i j := im m u@[i]@[j] in
  i_ 0%nat 2%nat * (r 1%nat 1%nat * i_ 2%nat 0%nat + i_ 1%nat 1%nat * r 2%nat 0%nat - r 1%nat 0%nat * i_ 2%nat 1%nat - i_ 1%nat 0%nat * r 2%nat 1%nat) +
  r 0%nat 2%nat * (i_ 1%nat 1%nat * i_ 2%nat 0%nat - r 1%nat 1%nat * r 2%nat 0%nat - i_ 1%nat 0%nat * i_ 2%nat 1%nat + r 1%nat 0%nat * r 2%nat 1%nat) +
  i_ 0%nat 1%nat * (r 1%nat 0%nat * i_ 2%nat 2%nat - r 1%nat 2%nat * i_ 2%nat 0%nat - i_ 1%nat 2%nat * r 2%nat 0%nat + i_ 1%nat 0%nat * r 2%nat 2%nat) +
  r 0%nat 1%nat * (i_ 1%nat 0%nat * i_ 2%nat 2%nat - i_ 1%nat 2%nat * i_ 2%nat 0%nat + r 1%nat 2%nat * r 2%nat 0%nat - r 1%nat 0%nat * r 2%nat 2%nat) +
  i_ 0%nat 0%nat * (r 1%nat 2%nat * i_ 2%nat 1%nat + i_ 1%nat 2%nat * r 2%nat 1%nat - r 1%nat 1%nat * i_ 2%nat 2%nat - i_ 1%nat 1%nat * r 2%nat 2%nat) +
  r 0%nat 0%nat * (i_ 1%nat 2%nat * i_ 2%nat 1%nat - r 1%nat 2%nat * r 2%nat 1%nat - i_ 1%nat 1%nat * i_ 2%nat 2%nat + r 1%nat 1%nat * r 2%nat 2%nat).

(** su3_op.hpp:683-709: a double assignment x=-(y=v) stores v in y, then -v in x *)
Definition unsafe_su3_traceless_anti_hermitian_part (out inp : path) (m : mem) : mem :=
  let trace_im_third := acc_for 0 NCOL (fun ic => im m inp@[ic]@[ic]) 0 / INR NCOL in
  for_cols (fun ic =>
    set_re out@[ic]@[ic] 0;;
    (fun m => set_im out@[ic]@[ic] (im m inp@[ic]@[ic] - trace_im_third) m);;
    unroll_for 0 ic (fun jc =>
      (fun m => let v := (re m inp@[jc]@[ic] - re m inp@[ic]@[jc]) / 2 in set_re out@[ic]@[jc] (- v) (set_re out@[jc]@[ic] v m));;
      (fun m => let v := (im m inp@[jc]@[ic] + im m inp@[ic]@[jc]) / 2 in set_im out@[ic]@[jc] v (set_im out@[jc]@[ic] v m)))) m.
(** su3_op.hpp:712-730 *)
Definition su3_anti_hermitian_part (out inp : path) : mem -> mem :=
  for_cols (fun ic =>
    set_re out@[ic]@[ic] 0;;
    (fun m => set_im out@[ic]@[ic] (im m inp@[ic]@[ic]) m);;
    unroll_for 0 ic (fun jc =>
      (fun m => let v := (re m inp@[jc]@[ic] - re m inp@[ic]@[jc]) / 2 in set_re out@[ic]@[jc] (- v) (set_re out@[jc]@[ic] v m));;
      (fun m => let v := (im m inp@[jc]@[ic] + im m inp@[ic]@[jc]) / 2 in set_im out@[ic]@[jc] v (set_im out@[jc]@[ic] v m)))).
(** su3_op.hpp:733-758 *)
Definition unsafe_su3_traceless_hermitian_part (out inp : path) (m : mem) : mem :=
  let trace_re_third := acc_for 0 NCOL (fun ic => re m inp@[ic]@[ic]) 0 / INR NCOL in
  for_cols (fun ic =>
    set_im out@[ic]@[ic] 0;;
    (fun m => set_re out@[ic]@[ic] (re m inp@[ic]@[ic] - trace_re_third) m);;
    unroll_for 0 ic (fun jc =>
      (fun m => let v := (re m inp@[jc]@[ic] + re m inp@[ic]@[jc]) / 2 in set_re out@[ic]@[jc] v (set_re out@[jc]@[ic] v m));;
      (fun m => let v := (im m inp@[jc]@[ic] - im m inp@[ic]@[jc]) / 2 in set_im out@[ic]@[jc] (- v) (set_im out@[jc]@[ic] v m)))) m.

(** su3_op.hpp:761-796 *)
Definition unsafe_su3_hermitian (out inp : path) := for_cols (fun ic => for_cols (fun jc => complex_conj out@[ic]@[jc] inp@[jc]@[ic])).
Definition safe_su3_hermitian (out inp tmp : path) : mem -> mem := unsafe_su3_hermitian tmp inp;; su3_copy out tmp.
Definition unsafe_su3_transpose (out inp : path) := for_cols (fun ic => for_cols (fun jc => complex_copy out@[ic]@[jc] inp@[jc]@[ic])).
Definition safe_su3_transpose (out inp tmp : path) : mem -> mem := unsafe_su3_transpose tmp inp;; su3_copy out tmp.

(** su3_op.hpp:799-877 *)
Definition su3_summ (a b c : path) := for_cols (fun ic => color_summ a@[ic] b@[ic] c@[ic]).
Definition unsafe_su3_summ_su3_dag (a b c : path) := for_cols (fun ic => for_cols (fun jc => complex_summ_conj2 a@[ic]@[jc] b@[ic]@[jc] c@[jc]@[ic])).
Definition su3_summassign_su3_dag (a b : path) := unsafe_su3_summ_su3_dag a a b.
Definition su3_summassign (a b : path) := su3_summ a a b.
Definition su3_summ_real (a b : path) (c : R) : mem -> mem :=
  su3_copy a b;; for_cols (fun ic m => set_re a@[ic]@[ic] (re m b@[ic]@[ic] + c) m).
Definition su3_subt (a b c : path) := for_cols (fun ic => color_subt a@[ic] b@[ic] c@[ic]).
Definition su3_subtassign (a b : path) := su3_subt a a b.
Definition su3_subt_complex (a b c : path) : mem -> mem :=
  su3_copy a b;; for_cols (fun ic => complex_subt a@[ic]@[ic] b@[ic]@[ic] c).
Definition unsafe_su3_subt_su3_dag (a b c : path) := for_cols (fun ic => for_cols (fun jc => complex_subt_conj2 a@[ic]@[jc] b@[ic]@[jc] c@[jc]@[ic])).
Definition su3_subtassign_su3_dag (a b : path) := unsafe_su3_subt_su3_dag a a b.

(** su3_op.hpp:880-896, 899-919 *)
Definition unsafe_su3_prod_su3 (a b c : path) (nr_max : nat) : mem -> mem :=
  unroll_for 0 nr_max (fun ic => for_cols (fun jc =>
    unsafe_complex_prod a@[ic]@[jc] b@[ic]@[0%nat] c@[0%nat]@[jc];;
    unroll_for 1 NCOL (fun itemp => complex_summ_the_prod a@[ic]@[jc] b@[ic]@[itemp] c@[itemp]@[jc]))).
Definition safe_su3_prod_su3 (a b c d : path) : mem -> mem := unsafe_su3_prod_su3 d b c NCOL;; su3_copy a d.
Definition su3_prodassign_su3 (a b d : path) : mem -> mem := safe_su3_prod_su3 a a b d.
(** su3_op.hpp:922-960 *)
Definition su3_summ_the_prod_su3 (a b c : path) := for_cols (fun ir => for_cols (fun ic => for_cols (fun itemp =>
  complex_summ_the_prod a@[ir]@[ic] b@[ir]@[itemp] c@[itemp]@[ic]))).
Definition su3_summ_the_prod_su3_dag (a b c : path) := for_cols (fun ir => for_cols (fun ic => for_cols (fun itemp =>
  complex_summ_the_conj2_prod a@[ir]@[ic] b@[ir]@[itemp] c@[ic]@[itemp]))).
Definition su3_summ_the_dag_prod_su3 (a b c : path) := for_cols (fun ir => for_cols (fun ic => for_cols (fun itemp =>
  complex_summ_the_conj1_prod a@[ir]@[ic] b@[itemp]@[ir] c@[itemp]@[ic]))).
(** su3_op.hpp:963-994: the inner sum stops at nr_max *)
Definition unsafe_su3_dag_prod_su3 (a b c : path) (nr_max : nat) : mem -> mem :=
  unroll_for 0 nr_max (fun ir => for_cols (fun ic =>
    unsafe_complex_conj1_prod a@[ir]@[ic] b@[0%nat]@[ir] c@[0%nat]@[ic];;
    unroll_for 1 nr_max (fun itemp => complex_summ_the_conj1_prod a@[ir]@[ic] b@[itemp]@[ir] c@[itemp]@[ic]))).
Definition safe_su3_dag_prod_su3 (a b c d : path) : mem -> mem := unsafe_su3_dag_prod_su3 d b c NCOL;; su3_copy a d.
Definition su3_dag_summ_the_prod_su3 (a b c : path) := for_cols (fun ic => for_cols (fun jc => for_cols (fun itemp =>
  complex_summ_the_conj1_prod a@[ic]@[jc] b@[itemp]@[ic] c@[itemp]@[jc]))).
(** su3_op.hpp:997-1014 *)
Definition unsafe_su3_prod_su3_dag (a b c : path) (nr_max : nat) : mem -> mem :=
  unroll_for 0 nr_max (fun ir => for_cols (fun ic =>
    unsafe_complex_conj2_prod a@[ir]@[ic] b@[ir]@[0%nat] c@[ic]@[0%nat];;
    unroll_for 1 NCOL (fun jc => complex_summ_the_conj2_prod a@[ir]@[ic] b@[ir]@[jc] c@[ic]@[jc]))).
Definition safe_su3_prod_su3_dag (a b c d : path) : mem -> mem := unsafe_su3_prod_su3_dag d b c NCOL;; su3_copy a d.
(** su3_op.hpp:1017-1027 *)
Definition su3_subt_the_prod_su3_dag (a b c : path) := for_cols (fun ic => for_cols (fun jc => for_cols (fun kc =>
  complex_subt_the_conj2_prod a@[ic]@[jc] b@[ic]@[kc] c@[jc]@[kc]))).
(** su3_op.hpp:1030-1053 *)
Definition real_part_of_trace_su3_prod_su3_dag (m : mem) (a b : path) : R :=
  fold_left (fun t ic => acc_for 0 NCOL (fun jc => real_part_of_complex_scalar_prod m a@[ic]@[jc] b@[ic]@[jc]) t) (seq 0 NCOL) 0.
Definition trace_su3_prod_su3 (t a b : path) : mem -> mem :=
  complex_put_to_zero t;; for_cols (fun ic => for_cols (fun jc => complex_summ_the_prod t a@[ic]@[jc] b@[jc]@[ic])).
(** su3_op.hpp:1056-1074 *)
Definition unsafe_su3_dag_prod_su3_dag (a b c : path) (nr_max : nat) : mem -> mem :=
  unroll_for 0 nr_max (fun ic => for_cols (fun jc =>
    unsafe_complex_conj_conj_prod a@[ic]@[jc] b@[0%nat]@[ic] c@[jc]@[0%nat];;
    unroll_for 1 NCOL (fun itemp => complex_summ_the_conj_conj_prod a@[ic]@[jc] b@[itemp]@[ic] c@[jc]@[itemp]))).
Definition safe_su3_dag_prod_su3_dag (a b c d : path) : mem -> mem := unsafe_su3_dag_prod_su3_dag d b c NCOL;; su3_copy a d.
(** su3_op.hpp:1077-1115 *)
Definition unsafe_su3_prod_complex (a b c : path) := for_cols (fun ic => unsafe_color_prod_complex a@[ic] b@[ic] c).
Definition safe_su3_prod_complex (a b c d : path) : mem -> mem := unsafe_su3_prod_complex d b c;; su3_copy a d.
Definition unsafe_su3_prod_complex_conj (a b c : path) := for_cols (fun ic => unsafe_color_prod_complex_conj a@[ic] b@[ic] c).
Definition safe_su3_prod_complex_conj (a b c d : path) : mem -> mem := unsafe_su3_prod_complex_conj d b c;; su3_copy a d.
(** su3_op.hpp:1118-1135 *)
Definition su3_prod_double (a b : path) (r : R) := for_cols (fun ic => color_prod_double a@[ic] b@[ic] r).
Definition su3_prodassign_double (a : path) (r : R) := su3_prod_double a a r.
(** su3_op.hpp:1138-1192 *)
Definition unsafe_su3_hermitian_prod_double (a b : path) (r : R) := for_cols (fun ic => for_cols (fun jc =>
  (fun m => set_re a@[ic]@[jc] (r * re m b@[jc]@[ic]) m);; (fun m => set_im a@[ic]@[jc] (- r * im m b@[jc]@[ic]) m))).
Definition safe_su3_hermitian_prod_double (a b : path) (r : R) := for_cols (fun ic =>
  (fun m => set_re a@[ic]@[ic] (r * re m b@[ic]@[ic]) m);; (fun m => set_im a@[ic]@[ic] (- r * im m b@[ic]@[ic]) m);;
  unroll_for (ic + 1) NCOL (fun jc m =>
    let a_i_j_RE := r * re m b@[jc]@[ic] in
    let a_i_j_IM := - r * im m b@[jc]@[ic] in
    let m := set_re a@[jc]@[ic] (r * re m b@[ic]@[jc]) m in
    let m := set_im a@[jc]@[ic] (- r * im m b@[ic]@[jc]) m in
    let m := set_re a@[ic]@[jc] a_i_j_RE m in
    set_im a@[ic]@[jc] a_i_j_IM m)).
Definition su3_summ_the_hermitian_prod_double (a b : path) (r : R) := for_cols (fun ic => for_cols (fun jc =>
  (fun m => set_re a@[ic]@[jc] (re m a@[ic]@[jc] + r * re m b@[jc]@[ic]) m);;
  (fun m => set_im a@[ic]@[jc] (im m a@[ic]@[jc] + - r * im m b@[jc]@[ic]) m))).
(** su3_op.hpp:1195-1262 *)
Definition su3_prod_idouble (a b : path) (r : R) := for_cols (fun ic => color_prod_idouble a@[ic] b@[ic] r).
Definition su3_prodassign_idouble (a : path) (r : R) := su3_prod_idouble a a r.
Definition su3_summ_the_prod_idouble (a b : path) (r : R) := for_cols (fun ic => color_summ_the_prod_idouble a@[ic] b@[ic] r).
Definition su3_summ_the_prod_double (a b : path) (r : R) := for_cols (fun ic => color_summ_the_prod_double a@[ic] b@[ic] r).
Definition su3_dag_summ_the_prod_double (a b : path) (r : R) := for_cols (fun ic => for_cols (fun jc =>
  (fun m => set_re a@[ic]@[jc] (re m a@[ic]@[jc] + re m b@[jc]@[ic] * r) m);;
  (fun m => set_im a@[ic]@[jc] (im m a@[ic]@[jc] - im m b@[jc]@[ic] * r) m))).
Definition su3_linear_comb (a b : path) (cb : R) (c : path) (cc : R) := for_cols (fun ic => color_linear_comb a@[ic] b@[ic] cb c@[ic] cc).
Definition su3_summ_the_prod_complex (a b c : path) := for_cols (fun ic => color_summ_the_prod_complex a@[ic] b@[ic] c).

(** su3_op.hpp:1265-1303; [det], [rec_det] and [a] (of su3_det) are local *)
Definition unsafe_su3_explicit_inverse (invU U det rec_det a : path) : mem -> mem :=
  su3_det det U a;; complex_reciprocal rec_det det;;
  unsafe_complex_prod invU@[0%nat]@[0%nat] U@[1%nat]@[1%nat] U@[2%nat]@[2%nat];;
  unsafe_complex_prod invU@[1%nat]@[0%nat] U@[1%nat]@[2%nat] U@[2%nat]@[0%nat];;
  unsafe_complex_prod invU@[2%nat]@[0%nat] U@[1%nat]@[0%nat] U@[2%nat]@[1%nat];;
  unsafe_complex_prod invU@[0%nat]@[1%nat] U@[0%nat]@[2%nat] U@[2%nat]@[1%nat];;
  unsafe_complex_prod invU@[1%nat]@[1%nat] U@[0%nat]@[0%nat] U@[2%nat]@[2%nat];;
  unsafe_complex_prod invU@[2%nat]@[1%nat] U@[0%nat]@[1%nat] U@[2%nat]@[0%nat];;
  unsafe_complex_prod invU@[0%nat]@[2%nat] U@[0%nat]@[1%nat] U@[1%nat]@[2%nat];;
  unsafe_complex_prod invU@[1%nat]@[2%nat] U@[0%nat]@[2%nat] U@[1%nat]@[0%nat];;
  unsafe_complex_prod invU@[2%nat]@[2%nat] U@[0%nat]@[0%nat] U@[1%nat]@[1%nat];;
  complex_subt_the_prod invU@[0%nat]@[0%nat] U@[1%nat]@[2%nat] U@[2%nat]@[1%nat];;
  complex_subt_the_prod invU@[1%nat]@[0%nat] U@[1%nat]@[0%nat] U@[2%nat]@[2%nat];;
  complex_subt_the_prod invU@[2%nat]@[0%nat] U@[1%nat]@[1%nat] U@[2%nat]@[0%nat];;
  complex_subt_the_prod invU@[0%nat]@[1%nat] U@[0%nat]@[1%nat] U@[2%nat]@[2%nat];;
  complex_subt_the_prod invU@[1%nat]@[1%nat] U@[0%nat]@[2%nat] U@[2%nat]@[0%nat];;
  complex_subt_the_prod invU@[2%nat]@[1%nat] U@[0%nat]@[0%nat] U@[2%nat]@[1%nat];;
  complex_subt_the_prod invU@[0%nat]@[2%nat] U@[0%nat]@[2%nat] U@[1%nat]@[1%nat];;
  complex_subt_the_prod invU@[1%nat]@[2%nat] U@[0%nat]@[0%nat] U@[1%nat]@[2%nat];;
  complex_subt_the_prod invU@[2%nat]@[2%nat] U@[0%nat]@[1%nat] U@[1%nat]@[0%nat];;
  for_cols (fun ic => for_cols (fun jc => safe_complex_prod invU@[ic]@[jc] invU@[ic]@[jc] rec_det)).
Definition safe_su3_explicit_inverse (invU U tempU det rec_det a : path) : mem -> mem :=
  unsafe_su3_explicit_inverse tempU U det rec_det a;; su3_copy invU tempU.
(** su3_op.hpp:1306-1314 *)
Definition su3_norm2 (m : mem) (U : path) : R := acc_for 0 NCOL (fun ic => color_norm2 m U@[ic]) 0.

(** su3_op.hpp:1361-1405: unitarize; [sp] and [f] are local *)
Definition su3_unitarize_orthonormalizing (o i sp f : path) (m : mem) : mem :=
  let row0_norm2 := color_norm2 m i@[0%nat] in
  let m := (unsafe_complex_conj2_prod sp i@[1%nat]@[0%nat] i@[0%nat]@[0%nat];;
            complex_summ_the_conj2_prod sp i@[1%nat]@[1%nat] i@[0%nat]@[1%nat];;
            complex_summ_the_conj2_prod sp i@[1%nat]@[2%nat] i@[0%nat]@[2%nat];;
            complex_prod_double f sp (1 / row0_norm2);;
            for_cols (fun ic => complex_copy o@[1%nat]@[ic] i@[1%nat]@[ic];; complex_subt_the_prod o@[1%nat]@[ic] f i@[0%nat]@[ic])) m in
  let row0_norm := 1 / sqrt row0_norm2 in
  let row1_norm := 1 / sqrt (complex_norm2 m o@[1%nat]@[0%nat] + complex_norm2 m o@[1%nat]@[1%nat] + complex_norm2 m o@[1%nat]@[2%nat]) in
  (for_cols (fun ic =>
     (fun m => set_re o@[0%nat]@[ic] (row0_norm * re m i@[0%nat]@[ic]) m);; (fun m => set_re o@[1%nat]@[ic] (row1_norm * re m o@[1%nat]@[ic]) m);;
     (fun m => set_im o@[0%nat]@[ic] (row0_norm * im m i@[0%nat]@[ic]) m);; (fun m => set_im o@[1%nat]@[ic] (row1_norm * im m o@[1%nat]@[ic]) m));;
   su3_build_third_row o) m.

(** su3_op.cpp:51; su3_op.hpp:598-624: su2_part_of_su3 returns A, B, C, D and the normalisation *)
Definition su3_sub_gr_indices (isub_gr : nat) : nat * nat :=
  match isub_gr with 0%nat => (0, 1)%nat | 1%nat => (1, 2)%nat | _ => (0, 2)%nat end.
Definition su2_part_of_su3 (m : mem) (inp : path) (isub_gr : nat) : R * R * R * R * R :=
  let (a, b) := su3_sub_gr_indices isub_gr in
  let A := re m inp@[a]@[a] + re m inp@[b]@[b] in
  let B := im m inp@[a]@[b] + im m inp@[b]@[a] in
  let C := re m inp@[a]@[b] - re m inp@[b]@[a] in
  let D := im m inp@[a]@[a] - im m inp@[b]@[b] in
  let N := sqrt (A * A + B * B + C * C + D * D) in
  if Req_EM_T (Rabs N) 0 then (1, B, C, D, 1)
  else let N := 1 / N in (A * N, B * N, C * N, D * N, N).
(** su3_op.hpp:627-638 *)
Definition su2_inv (q : R * R * R * R) : R * R * R * R := let '(a, b, c, d) := q in (a, - b, - c, - d).
Definition su2_get_overrelaxing (q : R * R * R * R) : R * R * R * R :=
  let '(r0, r1, r2, r3) := q in (2 * r0 * r0 - 1, - 2 * r0 * r1, - 2 * r0 * r2, - 2 * r0 * r3).
(** su3_op.hpp:641-660; [row] is local *)
Definition su2_prodassign_su3_mod (mod_ : path) (isub_gr : nat) (inp row : path) : mem -> mem :=
  let (ic1, ic2) := su3_sub_gr_indices isub_gr in
  for_cols (fun ic =>
    unroll_for 0 2 (fun irow =>
      safe_complex_prod row@[irow] mod_@[irow]@[0%nat] inp@[ic1]@[ic];;
      complex_summ_the_prod row@[irow] mod_@[irow]@[1%nat] inp@[ic2]@[ic]);;
    complex_copy inp@[ic1]@[ic] row@[0%nat];;
    complex_copy inp@[ic2]@[ic] row@[1%nat]).
(** su3_op.hpp:663-667; [mod_] is local too *)
Definition su2_prodassign_su3 (q : R * R * R * R) (isub_gr : nat) (inp mod_ row : path) : mem -> mem :=
  let '(A, B, C, D) := q in
  set_re mod_@[0%nat]@[0%nat] A;; set_im mod_@[0%nat]@[0%nat] D;; set_re mod_@[0%nat]@[1%nat] C;; set_im mod_@[0%nat]@[1%nat] B;;
  set_re mod_@[1%nat]@[0%nat] (- C);; set_im mod_@[1%nat]@[0%nat] B;; set_re mod_@[1%nat]@[1%nat] A;; set_im mod_@[1%nat]@[1%nat] (- D);;
  su2_prodassign_su3_mod mod_ isub_gr inp row.
(** su3_op.hpp:670-671 *)
Definition su2_nonunitarity (q : R * R * R * R) : R := let '(A, B, C, D) := q in A * A - 2 * A + 1 + B * B + C * C + D * D.

(** su3_op.hpp:1541-1710: matrices and colours *)
Definition unsafe_su3_prod_color (a b c : path) := for_cols (fun c1 =>
  unsafe_complex_prod a@[c1] b@[c1]@[0%nat] c@[0%nat];;
  unroll_for 1 NCOL (fun c2 => complex_summ_the_prod a@[c1] b@[c1]@[c2] c@[c2])).
Definition safe_su3_prod_color (a b c t : path) : mem -> mem := unsafe_su3_prod_color t b c;; color_copy a t.
Definition unsafe_su3_dag_prod_color (a b c : path) := for_cols (fun c1 =>
  unsafe_complex_conj1_prod a@[c1] b@[0%nat]@[c1] c@[0%nat];;
  unroll_for 1 NCOL (fun c2 => complex_summ_the_conj1_prod a@[c1] b@[c2]@[c1] c@[c2])).
Definition safe_su3_dag_prod_color (a b c t : path) : mem -> mem := unsafe_su3_dag_prod_color t b c;; color_copy a t.

(** su3_op.hpp:3033-3053; [t] is local: it only holds the scalar product added next *)
Definition scalar_prod_value (m : mem) (b c : path) : C :=
  fold_left (fun s ic => Cplus s (Cmult (Cconj (m b@[ic])) (m c@[ic]))) (seq 1 (NCOL - 1)) (Cmult (Cconj (m b@[0%nat])) (m c@[0%nat])).
Definition su3_get_non_unitariness (m : mem) (u : path) : R :=
  sqrt (fold_left (fun res ic =>
    acc_for (ic + 1) NCOL (fun jc => let t := scalar_prod_value m u@[ic] u@[jc] in 2 * (fst t * fst t + snd t * snd t))
      (res + (color_norm2 m u@[ic] - 1) * (color_norm2 m u@[ic] - 1))) (seq 0 NCOL) 0).
