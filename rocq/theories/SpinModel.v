(** Spins and spin matrices in memory: src/new_types/spin.hpp.  Same conventions as CplxModel and MatModel.  A dirac_matr passed to a
    routine is the path [d] of its entries and the function [p] of its positions. *)
From Coq Require Import Reals List.
From Coquelicot Require Import Complex.
From Verif Require Import CplxModel MatModel DiracModel.
Import ListNotations.
Open Scope R_scope.

(** UNROLL_FOR_ALL_SPIN: spin.hpp:16-17 *)
Definition for_spin (body : nat -> mem -> mem) : mem -> mem := unroll_for 0 NDIRAC body.

(** spin.hpp:46-94 *)
Definition spin_put_to_zero (s : path) := for_spin (fun id => complex_put_to_zero s@[id]).
Definition spin_copy (out inp : path) := for_spin (fun id => complex_copy out@[id] inp@[id]).
Definition spin_conj (out inp : path) := for_spin (fun id => complex_conj out@[id] inp@[id]).
Definition spin_summ (a b c : path) := for_spin (fun id => complex_summ a@[id] b@[id] c@[id]).
Definition spin_subt (a b c : path) := for_spin (fun id => complex_subt a@[id] b@[id] c@[id]).
Definition spin_summassign (a b : path) := spin_summ a a b.
Definition spin_subtassign (a b : path) := spin_subt a a b.
Definition spin_prod_double (a b : path) (c : R) := for_spin (fun id => complex_prod_double a@[id] b@[id] c).
Definition spin_prodassign_double (a : path) (b : R) := spin_prod_double a a b.
(** spin.hpp:106-114 *)
Definition spinspin_copy (a b : path) := for_spin (fun id => spin_copy a@[id] b@[id]).
(** spin.hpp:116-127 *)
Definition unsafe_spinspin_hermitian (b a : path) := for_spin (fun id1 => for_spin (fun id2 => complex_conj b@[id1]@[id2] a@[id2]@[id1])).
Definition safe_spinspin_hermitian (b a temp : path) : mem -> mem := unsafe_spinspin_hermitian temp a;; spinspin_copy b temp.
(** spin.hpp:129-174 *)
Definition spinspin_put_to_zero (a : path) := for_spin (fun id => spin_put_to_zero a@[id]).
Definition spinspin_put_to_diag_complex (a b : path) : mem -> mem := spinspin_put_to_zero a;; for_spin (fun id => complex_copy a@[id]@[id] b).
(** const complex c={b,0} in the local [c] *)
Definition spinspin_put_to_diag_double (a : path) (b : R) (c : path) : mem -> mem :=
  set_re c b;; set_im c 0;; spinspin_put_to_diag_complex a c.
Definition spin_direct_prod (out a b : path) := for_spin (fun id => for_spin (fun jd => unsafe_complex_prod out@[id]@[jd] a@[id] b@[jd])).
Definition spinspin_put_to_id (a o : path) : mem -> mem := set_re o 1;; set_im o 0;; spinspin_put_to_diag_complex a o.
(** spin.hpp:176-234 *)
Definition spinspin_summ (a b c : path) := for_spin (fun id1 => for_spin (fun id2 => complex_summ a@[id1]@[id2] b@[id1]@[id2] c@[id1]@[id2])).
Definition spinspin_subt (a b c : path) := for_spin (fun id1 => for_spin (fun id2 => complex_subt a@[id1]@[id2] b@[id1]@[id2] c@[id1]@[id2])).
Definition spinspin_summassign (a b : path) := spinspin_summ a a b.
Definition spinspin_subtassign (a b : path) := spinspin_subt a a b.
Definition spinspin_prod_double (a b : path) (c : R) := for_spin (fun id1 => for_spin (fun id2 => complex_prod_double a@[id1]@[id2] b@[id1]@[id2] c)).
Definition spinspin_summ_the_prod_double (a b : path) (c : R) := for_spin (fun id1 => for_spin (fun id2 => complex_summ_the_prod_double a@[id1]@[id2] b@[id1]@[id2] c)).
Definition spinspin_prod_idouble (a b : path) (c : R) := for_spin (fun id1 => for_spin (fun id2 => complex_prod_idouble a@[id1]@[id2] b@[id1]@[id2] c)).
(** spin.hpp:247-257, 269-279 *)
Definition spinspin_summ_the_complex_prod (a b c : path) := for_spin (fun id1 => for_spin (fun id2 => complex_summ_the_prod a@[id1]@[id2] b@[id1]@[id2] c)).
Definition unsafe_spinspin_prod_complex (a b c : path) : mem -> mem := spinspin_put_to_zero a;; spinspin_summ_the_complex_prod a b c.
(** spin.hpp:324-342 *)
Definition summ_the_trace_dirac_prod_spinspin (c d : path) (p : nat -> nat) (b : path) :=
  for_spin (fun id => complex_summ_the_prod c d@[id] b@[p id]@[id]).
Definition trace_dirac_prod_spinspin (c d : path) (p : nat -> nat) (b : path) : mem -> mem :=
  set_im c 0;; set_re c 0;; summ_the_trace_dirac_prod_spinspin c d p b.
Definition trace_spinspin (c a : path) : mem -> mem := set_im c 0;; set_re c 0;; for_spin (fun id => complex_summassign c a@[id]@[id]).
(** spin.hpp:344-406; memset and memcpy of a whole spinspin are written as loops *)
Definition spinspin_summ_the_spinspin_dag_prod (out a b : path) :=
  for_spin (fun id1 => for_spin (fun id2 => for_spin (fun id => complex_summ_the_conj2_prod out@[id1]@[id2] a@[id1]@[id] b@[id2]@[id]))).
Definition spinspin_summ_the_spinspin_prod (out a b : path) :=
  for_spin (fun id1 => for_spin (fun id2 => for_spin (fun id => complex_summ_the_prod out@[id1]@[id2] a@[id1]@[id] b@[id]@[id2]))).
Definition spinspin_subt_the_spinspin_prod (out a b : path) :=
  for_spin (fun id1 => for_spin (fun id2 => for_spin (fun id => complex_subt_the_prod out@[id1]@[id2] a@[id1]@[id] b@[id]@[id2]))).
Definition unsafe_spinspin_prod_spinspin (out a b : path) : mem -> mem := spinspin_put_to_zero out;; spinspin_summ_the_spinspin_prod out a b.
Definition unsafe_spinspin_prod_spinspin_dag (out a b : path) : mem -> mem := spinspin_put_to_zero out;; spinspin_summ_the_spinspin_dag_prod out a b.
Definition safe_spinspin_prod_spinspin (out a b c : path) : mem -> mem := unsafe_spinspin_prod_spinspin c a b;; spinspin_copy out c.
Definition safe_spinspin_prod_spinspin_dag (out a b c : path) : mem -> mem := unsafe_spinspin_prod_spinspin_dag c a b;; spinspin_copy out c.
(** spin.hpp:421-426 *)
Definition trace_spinspin_prod_spinspin (c a b : path) : mem -> mem :=
  complex_put_to_zero c;; for_spin (fun id1 => for_spin (fun id2 => complex_summ_the_prod c a@[id1]@[id2] b@[id2]@[id1])).
(** spin.hpp:428-478 *)
Definition spinspin_dirac_summ_the_prod_double (out d : path) (p : nat -> nat) (r : R) :=
  for_spin (fun ig => complex_summ_the_prod_double out@[ig]@[p ig] d@[ig] r).
Definition spinspin_dirac_summ_the_prod_idouble (out d : path) (p : nat -> nat) (r : R) :=
  for_spin (fun ig => complex_summ_the_prod_idouble out@[ig]@[p ig] d@[ig] r).
Definition spinspin_dirac_summ_the_prod_complex (out d : path) (p : nat -> nat) (c : path) :=
  for_spin (fun ig => complex_summ_the_prod out@[ig]@[p ig] d@[ig] c).
Definition spinspin_dirac_prod_double (out d : path) (p : nat -> nat) (r : R) : mem -> mem :=
  spinspin_put_to_zero out;; spinspin_dirac_summ_the_prod_double out d p r.
Definition spinspin_dirac_prod_idouble (out d : path) (p : nat -> nat) (r : R) : mem -> mem :=
  spinspin_put_to_zero out;; spinspin_dirac_summ_the_prod_idouble out d p r.
(** spin.hpp:482-528 *)
Definition unsafe_dirac_prod_spinspin (out d : path) (p : nat -> nat) (inp : path) :=
  for_spin (fun id1 => for_spin (fun id2 => unsafe_complex_prod out@[id1]@[id2] d@[id1] inp@[p id1]@[id2])).
Definition safe_dirac_prod_spinspin (out d : path) (p : nat -> nat) (inp temp : path) : mem -> mem :=
  unsafe_dirac_prod_spinspin temp d p inp;; spinspin_copy out temp.
Definition spinspin_dirac_summ_the_prod_spinspin (out d : path) (p : nat -> nat) (c temp : path) : mem -> mem :=
  unsafe_dirac_prod_spinspin temp d p c;; spinspin_summassign out temp.
Definition unsafe_dirac_prod_spinspin_transp (out d : path) (p : nat -> nat) (inp : path) :=
  for_spin (fun id1 => for_spin (fun id2 => unsafe_complex_prod out@[id1]@[id2] d@[id1] inp@[id2]@[p id1])).
Definition unsafe_dirac_prod_spinspin_dag (out d : path) (p : nat -> nat) (inp : path) :=
  for_spin (fun id1 => for_spin (fun id2 => unsafe_complex_conj2_prod out@[id1]@[id2] d@[id1] inp@[id2]@[p id1])).
(** spin.hpp:532-555 *)
Definition unsafe_spinspin_prod_dirac (out inp d : path) (p : nat -> nat) : mem -> mem :=
  spinspin_put_to_zero out;;
  for_spin (fun id1 => for_spin (fun id2 => unsafe_complex_prod out@[id1]@[p id2] inp@[id1]@[id2] d@[id2])).
Definition safe_spinspin_prod_dirac (out inp d : path) (p : nat -> nat) (temp : path) : mem -> mem :=
  unsafe_spinspin_prod_dirac temp inp d p;; spinspin_copy out temp.
(** spin.hpp:557-596 *)
Definition unsafe_spinspin_prod_spin (a b c : path) : mem -> mem :=
  spin_put_to_zero a;; for_spin (fun id1 => for_spin (fun id2 => complex_summ_the_prod a@[id1] b@[id1]@[id2] c@[id2])).
Definition unsafe_spin_prod_spinspin (a b c : path) : mem -> mem :=
  spin_put_to_zero a;; for_spin (fun id1 => for_spin (fun id2 => complex_summ_the_prod a@[id1] b@[id2] c@[id2]@[id1])).
(** spin.hpp:626-637 *)
Definition trace_spinspin_with_dirac (out s d : path) (p : nat -> nat) : mem -> mem :=
  complex_put_to_zero out;; for_spin (fun id1 => complex_summ_the_prod out d@[id1] s@[p id1]@[id1]).
(** spin.hpp:638-643 *)
Definition unsafe_dirac_prod_spin (out d : path) (p : nat -> nat) (inp : path) :=
  for_spin (fun id1 => unsafe_complex_prod out@[id1] d@[id1] inp@[p id1]).
Definition unsafe_spin_prod_dirac (out inp d : path) (p : nat -> nat) : mem -> mem :=
  spin_put_to_zero out;; for_spin (fun id1 => complex_summ_the_prod out@[p id1] inp@[id1] d@[id1]).
(** spin.hpp:646-673 *)
Definition rotate_spinspin_to_physical_basis (s : path) (rsi rso : nat) : mem -> mem :=
  let list_prb := [0; 1; 2; 3]%nat in let list_mrb := [3; 2; 1; 0]%nat in
  let so_shft := [0; 2; 0; 2]%nat in let si_shft := [0; 0; 2; 2]%nat in
  let ir := (rsi * 2 + rso)%nat in let prb := nth ir list_prb 0%nat in let mrb := nth ir list_mrb 0%nat in
  unroll_for 0 2 (fun dso => unroll_for 0 2 (fun dsi =>
    let pso := (dso + nth prb so_shft 0)%nat in let psi := (dsi + nth prb si_shft 0)%nat in
    let mso := (dso + nth mrb so_shft 0)%nat in let msi := (dsi + nth mrb si_shft 0)%nat in
    assign_complex_prod_i s@[pso]@[psi];; assign_complex_prod_minus_i s@[mso]@[msi])).

(** dirac.cpp:80-88: opg[mu] and omg[mu], with base_gamma in memory at [bg] (entries at bg[i][row]) *)
Definition init_opg_omg (opg omg bg o : path) : mem -> mem :=
  for_spin (fun mu =>
    spinspin_put_to_id opg@[mu] o;;
    spinspin_put_to_id omg@[mu] o;;
    spinspin_dirac_summ_the_prod_double opg@[mu] bg@[iGammaOfMu mu] (pos (base_gamma (DM (fun _ => O) (fun _ => RtoC 0)) (iGammaOfMu mu))) 1;;
    spinspin_dirac_summ_the_prod_double omg@[mu] bg@[iGammaOfMu mu] (pos (base_gamma (DM (fun _ => O) (fun _ => RtoC 0)) (iGammaOfMu mu))) (-1)).
