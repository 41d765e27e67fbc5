(** Staggered Dirac operator: src/dirac_operators/stD/dirac_operator_stD.hpp, and the operations on colours of src/new_types/su3_op.hpp it uses.
    Same conventions as CplxModel and MatModel: exact real arithmetic, objects named by paths.
    Simplifications: the sites of all the ranks have one numbering for each parity (updateHalo, which copies the sites of the other ranks where
    loceo_neighup and loceo_neighdw point, is C15 and is not repeated here), so that the tables of the neighbours are [nup] and [ndw]; a parallel
    loop visits the sites in an arbitrary order [sched l], a different one for each loop [l]; timings are left out. *)
From Coq Require Import Reals List.
From Coquelicot Require Import Complex.
From Verif Require Import CplxModel MatModel EvolveModel ParLoop.
Import ListNotations.
Open Scope R_scope.

(** geometry_eo.hpp: EVN and ODD *)
Definition EVN : nat := 0.
Definition ODD : nat := 1.
(** su3_op.hpp:1561-1583 *)
Definition su3_summ_the_prod_color (a b c : path) := for_cols (fun ic => for_cols (fun jc => complex_summ_the_prod a@[ic] b@[ic]@[jc] c@[jc])).
Definition su3_subt_the_prod_color (a b c : path) := for_cols (fun ic => for_cols (fun jc => complex_subt_the_prod a@[ic] b@[ic]@[jc] c@[jc])).
(** su3_op.hpp:1608-1618, 1635-1645 *)
Definition su3_dag_summ_the_prod_color (a b c : path) := for_cols (fun ic => for_cols (fun jc => complex_summ_the_conj1_prod a@[ic] b@[jc]@[ic] c@[jc])).
Definition su3_dag_subt_the_prod_color (a b c : path) := for_cols (fun ic => for_cols (fun jc => complex_subt_the_conj1_prod a@[ic] b@[jc]@[ic] c@[jc])).
(** su3_op.hpp:342-348 *)
Definition color_prodassign_double (a : path) (b : R) := color_prod_double a a b.

(** PAR(0,n,...,site,body): the iterations, in the order [sched] *)
Definition PAR (sched : list nat) (body : nat -> mem -> mem) : mem -> mem := run_list body sched.
(** FOR_EACH_SITE_DEG_OF_FIELD(out,...): base/field.hpp; the six real numbers of the colour of a site, each assigned by [f], which is given the
    component found in the memory through [re] or [im] *)
Definition FOR_EACH_SITE_DEG (sched : list nat) (out : path) (f : (path -> R) -> nat -> nat -> R) : mem -> mem :=
  PAR sched (fun site => for_cols (fun ic m =>
    let m := set_re out@[site]@[ic] (f (re m) site ic) m in
    set_im out@[site]@[ic] (f (im m) site ic) m)).

Section Operator.
Variables (sched : nat -> list nat) (nup ndw : nat -> nat -> nat -> nat).

(** dirac_operator_stD.hpp:45-74 *)
Definition apply_st2Doe (l : nat) (out conf inp : path) : mem -> mem :=
  PAR (sched l) (fun io =>
    let evup0 := nup ODD io 0%nat in let evdw0 := ndw ODD io 0%nat in
    unsafe_su3_prod_color out@[io] conf@[ODD]@[io]@[0%nat] inp@[evup0];;
    su3_dag_subt_the_prod_color out@[io] conf@[EVN]@[evdw0]@[0%nat] inp@[evdw0];;
    unroll_for 1 NDIM (fun mu =>
      let evup := nup ODD io mu in let evdw := ndw ODD io mu in
      su3_summ_the_prod_color out@[io] conf@[ODD]@[io]@[mu] inp@[evup];;
      su3_dag_subt_the_prod_color out@[io] conf@[EVN]@[evdw]@[mu] inp@[evdw])).
(** dirac_operator_stD.hpp:76-88 *)
Definition apply_stDoe (out conf inp : path) : mem -> mem :=
  apply_st2Doe 0 out conf inp;; PAR (sched 1%nat) (fun io => color_prodassign_double out@[io] 0.5).
(** dirac_operator_stD.hpp:90-124 *)
Definition apply_stDeo_half (l : nat) (out conf inp : path) : mem -> mem :=
  PAR (sched l) (fun ie =>
    let odup0 := nup EVN ie 0%nat in let oddw0 := ndw EVN ie 0%nat in
    unsafe_su3_prod_color out@[ie] conf@[EVN]@[ie]@[0%nat] inp@[odup0];;
    su3_dag_subt_the_prod_color out@[ie] conf@[ODD]@[oddw0]@[0%nat] inp@[oddw0];;
    unroll_for 1 NDIM (fun mu =>
      let odup := nup EVN ie mu in let oddw := ndw EVN ie mu in
      su3_summ_the_prod_color out@[ie] conf@[EVN]@[ie]@[mu] inp@[odup];;
      su3_dag_subt_the_prod_color out@[ie] conf@[ODD]@[oddw]@[mu] inp@[oddw]);;
    color_prod_double out@[ie] out@[ie] 0.25).
(** dirac_operator_stD.hpp:126-219; [o], [vu], [vd], [cu], [cd] are the variables of the body of the loops *)
Definition apply_stD2ee_m2 (out conf temp : path) (mass2 : R) (inp o vu vd cu cd : path) (m : mem) : option mem :=
  if path_dec out inp then None else Some (
  (PAR (sched 0%nat) (fun io =>
     color_put_to_zero o;;
     unroll_for 0 NDIM (fun mu =>
       let evup := nup ODD io mu in let evdw := ndw ODD io mu in
       color_copy vu inp@[evup];;
       color_copy vd inp@[evdw];;
       su3_copy cu conf@[ODD]@[io]@[mu];;
       su3_copy cd conf@[EVN]@[evdw]@[mu];;
       su3_summ_the_prod_color o cu vu;;
       su3_dag_subt_the_prod_color o cd vd);;
     color_copy temp@[io] o);;
   PAR (sched 1%nat) (fun ie =>
     color_put_to_zero o;;
     unroll_for 0 NDIM (fun mu =>
       let odup := nup EVN ie mu in let oddw := ndw EVN ie mu in
       color_copy vu temp@[odup];;
       color_copy vd temp@[oddw];;
       su3_copy cu conf@[EVN]@[ie]@[mu];;
       su3_copy cd conf@[ODD]@[oddw]@[mu];;
       su3_summ_the_prod_color o cu vu;;
       su3_dag_subt_the_prod_color o cd vd);;
     color_copy out@[ie] o);;
   if Req_EM_T mass2 0 then
     FOR_EACH_SITE_DEG (sched 2%nat) out (fun g ie ic => g out@[ie]@[ic] * -0.25)
   else
     FOR_EACH_SITE_DEG (sched 2%nat) out (fun g ie ic => mass2 * g inp@[ie]@[ic] - g out@[ie]@[ic] * 0.25)) m).

(** dirac_operator_stD.hpp:14-42 *)
Definition odd_apply_stD_with_sign (out conf : path) (mass : R) (inp : path) (sign : R) : mem -> mem :=
  apply_st2Doe 2 out conf inp@[EVN];;
  FOR_EACH_SITE_DEG (sched 3%nat) out (fun g site iDeg => g inp@[ODD]@[site]@[iDeg] * mass + 0.5 * sign * g out@[site]@[iDeg]).
Definition odd_apply_stD (out conf : path) (mass : R) (inp : path) := odd_apply_stD_with_sign out conf mass inp 1.
Definition odd_apply_stD_dag (out conf : path) (mass : R) (inp : path) := odd_apply_stD_with_sign out conf mass inp (-1).
(** dirac_operator_stD.hpp:249-277 *)
Definition evn_apply_stD_with_sign (out conf : path) (mass : R) (inp : path) (sign : R) : mem -> mem :=
  apply_stDeo_half 0 out conf inp@[ODD];;
  FOR_EACH_SITE_DEG (sched 1%nat) out (fun g site iDeg => g inp@[EVN]@[site]@[iDeg] * mass + 2 * sign * g out@[site]@[iDeg]).
Definition evn_apply_stD (out conf : path) (mass : R) (inp : path) := evn_apply_stD_with_sign out conf mass inp 1.
Definition evn_apply_stD_dag (out conf : path) (mass : R) (inp : path) := evn_apply_stD_with_sign out conf mass inp (-1).
(** dirac_operator_stD.hpp:279-288 *)
Definition apply_stD (out conf : path) (mass : R) (inp : path) : mem -> mem :=
  evn_apply_stD out@[EVN] conf mass inp;; odd_apply_stD out@[ODD] conf mass inp.
End Operator.
