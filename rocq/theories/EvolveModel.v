(** Molecular dynamics: src/hmc/momenta/momenta_evolve.cpp, src/hmc/gauge/gluonic_force.cpp, src/hmc/gauge/pure_gauge_Omelyan_integrator.cpp,
    src/hmc/multipseudo/quark_force.cpp, src/hmc/multipseudo/Omelyan_integrator.cpp.  Exact real arithmetic, one rank.
    Simplifications: the sites have one numbering (the splitting in even and odd sites and the pasting are not part of the model, C12 and C13 treat
    them); the parallel loops visit the sites in increasing order; the force before the last step of its computation is an arbitrary function of the
    links; the topological force (which is CRASH("reimplement")), timings and printing are left out. *)
From Coq Require Import Reals List.
From Coquelicot Require Import Complex.
From Verif Require Import CplxModel MatModel MatSpec ExpModel.
Import ListNotations.
Open Scope R_scope.

(** four matrices per site: quad_su3 is su3[NDIM] *)
Definition NDIM : nat := 4.
Definition field := nat -> nat -> cmat.
Definition load (m : mem) (a : path) : field := fun ivol mu => mat m a@[ivol]@[mu].

(** the variables: configuration, momenta, force, and what is local to the loops *)
Definition v_conf : path := [0%nat].
Definition v_H : path := [1%nat].
Definition v_F : path := [2%nat].
Definition v_t1 : path := [3%nat].
Definition v_t2 : path := [4%nat].
Definition v_iQ : path := [5%nat].
Definition v_iQ2 : path := [6%nat].
Definition v_f : path := [7%nat].
Definition v_d : path := [8%nat].
Definition v_temp : path := [9%nat].

(** the loop on sites and directions *)
Definition for_links (locVol : nat) (body : nat -> nat -> mem -> mem) : mem -> mem :=
  unroll_for 0 locVol (fun ivol => unroll_for 0 NDIM (fun mu => body ivol mu)).

(** momenta_evolve.cpp:14-32; the same loops are at Omelyan_integrator.cpp:222-240 *)
Definition evolve_lx_momenta_with_force (locVol : nat) (H F : path) (dt : R) : mem -> mem :=
  for_links locVol (fun ivol mu => for_cols (fun ic1 => for_cols (fun ic2 =>
    complex_subt_the_prod_idouble H@[ivol]@[mu]@[ic1]@[ic2] F@[ivol]@[mu]@[ic1]@[ic2] dt))).
(** momenta_evolve.cpp:35-66 *)
Definition evolve_lx_conf_with_momenta (locVol : nat) (lx_conf H : path) (dt : R) : mem -> mem :=
  for_links locVol (fun ivol mu =>
    su3_prod_double v_t1 H@[ivol]@[mu] dt;;
    safe_hermitian_exact_i_exponentiate v_t2 v_t1 v_iQ v_iQ2 v_f;;
    safe_su3_prod_su3 lx_conf@[ivol]@[mu] v_t2 lx_conf@[ivol]@[mu] v_d).
(** gluonic_force.cpp:23-40, quark_force.cpp:18-39 *)
Definition force_finish_computation (locVol : nat) (F conf : path) : mem -> mem :=
  for_links locVol (fun ivol mu =>
    unsafe_su3_prod_su3 v_temp conf@[ivol]@[mu] F@[ivol]@[mu] NCOL;;
    unsafe_su3_traceless_anti_hermitian_part F@[ivol]@[mu] v_temp).
(** gluonic_force.cpp:42-60, quark_force.cpp:41-...: [g] gives the value left in F *)
Definition force_do_not_finish (locVol : nat) (g : field -> field) (F conf : path) (m : mem) : mem :=
  let v := g (load m conf) in
  for_links locVol (fun ivol mu => for_cols (fun ic1 => for_cols (fun ic2 m => upd m F@[ivol]@[mu]@[ic1]@[ic2] (v ivol mu ic1 ic2)))) m.
(** pure_gauge_Omelyan_integrator.cpp:35-47 with gluonic_force.cpp:62-115; Omelyan_integrator.cpp:145-241 *)
Definition evolve_momenta_with_force_of (locVol : nat) (g : field -> field) (dt : R) : mem -> mem :=
  force_do_not_finish locVol g v_F v_conf;; force_finish_computation locVol v_F v_conf;; evolve_lx_momenta_with_force locVol v_H v_F dt.

(** hmc/hmc.hpp:7 *)
Definition omelyan_lambda : R := 0.1931833.

Section Integrator.
Variables (locVol : nat) (gauge quark : field -> field) (traj_length : R) (nmd_steps ngauge_substeps : nat).
(** Omelyan_integrator.cpp:66-111 *)
Definition Omelyan_pure_gauge_evolver_lx_conf : mem -> mem :=
  let dt := traj_length / INR nmd_steps / INR ngauge_substeps / 2 in
  let dth := dt / 2 in let ldt := dt * omelyan_lambda in let l2dt := 2 * omelyan_lambda * dt in let uml2dt := (1 - 2 * omelyan_lambda) * dt in
  let nsteps := ngauge_substeps in
  evolve_momenta_with_force_of locVol gauge ldt;;
  unroll_for 0 nsteps (fun istep =>
    let last_dt := if Nat.eqb istep (nsteps - 1) then ldt else l2dt in
    evolve_lx_conf_with_momenta locVol v_conf v_H dth;;
    evolve_momenta_with_force_of locVol gauge uml2dt;;
    evolve_lx_conf_with_momenta locVol v_conf v_H dth;;
    evolve_momenta_with_force_of locVol gauge last_dt).
(** Omelyan_integrator.cpp:243-285, without the last line (unitarize_eo_conf_maximal_trace_projecting) *)
Definition Omelyan_integrator_no_projection : mem -> mem :=
  let nsteps := nmd_steps in
  match nsteps with
  | O => fun m => m
  | S _ =>
    let dt := traj_length / INR nmd_steps in
    let ldt := dt * omelyan_lambda in let l2dt := 2 * omelyan_lambda * dt in let uml2dt := (1 - 2 * omelyan_lambda) * dt in
    evolve_momenta_with_force_of locVol quark ldt;;
    unroll_for 0 nsteps (fun istep =>
      let last_dt := if Nat.eqb istep (nsteps - 1) then ldt else l2dt in
      Omelyan_pure_gauge_evolver_lx_conf;;
      evolve_momenta_with_force_of locVol quark uml2dt;;
      Omelyan_pure_gauge_evolver_lx_conf;;
      evolve_momenta_with_force_of locVol quark last_dt)
  end.
End Integrator.
