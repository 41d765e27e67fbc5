(** Property theorems C50, C51, C71: molecular dynamics (Omelyan integrator with gauge and quark forces on two time scales), exact real arithmetic,
    up to the final projection.  Each theorem is closed by [exact]. *)
From Coq Require Import Reals Lra Lia List.
From Coquelicot Require Import Complex.
From Verif Require Import CplxModel MatSpec ExpSpec EvolveModel EvolveSpec EvolveMain EvolveEnd EvolveCase.
Import ListNotations.
Open Scope R_scope.

(** the code runs the nested schedule written in EvolveSpec, which read backwards is the same *)
Theorem C50_schedule : forall n gauge quark traj_length nmd_steps ngauge_substeps,
  (forall m, Omelyan_integrator_no_projection n gauge quark traj_length nmd_steps ngauge_substeps m = do_steps n gauge quark (schedule traj_length nmd_steps ngauge_substeps) m) /\
  rev (schedule traj_length nmd_steps ngauge_substeps) = schedule traj_length nmd_steps ngauge_substeps.
Proof. exact (fun n g q t a b => conj (integ_sched n g q t a b) (schedule_pal t a b)). Qed.
Print Assumptions C50_schedule.
(** C50: run, change sign to the momenta, run again: the links are the first ones, the momenta the first ones with opposite sign; for any force *)
Theorem C50_reversible : forall n gauge quark, of_links n gauge -> of_links n quark ->
  forall traj_length nmd_steps ngauge_substeps m m1, (1 <= ngauge_substeps)%nat ->
  let integrate := Omelyan_integrator_no_projection n gauge quark traj_length nmd_steps ngauge_substeps in
  every_link n hermitian_traceless (load m v_H) ->
  exact_along n gauge quark (schedule traj_length nmd_steps ngauge_substeps) m ->
  momenta_reversed n (integrate m) m1 ->
  feq n (load (integrate m1) v_conf) (load m v_conf) /\ feq n (load (integrate m1) v_H) (fneg (load m v_H)).
Proof. exact (fun n g q Hg Hq t a b m m1 _ => reversible n g q Hg Hq t a b m m1). Qed.
Print Assumptions C50_reversible.

(** C51: under a constant force the momenta change by the trajectory length times the force, each of the two counted once *)
Theorem C51_momenta : forall n gauge quark, of_links n gauge -> of_links n quark ->
  forall KG KQ traj_length nmd_steps ngauge_substeps m, (1 <= nmd_steps)%nat -> (1 <= ngauge_substeps)%nat ->
  constant_force n gauge KG -> constant_force n quark KQ ->
  every_link n hermitian_traceless (load m v_H) -> every_link n special_unitary (load m v_conf) ->
  exact_along n gauge quark (schedule traj_length nmd_steps ngauge_substeps) m ->
  feq n (load (Omelyan_integrator_no_projection n gauge quark traj_length nmd_steps ngauge_substeps m) v_H)
    (fun iv mu => msub (load m v_H iv mu) (mscale (Ci * RtoC traj_length)%C (madd (KG iv mu) (KQ iv mu)))).
Proof. exact constant_forces. Qed.
Print Assumptions C51_momenta.
(** C51: without forces each link U becomes exp(i traj_length H) U, and the momenta stay *)
Theorem C51_links : forall n gauge quark, of_links n gauge -> of_links n quark ->
  forall traj_length nmd_steps ngauge_substeps m, (1 <= nmd_steps)%nat -> (1 <= ngauge_substeps)%nat ->
  constant_force n gauge (fun _ _ _ _ => RtoC 0) -> constant_force n quark (fun _ _ _ _ => RtoC 0) ->
  every_link n hermitian_traceless (load m v_H) -> every_link n special_unitary (load m v_conf) ->
  exact_along n gauge quark (schedule traj_length nmd_steps ngauge_substeps) m ->
  let m' := Omelyan_integrator_no_projection n gauge quark traj_length nmd_steps ngauge_substeps m in
  feq n (load m' v_H) (load m v_H) /\
  forall ivol mu, (ivol < n)%nat -> (mu < 4)%nat -> exists e, is_mexp (mscale (Ci * RtoC traj_length)%C (load m v_H ivol mu)) e /\
    meq (load m' v_conf ivol mu) (mmul e (load m v_conf ivol mu)).
Proof. exact free_motion. Qed.
Print Assumptions C51_links.

(** C71: the momenta stay hermitian and traceless, whatever the forces are, and the links stay in SU(3) *)
Theorem C71_momenta : forall n gauge quark, of_links n gauge -> of_links n quark ->
  forall traj_length nmd_steps ngauge_substeps m, every_link n hermitian_traceless (load m v_H) ->
  every_link n hermitian_traceless (load (Omelyan_integrator_no_projection n gauge quark traj_length nmd_steps ngauge_substeps m) v_H).
Proof. exact momenta_ht. Qed.
Print Assumptions C71_momenta.
Theorem C71_links : forall n gauge quark, of_links n gauge -> of_links n quark ->
  forall traj_length nmd_steps ngauge_substeps m, every_link n hermitian_traceless (load m v_H) -> every_link n special_unitary (load m v_conf) ->
  exact_along n gauge quark (schedule traj_length nmd_steps ngauge_substeps) m ->
  every_link n special_unitary (load (Omelyan_integrator_no_projection n gauge quark traj_length nmd_steps ngauge_substeps m) v_conf).
Proof. exact links_su. Qed.
Print Assumptions C71_links.
(** cases: unit links, momenta diag(1,-1,0), 2 steps of 3 substeps, trajectory of length 8; gauge force i diag(1,-1,0), quark force twice as much; and
    the same without forces *)
Example hmc_case : forall n, of_links n (pushing 1) /\ of_links n (pushing 2) /\ constant_force n (pushing 1) (fun _ _ => mscale (Ci * RtoC 1)%C dirD) /\
  constant_force n (pushing 2) (fun _ _ => mscale (Ci * RtoC 2)%C dirD) /\
  every_link n hermitian_traceless (load (start 1) v_H) /\ every_link n special_unitary (load (start 1) v_conf) /\
  exact_along n (pushing 1) (pushing 2) (schedule 8 2 3) (start 1).
Proof.
  exact (fun n => conj (pushing_links n 1) (conj (pushing_links n 2) (conj (pushing_const n 1) (conj (pushing_const n 2)
    (conj (proj1 (proj2 (start_ok n 1))) (conj (proj1 (start_ok n 1)) (proj1 (case_along n)))))))).
Qed.
Example hmc_free_case : forall n, constant_force n (pushing 0) (fun _ _ _ _ => RtoC 0) /\ exact_along n (pushing 0) (pushing 0) (schedule 8 2 3) (start 1).
Proof. exact (fun n => conj (no_push n) (proj2 (case_along n))). Qed.
