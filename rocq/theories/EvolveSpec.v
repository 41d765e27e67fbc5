(** What the molecular dynamics has to do, on fields of matrices. *)
From Coq Require Import Reals List.
From Coquelicot Require Import Complex.
From Verif Require Import CplxModel MatSpec ExpSpec EvolveModel.
Import ListNotations.
Open Scope R_scope.

(** two fields have the same links *)
Definition feq (n : nat) (a b : field) : Prop := forall ivol mu, (ivol < n)%nat -> (mu < 4)%nat -> meq (a ivol mu) (b ivol mu).
(** an observable of the links of the lattice: it gives the same on the same links *)
Definition of_links (n : nat) (g : field -> field) : Prop := forall U U', feq n U U' -> feq n (g U) (g U').
Definition every_link (n : nat) (P : cmat -> Prop) (a : field) : Prop := forall ivol mu, (ivol < n)%nat -> (mu < 4)%nat -> P (a ivol mu).
Definition hermitian_traceless (x : cmat) : Prop := hermitian x /\ trace x = RtoC 0.
Definition fneg (a : field) : field := fun ivol mu => mscale (RtoC (-1)) (a ivol mu).
(** the force on the links: traceless antihermitian part of the link times what [g] gives *)
Definition force (g : field -> field) (U : field) : field := fun ivol mu => traceless_part (anti_herm_part (mmul (U ivol mu) (g U ivol mu))).
(** the memory where the momenta have been changed of sign, and nothing else *)
Definition momenta_reversed (n : nat) (m m' : mem) : Prop :=
  feq n (load m' v_H) (fneg (load m v_H)) /\ feq n (load m' v_conf) (load m v_conf).

(** ** The trajectory as a list of elementary steps *)
Inductive step : Set := KickGauge (dt : R) | KickQuark (dt : R) | Drift (dt : R).
(** one Omelyan block repeated: first and last kick with lambda dt, the kick between two blocks is done once with 2 lambda dt *)
Definition omelyan (kick : R -> step) (move : list step) (dt : R) (nsteps : nat) : list step :=
  kick (omelyan_lambda * dt) ::
  flat_map (fun istep => move ++ kick ((1 - 2 * omelyan_lambda) * dt) :: move ++
      [kick (if Nat.eqb istep (nsteps - 1) then omelyan_lambda * dt else 2 * omelyan_lambda * dt)]) (seq 0 nsteps).
(** the links advance by half of each of the nmd_steps * 2 * ngauge_substeps inner steps *)
Definition gauge_schedule (dt : R) (ngauge_substeps : nat) : list step :=
  let dtg := dt / INR ngauge_substeps / 2 in omelyan KickGauge [Drift (dtg / 2)] dtg ngauge_substeps.
Definition schedule (traj_length : R) (nmd_steps ngauge_substeps : nat) : list step :=
  match nmd_steps with
  | O => []
  | _ => let dt := traj_length / INR nmd_steps in omelyan KickQuark (gauge_schedule dt ngauge_substeps) dt nmd_steps
  end.
Definition do_step (n : nat) (gauge quark : field -> field) (s : step) : mem -> mem :=
  match s with
  | KickGauge dt => evolve_momenta_with_force_of n gauge dt
  | KickQuark dt => evolve_momenta_with_force_of n quark dt
  | Drift dt => evolve_lx_conf_with_momenta n v_conf v_H dt
  end.
Definition do_steps (n : nat) (gauge quark : field -> field) (l : list step) (m : mem) : mem := fold_left (fun m s => do_step n gauge quark s m) l m.
(** along the steps, every matrix which is exponentiated is zero or in the region where the code does not truncate series *)
Fixpoint exact_along (n : nat) (gauge quark : field -> field) (l : list step) (m : mem) : Prop := match l with
  | [] => True
  | s :: l' => match s with
      | Drift dt => every_link n (fun h => exact_zone (mscale (RtoC dt) h) \/ meq (mscale (RtoC dt) h) (fun _ _ => RtoC 0)) (load m v_H)
      | _ => True end /\ exact_along n gauge quark l' (do_step n gauge quark s m)
  end.
(** the force is the same at all configurations of SU(3) links *)
Definition constant_force (n : nat) (g : field -> field) (K : field) : Prop := forall U, every_link n special_unitary U -> feq n (force g U) K.
