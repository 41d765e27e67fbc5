(** The tree level Symanzik propagator of the gauge field in momentum space: src/free_theory/tlSym_gauge_propagator.cpp:23-203, 286-296, 344-388, 440-462.  Exact real arithmetic; a spin1prop is stored as a
    spinspin and a spin1field as a spin (spin.hpp:25-30).  The coordinates of the momentum are a function [x] of the direction: glbCoordOfLoclx[imom].  [L]: glbSize, [V]: glbVol.  None: CRASH.
    Simplification: the warning about a negative squared energy, which does not occur, is not modelled. *)
From Coq Require Import Reals List ZArith.
From Coquelicot Require Import Complex.
From Verif Require Import CplxModel MatModel DiracModel SpinModel StagModel FreeTmModel.
Import ListNotations.
Open Scope R_scope.

(** free_theory_types.hpp:15 *)
Inductive zero_mode_sub_t := PECIONA | UNNO_ALEMANNA | ONLY_100.
(** free_theory_types.hpp:57-68 *)
Inductive which_gauge_t := FEYNMAN | LANDAU | COULOMB.
Record gauge_info := { zms : zero_mode_sub_t; c1 : R; which_gauge : which_gauge_t; gbc : nat -> R }.

(** tlSym_gauge_propagator.cpp:25-41 *)
Definition isNonZeroMode (gl : gauge_info) (x : nat -> Z) : bool :=
  match zms gl with
  | UNNO_ALEMANNA => negb ((x 1%nat =? 0)%Z && (x 2%nat =? 0)%Z && (x 3%nat =? 0)%Z)
  | PECIONA => negb ((x 0%nat =? 0)%Z && (x 1%nat =? 0)%Z && (x 2%nat =? 0)%Z && (x 3%nat =? 0)%Z)
  | ONLY_100 => (x 1%nat + x 2%nat + x 3%nat =? 1)%Z
  end.
Definition b2R (b : bool) : R := if b then 1 else 0.
(** for(reim) a[reim]*=m *)
Definition prodassign_bool (a : path) (b : bool) (m : mem) : mem := set_im a (im (set_re a (re m a * b2R b) m) a * b2R b) (set_re a (re m a * b2R b) m).
(** tlSym_gauge_propagator.cpp:43-58 *)
Definition cancel_if_zero_mode_spin1prop (prop : path) (gl : gauge_info) (x : nat -> Z) : mem -> mem :=
  unroll_for 0 4 (fun mu => unroll_for 0 4 (fun nu => prodassign_bool prop@[mu]@[nu] (isNonZeroMode gl x))).
(** tlSym_gauge_propagator.cpp:60-77 *)
Definition cancel_if_zero_mode_spin1field (prop : path) (gl : gauge_info) (x : nat -> Z) : mem -> mem :=
  unroll_for 0 4 (fun mu => prodassign_bool prop@[mu] (isNonZeroMode gl x)).
Definition kron_delta (mu nu : nat) : R := if Nat.eqb mu nu then 1 else 0.
Definition above (a tol : R) : bool := if Rlt_dec tol a then true else false.

Section L.
Context (L : nat -> Z) (V : Z).
(** tlSym_gauge_propagator.cpp:80-176 *)
Definition mom_space_tlSym_gauge_propagator_of_imom (prop : path) (gl : gauge_info) (x : nat -> Z) : option (mem -> mem) :=
  if negb (isNonZeroMode gl x) then Some (spinspin_put_to_zero prop)
  else
    let kt := fun mu => 2 * sin (mom_of L (gbc gl) x mu / 2) in
    let kt2_dir := fun mu => kt mu * kt mu in
    let kt4_dir := fun mu => kt2_dir mu * kt2_dir mu in
    let kt6_dir := fun mu => kt4_dir mu * kt2_dir mu in
    let sum := fun f : nat -> R => fold_left (fun s mu => s + f mu) (seq 0 4) 0 in
    let kt2 := sum kt2_dir in
    let kt4 := sum kt4_dir in
    let kt6 := sum kt6_dir in
    let c1 := c1 gl in
    let c12 := c1 * c1 in
    let c13 := c12 * c1 in
    let ktpo2 := fun mu nu => fold_left (fun p rho => if (negb (Nat.eqb mu rho) && negb (Nat.eqb nu rho))%bool then p * kt2_dir rho else p) (seq 0 4) 1 in
    let ktso2 := fun mu nu => fold_left (fun s rho => if (negb (Nat.eqb mu rho) && negb (Nat.eqb nu rho))%bool then s + kt2_dir rho else s) (seq 0 4) 0 in
    let kt22 := kt2 * kt2 in
    let kt23 := kt2 * kt2 * kt2 in
    let kt42 := kt4 * kt4 in
    let tol := / 10 ^ 14 in
    let body :=
      match which_gauge gl with
      | COULOMB =>
          if Req_EM_T c1 0 then
            let kt_spat_2 := fold_left (fun s mu => s + kt2_dir mu) (seq 1 3) 0 in
            Some (unroll_for 0 4 (fun mu => unroll_for 0 4 (fun nu =>
              (if above (Rabs kt_spat_2) tol
               then set_re prop@[mu]@[nu] ((kron_delta mu nu - kt mu * kt nu * (b2R (negb (Nat.eqb nu 0)) + b2R (negb (Nat.eqb mu 0)) - 1) / kt_spat_2) / kt2 / IZR V)
               else set_re prop@[mu]@[nu] 0);;
              set_im prop@[mu]@[nu] 0)))
          else None
      | g =>
          let alpha := match g with FEYNMAN => 1 | _ => 0 end in
          let Deltakt := fold_left (fun D rho => D - 4 * c13 * kt4_dir rho * ktpo2 rho rho) (seq 0 4)
            ((kt2 - c1 * kt4) * (kt2 - c1 * (kt22 + kt4) + / 2 * c12 * (kt23 + 2 * kt6 - kt2 * kt4))) in
          let A := fun mu nu => (1 - kron_delta mu nu) / Deltakt *
            (kt22 - c1 * kt2 * (2 * kt4 + kt2 * ktso2 mu nu) + c12 * (kt42 + kt2 * kt4 * ktso2 mu nu + kt22 * ktpo2 mu nu)) in
          Some (unroll_for 0 4 (fun mu => unroll_for 0 4 (fun nu =>
            let p := prop@[mu]@[nu] in
            set_re p (alpha * kt mu * kt nu);;
            unroll_for 0 4 (fun si m => set_re p (re m p + (kt si * kron_delta mu nu - kt nu * kron_delta mu si) * kt si * A si nu) m);;
            (if below (Rabs kt2) tol then set_re p 0 else fun m => set_re p (re m p / (kt2 * kt2 * IZR V)) m);;
            set_im p 0)))
      end in
    match body with
    | None => None
    | Some b => Some (b;; cancel_if_zero_mode_spin1prop prop gl x)
    end.

(** PAR where an iteration may stop the program *)
Fixpoint PAR_opt (sched : list nat) (body : nat -> option (mem -> mem)) : option (mem -> mem) :=
  match sched with
  | [] => Some (fun m => m)
  | k :: ks => match body k, PAR_opt ks body with Some b, Some bs => Some (b;; bs) | _, _ => None end
  end.
Definition then_opt (a : option (mem -> mem)) (b : mem -> mem) : option (mem -> mem) := option_map (fun f => f;; b) a.
(** tlSym_gauge_propagator.cpp:178-190; spin.hpp:694-699.  [sched]: the order of the iterations; [gc]: glbCoordOfLoclx *)
Definition compute_mom_space_tlSym_gauge_propagator (sched : list nat) (gc : nat -> nat -> Z) (prop temp : path) (gl : gauge_info) : option (mem -> mem) :=
  PAR_opt sched (fun imom => then_opt (mom_space_tlSym_gauge_propagator_of_imom temp gl (gc imom)) (spinspin_copy prop@[imom] temp)).
(** spin.hpp:576-583 *)
Definition safe_spinspin_prod_spin (a b c tmp : path) : mem -> mem := unsafe_spinspin_prod_spin tmp b c;; spin_copy a tmp.
(** tlSym_gauge_propagator.cpp:192-205 *)
Definition multiply_mom_space_tlSym_gauge_propagator (sched : list nat) (gc : nat -> nat -> Z) (out inp prop tmp : path) (gl : gauge_info) : option (mem -> mem) :=
  PAR_opt sched (fun imom => then_opt (mom_space_tlSym_gauge_propagator_of_imom prop gl (gc imom)) (safe_spinspin_prod_spin out@[imom] prop inp@[imom] tmp)).
(** tlSym_gauge_propagator.cpp:207-286, compiled without Eigen *)
Definition multiply_mom_space_sqrt_tlSym_gauge_propagator (sched : list nat) (gc : nat -> nat -> Z) (out inp prop : path) (gl : gauge_info) : option (mem -> mem) :=
  if match which_gauge gl with FEYNMAN => if Req_EM_T (c1 gl) 0 then true else false | _ => false end then
    PAR_opt sched (fun imom => then_opt (mom_space_tlSym_gauge_propagator_of_imom prop gl (gc imom))
      (fun m => spin_prod_double out@[imom] inp@[imom] (sqrt (re m prop@[0%nat]@[0%nat])) m))
  else None.
(** the loops between the two Fourier transforms: tlSym_gauge_propagator.cpp:357-368 (f is sqrtf(glbVol)) and 382-391 (f is glbVol) *)
Definition normalize_and_cancel (sched : list nat) (gc : nat -> nat -> Z) (photon : path) (f : R) (gl : gauge_info) : mem -> mem :=
  PAR sched (fun imom => spin_prodassign_double photon@[imom] f;; cancel_if_zero_mode_spin1field photon@[imom] gl (gc imom)).
(** tlSym_gauge_propagator.cpp:344-372 and 374-397 without the Fourier transforms *)
Definition multiply_by_sqrt_tlSym_gauge_propagator_mom (sched sched' : list nat) (gc : nat -> nat -> Z) (photon prop : path) (sqrtf_V : R) (gl : gauge_info) : option (mem -> mem) :=
  then_opt (multiply_mom_space_sqrt_tlSym_gauge_propagator sched gc photon photon prop gl) (normalize_and_cancel sched' gc photon sqrtf_V gl).
Definition multiply_by_tlSym_gauge_propagator_mom (sched sched' : list nat) (gc : nat -> nat -> Z) (out prop tmp : path) (gl : gauge_info) : option (mem -> mem) :=
  then_opt (multiply_mom_space_tlSym_gauge_propagator sched gc out out prop tmp gl) (normalize_and_cancel sched' gc out (IZR V) gl).

(** tlSym_gauge_propagator.cpp:440-462 *)
Definition gluon_energy (gl : gauge_info) (virt : R) (x : nat -> Z) : option R :=
  if Req_EM_T (c1 gl) 0 then
    let p2 := fold_left (fun p2 mu => p2 + sqr (2 * sin (mom_of L (gbc gl) x mu / 2))) (seq 1 3) 0 in
    let four_sinh2_Eh := sqr (2 * arcsinh (sqrt p2 / 2)) + sqr virt in
    Some (sqrt four_sinh2_Eh)
  else None.
End L.
