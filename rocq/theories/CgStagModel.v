(** Solvers of the staggered operator: src/inverters/staggered/{cg_invert_stD2ee_m2,cg_invert_evn_stD,cg_invert_stD,cgm_invert_stD2ee_m2_portable}.hpp.
    The fields given to the solvers are objects of the memory as in StagModel; inside cg_invert and cgm_invert (CgModel) a field is the list of its
    real numbers, six for each even site, with the n even sites of all the ranks; each time f is called its argument is put in the object [vin] and
    the result is read from [vout], and what f leaves elsewhere is not kept: [temp] and the local variables are written before they are read. *)
From Coq Require Import Reals List ZArith Bool Arith.
From Coquelicot Require Import Complex.
From Verif Require Import CplxModel MatModel StagModel CgModel.
Import ListNotations.
Open Scope R_scope.

(** base/field.hpp: degree of freedom iDeg=2*ic+ri of the site *)
Definition to_r (f : nat -> nat -> C) : rvec := fun d => let c := f (d / 6)%nat (d mod 6 / 2)%nat in if Nat.even (d mod 6) then fst c else snd c.
Definition of_r (v : rvec) : nat -> nat -> C := fun x i => (v (6 * x + 2 * i)%nat, v (6 * x + 2 * i + 1)%nat).
Definition get_field (m : mem) (a : path) : nat -> nat -> C := fun x i => m a@[x]@[i].
Definition put_field (m : mem) (a : path) (f : nat -> nat -> C) : mem :=
  fun q => match q with i :: x :: a' => if path_dec a' a then f x i else m q | _ => m q end.

Section Solvers.
Variables (sched : nat -> list nat) (nup ndw : nat -> nat -> nat -> nat) (n : nat).
(** objects used by the operator *)
Variables (vin vout temp o vu vd cu cd : path).
(** cg_invert_stD2ee_m2.hpp:26-35 and cgm_invert_stD2ee_m2_portable.hpp:17-21, dirac_operator_stD.hpp:227-251: the lambda f and the functor *)
Definition applier (conf : path) (m : mem) (m2 : R) (v : rvec) : rvec :=
  match apply_stD2ee_m2 sched nup ndw vout conf temp m2 vin o vu vd cu cd (put_field m vin (of_r v)) with
  | Some m' => to_r (get_field m' vout)
  | None => fun _ => 0
  end.
(** cg_invert_stD2ee_m2.hpp:17-43 *)
Definition inv_stD2ee_m2_cg (sol : path) (guess : option path) (conf : path) (m2 : R) (niter : Z) (residue : R) (source : path) (m : mem) : option mem :=
  match cg_invert (6 * n) (applier conf m m2) niter residue (to_r (get_field m source)) (option_map (fun g => to_r (get_field m g)) guess) with
  | Some s => Some (put_field m sol (of_r s))
  | None => None
  end.
(** cg_invert_evn_stD.hpp:16-31; [tdag] is the local temp *)
Definition inv_evn_stD_cg (tdag sol : path) (guess : option path) (conf : path) (mass : R) (niter : Z) (residue : R) (source : path) (m : mem) : option mem :=
  let m := evn_apply_stD_dag sched nup ndw tdag conf mass source m in
  inv_stD2ee_m2_cg sol guess conf (mass * mass) niter residue tdag m.
(** cg_invert_stD.hpp:13-77; the check of the solution (lines 63-76) is only printed *)
Definition inv_stD_cg (tdag sol : path) (guess : option path) (conf : path) (mass : R) (niter : Z) (residue : R) (source : path) (m : mem) : option mem :=
  match inv_evn_stD_cg tdag sol@[EVN] guess conf mass niter residue source m with
  | None => None
  | Some m =>
    Some ((apply_st2Doe sched nup ndw 4 sol@[ODD] conf sol@[EVN];;
      FOR_EACH_SITE_DEG (sched 5%nat) sol@[ODD] (fun g site ideg => (g source@[ODD]@[site]@[ideg] - 0.5 * g sol@[ODD]@[site]@[ideg]) / mass)) m)
  end.

(** cgm_invert_stD2ee_m2_portable.hpp:10-29 *)
Definition inv_stD2ee_m2_cgm (conf : path) (poles : list R) (niter_max : Z) (residue : R) (pf : path) (m : mem) : option (list rvec) :=
  cgm_invert (6 * n) (applier conf m) niter_max (to_r (get_field m pf)) (map (fun p => (p, residue)) poles).
(** cgm_invert_stD2ee_m2_portable.hpp:31-56; [weights] and [poles] have the length degree() *)
Definition summ_src_and_all_inv_stD2ee_m2_cgm (chi_e conf : path) (cons : R) (weights poles : list R) (niter_max : Z) (req_res : R) (source : path) (m : mem) : option mem :=
  match inv_stD2ee_m2_cgm conf poles niter_max req_res source m with
  | None => None
  | Some temps =>
    let chi := fun d => to_r (get_field m source) d * cons in
    let chi := fold_left (fun (chi : rvec) wt => fun d => chi d + fst wt * snd wt d) (combine weights temps) chi in
    Some (put_field m chi_e (of_r chi))
  end.
End Solvers.
