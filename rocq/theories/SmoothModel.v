(** The schedule of the smoothing of a configuration: src/operations/smearing/smooth.hpp:139-186, smooth.cpp:12-72 and the loop of the measurement of the topological charge,
    src/measures/gauge/topological_charge.cpp:268-295.  The single steps of the methods (cooling, stout, Wilson flow, APE) are functions of the configuration which are not opened here.
    None: CRASH, or division by zero.  Simplifications: no overflow of int; printing, and what the measurement does with the configuration, are left out. *)
From Verif Require Import Base.

Inductive method_t := COOLING | STOUT | WFLOW | APE | HYP.
(** smooth.hpp:17-31 and the nsteps, nlevels, nflows of the structures of the methods *)
Record smooth_pars := { method : method_t; meas_each_nsmooth : Z; cool_nsteps : Z; stout_nlevels : Z; Wflow_nflows : Z; ape_nlevels : Z; hyp_nlevels : Z }.
(** smooth.hpp:148-179 *)
Definition nsmooth_of (sp : smooth_pars) : Z :=
  match method sp with COOLING => cool_nsteps sp | STOUT => stout_nlevels sp | WFLOW => Wflow_nflows sp | APE => ape_nlevels sp | HYP => hyp_nlevels sp end.
(** smooth.hpp:141-145 *)
Definition next_nsmooth_meas (sp : smooth_pars) (nsmooth : Z) : option Z :=
  let m := meas_each_nsmooth sp in if m =? 0 then None else Some ((nsmooth + m) ÷ m * m).
(** smooth.hpp:181-185 *)
Definition nmeas_nonzero (sp : smooth_pars) : option Z := if meas_each_nsmooth sp =? 0 then None else Some (nsmooth_of sp ÷ meas_each_nsmooth sp).

Section S.
Context {conf : Type} (cool stout wflow ape : conf -> conf).
(** smooth.cpp:12-38 *)
Definition one_step (sp : smooth_pars) (c : conf) : option conf :=
  match method sp with COOLING => Some (cool c) | STOUT => Some (stout c) | WFLOW => Some (wflow c) | APE => Some (ape c) | HYP => None end.
(** smooth.cpp:62-68: while(nsmooth<next) {one step; nsmooth++;}; [k]: next-nsmooth *)
Fixpoint steps_until (k : nat) (sp : smooth_pars) (c : conf) (nsmooth : Z) : option (conf * Z) :=
  match k with O => Some (c, nsmooth) | Datatypes.S k => match one_step sp c with Some c => steps_until k sp c (nsmooth + 1) | None => None end end.
(** smooth.cpp:41-71: the configuration, nsmooth and the value returned.  [dirs]: dirs[mu] is allDirs[mu] for all mu *)
Definition smooth_until_next_meas (sp : smooth_pars) (dirs : bool) (c : conf) (nsmooth : Z) : option (conf * Z * bool) :=
  if (match method sp with COOLING => true | _ => false end && negb dirs)%bool then None
  else match next_nsmooth_meas sp nsmooth with
    | None => None
    | Some next =>
        let finished := nsmooth_of sp <? next in
        if finished then Some (c, nsmooth, true)
        else match steps_until (Z.to_nat (next - nsmooth)) sp c nsmooth with Some (c, n) => Some (c, n, false) | None => None end
    end.
(** topological_charge.cpp:270-295: do { measure; finished=smooth_lx_conf_until_next_meas; } while(not finished); the list of what is measured *)
Inductive measure_loop (sp : smooth_pars) (dirs : bool) : conf -> Z -> list (Z * conf) -> Prop :=
| ml_end c n c' n' : smooth_until_next_meas sp dirs c n = Some (c', n', true) -> measure_loop sp dirs c n [(n, c)]
| ml_more c n c' n' l : smooth_until_next_meas sp dirs c n = Some (c', n', false) -> measure_loop sp dirs c' n' l -> measure_loop sp dirs c n ((n, c) :: l).
End S.
