(** Solver of the twisted mass operator with even-odd preconditioning: src/inverters/twisted_mass/{cg_invert_tmD_eoprec.cpp,cg_64_invert_tmD_eoprec.hpp},
    and the passage from the lexicographic to the even-odd numbering, src/geometry/geometry_mix.hpp.
    Same conventions as TmModel.  Inside cg_invert (CgModel) a field is the list of its real numbers, 24 for each odd site; each time f is called its
    argument is put in the object [vin] and the result is read from [vout], and what f leaves elsewhere is not kept: its two temporaries are written
    before they are read.  Timings, the check of the solution, which is only printed (lines 184-211), and the other solvers (QUDA, DDalphaAMG, tmLQCD)
    are left out; 128 bit precision is refused (line 72: CRASH). *)
From Coq Require Import Reals List ZArith Arith Bool.
From Coquelicot Require Import Complex.
From Verif Require Import DiracModel TmModel CgModel.
From Verif Require CgStagModel.
Import ListNotations.
Open Scope R_scope.

(** base/field.hpp: degree of freedom iDeg=2*(ic+3*id)+ri of the site: the 4 spins of a site as 4 consecutive sites of CgStagModel *)
Definition to_rs (f : nat -> nat -> nat -> C) : rvec := CgStagModel.to_r (fun y => f (y / 4)%nat (y mod 4)%nat).
Definition of_rs (v : rvec) : nat -> nat -> nat -> C := fun x s => CgStagModel.of_r v (4 * x + s)%nat.
Definition set_obj (m : smem) (a : nat) (f : nat -> spincolor) : smem := fun a' => if Nat.eqb a' a then f else m a'.

Section Solver.
(** orders of the loops on the n sites of one parity, and on all the sites *)
Variables (sched schedlx : nat -> list nat) (nup ndw : nat -> nat -> nat -> nat) (n : nat).
(** the tables of geometry_eo.cpp *)
Variables (loclx_parity loceo_of_loclx : nat -> nat) (loclx_of_loceo : nat -> nat -> nat).
(** the objects of the lambda f and the local fields *)
Variables (vin vout temp1 temp2 : nat).

(** geometry_mix.hpp:44-60, for elements of any type *)
Definition split_lx_vector_into_eo_parts {A} (l : nat) (outEo : nat -> nat -> A) (inLx : nat -> A) : nat -> nat -> A :=
  fold_left (fun (o : nat -> nat -> A) locLx => put o (loclx_parity locLx) (put (o (loclx_parity locLx)) (loceo_of_loclx locLx) (inLx locLx))) (schedlx l) outEo.
(** geometry_mix.hpp:19-40 *)
Definition paste_eo_parts_into_lx_vector {A} (l : nat) (outLx : nat -> A) (inEo : nat -> nat -> A) : nat -> A :=
  fold_left (fun o par => fold_left (fun o eo => put o (loclx_of_loceo par eo) (inEo par eo)) (sched (l + par)%nat) o) [0; 1]%nat outLx.

(** cg_invert_tmD_eoprec.cpp:37-58: spins id and id+2, for id=0,1 *)
Definition inv_tmD_cg_eoprec_prepare_source (l varphi : nat) (conf_eos : nat -> nat -> nat -> su3) (anis : option R) (eq8a source_odd : nat) (m : smem) : smem :=
  let m := tmn2Deo_or_tmn2Doe_eos sched l nup ndw 1 varphi conf_eos anis eq8a m in
  PARs (sched (l + 1)%nat) (fun iEo m => fold_left (fun m id =>
    let m := wr_color varphi iEo id (fun ic => m source_odd iEo id ic + m varphi iEo id ic * 0.5)%C m in
    wr_color varphi iEo (id + 2) (fun ic => - m source_odd iEo (id + 2)%nat ic - m varphi iEo (id + 2)%nat ic * 0.5)%C m) (seq 0 2) m) m.
(** cg_invert_tmD_eoprec.cpp:81-99 *)
Definition inv_tmD_cg_eoprec_almost_reco_sol (l varphi : nat) (conf_eos : nat -> nat -> nat -> su3) (anis : option R) (sol_odd source_evn : nat) (m : smem) : smem :=
  let m := tmn2Deo_or_tmn2Doe_eos sched l nup ndw 0 varphi conf_eos anis sol_odd m in
  PARs (sched (l + 1)%nat) (fun iEo m => fold_left (fun m id =>
    wr_color varphi iEo id (fun ic => m source_evn iEo id ic + m varphi iEo id ic * 0.5)%C m) (seq 0 4) m) m.
(** cg_64_invert_tmD_eoprec.hpp:12-42, called by cg_invert_tmD_eoprec.cpp:61-78 *)
Definition kern_applier (conf : nat -> nat -> nat -> su3) (kappa : R) (anis : option R) (mu : R) (m : smem) (v : rvec) : rvec :=
  to_rs (tmDkern_eoprec_square_eos sched nup ndw conf 0 vout temp1 temp2 kappa anis mu vin (set_obj m vin (of_rs v)) vout).
Definition inv_tmDkern_eoprec_square_eos_cg (sol : nat) (guess : option (nat -> spincolor)) (conf : nat -> nat -> nat -> su3) (kappa : R) (anis : option R) (mass : R)
    (nitermax : Z) (residue : R) (source : nat) (m : smem) : option smem :=
  match cg_invert (24 * n) (kern_applier conf kappa anis mass m) nitermax residue (to_rs (m source)) (option_map to_rs guess) with
  | Some s => Some (set_obj m sol (of_rs s))
  | None => None
  end.

Variables (source_evn source_odd sol_evn sol_odd evnTemp oddTemp varphi : nat).
(** what the links of a new field hold before they are written *)
Variable junk_conf : nat -> nat -> nat -> su3.
(** cg_invert_tmD_eoprec.cpp:102-150, with use_eo_geom; [guess_Koo] is passed by value, so that the assignment of line 138 changes a copy *)
Definition inv_tmD_cg_eoprec_native (solution_lx : nat) (guess_Koo : option (nat -> spincolor)) (conf_lx : nat -> nat -> su3) (kappa : R) (anis : option R) (mass : R)
    (nitermax : Z) (residue : R) (source_lx : nat) (m : smem) : option smem :=
  let s := split_lx_vector_into_eo_parts 0 (fun p => m (if Nat.eqb p 0 then source_evn else source_odd)) (m source_lx) in
  let m := set_obj (set_obj m source_evn (s 0%nat)) source_odd (s 1%nat) in
  let conf_eos := split_lx_vector_into_eo_parts 1 junk_conf conf_lx in
  let m := inv_tmDee_or_oo_eos sched 20 evnTemp kappa mass source_evn m in
  let m := inv_tmD_cg_eoprec_prepare_source 21 varphi conf_eos anis evnTemp source_odd m in
  match inv_tmDkern_eoprec_square_eos_cg oddTemp guess_Koo conf_eos kappa anis mass nitermax residue varphi m with
  | None => None
  | Some m =>
    let m := tmDkern_eoprec_eos sched nup ndw conf_eos 23 sol_odd sol_evn kappa anis (- mass) oddTemp m in
    let m := inv_tmD_cg_eoprec_almost_reco_sol 28 evnTemp conf_eos anis sol_odd source_evn m in
    let m := inv_tmDee_or_oo_eos sched 30 sol_evn kappa mass evnTemp m in
    Some (set_obj m solution_lx (paste_eo_parts_into_lx_vector 31 (m solution_lx) (fun p => m (if Nat.eqb p 0 then sol_evn else sol_odd))))
  end.
End Solver.
