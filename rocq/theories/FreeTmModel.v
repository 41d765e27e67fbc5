(** The twisted mass quark of the free theory in momentum space: src/free_theory/twisted_propagator.cpp:22-260.  Exact real arithmetic; conventions of SpinModel: base_gamma is in memory at
    [bg] (the entries of base_gamma[i] at bg[i][row]), the locals of a routine are further paths.
    The coordinates of the momentum are a function [x] of the direction: glbCoordOfLoclx[imom] where imom is local, glbCoordOfGlblx(imom) where it is global.  [L]: glbSize.
    Simplifications: the warning about a negative squared energy is not printed (sqrt of a negative number is then not a number). *)
From Coq Require Import Reals List ZArith.
From Coquelicot Require Import Complex.
From Verif Require Import CplxModel MatModel DiracModel SpinModel StagModel.
Import ListNotations.
Open Scope R_scope.

(** free_theory_types.hpp:13 *)
Inductive tm_basis_t := WILSON_BASE | MAX_TWIST_BASE.
(** free_theory_types.hpp:19-30 *)
Record TmQuarkInfo := { kappa : R; mass : R; bc : nat -> R; zmp : R; r : nat }.
(** new_types/dirac.hpp:38-42 *)
Definition tau3 (r : nat) : R := nth r [-1; 1] 0.
(** twisted_propagator.hpp:119-124 *)
Definition m0_of_kappa (kappa : R) : R := 1 / 2 / kappa - 4.
Definition sqr (x : R) : R := x * x.
(** the positions of base_gamma[i] *)
Definition gpos (i : nat) : nat -> nat := pos (base_gamma (DM (fun _ => O) (fun _ => RtoC 0)) i).

Section L.
Context (L : nat -> Z) (bg : path).
(** M_PI*(2*c[mu]+qu.bc[mu])/glbSize[mu] *)
Definition mom_of (bc : nat -> R) (x : nat -> Z) (mu : nat) : R := PI * (2 * IZR (x mu) + bc mu) / IZR (L mu).

(** twisted_propagator.cpp:22-48 *)
Definition tm_quark_energy (qu : TmQuarkInfo) (x : nat -> Z) : R :=
  let m0 := m0_of_kappa (kappa qu) in
  let m2 := m0 * m0 + mass qu * mass qu in
  let '(p2, p4) := fold_left (fun '(p2, p4) mu =>
    let p := mom_of (bc qu) x mu in
    let sinph := sin (p / 2) in
    let sinph2 := sinph * sinph in
    let sinph4 := sinph2 * sinph2 in
    (p2 + sinph2, p4 + sinph4)) (seq 1 3) (0, 0) in
  let p2 := p2 * 4 in
  let p4 := p4 * 4 in
  let four_sinh2_Eh := (m2 + p2 * (1 + m0) + p2 * p2 / 4 - p4) / (1 + m0 + p2 / 2) in
  2 * arcsinh (sqrt (four_sinh2_Eh / 4)).

(** twisted_propagator.cpp:51-58 *)
Definition naive_massless_quark_energy (bc : nat -> R) (x : nat -> Z) : R :=
  let sinh2E := fold_left (fun s mu => s + sqr (sin (mom_of bc x mu))) (seq 1 3) 0 in
  arcsinh (sqrt sinh2E).

(** twisted_propagator.cpp:63-77: sin_mom, sin2_mom, sin2_momh *)
Definition get_component (qu : TmQuarkInfo) (x : nat -> Z) : (nat -> R) * R * R :=
  fold_left (fun '(sin_mom, sin2_mom, sin2_momh) mu =>
    let p := mom_of (bc qu) x mu in
    let sin_mom := fun nu => if Nat.eqb nu mu then sin p else sin_mom nu in
    (sin_mom, sin2_mom + sqr (sin_mom mu), sin2_momh + sqr (sin (p / 2)))) (seq 0 4) (fun _ => 0, 0, 0).

(** twisted_propagator.cpp:80-98 *)
Definition mom_space_twisted_operator_of_imom (out c : path) (qu : TmQuarkInfo) (x : nat -> Z) (base : tm_basis_t) : mem -> mem :=
  let '(sin_mom, sin2_mom, sin2_momh) := get_component qu x in
  let M := m0_of_kappa (kappa qu) + 2 * sin2_momh in
  let c0 := match base with MAX_TWIST_BASE => mass qu | WILSON_BASE => M end in
  let c5 := match base with MAX_TWIST_BASE => - M * tau3 (r qu) | WILSON_BASE => mass qu * tau3 (r qu) end in
  spinspin_put_to_diag_double out c0 c;;
  unroll_for 0 4 (fun mu => spinspin_dirac_summ_the_prod_idouble out bg@[iGammaOfMu mu] (gpos (iGammaOfMu mu)) (sin_mom mu));;
  spinspin_dirac_summ_the_prod_idouble out bg@[5%nat] (gpos 5) c5.

Definition below (x tol : R) : bool := if Rlt_dec (Rabs x) tol then true else false.
(** twisted_propagator.cpp:101-160 *)
Definition mom_space_twisted_propagator_of_imom (prop : path) (qu : TmQuarkInfo) (x : nat -> Z) (base : tm_basis_t) (glbVol : Z) : mem -> mem :=
  let '(sin_mom, sin2_mom, sin2_momh) := get_component qu x in
  let M := m0_of_kappa (kappa qu) + 2 * sin2_momh in
  let den := sin2_mom + sqr M + sqr (mass qu) in
  let tol := / 10 ^ 14 in
  let zmp_here := fold_left (fun z mu => z && below (bc qu mu) tol)%bool (seq 0 4) (below (mass qu) tol && below (kappa qu - 1 / 8) tol)%bool in
  let zm_time := Z.eqb (x 0%nat) 0 in
  let zm_spat := fold_left (fun z mu => z && Z.eqb (x mu) 0)%bool (seq 1 3) true in
  let zm_sub := if zmp_here then (zm_time && zm_spat)%bool else false in
  spinspin_put_to_zero prop;;
  if zm_sub then
    for_spin (fun ig => complex_prod_double prop@[ig]@[gpos 0 ig] bg@[0%nat]@[ig] (zmp qu))
  else
    let rep_den := 1 / den / IZR glbVol in
    let c0 := match base with MAX_TWIST_BASE => mass qu | WILSON_BASE => M end in
    let c5 := match base with MAX_TWIST_BASE => M * tau3 (r qu) | WILSON_BASE => - mass qu * tau3 (r qu) end in
    spinspin_dirac_summ_the_prod_double prop bg@[0%nat] (gpos 0) (c0 * rep_den);;
    unroll_for 0 4 (fun mu => spinspin_dirac_summ_the_prod_idouble prop bg@[iGammaOfMu mu] (gpos (iGammaOfMu mu)) (- sin_mom mu * rep_den));;
    spinspin_dirac_summ_the_prod_idouble prop bg@[5%nat] (gpos 5) (c5 * rep_den).

(** twisted_propagator.cpp:164-199: the operator is left in [proj]; the energy is the value returned.  None: CRASH *)
Definition twisted_on_shell_operator_of_imom (proj c : path) (qu : TmQuarkInfo) (x : nat -> Z) (tilded : bool) (esign : Z) (base : tm_basis_t) : option ((mem -> mem) * R) :=
  if (negb (esign =? -1) && negb (esign =? 1))%Z%bool then None
  else
    let abse := tm_quark_energy qu x in
    let e := IZR esign * abse in
    let '(sin_mom, sin2_momh) := fold_left (fun '(sin_mom, sin2_momh) mu =>
      let p := mom_of (bc qu) x mu in
      (fun nu => if Nat.eqb nu mu then sin p else sin_mom nu, sin2_momh + sqr (sin (p / 2)))) (seq 1 3) ((fun _ : nat => 0), - sqr (sinh (e / 2))) in
    let M := m0_of_kappa (kappa qu) + 2 * sin2_momh in
    let c0 := match base with MAX_TWIST_BASE => mass qu | WILSON_BASE => M end in
    let c5 := match base with MAX_TWIST_BASE => M * tau3 (r qu) | WILSON_BASE => - mass qu * tau3 (r qu) end in
    let se := if tilded then 1 else -1 in
    let sp := if tilded then -1 else 1 in
    let s5 := if tilded then 1 else -1 in
    Some ((spinspin_put_to_diag_double proj c0 c;;
      spinspin_dirac_summ_the_prod_double proj bg@[iGammaOfMu 0] (gpos (iGammaOfMu 0)) (se * sinh e);;
      unroll_for 1 4 (fun mu => spinspin_dirac_summ_the_prod_idouble proj bg@[iGammaOfMu mu] (gpos (iGammaOfMu mu)) (sp * sin_mom mu));;
      spinspin_dirac_summ_the_prod_idouble proj bg@[5%nat] (gpos 5) (s5 * c5)), abse).

(** twisted_propagator.cpp:202-224 *)
Definition naive_massless_on_shell_operator_of_imom (proj : path) (bc : nat -> R) (x : nat -> Z) (esign : Z) : option ((mem -> mem) * R) :=
  if (negb (esign =? -1) && negb (esign =? 1))%Z%bool then None
  else
    let abse := naive_massless_quark_energy bc x in
    let e := IZR esign * abse in
    Some ((spinspin_dirac_prod_double proj bg@[iGammaOfMu 0] (gpos (iGammaOfMu 0)) (- sinh e);;
      unroll_for 1 4 (fun mu => spinspin_dirac_summ_the_prod_idouble proj bg@[iGammaOfMu mu] (gpos (iGammaOfMu mu)) (sin (mom_of bc x mu)))), abse).

(** twisted_propagator.cpp:227-234: the components of ompg0_eig[a][s] *)
Definition W : R := 1 / sqrt 2.
Definition ompg0_eig (a s : nat) : nat -> C := fun id =>
  RtoC (nth id (nth s (nth a [[[W; 0; W; 0]; [0; W; 0; W]]; [[W; 0; - W; 0]; [0; W; 0; - W]]] []) []) 0).
(** spin.hpp:641 *)
Definition safe_dirac_prod_spin (out d : path) (p : nat -> nat) (inp tmp : path) : mem -> mem := unsafe_dirac_prod_spin tmp d p inp;; spin_copy out tmp.
(** twisted_propagator.cpp:237-254.  [eig]: where the table ompg0_eig is; par_apar is 0 or 1 *)
Definition twisted_wavefunction_of_imom (wf osp c tmp eig : path) (qu : TmQuarkInfo) (x : nat -> Z) (par_apar s : nat) (base : tm_basis_t) : option (mem -> mem) :=
  let tilde := nth par_apar [true; false] false in
  match twisted_on_shell_operator_of_imom osp c qu x tilde 1 base with
  | None => None
  | Some (op, e) =>
      let ig := nth par_apar [0%nat; iGammaOfMu 0] 0%nat in
      Some (op;;
        unsafe_spinspin_prod_spin wf osp eig@[1 - par_apar]@[s];;
        spin_prodassign_double wf (1 / sqrt (mass qu + sinh e));;
        safe_dirac_prod_spin wf bg@[ig] (gpos ig) wf tmp)
  end.
(** twisted_propagator.cpp:257-271 *)
Definition naive_massless_wavefunction_of_imom (wf osp eig : path) (bc : nat -> R) (x : nat -> Z) (par_apar s : nat) : option (mem -> mem) :=
  let esign := nth par_apar [1; -1]%Z 0%Z in
  match naive_massless_on_shell_operator_of_imom osp bc x esign with
  | None => None
  | Some (op, e) =>
      Some (op;;
        unsafe_spinspin_prod_spin wf osp eig@[1 - par_apar]@[s];;
        spin_prodassign_double wf (-1 / sqrt (sinh e)))
  end.

(** twisted_propagator.cpp:274-288.  [sched]: the order of the iterations; [gc]: glbCoordOfLoclx *)
Definition compute_mom_space_twisted_propagator (sched : list nat) (gc : nat -> nat -> Z) (glbVol : Z) (prop tmp : path) (qu : TmQuarkInfo) (base : tm_basis_t) : mem -> mem :=
  PAR sched (fun imom =>
    mom_space_twisted_propagator_of_imom tmp qu (gc imom) base glbVol;;
    spinspin_copy prop@[imom] tmp).
(** spin.hpp: safe_spinspin_prod_spinspin and spinspin_prodassign_double; twisted_propagator.cpp:303-320 before the passage to x space *)
Definition square_mom_space (sched : list nat) (glbVol : Z) (sq_prop c : path) : mem -> mem :=
  PAR sched (fun imom =>
    safe_spinspin_prod_spinspin sq_prop@[imom] sq_prop@[imom] sq_prop@[imom] c;;
    spinspin_prod_double sq_prop@[imom] sq_prop@[imom] (IZR glbVol)).
End L.
