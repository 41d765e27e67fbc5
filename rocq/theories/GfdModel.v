(** The loop which fixes the Landau or Coulomb gauge: src/operations/gauge_fixing.cpp:783-888, on the fields distributed among the ranks.  Exact real arithmetic.
    Simplifications: what the two methods choose at each iteration is left open: the direction and the length of the step of the exponentiating one (680-764: derivative,
    Fourier acceleration, conjugate gradient, adaptative search) and the rotations and the links left by the sweep of the overrelaxing one (262-360) are functions of the
    iteration and of the state, on which the theorems quantify.  The functional, which does not decide anything here, printing and timing are left out.  When the output is
    the field to be fixed the routine works on a copy of the latter (787-792), so that the two are always different here. *)
From Coq Require Import Reals.
From Coquelicot Require Import Complex.
From Verif Require Import Base GeometryModel GeoMiscModel HaloModel StapleModel CplxModel MatModel MatSpec GaugeModel GfixModel UnitModel.
From Verif Require ParModel.
Open Scope Z_scope.

Record lc_state := { fixed_conf : Z -> @qfield cmat; fixer : Z -> mfield }.
Inductive lc_method :=
| EXPONENTIATE (dir : Z -> lc_state -> Z -> Z -> cmat) (alpha : Z -> lc_state -> R)
| OVERRELAX (rot : Z -> lc_state -> Z -> Z -> cmat) (sweep : Z -> lc_state -> Z -> @qfield cmat).
(** gauge_fixing.hpp:80-95 *)
Record lc_pars := { start_mu : nat; method : lc_method; targetPrecision : R; nmaxIterations : Z; unitarizeEach : Z }.

Section Fix.
Context (g : grid) (ord : Z -> nat -> nat -> nat -> Z -> Z -> list Z) (surf_sched : Z -> list Z) (bk : Z -> ParModel.backend) (ix : Z -> Z -> Z) (w : cmat).
Context (pars : lc_pars) (ext_conf : Z -> @qfield cmat).

(** the matrices by which an iteration multiplies the fixer; gauge_fixing.cpp:751 (exp_der_alpha_half), 286-303 *)
Definition moves (m : lc_method) (iter : Z) (s : lc_state) (r i : Z) : cmat :=
  match m with EXPONENTIATE dir alpha => exp_der_alpha_half (dir iter s r i) (alpha iter s) | OVERRELAX rot _ => rot iter s r i end.
(** gauge_fixing.cpp:418-433 and 319: fixer[ivol]=g[ivol]*fixer[ivol] *)
Definition add_current (gm : Z -> cmat) (r : Z) (f : mfield) : mfield :=
  PAR ord r 23 0 0 0 (locVol g) (fun i f => mat_put f i (option_map (add_current_transformation (gm i)) (f i))) f.
(** gauge_fixing.cpp:758-759: add_current_transformation, gauge_transform_conf(fixed_conf,fixer,ori_conf); 262-360 *)
Definition lc_step (iter : Z) (s s' : lc_state) : Prop :=
  let f := fun r => add_current (moves (method pars) iter s r) r (fixer s r) in
  match method pars with
  | EXPONENTIATE _ _ => forall r, 0 <= r < nranks g -> gauge_transform_conf g ord surf_sched (fixed_conf s) f (Some ext_conf) r = Some (fixed_conf s' r, fixer s' r)
  | OVERRELAX _ sweep => fixed_conf s' = sweep iter s /\ fixer s' = f
  end.
(** gauge_fixing.cpp:767-781  check_Landau_or_Coulomb_gauge_fixed *)
Definition gauge_fixed (prec : R) : bool := if Rle_dec prec (targetPrecision pars) then true else false.
(** gauge_fixing.cpp:825-859: the inner loop, from the iteration [iter] to [iter'] *)
Inductive lc_inner : Z -> lc_state -> Z -> lc_state -> Prop :=
| lc_inner_do iter s s1 prec : lc_step iter s s1 ->
    gauge_fixing_quality g surf_sched bk ix (fixed_conf s1) (start_mu pars) w prec ->
    (gauge_fixed prec || negb (iter + 1 <? nmaxIterations pars) || negb (Z.rem (iter + 1) (unitarizeEach pars) =? 0))%bool = true ->
    lc_inner iter s (iter + 1) s1
| lc_inner_again iter s s1 prec iter' s' : lc_step iter s s1 ->
    gauge_fixing_quality g surf_sched bk ix (fixed_conf s1) (start_mu pars) w prec ->
    (gauge_fixed prec || negb (iter + 1 <? nmaxIterations pars) || negb (Z.rem (iter + 1) (unitarizeEach pars) =? 0))%bool = false ->
    lc_inner (iter + 1) s1 iter' s' -> lc_inner iter s iter' s'.
(** gauge_fixing.cpp:863-868: su3_unitarize_explicitly_inverting(fixer[ivol],fixer[ivol]), tolerance 1e-15 by default, on each site; the order of the sites does not matter
    as each one reads and writes its own matrix *)
Definition unitarize_fixer (f f' : Z -> mfield) : Prop :=
  forall r, 0 <= r < nranks g -> (forall i, 0 <= i < locVol g -> exists M n out, f r i = Some M /\ unitarize_explicitly_inverting M (/ 10 ^ 15) n out /\ f' r i = Some out) /\
  forall i, ~ 0 <= i < locVol g -> f' r i = f r i.
(** gauge_fixing.cpp:821-877: the outer loop; [prec] is the last precision measured *)
Inductive lc_outer : Z -> lc_state -> Z -> lc_state -> R -> Prop :=
| lc_outer_do iter s iter1 s1 f s2 prec : lc_inner iter s iter1 s1 -> unitarize_fixer (fixer s1) f ->
    (forall r, 0 <= r < nranks g -> gauge_transform_conf g ord surf_sched (fixed_conf s1) f (Some ext_conf) r = Some (fixed_conf s2 r, fixer s2 r)) ->
    gauge_fixing_quality g surf_sched bk ix (fixed_conf s2) (start_mu pars) w prec ->
    (gauge_fixed prec || negb (iter1 <? nmaxIterations pars))%bool = true ->
    lc_outer iter s iter1 s2 prec
| lc_outer_again iter s iter1 s1 f s2 prec iter' s' prec' : lc_inner iter s iter1 s1 -> unitarize_fixer (fixer s1) f ->
    (forall r, 0 <= r < nranks g -> gauge_transform_conf g ord surf_sched (fixed_conf s1) f (Some ext_conf) r = Some (fixed_conf s2 r, fixer s2 r)) ->
    gauge_fixing_quality g surf_sched bk ix (fixed_conf s2) (start_mu pars) w prec ->
    (gauge_fixed prec || negb (iter1 <? nmaxIterations pars))%bool = false ->
    lc_outer iter1 s2 iter' s' prec' -> lc_outer iter s iter' s' prec'.
(** gauge_fixing.cpp:803-812: su3_put_to_id(fixer[ivol]) on the sites of the rank, fixed_conf=ext_conf.  [f0]: the fixer as allocated *)
Definition start_fixer (f0 : Z -> mfield) (r : Z) : mfield :=
  PAR ord r 24 0 0 0 (locVol g) (fun i f => mat_put f i (Some (mat (su3_put_to_id a_out (args w w w)) a_out))) (f0 r).
Definition Landau_or_Coulomb_gauge_fix (f0 : Z -> mfield) (iter : Z) (s : lc_state) (prec : R) : Prop :=
  lc_outer 0 {| fixed_conf := ext_conf; fixer := start_fixer f0 |} iter s prec.
End Fix.
