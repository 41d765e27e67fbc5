(** The adaptative search of the length of the step of the gauge fixing: src/operations/gauge_fixing.cpp:435-569.  Exact real arithmetic.
    Simplifications: printing, and the arguments func and use_adapt, which are not used, are left out.  A division by alpha=0 gives NaN in the program (the functional
    does not move, so that it is 0/0) and NaN>a_tol is false: this case is singled out. *)
From Coq Require Import Reals.
From Coquelicot Require Import Complex.
From Verif Require Import Base GeometryModel GeoMiscModel HaloModel StapleModel CplxModel MatModel MatSpec GaugeModel GfixModel GfdModel.
From Verif Require ParModel.
Open Scope Z_scope.

(** gauge_fixing.cpp:504-548: what is decided from the functional at 0, alpha and 2alpha: the new alpha, found, give_up *)
Definition ad_decide (alpha F0 F1 F2 : R) : R * bool * bool :=
  let b := ((4 * F1 - F2 - 3 * F0) / (2 * alpha))%R in
  let a := ((F2 - 2 * F1 + F0) / (2 * (alpha * alpha)))%R in
  if Req_EM_T alpha 0 then (alpha, false, true)
  else if Rlt_dec (/ 10 ^ 14) a then
    let vert := (- b / (2 * a))%R in
    let relDist := Rabs (vert / alpha - 1) in
    let brack_vert := if Rlt_dec (Rabs vert) (Rabs (2 * alpha)) then true else false in
    (vert, (brack_vert && if Rlt_dec relDist (5 / 100) then true else false)%bool, false)
  else (alpha, false, true).
Definition nadapt_iter_max : Z := 15.

Section Adapt.
Context (g : grid) (ord : Z -> nat -> nat -> nat -> Z -> Z -> list Z) (surf_sched : Z -> list Z) (bk : Z -> ParModel.backend) (ix : Z -> Z -> Z).
Context (start_mu : nat) (der : Z -> Z -> cmat) (ori_conf : Z -> @qfield cmat) (F_offset : Z -> Z -> R).
(** field.hpp:1380-1405, 1511-1518: fixer=ori_fixer copies the sites *)
Definition field_copy (dst src : Z -> mfield) (r : Z) : mfield := PAR ord r 26 0 0 0 (locVol g) (fun i f => mat_put f i (src r i)) (dst r).
(** gauge_fixing.cpp:483-500: add_current_transformation(fixer,g,fixer); gauge_transform_conf(fixed_conf,fixer,ori_conf); F[i]=functional *)
Definition ad_point (alpha : R) (s s' : lc_state) (F : R) : Prop :=
  let f := fun r => add_current g ord (fun i => exp_der_alpha_half (der r i) alpha) r (fixer s r) in
  (forall r, 0 <= r < nranks g -> gauge_transform_conf g ord surf_sched (fixed_conf s) f (Some ori_conf) r = Some (fixed_conf s' r, fixer s' r)) /\
  compute_functional g bk ix (fixed_conf s') start_mu (Some F_offset) F.
(** gauge_fixing.cpp:468-502: one trial *)
Definition ad_trial (ori_fixer : Z -> mfield) (alpha : R) (s s2 : lc_state) (F1 F2 : R) : Prop :=
  exists s1, ad_point alpha {| fixed_conf := fixed_conf s; fixer := field_copy (fixer s) ori_fixer |} s1 F1 /\ ad_point alpha s1 s2 F2.
(** gauge_fixing.cpp:466-560: do ... while((not found) and (not give_up)); [iter] trials already done, [iter'] when it ends; the last value of alpha and found *)
Inductive ad_loop (ori_fixer : Z -> mfield) : R -> Z -> lc_state -> R -> bool -> Z -> lc_state -> Prop :=
| ad_end alpha iter s s' F1 F2 alpha' found give_up : ad_trial ori_fixer alpha s s' F1 F2 -> ad_decide alpha 0 F1 F2 = (alpha', found, give_up) ->
    (found || give_up || (nadapt_iter_max <=? iter + 1))%bool = true -> ad_loop ori_fixer alpha iter s alpha' found (iter + 1) s'
| ad_more alpha iter s s' F1 F2 alpha' found give_up alpha'' found'' iter'' s'' : ad_trial ori_fixer alpha s s' F1 F2 -> ad_decide alpha 0 F1 F2 = (alpha', found, give_up) ->
    (found || give_up || (nadapt_iter_max <=? iter + 1))%bool = false -> ad_loop ori_fixer alpha' (iter + 1) s' alpha'' found'' iter'' s'' ->
    ad_loop ori_fixer alpha iter s alpha'' found'' iter'' s''.
(** gauge_fixing.cpp:436-569: the value returned, nskipped_adapt and the fields after; [n]: the trials.  [buf]: ori_fixer as allocated *)
Definition adapt_alpha (buf : Z -> mfield) (alpha_def : R) (s : lc_state) (nskipped : Z) (alpha : R) (nskipped' : Z) (s' : lc_state) (n : Z) : Prop :=
  exists alpha1 found s1, ad_loop (field_copy buf (fixer s)) alpha_def 0 s alpha1 found n s1 /\
    alpha = (if found then alpha1 else alpha_def) /\ nskipped' = (if found then 0 else nskipped + 1) /\
    s' = {| fixed_conf := fixed_conf s1; fixer := field_copy (fixer s1) (field_copy buf (fixer s)) |}.
End Adapt.
