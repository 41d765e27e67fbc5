(** Property theorems C79: the even-odd preconditioned solver of the twisted mass operator, exact real arithmetic. *)
From Coq Require Import Reals Lra Lia List Arith ZArith.
From Coquelicot Require Import Complex.
From Verif Require Import MatSpec TmModel TmSpec TmSolveModel TmAlg2 TmProofs TmSolveProofs3.
From Verif Require StagSpec Prop_Tm TmGeo StagGeo EoModel.
Import ListNotations.
Open Scope C_scope.
Set Bullet Behavior "Strict Subproofs".

(** C79: when inv_tmD_cg_eoprec_native returns, D psi=eta exactly on the even sites, |D psi-eta|^2 < residue*|eta_o-D_oe D_ee^-1 eta_e|^2,
    and nothing changes but the solution (on the sites of the lattice) and the local fields.  Fields are numbered: [vin..temp2] are those of
    the solver inside, [locals] those of the routine *)
Theorem C79_solution : forall n sched schedlx nupx ndwx nup ndw par eo lx kappa anis vin vout temp1 temp2
    source_evn source_odd sol_evn sol_odd evnTemp oddTemp varphi junk_conf solution_lx guess source_lx conf mass niter residue m m',
  let locals := [source_evn; source_odd; sol_evn; sol_odd; evnTemp; oddTemp; varphi] in
  (forall l, StagSpec.order n (sched l)) -> (forall l, StagSpec.order (2 * n) (schedlx l)) ->
  StagSpec.lattice n nup ndw -> eo_tables n nupx ndwx nup ndw par eo lx -> kappa <> 0%R ->
  NoDup [vout; temp1; temp2; vin] -> NoDup locals -> ~ In source_lx locals -> ~ In solution_lx locals -> (1 <= niter)%Z ->
  inv_tmD_cg_eoprec_native sched schedlx nup ndw n par eo lx vin vout temp1 temp2 source_evn source_odd sol_evn sol_odd evnTemp oddTemp varphi junk_conf
    solution_lx guess conf kappa anis mass niter residue source_lx m = Some m' ->
  let psi := m' solution_lx in let eta := m source_lx in
  (forall k, (k < n)%nat -> forall s, (s < 4)%nat -> veq (tmD nupx ndwx conf kappa anis mass psi (lx 0%nat k) s) (eta (lx 0%nat k) s)) /\
  (norm2 (2 * n) (sadd (tmD nupx ndwx conf kappa anis mass psi) (sscale (-1)%R eta))
     < residue * norm2 n (schur_rhs nup ndw (fun p k => conf (lx p k)) kappa anis mass (fun k => eta (lx 0%nat k)) (fun k => eta (lx 1%nat k))))%R /\
  (forall a, a <> solution_lx -> ~ In a locals -> m' a = m a) /\ (forall x, (2 * n <= x)%nat -> m' solution_lx x = m solution_lx x).
Proof.
  intros n sched schedlx nupx ndwx nup ndw par eo lx kappa anis vin vout temp1 temp2 source_evn source_odd sol_evn sol_odd evnTemp oddTemp varphi junk_conf
    solution_lx guess source_lx conf mass niter residue m m' locals Hs Hsx L T Hk ND NDl N1 N2 Hn E.
  exact (native_sound n sched schedlx nupx ndwx nup ndw par eo lx Hs Hsx L T kappa anis Hk vin vout temp1 temp2 ND source_evn source_odd sol_evn sol_odd
    evnTemp oddTemp varphi NDl junk_conf solution_lx source_lx N1 N2 conf mass niter residue guess m m' Hn E).
Qed.
Print Assumptions C79_solution.

(** it returns, for any links, if the twisted mass is not zero, niter is more than the number of real unknowns, and the source of the odd
    system is not zero (a null one divides zero by zero, C75) *)
Theorem C79_returns : forall n sched schedlx nupx ndwx nup ndw par eo lx kappa anis vin vout temp1 temp2
    source_evn source_odd sol_evn sol_odd evnTemp oddTemp varphi junk_conf solution_lx source_lx conf mass niter residue m,
  let locals := [source_evn; source_odd; sol_evn; sol_odd; evnTemp; oddTemp; varphi] in let eta := m source_lx in
  (forall l, StagSpec.order n (sched l)) -> (forall l, StagSpec.order (2 * n) (schedlx l)) ->
  StagSpec.lattice n nup ndw -> eo_tables n nupx ndwx nup ndw par eo lx -> kappa <> 0%R ->
  NoDup [vout; temp1; temp2; vin] -> NoDup locals -> ~ In source_lx locals -> ~ In solution_lx locals ->
  mass <> 0%R -> (0 < residue)%R -> (Z.of_nat (24 * n) < niter)%Z ->
  norm2 n (schur_rhs nup ndw (fun p k => conf (lx p k)) kappa anis mass (fun k => eta (lx 0%nat k)) (fun k => eta (lx 1%nat k))) <> 0%R ->
  exists m', inv_tmD_cg_eoprec_native sched schedlx nup ndw n par eo lx vin vout temp1 temp2 source_evn source_odd sol_evn sol_odd evnTemp oddTemp varphi junk_conf
    solution_lx None conf kappa anis mass niter residue source_lx m = Some m'.
Proof.
  intros n sched schedlx nupx ndwx nup ndw par eo lx kappa anis vin vout temp1 temp2 source_evn source_odd sol_evn sol_odd evnTemp oddTemp varphi junk_conf
    solution_lx source_lx conf mass niter residue m locals eta Hs Hsx L T Hk ND NDl N1 N2 Hm Hr Hn Hb.
  exact (native_total n sched schedlx nupx ndwx nup ndw par eo lx Hs Hsx L T kappa anis Hk vin vout temp1 temp2 ND source_evn source_odd sol_evn sol_odd
    evnTemp oddTemp varphi NDl junk_conf solution_lx source_lx N1 N2 conf mass niter residue m Hm Hr Hn Hb).
Qed.
Print Assumptions C79_returns.
(** the last hypothesis is met by a source on the odd sites *)
Theorem C79_odd_source : forall n nup ndw U kappa anis mass (eta : sfield) lx,
  (forall k s c, eta (lx 0%nat k) s c = RtoC 0) -> (exists k s c, (k < n)%nat /\ (s < 4)%nat /\ (c < 3)%nat /\ eta (lx 1%nat k) s c <> RtoC 0) ->
  norm2 n (schur_rhs nup ndw U kappa anis mass (fun k => eta (lx 0%nat k)) (fun k => eta (lx 1%nat k))) <> 0%R.
Proof.
  intros n nup ndw U kappa anis mass eta lx H0 (k & s & c & Hk & Hs & Hc & H1) E. apply sdot_zero in E. apply H1. specialize (E k Hk s Hs c Hc). rewrite <- E.
  unfold schur_rhs, sadd, sscale. transitivity (eta (lx 1%nat k) s c + RtoC (1 / 2) * RtoC 0); [ring|]. f_equal. f_equal. symmetry.
  assert (Z : forall x t i, inv_diag kappa mass (fun k => eta (lx 0%nat k)) x t i = RtoC 0).
  { intros x t i. unfold inv_diag, diag, sscale, sadd, g5, spin. cbn [csum]. rewrite !H0. ring. }
  unfold hop_eo, hops. transitivity (csum 4 (fun _ => RtoC 0)); [|cbn [csum]; ring]. apply DiracProofs.csum_ext. intros mu _. unfold spin, mvec. cbn [csum]. rewrite !Z. ring.
Qed.
Print Assumptions C79_odd_source.

(** all the hypotheses are met on the lattice 4x2x4x2 of one rank, with the tables of the code *)
Example C79_ex : exists m', inv_tmD_cg_eoprec_native (fun _ => rev (seq 0 32)) (fun _ => seq 0 64)
    (StagGeo.table_of Prop_Tm.ex_tm_grid true) (StagGeo.table_of Prop_Tm.ex_tm_grid false) 32
    (TmGeo.lx_parity Prop_Tm.ex_tm_grid) (TmGeo.eo_of_lx Prop_Tm.ex_tm_grid) (TmGeo.lx_of_eo Prop_Tm.ex_tm_grid) 0 1 2 3 4 5 6 7 8 9 10
    (fun _ _ _ _ _ => RtoC 0) 11 None (fun _ _ i j => if Nat.eqb i j then RtoC 1 else RtoC 0) (1 / 8) None (1 / 10) 1000 (1 / 1000000) 12
    (fun a x _ _ => if (Nat.eqb a 12 && Nat.eqb (TmGeo.lx_parity Prop_Tm.ex_tm_grid x) 1)%bool then RtoC 1 else RtoC 0) = Some m'.
Proof.
  destruct Prop_Tm.C78_ex_lattice as (A & B & C).
  assert (T : forall p k, (p < 2)%nat -> (k < 32)%nat -> TmGeo.lx_parity Prop_Tm.ex_tm_grid (TmGeo.lx_of_eo Prop_Tm.ex_tm_grid p k) = p)
    by (intros p k Hp Hk; apply (proj1 (proj2 B) p k Hp Hk)).
  apply (C79_returns 32) with (nupx := TmGeo.lx_table_of Prop_Tm.ex_tm_grid true) (ndwx := TmGeo.lx_table_of Prop_Tm.ex_tm_grid false).
  - intros _. split; [apply NoDup_rev, seq_NoDup|]. intros k. rewrite <- in_rev, in_seq. lia.
  - intros _. split; [apply seq_NoDup|]. intros k. rewrite in_seq. lia.
  - exact (StagGeo.table_lattice Prop_Tm.ex_tm_grid eq_refl eq_refl eq_refl).
  - exact B.
  - lra.
  - repeat constructor; cbn; lia.
  - repeat constructor; cbn; lia.
  - cbn; lia.
  - cbn; lia.
  - lra.
  - lra.
  - reflexivity.
  - intros E. apply sdot_zero in E. specialize (E 0%nat ltac:(lia) 0%nat ltac:(lia) 0%nat ltac:(lia)). revert E.
    unfold schur_rhs. unfold sadd at 1, sscale at 1. rewrite T by lia. cbn [Nat.eqb andb].
    match goal with |- _ + _ * ?h = _ -> _ => replace h with (RtoC 0); [intros E; apply (f_equal fst) in E; unfold RtoC, Cplus, Cmult in E; cbn [fst snd] in E; lra|] end.
    symmetry. unfold hop_eo, hops. transitivity (csum 4 (fun _ => RtoC 0)); [|cbn [csum]; ring]. apply DiracProofs.csum_ext. intros mu Hmu.
    assert (Z : forall x, (x < 32)%nat -> forall t i, inv_diag (1 / 8) (1 / 10) (fun k (_ _ : nat) => if Nat.eqb (TmGeo.lx_parity Prop_Tm.ex_tm_grid (TmGeo.lx_of_eo Prop_Tm.ex_tm_grid 0 k)) 1 then RtoC 1 else RtoC 0) x t i = RtoC 0).
    { intros x Hx t i. unfold inv_diag, diag, sscale, sadd, g5, spin. cbn [csum]. rewrite !T by lia. cbn [Nat.eqb]. ring. }
    destruct (StagGeo.table_lattice Prop_Tm.ex_tm_grid eq_refl eq_refl eq_refl 1%nat 0%nat mu ltac:(lia) ltac:(change (0 < 32)%nat; lia) Hmu) as (N1 & N2 & _).
    change (Z.to_nat (EoModel.locVolh Prop_Tm.ex_tm_grid)) with 32%nat in N1, N2.
    unfold spin, mvec. cbn [csum]. cbn [Nat.eqb andb]. rewrite !Z by assumption. ring.
Qed.
