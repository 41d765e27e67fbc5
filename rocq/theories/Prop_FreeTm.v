(** C94: the Dirac operator and the propagator of the free twisted mass quark in momentum space. *)
From Coq Require Import Reals Lra Lia List ZArith Permutation FunctionalExtensionality.
From Coquelicot Require Import Complex.
From Verif Require Import CplxModel CplxSpec CplxProofs CplxStores MatModel MatSpec MatProofs DiracModel DiracSpec DiracProofs SpinModel SpinSpec SpinProofs SpinProofs2 SpinProofs3 ParLoop StagModel FreeTmModel FreeTmSpec FreeTmProofs.
Import ListNotations.
Open Scope C_scope.
Set Bullet Behavior "Strict Subproofs".

(** C94: the operator of a momentum is the Dirac operator of the spec; nothing else is written but the local *)
Theorem C94_operator : forall L bg out c qu x base m,
  kappa qu <> 0%R -> (r qu < 2)%nat -> gammas_at bg m -> bg <> out -> (forall i j, c <> bg@[i]@[j]) -> (forall i j, c <> out@[i]@[j]) ->
  let m' := mom_space_twisted_operator_of_imom L bg out c qu x base m in
  deq (ss m' out) (Dfree L qu x base) /\ forall q, ~ in_ss out q -> q <> c -> m' q = m q.
Proof.
  intros L bg out c qu x base m K R G N Nc No m'. destruct (operator_run L bg out c qu x base m K R G N Nc No) as [A B]. split; [exact A|]. intros q Q1 Q2. apply B; congruence.
Qed.
Print Assumptions C94_operator.

Definition e5 (i : nat) : R := if Nat.ltb i 2 then 1 else -1.
Lemma g5l X i j : (i < 4)%nat -> dmul gam5 X i j = e5 i * X i j.
Proof. intros H. destruct i as [|[|[|[|i]]]]; [| | | |lia]; unfold dmul, e5; cbn [csum Nat.ltb Nat.leb]; unfold gam5, den; cbn; apply injective_projections; cbn; ring. Qed.
Lemma g5r X i j : (j < 4)%nat -> dmul X gam5 i j = e5 j * X i j.
Proof. intros H. destruct j as [|[|[|[|j]]]]; [| | | |lia]; unfold dmul, e5; cbn [csum Nat.ltb Nat.leb]; unfold gam5, den; cbn; apply injective_projections; cbn; ring. Qed.
Lemma sandwich (k : C) (X : dmat) i j : (i < 4)%nat -> (j < 4)%nat ->
  dmul (dsub did (dscale k gam5)) (dmul X (dsub did (dscale k gam5))) i j = (1 - k * e5 i) * (1 - k * e5 j) * X i j.
Proof.
  intros Hi Hj. rewrite dm_subl, dm_scl, g5l, dmul_idl, dm_subr, dm_scr, g5r, dmul_idr by assumption. ring.
Qed.
(** the operators of the two bases are the same up to the rotation of the fields by (1 -+ i gamma5)/sqrt(2) *)
Theorem C94_bases : forall L qu x, let P := if Nat.eqb (r qu) 0 then den Pplus else den Pminus in
  deq (Dfree L qu x MAX_TWIST_BASE) (dmul P (dmul (Dfree L qu x WILSON_BASE) P)).
Proof.
  intros L qu x P. unfold Dfree. cbv zeta. set (M := wilson_mass _ _). set (s := fun mu => RtoC (sin (mom L (bc qu) x mu))).
  assert (T : exists tau : R, (if Nat.eqb (r qu) 0 then -1 else 1)%R = tau /\ (tau * tau = 1)%R /\ deq P (dscale (RtoC (1 / sqrt 2)) (dsub did (dscale (Ci * tau) gam5)))).
  { unfold P. destruct (Nat.eqb (r qu) 0).
    - exists (-1)%R. split; [reflexivity|]. split; [ring|]. rewrite (Pplus_val junk0). intros i j _ _. unfold dscale, dadd, dsub, rad2. change (DiracProofs.G junk0 5 i j) with (gam5 i j). replace (RtoC (-1)) with (- RtoC 1)%C by (apply injective_projections; cbn; ring). ring.
    - exists 1%R. split; [reflexivity|]. split; [ring|]. rewrite (Pminus_val junk0). intros i j _ _. unfold dscale, dadd, dsub, rad2. change (DiracProofs.G junk0 5 i j) with (gam5 i j). ring. }
  destruct T as (tau & -> & T & HP). set (q := (1 / sqrt 2)%R) in *.
  assert (Q : (q * q = 1 / 2)%R). { unfold q. pose proof (sqrt_sqrt 2 ltac:(lra)) as S2. assert (sqrt 2 <> 0)%R by (intros E; rewrite E in S2; lra). transitivity (1 / (sqrt 2 * sqrt 2))%R; [field; assumption|rewrite S2; reflexivity]. }
  set (c := mass qu). clearbody q s M c. rewrite HP. clear HP P. rewrite !Dtm_comb. unfold c0_of, c5_of. rewrite RtoC_opp, !RtoC_mult.
  assert (E : forall X : dmat, deq (dmul (dscale q (dsub did (dscale (Ci * tau) gam5))) (dmul X (dscale q (dsub did (dscale (Ci * tau) gam5))))) (dscale (RtoC (1 / 2)) (dmul (dsub did (dscale (Ci * tau) gam5)) (dmul X (dsub did (dscale (Ci * tau) gam5)))))).
  { intros X. generalize (dsub did (dscale (Ci * tau) gam5)). intros A i j _ _. rewrite <- Q, RtoC_mult. unfold dmul, dscale. cbn [csum]. ring. }
  rewrite E. clear E Q q. intros i j Hi Hj. unfold dscale at 3. rewrite (sandwich _ _ i j Hi Hj). 
  assert (Tv : tau = 1%R \/ tau = (-1)%R) by (clear - T; assert (((tau - 1) * (tau + 1) = 0)%R) as F by (ring_simplify; lra); apply Rmult_integral in F; lra).
  revert i j Hi Hj. destruct Tv as [-> | ->]; cases i j; ev; unfold e5; cbn [Nat.ltb Nat.leb]; destruct (s 0%nat) as [a0 b0], (s 1%nat) as [a1 b1], (s 2%nat) as [a2 b2], (s 3%nat) as [a3 b3]; clear; apply injective_projections; cbn; field.
Qed.
Print Assumptions C94_bases.

Lemma zm_or qu x : zero_mode qu x \/ ~ zero_mode qu x.
Proof. rewrite <- zero_mode_dec. match goal with |- ?b = true \/ _ => destruct b end; [now left|right; discriminate]. Qed.
(** C94: the propagator is the inverse of the operator, divided by the volume; in the zero mode of the massless quark it is the value given by the user *)
Theorem C94_propagator : forall L bg prop qu x base V m,
  kappa qu <> 0%R -> (r qu < 2)%nat -> V <> 0%Z -> gammas_at bg m -> bg <> prop ->
  let m' := mom_space_twisted_propagator_of_imom L bg prop qu x base V m in
  (zero_mode qu x -> deq (ss m' prop) (dscale (zmp qu) did)) /\
  (~ zero_mode qu x -> ~ deq (Dfree L qu x base) (fun _ _ => RtoC 0) ->
    deq (dmul (Dfree L qu x base) (ss m' prop)) (dscale (/ IZR V)%R did) /\ deq (dmul (ss m' prop) (Dfree L qu x base)) (dscale (/ IZR V)%R did)) /\
  forall q, ~ in_ss prop q -> m' q = m q.
Proof.
  intros L bg prop qu x base V m K R HV G N m'. destruct (propagator_run L bg prop qu x base V m K R G N) as [A B]. cbv zeta in A, B. fold m' in A, B.
  split; [intros H; now destruct (A H)|]. split.
  - intros Hz Hd. destruct (B Hz) as [Bv _]. set (M := wilson_mass _ _) in *. set (d := (_ + _ + _)%R) in Bv.
    assert (Dn : d <> 0%R). { intros E. apply Hd. apply den_zero. exact E. }
    destruct (D_S base (sgn qu) (mass qu) M (fun mu => RtoC (sin (mom L (bc qu) x mu))) (RtoC (1 / d / IZR V))) as [E1 E2]. rewrite (q_val base (sgn qu) (mass qu) M _ (sgn_sq qu)) in E1, E2.
    assert (Q : RtoC (1 / d / IZR V) * (csum 4 (fun mu => RtoC (sin (mom L (bc qu) x mu)) * RtoC (sin (mom L (bc qu) x mu))) + M * M + mass qu * mass qu) = RtoC (/ IZR V)).
    { assert (Ed : csum 4 (fun mu => RtoC (sin (mom L (bc qu) x mu)) * RtoC (sin (mom L (bc qu) x mu))) + M * M + mass qu * mass qu = RtoC d).
      { unfold d, rsum. cbn [csum seq fold_right]. rewrite !RtoC_plus, !RtoC_mult. ring. }
      rewrite Ed, <- RtoC_mult. f_equal. apply not_0_IZR in HV. field. split; assumption. }
    rewrite Q in E1, E2. rewrite Bv. split; assumption.
  - intros q Q. destruct (zm_or qu x) as [H|H]; [apply (A H); tauto|apply (B H); tauto].
Qed.
Print Assumptions C94_propagator.

(** *** the whole field *)
Lemma field_loop bg out tmp (F : nat -> dmat -> dmat) (body : nat -> mem -> mem) : bg <> tmp -> (forall k, bg <> out@[k]) -> (forall k, tmp <> out@[k]) ->
  (forall k X Y, deq X Y -> deq (F k X) (F k Y)) ->
  (forall k m, gammas_at bg m -> run (in_ss tmp) out@[k] m (body k m) (F k (ss m out@[k]))) ->
  forall sched m, NoDup sched -> gammas_at bg m ->
  (forall k, In k sched -> deq (ss (PAR sched body m) out@[k]) (F k (ss m out@[k]))) /\
  forall q, (forall k, In k sched -> ~ in_ss out@[k] q) -> ~ in_ss tmp q -> PAR sched body m q = m q.
Proof.
  intros N1 N2 N3 Fp B. unfold PAR, run_list. induction sched as [|k0 sched IH]; intros m ND G; [split; [intros k []|reflexivity]|]. apply NoDup_cons_iff in ND. destruct ND as [NI ND]. cbn [fold_left].
  destruct (B k0 m G) as [B1 B2].
  assert (Bg : forall k i, ~ in_ss tmp bg@[k]@[i]) by (intros k i (a & b & _ & _ & E); apply at2_inj in E; tauto).
  assert (Bo : forall k' k i, ~ in_ss out@[k'] bg@[k]@[i]) by (intros k' k i (a & b & _ & _ & E); apply at2_inj in E; destruct E as [E _]; now apply (N2 k')).
  assert (G' : gammas_at bg (body k0 m)) by (intros k i Hk Hi; rewrite B2 by auto; now apply G).
  assert (Oo : forall k k', k <> k' -> forall i j, ~ in_ss out@[k'] out@[k]@[i]@[j]).
  { intros k k' Nk i j (a & b & _ & _ & E). apply at2_inj in E. destruct E as [E _]. unfold at_ in E. congruence. }
  assert (To : forall k i j, ~ in_ss tmp out@[k]@[i]@[j]) by (intros k i j (a & b & _ & _ & E); apply at2_inj in E; destruct E as [E _]; symmetry in E; now apply (N3 k)).
  destruct (IH (body k0 m) ND G') as [I1 I2]. split.
  - intros k [<- | Hk].
    + intros i j Hi Hj. unfold ss at 1. rewrite I2; [now apply B1| |apply To]. intros k' Hk'. apply Oo. intros ->. contradiction.
    + rewrite (I1 k Hk). apply Fp. intros i j Hi Hj. unfold ss. apply B2; [|apply To]. apply Oo. intros ->. contradiction.
  - intros q Q1 Q2. rewrite I2 by (assumption || (intros k Hk; apply Q1; now right)). apply B2; [apply Q1; now left|exact Q2].
Qed.
(** C94: the same for all the momenta of a rank, in whatever order the iterations are executed *)
Theorem C94_field : forall L bg prop tmp qu base V gc n sched m,
  kappa qu <> 0%R -> (r qu < 2)%nat -> V <> 0%Z -> gammas_at bg m -> bg <> tmp -> (forall k, bg <> prop@[k]) -> (forall k, tmp <> prop@[k]) -> Permutation sched (seq 0 n) ->
  let m' := compute_mom_space_twisted_propagator L bg sched gc V prop tmp qu base m in
  (forall k, (k < n)%nat ->
    (zero_mode qu (gc k) -> deq (ss m' prop@[k]) (dscale (zmp qu) did)) /\
    (~ zero_mode qu (gc k) -> ~ deq (Dfree L qu (gc k) base) (fun _ _ => RtoC 0) ->
      deq (dmul (Dfree L qu (gc k) base) (ss m' prop@[k])) (dscale (/ IZR V)%R did) /\ deq (dmul (ss m' prop@[k]) (Dfree L qu (gc k) base)) (dscale (/ IZR V)%R did))) /\
  forall q, (forall k, (k < n)%nat -> ~ in_ss prop@[k] q) -> ~ in_ss tmp q -> m' q = m q.
Proof.
  intros L bg prop tmp qu base V gc n sched m K R HV G N1 N2 N3 P.
  assert (ND : NoDup sched) by (apply (Permutation_NoDup (Permutation_sym P)), seq_NoDup).
  assert (In_s : forall k, In k sched <-> (k < n)%nat). { intros k. split; intros H. - apply (Permutation_in _ P) in H. apply in_seq in H. lia. - apply (Permutation_in _ (Permutation_sym P)). apply in_seq. lia. }
  set (val := fun k => ss (mom_space_twisted_propagator_of_imom L bg tmp qu (gc k) base V m) tmp).
  destruct (field_loop bg prop tmp (fun k _ => val k) (fun k => mom_space_twisted_propagator_of_imom L bg tmp qu (gc k) base V;; spinspin_copy prop@[k] tmp) N1 N2 N3) with (sched := sched) (m := m) as [A B].
  - reflexivity.
  - intros k m0 G0. rewrite then_run. destruct (spinspin_copy_ok prop@[k] tmp (mom_space_twisted_propagator_of_imom L bg tmp qu (gc k) base V m0)) as [C1 C2].
    destruct (propagator_run L bg tmp qu (gc k) base V m0 K R G0 N1) as [P1 P2]. destruct (propagator_run L bg tmp qu (gc k) base V m K R G N1) as [P3 P4]. cbv zeta in P1, P2, P3, P4. split.
    + rewrite C1. unfold val. destruct (zm_or qu (gc k)) as [Hz|Hz]; [destruct (P1 Hz) as [-> _], (P3 Hz) as [-> _]|destruct (P2 Hz) as [-> _], (P4 Hz) as [-> _]]; reflexivity.
    + intros q Q1 Q2. rewrite C2 by tauto. destruct (zm_or qu (gc k)) as [Hz|Hz]; [apply (P1 Hz)|apply (P2 Hz)]; tauto.
  - exact ND.
  - exact G.
  - unfold compute_mom_space_twisted_propagator. split.
    + intros k Hk. apply In_s in Hk. specialize (A k Hk). destruct (C94_propagator L bg tmp qu (gc k) base V m K R HV G N1) as (P1 & P2 & _). cbv zeta in P1, P2. split.
      * intros Hz. rewrite A. now apply P1.
      * intros Hz Hd. rewrite A. now apply P2.
    + intros q Q1 Q2. apply B; [|exact Q2]. intros k Hk. apply Q1, In_s, Hk.
Qed.
Print Assumptions C94_field.
(** C94: the squared propagator: S becomes V S S, so that D D S' = 1/V where D S = S D = 1/V *)
Theorem C94_square : forall bg prop tmp V n sched m, gammas_at bg m -> bg <> tmp -> (forall k, bg <> prop@[k]) -> (forall k, tmp <> prop@[k]) -> V <> 0%Z -> Permutation sched (seq 0 n) ->
  let m' := square_mom_space sched V prop tmp m in
  (forall k, (k < n)%nat -> deq (ss m' prop@[k]) (dscale (IZR V) (dmul (ss m prop@[k]) (ss m prop@[k]))) /\
    forall D, deq (dmul D (ss m prop@[k])) (dscale (/ IZR V)%R did) -> deq (dmul D (dmul D (ss m' prop@[k]))) (dscale (/ IZR V)%R did)) /\
  forall q, (forall k, (k < n)%nat -> ~ in_ss prop@[k] q) -> ~ in_ss tmp q -> m' q = m q.
Proof.
  intros bg prop tmp V n sched m G N1 N2 N3 HV P.
  assert (ND : NoDup sched) by (apply (Permutation_NoDup (Permutation_sym P)), seq_NoDup).
  assert (In_s : forall k, In k sched <-> (k < n)%nat). { intros k. split; intros H. - apply (Permutation_in _ P) in H. apply in_seq in H. lia. - apply (Permutation_in _ (Permutation_sym P)). apply in_seq. lia. }
  destruct (field_loop bg prop tmp (fun _ X => dscale (IZR V) (dmul X X)) (fun imom => safe_spinspin_prod_spinspin prop@[imom] prop@[imom] prop@[imom] tmp;; spinspin_prod_double prop@[imom] prop@[imom] (IZR V)) N1 N2 N3) with (sched := sched) (m := m) as [A B].
  - intros k X Y E. now rewrite E.
  - intros k m0 _. rewrite then_run. destruct (ss_safe _ tmp prop@[k] _ (unsafe_spinspin_prod_spinspin_ok tmp prop@[k] prop@[k] (N3 k) (N3 k)) m0) as [A1 A2].
    destruct (spinspin_prod_double_ok prop@[k] prop@[k] (IZR V) (safe_spinspin_prod_spinspin prop@[k] prop@[k] prop@[k] tmp m0)) as [C1 C2]. split.
    + rewrite C1. unfold safe_spinspin_prod_spinspin. rewrite A1. reflexivity.
    + intros q Q1 Q2. rewrite C2 by tauto. apply A2; assumption.
  - exact ND.
  - exact G.
  - split.
    + intros k Hk. apply In_s in Hk. specialize (A k Hk). split; [exact A|]. intros D HD. change (square_mom_space sched V prop tmp m) with (PAR sched (fun imom => safe_spinspin_prod_spinspin prop@[imom] prop@[imom] prop@[imom] tmp;; spinspin_prod_double prop@[imom] prop@[imom] (IZR V)) m).
      rewrite A. set (S0 := ss m prop@[k]) in *. apply not_0_IZR in HV.
      assert (As : forall X Y Z : dmat, deq (dmul X (dmul Y Z)) (dmul (dmul X Y) Z)) by (intros X Y Z i j _ _; unfold dmul; cbn [csum]; ring).
      assert (H1 : deq (dmul D (dscale (IZR V) (dmul S0 S0))) S0).
      { intros i j Hi Hj. rewrite dm_scr, As by assumption. assert (E : dmul (dmul D S0) S0 i j = dmul (dscale (/ IZR V)%R did) S0 i j) by (apply dmul_proper; [exact HD|reflexivity|exact Hi|exact Hj]).
        rewrite E, dm_scl, dmul_idl by assumption. rewrite Cmult_assoc, <- RtoC_mult, Rinv_r by exact HV. ring. }
      rewrite H1. exact HD.
    + intros q Q1 Q2. apply B; [|exact Q2]. intros k Hk. apply Q1, In_s, Hk.
Qed.
Print Assumptions C94_square.

(** *** Example: a quark of mass 1 antiperiodic in time on a lattice 4x2x2x2: the hypotheses are met, and the operator does not vanish *)
Definition ex_mem : mem := fun p => match p with [i; k; 9%nat] => if Nat.ltb i 4 then entr (base_gamma junk0 k) i else RtoC 0 | _ => RtoC 0 end.
Definition ex_qu : TmQuarkInfo := {| kappa := 1 / 8; mass := 1; bc := fun mu => if Nat.eqb mu 0 then 1 else 0; zmp := 0; r := 1 |}.
Example C94_ex : forall x, let m' := mom_space_twisted_propagator_of_imom (fun mu => if Nat.eqb mu 0 then 4 else 2)%Z [9%nat] [0%nat] ex_qu x MAX_TWIST_BASE 32 ex_mem in
  deq (dmul (Dfree (fun mu => if Nat.eqb mu 0 then 4 else 2)%Z ex_qu x MAX_TWIST_BASE) (ss m' [0%nat])) (dscale (/ 32)%R did).
Proof.
  intros x. destruct (C94_propagator (fun mu => if Nat.eqb mu 0 then 4 else 2)%Z [9%nat] [0%nat] ex_qu x MAX_TWIST_BASE 32 ex_mem) as (_ & H & _).
  - cbn. lra.
  - cbn. lia.
  - discriminate.
  - intros k i Hk Hi. unfold ex_mem, at_. apply Nat.ltb_lt in Hi. now rewrite Hi.
  - discriminate.
  - apply H.
    + intros [[Hm _] _]. change (mass ex_qu) with 1%R in Hm. rewrite Rabs_R1 in Hm. replace (10 ^ 14)%R with 100000000000000%R in Hm by ring. clear - Hm. lra.
    + intros Hd. pose proof (Hd 0%nat 0%nat ltac:(lia) ltac:(lia)) as E. apply (f_equal fst) in E. unfold Dfree, Dtm in E. cbv zeta in E. set (M := wilson_mass _ _) in E. revert E. unfold slash, gam, gam5, den, did. cbn. lra.
Qed.
