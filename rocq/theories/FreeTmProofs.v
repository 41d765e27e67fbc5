From Coq Require Import Reals Lra Lia List ZArith FunctionalExtensionality.
From Coquelicot Require Import Complex.
From Verif Require Import CplxModel CplxSpec CplxProofs CplxStores MatModel MatSpec MatProofs DiracModel DiracSpec DiracProofs SpinModel SpinSpec SpinProofs SpinProofs2 SpinProofs3 FreeTmModel FreeTmSpec.
Import ListNotations.
Open Scope C_scope.
Set Bullet Behavior "Strict Subproofs".

Definition gk (k : nat) : dmat := den (base_gamma junk0 k).
Lemma gperm k : (k < 16)%nat -> perm4 (gpos k).
Proof. intros K. destruct (gamma_valid junk0 k ltac:(lia)) as [V J]. split; [exact V|exact J]. Qed.
Definition run (c : path -> Prop) (out : path) (m0 m : mem) (X : dmat) : Prop := deq (ss m out) X /\ forall q, ~ in_ss out q -> ~ c q -> m q = m0 q.
Lemma bg_out bg out k i : bg <> out -> ~ in_ss out bg@[k]@[i].
Proof. intros N (a & b & _ & _ & E). apply at2_inj in E. tauto. Qed.
Lemma bgk_out bg out k : bg <> out -> forall i, bg@[k] <> out@[i].
Proof. intros N i E. unfold at_ in E. injection E as _ E. tauto. Qed.
Lemma gdm (c : path -> Prop) bg out k m0 m X : (k < 16)%nat -> bg <> out -> (forall i j, ~ c bg@[i]@[j]) -> gammas_at bg m0 -> run c out m0 m X -> deq (dm m bg@[k] (gpos k)) (gk k).
Proof.
  intros K N Nc G [_ F] i j Hi Hj. unfold dm, gk, den. cbn [pos entr]. change (gpos k i) with (pos (base_gamma junk0 k) i). destruct (Nat.eqb _ _); [|reflexivity].
  rewrite F by (apply Nc || now apply bg_out). now apply G.
Qed.
Lemma run_id (c : path -> Prop) bg out k m0 m X (r : R) : (k < 16)%nat -> bg <> out -> (forall i j, ~ c bg@[i]@[j]) -> gammas_at bg m0 -> run c out m0 m X ->
  run c out m0 (spinspin_dirac_summ_the_prod_idouble out bg@[k] (gpos k) r m) (dadd X (dscale (Ci * r) (gk k))).
Proof.
  intros K N Nc G H. pose proof (gdm c bg out k m0 m X K N Nc G H) as E. destruct H as [H F]. destruct (spinspin_dirac_summ_the_prod_idouble_ok out bg@[k] (gpos k) r (gperm k K) (bgk_out bg out k N) m) as [A B].
  split. 2: { intros q Q1 Q2. rewrite B by tauto. now apply F. } rewrite A. rewrite H, E. reflexivity.
Qed.
Lemma run_d (c : path -> Prop) bg out k m0 m X (r : R) : (k < 16)%nat -> bg <> out -> (forall i j, ~ c bg@[i]@[j]) -> gammas_at bg m0 -> run c out m0 m X ->
  run c out m0 (spinspin_dirac_summ_the_prod_double out bg@[k] (gpos k) r m) (dadd X (dscale r (gk k))).
Proof.
  intros K N Nc G H. pose proof (gdm c bg out k m0 m X K N Nc G H) as E. destruct H as [H F]. destruct (spinspin_dirac_summ_the_prod_double_ok out bg@[k] (gpos k) r (gperm k K) (bgk_out bg out k N) m) as [A B].
  split. 2: { intros q Q1 Q2. rewrite B by tauto. now apply F. } rewrite A. rewrite H, E. reflexivity.
Qed.
Lemma run_ext c out m0 m X Y : run c out m0 m X -> deq X Y -> run c out m0 m Y.
Proof. intros [A B] E. split; [now rewrite A|exact B]. Qed.

(** the combination a_0 gamma_0 + ... + a_3 gamma_3 + a_5 gamma_5 *)
Definition comb (a : nat -> C) (a5 : C) : dmat := fun i j => slash a i j + a5 * gam5 i j.
Ltac cases i j := let Hi := fresh in let Hj := fresh in intros i j Hi Hj;
  destruct i as [|[|[|[|i]]]]; [| | | |exfalso; clear - Hi; lia]; (destruct j as [|[|[|[|j]]]]; [| | | |exfalso; clear - Hj; lia]); clear Hi Hj.
Definition sqs (a : nat -> C) (a5 : C) : C := a 0%nat * a 0%nat + a 1%nat * a 1%nat + a 2%nat * a 2%nat + a 3%nat * a 3%nat + a5 * a5.
Ltac ev := unfold comb, slash, gam, gam5, den, dmul, dscale, did, dadd, dsub; cbn [csum iGammaOfMu nth base_gamma base_gamma_table Nat.ltb Nat.leb Nat.eqb init_dirac pos entr].
Lemma comb_sq a a5 : deq (dmul (comb a a5) (comb a a5)) (dscale (sqs a a5) did).
Proof.
  cases i j; ev; unfold sqs; destruct (a 0%nat) as [a0 b0], (a 1%nat) as [a1 b1], (a 2%nat) as [a2 b2], (a 3%nat) as [a3 b3], a5 as [x5 y5]; apply injective_projections; cbn; ring.
Qed.

(** *** the scalars *)
Lemma mom_eq L th x mu : mom_of L th x mu = mom L th x mu.
Proof. unfold mom_of, mom. replace (2 * PI * (IZR (x mu) + th mu / 2))%R with (PI * (2 * IZR (x mu) + th mu))%R by field. reflexivity. Qed.
Lemma cos_half p : cos p = (1 - 2 * (sin (p / 2) * sin (p / 2)))%R.
Proof. replace p with (2 * (p / 2))%R at 1 by field. rewrite cos_2a_sin. ring. Qed.
Lemma components L qu x : exists s s2 s2h, get_component L qu x = (s, s2, s2h) /\ (forall mu, (mu < 4)%nat -> s mu = sin (mom L (bc qu) x mu)) /\
  s2 = rsum 4 (fun mu => (sin (mom L (bc qu) x mu) * sin (mom L (bc qu) x mu))%R) /\
  (kappa qu <> 0 -> m0_of_kappa (kappa qu) + 2 * s2h = wilson_mass (kappa qu) (fun mu => cos (mom L (bc qu) x mu)))%R.
Proof.
  unfold get_component. cbn [seq fold_left Nat.eqb]. do 3 eexists. split; [reflexivity|]. split; [|split].
  - intros mu Hmu. destruct mu as [|[|[|[|mu]]]]; [| | | |lia]; cbn [Nat.eqb]; now rewrite mom_eq.
  - unfold rsum, sqr. cbn [seq fold_right]. rewrite !mom_eq. ring.
  - intros K. unfold m0_of_kappa, wilson_mass, rsum, sqr. cbn [seq fold_right]. rewrite !mom_eq. rewrite (cos_half (mom L (bc qu) x 0)), (cos_half (mom L (bc qu) x 1)), (cos_half (mom L (bc qu) x 2)), (cos_half (mom L (bc qu) x 3)). field. exact K.
Qed.
Lemma tau_eq qu : (r qu < 2)%nat -> tau3 (r qu) = (if Nat.eqb (r qu) 0 then -1 else 1)%R.
Proof. intros H. unfold tau3. destruct (r qu) as [|[|n]]; [reflexivity|reflexivity|lia]. Qed.
Definition sgn (qu : TmQuarkInfo) : R := if Nat.eqb (r qu) 0 then -1 else 1.
Lemma sgn_sq qu : (sgn qu * sgn qu = 1)%R. Proof. unfold sgn. destruct (Nat.eqb _ _); ring. Qed.

(** what the four additions in the directions do *)
Lemma run_dirs (c : path -> Prop) bg out m0 m X (s : nat -> R) : bg <> out -> (forall i j, ~ c bg@[i]@[j]) -> gammas_at bg m0 -> run c out m0 m X ->
  run c out m0 (unroll_for 0 4 (fun mu => spinspin_dirac_summ_the_prod_idouble out bg@[iGammaOfMu mu] (gpos (iGammaOfMu mu)) (s mu)) m) (dadd X (dscale Ci (slash (fun mu => RtoC (s mu))))).
Proof.
  intros N Nc G H. unfold unroll_for. cbn [Nat.sub seq fold_left]. cbn [iGammaOfMu nth].
  pose proof (run_id c bg out 4 m0 m X (s 0%nat) ltac:(lia) N Nc G H) as H0.
  pose proof (run_id c bg out 1 m0 _ _ (s 1%nat) ltac:(lia) N Nc G H0) as H1.
  pose proof (run_id c bg out 2 m0 _ _ (s 2%nat) ltac:(lia) N Nc G H1) as H2.
  pose proof (run_id c bg out 3 m0 _ _ (s 3%nat) ltac:(lia) N Nc G H2) as H3.
  eapply run_ext; [exact H3|]. intros i j _ _. unfold dadd, dscale, slash, gam, gk. cbn [csum iGammaOfMu nth]. ring.
Qed.
Lemma run_dirs3 (c : path -> Prop) bg out m0 m X (s : nat -> R) : bg <> out -> (forall i j, ~ c bg@[i]@[j]) -> gammas_at bg m0 -> run c out m0 m X ->
  run c out m0 (unroll_for 1 4 (fun mu => spinspin_dirac_summ_the_prod_idouble out bg@[iGammaOfMu mu] (gpos (iGammaOfMu mu)) (s mu)) m)
    (dadd X (dscale Ci (slash (fun mu => if Nat.eqb mu 0 then RtoC 0 else RtoC (s mu))))).
Proof.
  intros N Nc G H. unfold unroll_for. cbn [Nat.sub seq fold_left]. cbn [iGammaOfMu nth].
  pose proof (run_id c bg out 1 m0 _ _ (s 1%nat) ltac:(lia) N Nc G H) as H1.
  pose proof (run_id c bg out 2 m0 _ _ (s 2%nat) ltac:(lia) N Nc G H1) as H2.
  pose proof (run_id c bg out 3 m0 _ _ (s 3%nat) ltac:(lia) N Nc G H2) as H3.
  eapply run_ext; [exact H3|]. intros i j _ _. unfold dadd, dscale, slash, gam, gk. cbn [csum iGammaOfMu nth Nat.eqb]. ring.
Qed.
Lemma slash_ext s s' i j : (forall mu, (mu < 4)%nat -> s mu = s' mu) -> slash s i j = slash s' i j.
Proof. intros H. unfold slash. cbn [csum]. rewrite !H by lia. reflexivity. Qed.

(** *** the operator *)
Lemma operator_run L bg out c qu x base m : kappa qu <> 0%R -> (r qu < 2)%nat -> gammas_at bg m -> bg <> out -> (forall i j, c <> bg@[i]@[j]) -> (forall i j, c <> out@[i]@[j]) ->
  run (eq c) out m (mom_space_twisted_operator_of_imom L bg out c qu x base m) (Dfree L qu x base).
Proof.
  intros K R G N Nc No. unfold mom_space_twisted_operator_of_imom. destruct (components L qu x) as (s & s2 & s2h & -> & Es & _ & EM). specialize (EM K). rewrite EM, !tau_eq by exact R. rewrite !then_run.
  match goal with |- context[spinspin_put_to_diag_double out ?a c] => set (c0 := a) end. match goal with |- context [spinspin_dirac_summ_the_prod_idouble out bg@[5%nat] (gpos 5) ?a] => set (c5 := a) end.
  destruct (spinspin_put_to_diag_double_ok out c0 c No m) as [A B].
  assert (H0 : run (eq c) out m (spinspin_put_to_diag_double out c0 c m) (dscale c0 did)) by (split; [exact A|exact B]).
  assert (Nc' : forall i j, ~ c = bg@[i]@[j]) by exact Nc.
  pose proof (run_dirs (eq c) bg out m _ _ s N Nc' G H0) as H1. pose proof (run_id (eq c) bg out 5 m _ _ c5 ltac:(lia) N Nc' G H1) as H2.
  eapply run_ext; [exact H2|]. intros i j _ _. unfold dadd, dscale, Dfree, Dtm, c0, c5. cbv zeta. change (gk 5) with gam5.
  rewrite (slash_ext (fun mu => RtoC (s mu)) (fun mu => RtoC (sin (mom L (bc qu) x mu)))) by (intros; now rewrite Es).
  change (if Nat.eqb (r qu) 0 then (-1)%R else 1%R) with (sgn qu). destruct base; rewrite ?RtoC_mult, ?RtoC_opp; ring.
Qed.

(** *** the propagator *)
Definition Stm (base : tm_basis_t) (tau m M : R) (s : nat -> C) (k : C) : dmat :=
  match base with
  | WILSON_BASE => fun i j => k * (M * did i j - Ci * slash s i j - Ci * RtoC (tau * m) * gam5 i j)
  | MAX_TWIST_BASE => fun i j => k * (m * did i j - Ci * slash s i j + Ci * RtoC (tau * M) * gam5 i j)
  end.
Definition c0_of (base : tm_basis_t) (m M : R) : R := match base with WILSON_BASE => M | MAX_TWIST_BASE => m end.
Definition c5_of (base : tm_basis_t) (tau m M : R) : C := match base with WILSON_BASE => RtoC (tau * m) | MAX_TWIST_BASE => RtoC (- (tau * M)) end.
Lemma Dtm_comb base tau m M s : deq (Dtm base tau m M s) (dadd (dscale (c0_of base m M) did) (dscale Ci (comb s (c5_of base tau m M)))).
Proof. intros i j _ _. unfold Dtm, dadd, dscale, comb, c0_of, c5_of. destruct base; rewrite ?RtoC_opp; ring. Qed.
Lemma Stm_comb base tau m M s k : deq (Stm base tau m M s k) (dscale k (dsub (dscale (c0_of base m M) did) (dscale Ci (comb s (c5_of base tau m M))))).
Proof. intros i j _ _. unfold Stm, dsub, dscale, comb, c0_of, c5_of. destruct base; rewrite ?RtoC_opp; ring. Qed.
Lemma dmul_idl (X : dmat) : deq (dmul did X) X. Proof. cases i j; unfold dmul, did; cbn [csum Nat.eqb]; ring. Qed.
Lemma dmul_idr (X : dmat) : deq (dmul X did) X. Proof. cases i j; unfold dmul, did; cbn [csum Nat.eqb]; ring. Qed.
Lemma dm_addl (A B X : dmat) i j : dmul (dadd A B) X i j = dmul A X i j + dmul B X i j. Proof. unfold dmul, dadd. cbn [csum]. ring. Qed.
Lemma dm_addr (A B X : dmat) i j : dmul X (dadd A B) i j = dmul X A i j + dmul X B i j. Proof. unfold dmul, dadd. cbn [csum]. ring. Qed.
Lemma dm_subl (A B X : dmat) i j : dmul (dsub A B) X i j = dmul A X i j - dmul B X i j. Proof. unfold dmul, dsub. cbn [csum]. ring. Qed.
Lemma dm_subr (A B X : dmat) i j : dmul X (dsub A B) i j = dmul X A i j - dmul X B i j. Proof. unfold dmul, dsub. cbn [csum]. ring. Qed.
Lemma dm_scl c (A X : dmat) i j : dmul (dscale c A) X i j = c * dmul A X i j. Proof. unfold dmul, dscale. cbn [csum]. ring. Qed.
Lemma dm_scr c (A X : dmat) i j : dmul X (dscale c A) i j = c * dmul X A i j. Proof. unfold dmul, dscale. cbn [csum]. ring. Qed.
Lemma CiCi : (Ci * Ci = - RtoC 1)%C. Proof. apply injective_projections; cbn; ring. Qed.
Lemma plus_minus (c : C) Y (q k : C) : deq (dmul Y Y) (dscale q did) ->
  deq (dmul (dadd (dscale c did) (dscale Ci Y)) (dscale k (dsub (dscale c did) (dscale Ci Y)))) (dscale (k * (c * c + q)) did) /\
  deq (dmul (dscale k (dsub (dscale c did) (dscale Ci Y))) (dadd (dscale c did) (dscale Ci Y))) (dscale (k * (c * c + q)) did).
Proof.
  intros H. split; intros i j Hi Hj.
  - rewrite dm_scr, dm_addl, !dm_subr, !dm_scl, !dm_scr, (dmul_idl did), (dmul_idl Y), (dmul_idr Y), H by assumption. unfold dscale.
    transitivity (k * (c * c * did i j - (Ci * Ci) * (q * did i j))); [ring|rewrite CiCi; ring].
  - rewrite dm_scl, dm_subl, !dm_addr, !dm_scl, !dm_scr, (dmul_idl did), (dmul_idl Y), (dmul_idr Y), H by assumption. unfold dscale.
    transitivity (k * (c * c * did i j - (Ci * Ci) * (q * did i j))); [ring|rewrite CiCi; ring].
Qed.
Lemma D_S base tau m M s k : let q := RtoC (c0_of base m M) * RtoC (c0_of base m M) + sqs s (c5_of base tau m M) in
  deq (dmul (Dtm base tau m M s) (Stm base tau m M s k)) (dscale (k * q) did) /\ deq (dmul (Stm base tau m M s k) (Dtm base tau m M s)) (dscale (k * q) did).
Proof.
  intros q. destruct (plus_minus (c0_of base m M) (comb s (c5_of base tau m M)) (sqs s (c5_of base tau m M)) k (comb_sq _ _)) as [A B].
  rewrite Dtm_comb, Stm_comb. split; assumption.
Qed.
Lemma q_val base tau m M s : (tau * tau = 1)%R -> RtoC (c0_of base m M) * RtoC (c0_of base m M) + sqs s (c5_of base tau m M) = csum 4 (fun mu => s mu * s mu) + M * M + m * m.
Proof.
  intros T. unfold sqs, c0_of, c5_of. cbn [csum]. destruct base; rewrite <- ?RtoC_mult; [replace (tau * m * (tau * m))%R with ((tau * tau) * (m * m))%R by ring|replace (- (tau * M) * - (tau * M))%R with ((tau * tau) * (M * M))%R by ring]; rewrite T, Rmult_1_l, ?RtoC_mult; ring.
Qed.

(** the operator vanishes when all of the terms do *)
Lemma den_zero L qu x base : (rsum 4 (fun mu => (sin (mom L (bc qu) x mu) * sin (mom L (bc qu) x mu))%R) + wilson_mass (kappa qu) (fun mu => cos (mom L (bc qu) x mu)) * wilson_mass (kappa qu) (fun mu => cos (mom L (bc qu) x mu)) + mass qu * mass qu = 0)%R ->
  deq (Dfree L qu x base) (fun _ _ => RtoC 0).
Proof.
  unfold rsum. cbn [seq fold_right]. intros H. set (M := wilson_mass _ _) in *.
  assert (Z0 : (sin (mom L (bc qu) x 0) = 0)%R) by (clear - H; nra). assert (Z1 : (sin (mom L (bc qu) x 1) = 0)%R) by (clear - H; nra). assert (Z2 : (sin (mom L (bc qu) x 2) = 0)%R) by (clear - H; nra).
  assert (Z3 : (sin (mom L (bc qu) x 3) = 0)%R) by (clear - H; nra). assert (ZM : M = 0%R) by (clear - H; nra). assert (Zm : mass qu = 0%R) by (clear - H; nra).
  intros i j _ _. unfold Dfree, Dtm, slash. cbv zeta. fold M. rewrite Zm, ZM. cbn [csum]. rewrite Z0, Z1, Z2, Z3. destruct base; rewrite !Rmult_0_r; ring.
Qed.

(** the zero mode *)
Lemma below_iff y t : below y t = true <-> (Rabs y < t)%R.
Proof. unfold below. destruct (Rlt_dec _ _); split; intros; try reflexivity; try assumption; [discriminate|contradiction]. Qed.
Lemma zero_mode_dec qu x :
  let zmp_here := fold_left (fun z mu => z && below (bc qu mu) (/ 10 ^ 14))%bool (seq 0 4) (below (mass qu) (/ 10 ^ 14) && below (kappa qu - 1 / 8) (/ 10 ^ 14))%bool in
  let zm_time := Z.eqb (x 0%nat) 0 in
  let zm_spat := fold_left (fun z mu => z && Z.eqb (x mu) 0)%bool (seq 1 3) true in
  (if zmp_here then (zm_time && zm_spat)%bool else false) = true <-> zero_mode qu x.
Proof.
  cbv zeta. cbn [seq fold_left]. unfold zero_mode. rewrite <- !below_iff.
  match goal with |- context[if ?b then _ else _] => set (b0 := b) end.
  assert (E : (if b0 then (x 0%nat =? 0)%Z && (true && (x 1%nat =? 0)%Z && (x 2%nat =? 0)%Z && (x 3%nat =? 0)%Z) else false)%bool = (b0 && ((x 0%nat =? 0)%Z && (true && (x 1%nat =? 0)%Z && (x 2%nat =? 0)%Z && (x 3%nat =? 0)%Z)))%bool) by (destruct b0; reflexivity).
  rewrite E. unfold b0. rewrite !Bool.andb_true_iff, !Z.eqb_eq. split.
  - intros H. split; [tauto|]. intros mu Hmu. rewrite <- below_iff. destruct mu as [|[|[|[|mu]]]]; [tauto|tauto|tauto|tauto|lia].
  - intros [H1 H2]. assert (H0 := H2 0%nat ltac:(lia)). assert (H3 := H2 1%nat ltac:(lia)). assert (H4 := H2 2%nat ltac:(lia)). assert (H5 := H2 3%nat ltac:(lia)). rewrite <- below_iff in H0, H3, H4, H5. tauto.
Qed.
Lemma zero_run bg out m (z : R) : gammas_at bg m -> bg <> out ->
  run (fun _ => False) out m (for_spin (fun ig => complex_prod_double out@[ig]@[gpos 0 ig] bg@[0%nat]@[ig] z) (spinspin_put_to_zero out m)) (dscale z did).
Proof.
  intros G N. destruct (spinspin_put_to_zero_ok out m) as [Z1 Z2]. set (m1 := spinspin_put_to_zero out m) in *.
  destruct (sv_loop_gen (fun ig => complex_prod_double out@[ig]@[gpos 0 ig] bg@[0%nat]@[ig] z) (fun i => out@[i]@[i]) (fun i m => (m bg@[0%nat]@[i] * z)%C)) with (m := m1) as [H1 H2].
  - intros i Hi. assert (E : gpos 0 i = i) by (destruct i as [|[|[|[|i]]]]; [reflexivity|reflexivity|reflexivity|reflexivity|lia]). rewrite E. apply complex_prod_double_ok; exact [] || exact 0%R || assumption.
  - intros i i' Hi Hi' Hn. split; [unfold at_; congruence|]. intros. rewrite upd_other; [reflexivity|]. intros E. apply at2_inj in E. tauto.
  - split.
    + intros i j Hi Hj. unfold ss, dscale, did. destruct (Nat.eqb_spec i j) as [<-|E].
      * rewrite H1 by exact Hi. rewrite Z2 by (tauto || now apply bg_out). rewrite G by lia. rewrite Cmult_comm. f_equal. destruct i as [|[|[|[|i]]]]; [reflexivity|reflexivity|reflexivity|reflexivity|lia].
      * rewrite H2; [pose proof (Z1 i j Hi Hj) as Z; unfold ss in Z; rewrite Z; ring|]. intros k Hk F. apply at2_inj in F. destruct F as (_ & -> & ->). congruence.
    + intros q Hq _. rewrite H2; [apply Z2; [exact Hq|tauto]|]. intros i Hi ->. apply Hq. exists i, i. auto.
Qed.
Lemma propagator_run L bg out qu x base V m : kappa qu <> 0%R -> (r qu < 2)%nat -> gammas_at bg m -> bg <> out ->
  let M := wilson_mass (kappa qu) (fun mu => cos (mom L (bc qu) x mu)) in
  let den := (rsum 4 (fun mu => (sin (mom L (bc qu) x mu) * sin (mom L (bc qu) x mu))%R) + M * M + mass qu * mass qu)%R in
  let m' := mom_space_twisted_propagator_of_imom L bg out qu x base V m in
  (zero_mode qu x -> run (fun _ => False) out m m' (dscale (zmp qu) did)) /\
  (~ zero_mode qu x -> run (fun _ => False) out m m' (Stm base (sgn qu) (mass qu) M (fun mu => RtoC (sin (mom L (bc qu) x mu))) (RtoC (1 / den / IZR V)))).
Proof.
  intros K R G N M den. unfold mom_space_twisted_propagator_of_imom. destruct (components L qu x) as (s & s2 & s2h & -> & Es & E2 & EM). specialize (EM K). rewrite EM, !tau_eq by exact R.
  rewrite E2. fold M. cbv zeta. unfold sqr. fold den. pose proof (zero_mode_dec qu x) as ZM. cbv zeta in ZM. rewrite !then_run.
  match goal with |- context[if ?b then for_spin ?f else _] => set (bz := b) end. fold bz in ZM. split; intros Hz.
  - destruct bz; [|apply ZM in Hz; discriminate]. now apply zero_run.
  - destruct bz; [exfalso; now apply Hz, ZM|]. rewrite !then_run. destruct (spinspin_put_to_zero_ok out m) as [Z1 Z2].
    assert (H0 : run (fun _ => False) out m (spinspin_put_to_zero out m) (fun _ _ => RtoC 0)) by (split; assumption).
    assert (Nc : forall i j, ~ (fun _ : path => False) bg@[i]@[j]) by tauto.
    pose proof (fun k => run_d _ bg out 0 m _ _ k ltac:(lia) N Nc G H0) as H1. pose proof (fun k => run_dirs _ bg out m _ _ (fun mu => (- s mu * (1 / den / IZR V))%R) N Nc G (H1 k)) as H2. pose proof (fun k k' => run_id _ bg out 5 m _ _ k' ltac:(lia) N Nc G (H2 k)) as H3.
    eapply run_ext; [apply H3|]. intros i j Hi Hj. unfold dadd, dscale. pose proof (gamma_id junk0 i j Hi Hj) as E0. change (gk 0 i j) with (DiracProofs.G junk0 0 i j). rewrite E0. change (gk 5) with gam5.
    rewrite (slash_ext _ (fun mu => - RtoC (1 / den / IZR V) * RtoC (sin (mom L (bc qu) x mu))) i j) by (intros; rewrite Es by assumption; rewrite RtoC_mult, RtoC_opp; ring).
    unfold slash. cbn [csum]. change (if Nat.eqb (r qu) 0 then (-1)%R else 1%R) with (sgn qu). unfold Stm, slash. cbn [csum]. destruct base; rewrite ?RtoC_mult, ?RtoC_opp; ring.
Qed.
