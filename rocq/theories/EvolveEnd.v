From Coq Require Import Reals Lra Lia List.
From Coquelicot Require Import Complex Lim_seq.
From Verif Require Import CplxModel CplxSpec CplxProofs CplxStores MatModel MatSpec MatProofs MatRun MatProofs2 MatProofs3 MatProofs4 MatAlg ExpModel ExpSpec ExpAlg ExpVal ExpTrig ExpMain EvolveModel EvolveSpec EvolveProofs EvolveMain.
Import ListNotations.
Open Scope R_scope.
Set Bullet Behavior "Strict Subproofs".

Section End_.
Variables (n : nat) (gauge quark : field -> field).
Hypothesis (HG : of_links n gauge) (HQ : of_links n quark).
Notation runi := (runi gauge quark). Notation runs := (runs gauge quark). Notation alongv := (alongv n gauge quark).
Notation integ := (Omelyan_integrator_no_projection n gauge quark).
Lemma integ_state traj nmd nsub m : seqv n (state (integ traj nmd nsub m)) (runs (schedule traj nmd nsub) (state m)).
Proof. rewrite integ_sched. now apply steps_state. Qed.
Lemma every_proper (P : cmat -> Prop) a b : (forall x y, meq x y -> P x -> P y) -> feq n a b -> every_link n P a -> every_link n P b.
Proof. intros HP E A iv mu H1 H2. apply (HP _ _ (E iv mu H1 H2)). now apply A. Qed.
Theorem reversible traj nmd nsub m m1 :
  every_link n hermitian_traceless (load m v_H) -> exact_along n gauge quark (schedule traj nmd nsub) m -> momenta_reversed n (integ traj nmd nsub m) m1 ->
  feq n (load (integ traj nmd nsub m1) v_conf) (load m v_conf) /\ feq n (load (integ traj nmd nsub m1) v_H) (fneg (load m v_H)).
Proof.
  intros H A [B1 B2]. set (l := schedule traj nmd nsub) in *.
  pose proof (runs_back n gauge quark HG HQ l (state m) H (exact_alongv n gauge quark HG HQ l m A)) as E. unfold l in E at 1. rewrite schedule_pal in E.
  assert (S1 : seqv n (state m1) (R_ (runs l (state m)))).
  { pose proof (integ_state traj nmd nsub m) as [I1 I2]. split; [eapply feq_trans; [exact B2|exact I1]|]. eapply feq_trans; [exact B1|]. 
    intros iv mu H1 H2. apply mscale_proper'. now apply I2. }
  pose proof (seqv_trans _ _ _ _ (integ_state traj nmd nsub m1) (seqv_trans _ _ _ _ (runs_proper n gauge quark HG HQ l _ _ S1) E)) as [F1 F2].
  split; assumption.
Qed.
Theorem momenta_ht traj nmd nsub m : every_link n hermitian_traceless (load m v_H) -> every_link n hermitian_traceless (load (integ traj nmd nsub m) v_H).
Proof.
  intros H. apply (every_proper _ (snd (runs (schedule traj nmd nsub) (state m)))); [apply ht_proper|apply feq_sym, integ_state|]. now apply runs_ht.
Qed.
Theorem links_su traj nmd nsub m : every_link n hermitian_traceless (load m v_H) -> every_link n special_unitary (load m v_conf) ->
  exact_along n gauge quark (schedule traj nmd nsub) m -> every_link n special_unitary (load (integ traj nmd nsub m) v_conf).
Proof.
  intros H U A. apply (every_proper _ (fst (runs (schedule traj nmd nsub) (state m)))); [|apply feq_sym, integ_state|].
  - intros x y E. now rewrite E.
  - apply runs_su; [exact H|exact U|]. now apply exact_alongv.
Qed.

(** ** sums of the steps *)
Definition dG (i : step) := match i with KickGauge dt => dt | _ => 0 end.
Definition dQ (i : step) := match i with KickQuark dt => dt | _ => 0 end.
Fixpoint total (d : step -> R) (l : list step) : R := match l with [] => 0 | i :: l' => d i + total d l' end.
Lemma total_app d l l' : total d (l ++ l') = total d l + total d l'.
Proof. induction l as [|i l IH]; cbn [app total]; [ring|]. rewrite IH. ring. Qed.
Lemma total_flat d (L : nat -> list step) c k s : (forall i, (s <= i < s + k)%nat -> total d (L i) = c) -> total d (flat_map L (seq s k)) = INR k * c.
Proof.
  revert s. induction k as [|k IH]; intros s H; [cbn; ring|]. cbn [seq flat_map]. rewrite total_app, H, IH, S_INR by (intros; apply H || lia; lia). ring.
Qed.
Lemma total_omelyan d kick move dt k z : (forall t, d (kick t) = z * t) -> (1 <= k)%nat ->
  total d (omelyan kick move dt k) = z * (INR k * dt) + INR (2 * k) * total d move.
Proof.
  intros Hz Hk. destruct k as [|k]; [lia|]. unfold omelyan. cbn [total]. rewrite Hz.
  replace (S k) with (k + 1)%nat by lia. rewrite seq_app, flat_map_app, total_app.
  rewrite (total_flat d _ (2 * total d move + z * dt) k 0).
  - cbn [Nat.add seq flat_map]. rewrite app_nil_r, total_app. cbn [total]. rewrite total_app. cbn [total]. rewrite !Hz.
    replace (Nat.eqb k (k + 1 - 1)) with true by (symmetry; apply Nat.eqb_eq; lia). rewrite mult_INR, plus_INR. cbn [INR]. ring.
  - intros i Hi. rewrite total_app. cbn [total]. rewrite total_app. cbn [total]. rewrite !Hz.
    replace (Nat.eqb i (k + 1 - 1)) with false by (symmetry; apply Nat.eqb_neq; lia). ring.
Qed.
Lemma total_G traj nmd nsub : (1 <= nmd)%nat -> (1 <= nsub)%nat -> total dG (schedule traj nmd nsub) = traj.
Proof.
  intros H1 H2. unfold schedule. destruct nmd as [|k]; [lia|]. set (nmd := S k) in *. cbv zeta.
  rewrite (total_omelyan dG KickQuark _ _ nmd 0) by (intros; cbn; lra || lia). unfold gauge_schedule. cbv zeta.
  rewrite (total_omelyan dG KickGauge _ _ nsub 1) by (intros; cbn; lra || lia). cbn [total dG]. rewrite !mult_INR. cbn [INR].
  field. split; apply not_0_INR; lia.
Qed.
Lemma total_Q traj nmd nsub : (1 <= nmd)%nat -> (1 <= nsub)%nat -> total dQ (schedule traj nmd nsub) = traj.
Proof.
  intros H1 H2. unfold schedule. destruct nmd as [|k]; [lia|]. set (nmd := S k) in *. cbv zeta.
  rewrite (total_omelyan dQ KickQuark _ _ nmd 1) by (intros; cbn; lra || lia). unfold gauge_schedule. cbv zeta.
  rewrite (total_omelyan dQ KickGauge _ _ nsub 0) by (intros; cbn; lra || lia). cbn [total dQ]. rewrite !mult_INR. cbn [INR].
  field. repeat split; apply not_0_INR; lia.
Qed.
Notation constant_force := (constant_force n).
Lemma runs_const KG KQ l s : constant_force gauge KG -> constant_force quark KQ ->
  every_link n hermitian_traceless (snd s) -> every_link n special_unitary (fst s) -> alongv P_exact l s ->
  feq n (snd (runs l s)) (fun iv mu => msub (msub (snd s iv mu) (mscale (Ci * RtoC (total dG l))%C (KG iv mu))) (mscale (Ci * RtoC (total dQ l))%C (KQ iv mu))).
Proof.
  intros CG CQ. revert s. induction l as [|i l IH]; intros s H U A.
  - intros iv mu _ _ i j _ _. cbn [total]. unfold msub, mscale. cbn [EvolveMain.runs fold_left]. apply injective_projections; cbn; ring.
  - pose proof (runs_su n gauge quark [i] s H U (conj (proj1 A) I)) as U1. pose proof (runi_ht n gauge quark i s H) as H1'. destruct A as [A1 A2].
    eapply feq_trans; [exact (IH (runi i s) H1' U1 A2)|]. intros iv mu H1 H2 a b Ha Hb.
    destruct i as [dt|dt|dt]; cbn [total dG dQ EvolveMain.runi kickv driftv snd]; unfold msub, mscale.
    + rewrite (CG _ U iv mu H1 H2 a b Ha Hb), !RtoC_plus. ring.
    + rewrite (CQ _ U iv mu H1 H2 a b Ha Hb), !RtoC_plus. ring.
    + rewrite !RtoC_plus. ring.
Qed.
Theorem constant_forces KG KQ traj nmd nsub m : (1 <= nmd)%nat -> (1 <= nsub)%nat -> constant_force gauge KG -> constant_force quark KQ ->
  every_link n hermitian_traceless (load m v_H) -> every_link n special_unitary (load m v_conf) ->
  exact_along n gauge quark (schedule traj nmd nsub) m ->
  feq n (load (integ traj nmd nsub m) v_H) (fun iv mu => msub (load m v_H iv mu) (mscale (Ci * RtoC traj)%C (madd (KG iv mu) (KQ iv mu)))).
Proof.
  intros N1 N2 CG CQ H U A. eapply feq_trans; [apply integ_state|]. eapply feq_trans; [apply (runs_const KG KQ); try assumption; now apply exact_alongv|].
  rewrite total_G, total_Q by assumption. intros iv mu _ _ i j _ _. unfold msub, mscale, madd. cbn [state snd]. ring.
Qed.
(** ** no force: the links rotate *)
Fixpoint ndrift (l : list step) : nat := match l with [] => O | Drift _ :: l' => S (ndrift l') | _ :: l' => ndrift l' end.
Definition drifts (d : R) (l : list step) : Prop := forall dt, In (Drift dt) l -> dt = d.
Lemma runs_free d l s : constant_force gauge (fun _ _ _ _ => RtoC 0) -> constant_force quark (fun _ _ _ _ => RtoC 0) -> drifts d l ->
  every_link n hermitian_traceless (snd s) -> every_link n special_unitary (fst s) -> alongv P_exact l s ->
  feq n (fst (runs l s)) (fun iv mu => mmul (mpow (exv (mscale (RtoC d) (snd s iv mu))) (ndrift l)) (fst s iv mu)).
Proof.
  intros CG CQ. revert s. induction l as [|i l IH]; intros s D H U A.
  - intros iv mu _ _. cbn [ndrift mpow]. rewrite mmul_1_l. reflexivity.
  - pose proof (runs_su n gauge quark [i] s H U (conj (proj1 A) I)) as U1. pose proof (runi_ht n gauge quark i s H) as H1'. destruct A as [A1 A2].
    assert (D' : drifts d l) by (intros dt Hd; apply D; now right).
    assert (HH : feq n (snd (runi i s)) (snd s)).
    { intros iv mu H1 H2 a b Ha Hb. destruct i as [dt|dt|dt]; cbn [EvolveMain.runi kickv driftv snd]; unfold msub, mscale.
      - rewrite (CG _ U iv mu H1 H2 a b Ha Hb). ring.
      - rewrite (CQ _ U iv mu H1 H2 a b Ha Hb). ring.
      - reflexivity. }
    eapply feq_trans; [exact (IH (runi i s) D' H1' U1 A2)|]. intros iv mu H1 H2. 
    rewrite (mpow_proper (ndrift l) _ _ (exv_proper _ _ (mscale_proper' (RtoC d) _ _ (HH iv mu H1 H2)))).
    destruct i as [dt|dt|dt]; cbn [ndrift EvolveMain.runi kickv driftv fst]; [reflexivity|reflexivity|].
    rewrite (D dt (or_introl eq_refl)). rewrite <- mmul_assoc. apply mmul_proper; [|reflexivity].
    clear. generalize (exv (mscale (RtoC d) (snd s iv mu))) as e. intros e. induction (ndrift l) as [|k IH]; cbn [mpow] in *; [rewrite mmul_1_l, mmul_1_r; reflexivity|].
    rewrite mmul_assoc, IH. reflexivity.
Qed.
Lemma ndrift_app l l' : ndrift (l ++ l') = (ndrift l + ndrift l')%nat.
Proof. induction l as [|[]]; cbn; lia. Qed.
Lemma ndrift_flat (L : nat -> list step) c k s : (forall i, ndrift (L i) = c) -> ndrift (flat_map L (seq s k)) = (k * c)%nat.
Proof. intros H. revert s. induction k as [|k IH]; intros s; [reflexivity|]. cbn [seq flat_map]. rewrite ndrift_app, H, IH. lia. Qed.
Lemma ndrift_omelyan kick move dt k : (forall t l, ndrift (kick t :: l) = ndrift l) -> ndrift (omelyan kick move dt k) = (k * (2 * ndrift move))%nat.
Proof.
  intros Hk. unfold omelyan. rewrite Hk. apply ndrift_flat. intros i. rewrite ndrift_app, Hk, ndrift_app, Hk. cbn. lia.
Qed.
Lemma drifts_omelyan d kick move dt k : (forall t t', kick t <> Drift t') -> drifts d move -> drifts d (omelyan kick move dt k).
Proof.
  intros Hk Hm t [E|Hin]; [now apply Hk in E|]. apply in_flat_map in Hin. destruct Hin as (i & _ & Hin).
  apply in_app_or in Hin. destruct Hin as [Hin|[Hin|Hin]]; [now apply Hm|now apply Hk in Hin|].
  apply in_app_or in Hin. destruct Hin as [Hin|[Hin|[]]]; [now apply Hm|now apply Hk in Hin].
Qed.
Lemma schedule_drifts traj nmd nsub : (1 <= nmd)%nat -> ndrift (schedule traj nmd nsub) = (4 * nmd * nsub)%nat /\
  drifts (traj / INR nmd / INR nsub / 2 / 2) (schedule traj nmd nsub).
Proof.
  intros H. unfold schedule. destruct nmd as [|k]; [lia|]. cbv zeta. unfold gauge_schedule. split.
  - rewrite !ndrift_omelyan by reflexivity. cbn [ndrift]. lia.
  - apply drifts_omelyan; [discriminate|]. apply drifts_omelyan; [discriminate|]. intros t [E|[]]. now injection E.
Qed.
End End_.
Lemma eiq_pow_mat x q F k : hermitian_traceless x -> distinct3 q -> roots q (exp_c0 x) (exp_c1 x) ->
  (forall j, (j < 3)%nat -> ev3 (RtoC (q j)) F = eiq (q j)) -> (trace (mmul x x) * RtoC (/ 2))%C = RtoC (exp_c1 x) -> det x = RtoC (exp_c0 x) ->
  exists G, meq (mpow (poly2 x F) k) (poly2 x G) /\ forall j, (j < 3)%nat -> ev3 (RtoC (q j)) G = eiq (INR k * q j).
Proof.
  intros [Hh Ht] Dq Rq Vq T2 D0. induction k as [|k (G & IH1 & IH2)].
  - exists (RtoC 1, RtoC 0, RtoC 0). split.
    + intros i j Hi Hj. cbn [mpow]. unfold poly2, madd, mscale. ring.
    + intros j Hj. cbn [INR]. rewrite Rmult_0_l. unfold eiq. rewrite cos_0, sin_0. unfold ev3. apply injective_projections; cbn; ring.
  - pose proof (exp_ch x (exp_c0 x) (exp_c1 x) Ht T2 D0) as CH. exists (pmul (RtoC (exp_c0 x)) (RtoC (exp_c1 x)) F G). split.
    + cbn [mpow]. rewrite IH1. now apply pmul_mat.
    + intros j Hj. rewrite pmul_ev.
      * rewrite (Vq j Hj), (IH2 j Hj), <- eiq_plus, S_INR. f_equal. ring.
      * rewrite <- !RtoC_mult, <- RtoC_plus. f_equal. now apply roots_cubic.
Qed.
Lemma mexp_sum_0 x k : meq x (fun _ _ => RtoC 0) -> meq (mexp_sum x k) mid.
Proof.
  intros H. induction k as [|k IH]; [reflexivity|]. cbn [mexp_sum]. rewrite IH. intros i j Hi Hj. unfold madd, mscale. cbn [mpow]. 
  unfold mmul. cbn [csum]. rewrite !H by lia. ring.
Qed.
Lemma is_mexp_0 x : meq x (fun _ _ => RtoC 0) -> is_mexp x mid.
Proof.
  intros H i j Hi Hj. split; (eapply is_lim_seq_ext; [intros k; rewrite (mexp_sum_0 x k H i j Hi Hj); reflexivity|apply is_lim_seq_const]).
Qed.
Lemma exp_pow x k : hermitian_traceless x -> P_exact x -> (1 <= k)%nat -> is_mexp (mscale (Ci * RtoC (INR k))%C x) (mpow (exv x) k).
Proof.
  intros H [Z|Z] Hk.
  - destruct (exv_zone x H Z) as (q & Dq & Rq & Vq & _ & T2 & D0).
    destruct (eiq_pow_mat x q (exv_c x) k H Dq Rq Vq T2 D0) as (G & E1 & E2). fold (exv x) in E1.
    set (r := INR k) in *. assert (Hr : r <> 0) by (unfold r; apply not_0_INR; lia).
    destruct G as [[a b] d]. set (G' := ((a, (b * RtoC (/ r))%C, (d * RtoC (/ r) * RtoC (/ r))%C) : C * C * C)).
    set (y := mscale (RtoC r) x).
    assert (Ri : (RtoC (/ r) * RtoC r)%C = RtoC 1) by (rewrite <- RtoC_mult; f_equal; now field).
    assert (Ey : meq (poly2 x (a, b, d)) (poly2 y G')).
    { intros i j Hi Hj. unfold poly2, G', y, madd, mscale, mmul. cbn [csum].
      transitivity (a * mid i j + b * (RtoC (/ r) * RtoC r) * x i j + d * ((RtoC (/ r) * RtoC r) * (RtoC (/ r) * RtoC r)) * (0%R + x i 0%nat * x 0%nat j + x i 1%nat * x 1%nat j + x i 2%nat * x 2%nat j))%C; [rewrite Ri; ring|ring]. }
    apply (is_mexp_proper (mscale Ci y) _ (poly2 y G')).
    + intros i j _ _. unfold y, mscale. ring.
    + rewrite <- Ey. symmetry. exact E1.
    + apply (exp_is y (r * r * r * exp_c0 x) (r * r * exp_c1 x) (fun j => r * q j)).
      * destruct Dq as (D1 & D2 & D3). repeat split; intros E; apply Rmult_eq_reg_l in E; auto.
      * destruct Rq as (S1 & S2 & S3). repeat split; [transitivity (r * (q 0%nat + q 1%nat + q 2%nat)); [ring|rewrite S1; ring]|rewrite S2; ring|rewrite S3; ring].
      * intros j Hj. rewrite <- (E2 j Hj). unfold ev3, G'. rewrite RtoC_mult.
        transitivity (a + b * (RtoC (/ r) * RtoC r) * RtoC (q j) + d * ((RtoC (/ r) * RtoC r) * (RtoC (/ r) * RtoC r)) * (RtoC (q j) * RtoC (q j)))%C; [ring|rewrite Ri; ring].
      * destruct H as [_ Ht]. transitivity (RtoC r * trace x)%C; [unfold y, trace, mscale; cbn [csum]; ring|]. rewrite Ht. ring.
      * rewrite !RtoC_mult, <- T2. unfold y, trace, mmul, mscale. cbn [csum]. ring.
      * rewrite !RtoC_mult, <- D0. unfold y, det, mscale. ring.
  - assert (E : forall j, meq (mpow (exv x) j) mid). { induction j as [|j IH]; cbn [mpow]; [reflexivity|]. rewrite IH, (exv_0 x Z), mmul_1_l. reflexivity. }
    apply (is_mexp_proper (mscale (Ci * RtoC (INR k))%C x) _ mid); [reflexivity|symmetry; apply E|]. apply is_mexp_0. intros i j Hi Hj. unfold mscale. rewrite (Z i j Hi Hj). ring.
Qed.
Theorem free_motion n gauge quark (HG : of_links n gauge) (HQ : of_links n quark) traj nmd nsub m : (1 <= nmd)%nat -> (1 <= nsub)%nat ->
  constant_force n gauge (fun _ _ _ _ => RtoC 0) -> constant_force n quark (fun _ _ _ _ => RtoC 0) ->
  every_link n hermitian_traceless (load m v_H) -> every_link n special_unitary (load m v_conf) ->
  exact_along n gauge quark (schedule traj nmd nsub) m -> let m' := Omelyan_integrator_no_projection n gauge quark traj nmd nsub m in
  feq n (load m' v_H) (load m v_H) /\
  forall ivol mu, (ivol < n)%nat -> (mu < 4)%nat -> exists e, is_mexp (mscale (Ci * RtoC traj)%C (load m v_H ivol mu)) e /\
    meq (load m' v_conf ivol mu) (mmul e (load m v_conf ivol mu)).
Proof.
  intros N1 N2 CG CQ H U A m'. split.
  - eapply feq_trans; [apply (constant_forces n gauge quark HG HQ _ _ traj nmd nsub m N1 N2 CG CQ H U A)|]. intros iv mu _ _ i j _ _. unfold msub, mscale, madd. ring.
  - intros iv mu H1 H2. pose proof (schedule_drifts traj nmd nsub N1) as [ND D]. set (d := traj / INR nmd / INR nsub / 2 / 2) in *.
    pose proof (exact_alongv n gauge quark HG HQ _ m A) as AV.
    exists (mpow (exv (mscale (RtoC d) (load m v_H iv mu))) (4 * nmd * nsub)). split.
    + assert (PE : P_exact (mscale (RtoC d) (load m v_H iv mu))).
      { (* the first step which moves the links *) 
        assert (K : forall l s, alongv n gauge quark P_exact l s -> drifts d l -> (1 <= ndrift l)%nat ->
            every_link n hermitian_traceless (snd s) -> every_link n special_unitary (fst s) -> P_exact (mscale (RtoC d) (snd s iv mu))).
        { induction l as [|i l IH]; intros s Hl Dl Nl Hs Us; [cbn in Nl; lia|]. destruct Hl as [G1 G2].
          destruct i as [dt|dt|dt].
          - assert (E : meq (snd (runi gauge quark (KickGauge dt) s) iv mu) (snd s iv mu)).
            { intros a b Ha Hb. cbn [runi kickv snd]. unfold msub, mscale. rewrite (CG _ Us iv mu H1 H2 a b Ha Hb). ring. }
            apply (P_exact_proper _ _ (mscale_proper' _ _ _ E)). apply IH; [exact G2|intros t Ht; apply Dl; now right|exact Nl|now apply runi_ht|exact Us].
          - assert (E : meq (snd (runi gauge quark (KickQuark dt) s) iv mu) (snd s iv mu)).
            { intros a b Ha Hb. cbn [runi kickv snd]. unfold msub, mscale. rewrite (CQ _ Us iv mu H1 H2 a b Ha Hb). ring. }
            apply (P_exact_proper _ _ (mscale_proper' _ _ _ E)). apply IH; [exact G2|intros t Ht; apply Dl; now right|exact Nl|now apply runi_ht|exact Us].
          - rewrite <- (Dl dt (or_introl eq_refl)). now apply G1. }
        apply (K (schedule traj nmd nsub) (state m)); [exact AV|exact D|rewrite ND; nia|exact H|exact U]. }
      apply (is_mexp_proper (mscale (Ci * RtoC (INR (4 * nmd * nsub)))%C (mscale (RtoC d) (load m v_H iv mu))) _ (mpow (exv (mscale (RtoC d) (load m v_H iv mu))) (4 * nmd * nsub))); [|reflexivity|].
      * intros i j _ _. unfold mscale. replace traj with (INR (4 * nmd * nsub) * d); [rewrite RtoC_mult; ring|].
        unfold d. rewrite !mult_INR. cbn [INR]. field. split; apply not_0_INR; lia.
      * apply exp_pow; [now apply ht_neg, H|exact PE|nia].
    + pose proof (runs_free n gauge quark d (schedule traj nmd nsub) (state m) CG CQ D H U AV iv mu H1 H2) as E. rewrite ND in E.
      pose proof (integ_state n gauge quark HG HQ traj nmd nsub m) as [I1 _]. rewrite (I1 iv mu H1 H2 : meq (load m' v_conf iv mu) _). exact E.
Qed.
