(** C97: fields of photons: the propagator of all the momenta, its application and its square root; the energy of a gluon. *)
From Coq Require Import Reals Lra Lia List ZArith Permutation FunctionalExtensionality.
From Coquelicot Require Import Complex.
From Verif Require Import CplxModel CplxSpec CplxProofs CplxStores MatModel MatSpec MatProofs DiracModel DiracSpec DiracProofs SpinModel SpinSpec SpinProofs SpinProofs2 SpinProofs3 ParLoop StagModel FreeTmModel FreeTmSpec FreeTmProofs GluonModel GluonSpec GluonProofs GluonStore Prop_Gluon.
Import ListNotations.
Open Scope R_scope.
Set Bullet Behavior "Strict Subproofs".

Definition bodyf (body : nat -> option (mem -> mem)) (k : nat) : mem -> mem := match body k with Some f => f | None => fun m => m end.
Lemma par_opt body sched : (forall k, In k sched -> exists f, body k = Some f) -> exists F, PAR_opt sched body = Some F /\ forall m, F m = run_list (bodyf body) sched m.
Proof.
  induction sched as [|k ks IH]; intros H; [exists (fun m => m); split; reflexivity|]. destruct (H k (or_introl eq_refl)) as [f Ef]. destruct IH as (F & EF & R); [intros k' Hk'; apply H; now right|].
  exists (f;; F). cbn [PAR_opt]. rewrite Ef, EF. split; [reflexivity|]. intros m. rewrite then_run, R. unfold run_list. cbn [fold_left]. unfold bodyf at 3. now rewrite Ef.
Qed.
Lemma perm_facts sched n : Permutation sched (seq 0 n) -> NoDup sched /\ forall k, In k sched <-> (k < n)%nat.
Proof.
  intros P. split; [apply (Permutation_NoDup (Permutation_sym P)), seq_NoDup|]. intros k. split; intros H.
  - apply (Permutation_in _ P) in H. apply in_seq in H. lia.
  - apply (Permutation_in _ (Permutation_sym P)). apply in_seq. lia.
Qed.
Definition coulomb_ok (gl : gauge_info) : Prop := which_gauge gl = COULOMB -> c1 gl = 0.
Lemma single L V prop gl x f : coulomb_ok gl -> mom_space_tlSym_gauge_propagator_of_imom L V prop gl x = Some f -> sets_ss f prop (fun _ mu nu => RtoC (Pval L V gl x mu nu)).
Proof. intros C E. destruct (propagator_run L V prop gl x) as (g & Eg & S); [intros G; left; auto|]. rewrite E in Eg. injection Eg as ->. exact S. Qed.

Lemma at1_inj (a b : path) i j : a@[i] = b@[j] -> a = b /\ i = j.
Proof. unfold at_. intros H. injection H as -> ->. auto. Qed.

(** C97: the field of the propagators, in any order of the iterations *)
Theorem C97_field : forall L V gc prop temp gl n sched m, coulomb_ok gl -> (forall k, temp <> prop@[k]) -> Permutation sched (seq 0 n) ->
  exists F, compute_mom_space_tlSym_gauge_propagator L V sched gc prop temp gl = Some F /\
  (forall k f p m0, (k < n)%nat -> mom_space_tlSym_gauge_propagator_of_imom L V p gl (gc k) = Some f -> deq (ss (F m) prop@[k]) (ss (f m0) p)) /\
  forall q, (forall k, (k < n)%nat -> ~ in_ss prop@[k] q) -> ~ in_ss temp q -> F m q = m q.
Proof.
  intros L V gc prop temp gl n sched m C N Pm. destruct (perm_facts sched n Pm) as [ND In_s]. unfold compute_mom_space_tlSym_gauge_propagator.
  set (body := fun imom => then_opt (mom_space_tlSym_gauge_propagator_of_imom L V temp gl (gc imom)) (spinspin_copy prop@[imom] temp)).
  assert (Hb : forall k, exists g, body k = Some g /\ forall m, deq (ss (g m) prop@[k]) (fun mu nu => RtoC (Pval L V gl (gc k) mu nu)) /\ forall q, ~ in_ss prop@[k] q -> ~ in_ss temp q -> g m q = m q).
  { intros k. destruct (propagator_run L V temp gl (gc k)) as (f & E & S); [intros G; left; auto|]. exists (f;; spinspin_copy prop@[k] temp). unfold body. rewrite E. split; [reflexivity|]. intros m0. rewrite then_run.
    destruct (spinspin_copy_ok prop@[k] temp (f m0)) as [A B]. destruct (S m0) as [A' B']. split; [rewrite A; exact A'|]. intros q Q1 Q2. rewrite B by tauto. apply B'; tauto. }
  destruct (par_opt body sched) as (F & EF & R); [intros k _; destruct (Hb k) as (g & E & _); now exists g|]. exists F. split; [exact EF|]. rewrite R.
  assert (G : (forall k q, In k sched -> in_ss prop@[k] q -> run_list (bodyf body) sched m q = bodyf body k m q) /\ (forall q, (forall k, In k sched -> ~ in_ss prop@[k] q) -> ~ in_ss temp q -> run_list (bodyf body) sched m q = m q)).
  { apply (par_loop (bodyf body) (fun k => in_ss prop@[k]) (in_ss temp) (fun k m => bodyf body k m)); [exact ND|reflexivity| | | | ].
    - intros k _ m0 q Q1 Q2. destruct (Hb k) as (g & E & S). unfold bodyf. rewrite E. now apply S.
    - intros k k' q _ _ Nk (i & j & _ & _ & E1) (i' & j' & _ & _ & E2). rewrite E1 in E2. apply at2_inj in E2. destruct E2 as [E2 _]. apply at1_inj in E2. tauto.
    - intros k q _ (i & j & _ & _ & E1) (i' & j' & _ & _ & E2). rewrite E1 in E2. apply at2_inj in E2. destruct E2 as [E2 _]. now apply (N k).
    - intros k m0 m1 q _ (i & j & Hi & Hj & ->) _. destruct (Hb k) as (g & E & S). unfold bodyf. rewrite E. change (ss (g m0) prop@[k] i j = ss (g m1) prop@[k] i j). destruct (S m0) as [Q0 _], (S m1) as [Q1 _]. rewrite (Q0 i j Hi Hj), (Q1 i j Hi Hj). reflexivity. }
  destruct G as [G1 G2]. split.
  - intros k f p m0 Hk Ef i j Hi Hj. unfold ss at 1. rewrite (G1 k) by (now apply In_s || (exists i, j; auto)). destruct (Hb k) as (g & E & S). unfold bodyf. rewrite E. change (ss (g m) prop@[k] i j = ss (f m0) p i j).
    rewrite (proj1 (S m)) by assumption. destruct (single L V p gl (gc k) f C Ef m0) as [Q0 _]. rewrite (Q0 i j Hi Hj). reflexivity.
  - intros q Q1 Q2. apply G2; [|exact Q2]. intros k Hk. apply Q1. now apply In_s.
Qed.
Print Assumptions C97_field.

(** a loop which replaces the spin of each site with a function of that site *)
Lemma sv_field out inp (loc : path -> Prop) (body : nat -> mem -> mem) (T : nat -> (nat -> C) -> nat -> C) n sched m :
  (inp = out \/ forall k k' , inp@[k] <> out@[k']) -> (forall k i, ~ loc inp@[k]@[i]) -> (forall k i, ~ loc out@[k]@[i]) ->
  (forall k v v', (forall i, (i < 4)%nat -> v i = v' i) -> forall i, (i < 4)%nat -> T k v i = T k v' i) ->
  (forall k m, (forall i, (i < 4)%nat -> sv (body k m) out@[k] i = T k (sv m inp@[k]) i) /\ forall q, ~ in_sv out@[k] q -> ~ loc q -> body k m q = m q) ->
  Permutation sched (seq 0 n) ->
  (forall k i, (k < n)%nat -> (i < 4)%nat -> sv (run_list body sched m) out@[k] i = T k (sv m inp@[k]) i) /\
  forall q, (forall k, (k < n)%nat -> ~ in_sv out@[k] q) -> ~ loc q -> run_list body sched m q = m q.
Proof.
  intros Al Li Lo Te B Pm. destruct (perm_facts sched n Pm) as [ND In_s].
  assert (G : (forall k q, In k sched -> in_sv out@[k] q -> run_list body sched m q = body k m q) /\ (forall q, (forall k, In k sched -> ~ in_sv out@[k] q) -> ~ loc q -> run_list body sched m q = m q)).
  { apply (par_loop body (fun k => in_sv out@[k]) loc (fun k m => body k m)); [exact ND|reflexivity| | | | ].
    - intros k _ m0 q Q1 Q2. now apply B.
    - intros k k' q _ _ Nk (i & _ & E1) (i' & _ & E2). rewrite E1 in E2. apply at1_inj in E2. destruct E2 as [E2 _]. apply at1_inj in E2. tauto.
    - intros k q _ (i & _ & ->). apply Lo.
    - intros k m0 m1 q _ (i & Hi & ->) H. change (sv (body k m0) out@[k] i = sv (body k m1) out@[k] i). rewrite (proj1 (B k m0)), (proj1 (B k m1)) by assumption. apply Te; [|assumption]. intros j Hj. unfold sv. apply H; [|apply Li].
      intros k' _ Nk (i' & _ & E). apply at1_inj in E. destruct E as [E _]. destruct Al as [-> | Al]; [|now apply (Al k k')]. apply at1_inj in E. destruct E. congruence. }
  destruct G as [G1 G2]. split.
  - intros k i Hk Hi. unfold sv at 1. rewrite (G1 k) by (now apply In_s || (exists i; auto)). now apply B.
  - intros q Q1 Q2. apply G2; [|exact Q2]. intros k Hk. apply Q1. now apply In_s.
Qed.
Lemma dvec_ext X v v' i : (forall j, (j < 4)%nat -> v j = v' j) -> dvec X v i = dvec X v' i.
Proof. intros H. unfold dvec. apply csum_ext. intros j Hj. now rewrite H. Qed.
Lemma dvec_ext_l X Y v i : (i < 4)%nat -> deq X Y -> dvec X v i = dvec Y v i.
Proof. intros Hi H. unfold dvec. apply csum_ext. intros j Hj. now rewrite H. Qed.
Definition PC (L : nat -> Z) (V : Z) (gl : gauge_info) (x : nat -> Z) : dmat := fun mu nu => RtoC (Pval L V gl x mu nu).
Lemma single_run L V prop gl x f m : coulomb_ok gl -> mom_space_tlSym_gauge_propagator_of_imom L V prop gl x = Some f -> deq (ss (f m) prop) (PC L V gl x).
Proof. intros C E. apply (single L V prop gl x f C E). Qed.

Lemma multiply_run L V gc out inp prop tmp gl n sched m : coulomb_ok gl -> prop <> tmp -> (forall k, tmp <> out@[k]) -> (forall i, tmp <> prop@[i]) -> (forall k, tmp <> inp@[k]) -> (forall k i, prop@[i] <> out@[k]) -> (forall k i, prop@[i] <> inp@[k]) ->
  (inp = out \/ forall k k', inp@[k] <> out@[k']) -> Permutation sched (seq 0 n) ->
  exists F, multiply_mom_space_tlSym_gauge_propagator L V sched gc out inp prop tmp gl = Some F /\
  (forall k i, (k < n)%nat -> (i < 4)%nat -> sv (F m) out@[k] i = dvec (PC L V gl (gc k)) (sv m inp@[k]) i) /\
  forall q, (forall k, (k < n)%nat -> ~ in_sv out@[k] q) -> ~ in_ss prop q -> ~ in_sv tmp q -> F m q = m q.
Proof.
  intros C N0 N1 N2 N3 N4 N5 Al Pm. unfold multiply_mom_space_tlSym_gauge_propagator.
  set (body := fun imom => then_opt (mom_space_tlSym_gauge_propagator_of_imom L V prop gl (gc imom)) (safe_spinspin_prod_spin out@[imom] prop inp@[imom] tmp)).
  set (loc := fun q => in_ss prop q \/ in_sv tmp q).
  assert (Li : forall k i, ~ loc inp@[k]@[i]).
  { intros k i [(a & b & _ & _ & E)|(a & _ & E)]; apply at1_inj in E; destruct E as [E _]; [symmetry in E; now apply (N5 k a)|symmetry in E; now apply (N3 k)]. }
  assert (Lo : forall k i, ~ loc out@[k]@[i]).
  { intros k i [(a & b & _ & _ & E)|(a & _ & E)]; apply at1_inj in E; destruct E as [E _]; [symmetry in E; now apply (N4 k a)|symmetry in E; now apply (N1 k)]. }
  assert (Hb : forall k, exists g, body k = Some g /\ forall m, (forall i, (i < 4)%nat -> sv (g m) out@[k] i = dvec (PC L V gl (gc k)) (sv m inp@[k]) i) /\ forall q, ~ in_sv out@[k] q -> ~ loc q -> g m q = m q).
  { intros k. destruct (propagator_run L V prop gl (gc k)) as (f & E & S); [intros G; left; auto|]. exists (f;; safe_spinspin_prod_spin out@[k] prop inp@[k] tmp). unfold body. rewrite E. split; [reflexivity|]. intros m0. destruct (S m0) as [A B].
    unfold safe_spinspin_prod_spin. rewrite !then_run. destruct (spin_copy_ok out@[k] tmp (unsafe_spinspin_prod_spin tmp prop inp@[k] (f m0))) as [C1 C2]. destruct (unsafe_spinspin_prod_spin_ok tmp prop inp@[k] N2 (N3 k) (f m0)) as [D1 D2]. split.
    - intros i Hi. rewrite C1, D1 by assumption. rewrite (dvec_ext_l _ _ _ i Hi A). apply dvec_ext. intros j Hj. unfold sv. apply B; [|tauto]. intros Q. apply (Li k j). now left.
    - intros q Q1 Q2. unfold loc in Q2. rewrite C2 by tauto. rewrite D2 by tauto. apply B; tauto. }
  destruct (par_opt body sched) as (F & EF & R); [intros k _; destruct (Hb k) as (g & E & _); now exists g|]. exists F. split; [exact EF|]. rewrite R.
  destruct (sv_field out inp loc (bodyf body) (fun k v => dvec (PC L V gl (gc k)) v) n sched m Al Li Lo) as [A B].
  - intros k v v' H i Hi. now apply dvec_ext.
  - intros k m0. destruct (Hb k) as (g & E & S). unfold bodyf. rewrite E. apply S.
  - exact Pm.
  - split; [exact A|]. intros q Q1 Q2 Q3. apply B; [exact Q1|]. unfold loc. tauto.
Qed.
(** C97: the application of the propagator to a field, which may be done in place *)
Theorem C97_multiply : forall L V gc out inp prop tmp gl n sched m, coulomb_ok gl -> prop <> tmp -> (forall k, tmp <> out@[k]) -> (forall i, tmp <> prop@[i]) -> (forall k, tmp <> inp@[k]) -> (forall k i, prop@[i] <> out@[k]) -> (forall k i, prop@[i] <> inp@[k]) ->
  (inp = out \/ forall k k', inp@[k] <> out@[k']) -> Permutation sched (seq 0 n) ->
  exists F, multiply_mom_space_tlSym_gauge_propagator L V sched gc out inp prop tmp gl = Some F /\
  (forall k f p m0 mu, (k < n)%nat -> (mu < 4)%nat -> mom_space_tlSym_gauge_propagator_of_imom L V p gl (gc k) = Some f ->
    sv (F m) out@[k] mu = csum 4 (fun nu => ss (f m0) p mu nu * m inp@[k]@[nu])%C) /\
  forall q, (forall k, (k < n)%nat -> ~ in_sv out@[k] q) -> ~ in_ss prop q -> ~ in_sv tmp q -> F m q = m q.
Proof.
  intros L V gc out inp prop tmp gl n sched m C N0 N1 N2 N3 N4 N5 Al Pm. destruct (multiply_run L V gc out inp prop tmp gl n sched m C N0 N1 N2 N3 N4 N5 Al Pm) as (F & E & A & B). exists F. split; [exact E|]. split; [|exact B].
  intros k f p m0 mu Hk Hm Ef. rewrite A by assumption. rewrite <- (dvec_ext_l _ _ _ mu Hm (single_run L V p gl (gc k) f m0 C Ef)). reflexivity.
Qed.
Print Assumptions C97_multiply.

Lemma normalize_run gc photon f gl n sched m : Permutation sched (seq 0 n) ->
  (forall k i, (k < n)%nat -> (i < 4)%nat -> sv (normalize_and_cancel sched gc photon f gl m) photon@[k] i = RtoC (b2R (isNonZeroMode gl (gc k)) * f) * sv m photon@[k] i)%C /\
  forall q, (forall k, (k < n)%nat -> ~ in_sv photon@[k] q) -> normalize_and_cancel sched gc photon f gl m q = m q.
Proof.
  intros Pm. unfold normalize_and_cancel, PAR.
  destruct (sv_field photon photon (fun _ => False) (fun imom => spin_prodassign_double photon@[imom] f;; cancel_if_zero_mode_spin1field photon@[imom] gl (gc imom)) (fun k v i => RtoC (b2R (isNonZeroMode gl (gc k)) * f) * v i)%C n sched m) as [A B]; try tauto.
  - intros k v v' H i Hi. now rewrite H.
  - intros k m0. rewrite then_run. unfold spin_prodassign_double. destruct (spin_prod_double_ok photon@[k] photon@[k] f m0) as [A B].
    pose proof (sv_loop (fun mu => prodassign_bool photon@[k]@[mu] (isNonZeroMode gl (gc k))) photon@[k] (fun m i => b2R (isNonZeroMode gl (gc k)) * sv m photon@[k] i)%C) as H.
    destruct H with (m := spin_prod_double photon@[k] photon@[k] f m0) as [A' B'].
    + intros i _ m1 q. rewrite prodassign_bool_upd. reflexivity.
    + intros i i' m1 v _ _ Nn. unfold sv. rewrite upd_other; [reflexivity|]. unfold at_. congruence.
    + split.
      * intros i Hi. unfold cancel_if_zero_mode_spin1field. change (unroll_for 0 4) with for_spin. rewrite A', A by assumption. rewrite RtoC_mult. ring.
      * intros q Q1 Q2. unfold cancel_if_zero_mode_spin1field. change (unroll_for 0 4) with for_spin. rewrite B' by tauto. apply B; tauto.
  - split; [exact A|]. intros q Q. apply B; tauto.
Qed.
(** C97: between the two Fourier transforms the field is multiplied by V times the propagator: the V cancels the one in the propagator *)
Theorem C97_convolution : forall L V gc out prop tmp gl n sched sched' m, coulomb_ok gl -> prop <> tmp -> (forall k, tmp <> out@[k]) -> (forall i, tmp <> prop@[i]) -> (forall k i, prop@[i] <> out@[k]) ->
  Permutation sched (seq 0 n) -> Permutation sched' (seq 0 n) ->
  exists F, multiply_by_tlSym_gauge_propagator_mom L V sched sched' gc out prop tmp gl = Some F /\
  (forall k f p m0 mu, (k < n)%nat -> (mu < 4)%nat -> mom_space_tlSym_gauge_propagator_of_imom L V p gl (gc k) = Some f ->
    sv (F m) out@[k] mu = RtoC (IZR V) * csum 4 (fun nu => ss (f m0) p mu nu * m out@[k]@[nu]))%C /\
  forall q, (forall k, (k < n)%nat -> ~ in_sv out@[k] q) -> ~ in_ss prop q -> ~ in_sv tmp q -> F m q = m q.
Proof.
  intros L V gc out prop tmp gl n sched sched' m C N0 N1 N2 N4 Pm Pm'. destruct (multiply_run L V gc out out prop tmp gl n sched m C N0 N1 N2 N1 N4 N4 (or_introl eq_refl) Pm) as (F & E & A & B).
  exists (F;; normalize_and_cancel sched' gc out (IZR V) gl). unfold multiply_by_tlSym_gauge_propagator_mom. rewrite E. split; [reflexivity|]. rewrite then_run. destruct (normalize_run gc out (IZR V) gl n sched' (F m) Pm') as [A' B']. split.
  - intros k f p m0 mu Hk Hm Ef. rewrite A', A by assumption. rewrite <- (dvec_ext_l _ _ _ mu Hm (single_run L V p gl (gc k) f m0 C Ef)). change (dvec (ss (f m0) p) (sv m out@[k]) mu) with (csum 4 (fun nu => ss (f m0) p mu nu * m out@[k]@[nu]))%C.
    destruct (isNonZeroMode gl (gc k)) eqn:Z; cbn [b2R]; [rewrite Rmult_1_l; reflexivity|].
    assert (Zr : csum 4 (fun nu => ss (f m0) p mu nu * m out@[k]@[nu])%C = RtoC 0).
    { transitivity (csum 4 (fun _ => RtoC 0)); [|cbn [csum]; ring]. apply csum_ext. intros nu Hn. rewrite (single_run L V p gl (gc k) f m0 C Ef) by assumption. unfold PC, Pval. rewrite Z. ring. }
    rewrite Zr. ring.
  - intros q Q1 Q2 Q3. rewrite B' by assumption. now apply B.
Qed.
Print Assumptions C97_convolution.

Lemma Pval_feyn L V gl x mu nu : (V > 0)%Z -> which_gauge gl = FEYNMAN -> c1 gl = 0 -> (mu < 4)%nat -> (nu < 4)%nat -> Pval L V gl x mu nu = (if Nat.eqb mu nu then Pval L V gl x 0 0 else 0) /\ 0 <= Pval L V gl x 0 0.
Proof.
  intros HV G C H1 H2. assert (VP : 0 < IZR V) by (apply IZR_lt; lia). unfold Pval. destruct (isNonZeroMode gl x); [|split; [destruct (Nat.eqb mu nu); reflexivity|lra]]. rewrite G, C. set (h := khat _). destruct (below _ _) eqn:Bl; [split; [destruct (Nat.eqb mu nu); reflexivity|lra]|].
  assert (P : 0 < s2 h). { destruct (Rle_lt_or_eq_dec 0 (s2 h) (s2_nn h)) as [P|P]; [exact P|]. exfalso. rewrite <- P, !Rabs_R0 in Bl. unfold below in Bl. destruct (Rlt_dec _ _) as [_|N]; [discriminate|]. apply N. rewrite ?Rabs_R0. apply tol_pos. }
  assert (E : forall mu nu, (mu < 4)%nat -> (nu < 4)%nat -> 1 * h mu * h nu + Tw 0 h mu nu = s2 h * dlt mu nu).
  { clear - P. intros mu nu H1 H2. assert (D : Dl 0 h = s2 h * s2 h) by (unfold Dl; ring). rewrite Tw_n, D. assert (T : Tn 0 h mu nu = s2 h * s2 h * (s2 h * dlt mu nu - h mu * h nu)).
    { unfold Tn, An. replace 0 with (0 * 0) at 1 2 by ring. four mu H1; four nu H2; unfold s2, rsum, dlt; cbn [seq fold_right Nat.eqb]; ring. }
    rewrite T. field. lra. }
  rewrite !E by (assumption || lia). unfold dlt. cbn [Nat.eqb]. split; [destruct (Nat.eqb mu nu); [reflexivity|unfold Rdiv; ring]|]. apply Rmult_le_pos; [lra|]. left. apply Rinv_0_lt_compat. apply Rmult_lt_0_compat; [nra|exact VP].
Qed.
(** C97: the stochastic photon, compiled without Eigen: Feynman gauge and Wilson action only; the field is multiplied by the square root of V times the propagator.  [r]: what sqrtf(glbVol) returns *)
Theorem C97_photon : forall L V gc photon prop gl n sched sched' r m, (V > 0)%Z -> (forall k i, prop@[i] <> photon@[k]) -> Permutation sched (seq 0 n) -> Permutation sched' (seq 0 n) ->
  (which_gauge gl <> FEYNMAN \/ c1 gl <> 0 -> multiply_by_sqrt_tlSym_gauge_propagator_mom L V sched sched' gc photon prop r gl = None) /\
  (which_gauge gl = FEYNMAN -> c1 gl = 0 -> exists F, multiply_by_sqrt_tlSym_gauge_propagator_mom L V sched sched' gc photon prop r gl = Some F /\
    (forall k f p m0, (k < n)%nat -> mom_space_tlSym_gauge_propagator_of_imom L V p gl (gc k) = Some f ->
      exists s : R, (0 <= r -> 0 <= s) /\ (forall mu, (mu < 4)%nat -> sv (F m) photon@[k] mu = RtoC s * m photon@[k]@[mu])%C /\
        (r * r = IZR V -> deq (dscale (RtoC (IZR V)) (ss (f m0) p)) (dscale (RtoC (s * s)) did))) /\
    forall q, (forall k, (k < n)%nat -> ~ in_sv photon@[k] q) -> ~ in_ss prop q -> F m q = m q).
Proof.
  intros L V gc photon prop gl n sched sched' r m HV N Pm Pm'. unfold multiply_by_sqrt_tlSym_gauge_propagator_mom, multiply_mom_space_sqrt_tlSym_gauge_propagator. split.
  - intros H. destruct (which_gauge gl); try reflexivity. destruct (Req_EM_T (c1 gl) 0); [|reflexivity]. destruct H; contradiction.
  - intros G C. rewrite G. destruct (Req_EM_T (c1 gl) 0) as [_|X]; [|contradiction]. assert (Co : coulomb_ok gl) by (intros H; congruence).
    set (body := fun imom => then_opt (mom_space_tlSym_gauge_propagator_of_imom L V prop gl (gc imom)) (fun m0 => spin_prod_double photon@[imom] photon@[imom] (sqrt (re m0 prop@[0%nat]@[0%nat])) m0)).
    assert (Lo : forall k i, ~ in_ss prop photon@[k]@[i]).
    { intros k i (a & b & _ & _ & E). apply at1_inj in E. destruct E as [E _]. symmetry in E. now apply (N k a). }
    assert (Hb : forall k, exists g, body k = Some g /\ forall m, (forall i, (i < 4)%nat -> sv (g m) photon@[k] i = RtoC (sqrt (Pval L V gl (gc k) 0 0)) * sv m photon@[k] i)%C /\ forall q, ~ in_sv photon@[k] q -> ~ in_ss prop q -> g m q = m q).
    { intros k. destruct (propagator_run L V prop gl (gc k)) as (f & E & S); [intros G'; left; auto|]. eexists. unfold body. rewrite E. split; [reflexivity|]. intros m0. destruct (S m0) as [A B]. rewrite then_run.
      assert (E0 : re (f m0) prop@[0%nat]@[0%nat] = Pval L V gl (gc k) 0 0) by (unfold re; change ((f m0) prop@[0%nat]@[0%nat]) with (ss (f m0) prop 0%nat 0%nat); rewrite A by lia; reflexivity).
      rewrite E0. destruct (spin_prod_double_ok photon@[k] photon@[k] (sqrt (Pval L V gl (gc k) 0 0)) (f m0)) as [C1 C2]. split.
      - intros i Hi. rewrite C1 by assumption. f_equal. unfold sv. apply B; [apply Lo|tauto].
      - intros q Q1 Q2. rewrite C2 by tauto. apply B; tauto. }
    destruct (par_opt body sched) as (F & EF & R); [intros k _; destruct (Hb k) as (g & E & _); now exists g|]. rewrite EF. cbn [then_opt option_map]. exists (F;; normalize_and_cancel sched' gc photon r gl). split; [reflexivity|].
    destruct (sv_field photon photon (in_ss prop) (bodyf body) (fun k v i => RtoC (sqrt (Pval L V gl (gc k) 0 0)) * v i)%C n sched m (or_introl eq_refl) Lo Lo) as [A B].
    + intros k v v' H i Hi. now rewrite H.
    + intros k m0. destruct (Hb k) as (g & E & S). unfold bodyf. rewrite E. apply S.
    + exact Pm.
    + rewrite then_run. destruct (normalize_run gc photon r gl n sched' (F m) Pm') as [A' B']. split.
      * intros k f p m0 Hk Ef. pose proof (sqrt_pos (Pval L V gl (gc k) 0 0)) as Sp. exists (b2R (isNonZeroMode gl (gc k)) * r * sqrt (Pval L V gl (gc k) 0 0)). split; [|split].
        -- intros Hr. unfold b2R. destruct (isNonZeroMode gl (gc k)); nra.
        -- intros mu Hm. rewrite A' by assumption. rewrite R, A by assumption. rewrite !RtoC_mult. unfold sv. ring.
        -- intros Er i j Hi Hj. unfold dscale, did. rewrite (single_run L V p gl (gc k) f m0 Co Ef) by assumption. unfold PC. destruct (Pval_feyn L V gl (gc k) i j HV G C Hi Hj) as [-> Pp].
           pose proof (sqrt_sqrt _ Pp) as Sq.
           assert (Es : b2R (isNonZeroMode gl (gc k)) * r * sqrt (Pval L V gl (gc k) 0 0) * (b2R (isNonZeroMode gl (gc k)) * r * sqrt (Pval L V gl (gc k) 0 0)) = IZR V * Pval L V gl (gc k) 0 0).
           { unfold b2R. destruct (isNonZeroMode gl (gc k)) eqn:Z; [transitivity ((r * r) * (sqrt (Pval L V gl (gc k) 0 0) * sqrt (Pval L V gl (gc k) 0 0))); [ring|rewrite Sq, Er; reflexivity]|]. assert (Z0 : Pval L V gl (gc k) 0 0 = 0) by (unfold Pval; now rewrite Z). rewrite Z0. ring. }
           rewrite Es. destruct (Nat.eqb i j); rewrite ?RtoC_mult; ring.
      * intros q Q1 Q2. rewrite B' by assumption. rewrite R. now apply B.
Qed.
Print Assumptions C97_photon.

(** C97: the energy of a gluon: E^2 = E_0^2 + virt^2 where E_0 is the only solution E >= 0 of khat^2(k_0 = i E) = 0 *)
Theorem C97_energy : forall L gl virt x, let k := mom L (gbc gl) x in
  (c1 gl <> 0 -> gluon_energy L gl virt x = None) /\
  (c1 gl = 0 -> exists E E0, gluon_energy L gl virt x = Some E /\ 0 <= E /\ 0 <= E0 /\ E * E = E0 * E0 + virt * virt /\
    forall e, 0 <= e -> (khat2_space k - 2 * sinh (e / 2) * (2 * sinh (e / 2)) = 0 <-> e = E0)).
Proof.
  intros L gl virt x k. unfold gluon_energy. split; [intros N; destruct (Req_EM_T _ _); [contradiction|reflexivity]|]. intros C. destruct (Req_EM_T _ _) as [_|N]; [|contradiction].
  set (p2 := fold_left _ _ _). assert (E2 : p2 = khat2_space k) by (unfold p2, khat2_space, khat, sqr, k; cbn [seq fold_left]; rewrite !mom_eq; ring).
  assert (P : 0 <= p2) by (rewrite E2; apply (hs_nn (khat k))). set (E0 := 2 * arcsinh (sqrt p2 / 2)). exists (sqrt (sqr E0 + sqr virt)), E0.
  assert (P0 : 0 <= E0). { unfold E0. pose proof (sqrt_pos p2). assert (0 <= arcsinh (sqrt p2 / 2)); [|lra]. rewrite <- arcsinh_0. destruct (Rle_lt_or_eq_dec 0 (sqrt p2 / 2) ltac:(lra)) as [Hl|He]; [left; now apply arcsinh_lt|right; now rewrite <- He]. }
  split; [reflexivity|]. split; [apply sqrt_pos|]. split; [exact P0|]. split.
  - rewrite sqrt_sqrt; [reflexivity|]. unfold sqr. pose proof (Rle_0_sqr E0). pose proof (Rle_0_sqr virt). unfold Rsqr in *. lra.
  - intros e He. rewrite <- E2. assert (S0 : 2 * sinh (E0 / 2) = sqrt p2). { unfold E0. replace (2 * arcsinh (sqrt p2 / 2) / 2) with (arcsinh (sqrt p2 / 2)) by field. rewrite sinh_arcsinh. field. }
    split.
    + intros H. assert (Sn : 0 <= sinh (e / 2)). { rewrite <- sinh_0. destruct (Rle_lt_or_eq_dec 0 (e / 2) ltac:(lra)) as [Hl|H0]; [left; now apply sinh_lt|right; now rewrite <- H0]. }
      assert (Q : 2 * sinh (e / 2) = sqrt p2). { symmetry. apply sqrt_lem_1; lra. }
      rewrite <- S0 in Q. assert (Q' : sinh (e / 2) = sinh (E0 / 2)) by lra. apply (f_equal arcsinh) in Q'. rewrite !arcsinh_sinh in Q'. lra.
    + intros ->. rewrite S0. rewrite sqrt_sqrt by assumption. ring.
Qed.
Print Assumptions C97_energy.

(** *** Example: photons on the 16 momenta of a rank *)
Example C97_ex : forall m, exists F, multiply_by_sqrt_tlSym_gauge_propagator_mom (fun _ => 2%Z) 16 (seq 0 16) (rev (seq 0 16)) (fun k mu => Z.of_nat (Nat.div k (2 ^ (3 - mu)) mod 2)) [0%nat; 9%nat] [1%nat] 4 (exg FEYNMAN 0) = Some F /\
  sv (F m) [0%nat; 9%nat]@[2%nat] 1%nat = (RtoC (1 / 2) * m [0%nat; 9%nat]@[2%nat]@[1%nat])%C.
Proof.
  intros m. destruct (C97_photon (fun _ => 2%Z) 16 (fun k mu => Z.of_nat (Nat.div k (2 ^ (3 - mu)) mod 2)) [0%nat; 9%nat] [1%nat] (exg FEYNMAN 0) 16 (seq 0 16) (rev (seq 0 16)) 4 m) as [_ H].
  - lia.
  - intros k i. discriminate.
  - apply Permutation_refl.
  - apply Permutation_sym, Permutation_rev.
  - destruct H as (F & E & A & _); [reflexivity|reflexivity|]. exists F. split; [exact E|].
    set (gc := fun k mu => Z.of_nat (Nat.div k (2 ^ (3 - mu)) mod 2)) in *. set (x := gc 2%nat).
    destruct (propagator_run (fun _ => 2%Z) 16 [1%nat] (exg FEYNMAN 0) x) as (f & Ef & S); [discriminate|].
    destruct (A 2%nat f [1%nat] m ltac:(lia) Ef) as (s & Ps & Hs & Q). rewrite Hs by lia. f_equal. f_equal. specialize (Ps ltac:(lra)). specialize (Q ltac:(lra)).
    pose proof (Q 0%nat 0%nat ltac:(lia) ltac:(lia)) as Q0. unfold dscale, did in Q0. cbn [Nat.eqb] in Q0. rewrite (proj1 (S m)) in Q0 by lia.
    assert (M2 : mom (fun _ => 2%Z) (fun _ => 0) x 2 = PI) by (unfold mom, x, gc; cbn; field).
    assert (M0 : forall mu, (mu < 4)%nat -> mu <> 2%nat -> mom (fun _ => 2%Z) (fun _ => 0) x mu = 0) by (intros mu H1 H2; destruct mu as [|[|[|[|mu]]]]; [| |lia| |lia]; unfold mom, x, gc; cbn; field).
    assert (H1 : khat (mom (fun _ => 2%Z) (fun _ => 0) x) 2 = 2) by (unfold khat; rewrite M2, sin_PI2; ring).
    assert (H0 : forall mu, (mu < 4)%nat -> mu <> 2%nat -> khat (mom (fun _ => 2%Z) (fun _ => 0) x) mu = 0) by (intros mu L1 L2; unfold khat; rewrite M0 by assumption; replace (0 / 2) with 0 by field; rewrite sin_0; ring).
    assert (K2 : khat2 (mom (fun _ => 2%Z) (fun _ => 0) x) = 4) by (unfold khat2, rsum; cbn [seq fold_right]; rewrite H1, !H0 by lia; ring).
    assert (Tl : / 10 ^ 14 < 4) by (apply (Rmult_lt_reg_l (10 ^ 14)); [lra|]; rewrite Rinv_r; lra).
    rewrite Pval_good in Q0.
    + change (Gv (exg FEYNMAN 0) (khat (mom (fun _ => 2%Z) (gbc (exg FEYNMAN 0)) x)) 0%nat 0%nat) with (Pc 0 1 (khat (mom (fun _ => 2%Z) (fun _ => 0) x)) 0%nat 0%nat) in Q0.
      assert (P00 : Pc 0 1 (khat (mom (fun _ => 2%Z) (fun _ => 0) x)) 0 0 = / 4).
      { unfold Pc. change (s2 (khat (mom (fun _ => 2%Z) (fun _ => 0) x))) with (khat2 (mom (fun _ => 2%Z) (fun _ => 0) x)). rewrite K2, Tw_n. unfold Dl, Tn, An. change (s2 (khat (mom (fun _ => 2%Z) (fun _ => 0) x))) with (khat2 (mom (fun _ => 2%Z) (fun _ => 0) x)). rewrite K2. unfold rsum, dlt. cbn [seq fold_right Nat.eqb]. rewrite H1, !H0 by lia. field. }
      rewrite P00 in Q0. apply (f_equal fst) in Q0. cbn in Q0. assert (s * s = 1 / 4) by lra. nra.
    + discriminate.
    + exists 2%nat. split; [lia|]. unfold x, gc. cbn. discriminate.
    + unfold regular. cbn [exg which_gauge gbc]. rewrite K2. lra.
Qed.
