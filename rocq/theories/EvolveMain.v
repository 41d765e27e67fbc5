From Coq Require Import Reals Lra Lia List.
From Coquelicot Require Import Complex.
From Verif Require Import CplxModel CplxSpec CplxProofs CplxStores MatModel MatSpec MatProofs MatRun MatProofs2 MatProofs3 MatProofs4 MatAlg ExpModel ExpSpec ExpAlg ExpVal ExpTrig ExpMain EvolveModel EvolveSpec EvolveProofs.
Import ListNotations.
Open Scope R_scope.
Set Bullet Behavior "Strict Subproofs".

(** ** the schedule *)
Section Sched.
Variables (n : nat) (gauge quark : field -> field).
Notation dos := (do_steps n gauge quark).
Lemma dos_app l l' m : dos (l ++ l') m = dos l' (dos l m).
Proof. unfold do_steps. apply fold_left_app. Qed.
Lemma dos_cons i l m : dos (i :: l) m = dos l (do_step n gauge quark i m).
Proof. reflexivity. Qed.
Lemma dos_flat (L : nat -> list step) (body : nat -> mem -> mem) k : (forall i m, body i m = dos (L i) m) ->
  forall m, unroll_for 0 k body m = dos (flat_map L (seq 0 k)) m.
Proof.
  intros H. unfold unroll_for. rewrite Nat.sub_0_r. generalize (seq 0 k) as ks. induction ks as [|i ks IH]; intros m; [reflexivity|].
  cbn [fold_left flat_map]. rewrite dos_app, IH, H. reflexivity.
Qed.
Lemma gauge_sched traj nmd nsub m : Omelyan_pure_gauge_evolver_lx_conf n gauge traj nmd nsub m = dos (gauge_schedule (traj / INR nmd) nsub) m.
Proof.
  unfold Omelyan_pure_gauge_evolver_lx_conf, gauge_schedule, omelyan. cbv zeta. rewrite then_run.
  set (dt := traj / INR nmd / INR nsub / 2). rewrite (Rmult_comm dt omelyan_lambda).
  unfold do_steps. cbn [fold_left do_step]. fold (dos). apply dos_flat. intros i m1. rewrite !then_run. reflexivity.
Qed.
Lemma integ_sched traj nmd nsub m : Omelyan_integrator_no_projection n gauge quark traj nmd nsub m = dos (schedule traj nmd nsub) m.
Proof.
  unfold Omelyan_integrator_no_projection, schedule. destruct nmd as [|k]; [reflexivity|]. set (nmd := S k). unfold omelyan. cbv zeta. rewrite then_run.
  set (dt := traj / INR nmd). rewrite (Rmult_comm dt omelyan_lambda).
  unfold do_steps. cbn [fold_left do_step]. fold (dos). apply dos_flat. intros i m1. rewrite !then_run, !gauge_sched. fold dt.
  rewrite dos_app, dos_cons, dos_app. reflexivity.
Qed.
End Sched.
Lemma omelyan_pal kick move dt k : rev move = move -> rev (omelyan kick move dt k) = omelyan kick move dt k.
Proof.
  intros P. unfold omelyan. destruct k as [|k]; [reflexivity|]. set (l := omelyan_lambda * dt). set (u := (1 - 2 * omelyan_lambda) * dt). set (l2 := 2 * omelyan_lambda * dt).
  set (B := move ++ kick u :: move). assert (PB : rev B = B). { unfold B. rewrite rev_app_distr. cbn [rev]. rewrite P, <- app_assoc. reflexivity. }
  set (M := fun i => _). assert (E : flat_map M (seq 0 (S k)) = flat_map (fun _ => B ++ [kick l2]) (seq 0 k) ++ B ++ [kick l]).
  { replace (S k) with (k + 1)%nat by lia. rewrite seq_app, flat_map_app. cbn [seq flat_map Nat.add]. rewrite app_nil_r. f_equal.
    - rewrite !flat_map_concat_map. f_equal. apply map_ext_in. intros i Hi. apply in_seq in Hi. unfold M, B. replace (Nat.eqb i (S k - 1)) with false by (symmetry; apply Nat.eqb_neq; lia).
      rewrite <- app_assoc. reflexivity.
    - unfold M, B. replace (Nat.eqb k (S k - 1)) with true by (symmetry; apply Nat.eqb_eq; lia). rewrite <- app_assoc. reflexivity. }
  rewrite E. clear E M.
  assert (F : forall j s, rev (flat_map (fun _ => B ++ [kick l2]) (seq s j)) = flat_map (fun _ => kick l2 :: B) (seq 0 j)).
  { induction j as [|j IH]; intros s; [reflexivity|]. cbn [seq flat_map]. rewrite rev_app_distr, IH. rewrite rev_app_distr, PB. cbn [rev app].
    rewrite <- seq_shift. rewrite !flat_map_concat_map, map_map. clear. 
    induction (seq 0 j) as [|i ks IH]; [cbn; rewrite app_nil_r; reflexivity|]. cbn [map concat]. rewrite <- app_assoc, IH. reflexivity. }
  assert (G : forall j s, B ++ flat_map (fun _ => kick l2 :: B) (seq s j) = flat_map (fun _ => B ++ [kick l2]) (seq s j) ++ B).
  { induction j as [|j IH]; intros s; [cbn; rewrite app_nil_r; reflexivity|]. cbn [seq flat_map]. rewrite <- !app_assoc, <- IH. cbn [app]. reflexivity. }
  cbn [rev]. rewrite !rev_app_distr, F, PB. cbn [rev app]. rewrite G, <- app_assoc. reflexivity.
Qed.
Lemma schedule_pal traj nmd nsub : rev (schedule traj nmd nsub) = schedule traj nmd nsub.
Proof. unfold schedule. destruct nmd; [reflexivity|]. apply omelyan_pal, omelyan_pal. reflexivity. Qed.

(** ** memory and values *)
Section Val.
Variables (n : nat) (gauge quark : field -> field).
Hypothesis (HG : of_links n gauge) (HQ : of_links n quark).
Definition runi (i : step) (s : field * field) : field * field := match i with
  | KickGauge dt => kickv gauge dt s | KickQuark dt => kickv quark dt s | Drift dt => driftv dt s end.
Lemma feq_refl a : feq n a a. Proof. intros ? ? _ _. reflexivity. Qed.
Lemma feq_sym a b : feq n a b -> feq n b a. Proof. intros H iv mu H1 H2. symmetry. now apply H. Qed.
Lemma feq_trans a b c : feq n a b -> feq n b c -> feq n a c. Proof. intros H H' iv mu H1 H2. rewrite (H iv mu H1 H2). now apply H'. Qed.
Lemma ta_proper x y : meq x y -> meq (traceless_part (anti_herm_part x)) (traceless_part (anti_herm_part y)).
Proof.
  intros E i j Hi Hj. unfold traceless_part, anti_herm_part, msub, mscale, dag. rewrite !(E _ _ Hi Hj), !(E _ _ Hj Hi). do 3 f_equal.
  unfold trace. cbn [csum]. rewrite !E by lia. reflexivity.
Qed.
Lemma msub_proper' x y z t : meq x y -> meq z t -> meq (msub x z) (msub y t).
Proof. intros A B i j Hi Hj. unfold msub. now rewrite (A i j Hi Hj), (B i j Hi Hj). Qed.
Lemma mscale_proper' c x y : meq x y -> meq (mscale c x) (mscale c y).
Proof. intros A i j Hi Hj. unfold mscale. now rewrite (A i j Hi Hj). Qed.
Lemma force_proper g U U' : of_links n g -> feq n U U' -> feq n (force g U) (force g U').
Proof. intros H E iv mu H1 H2. unfold force. apply ta_proper, mmul_proper; [now apply E|now apply H]. Qed.
Lemma runi_proper i s s' : seqv n s s' -> seqv n (runi i s) (runi i s').
Proof.
  intros [A B]. destruct i as [dt|dt|dt]; cbn [runi].
  - split; [exact A|]. intros iv mu H1 H2. apply msub_proper'; [now apply B|]. apply mscale_proper'. now apply force_proper.
  - split; [exact A|]. intros iv mu H1 H2. apply msub_proper'; [now apply B|]. apply mscale_proper'. now apply force_proper.
  - split; [|exact B]. intros iv mu H1 H2. cbn [driftv fst]. rewrite (A iv mu H1 H2), (B iv mu H1 H2). reflexivity.
Qed.
Lemma seqv_refl s : seqv n s s. Proof. split; apply feq_refl. Qed.
Lemma seqv_trans s t r : seqv n s t -> seqv n t r -> seqv n s r. Proof. intros [] []. split; eapply feq_trans; eassumption. Qed.
Lemma seqv_sym s t : seqv n s t -> seqv n t s. Proof. intros []. split; now apply feq_sym. Qed.
Lemma not_fieldp a b iv mu i j : a <> b -> ~ fieldp n a b@[iv]@[mu]@[i]@[j].
Proof. intros N (iv' & mu' & _ & _ & (i' & j' & _ & _ & E)). apply N. unfold at_ in E. congruence. Qed.
Lemma kick_state g dt m : of_links n g -> seqv n (state (evolve_momenta_with_force_of n g dt m)) (kickv g dt (state m)).
Proof.
  intros Hg. unfold evolve_momenta_with_force_of. rewrite !then_run.
  destruct (force_store_ok n g v_F v_conf m) as [A1 B1]. set (m1 := force_do_not_finish _ _ _ _ m) in *.
  destruct (finish_ok n v_F v_conf m1 ltac:(discriminate) ltac:(discriminate) ltac:(discriminate)) as [A2 B2]. set (m2 := force_finish_computation _ _ _ m1) in *.
  destruct (evolve_momenta_ok n v_H v_F dt m2 ltac:(discriminate)) as [A3 B3]. set (m3 := evolve_lx_momenta_with_force _ _ _ _ m2) in *. cbv zeta in *.
  assert (T : forall a iv mu i j, a = v_conf \/ a = v_H -> m2 a@[iv]@[mu]@[i]@[j] = m a@[iv]@[mu]@[i]@[j]).
  { intros a iv mu i j Ha. rewrite B2, B1; [reflexivity| | |]; destruct Ha as [-> | ->]; first [apply not_fieldp; discriminate | intros (i' & j' & _ & _ & E); discriminate E]. }
  split; cbn [state fst snd kickv].
  - apply load_eq. intros iv mu i j _ _ _ _. rewrite B3 by (apply not_fieldp; discriminate). apply T. auto.
  - eapply feq_trans; [exact A3|]. intros iv mu H1 H2. apply msub_proper'.
    + intros i j Hi Hj. apply T. auto.
    + apply mscale_proper'. etransitivity; [exact (A2 iv mu H1 H2)|]. unfold force. apply ta_proper, mmul_proper.
      * intros i j Hi Hj. apply B1. apply not_fieldp. discriminate.
      * exact (A1 iv mu H1 H2).
Qed.
Lemma step_state i m : seqv n (state (do_step n gauge quark i m)) (runi i (state m)).
Proof.
  destruct i as [dt|dt|dt]; cbn [do_step runi]; [now apply kick_state|now apply kick_state|].
  destruct (drift_ok n dt m) as [A B]. split; [exact A|]. apply load_eq. intros iv mu i j _ _ _ _. apply B; [apply not_fieldp; discriminate|].
  intros (k & i' & j' & [E|[E|[E|[E|[E|[E|E]]]]]]); discriminate E.
Qed.
Definition runs (l : list step) (s : field * field) := fold_left (fun s i => runi i s) l s.
Lemma runs_proper l s s' : seqv n s s' -> seqv n (runs l s) (runs l s').
Proof. revert s s'. induction l as [|i l IH]; intros s s' H; [exact H|]. apply IH. now apply runi_proper. Qed.
Lemma steps_state l m : seqv n (state (do_steps n gauge quark l m)) (runs l (state m)).
Proof.
  unfold do_steps. revert m. induction l as [|i l IH]; intros m; [apply seqv_refl|]. cbn [fold_left runs]. eapply seqv_trans; [apply IH|]. apply runs_proper, step_state.
Qed.

(** the exponentials of the run *)
Definition good (P : cmat -> Prop) (i : step) (s : field * field) : Prop := match i with Drift dt => every_link n (fun h => P (mscale (RtoC dt) h)) (snd s) | _ => True end.
Fixpoint alongv (P : cmat -> Prop) (l : list step) (s : field * field) : Prop := match l with [] => True | i :: l' => good P i s /\ alongv P l' (runi i s) end.
Lemma good_proper (P : cmat -> Prop) i s s' : (forall x y, meq x y -> P x -> P y) -> seqv n s s' -> good P i s -> good P i s'.
Proof. intros HP [_ H]. destruct i; cbn; auto. intros G iv mu H1 H2. apply (HP _ _ (mscale_proper' _ _ _ (H iv mu H1 H2))). now apply G. Qed.
Lemma alongv_proper (P : cmat -> Prop) l : (forall x y, meq x y -> P x -> P y) -> forall s s', seqv n s s' -> alongv P l s -> alongv P l s'.
Proof.
  intros HP. induction l as [|i l IH]; intros s s' H; [auto|]. intros [A B]. split; [now apply (good_proper P i s s' HP H)|]. apply (IH (runi i s)); [now apply runi_proper|exact B].
Qed.
Definition P_exact (x : cmat) : Prop := exact_zone x \/ meq x (fun _ _ => RtoC 0).
Lemma P_exact_proper x y : meq x y -> P_exact x -> P_exact y.
Proof. intros H [E|E]; [left; now apply (exact_zone_proper x)|right; now rewrite <- H]. Qed.
Lemma exact_alongv l m : exact_along n gauge quark l m -> alongv P_exact l (state m).
Proof.
  revert m. induction l as [|i l IH]; intros m; [auto|]. intros [A B]. split; [destruct i; auto|].
  apply (alongv_proper P_exact l P_exact_proper (state (do_step n gauge quark i m))); [apply step_state|now apply IH].
Qed.

End Val.
(** ** the exponential *)
Lemma neg_c1 x : exp_c1 (mscale (RtoC (-1)) x) = exp_c1 x.
Proof. unfold exp_c1. f_equal. unfold trace, mmul, mscale. cbn [csum]. cbn [fst snd Cplus Cmult RtoC]. ring. Qed.
Lemma neg_c0 x : exp_c0 (mscale (RtoC (-1)) x) = - exp_c0 x.
Proof. unfold exp_c0. unfold det, mscale. cbn [fst snd Cplus Cmult Cminus Copp RtoC]. ring. Qed.
Lemma exv_zone x : hermitian_traceless x -> exact_zone x -> exists q, distinct3 q /\ roots q (exp_c0 x) (exp_c1 x) /\
  (forall k, (k < 3)%nat -> ev3 (RtoC (q k)) (exv_c x) = eiq (q k)) /\ exv_c x = coefs (exp_c0 x) (exp_c1 x) /\
  (trace (mmul x x) * RtoC (/ 2))%C = RtoC (exp_c1 x) /\ det x = RtoC (exp_c0 x).
Proof.
  intros [Hh Ht] (Z1 & Z2 & Z3). destruct (coefs_ok (exp_c0 x) (exp_c1 x) ltac:(lra) Z2 Z3) as (q & Dq & Rq & Vq).
  exists q. unfold exv_c. destruct (Rlt_dec (exp_c1 x) 4e-3); [lra|]. repeat split; try assumption; try apply Dq; try apply Rq.
  - rewrite (herm_real_trace2 x Hh), <- RtoC_mult; reflexivity.
  - exact (herm_real_det x Hh).
Qed.
Lemma exv_exp x : hermitian_traceless x -> exact_zone x -> is_mexp (mscale Ci x) (exv x) /\ special_unitary (exv x).
Proof.
  intros H Z. destruct (exv_zone x H Z) as (q & Dq & Rq & Vq & _ & T2 & D0). destruct H as [Hh Ht]. split.
  - exact (exp_is x _ _ q _ Dq Rq Vq Ht T2 D0).
  - split; [exact (exp_unitary x _ _ q _ Dq Rq Vq Hh Ht T2 D0)|exact (exp_det x _ _ q _ Rq Vq Ht T2 D0)].
Qed.
Lemma exv_0 x : meq x (fun _ _ => RtoC 0) -> meq (exv x) mid.
Proof.
  intros H. rewrite H. unfold exv, exv_c. assert (C1 : exp_c1 (fun _ _ => RtoC 0) = 0) by (unfold exp_c1, trace, mmul; cbn; field).
  assert (C0 : exp_c0 (fun _ _ => RtoC 0) = 0) by (unfold exp_c0, det; cbn; ring). rewrite C0, C1. destruct (Rlt_dec 0 4e-3); [|lra].
  unfold small_f. intros i j Hi Hj. unfold poly2, madd, mscale, mmul. cbn [csum]. apply injective_projections; cbn; field.
Qed.
Lemma exv_su x : hermitian_traceless x -> P_exact x -> special_unitary (exv x).
Proof. intros H [Z|Z]; [now apply exv_exp|]. rewrite (exv_0 x Z). apply su_1. Qed.
Lemma zone_neg x : exact_zone x -> exact_zone (mscale (RtoC (-1)) x).
Proof. unfold exact_zone, exp_c0_max. rewrite neg_c0, neg_c1, Rabs_Ropp. exact (fun H => H). Qed.
Lemma ht_neg x r : hermitian_traceless x -> hermitian_traceless (mscale (RtoC r) x).
Proof.
  intros [A B]. split.
  - intros i j Hi Hj. unfold dag, mscale. rewrite Cconj_mult, Cconj_R. f_equal. exact (A i j Hi Hj).
  - transitivity (RtoC r * trace x)%C; [unfold trace, mscale; cbn [csum]; ring|]. rewrite B. ring.
Qed.
Definition alt3 (c : C * C * C) : C * C * C := let '(a, b, d) := c in (a, (- b)%C, d).
Lemma alt3_mat x c : meq (poly2 (mscale (RtoC (-1)) x) c) (poly2 x (alt3 c)).
Proof. destruct c as [[a b] d]. intros i j Hi Hj. unfold poly2, alt3, madd, mscale, mmul. cbn [csum]. ring_simplify. apply injective_projections; cbn; ring. Qed.
Lemma alt3_ev q c : ev3 (RtoC q) (alt3 c) = ev3 (RtoC (- q)) c.
Proof. destruct c as [[a b] d]. unfold ev3, alt3. apply injective_projections; cbn; ring. Qed.
Lemma exv_neg x : hermitian_traceless x -> P_exact x -> meq (exv (mscale (RtoC (-1)) x)) (dag (exv x)).
Proof.
  intros H [Z|Z].
  - destruct (exv_zone x H Z) as (q & Dq & Rq & Vq & Ec & _ & _).
    destruct (exv_zone _ (ht_neg x (-1) H) (zone_neg x Z)) as (_ & _ & _ & _ & Ec' & _ & _). rewrite neg_c0, neg_c1 in Ec'.
    unfold exv at 1. rewrite alt3_mat. unfold exv. rewrite conj3_mat by apply H.
    replace (alt3 (exv_c (mscale (RtoC (-1)) x))) with (conj3 (exv_c x)); [reflexivity|].
    apply (distinct_ext q _ _ Dq). intros k Hk. rewrite conj3_ev, alt3_ev, (Vq k Hk), <- eiq_neg, Ec'. symmetry.
    destruct (Req_dec (exp_c0 x) 0) as [E0|N0].
    + rewrite E0, Ropp_0, <- E0, <- Ec. rewrite E0 in Rq. destruct Rq as (S1 & _ & S3).
      assert (O : exists j, (j < 3)%nat /\ - q k = q j).
      { symmetry in S3. apply Rmult_integral in S3. destruct S3 as [S3|S3]; [apply Rmult_integral in S3; destruct S3 as [S3|S3]|];
        (destruct k as [|[|[|k]]]; [| | |lia]; (first [exists 0%nat; split; [lia|lra] | exists 1%nat; split; [lia|lra] | exists 2%nat; split; [lia|lra]])). }
      destruct O as (j & Hj & ->). now apply Vq.
    + assert (EN : coefs (- exp_c0 x) (exp_c1 x) = neg3 (coefs (exp_c0 x) (exp_c1 x))).
      { unfold coefs. rewrite Rabs_Ropp. destruct (Rlt_dec (- exp_c0 x) 0), (Rlt_dec (exp_c0 x) 0); try lra; try reflexivity.
        set (c := coef _ _ _). destruct c as [[[? ?] [? ?]] [? ?]]. unfold neg3, Cconj. cbn [fst snd]. rewrite !Ropp_involutive. reflexivity. }
      rewrite EN, neg3_ev, <- Ec, (Vq k Hk). symmetry. apply eiq_neg.
  - rewrite (exv_0 x Z), exv_0, dag_1; [reflexivity|]. intros i j Hi Hj. unfold mscale. rewrite (Z i j Hi Hj). ring.
Qed.
Section Val2.
Variables (n : nat) (gauge quark : field -> field).
Hypothesis (HG : of_links n gauge) (HQ : of_links n quark).
Notation runi := (runi gauge quark). Notation runs := (runs gauge quark). Notation alongv := (alongv n gauge quark).
(** momenta stay hermitian and traceless *)
Lemma ht_proper x y : meq x y -> hermitian_traceless x -> hermitian_traceless y.
Proof. intros H [A B]. split; [unfold hermitian in *; now rewrite <- H|now rewrite <- H]. Qed.
Lemma ta_ok x : anti_hermitian (traceless_part (anti_herm_part x)) /\ trace (traceless_part (anti_herm_part x)) = RtoC 0.
Proof.
  split.
  - intros i j Hi Hj. unfold traceless_part, anti_herm_part, msub, mscale, dag, trace, mid. cbn [csum]. rewrite (Nat.eqb_sym j i). 
    destruct (Nat.eqb i j); apply injective_projections; cbn; field.
  - unfold trace, traceless_part, anti_herm_part, msub, mscale, dag, trace, mid. cbn [csum Nat.eqb]. apply injective_projections; cbn; field.
Qed.
Lemma kick_ht x F dt : hermitian_traceless x -> anti_hermitian F -> trace F = RtoC 0 -> hermitian_traceless (msub x (mscale (Ci * RtoC dt)%C F)).
Proof.
  intros [A B] C D. split.
  - intros i j Hi Hj. unfold dag, msub, mscale. pose proof (A i j Hi Hj) as A1. pose proof (C i j Hi Hj) as C1. unfold dag, mscale in *.
    unfold Cminus. rewrite Cconj_plus. replace (Cconj (- (Ci * RtoC dt * F j i))%C) with (- (Cconj Ci * Cconj (RtoC dt) * Cconj (F j i)))%C by (apply injective_projections; cbn; ring). rewrite A1, C1. f_equal. apply injective_projections; cbn; ring.
  - transitivity (trace x - Ci * RtoC dt * trace F)%C; [unfold trace, msub, mscale; cbn [csum]; ring|]. rewrite B, D. ring.
Qed.
Lemma runi_ht i s : every_link n hermitian_traceless (snd s) -> every_link n hermitian_traceless (snd (runi i s)).
Proof.
  intros H. destruct i as [dt|dt|dt]; cbn [runi kickv driftv snd]; [| |exact H]; intros iv mu H1 H2; (apply kick_ht; [now apply H|apply ta_ok|apply ta_ok]).
Qed.
Lemma runs_ht l s : every_link n hermitian_traceless (snd s) -> every_link n hermitian_traceless (snd (runs l s)).
Proof. revert s. induction l as [|i l IH]; intros s H; [exact H|]. apply IH. now apply runi_ht. Qed.
(** links stay in SU(3) *)
Lemma runs_su l s : every_link n hermitian_traceless (snd s) -> every_link n special_unitary (fst s) -> alongv P_exact l s -> every_link n special_unitary (fst (runs l s)).
Proof.
  revert s. induction l as [|i l IH]; intros s H U A; [exact U|]. destruct A as [A1 A2]. apply IH; [now apply runi_ht| |exact A2].
  destruct i as [dt|dt|dt]; [exact U|exact U|]. intros iv mu H1 H2. cbn [EvolveMain.runi driftv fst]. apply su_mul; [|now apply U].
  apply exv_su; [now apply ht_neg, H|now apply A1].
Qed.
(** ** reversibility *)
Definition R_ (s : field * field) : field * field := (fst s, fneg (snd s)).
Lemma R_proper s s' : seqv n s s' -> seqv n (R_ s) (R_ s').
Proof. intros [A B]. split; [exact A|]. intros iv mu H1 H2. apply mscale_proper'. now apply B. Qed.
Lemma runi_back i s : every_link n hermitian_traceless (snd s) -> good n P_exact i s -> seqv n (runi i (R_ (runi i s))) (R_ s).
Proof.
  intros H G. assert (K : forall g dt, seqv n (kickv g dt (R_ (kickv g dt s))) (R_ s)).
  { intros g dt. split; [apply feq_refl|]. intros iv mu H1 H2 i' j' _ _. cbn [R_ kickv fst snd]. unfold fneg, msub, mscale. apply injective_projections; cbn; ring. }
  destruct i as [dt|dt|dt]; cbn [EvolveMain.runi]; [apply K|apply K|]. cbn [good] in G.
  split; [|apply feq_refl]. intros iv mu H1 H2. cbn [R_ driftv fst snd]. unfold fneg.
  pose proof (ht_neg _ dt (H iv mu H1 H2)) as Hx. pose proof (G iv mu H1 H2) as Gx.
  set (x := mscale (RtoC dt) (snd s iv mu)) in *.
  assert (E : meq (mscale (RtoC dt) (mscale (RtoC (-1)) (snd s iv mu))) (mscale (RtoC (-1)) x)) by (intros i' j' _ _; unfold x, mscale; ring).
  rewrite E, (exv_neg x Hx Gx), <- mmul_assoc, unitary_l, mmul_1_l; [reflexivity|]. apply exv_su; assumption.
Qed.
Lemma runs_app l l' s : runs (l ++ l') s = runs l' (runs l s).
Proof. apply fold_left_app. Qed.
Lemma runs_back l s : every_link n hermitian_traceless (snd s) -> alongv P_exact l s -> seqv n (runs (rev l) (R_ (runs l s))) (R_ s).
Proof.
  revert s. induction l as [|i l IH]; intros s H A; [apply seqv_refl|]. destruct A as [A1 A2]. cbn [rev]. rewrite runs_app.
  change (runs (i :: l) s) with (runs l (runi i s)). change (runs [i] ?z) with (runi i z).
  eapply seqv_trans; [|apply runi_back; [exact H|exact A1]]. apply runi_proper; [exact HG|exact HQ|]. apply IH; [now apply runi_ht|exact A2].
Qed.
End Val2.
