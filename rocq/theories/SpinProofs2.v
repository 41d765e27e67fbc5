From Coq Require Import Reals Lra Lia List FunctionalExtensionality.
From Coquelicot Require Import Complex.
From Verif Require Import CplxModel CplxSpec CplxProofs CplxStores MatModel MatSpec MatProofs MatRun DiracModel DiracSpec DiracProofs SpinModel SpinSpec SpinProofs ParLoop.
Import ListNotations.
Open Scope C_scope.
Set Bullet Behavior "Strict Subproofs".

(** composing *)
Lemma at2_inj (a b : path) i j i' j' : a@[i]@[j] = b@[i']@[j'] -> a = b /\ i = i' /\ j = j'.
Proof. unfold at_. intros H. injection H as -> -> ->. auto. Qed.
Lemma ss_frame loc o a v : sets_ss_loc loc o a v -> forall m b, b <> a -> (forall i j, ~ loc b@[i]@[j]) -> ss (o m) b = ss m b.
Proof.
  intros H m b N L. apply functional_extensionality. intros i. apply functional_extensionality. intros j. unfold ss. apply H; [|apply L].
  intros (i' & j' & _ & _ & E). apply at2_inj in E. tauto.
Qed.
Lemma ss_seq o1 o2 a v1 v2 : sets_ss o1 a v1 -> sets_ss o2 a v2 -> sets_ss (o1;; o2) a (fun m => v2 (o1 m)).
Proof.
  intros H1 H2 m. rewrite then_run. destruct (H2 (o1 m)) as [A B]. split; [exact A|]. intros q Hq _. rewrite B by tauto. apply H1; tauto.
Qed.
Lemma ss_val loc o a v w : sets_ss_loc loc o a v -> (forall m, deq (v m) (w m)) -> sets_ss_loc loc o a w.
Proof. intros H E m. destruct (H m) as [A B]. split; [|exact B]. intros i j Hi Hj. rewrite A by assumption. apply E; assumption. Qed.
Lemma sv_val loc o a v w : sets_sv_loc loc o a v -> (forall m i, (i < 4)%nat -> v m i = w m i) -> sets_sv_loc loc o a w.
Proof. intros H E m. destruct (H m) as [A B]. split; [|exact B]. intros i Hi. rewrite A by assumption. apply E; assumption. Qed.
Lemma ss_safe o t out v : sets_ss o t v -> sets_ss_loc (in_ss t) (o;; spinspin_copy out t) out v.
Proof.
  intros H m. rewrite then_run. destruct (spinspin_copy_ok out t (o m)) as [A B]. destruct (H m) as [C D]. split.
  - intros i j Hi Hj. rewrite A by assumption. apply C; assumption.
  - intros q Q1 Q2. rewrite B by tauto. apply D; tauto.
Qed.

(** products with a Dirac matrix *)
Lemma dm_mul_l m d p x i j : (forall i, (i < 4)%nat -> (p i < 4)%nat) -> (i < 4)%nat -> dmul (dm m d p) x i j = m d@[i] * x (p i) j.
Proof.
  intros V Hi. unfold dmul. rewrite <- (csum4_pick (p i) (fun k => m d@[i] * x k j)) by auto. apply csum_ext. intros k Hk.
  unfold dm, den. cbn [pos entr]. destruct (Nat.eqb (p i) k); ring.
Qed.
Lemma dm_vec m d p x i : (forall i, (i < 4)%nat -> (p i < 4)%nat) -> (i < 4)%nat -> dvec (dm m d p) x i = m d@[i] * x (p i).
Proof.
  intros V Hi. unfold dvec. rewrite <- (csum4_pick (p i) (fun k => m d@[i] * x k)) by auto. apply csum_ext. intros k Hk.
  unfold dm, den. cbn [pos entr]. destruct (Nat.eqb (p i) k); ring.
Qed.
Lemma perm4_onto p : perm4 p -> forall k, (k < 4)%nat -> exists j, (j < 4)%nat /\ k = p j.
Proof.
  intros [V J] k Hk. pose proof (V 0%nat ltac:(lia)). pose proof (V 1%nat ltac:(lia)). pose proof (V 2%nat ltac:(lia)). pose proof (V 3%nat ltac:(lia)).
  assert (N : forall i j, (i < 4)%nat -> (j < 4)%nat -> i <> j -> p i <> p j) by (intros i j Hi Hj Hn F; apply Hn; apply J; assumption).
  pose proof (N 0 1 ltac:(lia) ltac:(lia) ltac:(lia))%nat. pose proof (N 0 2 ltac:(lia) ltac:(lia) ltac:(lia))%nat. pose proof (N 0 3 ltac:(lia) ltac:(lia) ltac:(lia))%nat.
  pose proof (N 1 2 ltac:(lia) ltac:(lia) ltac:(lia))%nat. pose proof (N 1 3 ltac:(lia) ltac:(lia) ltac:(lia))%nat. pose proof (N 2 3 ltac:(lia) ltac:(lia) ltac:(lia))%nat.
  assert (k = p 0 \/ k = p 1 \/ k = p 2 \/ k = p 3)%nat as [F|[F|[F|F]]] by lia; eexists; (split; [|exact F]); lia.
Qed.
Lemma den_perm p e (f : nat -> C) j : perm4 p -> (j < 4)%nat -> csum 4 (fun k => f k * den (DM p e) k (p j)) = f j * e j.
Proof.
  intros [V J] Hj. rewrite <- (csum4_pick j (fun k => f k * e k)) by auto. apply csum_ext. intros k Hk. unfold den. cbn [pos entr].
  destruct (Nat.eqb_spec (p k) (p j)) as [E|E].
  - apply J in E; [|assumption|assumption]. subst. rewrite Nat.eqb_refl. reflexivity.
  - destruct (Nat.eqb_spec j k); [subst; congruence|]. ring.
Qed.
Lemma unsafe_dirac_prod_spinspin_ok a d p b : perm4 p -> a <> b -> (forall i, d <> a@[i]) ->
  sets_ss (unsafe_dirac_prod_spinspin a d p b) a (fun m => dmul (dm m d p) (ss m b)).
Proof. intros [V J] H H0. eapply ss_val; [apply unsafe_dirac_prod_spinspin_raw; assumption|]. intros m i j Hi Hj. rewrite dm_mul_l by assumption. reflexivity. Qed.
Lemma unsafe_dirac_prod_spinspin_transp_ok a d p b : perm4 p -> a <> b -> (forall i, d <> a@[i]) ->
  sets_ss (unsafe_dirac_prod_spinspin_transp a d p b) a (fun m => dmul (dm m d p) (dtransp (ss m b))).
Proof. intros [V J] H H0. eapply ss_val; [apply unsafe_dirac_prod_spinspin_transp_raw; assumption|]. intros m i j Hi Hj. rewrite dm_mul_l by assumption. reflexivity. Qed.
Lemma unsafe_dirac_prod_spinspin_dag_ok a d p b : perm4 p -> a <> b -> (forall i, d <> a@[i]) ->
  sets_ss (unsafe_dirac_prod_spinspin_dag a d p b) a (fun m => dmul (dm m d p) (ddag (ss m b))).
Proof. intros [V J] H H0. eapply ss_val; [apply unsafe_dirac_prod_spinspin_dag_raw; assumption|]. intros m i j Hi Hj. rewrite dm_mul_l by assumption. reflexivity. Qed.
Lemma unsafe_dirac_prod_spin_ok a d p b : perm4 p -> a <> b -> a <> d -> sets_sv (unsafe_dirac_prod_spin a d p b) a (fun m => dvec (dm m d p) (sv m b)).
Proof. intros [V J] H H0. eapply sv_val; [apply unsafe_dirac_prod_spin_raw; assumption|]. intros m i Hi. rewrite dm_vec by assumption. reflexivity. Qed.

Lemma unsafe_spinspin_prod_dirac_ok a b d p : perm4 p -> a <> b -> (forall i, d <> a@[i]) ->
  sets_ss (unsafe_spinspin_prod_dirac a b d p) a (fun m => dmul (ss m b) (dm m d p)).
Proof.
  intros P N D m. pose proof P as [V J]. unfold unsafe_spinspin_prod_dirac. rewrite then_run. destruct (spinspin_put_to_zero_ok a m) as [Z1 Z2]. set (m0 := spinspin_put_to_zero a m) in *.
  destruct (ss_loop_gen (fun id1 id2 => unsafe_complex_prod a@[id1]@[p id2] b@[id1]@[id2] d@[id2]) (fun i j => a@[i]@[p j]) (fun i j m => m b@[i]@[j] * m d@[j])) with (m := m0) as [H1 H2].
  - intros i j Hi Hj. pose proof (V j Hj). sentry.
  - intros i j i' j' Hi Hj Hi' Hj' Hn. split.
    + intros E. apply at2_inj in E. destruct E as (_ & -> & E). apply J in E; [congruence|assumption|assumption].
    + intros m' x. rewrite !upd_other by sneq. reflexivity.
  - split.
    + intros i k Hi Hk. destruct (perm4_onto p P k Hk) as (j & Hj & ->). unfold ss at 1. rewrite H1 by assumption.
      rewrite (den_perm p (fun q => m d@[q]) (fun q => ss m b i q) j P Hj : dmul (ss m b) (dm m d p) i (p j) = _). unfold ss. f_equal.
      * apply Z2; [|tauto]. intros (i' & j' & _ & _ & E). apply at2_inj in E. destruct E as (E & _). congruence.
      * apply Z2; [|tauto]. intros (i' & j' & _ & _ & E). unfold at_ in E. injection E as _ E. apply (D i'). exact E.
    + intros q Hq _. rewrite H2; [apply Z2; [exact Hq|tauto]|]. intros i j Hi Hj ->. apply Hq. exists i, (p j). auto.
Qed.
Lemma unsafe_spin_prod_dirac_ok a b d p : perm4 p -> a <> b -> a <> d -> sets_sv (unsafe_spin_prod_dirac a b d p) a (fun m => vdec (sv m b) (dm m d p)).
Proof.
  intros P N D m. pose proof P as [V J]. unfold unsafe_spin_prod_dirac. rewrite then_run. destruct (spin_put_to_zero_ok a m) as [Z1 Z2]. set (m0 := spin_put_to_zero a m) in *.
  destruct (sv_loop_gen (fun id1 => complex_summ_the_prod a@[p id1] b@[id1] d@[id1]) (fun i => a@[p i]) (fun i m => m a@[p i] + m b@[i] * m d@[i])) with (m := m0) as [H1 H2].
  - intros i Hi. pose proof (V i Hi). sentry.
  - intros i i' Hi Hi' Hn. assert (Q : p i <> p i') by (intros E; apply Hn; apply J; assumption). split; [unfold at_; congruence|]. intros m' x. rewrite !upd_other by sneq. reflexivity.
  - split.
    + intros k Hk. destruct (perm4_onto p P k Hk) as (j & Hj & ->). unfold sv at 1. rewrite H1 by assumption.
      rewrite (den_perm p (fun q => m d@[q]) (fun q => sv m b q) j P Hj : vdec (sv m b) (dm m d p) (p j) = _).
      pose proof (Z1 (p j) (V j Hj)) as Z. unfold sv in *. rewrite Z.
      rewrite (Z2 b@[j]); [|intros (i' & _ & E); unfold at_ in E; injection E as _ E; congruence|tauto].
      rewrite (Z2 d@[j]); [|intros (i' & _ & E); unfold at_ in E; injection E as _ E; congruence|tauto]. ring.
    + intros q Hq _. rewrite H2; [apply Z2; [exact Hq|tauto]|]. intros i Hi ->. apply Hq. exists (p i). auto.
Qed.
(** sums of a Dirac matrix in a spin matrix *)
Lemma dirac_summ_gen body a d p (c : mem -> C) : perm4 p -> (forall i, d <> a@[i]) -> (forall m i j x, c (upd m a@[i]@[j] x) = c m) ->
  (forall i, (i < 4)%nat -> sets (body i) a@[i]@[p i] (fun m => m a@[i]@[p i] + m d@[i] * c m)) ->
  sets_ss (for_spin body) a (fun m => dadd (ss m a) (dscale (c m) (dm m d p))).
Proof.
  intros [V J] D Hc Hb m.
  destruct (sv_loop_gen body (fun i => a@[i]@[p i]) (fun i m => m a@[i]@[p i] + m d@[i] * c m)) with (m := m) as [H1 H2].
  - exact Hb.
  - intros i i' Hi Hi' Hn. split; [unfold at_; congruence|]. intros m' x. rewrite !upd_other by sneq. rewrite Hc. reflexivity.
  - split.
    + intros i k Hi Hk. unfold ss, dadd, dscale, dm, den. cbn [pos entr]. destruct (Nat.eqb_spec (p i) k) as [<-|E].
      * rewrite H1 by assumption. unfold ss. ring.
      * rewrite H2; [unfold ss; ring|]. intros i' Hi' F. apply at2_inj in F. destruct F as (_ & -> & F). congruence.
    + intros q Hq _. apply H2. intros i Hi ->. apply Hq. exists i, (p i). auto.
Qed.
Lemma spinspin_dirac_summ_the_prod_double_ok a d p (r : R) : perm4 p -> (forall i, d <> a@[i]) ->
  sets_ss (spinspin_dirac_summ_the_prod_double a d p r) a (fun m => dadd (ss m a) (dscale r (dm m d p))).
Proof. intros P D. apply (dirac_summ_gen _ a d p (fun _ => RtoC r) P D); [reflexivity|]. intros i Hi. sentry. Qed.
Lemma spinspin_dirac_summ_the_prod_idouble_ok a d p (r : R) : perm4 p -> (forall i, d <> a@[i]) ->
  sets_ss (spinspin_dirac_summ_the_prod_idouble a d p r) a (fun m => dadd (ss m a) (dscale (Ci * r) (dm m d p))).
Proof. intros P D. apply (dirac_summ_gen _ a d p (fun _ => Ci * RtoC r) P D); [reflexivity|]. intros i Hi. sentry. Qed.
Lemma spinspin_dirac_summ_the_prod_complex_ok a d p c : perm4 p -> (forall i, d <> a@[i]) -> (forall i j, c <> a@[i]@[j]) ->
  sets_ss (spinspin_dirac_summ_the_prod_complex a d p c) a (fun m => dadd (ss m a) (dscale (m c) (dm m d p))).
Proof. intros P D Hc. apply (dirac_summ_gen _ a d p (fun m => m c) P D); [intros; rewrite upd_other by apply Hc; reflexivity|]. intros i Hi. sentry. Qed.
(** clearing first *)
Lemma dm_frame o a v m d p : sets_ss o a v -> (forall i, d <> a@[i]) -> dm (o m) d p = dm m d p.
Proof.
  intros H D. apply functional_extensionality. intros i. apply functional_extensionality. intros j. unfold dm, den. cbn [pos entr]. destruct (Nat.eqb _ _); [|reflexivity].
  apply H; [|tauto]. intros (i' & j' & _ & _ & E). unfold at_ in E. injection E as _ E. apply (D i'). exact E.
Qed.
Lemma cleared o a (w : mem -> dmat) (x : mem -> dmat) : sets_ss o a (fun m => dadd (ss m a) (w m)) -> (forall m, w (spinspin_put_to_zero a m) = w m) -> sets_ss (spinspin_put_to_zero a;; o) a w.
Proof.
  intros H F. eapply ss_val; [exact (ss_seq _ _ _ _ _ (spinspin_put_to_zero_ok a) H)|]. intros m i j Hi Hj. cbv beta. unfold dadd. rewrite F.
  destruct (spinspin_put_to_zero_ok a m) as [Z _]. rewrite (Z i j Hi Hj). ring.
Qed.
Lemma spinspin_dirac_prod_double_ok a d p (r : R) : perm4 p -> (forall i, d <> a@[i]) -> sets_ss (spinspin_dirac_prod_double a d p r) a (fun m => dscale r (dm m d p)).
Proof. intros P D. apply (cleared _ a); [exact (fun m => dm m d p)|apply spinspin_dirac_summ_the_prod_double_ok; assumption|]. intros m. rewrite (dm_frame _ a _ m d p (spinspin_put_to_zero_ok a) D). reflexivity. Qed.
Lemma spinspin_dirac_prod_idouble_ok a d p (r : R) : perm4 p -> (forall i, d <> a@[i]) -> sets_ss (spinspin_dirac_prod_idouble a d p r) a (fun m => dscale (Ci * r) (dm m d p)).
Proof. intros P D. apply (cleared _ a); [exact (fun m => dm m d p)|apply spinspin_dirac_summ_the_prod_idouble_ok; assumption|]. intros m. rewrite (dm_frame _ a _ m d p (spinspin_put_to_zero_ok a) D). reflexivity. Qed.
Lemma zero_other a b m : b <> a -> ss (spinspin_put_to_zero a m) b = ss m b.
Proof. intros N. apply (ss_frame _ _ _ _ (spinspin_put_to_zero_ok a)); [exact N|tauto]. Qed.
Lemma unsafe_spinspin_prod_spinspin_ok a b c : a <> b -> a <> c -> sets_ss (unsafe_spinspin_prod_spinspin a b c) a (fun m => dmul (ss m b) (ss m c)).
Proof. intros N N'. apply (cleared _ a); [exact (fun m => ss m a)|apply spinspin_summ_the_spinspin_prod_ok; assumption|]. intros m. rewrite !zero_other by congruence. reflexivity. Qed.
Lemma unsafe_spinspin_prod_spinspin_dag_ok a b c : a <> b -> a <> c -> sets_ss (unsafe_spinspin_prod_spinspin_dag a b c) a (fun m => dmul (ss m b) (ddag (ss m c))).
Proof. intros N N'. apply (cleared _ a); [exact (fun m => ss m a)|apply spinspin_summ_the_spinspin_dag_prod_ok; assumption|]. intros m. rewrite !zero_other by congruence. reflexivity. Qed.

(** traces *)
Ltac cell := unfold for_spin, unroll_for, NDIRAC; cbn [seq fold_left Nat.sub]; rewrite ?then_run; unfold set_re, set_im, re, im;
  repeat (progress (stores ltac:(idtac; sneq); srd)); cbn [fst snd].
Lemma trace_run c (f g : nat -> mem -> C) (o : mem -> mem) body :
  (forall m, o m = upd m c (RtoC 0)) -> (forall i, (i < 4)%nat -> forall m, body i m = upd m c (m c + f i m)) -> (forall i m x, f i (upd m c x) = f i m) ->
  forall m, (o;; for_spin body) m = upd m c (csum 4 (fun i => f i m)).
Proof.
  intros Ho Hb Hf m. rewrite then_run, Ho. unfold for_spin, unroll_for, NDIRAC. cbn [seq fold_left Nat.sub].
  rewrite !Hb by lia. repeat (rewrite ?upd_same, ?upd_upd, ?Hf). reflexivity.
Qed.
Lemma clear_c c m : (set_im c 0;; set_re c 0) m = upd m c (RtoC 0).
Proof. rewrite then_run. unfold set_re, set_im, re, im. rewrite upd_same, upd_upd. reflexivity. Qed.
Lemma dtrace_dm m d p x : (forall i, (i < 4)%nat -> (p i < 4)%nat) -> dtrace (dmul (dm m d p) x) = csum 4 (fun i => m d@[i] * x (p i) i).
Proof. intros V. apply csum_ext. intros i Hi. apply dm_mul_l; assumption. Qed.
Lemma trace_dirac_prod_spinspin_ok c d p b : perm4 p -> (forall i, c <> d@[i]) -> (forall i j, c <> b@[i]@[j]) ->
  sets (trace_dirac_prod_spinspin c d p b) c (fun m => dtrace (dmul (dm m d p) (ss m b))).
Proof.
  intros [V _] D B. apply sets_of. intros m. rewrite dtrace_dm by exact V.
  apply (trace_run c (fun i m => m d@[i] * m b@[p i]@[i]) (fun _ _ => RtoC 0) (set_im c 0;; set_re c 0)).
  - apply clear_c.
  - intros i Hi m'. rewrite complex_summ_the_prod_st. reflexivity.
  - intros i m' x. rewrite !upd_other by (apply not_eq_sym; auto). reflexivity.
Qed.
Lemma trace_spinspin_with_dirac_ok c d p b : perm4 p -> (forall i, c <> d@[i]) -> (forall i j, c <> b@[i]@[j]) ->
  sets (trace_spinspin_with_dirac c b d p) c (fun m => dtrace (dmul (dm m d p) (ss m b))).
Proof.
  intros [V _] D B. apply sets_of. intros m. rewrite dtrace_dm by exact V.
  apply (trace_run c (fun i m => m d@[i] * m b@[p i]@[i]) (fun _ _ => RtoC 0) (complex_put_to_zero c)).
  - intros m'. apply complex_put_to_zero_st.
  - intros i Hi m'. rewrite complex_summ_the_prod_st. reflexivity.
  - intros i m' x. rewrite !upd_other by (apply not_eq_sym; auto). reflexivity.
Qed.
Lemma trace_spinspin_ok c a : (forall i j, c <> a@[i]@[j]) -> sets (trace_spinspin c a) c (fun m => dtrace (ss m a)).
Proof.
  intros B. apply sets_of. intros m.
  apply (trace_run c (fun i m => m a@[i]@[i]) (fun _ _ => RtoC 0) (set_im c 0;; set_re c 0)).
  - apply clear_c.
  - intros i Hi m'. rewrite complex_summassign_st. reflexivity.
  - intros i m' x. rewrite !upd_other by (apply not_eq_sym; auto). reflexivity.
Qed.
Lemma trace_spinspin_prod_spinspin_ok c a b : (forall i j, c <> a@[i]@[j]) -> (forall i j, c <> b@[i]@[j]) ->
  sets (trace_spinspin_prod_spinspin c a b) c (fun m => dtrace (dmul (ss m a) (ss m b))).
Proof.
  intros A B. apply sets_of. intros m.
  apply (trace_run c (fun i m => csum 4 (fun k => m a@[i]@[k] * m b@[k]@[i])) (fun _ _ => RtoC 0) (complex_put_to_zero c)).
  - intros m'. apply complex_put_to_zero_st.
  - intros i Hi m'. unfold for_spin, unroll_for, NDIRAC. cbn [seq fold_left Nat.sub csum]. rewrite !complex_summ_the_prod_st.
    repeat (rewrite ?upd_same, ?upd_upd; rewrite ?upd_other by (apply not_eq_sym; auto)). f_equal. ring.
  - intros i m' x. apply csum_ext. intros k _. rewrite !upd_other by (apply not_eq_sym; auto). reflexivity.
Qed.
