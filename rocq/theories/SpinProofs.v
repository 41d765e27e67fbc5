From Coq Require Import Reals Lra Lia List FunctionalExtensionality.
From Coquelicot Require Import Complex.
From Verif Require Import CplxModel CplxSpec CplxProofs CplxStores MatModel MatSpec MatProofs DiracModel DiracSpec DiracProofs SpinModel SpinSpec.
Import ListNotations.
Open Scope C_scope.
Set Bullet Behavior "Strict Subproofs".

(** the loops, also with the target cells renamed by [t] *)
Lemma ss_loop_gen body (t : nat -> nat -> path) (v : nat -> nat -> mem -> C) :
  (forall i j, (i < 4)%nat -> (j < 4)%nat -> sets (body i j) (t i j) (v i j)) ->
  (forall i j i' j', (i < 4)%nat -> (j < 4)%nat -> (i' < 4)%nat -> (j' < 4)%nat -> (i, j) <> (i', j') -> t i j <> t i' j' /\
     forall m x, v i j (upd m (t i' j') x) = v i j m) ->
  forall m, (forall i j, (i < 4)%nat -> (j < 4)%nat -> for_spin (fun i => for_spin (body i)) m (t i j) = v i j m) /\
    (forall q, (forall i j, (i < 4)%nat -> (j < 4)%nat -> q <> t i j) -> for_spin (fun i => for_spin (body i)) m q = m q).
Proof.
  intros Hb Hv m. unfold for_spin, unroll_for. rewrite !Nat.sub_0_r, fold_nested.
  destruct (loop_sets (fun k : nat * nat => body (fst k) (snd k)) (fun k => t (fst k) (snd k)) (fun k => v (fst k) (snd k))
    (list_prod (seq 0 NDIRAC) (seq 0 NDIRAC))) with (m := m) as [H1 H2].
  - apply NoDup_list_prod; apply seq_NoDup.
  - intros [i j] H. apply in_prod_iff in H. rewrite !in_seq in H. apply Hb; unfold NDIRAC in *; cbn; lia.
  - intros [i j] [i' j'] H H' N. apply in_prod_iff in H, H'. rewrite !in_seq in H, H'. cbn [fst snd]. apply Hv; unfold NDIRAC in *; auto; lia.
  - split.
    + intros i j Hi Hj. apply (H1 (i, j)). apply in_prod_iff. rewrite !in_seq. unfold NDIRAC. lia.
    + intros q Hq. apply H2. intros [i j] H. apply in_prod_iff in H. rewrite !in_seq in H. apply Hq; unfold NDIRAC in *; cbn; lia.
Qed.
Lemma ss_loop body a (v : mem -> dmat) :
  (forall i j, (i < 4)%nat -> (j < 4)%nat -> sets (body i j) a@[i]@[j] (fun m => v m i j)) ->
  (forall i j i' j' m x, (i < 4)%nat -> (j < 4)%nat -> (i' < 4)%nat -> (j' < 4)%nat -> (i, j) <> (i', j') ->
     v (upd m a@[i']@[j'] x) i j = v m i j) ->
  sets_ss (for_spin (fun i => for_spin (body i))) a v.
Proof.
  intros Hb Hv m. destruct (ss_loop_gen body (fun i j => a@[i]@[j]) (fun i j m => v m i j)) with (m := m) as [H1 H2].
  - exact Hb.
  - intros. split; [unfold at_; congruence|]. intros. apply Hv; assumption.
  - split.
    + intros i j Hi Hj. apply H1; auto.
    + intros q Hq _. apply H2. intros i j Hi Hj ->. apply Hq. exists i, j. auto.
Qed.
Lemma sv_loop_gen body (t : nat -> path) (v : nat -> mem -> C) :
  (forall i, (i < 4)%nat -> sets (body i) (t i) (v i)) ->
  (forall i i', (i < 4)%nat -> (i' < 4)%nat -> i <> i' -> t i <> t i' /\ forall m x, v i (upd m (t i') x) = v i m) ->
  forall m, (forall i, (i < 4)%nat -> for_spin body m (t i) = v i m) /\ (forall q, (forall i, (i < 4)%nat -> q <> t i) -> for_spin body m q = m q).
Proof.
  intros Hb Hv m. unfold for_spin, unroll_for.
  destruct (loop_sets body t v (seq 0 (NDIRAC - 0))) with (m := m) as [H1 H2].
  - apply seq_NoDup.
  - intros i H. apply in_seq in H. apply Hb. unfold NDIRAC in *. lia.
  - intros i i' H H' N. apply in_seq in H, H'. unfold NDIRAC in *. apply Hv; auto; lia.
  - split.
    + intros i Hi. apply H1. apply in_seq. unfold NDIRAC. lia.
    + intros q Hq. apply H2. intros i H. apply in_seq in H. apply Hq. unfold NDIRAC in *. lia.
Qed.
Lemma sv_loop body a (v : mem -> nat -> C) :
  (forall i, (i < 4)%nat -> sets (body i) a@[i] (fun m => v m i)) ->
  (forall i i' m x, (i < 4)%nat -> (i' < 4)%nat -> i <> i' -> v (upd m a@[i'] x) i = v m i) ->
  sets_sv (for_spin body) a v.
Proof.
  intros Hb Hv m. destruct (sv_loop_gen body (fun i => a@[i]) (fun i m => v m i)) with (m := m) as [H1 H2].
  - exact Hb.
  - intros. split; [unfold at_; congruence|]. intros. apply Hv; assumption.
  - split; [exact H1|]. intros q Hq _. apply H2. intros i Hi ->. apply Hq. exists i. auto.
Qed.

Lemma inss_neq a q i j : ~ in_ss a q -> (i < 4)%nat -> (j < 4)%nat -> q <> a@[i]@[j].
Proof. intros H Hi Hj ->. apply H. exists i, j. auto. Qed.
Lemma insv_neq a q i : ~ in_sv a q -> (i < 4)%nat -> q <> a@[i].
Proof. intros H Hi ->. apply H. exists i. auto. Qed.
Ltac sneq := idtac; first
  [ neq | solve [apply inss_neq; [assumption|lia|lia]] | solve [apply not_eq_sym; apply inss_neq; [assumption|lia|lia]]
  | solve [apply insv_neq; [assumption|lia]] | solve [apply not_eq_sym; apply insv_neq; [assumption|lia]]
  | match goal with H : forall i, _ <> _ |- _ => solve [apply H | apply not_eq_sym; apply H] | H : forall i j, _ <> _ |- _ => solve [apply H | apply not_eq_sym; apply H] end ].
Ltac srd := repeat first [rewrite upd_same | rewrite upd_upd | rewrite upd_other by sneq].
Ltac sentry := apply sets_of; intros; unfold for_spin, unroll_for, NDIRAC; cbn [seq fold_left Nat.sub]; rewrite ?then_run;
  repeat (progress (stores ltac:(idtac; sneq); srd)); try (f_equal; cbn [csum]; ring).
Ltac svals := unfold ss, sv, dmul, dvec, vdec, ddag, dadd, dsub, dscale, dtransp in *; cbn [csum].
Ltac go4 := apply ss_loop; [intros; svals; sentry | intros; svals; srd; try reflexivity].
Ltac gov := apply sv_loop; [intros; svals; sentry | intros; svals; srd; try reflexivity].

Lemma spin_put_to_zero_ok a : sets_sv (spin_put_to_zero a) a (fun m _ => RtoC 0). Proof. unfold spin_put_to_zero. gov. Qed.
Lemma spin_copy_ok a b : sets_sv (spin_copy a b) a (fun m => sv m b). Proof. unfold spin_copy. gov. Qed.
Lemma spin_conj_ok a b : sets_sv (spin_conj a b) a (fun m i => Cconj (sv m b i)). Proof. unfold spin_conj. gov. Qed.
Lemma spin_summ_ok a b c : sets_sv (spin_summ a b c) a (fun m i => sv m b i + sv m c i). Proof. unfold spin_summ. gov. Qed.
Lemma spin_subt_ok a b c : sets_sv (spin_subt a b c) a (fun m i => sv m b i - sv m c i). Proof. unfold spin_subt. gov. Qed.
Lemma spin_prod_double_ok a b (r : R) : sets_sv (spin_prod_double a b r) a (fun m i => r * sv m b i). Proof. unfold spin_prod_double. gov. Qed.
Lemma spinspin_put_to_zero_ok a : sets_ss (spinspin_put_to_zero a) a (fun m _ _ => RtoC 0). Proof. unfold spinspin_put_to_zero, spin_put_to_zero. go4. Qed.
Lemma spinspin_copy_ok a b : sets_ss (spinspin_copy a b) a (fun m => ss m b). Proof. unfold spinspin_copy, spin_copy. go4. Qed.
Lemma unsafe_spinspin_hermitian_ok a b : a <> b -> sets_ss (unsafe_spinspin_hermitian a b) a (fun m => ddag (ss m b)).
Proof. intros. unfold unsafe_spinspin_hermitian. go4. Qed.
Lemma spinspin_summ_ok a b c : sets_ss (spinspin_summ a b c) a (fun m => dadd (ss m b) (ss m c)). Proof. unfold spinspin_summ. go4. Qed.
Lemma spinspin_subt_ok a b c : sets_ss (spinspin_subt a b c) a (fun m => dsub (ss m b) (ss m c)). Proof. unfold spinspin_subt. go4. Qed.
Lemma spinspin_prod_double_ok a b (r : R) : sets_ss (spinspin_prod_double a b r) a (fun m => dscale r (ss m b)). Proof. unfold spinspin_prod_double. go4. Qed.
Lemma spinspin_prod_idouble_ok a b (r : R) : sets_ss (spinspin_prod_idouble a b r) a (fun m => dscale (Ci * r) (ss m b)). Proof. unfold spinspin_prod_idouble. go4. Qed.
Lemma spinspin_summ_the_prod_double_ok a b (r : R) : sets_ss (spinspin_summ_the_prod_double a b r) a (fun m => dadd (ss m a) (dscale r (ss m b))).
Proof. unfold spinspin_summ_the_prod_double. go4. Qed.
Lemma spin_direct_prod_ok a b c : (forall i, b <> a@[i]) -> (forall i, c <> a@[i]) -> sets_ss (spin_direct_prod a b c) a (fun m i j => sv m b i * sv m c j).
Proof. intros. unfold spin_direct_prod. go4. Qed.
Lemma spinspin_summ_the_spinspin_prod_ok a b c : a <> b -> a <> c -> sets_ss (spinspin_summ_the_spinspin_prod a b c) a (fun m => dadd (ss m a) (dmul (ss m b) (ss m c))).
Proof. intros. unfold spinspin_summ_the_spinspin_prod. go4. Qed.
Lemma spinspin_subt_the_spinspin_prod_ok a b c : a <> b -> a <> c -> sets_ss (spinspin_subt_the_spinspin_prod a b c) a (fun m => dsub (ss m a) (dmul (ss m b) (ss m c))).
Proof. intros. unfold spinspin_subt_the_spinspin_prod. go4. Qed.
Lemma spinspin_summ_the_spinspin_dag_prod_ok a b c : a <> b -> a <> c -> sets_ss (spinspin_summ_the_spinspin_dag_prod a b c) a (fun m => dadd (ss m a) (dmul (ss m b) (ddag (ss m c)))).
Proof. intros. unfold spinspin_summ_the_spinspin_dag_prod. go4. Qed.
Lemma unsafe_dirac_prod_spinspin_raw a d p b : (forall i, (i < 4)%nat -> (p i < 4)%nat) -> a <> b -> (forall i, d <> a@[i]) ->
  sets_ss (unsafe_dirac_prod_spinspin a d p b) a (fun m i j => m d@[i] * m b@[p i]@[j]).
Proof. intros. unfold unsafe_dirac_prod_spinspin. go4. Qed.
Lemma unsafe_dirac_prod_spinspin_transp_raw a d p b : (forall i, (i < 4)%nat -> (p i < 4)%nat) -> a <> b -> (forall i, d <> a@[i]) ->
  sets_ss (unsafe_dirac_prod_spinspin_transp a d p b) a (fun m i j => m d@[i] * m b@[j]@[p i]).
Proof. intros. unfold unsafe_dirac_prod_spinspin_transp. go4. Qed.
Lemma unsafe_dirac_prod_spinspin_dag_raw a d p b : (forall i, (i < 4)%nat -> (p i < 4)%nat) -> a <> b -> (forall i, d <> a@[i]) ->
  sets_ss (unsafe_dirac_prod_spinspin_dag a d p b) a (fun m i j => m d@[i] * Cconj (m b@[j]@[p i])).
Proof. intros. unfold unsafe_dirac_prod_spinspin_dag. go4. Qed.
Lemma unsafe_dirac_prod_spin_raw a d p b : (forall i, (i < 4)%nat -> (p i < 4)%nat) -> a <> b -> a <> d ->
  sets_sv (unsafe_dirac_prod_spin a d p b) a (fun m i => m d@[i] * m b@[p i]).
Proof. intros. unfold unsafe_dirac_prod_spin. gov. Qed.
