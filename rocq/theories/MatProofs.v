From Coq Require Import Reals Lra Lia List FinFun FunctionalExtensionality.
From Coquelicot Require Import Complex.
From Verif Require Import CplxModel CplxSpec CplxProofs CplxStores MatModel MatSpec.
Import ListNotations.
Open Scope C_scope.

(** ** Loops on distinct cells *)
Section Loop.
Context {I : Type} (body : I -> mem -> mem) (t : I -> path) (v : I -> mem -> C).
Definition Sets (ks : list I) (o : mem -> mem) : Prop :=
  forall m, (forall k, In k ks -> o m (t k) = v k m) /\ (forall p, (forall k, In k ks -> p <> t k) -> o m p = m p).
Lemma loop_sets ks : NoDup ks -> (forall k, In k ks -> sets (body k) (t k) (v k)) ->
  (forall k k', In k ks -> In k' ks -> k <> k' -> t k <> t k' /\ forall m x, v k (upd m (t k') x) = v k m) ->
  Sets ks (fold_left (fun m k => body k m) ks).
Proof.
  induction ks as [|k0 ks IH]; intros ND Hb Hi m; [split; [intros _ []|reflexivity]|].
  apply NoDup_cons_iff in ND. destruct ND as [N0 ND].
  destruct (IH ND (fun k Hk => Hb k (or_intror Hk)) (fun k k' Hk Hk' => Hi k k' (or_intror Hk) (or_intror Hk')) (body k0 m)) as [I1 I2].
  cbn [fold_left]. pose proof (sets_eq _ _ _ (Hb k0 (or_introl eq_refl))) as E. split.
  - intros k [<-|Hk].
    + rewrite I2. { rewrite E. apply upd_same. }
      intros k Hk. apply Hi; [now left|now right|]. intros ->. contradiction.
    + rewrite I1 by exact Hk. rewrite E. apply Hi; [now right|now left|]. intros ->. contradiction.
  - intros p Hp. rewrite I2 by (intros; apply Hp; now right). rewrite E, upd_other; [reflexivity|]. apply Hp. now left.
Qed.
End Loop.
Lemma fold_nested {A B} (f : A -> B -> mem -> mem) l1 l2 m :
  fold_left (fun m i => fold_left (fun m j => f i j m) l2 m) l1 m = fold_left (fun m k => f (fst k) (snd k) m) (list_prod l1 l2) m.
Proof.
  revert m. induction l1 as [|i l1 IH]; intros m; [reflexivity|]. cbn [list_prod fold_left]. rewrite fold_left_app, IH. f_equal.
  clear. revert m. induction l2 as [|j l2 IH]; intros m; [reflexivity|]. cbn. apply IH.
Qed.
Lemma NoDup_app_intro {A} (l1 l2 : list A) : NoDup l1 -> NoDup l2 -> (forall x, In x l1 -> ~ In x l2) -> NoDup (l1 ++ l2).
Proof.
  intros H1 H2 H. induction H1 as [|x l1 N H1 IH]; [exact H2|]. cbn. constructor.
  - rewrite in_app_iff. intros [F|F]; [contradiction|]. apply (H x); [now left|exact F].
  - apply IH. intros y Hy. apply H. now right.
Qed.
Lemma NoDup_list_prod {A B} (l1 : list A) (l2 : list B) : NoDup l1 -> NoDup l2 -> NoDup (list_prod l1 l2).
Proof.
  intros H1 H2. induction H1 as [|x l1 N H1 IH]; [constructor|]. cbn [list_prod]. apply NoDup_app_intro.
  - apply Injective_map_NoDup; [intros a b E; congruence|exact H2].
  - exact IH.
  - intros [u w] H. apply in_map_iff in H. destruct H as (y & E & _). injection E as <- <-. rewrite in_prod_iff. tauto.
Qed.

(** a matrix, row by row, for the first [nr] rows *)
Lemma mat_loop nr body a (v : nat -> nat -> mem -> C) : (nr <= 3)%nat ->
  (forall i j, (i < nr)%nat -> (j < 3)%nat -> sets (body i j) a@[i]@[j] (v i j)) ->
  (forall i j i' j' m x, (i < nr)%nat -> (j < 3)%nat -> (i' < nr)%nat -> (j' < 3)%nat -> (i, j) <> (i', j') ->
     v i j (upd m a@[i']@[j'] x) = v i j m) ->
  forall m, (forall i j, (i < nr)%nat -> (j < 3)%nat -> unroll_for 0 nr (fun i => for_cols (body i)) m a@[i]@[j] = v i j m) /\
    (forall p, (forall i j, (i < nr)%nat -> (j < 3)%nat -> p <> a@[i]@[j]) -> unroll_for 0 nr (fun i => for_cols (body i)) m p = m p).
Proof.
  intros Hn Hb Hv m. unfold for_cols, unroll_for. rewrite !Nat.sub_0_r, fold_nested.
  destruct (loop_sets (fun k : nat * nat => body (fst k) (snd k)) (fun k => a@[fst k]@[snd k]) (fun k => v (fst k) (snd k))
    (list_prod (seq 0 nr) (seq 0 NCOL))) with (m := m) as [H1 H2].
  - apply NoDup_list_prod; apply seq_NoDup.
  - intros [i j] H. apply in_prod_iff in H. rewrite !in_seq in H. apply Hb; unfold NCOL in *; cbn; lia.
  - intros [i j] [i' j'] H H' N. apply in_prod_iff in H, H'. rewrite !in_seq in H, H'. cbn. split.
    + unfold at_. congruence.
    + intros. apply Hv; unfold NCOL in *; auto; lia.
  - split.
    + intros i j Hi Hj. apply (H1 (i, j)). apply in_prod_iff. rewrite !in_seq. unfold NCOL. lia.
    + intros p Hp. apply H2. intros [i j] H. apply in_prod_iff in H. rewrite !in_seq in H. apply Hp; unfold NCOL in *; cbn; lia.
Qed.
Lemma mat_loop3 body a (v : mem -> cmat) :
  (forall i j, (i < 3)%nat -> (j < 3)%nat -> sets (body i j) a@[i]@[j] (fun m => v m i j)) ->
  (forall i j i' j' m x, (i < 3)%nat -> (j < 3)%nat -> (i' < 3)%nat -> (j' < 3)%nat -> (i, j) <> (i', j') ->
     v (upd m a@[i']@[j'] x) i j = v m i j) ->
  sets_mat (for_cols (fun i => for_cols (body i))) a v.
Proof.
  intros Hb Hv m. destruct (mat_loop 3 body a (fun i j m => v m i j) (le_n 3) Hb Hv m) as [H1 H2]. split.
  - intros i j Hi Hj. apply H1; auto.
  - intros p Hp _. apply H2. intros i j Hi Hj ->. apply Hp. exists i, j. auto.
Qed.
Lemma vec_loop body a (v : mem -> cvec) :
  (forall i, (i < 3)%nat -> sets (body i) a@[i] (fun m => v m i)) ->
  (forall i i' m x, (i < 3)%nat -> (i' < 3)%nat -> i <> i' -> v (upd m a@[i'] x) i = v m i) ->
  sets_vec (for_cols body) a v.
Proof.
  intros Hb Hv m. unfold for_cols, unroll_for.
  destruct (loop_sets body (fun i => a@[i]) (fun i m => v m i) (seq 0 (NCOL - 0))) with (m := m) as [H1 H2].
  - apply seq_NoDup.
  - intros i H. apply in_seq in H. apply Hb. unfold NCOL in *. lia.
  - intros i i' H H' N. apply in_seq in H, H'. split; [unfold at_; congruence|]. intros. apply Hv; unfold NCOL in *; auto; lia.
  - split.
    + intros i Hi. apply H1. apply in_seq. unfold NCOL. lia.
    + intros p Hp _. apply H2. intros i H ->. apply in_seq in H. apply Hp. exists i. unfold NCOL in *. split; [lia|reflexivity].
Qed.

Lemma upd_upd m a x y : upd (upd m a x) a y = upd m a y.
Proof. apply functional_extensionality. intros p. unfold upd. destruct (path_dec p a); reflexivity. Qed.
Lemma then_run f g m : (f;; g) m = g (f m). Proof. reflexivity. Qed.

Lemma inmat_neq a p i j : ~ in_mat a p -> (i < 3)%nat -> (j < 3)%nat -> p <> a@[i]@[j].
Proof. intros H Hi Hj ->. apply H. exists i, j. auto. Qed.
Lemma invec_neq a p i : ~ in_vec a p -> (i < 3)%nat -> p <> a@[i].
Proof. intros H Hi ->. apply H. exists i. auto. Qed.
Ltac neq := idtac; first
  [ solve [let E := fresh in intros E; unfold at_ in E; first [congruence | injection E; intros; subst; first [congruence | lia | match goal with H : forall i, _ <> _ |- _ => eapply H; reflexivity end]]]
  | solve [apply inmat_neq; [assumption|lia|lia]] | solve [apply not_eq_sym; apply inmat_neq; [assumption|lia|lia]]
  | solve [apply invec_neq; [assumption|lia]] | solve [apply not_eq_sym; apply invec_neq; [assumption|lia]] ].
Ltac rd := repeat first [rewrite upd_same | rewrite upd_upd | rewrite upd_other by neq].
(** run one entry: everything becomes one store in the same cell *)
Ltac entry := apply sets_of; intros; unfold unroll_for, for_cols, unroll_for, NCOL; cbn [seq fold_left Nat.sub]; rewrite ?then_run;
  repeat (progress (stores ltac:(idtac; neq); rd)); try (f_equal; cbn [csum]; ring).
Ltac vals := unfold mat, vec, mmul, mvec, dag, madd, msub, mscale in *; cbn [csum].
Ltac go2 := apply mat_loop3; [intros; vals; entry | intros; vals; rd; try reflexivity].
Ltac go1 := apply vec_loop; [intros; vals; entry | intros; vals; rd; try reflexivity].

Lemma su3_put_to_zero_ok (a b c : path) (r s : R)  : sets_mat (su3_put_to_zero a) a (fun m => (fun _ _ => RtoC 0)).
Proof. unfold su3_put_to_zero, color_put_to_zero. go2. Qed.
Lemma su3_copy_ok (a b c : path) (r s : R)  : sets_mat (su3_copy a b) a (fun m => mat m b).
Proof. unfold su3_copy, color_copy. go2. Qed.
Lemma su3_summ_ok (a b c : path) (r s : R)  : sets_mat (su3_summ a b c) a (fun m => madd (mat m b) (mat m c)).
Proof. unfold su3_summ, color_summ. go2. Qed.
Lemma su3_subt_ok (a b c : path) (r s : R)  : sets_mat (su3_subt a b c) a (fun m => msub (mat m b) (mat m c)).
Proof. unfold su3_subt, color_subt. go2. Qed.
Lemma su3_summassign_ok (a b c : path) (r s : R)  : sets_mat (su3_summassign a b) a (fun m => madd (mat m a) (mat m b)).
Proof. unfold su3_summassign, su3_summ, color_summ. go2. Qed.
Lemma su3_subtassign_ok (a b c : path) (r s : R)  : sets_mat (su3_subtassign a b) a (fun m => msub (mat m a) (mat m b)).
Proof. unfold su3_subtassign, su3_subt, color_subt. go2. Qed.
Lemma su3_prod_double_ok (a b c : path) (r s : R)  : sets_mat (su3_prod_double a b r) a (fun m => mscale r (mat m b)).
Proof. unfold su3_prod_double, color_prod_double. go2. Qed.
Lemma su3_prodassign_double_ok (a b c : path) (r s : R)  : sets_mat (su3_prodassign_double a r) a (fun m => mscale r (mat m a)).
Proof. unfold su3_prodassign_double, su3_prod_double, color_prod_double. go2. Qed.
Lemma su3_prod_idouble_ok (a b c : path) (r s : R)  : sets_mat (su3_prod_idouble a b r) a (fun m => mscale (Ci * r) (mat m b)).
Proof. unfold su3_prod_idouble, color_prod_idouble. go2. Qed.
Lemma su3_prodassign_idouble_ok (a b c : path) (r s : R)  : sets_mat (su3_prodassign_idouble a r) a (fun m => mscale (Ci * r) (mat m a)).
Proof. unfold su3_prodassign_idouble, su3_prod_idouble, color_prod_idouble. go2. Qed.
Lemma su3_summ_the_prod_double_ok (a b c : path) (r s : R)  : sets_mat (su3_summ_the_prod_double a b r) a (fun m => madd (mat m a) (mscale r (mat m b))).
Proof. unfold su3_summ_the_prod_double, color_summ_the_prod_double. go2. Qed.
Lemma su3_summ_the_prod_idouble_ok (a b c : path) (r s : R)  : sets_mat (su3_summ_the_prod_idouble a b r) a (fun m => madd (mat m a) (mscale (Ci * r) (mat m b))).
Proof. unfold su3_summ_the_prod_idouble, color_summ_the_prod_idouble. go2. Qed.
Lemma su3_linear_comb_ok (a b c : path) (r s : R)  : sets_mat (su3_linear_comb a b r c s) a (fun m => madd (mscale r (mat m b)) (mscale s (mat m c))).
Proof. unfold su3_linear_comb, color_linear_comb. go2. Qed.
Lemma su3_summ_the_prod_complex_ok (a b c : path) (r s : R) (H0 : ~ in_mat a c) : sets_mat (su3_summ_the_prod_complex a b c) a (fun m => madd (mat m a) (mscale (m c) (mat m b))).
Proof. unfold su3_summ_the_prod_complex, color_summ_the_prod_complex. go2. Qed.
Lemma unsafe_su3_prod_complex_ok (a b c : path) (r s : R) (H0 : a <> b) (H1 : ~ in_mat a c) : sets_mat (unsafe_su3_prod_complex a b c) a (fun m => mscale (m c) (mat m b)).
Proof. unfold unsafe_su3_prod_complex, unsafe_color_prod_complex. go2. Qed.
Lemma unsafe_su3_prod_complex_conj_ok (a b c : path) (r s : R) (H0 : a <> b) (H1 : ~ in_mat a c) : sets_mat (unsafe_su3_prod_complex_conj a b c) a (fun m => mscale (Cconj (m c)) (mat m b)).
Proof. unfold unsafe_su3_prod_complex_conj, unsafe_color_prod_complex_conj. go2. Qed.
Lemma unsafe_su3_hermitian_ok (a b c : path) (r s : R) (H0 : a <> b) : sets_mat (unsafe_su3_hermitian a b) a (fun m => dag (mat m b)).
Proof. unfold unsafe_su3_hermitian. go2. Qed.
Lemma unsafe_su3_transpose_ok (a b c : path) (r s : R) (H0 : a <> b) : sets_mat (unsafe_su3_transpose a b) a (fun m => (fun i j => mat m b j i)).
Proof. unfold unsafe_su3_transpose. go2. Qed.
Lemma unsafe_su3_summ_su3_dag_ok (a b c : path) (r s : R) (H0 : a <> c) : sets_mat (unsafe_su3_summ_su3_dag a b c) a (fun m => madd (mat m b) (dag (mat m c))).
Proof. unfold unsafe_su3_summ_su3_dag. go2. Qed.
Lemma su3_summassign_su3_dag_ok (a b c : path) (r s : R) (H0 : a <> c) : sets_mat (su3_summassign_su3_dag a c) a (fun m => madd (mat m a) (dag (mat m c))).
Proof. unfold su3_summassign_su3_dag, unsafe_su3_summ_su3_dag. go2. Qed.
Lemma unsafe_su3_subt_su3_dag_ok (a b c : path) (r s : R) (H0 : a <> c) : sets_mat (unsafe_su3_subt_su3_dag a b c) a (fun m => msub (mat m b) (dag (mat m c))).
Proof. unfold unsafe_su3_subt_su3_dag. go2. Qed.
Lemma su3_subtassign_su3_dag_ok (a b c : path) (r s : R) (H0 : a <> c) : sets_mat (su3_subtassign_su3_dag a c) a (fun m => msub (mat m a) (dag (mat m c))).
Proof. unfold su3_subtassign_su3_dag, unsafe_su3_subt_su3_dag. go2. Qed.
Lemma su3_summ_the_prod_su3_ok (a b c : path) (r s : R) (H0 : a <> b) (H1 : a <> c) : sets_mat (su3_summ_the_prod_su3 a b c) a (fun m => madd (mat m a) (mmul (mat m b) (mat m c))).
Proof. unfold su3_summ_the_prod_su3. go2. Qed.
Lemma su3_summ_the_prod_su3_dag_ok (a b c : path) (r s : R) (H0 : a <> b) (H1 : a <> c) : sets_mat (su3_summ_the_prod_su3_dag a b c) a (fun m => madd (mat m a) (mmul (mat m b) (dag (mat m c)))).
Proof. unfold su3_summ_the_prod_su3_dag. go2. Qed.
Lemma su3_summ_the_dag_prod_su3_ok (a b c : path) (r s : R) (H0 : a <> b) (H1 : a <> c) : sets_mat (su3_summ_the_dag_prod_su3 a b c) a (fun m => madd (mat m a) (mmul (dag (mat m b)) (mat m c))).
Proof. unfold su3_summ_the_dag_prod_su3. go2. Qed.
Lemma su3_dag_summ_the_prod_su3_ok (a b c : path) (r s : R) (H0 : a <> b) (H1 : a <> c) : sets_mat (su3_dag_summ_the_prod_su3 a b c) a (fun m => madd (mat m a) (mmul (dag (mat m b)) (mat m c))).
Proof. unfold su3_dag_summ_the_prod_su3. go2. Qed.
Lemma su3_subt_the_prod_su3_dag_ok (a b c : path) (r s : R) (H0 : a <> b) (H1 : a <> c) : sets_mat (su3_subt_the_prod_su3_dag a b c) a (fun m => msub (mat m a) (mmul (mat m b) (dag (mat m c)))).
Proof. unfold su3_subt_the_prod_su3_dag. go2. Qed.
Lemma unsafe_su3_prod_su3_ok (a b c : path) (H0 : a <> b) (H1 : a <> c) : sets_mat (unsafe_su3_prod_su3 a b c NCOL) a (fun m => mmul (mat m b) (mat m c)).
Proof. unfold unsafe_su3_prod_su3. change (unroll_for 0 NCOL) with for_cols. go2. Qed.
Lemma unsafe_su3_dag_prod_su3_ok (a b c : path) (H0 : a <> b) (H1 : a <> c) : sets_mat (unsafe_su3_dag_prod_su3 a b c NCOL) a (fun m => mmul (dag (mat m b)) (mat m c)).
Proof. unfold unsafe_su3_dag_prod_su3. change (unroll_for 0 NCOL) with for_cols. go2. Qed.
Lemma unsafe_su3_prod_su3_dag_ok (a b c : path) (H0 : a <> b) (H1 : a <> c) : sets_mat (unsafe_su3_prod_su3_dag a b c NCOL) a (fun m => mmul (mat m b) (dag (mat m c))).
Proof. unfold unsafe_su3_prod_su3_dag. change (unroll_for 0 NCOL) with for_cols. go2. Qed.
Lemma unsafe_su3_dag_prod_su3_dag_ok (a b c : path) (H0 : a <> b) (H1 : a <> c) : sets_mat (unsafe_su3_dag_prod_su3_dag a b c NCOL) a (fun m => mmul (dag (mat m b)) (dag (mat m c))).
Proof. unfold unsafe_su3_dag_prod_su3_dag. change (unroll_for 0 NCOL) with for_cols. go2. Qed.
Lemma color_copy_ok (a b c : path) (r s : R)  : sets_vec (color_copy a b) a (fun m => vec m b).
Proof. unfold color_copy. go1. Qed.
Lemma color_summ_ok (a b c : path) (r s : R)  : sets_vec (color_summ a b c) a (fun m => (fun i => vec m b i + vec m c i)).
Proof. unfold color_summ. go1. Qed.
Lemma color_subt_ok (a b c : path) (r s : R)  : sets_vec (color_subt a b c) a (fun m => (fun i => vec m b i - vec m c i)).
Proof. unfold color_subt. go1. Qed.
Lemma color_prod_double_ok (a b c : path) (r s : R)  : sets_vec (color_prod_double a b r) a (fun m => (fun i => vec m b i * r)).
Proof. unfold color_prod_double. go1. Qed.
Lemma color_summ_the_prod_double_ok (a b c : path) (r s : R)  : sets_vec (color_summ_the_prod_double a b r) a (fun m => (fun i => vec m a i + vec m b i * r)).
Proof. unfold color_summ_the_prod_double. go1. Qed.
Lemma color_summ_the_prod_idouble_ok (a b c : path) (r s : R)  : sets_vec (color_summ_the_prod_idouble a b r) a (fun m => (fun i => vec m a i + vec m b i * (Ci * r))).
Proof. unfold color_summ_the_prod_idouble. go1. Qed.
Lemma color_summ_the_prod_complex_ok (a b c : path) (r s : R) (H0 : ~ in_vec a c) : sets_vec (color_summ_the_prod_complex a b c) a (fun m => (fun i => vec m a i + vec m b i * m c)).
Proof. unfold color_summ_the_prod_complex. go1. Qed.
Lemma color_subt_the_prod_complex_ok (a b c : path) (r s : R) (H0 : ~ in_vec a c) : sets_vec (color_subt_the_prod_complex a b c) a (fun m => (fun i => vec m a i - vec m b i * m c)).
Proof. unfold color_subt_the_prod_complex. go1. Qed.
Lemma color_linear_comb_ok (a b c : path) (r s : R)  : sets_vec (color_linear_comb a b r c s) a (fun m => (fun i => vec m b i * r + vec m c i * s)).
Proof. unfold color_linear_comb. go1. Qed.
Lemma safe_color_prod_complex_ok (a b c : path) (r s : R) (H0 : ~ in_vec a c) : sets_vec (safe_color_prod_complex a b c) a (fun m => (fun i => vec m b i * m c)).
Proof. unfold safe_color_prod_complex. go1. Qed.
Lemma unsafe_color_prod_complex_ok (a b c : path) (r s : R) (H0 : a <> b) (H1 : ~ in_vec a c) : sets_vec (unsafe_color_prod_complex a b c) a (fun m => (fun i => vec m b i * m c)).
Proof. unfold unsafe_color_prod_complex. go1. Qed.
Lemma unsafe_su3_prod_color_ok (a b c : path) (r s : R) (H0 : a <> c) (H1 : forall i, a <> b@[i]) : sets_vec (unsafe_su3_prod_color a b c) a (fun m => mvec (mat m b) (vec m c)).
Proof. unfold unsafe_su3_prod_color. go1. Qed.
Lemma unsafe_su3_dag_prod_color_ok (a b c : path) (r s : R) (H0 : a <> c) (H1 : forall i, a <> b@[i]) : sets_vec (unsafe_su3_dag_prod_color a b c) a (fun m => mvec (dag (mat m b)) (vec m c)).
Proof. unfold unsafe_su3_dag_prod_color. go1. Qed.
