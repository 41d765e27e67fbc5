From Coq Require Import Reals Lra Lia List FunctionalExtensionality.
From Coquelicot Require Import Complex.
From Verif Require Import CplxModel CplxSpec CplxProofs CplxStores MatModel MatSpec MatProofs MatRun.
Import ListNotations.
Open Scope C_scope.
Set Bullet Behavior "Strict Subproofs".

Ltac use L := unshelve eapply L; first [assumption | exact 0%R].
(** ** Versions with a local copy *)
Lemma safe_ok f d a v : sets_mat f d v -> sets_mat_loc (in_mat d) (f;; su3_copy a d) a v.
Proof.
  intros H m. rewrite then_run. destruct (H m) as [H1 H2]. destruct (su3_copy_ok a d a 0%R 0%R (f m)) as [H3 H4]. split.
  - intros i j Hi Hj. rewrite (H3 i j Hi Hj). exact (H1 i j Hi Hj).
  - intros p N Np. rewrite (H4 p N (fun F => F)). exact (H2 p Np (fun F => F)).
Qed.
Lemma safe_vec_ok f d a v : sets_vec f d v -> sets_vec_loc (in_vec d) (f;; color_copy a d) a v.
Proof.
  intros H m. rewrite then_run. destruct (H m) as [H1 H2]. destruct (color_copy_ok a d a 0%R 0%R (f m)) as [H3 H4]. split.
  - intros i Hi. rewrite (H3 i Hi). exact (H1 i Hi).
  - intros p N Np. rewrite (H4 p N (fun F => F)). exact (H2 p Np (fun F => F)).
Qed.
Lemma safe_su3_hermitian_ok a b d : d <> b -> sets_mat_loc (in_mat d) (safe_su3_hermitian a b d) a (fun m => dag (mat m b)).
Proof. intros H. apply safe_ok. use unsafe_su3_hermitian_ok. Qed.
Lemma safe_su3_transpose_ok a b d : d <> b -> sets_mat_loc (in_mat d) (safe_su3_transpose a b d) a (fun m i j => mat m b j i).
Proof. intros H. apply (safe_ok _ _ _ (fun m i j => mat m b j i)). use unsafe_su3_transpose_ok. Qed.
Lemma safe_su3_prod_su3_ok a b c d : d <> b -> d <> c -> sets_mat_loc (in_mat d) (safe_su3_prod_su3 a b c d) a (fun m => mmul (mat m b) (mat m c)).
Proof. intros. apply safe_ok. use unsafe_su3_prod_su3_ok. Qed.
Lemma safe_su3_dag_prod_su3_ok a b c d : d <> b -> d <> c ->
  sets_mat_loc (in_mat d) (safe_su3_dag_prod_su3 a b c d) a (fun m => mmul (dag (mat m b)) (mat m c)).
Proof. intros. apply safe_ok. use unsafe_su3_dag_prod_su3_ok. Qed.
Lemma safe_su3_prod_su3_dag_ok a b c d : d <> b -> d <> c ->
  sets_mat_loc (in_mat d) (safe_su3_prod_su3_dag a b c d) a (fun m => mmul (mat m b) (dag (mat m c))).
Proof. intros. apply safe_ok. use unsafe_su3_prod_su3_dag_ok. Qed.
Lemma safe_su3_dag_prod_su3_dag_ok a b c d : d <> b -> d <> c ->
  sets_mat_loc (in_mat d) (safe_su3_dag_prod_su3_dag a b c d) a (fun m => mmul (dag (mat m b)) (dag (mat m c))).
Proof. intros. apply safe_ok. use unsafe_su3_dag_prod_su3_dag_ok. Qed.
Lemma su3_prodassign_su3_ok a b d : d <> a -> d <> b -> sets_mat_loc (in_mat d) (su3_prodassign_su3 a b d) a (fun m => mmul (mat m a) (mat m b)).
Proof. apply safe_su3_prod_su3_ok. Qed.
Lemma safe_su3_prod_complex_ok a b c d : d <> b -> ~ in_mat d c ->
  sets_mat_loc (in_mat d) (safe_su3_prod_complex a b c d) a (fun m => mscale (m c) (mat m b)).
Proof. intros. apply safe_ok. use unsafe_su3_prod_complex_ok. Qed.
Lemma safe_su3_prod_complex_conj_ok a b c d : d <> b -> ~ in_mat d c ->
  sets_mat_loc (in_mat d) (safe_su3_prod_complex_conj a b c d) a (fun m => mscale (Cconj (m c)) (mat m b)).
Proof. intros. apply safe_ok. use unsafe_su3_prod_complex_conj_ok. Qed.
Lemma safe_su3_prod_color_ok a b c d : d <> c -> (forall i, d <> b@[i]) ->
  sets_vec_loc (in_vec d) (safe_su3_prod_color a b c d) a (fun m => mvec (mat m b) (vec m c)).
Proof. intros. apply safe_vec_ok. use unsafe_su3_prod_color_ok. Qed.
Lemma safe_su3_dag_prod_color_ok a b c d : d <> c -> (forall i, d <> b@[i]) ->
  sets_vec_loc (in_vec d) (safe_su3_dag_prod_color a b c d) a (fun m => mvec (dag (mat m b)) (vec m c)).
Proof. intros. apply safe_vec_ok. use unsafe_su3_dag_prod_color_ok. Qed.

(** ** Only some of the rows *)
Lemma rows_loop nr body a v : (nr <= 3)%nat ->
  (forall i j, (i < nr)%nat -> (j < 3)%nat -> sets (body i j) a@[i]@[j] (fun m => v m i j)) ->
  (forall i j i' j' m x, (i < nr)%nat -> (j < 3)%nat -> (i' < nr)%nat -> (j' < 3)%nat -> (i, j) <> (i', j') ->
     v (upd m a@[i']@[j'] x) i j = v m i j) ->
  sets_rows nr (unroll_for 0 nr (fun i => for_cols (body i))) a v.
Proof. intros Hn H1 H2 m. exact (mat_loop nr body a (fun i j m => v m i j) Hn H1 H2 m). Qed.
Ltac gorows := apply rows_loop; [assumption|intros; vals; entry|intros; vals; rd; try reflexivity].
Lemma unsafe_su3_prod_su3_rows a b c nr : (nr <= 3)%nat -> a <> b -> a <> c ->
  sets_rows nr (unsafe_su3_prod_su3 a b c nr) a (fun m => mmul (mat m b) (mat m c)).
Proof. intros Hn H0 H1. unfold unsafe_su3_prod_su3. gorows. Qed.
Lemma unsafe_su3_prod_su3_dag_rows a b c nr : (nr <= 3)%nat -> a <> b -> a <> c ->
  sets_rows nr (unsafe_su3_prod_su3_dag a b c nr) a (fun m => mmul (mat m b) (dag (mat m c))).
Proof. intros Hn H0 H1. unfold unsafe_su3_prod_su3_dag. gorows. Qed.
Lemma unsafe_su3_dag_prod_su3_dag_rows a b c nr : (nr <= 3)%nat -> a <> b -> a <> c ->
  sets_rows nr (unsafe_su3_dag_prod_su3_dag a b c nr) a (fun m => mmul (dag (mat m b)) (dag (mat m c))).
Proof. intros Hn H0 H1. unfold unsafe_su3_dag_prod_su3_dag. gorows. Qed.

(** ** Straight-line code *)
Ltac frame H := intros p N L; flat; name_steps; try name_last; repeat match goal with x := ?b : mem |- _ => unfold x; clear x; cbv beta; stores ltac:(idtac; neq);
  rewrite ?set_re_st, ?set_im_st; rewrite ?upd_other by neq end; try reflexivity.
Ltac entries := let i := fresh "i" in let j := fresh "j" in let Hi := fresh in let Hj := fresh in intros i j Hi Hj; idx i; idx j; unfold mat at 1.
Ltac unv := unfold traceless_part, herm_part, anti_herm_part, mat, vec, mscale, msub, madd, dag, mmul, mvec, trace, mid, acc_for; cbn [csum Nat.eqb seq fold_left Nat.sub NCOL].
Lemma su3_anti_hermitian_part_ok a b : sets_mat (su3_anti_hermitian_part a b) a (fun m => anti_herm_part (mat m b)).
Proof.
  intros m. unfold su3_anti_hermitian_part. split.
  - destruct (path_dec a b) as [->|H]; entries. all: unv; run. all: ceq.
  - frame idtac.
Qed.
Lemma unsafe_su3_traceless_anti_hermitian_part_ok a b :
  sets_mat (unsafe_su3_traceless_anti_hermitian_part a b) a (fun m => traceless_part (anti_herm_part (mat m b))).
Proof.
  intros m. unfold unsafe_su3_traceless_anti_hermitian_part. cbv zeta. set (tr := (acc_for 0 NCOL _ _ / _)%R). split.
  - assert (T : trace (anti_herm_part (mat m b)) * (/ 3)%R = (0, tr)%R).
    { unfold tr, INR, NCOL. unv. unfold im. ceq. }
    unfold traceless_part. rewrite T. clearbody tr.
    destruct (path_dec a b) as [->|H]; entries. all: unv; run. all: ceq.
  - clearbody tr. frame idtac.
Qed.
Lemma unsafe_su3_traceless_hermitian_part_ok a b :
  sets_mat (unsafe_su3_traceless_hermitian_part a b) a (fun m => traceless_part (herm_part (mat m b))).
Proof.
  intros m. unfold unsafe_su3_traceless_hermitian_part. cbv zeta. set (tr := (acc_for 0 NCOL _ _ / _)%R). split.
  - assert (T : trace (herm_part (mat m b)) * (/ 3)%R = (tr, 0)%R).
    { unfold tr, INR, NCOL. unv. unfold re. ceq. }
    unfold traceless_part. rewrite T. clearbody tr.
    destruct (path_dec a b) as [->|H]; entries. all: unv; run. all: ceq.
  - clearbody tr. frame idtac.
Qed.
