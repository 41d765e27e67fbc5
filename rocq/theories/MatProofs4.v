From Coq Require Import Reals Lra Lia List FunctionalExtensionality.
From Coquelicot Require Import Complex.
From Verif Require Import CplxModel CplxSpec CplxProofs CplxStores MatModel MatSpec MatProofs MatRun MatProofs2 MatProofs3.
Import ListNotations.
Open Scope C_scope.
Set Bullet Behavior "Strict Subproofs".

Lemma unsafe_su3_hermitian_prod_double_ok a b r : a <> b -> sets_mat (unsafe_su3_hermitian_prod_double a b r) a (fun m => mscale (RtoC r) (dag (mat m b))).
Proof. intros H m. unfold unsafe_su3_hermitian_prod_double. split; [entries; unv; run; ceq | frame idtac]. Qed.
Lemma safe_su3_hermitian_prod_double_ok a b r : sets_mat (safe_su3_hermitian_prod_double a b r) a (fun m => mscale (RtoC r) (dag (mat m b))).
Proof. intros m. unfold safe_su3_hermitian_prod_double. destruct (path_dec a b) as [->|H]; (split; [entries; unv; run; ceq | frame idtac]). Qed.
Lemma su3_summ_the_hermitian_prod_double_ok a b r : a <> b ->
  sets_mat (su3_summ_the_hermitian_prod_double a b r) a (fun m => madd (mat m a) (mscale (RtoC r) (dag (mat m b)))).
Proof. intros H m. unfold su3_summ_the_hermitian_prod_double. split; [entries; unv; run; ceq | frame idtac]. Qed.
Lemma su3_dag_summ_the_prod_double_ok a b r : a <> b ->
  sets_mat (su3_dag_summ_the_prod_double a b r) a (fun m => madd (mat m a) (mscale (RtoC r) (dag (mat m b)))).
Proof. intros H m. unfold su3_dag_summ_the_prod_double. split; [entries; unv; run; ceq | frame idtac]. Qed.

(** ** Third row *)
(** rows 0 and 1 are kept, row 2 is the conjugate of their vector product *)
Definition third_row (x : cmat) : cmat := fun i j => match i, j with
  | 2%nat, 0%nat => Cconj (x 0%nat 1%nat * x 1%nat 2%nat - x 0%nat 2%nat * x 1%nat 1%nat)
  | 2%nat, 1%nat => Cconj (x 0%nat 2%nat * x 1%nat 0%nat - x 0%nat 0%nat * x 1%nat 2%nat)
  | 2%nat, 2%nat => Cconj (x 0%nat 0%nat * x 1%nat 1%nat - x 0%nat 1%nat * x 1%nat 0%nat)
  | _, _ => x i j end.
Lemma Cconj_mult x y : Cconj (x * y) = Cconj x * Cconj y. Proof. ceq. Qed.
Lemma Cconj_plus x y : Cconj (x + y) = Cconj x + Cconj y. Proof. ceq. Qed.
Lemma Cconj_minus x y : Cconj (x - y) = Cconj x - Cconj y. Proof. ceq. Qed.
Lemma su3_build_third_row_ok o : sets_mat (su3_build_third_row o) o (fun m => third_row (mat m o)).
Proof.
  intros m. unfold su3_build_third_row. split; [entries; unfold third_row; rewrite ?Cconj_minus, ?Cconj_mult; unfold mat; run; try reflexivity | frame idtac].
Qed.

(** ** Inverse *)
Definition cofactors (x : cmat) : cmat := fun i j => match i, j with
  | 0%nat, 0%nat => x 1%nat 1%nat * x 2%nat 2%nat - x 1%nat 2%nat * x 2%nat 1%nat
  | 1%nat, 0%nat => x 1%nat 2%nat * x 2%nat 0%nat - x 1%nat 0%nat * x 2%nat 2%nat
  | 2%nat, 0%nat => x 1%nat 0%nat * x 2%nat 1%nat - x 1%nat 1%nat * x 2%nat 0%nat
  | 0%nat, 1%nat => x 0%nat 2%nat * x 2%nat 1%nat - x 0%nat 1%nat * x 2%nat 2%nat
  | 1%nat, 1%nat => x 0%nat 0%nat * x 2%nat 2%nat - x 0%nat 2%nat * x 2%nat 0%nat
  | 2%nat, 1%nat => x 0%nat 1%nat * x 2%nat 0%nat - x 0%nat 0%nat * x 2%nat 1%nat
  | 0%nat, 2%nat => x 0%nat 1%nat * x 1%nat 2%nat - x 0%nat 2%nat * x 1%nat 1%nat
  | 1%nat, 2%nat => x 0%nat 2%nat * x 1%nat 0%nat - x 0%nat 0%nat * x 1%nat 2%nat
  | 2%nat, 2%nat => x 0%nat 0%nat * x 1%nat 1%nat - x 0%nat 1%nat * x 1%nat 0%nat
  | _, _ => 0%R end.
Lemma cofactors_l x : meq (mmul (cofactors x) x) (mscale (det x) mid).
Proof. intros i j Hi Hj. idx i; idx j; unfold mmul, cofactors, mscale, det, mid; cbn [csum Nat.eqb]; ring. Qed.
Lemma cofactors_r x : meq (mmul x (cofactors x)) (mscale (det x) mid).
Proof. intros i j Hi Hj. idx i; idx j; unfold mmul, cofactors, mscale, det, mid; cbn [csum Nat.eqb]; ring. Qed.
Lemma cof_det x : det (cofactors x) = det x * det x.
Proof. unfold det, cofactors. ring. Qed.
Lemma cmod_0 (z : C) : (fst z * fst z + snd z * snd z)%R = 0%R -> z = 0%R.
Proof. intros H. destruct z as [u v]; cbn in *. assert (u = 0%R) by nra. assert (v = 0%R) by nra. subst. reflexivity. Qed.
Lemma complex_reciprocal_st r c m : complex_reciprocal r c m = upd m r ((fst (m c) / (fst (m c) * fst (m c) + snd (m c) * snd (m c)))%R, (- snd (m c) / (fst (m c) * fst (m c) + snd (m c) * snd (m c)))%R).
Proof.
  unfold complex_reciprocal, set_im, set_re, re, im. cbv zeta. rewrite upd_upd, upd_same. f_equal. cbn [fst]. f_equal. unfold upd.
  destruct (path_dec c r) as [->|_]; reflexivity.
Qed.
Lemma reciprocal_ok (z : C) : z <> 0%R ->
  ((fst z / (fst z * fst z + snd z * snd z))%R, (- snd z / (fst z * fst z + snd z * snd z))%R) = / z.
Proof.
  intros H. assert (N : (fst z * fst z + snd z * snd z)%R <> 0%R) by (intros F; apply H, cmod_0, F).
  unfold Cinv. replace (fst z ^ 2 + snd z ^ 2)%R with (fst z * fst z + snd z * snd z)%R by ring. reflexivity.
Qed.
