From Coq Require Import Reals Lra Lia List FunctionalExtensionality.
From Coquelicot Require Import Complex.
From Verif Require Import CplxModel CplxSpec CplxProofs CplxStores MatModel MatSpec MatProofs MatRun MatProofs2.
Import ListNotations.
Open Scope C_scope.
Set Bullet Behavior "Strict Subproofs".

Ltac frame0 := flat; name_steps; try name_last; repeat match goal with x := ?b : mem |- _ => unfold x; clear x; cbv beta; stores ltac:(idtac; neq);
  rewrite ?set_re_st, ?set_im_st; rewrite ?upd_other by first [assumption | congruence | neq] end; try reflexivity.
Ltac cell := let m := fresh "m" in let p := fresh "p" in let N := fresh "N" in intros m p; destruct (path_dec p _) as [->|N];
  [unv; run; try ring | revert p N; let p := fresh "p" in let N := fresh "N" in intros p N; frame0].
Ltac color_flat := unfold su3_put_to_zero, color_put_to_zero, su3_copy, color_copy.
Lemma su3_put_to_id_ok a : sets_mat (su3_put_to_id a) a (fun _ => mid).
Proof. intros m. unfold su3_put_to_id; color_flat. split; [entries; unv; run; reflexivity | frame idtac]. Qed.
Lemma su3_put_to_diag_complex_ok a c : ~ in_mat a c -> sets_mat (su3_put_to_diag_complex a c) a (fun m => mscale (m c) mid).
Proof. intros H m. unfold su3_put_to_diag_complex; color_flat. split; [entries; unv; run; ring | frame idtac]. Qed.
Lemma su3_put_to_diag_color_ok a c : (forall i, c <> a@[i]) -> sets_mat (su3_put_to_diag_color a c) a (fun m i j => if Nat.eqb i j then m c@[i] else 0%R).
Proof. intros H m. unfold su3_put_to_diag_color; color_flat. split; [entries; unv; run; reflexivity | frame idtac]. Qed.
Lemma su3_put_to_diag_double_ok a r : sets_mat (su3_put_to_diag_double a r) a (fun _ => mscale (RtoC r) mid).
Proof. intros m. unfold su3_put_to_diag_double; color_flat. split; [entries; unv; run; ceq | frame idtac]. Qed.
Lemma su3_summ_real_ok a b r : sets_mat (su3_summ_real a b r) a (fun m => madd (mat m b) (mscale (RtoC r) mid)).
Proof.
  intros m. unfold su3_summ_real; color_flat. destruct (path_dec a b) as [->|H]; (split; [entries; unv; run; ceq | frame idtac]).
Qed.
Lemma su3_trace_ok t b : ~ in_mat b t -> sets (su3_trace t b) t (fun m => trace (mat m b)).
Proof. intros H. unfold su3_trace. flat. unv. apply sets_of. intros m. rewrite ?then_run. repeat (progress (stores ltac:(idtac; neq); rd)). f_equal. ring. Qed.
Lemma su3_subt_complex_ok a b c : ~ in_mat a c -> sets_mat (su3_subt_complex a b c) a (fun m => msub (mat m b) (mscale (m c) mid)).
Proof.
  intros H0 m. unfold su3_subt_complex; color_flat. destruct (path_dec a b) as [->|H]; (split; [entries; unv; run; ring | frame idtac]).
Qed.
Lemma su3_summ_the_trace_ok t b : ~ in_mat b t -> sets (su3_summ_the_trace t b) t (fun m => m t + trace (mat m b)).
Proof. intros H. unfold su3_summ_the_trace. flat. unv. apply sets_of. intros m. rewrite ?then_run. repeat (progress (stores ltac:(idtac; neq); rd)). f_equal. ring. Qed.
Lemma su3_real_trace_ok m b : su3_real_trace m b = fst (trace (mat m b)).
Proof. unfold su3_real_trace, acc_for, re. unv. cbn. ring. Qed.
Lemma color_scalar_prod_ok t b c : ~ in_vec b t -> ~ in_vec c t -> sets (color_scalar_prod t b c) t (fun m => csum 3 (fun k => Cconj (m b@[k]) * m c@[k])).
Proof.
  intros H H0. unfold color_scalar_prod. flat. unv. apply sets_of. intros m. rewrite ?then_run. repeat (progress (stores ltac:(idtac; neq); rd)).
  f_equal. ring.
Qed.
Lemma color_norm2_ok m c : RtoC (color_norm2 m c) = csum 3 (fun k => Cconj (m c@[k]) * m c@[k]).
Proof. unfold color_norm2, acc_for, complex_norm2, re, im. cbn [csum seq fold_left Nat.sub NCOL]. ceq. Qed.
Lemma su3_norm2_ok m a : su3_norm2 m a = norm2 (mat m a).
Proof. unfold su3_norm2, norm2, acc_for, color_norm2, acc_for, complex_norm2, re, im. unv. cbn. ring. Qed.
Lemma real_part_of_trace_su3_prod_su3_dag_ok m a b : real_part_of_trace_su3_prod_su3_dag m a b = fst (trace (mmul (mat m a) (dag (mat m b)))).
Proof. unfold real_part_of_trace_su3_prod_su3_dag, real_part_of_complex_scalar_prod, re, im. unv. cbn. ring. Qed.
Lemma trace_su3_prod_su3_ok t a b : ~ in_mat a t -> ~ in_mat b t -> sets (trace_su3_prod_su3 t a b) t (fun m => trace (mmul (mat m a) (mat m b))).
Proof.
  intros H H0. unfold trace_su3_prod_su3. cell.
Qed.
Lemma su3_real_det_ok m u : su3_real_det m u = fst (det (mat m u)).
Proof. unfold su3_real_det, det, re, im, mat. cbn. ring. Qed.

(** determinant: [a] is the local variable *)
Lemma su3_det_ok d u a : a <> d -> ~ in_mat u d -> ~ in_mat u a -> sets_loc (eq a) (su3_det d u a) d (fun m => det (mat m u)).
Proof.
  intros Ha Hd Hu m. unfold su3_det. split.
  - unfold det, mat. run. ring.
  - intros p N L. frame0.
Qed.
