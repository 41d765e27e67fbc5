(** The unitarisation as a loop on matrices, and what it leaves. *)
From Coq Require Import Reals Lra Lia List Morphisms.
From Coquelicot Require Import Coquelicot.
From Verif Require Import CplxModel CplxSpec CplxProofs MatModel MatSpec MatProofs MatRun MatProofs2 MatProofs3 MatProofs4 MatInverse MatAlg GaugeModel GaugeProofs ExpSmall UnitModel UnitAlg UnitDet UnitProofs.
Import ListNotations.
Set Bullet Behavior "Strict Subproofs".
Open Scope R_scope.

Definition vres (T : cmat) : R := sqrt (norm2 (msub (nstep T) T)).
Inductive vloop (tol : R) : cmat -> nat -> cmat -> Prop :=
| v_last T : vres T <= tol -> vloop tol T 1 (nstep T)
| v_more T n N : vres T > tol -> vloop tol (nstep T) n N -> vloop tol T (S n) N.

Lemma vres_proper x y : meq x y -> vres x = vres y.
Proof.
  intros H. unfold vres. f_equal. apply norm2_proper. intros i j Hi Hj. unfold msub. now rewrite (nstep_proper _ _ H i j Hi Hj), (H i j Hi Hj).
Qed.
Lemma vloop_proper tol T n N : vloop tol T n N -> forall T', meq T T' -> exists N', vloop tol T' n N' /\ meq N N'.
Proof.
  induction 1 as [T R|T n N R _ IH]; intros T' H.
  - exists (nstep T'). split; [constructor; now rewrite <- (vres_proper _ _ H)|now apply nstep_proper].
  - destruct (IH _ (nstep_proper _ _ H)) as (N' & L & E). exists N'. split; [|exact E]. constructor; [now rewrite <- (vres_proper _ _ H)|exact L].
Qed.
Lemma vloop_det tol T n N : vloop tol T n N -> forall n' N', vloop tol T n' N' -> n = n' /\ N = N'.
Proof.
  induction 1 as [T R|T n N R _ IH]; intros n' N' K; inversion K; subst; try lra; [now split|].
  destruct (IH _ _ H0) as [-> ->]. now split.
Qed.
Lemma avg_gram T : det T <> RtoC 0 -> meq (mmul (nstep T) (dag (nstep T))) (madd mid (gram (dif (gam T) T (minv T)))).
Proof. intros D. destruct (gam_ok T D) as [G1 G2]. exact (avg_dif T (minv T) (minv_r T D) (gam T) G1). Qed.
Lemma nstep_det T : det T <> RtoC 0 -> det (nstep T) <> RtoC 0.
Proof. intros D. exact (det_N _ _ (avg_gram T D)). Qed.

Section Loop.
Context (new tmp inv dt rc a : path) (N1 : new <> tmp) (N2 : new <> inv) (N3 : inv <> tmp) (N4 : a <> dt) (N5 : a <> rc) (N6 : dt <> rc).
Context (L : forall b p, In b [new; tmp; inv] -> In p [a; dt; rc] -> ~ in_mat b p).
Lemma loop_v tol m n m' : unit_loop new tmp inv dt rc a tol m n m' -> det (mat m tmp) <> RtoC 0 -> exists N, vloop tol (mat m tmp) n N /\ meq (mat m' new) N.
Proof using N1 N2 N3 N4 N5 N6 L.
  induction 1 as [m m' r B R|m m' r n m'' B R _ IH]; intros D;
    (destruct (body_ok new tmp inv dt rc a N1 N2 N3 N4 N5 N6 L m D) as (x & y & B' & A1 & A2 & A3); rewrite B in B'; injection B' as <- <-; fold (vres (mat m tmp)) in A3).
  - exists (nstep (mat m tmp)). split; [constructor; lra|exact A1].
  - destruct IH as (N & V & E); [rewrite (det_proper _ _ A2); now apply nstep_det|]. destruct (vloop_proper _ _ _ _ V _ A2) as (N' & V' & E').
    exists N'. split; [constructor; [lra|exact V']|now rewrite E].
Qed.
Lemma v_loop tol T n N : vloop tol T n N -> forall m, meq (mat m tmp) T -> det T <> RtoC 0 -> exists m', unit_loop new tmp inv dt rc a tol m n m' /\ meq (mat m' new) N.
Proof using N1 N2 N3 N4 N5 N6 L.
  induction 1 as [T R|T n N R _ IH]; intros m HT D;
    (destruct (body_ok new tmp inv dt rc a N1 N2 N3 N4 N5 N6 L m ltac:(now rewrite (det_proper _ _ HT))) as (m' & r & B & A1 & A2 & A3); fold (vres (mat m tmp)) in A3; rewrite (vres_proper _ _ HT) in A3).
  - exists m'. split; [eapply unit_last; [exact B|lra]|]. rewrite A1. now apply nstep_proper.
  - destruct (IH m') as (m'' & U & E); [rewrite A2; now apply nstep_proper|now apply nstep_det|]. exists m''. split; [eapply unit_more; [exact B|lra|exact U]|exact E].
Qed.
End Loop.

Definition croot (z : C) : C :=
  (Rpower (sqn z) (- 1 / INR 3 / 2) * cos (atan2 (snd z) (fst z) * (- 1 / INR 3)), Rpower (sqn z) (- 1 / INR 3 / 2) * sin (atan2 (snd z) (fst z) * (- 1 / INR 3))).
Lemma croot_ok z : z <> RtoC 0 -> (croot z * croot z * croot z * z)%C = RtoC 1.
Proof. intros H. now apply (cube_root z). Qed.
Lemma end_ok new dt fact a d m : dt <> fact -> a <> dt -> d <> new -> ~ in_mat new dt -> ~ in_mat new a -> ~ in_mat new fact -> ~ in_mat d fact ->
  meq (mat (unit_end new dt fact a d m) new) (mscale (croot (det (mat m new))) (mat m new)).
Proof.
  intros H1 H2 H3 H4 H5 H6 H7. unfold unit_end. rewrite !then_run.
  destruct (su3_det_ok dt new a H2 H4 H5 m) as [A1 F1]. set (m1 := su3_det dt new a m) in *.
  assert (M1 : meq (mat m1 new) (mat m new)).
  { intros i j Hi Hj. unfold mat. apply F1; [intros E; apply H4; exists i, j; auto|intros E; apply H5; exists i, j; auto]. }
  rewrite complex_pow_st, A1. set (m2 := upd m1 fact _). set (z := det (mat m new)) in *.
  destruct (safe_su3_prod_complex_ok new new fact d H3 H7 m2) as [A3 _]. rewrite A3.
  assert (M2 : meq (mat m2 new) (mat m new)) by (rewrite <- M1; intros i j Hi Hj; unfold mat, m2; apply upd_other; intros E; apply H6; exists i, j; auto).
  assert (F2 : m2 fact = croot z) by (unfold m2; rewrite upd_same; reflexivity).
  rewrite F2. intros i j Hi Hj. unfold mscale. now rewrite (M2 i j Hi Hj).
Qed.

Lemma loc_ok b p : In b [a_out; a_y; l_inv; l_copy] -> In p [l_a; l_det; l_rec; l_fact] -> ~ in_mat b p.
Proof. intros Hb Hp (i & j & _ & _ & E). cbn in Hb, Hp. destruct Hb as [<-|[<-|[<-|[<-|[]]]]], Hp as [<-|[<-|[<-|[<-|[]]]]]; discriminate. Qed.
Lemma start_ok T : meq (mat (su3_copy a_y a_x (args mid T mid)) a_y) T.
Proof. destruct (su3_copy_ok a_y a_x a_y 0 0 (args mid T mid)) as [A _]. rewrite A. now rewrite args_x. Qed.
Lemma end_ok' m : meq (mat (unit_end a_out l_det l_fact l_a l_copy m) a_out) (mscale (croot (det (mat m a_out))) (mat m a_out)).
Proof. apply end_ok; try discriminate; apply loc_ok; cbn; tauto. Qed.
Lemma unit_in T n tol out : det T <> RtoC 0 -> unitarize_explicitly_inverting T tol n out -> exists N, vloop tol T n N /\ meq out (mscale (croot (det N)) N).
Proof.
  intros D (m & U & ->). pose proof (start_ok T) as S.
  destruct (loop_v a_out a_y l_inv l_det l_rec l_a) with (tol := tol) (m := su3_copy a_y a_x (args mid T mid)) (n := n) (m' := m) as (N0 & V & E); try discriminate;
    [intros b p Hb Hp; apply loc_ok; cbn in *; tauto|exact U|now rewrite (det_proper _ _ S)|].
  destruct (vloop_proper _ _ _ _ V _ S) as (N & V' & E'). exists N. split; [exact V'|]. rewrite end_ok'. assert (EN : meq (mat m a_out) N) by (now rewrite E).
  intros i j Hi Hj. unfold mscale. now rewrite (det_proper _ _ EN), (EN i j Hi Hj).
Qed.
Lemma unit_out T n tol N : det T <> RtoC 0 -> vloop tol T n N -> exists out, unitarize_explicitly_inverting T tol n out.
Proof.
  intros D V. destruct (v_loop a_out a_y l_inv l_det l_rec l_a) with (tol := tol) (T := T) (n := n) (N := N) (m := su3_copy a_y a_x (args mid T mid)) as (m & U & _); try discriminate;
    [intros b p Hb Hp; apply loc_ok; cbn in *; tauto|exact V|apply start_ok|exact D|].
  eexists. exists m. split; [exact U|reflexivity].
Qed.

(** ** convergence *)
Lemma minv_unique T J : meq (mmul T J) mid -> det T <> RtoC 0 /\ meq (minv T) J.
Proof.
  intros H. assert (D : det T <> RtoC 0).
  { intros E. pose proof (det_mul T J) as M. rewrite (det_proper _ _ H), E, Cmult_0_l in M. assert (D1 : det mid = RtoC 1) by (unfold det, mid; cbn [Nat.eqb]; ring). rewrite D1 in M. apply (f_equal fst) in M. unfold RtoC in M. cbn [fst] in M. lra. }
  split; [exact D|]. pose proof (minv_r T D) as R. pose proof (inv_comm _ _ H) as HL.
  transitivity (mmul (mmul J T) (minv T)); [rewrite HL; symmetry; apply mmul_1_l|]. rewrite mmul_assoc, R. apply mmul_1_r.
Qed.
Definition defect (T : cmat) : R := norm2 T + norm2 (minv T) - 6.
Lemma step_norm T : det T <> RtoC 0 -> norm2 (nstep T) - 3 = defect T / 4 /\ norm2 (minv (nstep T)) <= 3 /\ 0 <= defect T /\ norm2 (dif (gam T) T (minv T)) = defect T.
Proof.
  intros D. destruct (gam_ok T D) as [G1 G2]. pose proof (norm2_avg T (minv T) (minv_r T D) (gam T) G1 G2) as A. fold (nstep T) in A.
  pose proof (norm2_dif T (minv T) (minv_r T D) (gam T) G1 G2) as B. pose proof (norm2_pos (dif (gam T) T (minv T))) as P.
  pose proof (norm2_inv_le _ _ (minv (nstep T)) (avg_gram T D) (minv_r _ (nstep_det T D))) as C. unfold defect. repeat split; lra.
Qed.
Lemma res_bound T : det T <> RtoC 0 -> norm2 (minv T) <= 3 -> 3 <= norm2 T -> vres T * vres T <= 5 / 4 * (norm2 T - 3).
Proof.
  intros D B A. destruct (gam_ok T D) as [G1 G2]. pose proof (res_small T (minv T) (minv_r T D) (gam T) G1 G2 B A) as R. fold (nstep T) in R.
  unfold vres. rewrite sqrt_sqrt by apply norm2_pos. exact R.
Qed.
Lemma late tol : 0 < tol -> forall k T, det T <> RtoC 0 -> norm2 (minv T) <= 3 -> 3 <= norm2 T -> 5 / 4 * (norm2 T - 3) <= 4 ^ k * (tol * tol) -> exists n N, vloop tol T n N /\ (n <= S k)%nat.
Proof.
  intros Ht k. induction k as [|k IH]; intros T D B A K; pose proof (res_bound T D B A) as R.
  - exists 1%nat, (nstep T). split; [|lia]. constructor. cbn [pow] in K. rewrite Rmult_1_l in K. apply Rsqr_incr_0_var; [unfold Rsqr; lra|lra].
  - destruct (Rle_lt_dec (vres T) tol) as [Q|Q]; [exists 1%nat, (nstep T); split; [now constructor|lia]|].
    destruct (step_norm T D) as (S1 & S2 & S3 & _). assert (defect T <= norm2 T - 3) by (unfold defect; lra).
    destruct (IH (nstep T)) as (n & N & V & Hn); [now apply nstep_det|exact S2|lra| |].
    + cbn [pow] in K. lra.
    + exists (S n), N. split; [now constructor|lia].
Qed.
Lemma terminates tol T k : 0 < tol -> det T <> RtoC 0 -> 5 * defect T <= 16 * 4 ^ k * (tol * tol) -> exists n N, vloop tol T n N /\ (n <= S (S k))%nat.
Proof.
  intros Ht D K. destruct (Rle_lt_dec (vres T) tol) as [Q|Q]; [exists 1%nat, (nstep T); split; [now constructor|lia]|].
  destruct (step_norm T D) as (S1 & S2 & S3 & _).
  destruct (late tol Ht k (nstep T)) as (n & N & V & Hn); [now apply nstep_det|exact S2|lra|lra|]. exists (S n), N. split; [now constructor|lia].
Qed.
Lemma pow4_unbounded (x : R) : exists k, x <= 4 ^ k.
Proof.
  destruct (Pow_x_infinity 4 ltac:(rewrite Rabs_pos_eq; lra) x) as [k K]. exists k. specialize (K k (Nat.le_refl k)). rewrite Rabs_pos_eq in K by (apply pow_le; lra). lra.
Qed.
(** ** what is left *)
Lemma vloop_last tol T n N : vloop tol T n N -> det T <> RtoC 0 -> exists T', det T' <> RtoC 0 /\ N = nstep T' /\ vres T' <= tol.
Proof. induction 1 as [T R|T n N R _ IH]; intros D; [now exists T|]. apply IH. now apply nstep_det. Qed.
Lemma left tol T n N : 0 <= tol <= / 10 -> vloop tol T n N -> det T <> RtoC 0 ->
  det (mscale (croot (det N)) N) = RtoC 1 /\
  forall i j, (i < 3)%nat -> (j < 3)%nat -> Cmod (mmul (mscale (croot (det N)) N) (dag (mscale (croot (det N)) N)) i j - mid i j)%C <= 13 * (tol * tol).
Proof.
  intros Ht V D. destruct (vloop_last _ _ _ _ V D) as (T' & D' & -> & R). destruct (gam_ok T' D') as [G1 G2].
  pose proof (dif_res T' (minv T') (minv_r T' D') (gam T') G1 G2) as Q. fold (nstep T') in Q.
  apply (unit_close _ _ (avg_gram T' D')); [exact Ht| |apply croot_ok, nstep_det, D'].
  assert (vres T' * vres T' <= tol * tol) by (assert (0 <= vres T') by (apply sqrt_pos); nra).
  unfold vres in H. rewrite sqrt_sqrt in H by apply norm2_pos. lra.
Qed.
(** ** unitary matrices *)
Lemma unitary_step T : meq (mmul T (dag T)) mid -> det T <> RtoC 0 /\ meq (nstep T) T /\ vres T = 0.
Proof.
  intros U. destruct (minv_unique T (dag T) U) as [D E]. split; [exact D|].
  assert (G : gam T = 1).
  { unfold gam. rewrite (norm2_proper _ _ E). assert (Q : norm2 (dag T) = norm2 T) by (rewrite !norm2_sqn; unfold dag; rewrite !sqn_conj; ring). rewrite Q.
    destruct (ab9 T (minv T) (minv_r T D)) as (A & _). replace (norm2 T / norm2 T) with 1 by (field; lra). apply sqrt_1. }
  assert (S : meq (nstep T) T).
  { unfold nstep. rewrite G. intros i j Hi Hj. unfold avg, madd, mscale, dag. rewrite (E j i Hj Hi). unfold dag. rewrite Cconj_conj. apply injective_projections; unfold Cplus, Cmult, RtoC; cbn [fst snd]; field. }
  split; [exact S|]. unfold vres. transitivity (sqrt 0); [f_equal|apply sqrt_0]. rewrite norm2_sqn. unfold msub. rewrite !(S _ _) by lia. unfold sqn, Cminus, Cplus, Copp. cbn [fst snd]. ring.
Qed.
Lemma croot_1 : croot (RtoC 1) = RtoC 1.
Proof.
  unfold croot, atan2, sqn, RtoC. cbn [fst snd]. destruct (Rlt_dec 0 1); [|lra]. replace (0 / 1) with 0 by field. rewrite atan_0, !Rmult_0_l, cos_0, sin_0. replace (1 * 1 + 0) with 1 by ring.
  unfold Rpower. rewrite ln_1, Rmult_0_r, exp_0. f_equal; ring.
Qed.
(** ** rotations of the two indices *)
Section Rot.
Context (A B : cmat) (HA : unitary A) (HB : unitary B).
Notation rot X := (mmul (mmul A X) B).
Lemma rot_norm X : norm2 (rot X) = norm2 X.
Proof using HA HB.
  assert (HB' : meq (mmul B (dag B)) mid) by exact HB.
  unfold norm2. f_equal. transitivity (trace (mmul (mmul A (mmul X (dag X))) (dag A))).
  - apply trace_proper. rewrite !dag_mul. rewrite !mmul_assoc. apply mmul_proper; [reflexivity|]. apply mmul_proper; [reflexivity|]. rewrite <- mmul_assoc. rewrite HB'. apply mmul_1_l.
  - rewrite trace_mul_comm. apply trace_proper. rewrite <- mmul_assoc, unitary_l by exact HA. apply mmul_1_l.
Qed.
Lemma rot_minv T : det T <> RtoC 0 -> det (rot T) <> RtoC 0 /\ meq (minv (rot T)) (mmul (mmul (dag B) (minv T)) (dag A)).
Proof using HA HB.
  assert (HB' : meq (mmul B (dag B)) mid) by exact HB.
  intros D. apply minv_unique. rewrite !mmul_assoc. rewrite <- (mmul_assoc B (dag B)), HB', mmul_1_l. rewrite <- (mmul_assoc T (minv T)), minv_r by exact D. rewrite mmul_1_l. exact HA.
Qed.
End Rot.
Lemma dag_unitary A : unitary A -> unitary (dag A).
Proof. intros H. unfold unitary. rewrite dag_dag. now apply unitary_l. Qed.
Lemma mmul_madd_l a b c : meq (mmul (madd a b) c) (madd (mmul a c) (mmul b c)).
Proof. intros i j _ _. unfold mmul, madd. cbn [csum]. ring. Qed.
Lemma mmul_madd_r a b c : meq (mmul a (madd b c)) (madd (mmul a b) (mmul a c)).
Proof. intros i j _ _. unfold mmul, madd. cbn [csum]. ring. Qed.
Section Rot2.
Context (A B : cmat) (HA : unitary A) (HB : unitary B).
Notation rot X := (mmul (mmul A X) B).
Lemma rot_step T : det T <> RtoC 0 -> meq (nstep (rot T)) (rot (nstep T)).
Proof using HA HB.
  intros D. destruct (rot_minv A B HA HB T D) as [D' E].
  assert (G : gam (rot T) = gam T).
  { unfold gam. rewrite (norm2_proper _ _ E), rot_norm by (now apply dag_unitary). now rewrite rot_norm. }
  unfold nstep. rewrite G. transitivity (avg (gam T) (rot T) (mmul (mmul (dag B) (minv T)) (dag A))); [now apply avg_proper|].
  unfold avg. rewrite mmul_madd_r, mmul_madd_l, !mmul_scale_r, !mmul_scale_l.
  assert (K : meq (dag (mmul (mmul (dag B) (minv T)) (dag A))) (mmul (mmul A (dag (minv T))) B)) by (rewrite !dag_mul, !dag_dag, mmul_assoc; reflexivity).
  intros i j Hi Hj. unfold madd, mscale. now rewrite (K i j Hi Hj).
Qed.
Lemma rot_res T : det T <> RtoC 0 -> vres (rot T) = vres T.
Proof using HA HB.
  intros D. unfold vres. f_equal. rewrite <- (rot_norm A B HA HB (msub (nstep T) T)). apply norm2_proper. intros i j Hi Hj.
  unfold msub at 1. rewrite (rot_step T D i j Hi Hj). unfold msub, mmul. cbn [csum]. ring.
Qed.
Lemma rot_loop tol T n N : vloop tol T n N -> det T <> RtoC 0 -> exists N', vloop tol (rot T) n N' /\ meq N' (rot N).
Proof using HA HB.
  induction 1 as [T R|T n N R _ IH]; intros D; pose proof (rot_res T D) as Q.
  - exists (nstep (rot T)). split; [constructor; lra|now apply rot_step].
  - destruct (IH (nstep_det T D)) as (N' & V & E). destruct (vloop_proper _ _ _ _ V (nstep (rot T))) as (N2 & V2 & E2); [symmetry; now apply rot_step|].
    exists N2. split; [constructor; [lra|exact V2]|]. now rewrite <- E2.
Qed.
End Rot2.
