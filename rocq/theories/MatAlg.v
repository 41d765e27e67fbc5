(** Algebra of 3x3 complex matrices. *)
From Coq Require Import Reals Lra Lia List Setoid Morphisms.
From Coquelicot Require Import Complex.
From Verif Require Import CplxModel CplxSpec CplxProofs MatModel MatSpec MatRun MatProofs4.
Open Scope C_scope.
Set Bullet Behavior "Strict Subproofs".

Global Instance meq_equiv : Equivalence meq.
Proof.
  split.
  - intros x i j _ _. reflexivity.
  - intros x y H i j Hi Hj. symmetry. now apply H.
  - intros x y z H1 H2 i j Hi Hj. rewrite H1 by assumption. now apply H2.
Qed.
Global Instance mmul_proper : Proper (meq ==> meq ==> meq) mmul.
Proof. intros x x' Hx y y' Hy i j Hi Hj. unfold mmul. cbn [csum]. rewrite !Hx, !Hy by lia. reflexivity. Qed.
Global Instance dag_proper : Proper (meq ==> meq) dag.
Proof. intros x x' Hx i j Hi Hj. unfold dag. rewrite Hx by lia. reflexivity. Qed.
Global Instance madd_proper : Proper (meq ==> meq ==> meq) madd.
Proof. intros x x' Hx y y' Hy i j Hi Hj. unfold madd. rewrite Hx, Hy by lia. reflexivity. Qed.
Global Instance msub_proper : Proper (meq ==> meq ==> meq) msub.
Proof. intros x x' Hx y y' Hy i j Hi Hj. unfold msub. rewrite Hx, Hy by lia. reflexivity. Qed.
Global Instance mscale_proper c : Proper (meq ==> meq) (mscale c).
Proof. intros x x' Hx i j Hi Hj. unfold mscale. rewrite Hx by lia. reflexivity. Qed.
Global Instance trace_proper : Proper (meq ==> eq) trace.
Proof. intros x x' Hx. unfold trace. cbn [csum]. rewrite !Hx by lia. reflexivity. Qed.
Global Instance det_proper : Proper (meq ==> eq) det.
Proof. intros x x' Hx. unfold det. rewrite !Hx by lia. reflexivity. Qed.

Lemma Cconj_R r : Cconj (RtoC r) = RtoC r.
Proof. ceq. Qed.
Ltac mring := let i := fresh "i" in let j := fresh "j" in let Hi := fresh in let Hj := fresh in intros i j Hi Hj;
  unfold mmul, madd, msub, mscale, dag, mid; cbn [csum]; rewrite ?Cconj_plus, ?Cconj_R, ?Cconj_mult, ?Cconj_minus; try ring.
Lemma mmul_assoc x y z : meq (mmul (mmul x y) z) (mmul x (mmul y z)).
Proof. mring. Qed.
Lemma mmul_1_l x : meq (mmul mid x) x.
Proof. mring. idx i; cbn [Nat.eqb]; ring. Qed.
Lemma mmul_1_r x : meq (mmul x mid) x.
Proof. mring. idx j; cbn [Nat.eqb]; ring. Qed.
Lemma mmul_scale_l c x y : meq (mmul (mscale c x) y) (mscale c (mmul x y)).
Proof. mring. Qed.
Lemma mmul_scale_r c x y : meq (mmul x (mscale c y)) (mscale c (mmul x y)).
Proof. mring. Qed.
Lemma mscale_scale c d x : meq (mscale c (mscale d x)) (mscale (c * d) x).
Proof. mring. Qed.
Lemma mscale_1 x : meq (mscale (RtoC 1) x) x.
Proof. mring. Qed.
Lemma dag_mul x y : meq (dag (mmul x y)) (mmul (dag y) (dag x)).
Proof. mring. Qed.
Lemma Cconj_conj z : Cconj (Cconj z) = z.
Proof. ceq. Qed.
Lemma dag_dag x : meq (dag (dag x)) x.
Proof. intros i j _ _. unfold dag. apply Cconj_conj. Qed.
Lemma dag_1 : meq (dag mid) mid.
Proof. intros i j Hi Hj. unfold dag, mid. idx i; idx j; cbn [Nat.eqb]; ceq. Qed.
Lemma det_mul x y : det (mmul x y) = det x * det y.
Proof. unfold det, mmul. cbn [csum]. ring. Qed.
Lemma det_1 : det mid = RtoC 1.
Proof. unfold det, mid. cbn [Nat.eqb]. ring. Qed.
Lemma det_dag x : det (dag x) = Cconj (det x).
Proof. unfold det, dag. rewrite ?Cconj_minus, ?Cconj_plus, ?Cconj_R, ?Cconj_mult. ring. Qed.
Lemma trace_mul_comm x y : trace (mmul x y) = trace (mmul y x).
Proof. unfold trace, mmul. cbn [csum]. ring. Qed.
Lemma trace_dag x : trace (dag x) = Cconj (trace x).
Proof. unfold trace, dag. cbn [csum]. rewrite ?Cconj_plus, ?Cconj_R. reflexivity. Qed.

Lemma C1_neq_0 : RtoC 1 <> RtoC 0.
Proof. intros H. injection H. lra. Qed.
(** a right inverse is a left inverse *)
Lemma inv_comm x y : meq (mmul x y) mid -> meq (mmul y x) mid.
Proof.
  intros H. assert (D : det x * det y = RtoC 1) by (rewrite <- det_mul, H; apply det_1).
  assert (Dx : det x <> RtoC 0) by (intros F; rewrite F in D; apply C1_neq_0; rewrite <- D; ring).
  assert (E : meq (cofactors x) (mscale (det x) y)).
  { rewrite <- (mmul_1_r (cofactors x)), <- H, <- mmul_assoc, cofactors_l, mmul_scale_l, mmul_1_l. reflexivity. }
  assert (F : meq (mmul (mscale (det x) y) x) (mscale (det x) mid)) by (rewrite <- E; apply cofactors_l).
  rewrite mmul_scale_l in F. intros i j Hi Hj. specialize (F i j Hi Hj). unfold mscale in F.
  assert (G : / det x * (det x * mmul y x i j) = / det x * (det x * mid i j)) by (rewrite F; reflexivity).
  rewrite !Cmult_assoc, !Cinv_l, !Cmult_1_l in G by exact Dx. exact G.
Qed.
Lemma inv_unique x y z : meq (mmul y x) mid -> meq (mmul x z) mid -> meq y z.
Proof. intros H1 H2. rewrite <- (mmul_1_r y), <- H2, <- mmul_assoc, H1, mmul_1_l. reflexivity. Qed.

(** ** Unitary matrices *)
Global Instance unitary_proper : Proper (meq ==> iff) unitary.
Proof. intros x x' Hx. unfold unitary. rewrite Hx. reflexivity. Qed.
Global Instance special_unitary_proper : Proper (meq ==> iff) special_unitary.
Proof. intros x x' Hx. unfold special_unitary. rewrite Hx. reflexivity. Qed.
Lemma unitary_l x : unitary x -> meq (mmul (dag x) x) mid.
Proof. apply inv_comm. Qed.
Lemma unitary_mul x y : unitary x -> unitary y -> unitary (mmul x y).
Proof. unfold unitary. intros Hx Hy. rewrite dag_mul, mmul_assoc, <- (mmul_assoc y), Hy, mmul_1_l. exact Hx. Qed.
Lemma unitary_dag x : unitary x -> unitary (dag x).
Proof. unfold unitary. intros H. rewrite dag_dag. apply inv_comm, H. Qed.
Lemma unitary_1 : unitary mid.
Proof. unfold unitary. rewrite dag_1. apply mmul_1_l. Qed.
Lemma su_1 : special_unitary mid.
Proof. split; [apply unitary_1|apply det_1]. Qed.
Lemma su_mul x y : special_unitary x -> special_unitary y -> special_unitary (mmul x y).
Proof. intros [Ux Dx] [Uy Dy]. split; [now apply unitary_mul|]. rewrite det_mul, Dx, Dy. ring. Qed.
Lemma su_dag x : special_unitary x -> special_unitary (dag x).
Proof. intros [Ux Dx]. split; [now apply unitary_dag|]. rewrite det_dag, Dx. ceq. Qed.

(** ** The third row of a special unitary matrix is fixed by the others *)
Definition rdot (x : cmat) (i j : nat) : C := csum 3 (fun k => x i k * Cconj (x j k)).
Lemma unitary_rows x : unitary x <-> forall i j, (i < 3)%nat -> (j < 3)%nat -> rdot x i j = if Nat.eqb i j then RtoC 1 else RtoC 0.
Proof. reflexivity. Qed.
Lemma third_row_su x : rdot x 0 0 = RtoC 1 -> rdot x 1 1 = RtoC 1 -> rdot x 0 1 = RtoC 0 -> special_unitary (third_row x).
Proof.
  intros H0 H1 H01.
  assert (H10 : rdot x 1 0 = RtoC 0).
  { transitivity (Cconj (rdot x 0 1)); [|rewrite H01; ceq]. unfold rdot. cbn [csum]. rewrite ?Cconj_plus, ?Cconj_R, ?Cconj_mult, ?Cconj_conj. ceq. }
  assert (H2 : rdot (third_row x) 2 2 = rdot x 0 0 * rdot x 1 1 - rdot x 0 1 * rdot x 1 0).
  { unfold rdot, third_row. cbn [csum]. rewrite ?Cconj_conj, ?Cconj_minus, ?Cconj_mult, ?Cconj_conj. ring. }
  rewrite H0, H1, H01, H10 in H2. split.
  - apply unitary_rows. intros i j Hi Hj. idx i; idx j; cbn [Nat.eqb]; try assumption.
    5: { rewrite H2. ring. }
    all: unfold rdot, third_row; cbn [csum]; rewrite ?Cconj_conj, ?Cconj_minus, ?Cconj_mult, ?Cconj_conj; ring.
  - transitivity (rdot (third_row x) 2 2).
    + unfold det, rdot, third_row. cbn [csum]. rewrite ?Cconj_conj, ?Cconj_minus, ?Cconj_mult, ?Cconj_conj. ring.
    + rewrite H2. ring.
Qed.
Lemma su_third_row x : special_unitary x -> meq (third_row x) x.
Proof.
  intros [U D]. pose proof (proj1 (unitary_rows x) U) as R.
  assert (S : special_unitary (third_row x)).
  { apply third_row_su. - apply (R 0%nat 0%nat); lia. - apply (R 1%nat 1%nat); lia. - apply (R 0%nat 1%nat); lia. }
  (* x = x (third_row x)^dag third_row x, and the first two rows agree *)
  assert (E : meq (mmul x (dag (third_row x))) mid).
  { assert (Q : rdot x 2 2 = RtoC 1) by (apply (R 2%nat 2%nat); lia).
    intros i j Hi Hj. idx i; idx j; unfold mid; cbn [Nat.eqb].
    all: try (match goal with |- mmul ?y (dag _) ?a ?b = _ => transitivity (rdot y a b); [reflexivity|apply (R a b); lia] end).
    - unfold mmul, dag, third_row. cbn [csum]. rewrite ?Cconj_conj. ring.
    - unfold mmul, dag, third_row. cbn [csum]. rewrite ?Cconj_conj. ring.
    - rewrite <- D. unfold mmul, dag, third_row, det. cbn [csum]. rewrite ?Cconj_conj. ring. }
  destruct S as [SU _]. rewrite <- (mmul_1_l (third_row x)), <- E, mmul_assoc. unfold unitary in SU. rewrite (inv_comm _ _ SU).
  apply mmul_1_r.
Qed.
