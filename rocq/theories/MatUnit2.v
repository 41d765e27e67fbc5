From Coq Require Import Reals Lra Lia List FunctionalExtensionality.
From Coquelicot Require Import Complex.
From Verif Require Import CplxModel CplxSpec CplxProofs CplxStores MatModel MatSpec MatProofs MatRun MatProofs2 MatProofs3 MatProofs4 MatAlg MatUnit.
Import ListNotations.
Open Scope C_scope.
Set Bullet Behavior "Strict Subproofs".

Lemma inv_sqrt_sq n : (0 < n)%R -> (1 / sqrt n * (1 / sqrt n) * n = 1)%R.
Proof. intros H. pose proof (sqrt_lt_R0 n H). pose proof (sqrt_sqrt n (Rlt_le _ _ H)) as S. rewrite <- S at 3. field. lra. Qed.
Lemma norm_row c (v : cvec) : csum 3 (fun k => (RtoC c * v k) * Cconj (RtoC c * v k)) = RtoC (c * c * vnorm2 v)%R.
Proof. rewrite !RtoC_mult, vnorm2_C. cbn [csum]. rewrite !Cconj_mult, !Cconj_R. ring. Qed.
Lemma gs_su x : (0 < vnorm2 (x 0%nat))%R -> (0 < vnorm2 (gs_1 x))%R -> special_unitary (third_row (gs x)).
Proof.
  intros H0 H1. apply third_row_su.
  - etransitivity; [exact (norm_row _ (x 0%nat))|]. now rewrite inv_sqrt_sq.
  - etransitivity; [exact (norm_row _ (gs_1 x))|]. now rewrite inv_sqrt_sq.
  - unfold rdot, gs. set (c0 := RtoC _). set (c1 := RtoC (1 / sqrt (vnorm2 (gs_1 x)))).
    assert (E : Cconj c1 = c1) by apply Cconj_R.
    transitivity (c0 * c1 * (Cconj (rdot x 1 0) - Cconj (gs_f x) * RtoC (vnorm2 (x 0%nat)))).
    + rewrite vnorm2_C. unfold gs_1, rdot. cbn [csum]. rewrite !Cconj_mult, !Cconj_minus, E, !Cconj_plus, !Cconj_mult, !Cconj_conj, Cconj_R. ring.
    + unfold gs_f. rewrite Cconj_mult, Cconj_R. 
      assert (I : RtoC (1 / vnorm2 (x 0%nat)) * RtoC (vnorm2 (x 0%nat)) = RtoC 1) by (rewrite <- RtoC_mult; f_equal; field; lra).
      rewrite <- (Cmult_assoc (Cconj (rdot x 1 0))), I. ring.
Qed.
Lemma det_rows x : det x <> RtoC 0 -> (exists k, (k < 3)%nat /\ x 0%nat k <> RtoC 0) /\ forall c, exists k, (k < 3)%nat /\ x 1%nat k - c * x 0%nat k <> RtoC 0.
Proof.
  intros D.
  assert (dec : forall (v : cvec), (exists k, (k < 3)%nat /\ v k <> RtoC 0) \/ (v 0%nat = RtoC 0 /\ v 1%nat = RtoC 0 /\ v 2%nat = RtoC 0)).
  { intros v. destruct (Ceq_dec (v 0%nat) (RtoC 0)); [|left; exists 0%nat; split; [lia|assumption]].
    destruct (Ceq_dec (v 1%nat) (RtoC 0)); [|left; exists 1%nat; split; [lia|assumption]].
    destruct (Ceq_dec (v 2%nat) (RtoC 0)); [|left; exists 2%nat; split; [lia|assumption]]. right; auto. }
  split.
  - destruct (dec (x 0%nat)) as [H|(E0 & E1 & E2)]; [exact H|]. elim D. unfold det. rewrite E0, E1, E2. ring.
  - intros c. destruct (dec (fun k => x 1%nat k - c * x 0%nat k)) as [H|(E0 & E1 & E2)]; [exact H|]. elim D. cbv beta in *.
    assert (F : forall k, x 1%nat k - c * x 0%nat k = RtoC 0 -> x 1%nat k = c * x 0%nat k).
    { intros k H. replace (x 1%nat k) with ((x 1%nat k - c * x 0%nat k) + c * x 0%nat k) by ring. rewrite H. ring. }
    unfold det. rewrite !(F _ E0), !(F _ E1), !(F _ E2). ring.
Qed.
Lemma gs_fixed x : special_unitary x -> meq (third_row (gs x)) x.
Proof.
  intros S. pose proof S as [U _]. pose proof (proj1 (unitary_rows x) U) as R.
  assert (V : forall i, (i < 3)%nat -> vnorm2 (x i) = 1%R).
  { intros i Hi. unfold vnorm2. change (csum 3 (fun k => x i k * Cconj (x i k))) with (rdot x i i). rewrite (R i i Hi Hi), Nat.eqb_refl. reflexivity. }
  assert (F : gs_f x = RtoC 0).
  { unfold gs_f. rewrite (R 1%nat 0%nat) by lia. cbn [Nat.eqb]. ring. }
  assert (G : forall k, gs_1 x k = x 1%nat k) by (intros k; unfold gs_1; rewrite F; ring).
  assert (N : vnorm2 (gs_1 x) = 1%R) by (rewrite <- (V 1%nat) by lia; unfold vnorm2; cbn [csum]; rewrite !G; reflexivity).
  assert (C : RtoC (1 / sqrt 1) = RtoC 1) by (f_equal; rewrite sqrt_1; field).
  assert (E0 : forall k, gs x 0%nat k = x 0%nat k) by (intros k; unfold gs; rewrite V, C by lia; ring).
  assert (E1 : forall k, gs x 1%nat k = x 1%nat k) by (intros k; unfold gs; rewrite N, C, G; ring).
  rewrite <- (su_third_row x S) at 2. intros i j Hi Hj. idx i; idx j; unfold third_row; rewrite ?E0, ?E1; reflexivity.
Qed.

(** ** SU(2) subgroups *)
Definition quat : Type := (R * R * R * R)%type.
(** the element A + i (B sigma_1 + C sigma_2 + D sigma_3) acting on the components i1 and i2 *)
Definition su2_embed (q : quat) (i1 i2 : nat) : cmat := fun i j =>
  let '(A, B, C, D) := q in
  if Nat.eqb i i1 then (if Nat.eqb j i1 then (A, D) else if Nat.eqb j i2 then (C, B) else RtoC 0)
  else if Nat.eqb i i2 then (if Nat.eqb j i1 then ((- C)%R, B) else if Nat.eqb j i2 then (A, (- D)%R) else RtoC 0)
  else mid i j.
Definition qnorm (q : quat) : R := let '(A, B, C, D) := q in (A * A + B * B + C * C + D * D)%R.
Definition sub_embed (q : quat) (s : nat) : cmat := su2_embed q (fst (su3_sub_gr_indices s)) (snd (su3_sub_gr_indices s)).
Lemma embed_su q s : qnorm q = 1%R -> special_unitary (sub_embed q s).
Proof.
  destruct q as [[[A B] C] D]. cbn [qnorm]. intros H. unfold sub_embed, su3_sub_gr_indices. destruct s as [|[|s]]; cbn [fst snd].
  all: split; [intros i j Hi Hj; idx i; idx j; unfold mmul, dag, su2_embed, mid; cbn [csum Nat.eqb]|unfold det, su2_embed, mid; cbn [Nat.eqb]].
  all: apply injective_projections; cbn; nra.
Qed.
