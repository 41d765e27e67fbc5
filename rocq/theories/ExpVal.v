From Coq Require Import Reals Lra Lia Factorial.
From Coquelicot Require Import Complex Lim_seq Rbar Hierarchy Continuity Series.
From Verif Require Import CplxModel MatModel MatSpec MatRun MatProofs4 MatAlg ExpModel ExpSpec ExpProofs ExpAlg.
Open Scope R_scope.
Set Bullet Behavior "Strict Subproofs".

(** ** Roots and coefficients *)
Definition roots (q : nat -> R) (c0 c1 : R) : Prop :=
  q 0%nat + q 1%nat + q 2%nat = 0 /\ c1 = - (q 0%nat * q 1%nat + q 0%nat * q 2%nat + q 1%nat * q 2%nat) /\ c0 = q 0%nat * q 1%nat * q 2%nat.
Definition distinct3 (q : nat -> R) : Prop := q 0%nat <> q 1%nat /\ q 0%nat <> q 2%nat /\ q 1%nat <> q 2%nat.
Lemma roots_cubic q c0 c1 k : roots q c0 c1 -> (k < 3)%nat -> q k * (q k * q k) = c1 * q k + c0.
Proof.
  intros (S & -> & ->) Hk. assert (E : q 2%nat = - (q 0%nat + q 1%nat)) by lra. idx k; rewrite !E; ring.
Qed.
Lemma distinct_ext q c e : distinct3 q -> (forall k, (k < 3)%nat -> ev3 (RtoC (q k)) c = ev3 (RtoC (q k)) e) -> c = e.
Proof.
  intros (D1 & D2 & D3) H.
  assert (K : forall k, cof3 k c = cof3 k e).
  { intros k. apply injective_projections.
    - rewrite !(cof3_re k _ _ _ _ D1 D2 D3), !H by lia. reflexivity.
    - rewrite !(cof3_im k _ _ _ _ D1 D2 D3), !H by lia. reflexivity. }
  pose proof (K 0%nat) as K0. pose proof (K 1%nat) as K1. pose proof (K 2%nat) as K2. destruct c as [[? ?] ?], e as [[? ?] ?]. cbn in K0, K1, K2. subst. reflexivity.
Qed.
Open Scope C_scope.
(** product of two polynomials, reduced by q^3 = c1 q + c0 *)
Definition pmul (c0 c1 : C) (c e : C * C * C) : C * C * C :=
  let '(a, b, d) := c in let '(a', b', d') := e in
  let p3 := b * d' + d * b' in let p4 := d * d' in
  (a * a' + c0 * p3, a * b' + b * a' + c1 * p3 + c0 * p4, a * d' + b * b' + d * a' + c1 * p4).
Lemma pmul_ev c0 c1 q c e : q * (q * q) = c1 * q + c0 -> ev3 q (pmul c0 c1 c e) = ev3 q c * ev3 q e.
Proof.
  intros E. destruct c as [[a b] d], e as [[a' b'] d']. unfold pmul, ev3.
  transitivity (a * a' + (a * b' + b * a') * q + (a * d' + b * b' + d * a') * (q * q) + (b * d' + d * b') * (q * (q * q)) + d * d' * q * (q * (q * q))); [|ring].
  rewrite !E. ring_simplify. 
  transitivity (a * a' + (a * b' + b * a') * q + (a * d' + b * b' + d * a') * (q * q) + (b * d' + d * b') * (c1 * q + c0) + d * d' * (c1 * (q * q) + c0 * q)); ring.
Qed.
Lemma pmul_mat c0 c1 x c e : meq (mmul x (mmul x x)) (madd (mscale c1 x) (mscale c0 mid)) -> meq (mmul (poly2 x c) (poly2 x e)) (poly2 x (pmul c0 c1 c e)).
Proof.
  intros CH. destruct c as [[a b] d], e as [[a' b'] d'].
  set (x3 := mmul x (mmul x x)) in *.
  assert (X4 : meq (mmul x x3) (madd (mscale c1 (mmul x x)) (mscale c0 x))).
  { rewrite CH. intros i j Hi Hj. unfold mmul, madd, mscale, mid. cbn [csum]. idx j; cbn [Nat.eqb]; ring. }
  assert (E : meq (mmul (poly2 x (a, b, d)) (poly2 x (a', b', d')))
     (madd (madd (poly2 x (a * a', a * b' + b * a', a * d' + b * b' + d * a')) (mscale (b * d' + d * b') x3)) (mscale (d * d') (mmul x x3)))).
  { intros i j Hi Hj. unfold x3, poly2, mmul, madd, mscale, mid. cbn [csum]. clear CH X4 x3. idx i; idx j; cbn [Nat.eqb]; ring. }
  rewrite E, X4, CH. intros i j Hi Hj. unfold pmul, poly2, madd, mscale. ring.
Qed.
Definition conj3 (c : C * C * C) : C * C * C := let '(a, b, d) := c in (Cconj a, Cconj b, Cconj d).
Lemma conj3_ev q c : ev3 (RtoC q) (conj3 c) = Cconj (ev3 (RtoC q) c).
Proof. destruct c as [[a b] d]. unfold ev3, conj3. rewrite !Cconj_plus, !Cconj_mult, !Cconj_R. reflexivity. Qed.
Lemma conj3_mat x c : hermitian x -> meq (dag (poly2 x c)) (poly2 x (conj3 c)).
Proof.
  intros H i j Hi Hj. destruct c as [[a b] d]. unfold poly2, conj3, dag, madd, mscale. rewrite !Cconj_plus, !Cconj_mult. f_equal; [f_equal|].
  - f_equal. unfold mid. rewrite Nat.eqb_sym. destruct (Nat.eqb i j); apply Cconj_R.
  - f_equal. apply (H i j Hi Hj).
  - f_equal. change (dag (mmul x x) i j = mmul x x i j). rewrite (dag_mul x x i j Hi Hj). unfold hermitian in H.
    apply (mmul_proper _ _ H _ _ H i j Hi Hj).
Qed.
Lemma eiq_norm q : eiq q * Cconj (eiq q) = RtoC 1.
Proof. unfold eiq. pose proof (sin2_cos2 q) as H. unfold Rsqr in H. apply injective_projections; cbn; lra. Qed.
Lemma eiq_plus a b : eiq (a + b) = eiq a * eiq b.
Proof. unfold eiq. apply injective_projections; cbn; [rewrite cos_plus|rewrite sin_plus]; ring. Qed.
Section Exp.
Variables (x : cmat) (c0 c1 : R) (q : nat -> R) (F : C * C * C).
Hypothesis (HD : distinct3 q) (HR : roots q c0 c1).
Hypothesis (HF : forall k, (k < 3)%nat -> ev3 (RtoC (q k)) F = eiq (q k)).
Hypothesis (Hx : hermitian x) (Ht : trace x = RtoC 0) (H1 : trace (mmul x x) * RtoC (/ 2) = RtoC c1) (H0 : det x = RtoC c0).
Lemma exp_ch : meq (mmul x (mmul x x)) (madd (mscale (RtoC c1) x) (mscale (RtoC c0) mid)).
Proof. rewrite cayley_hamilton by exact Ht. rewrite H1, H0. reflexivity. Qed.
Lemma exp_is : is_mexp (mscale Ci x) (poly2 x F).
Proof.
  destruct HD as (D1 & D2 & D3). apply (poly2_exp x c0 c1 q F D1 D2 D3); [|exact HF|exact exp_ch].
  intros k Hk. now apply roots_cubic.
Qed.
Lemma exp_unitary : unitary (poly2 x F).
Proof.
  unfold unitary. rewrite conj3_mat by exact Hx. rewrite (pmul_mat _ _ _ _ _ exp_ch).
  replace (pmul (RtoC c0) (RtoC c1) F (conj3 F)) with ((RtoC 1, RtoC 0, RtoC 0) : C * C * C).
  - intros i j Hi Hj. unfold poly2, madd, mscale. ring.
  - apply (distinct_ext q); [exact HD|]. intros k Hk. rewrite pmul_ev.
    + rewrite conj3_ev, HF, eiq_norm by exact Hk. unfold ev3. ring.
    + rewrite <- !RtoC_mult, <- RtoC_plus. f_equal. now apply roots_cubic.
Qed.
Lemma exp_det : det (poly2 x F) = RtoC 1.
Proof.
  rewrite half_trace2 in H1 by exact Ht.
  destruct F as [[a b] d] eqn:EF. rewrite <- EF in HF. rewrite (det_poly2 x a b d _ (trace0_22 _ Ht) (eq_sym H1)), H0.
  transitivity (ev3 (RtoC (q 0%nat)) F * ev3 (RtoC (q 1%nat)) F * ev3 (RtoC (q 2%nat)) F).
  - destruct HR as (S & E1 & E0). rewrite E1, E0, EF. assert (E : q 2%nat = (- (q 0%nat + q 1%nat))%R) by lra. rewrite !E. unfold ev3. clear.
    rewrite ?RtoC_opp, ?RtoC_mult, ?RtoC_plus, ?RtoC_opp, ?RtoC_mult, ?RtoC_plus, ?RtoC_opp, ?RtoC_mult, ?RtoC_plus. ring.
  - rewrite !HF by lia. rewrite <- !eiq_plus. destruct HR as (S & _). rewrite S. unfold eiq. rewrite cos_0, sin_0. reflexivity.
Qed.
End Exp.
