From Coq Require Import Reals Lra Lia Factorial.
From Coquelicot Require Import Complex Lim_seq Rbar Hierarchy Continuity Series.
From Verif Require Import CplxModel MatModel MatSpec MatRun MatProofs4 MatAlg ExpModel ExpSpec.
Open Scope C_scope.
Set Bullet Behavior "Strict Subproofs".

(** ** e^(iq) for real q *)
Fixpoint cpow (z : C) (n : nat) : C := match n with O => RtoC 1 | S k => z * cpow z k end.
Fixpoint cexp_sum (z : C) (n : nat) : C := match n with O => RtoC 1 | S k => cexp_sum z k + RtoC (/ INR (fact (S k))) * cpow z (S k) end.
Definition cospart (q : R) (M : nat) : R := sum_f_R0 (fun k => cos_n k * (q * q) ^ k)%R M.
Definition sinpart (q : R) (M : nat) : R := (q * sum_f_R0 (fun k => sin_n k * (q * q) ^ k) M)%R.
Lemma cospart_lim q : is_lim_seq (cospart q) (cos q).
Proof.
  apply is_lim_seq_Reals. unfold cos. destruct (exist_cos (Rsqr q)) as [l Hl]. unfold cos_in, infinite_sum in Hl. exact Hl.
Qed.
Lemma sinpart_lim q : is_lim_seq (sinpart q) (sin q).
Proof.
  unfold sin. destruct (exist_sin (Rsqr q)) as [l Hl]. unfold sin_in, infinite_sum in Hl. unfold sinpart.
  apply (is_lim_seq_scal_l _ q (Finite l)). apply is_lim_seq_Reals. exact Hl.
Qed.
Lemma iq_even q k : cpow (Ci * RtoC q) (2 * k) = RtoC ((-1) ^ k * (q * q) ^ k).
Proof.
  induction k as [|k IH]; [cbn; ceq|]. replace (2 * S k)%nat with (S (S (2 * k))) by lia. cbn [cpow]. rewrite IH.
  cbn [pow]. ceq.
Qed.
Lemma cexp_odd q M : cexp_sum (Ci * RtoC q) (S (2 * M)) = (cospart q M, sinpart q M).
Proof.
  induction M as [|M IH].
  - cbn [Nat.mul Nat.add cexp_sum]. unfold cospart, sinpart, cos_n, sin_n. cbn. ceq.
  - replace (2 * S M)%nat with (S (S (2 * M))) by lia. cbn [cexp_sum]. cbn [cexp_sum] in IH. rewrite IH.
    replace (cpow (Ci * RtoC q) (S (S (2 * M)))) with (RtoC ((-1) ^ S M * (q * q) ^ S M)) by (rewrite <- iq_even; f_equal; lia).
    replace (cpow (Ci * RtoC q) (S (S (S (2 * M))))) with (Ci * RtoC q * RtoC ((-1) ^ S M * (q * q) ^ S M)).
    2: { rewrite <- iq_even. replace (2 * S M)%nat with (S (S (2 * M))) by lia. reflexivity. }
    unfold cospart, sinpart. rewrite !tech5. unfold cos_n, sin_n.
    replace (2 * S M)%nat with (S (S (2 * M))) by lia. replace (S (S (2 * M)) + 1)%nat with (S (S (S (2 * M)))) by lia.
    set (a := fact (S (S (2 * M)))). set (b := fact (S (S (S (2 * M))))). pose proof (INR_fact_neq_0 (S (S (2 * M)))) as Ha. pose proof (INR_fact_neq_0 (S (S (S (2 * M))))) as Hb.
    fold a in Ha. fold b in Hb. clearbody a b. set (z := ((-1) ^ S M)%R). set (y := ((q * q) ^ S M)%R). clearbody z y.
    set (A := sum_f_R0 _ _). set (B := sum_f_R0 _ _). clearbody A B. clear IH. ceq; auto.
Qed.
Lemma cexp_even q M : cexp_sum (Ci * RtoC q) (S (S (2 * M))) = (cospart q (S M), sinpart q M).
Proof.
  cbn [cexp_sum]. pose proof (cexp_odd q M) as O. cbn [cexp_sum] in O. rewrite O.
  replace (cpow (Ci * RtoC q) (S (S (2 * M)))) with (RtoC ((-1) ^ S M * (q * q) ^ S M)) by (rewrite <- iq_even; f_equal; lia).
  unfold cospart, sinpart. rewrite tech5.
  assert (Ec : cos_n (S M) = ((-1) ^ S M / INR (fact (S (S (2 * M)))))%R) by (unfold cos_n; replace (2 * S M)%nat with (S (S (2 * M))) by lia; reflexivity). rewrite Ec. clear Ec.
  set (a := fact (S (S (2 * M)))). pose proof (INR_fact_neq_0 (S (S (2 * M)))) as Ha. fold a in Ha. clearbody a.
  set (z := ((-1) ^ S M)%R). set (y := ((q * q) ^ S M)%R). clearbody z y. set (A := sum_f_R0 _ _). set (B := sum_f_R0 _ _). clearbody A B. clear O. ceq; auto.
Qed.
Lemma div2_lim : filterlim Nat.div2 eventually eventually.
Proof. intros P [N H]. exists (2 * N)%nat. intros n Hn. apply H. pose proof (Nat.div2_odd n). destruct (Nat.odd n); cbn in *; lia. Qed.
Lemma cexp_cos q : is_lim_seq (fun n => fst (cexp_sum (Ci * RtoC q) n)) (cos q).
Proof.
  apply (is_lim_seq_ext (fun n => cospart q (Nat.div2 n))).
  - intros n. pose proof (Nat.div2_odd n) as D. destruct (Nat.odd n) eqn:O; cbn [Nat.b2n] in D.
    + rewrite D at 2. rewrite Nat.add_1_r, cexp_odd. reflexivity.
    + destruct (Nat.div2 n) as [|M]; [rewrite D; cbn; unfold cospart, cos_n; cbn; field|]. rewrite D. replace (2 * S M + 0)%nat with (S (S (2 * M))) by lia.
      rewrite cexp_even. reflexivity.
  - apply (is_lim_seq_subseq (cospart q) (cos q) Nat.div2 div2_lim), cospart_lim.
Qed.
Lemma cexp_sin q : is_lim_seq (fun n => snd (cexp_sum (Ci * RtoC q) n)) (sin q).
Proof.
  apply is_lim_seq_incr_1. apply (is_lim_seq_ext (fun n => sinpart q (Nat.div2 n))).
  - intros n. pose proof (Nat.div2_odd n) as D. destruct (Nat.odd n) eqn:O; cbn [Nat.b2n] in D.
    + rewrite D at 2. rewrite Nat.add_1_r, cexp_even. reflexivity.
    + rewrite D at 2. rewrite Nat.add_0_r, cexp_odd. reflexivity.
  - apply (is_lim_seq_subseq (sinpart q) (sin q) Nat.div2 div2_lim), sinpart_lim.
Qed.
