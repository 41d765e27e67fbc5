(** Vectors of N components; orthogonality of the residuals of the conjugate gradient *)
From Coq Require Import Reals List ZArith Lra Lia Psatz.
From Verif Require Import CgModel CgSpec.
Import ListNotations.
Open Scope R_scope.

Lemma rsum_ext : forall n f g, (forall i, (i < n)%nat -> f i = g i) -> rsum n f = rsum n g.
Proof. induction n; intros f g H; cbn [rsum]; [ reflexivity | ]. rewrite (IHn f g) by (intros; apply H; lia). rewrite H by lia. reflexivity. Qed.
Lemma rsum_plus : forall n f g, rsum n (fun i => f i + g i) = rsum n f + rsum n g.
Proof. induction n; intros; cbn [rsum]; [ ring | rewrite IHn; ring ]. Qed.
Lemma rsum_scal : forall n a f, rsum n (fun i => a * f i) = a * rsum n f.
Proof. induction n; intros; cbn [rsum]; [ ring | rewrite IHn; ring ]. Qed.
Lemma rsum_pos : forall n f, (forall i, (i < n)%nat -> 0 <= f i) -> 0 <= rsum n f.
Proof. induction n; intros f H; cbn [rsum]; [ lra | ]. pose proof (H n ltac:(lia)). pose proof (IHn f ltac:(intros; apply H; lia)). lra. Qed.
Lemma rsum_le : forall n f g, (forall i, (i < n)%nat -> f i <= g i) -> rsum n f <= rsum n g.
Proof. induction n; intros f g H; cbn [rsum]; [ lra | ]. pose proof (H n ltac:(lia)). pose proof (IHn f g ltac:(intros; apply H; lia)). lra. Qed.
Lemma rsum_const : forall n a, rsum n (fun _ => a) = INR n * a.
Proof. induction n; intros; cbn [rsum]; [ cbn; ring | rewrite IHn, S_INR; ring ]. Qed.
Lemma rsum_swap : forall n m (f : nat -> nat -> R), rsum n (fun i => rsum m (fun j => f i j)) = rsum m (fun j => rsum n (fun i => f i j)).
Proof.
  induction n; intros m f; cbn [rsum]. { rewrite rsum_const. ring. }
  rewrite IHn, <- rsum_plus. reflexivity.
Qed.
Lemma rsum_zero_term : forall n f, (forall i, (i < n)%nat -> 0 <= f i) -> rsum n f = 0 -> forall i, (i < n)%nat -> f i = 0.
Proof.
  induction n; intros f H E i Hi; [ lia | ]. cbn [rsum] in E.
  pose proof (H n ltac:(lia)). pose proof (rsum_pos n f ltac:(intros; apply H; lia)).
  destruct (Nat.eq_dec i n) as [-> | ]; [ lra | ]. apply (IHn f); [ intros; apply H; lia | lra | lia ].
Qed.
Lemma rsum_pick : forall n k a, (k < n)%nat -> rsum n (fun i => if Nat.eq_dec i k then a i else 0) = a k.
Proof.
  induction n; intros k a H; [ lia | ]. cbn [rsum]. destruct (Nat.eq_dec n k) as [-> | ].
  - rewrite (rsum_ext k _ (fun _ => 0)) by (intros i Hi; destruct (Nat.eq_dec i k); [ lia | reflexivity ]). rewrite rsum_const. ring.
  - rewrite IHn by lia. ring.
Qed.

Section Vec.
Variable N : nat.
Notation dot := (rdot N).
Notation eqv := (veq N).

Lemma rdot_ext : forall u u' v v', eqv u u' -> eqv v v' -> dot u v = dot u' v'.
Proof. intros u u' v v' H H'. apply rsum_ext. intros i Hi. rewrite (H i Hi), (H' i Hi). reflexivity. Qed.
Lemma rdot_comb_l : forall a b u v w, dot (fun i => a * u i + b * v i) w = a * dot u w + b * dot v w.
Proof. intros. unfold rdot. rewrite <- !rsum_scal, <- rsum_plus. apply rsum_ext. intros; ring. Qed.
Lemma rdot_sym : forall u v, dot u v = dot v u.
Proof. intros. apply rsum_ext. intros; ring. Qed.
Lemma rdot_comb_r : forall a b u v w, dot w (fun i => a * u i + b * v i) = a * dot w u + b * dot w v.
Proof. intros. rewrite rdot_sym, rdot_comb_l, (rdot_sym u), (rdot_sym v). reflexivity. Qed.
Lemma rdot_pos : forall u, 0 <= dot u u.
Proof. intros. apply rsum_pos. intros; nra. Qed.
Lemma rdot_zero : forall u, dot u u = 0 -> eqv u (fun _ => 0).
Proof. intros u H i Hi. pose proof (rsum_zero_term N (fun i => u i * u i) ltac:(intros; nra) H i Hi) as E. cbn in E. nra. Qed.
Lemma rdot_zero_l : forall u v, eqv u (fun _ => 0) -> dot u v = 0.
Proof. intros u v H. rewrite (rdot_ext u (fun _ => 0) v v H) by (intros i Hi; reflexivity). unfold rdot. rewrite (rsum_ext N _ (fun _ => 0)) by (intros; ring). rewrite rsum_const; ring. Qed.
Lemma veq_refl : forall u, eqv u u. Proof. intros u i _; reflexivity. Qed.
Lemma veq_sym : forall u v, eqv u v -> eqv v u. Proof. intros u v H i Hi; symmetry; auto. Qed.
Lemma veq_trans : forall u v w, eqv u v -> eqv v w -> eqv u w. Proof. intros u v w H H' i Hi. rewrite (H i Hi); auto. Qed.

(** K nonzero vectors orthogonal to each other: K <= N *)
Definition lcomb (K : nat) (c : nat -> R) (r : nat -> rvec) : rvec := fun i => rsum K (fun j => c j * r j i).
Lemma dot_lcomb : forall K c r w, dot (lcomb K c r) w = rsum K (fun j => c j * dot (r j) w).
Proof.
  intros. unfold rdot, lcomb. rewrite (rsum_ext N _ (fun i => rsum K (fun j => c j * r j i * w i))).
  2:{ intros i _. rewrite Rmult_comm, <- rsum_scal. apply rsum_ext; intros; ring. }
  rewrite rsum_swap. apply rsum_ext; intros j _. rewrite <- rsum_scal. apply rsum_ext; intros; ring.
Qed.
Lemma orthogonal_bound : forall K (r : nat -> rvec),
  (forall j, (j < K)%nat -> dot (r j) (r j) <> 0) -> (forall j k, (j < k < K)%nat -> dot (r k) (r j) = 0) -> (K <= N)%nat.
Proof.
  intros K r Hn Ho.
  assert (Ho' : forall j k, (j < K)%nat -> (k < K)%nat -> j <> k -> dot (r j) (r k) = 0).
  { intros j k Hj Hk Hjk. destruct (Nat.lt_trichotomy j k) as [ | [ | ]]; [ rewrite rdot_sym; apply Ho; lia | lia | apply Ho; lia ]. }
  assert (B : forall i, (i < N)%nat -> rsum K (fun j => r j i * r j i / dot (r j) (r j)) <= 1).
  { intros i Hi. set (c := fun j => r j i / dot (r j) (r j)). set (e := fun k => if Nat.eq_dec k i then 1 else 0).
    assert (Ee : forall w, dot e w = w i).
    { intros w. unfold rdot, e. etransitivity; [ | apply (rsum_pick N i (fun k => w k) Hi) ]. apply rsum_ext; intros k _. destruct (Nat.eq_dec k i); cbn; ring. }
    pose proof (rdot_pos (fun k => 1 * e k + (-1) * lcomb K c r k)) as P.
    rewrite rdot_comb_l, !rdot_comb_r, (rdot_sym (lcomb K c r) e), !Ee in P.
    assert (e i = 1) as E1 by (unfold e; destruct (Nat.eq_dec i i); [ reflexivity | congruence ]).
    assert (dot (lcomb K c r) (lcomb K c r) = lcomb K c r i) as E2.
    { rewrite dot_lcomb. unfold lcomb at 2. apply rsum_ext; intros j Hj. rewrite rdot_sym, dot_lcomb.
      rewrite (rsum_ext K _ (fun k => if Nat.eq_dec k j then c k * dot (r k) (r k) else 0)).
      2:{ intros k Hk. destruct (Nat.eq_dec k j) as [-> | ne]; [ reflexivity | rewrite Ho' by assumption; ring ]. }
      rewrite (rsum_pick K j (fun k => c k * dot (r k) (r k)) Hj). unfold c. field. apply Hn; assumption. }
    rewrite E1, E2 in P. assert (lcomb K c r i = rsum K (fun j => r j i * r j i / dot (r j) (r j))) as E3.
    { apply rsum_ext; intros j _. unfold c. unfold Rdiv. ring. }
    rewrite E3 in P. lra. }
  pose proof (rsum_le N _ (fun _ => 1) B) as S. rewrite rsum_const, rsum_swap in S.
  rewrite (rsum_ext K _ (fun _ => 1)) in S.
  2:{ intros j Hj. transitivity (/ dot (r j) (r j) * dot (r j) (r j)); [ | field; apply Hn; assumption ].
      unfold rdot at 3. rewrite <- rsum_scal. apply rsum_ext; intros; unfold Rdiv; ring. }
  rewrite rsum_const in S. apply INR_le. lra.
Qed.

(** ** conjugate gradient recurrence *)
Variable A : rvec -> rvec.
Hypothesis Alin : linear_op N A.
Hypothesis Asym : symmetric_op N A.
Hypothesis Apos : positive_op N A.
Lemma A_ext : forall u v, eqv u v -> eqv (A u) (A v). Proof. exact (proj1 Alin). Qed.
Lemma A_comb : forall a b u v, eqv (A (fun i => a * u i + b * v i)) (fun i => a * A u i + b * A v i). Proof. exact (proj2 Alin). Qed.
Definition om (rp : rvec * rvec) : R := dot (fst rp) (fst rp) / dot (A (snd rp)) (snd rp).
Definition rnext (rp : rvec * rvec) : rvec := fun i => fst rp i - A (snd rp) i * om rp.
Definition rp_step (rp : rvec * rvec) : rvec * rvec :=
  let r := rnext rp in (r, fun i => r i + snd rp i * (dot r r / dot (fst rp) (fst rp))).
Variable r0 : rvec.
Fixpoint rp (k : nat) : rvec * rvec := match k with O => (r0, r0) | S k => rp_step (rp k) end.
Notation r k := (fst (rp k)).
Notation p k := (snd (rp k)).
Lemma r_S : forall k, r (S k) = fun i => r k i - A (p k) i * om (rp k). Proof. reflexivity. Qed.
Lemma p_S : forall k, p (S k) = fun i => r (S k) i + p k i * (dot (r (S k)) (r (S k)) / dot (r k) (r k)). Proof. reflexivity. Qed.
Lemma r_S_c : forall k, eqv (r (S k)) (fun i => 1 * r k i + (- om (rp k)) * A (p k) i).
Proof. intros k i _. rewrite r_S. ring. Qed.
Lemma p_S_c : forall k, eqv (p (S k)) (fun i => 1 * r (S k) i + (dot (r (S k)) (r (S k)) / dot (r k) (r k)) * p k i).
Proof. intros k i _. rewrite p_S. ring. Qed.
Definition nz (K : nat) : Prop := forall k, (k < K)%nat -> dot (r k) (r k) <> 0.
Lemma dot_l : forall u a b v w x, eqv u (fun i => a * v i + b * w i) -> dot u x = a * dot v x + b * dot w x.
Proof. intros u a b v w x H. rewrite (rdot_ext _ _ x x H (veq_refl x)). apply rdot_comb_l. Qed.
Lemma dot_r : forall u a b v w x, eqv u (fun i => a * v i + b * w i) -> dot x u = a * dot x v + b * dot x w.
Proof. intros u a b v w x H. rewrite (rdot_ext x x _ _ (veq_refl x) H). apply rdot_comb_r. Qed.
Lemma alpha_pos : forall k, dot (r k) (p k) = dot (r k) (r k) -> dot (r k) (r k) <> 0 -> 0 < dot (A (p k)) (p k).
Proof.
  intros k H Hn. rewrite rdot_sym. apply Apos. intros E. apply Hn. rewrite <- H, rdot_sym. apply rdot_zero_l; assumption.
Qed.
Lemma Ap_r : forall k, om (rp k) <> 0 -> eqv (A (p k)) (fun i => (/ om (rp k)) * r k i + (- / om (rp k)) * r (S k) i).
Proof. intros k H i Hi. rewrite r_S. field. assumption. Qed.
Theorem cg_orthogonal : forall K, nz K -> forall k, (k <= K)%nat ->
  dot (r k) (p k) = dot (r k) (r k) /\
  (forall i, (i < k)%nat -> dot (r k) (p i) = 0 /\ dot (p k) (A (p i)) = 0 /\ dot (r k) (r i) = 0).
Proof.
  intros K Hn. induction k as [k IH] using (well_founded_induction Wf_nat.lt_wf). intros Hk.
  destruct k as [ | k]. { split; [ reflexivity | intros i Hi; lia ]. }
  destruct (IH k ltac:(lia) ltac:(lia)) as [Hd Ho].
  assert (Hnz : dot (r k) (r k) <> 0) by (apply Hn; lia).
  pose proof (alpha_pos k Hd Hnz) as Hal. pose proof (rdot_pos (r k)) as Hpos.
  assert (om_nz : forall j, (j <= k)%nat -> om (rp j) <> 0).
  { intros j Hj. destruct (IH j ltac:(lia) ltac:(lia)) as [Hdj _]. assert (dot (r j) (r j) <> 0) by (apply Hn; lia).
    pose proof (alpha_pos j Hdj H). unfold om. unfold Rdiv. apply Rmult_integral_contrapositive_currified; [ assumption | apply Rinv_neq_0_compat; lra ]. }
  (* (a) *)
  assert (Ha : forall i, (i <= k)%nat -> dot (r (S k)) (p i) = 0).
  { intros i Hi. rewrite (dot_l _ _ _ _ _ _ (r_S_c k)). destruct (Nat.eq_dec i k) as [-> | ].
    - rewrite Hd. unfold om. field. lra.
    - destruct (Ho i ltac:(lia)) as (H1 & H2 & _). rewrite H1, (Asym (p k)), H2. ring. }
  (* (c) *)
  assert (Hc : forall i, (i <= k)%nat -> dot (r (S k)) (r i) = 0).
  { intros i Hi. destruct i as [ | i]. { change (r 0) with (p 0). apply Ha; lia. }
    assert (eqv (r (S i)) (fun j => 1 * p (S i) j + (- (dot (r (S i)) (r (S i)) / dot (r i) (r i))) * p i j)) as E.
    { intros j Hj. rewrite p_S. ring. }
    rewrite (dot_r _ _ _ _ _ _ E), !Ha by lia. ring. }
  (* (d) *)
  assert (Hd' : dot (r (S k)) (p (S k)) = dot (r (S k)) (r (S k))).
  { rewrite (dot_r _ _ _ _ _ _ (p_S_c k)), Ha by lia. ring. }
  split; [ assumption | ]. intros i Hi. split; [ apply Ha; lia | split; [ | apply Hc; lia ] ].
  rewrite (dot_l _ _ _ _ _ _ (p_S_c k)). destruct (Nat.eq_dec i k) as [-> | ].
  - rewrite (dot_r _ _ _ _ _ (r (S k)) (Ap_r k (om_nz k ltac:(lia)))), Hc by lia.
    assert (dot (p k) (A (p k)) = dot (r k) (r k) / om (rp k)) as E.
    { rewrite rdot_sym. unfold om. field; repeat split; try assumption; lra. }
    rewrite E. field; repeat split; first [ assumption | apply om_nz; lia ].
  - destruct (Ho i ltac:(lia)) as (_ & H2 & _). rewrite H2.
    rewrite (dot_r _ _ _ _ _ (r (S k)) (Ap_r i (om_nz i ltac:(lia)))), (Hc i), (Hc (S i)) by lia. ring.
Qed.
Theorem cg_finite : forall K, nz K -> (K <= N)%nat.
Proof.
  intros K H. apply (orthogonal_bound K (fun k => r k)); [ exact H | ].
  intros j k Hjk. apply (cg_orthogonal K H k ltac:(lia)). lia.
Qed.
Theorem cg_alpha_pos : forall K, nz K -> forall k, (k < K)%nat -> 0 < dot (A (p k)) (p k).
Proof. intros K H k Hk. apply alpha_pos; [ apply (cg_orthogonal K H k ltac:(lia)) | apply H; assumption ]. Qed.
End Vec.
