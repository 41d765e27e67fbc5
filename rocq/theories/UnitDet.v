(** The determinant and the distance from unitarity of a matrix N with N N^dag = 1 + E E^dag / 4. *)
From Coq Require Import Reals Lra Lia List.
From Coquelicot Require Import Coquelicot.
From Verif Require Import CplxModel CplxProofs MatModel MatSpec MatProofs MatRun MatProofs2 MatProofs3 MatProofs4 MatAlg ExpSmall UnitAlg.
Set Bullet Behavior "Strict Subproofs".
Open Scope R_scope.

Definition rown (E : cmat) (i : nat) : R := sqn (E i 0%nat) + sqn (E i 1%nat) + sqn (E i 2%nat).
Lemma rown_pos E i : 0 <= rown E i.
Proof. unfold rown. pose proof (sqn_pos (E i 0%nat)). pose proof (sqn_pos (E i 1%nat)). pose proof (sqn_pos (E i 2%nat)). lra. Qed.
Lemma norm2_rows E : norm2 E = rown E 0 + rown E 1 + rown E 2.
Proof. rewrite norm2_sqn. unfold rown. ring. Qed.
Lemma gram_diag E i : gram E i i = RtoC (rown E i / 4).
Proof. unfold gram, mscale, mmul, dag, rown, sqn. cbn [csum]. apply injective_projections; unfold Cplus, Cmult, Cconj, RtoC; cbn [fst snd]; field. Qed.
Lemma gram_herm E i j : gram E j i = Cconj (gram E i j).
Proof. unfold gram, mscale, mmul, dag. cbn [csum]. apply injective_projections; unfold Cplus, Cmult, Cconj, RtoC; cbn [fst snd]; ring. Qed.
Lemma sqn_conj z : sqn (Cconj z) = sqn z.
Proof. unfold sqn, Cconj. cbn [fst snd]. ring. Qed.
Lemma sqn_mult z w : sqn (z * w)%C = sqn z * sqn w.
Proof. unfold sqn, Cmult. cbn [fst snd]. ring. Qed.
Lemma gram_off E i j : sqn (gram E i j) <= rown E i / 4 * (rown E j / 4).
Proof.
  unfold gram, mscale. rewrite sqn_mult. unfold mmul, dag. cbn [csum].
  pose proof (cs3 (E i 0%nat) (E i 1%nat) (E i 2%nat) (Cconj (E j 0%nat)) (Cconj (E j 1%nat)) (Cconj (E j 2%nat))) as C. rewrite !sqn_conj in C. fold (rown E i) (rown E j) in C.
  replace (sqn (RtoC (/ 4))) with (/ 16) by (unfold sqn, RtoC; cbn [fst snd]; field). lra.
Qed.
Lemma mult_conj z : (z * Cconj z)%C = RtoC (sqn z).
Proof. unfold sqn. apply injective_projections; unfold Cmult, Cconj, RtoC; cbn [fst snd]; ring. Qed.
Lemma det_one_plus X : det (madd mid X) = (RtoC 1 + trace X + (X 0%nat 0%nat * X 1%nat 1%nat - X 0%nat 1%nat * X 1%nat 0%nat + (X 0%nat 0%nat * X 2%nat 2%nat - X 0%nat 2%nat * X 2%nat 0%nat)
  + (X 1%nat 1%nat * X 2%nat 2%nat - X 1%nat 2%nat * X 2%nat 1%nat)) + det X)%C.
Proof. unfold det, madd, mid, trace. cbn [csum Nat.eqb]. ring. Qed.
Lemma det_scale c X : det (mscale c X) = (c * c * c * det X)%C.
Proof. unfold det, mscale. ring. Qed.
Lemma sqn_det E : sqn (det E) <= 3 * (rown E 0 * rown E 1 * rown E 2).
Proof.
  set (cof := fun p q => (E 1%nat p * E 2%nat q - E 1%nat q * E 2%nat p)%C).
  assert (B : forall p q, (p < 3)%nat -> (q < 3)%nat -> p <> q -> sqn (cof p q) <= rown E 1 * rown E 2).
  { intros p q Hp Hq Hpq. unfold cof. pose proof (cs3 (E 1%nat p) (E 1%nat q) (RtoC 0) (E 2%nat q) (- E 2%nat p)%C (RtoC 0)) as C.
    replace (RtoC 0 + E 1%nat p * E 2%nat q + E 1%nat q * - E 2%nat p + RtoC 0 * RtoC 0)%C with (E 1%nat p * E 2%nat q - E 1%nat q * E 2%nat p)%C in C by ring.
    eapply Rle_trans; [exact C|]. replace (sqn (- E 2%nat p)%C) with (sqn (E 2%nat p)) by (unfold sqn, Copp; cbn [fst snd]; ring). replace (sqn (RtoC 0)) with 0 by (unfold sqn, RtoC; cbn [fst snd]; ring).
    assert (Q : forall i, 0 <= sqn (E i p) + sqn (E i q) + 0 <= rown E i).
    { intros i. unfold rown. pose proof (sqn_pos (E i 0%nat)). pose proof (sqn_pos (E i 1%nat)). pose proof (sqn_pos (E i 2%nat)).
      destruct p as [|[|[|]]], q as [|[|[|]]]; try lia; lra. }
    destruct (Q 1%nat), (Q 2%nat). replace (sqn (E 2%nat q) + sqn (E 2%nat p) + 0) with (sqn (E 2%nat p) + sqn (E 2%nat q) + 0) by ring. apply Rmult_le_compat; lra. }
  pose proof (cs3 (E 0%nat 0%nat) (E 0%nat 1%nat) (E 0%nat 2%nat) (cof 1%nat 2%nat) (cof 2%nat 0%nat) (cof 0%nat 1%nat)) as C. fold (rown E 0) in C.
  replace (RtoC 0 + E 0%nat 0%nat * cof 1%nat 2%nat + E 0%nat 1%nat * cof 2%nat 0%nat + E 0%nat 2%nat * cof 0%nat 1%nat)%C with (det E) in C by (unfold cof, det; ring).
  pose proof (B 1%nat 2%nat ltac:(lia) ltac:(lia) ltac:(lia)). pose proof (B 2%nat 0%nat ltac:(lia) ltac:(lia) ltac:(lia)). pose proof (B 0%nat 1%nat ltac:(lia) ltac:(lia) ltac:(lia)).
  pose proof (rown_pos E 0). eapply Rle_trans; [exact C|]. apply Rle_trans with (rown E 0 * (3 * (rown E 1 * rown E 2))); [|lra]. apply Rmult_le_compat_l; lra.
Qed.
Section N.
Context (N E : cmat) (H : meq (mmul N (dag N)) (madd mid (gram E))).
Notation t := (norm2 E / 4).
Lemma det_bounds : 1 + t <= sqn (det N) <= 1 + t + t * t + 3 * (t * t * t).
Proof using H.
  set (d := fun i => rown E i / 4).
  assert (P : forall i, 0 <= d i) by (intros i; unfold d; pose proof (rown_pos E i); lra).
  assert (ET : t = d 0%nat + d 1%nat + d 2%nat) by (unfold d; rewrite norm2_rows; field).
  assert (V : RtoC (sqn (det N)) = RtoC (1 + t + (d 0%nat * d 1%nat - sqn (gram E 0%nat 1%nat) + (d 0%nat * d 2%nat - sqn (gram E 0%nat 2%nat)) + (d 1%nat * d 2%nat - sqn (gram E 1%nat 2%nat))) + sqn (det E) / 64)).
  { rewrite <- mult_conj, <- det_dag, <- det_mul, (det_proper _ _ H), det_one_plus. unfold trace. cbn [csum].
    rewrite (gram_herm E 0 1), (gram_herm E 0 2), (gram_herm E 1 2), !gram_diag, !mult_conj. fold (d 0%nat) (d 1%nat) (d 2%nat).
    unfold gram at 4. rewrite det_scale, det_mul, det_dag, mult_conj, ET. rewrite !RtoC_plus, !RtoC_minus, !RtoC_mult. unfold Rdiv. rewrite RtoC_mult.
    replace (RtoC (/ 64)) with (RtoC (/ 4) * RtoC (/ 4) * RtoC (/ 4))%C by (rewrite <- !RtoC_mult; f_equal; field). ring. }
  apply (f_equal fst) in V. cbn [fst RtoC] in V. rewrite V, ET.
  pose proof (gram_off E 0 1) as G1. pose proof (gram_off E 0 2) as G2. pose proof (gram_off E 1 2) as G3. fold (d 0%nat) (d 1%nat) (d 2%nat) in G1, G2, G3.
  pose proof (sqn_pos (gram E 0%nat 1%nat)). pose proof (sqn_pos (gram E 0%nat 2%nat)). pose proof (sqn_pos (gram E 1%nat 2%nat)). pose proof (sqn_pos (det E)).
  pose proof (sqn_det E) as D. replace (rown E 0 * rown E 1 * rown E 2) with (64 * (d 0%nat * d 1%nat * d 2%nat)) in D by (unfold d; field).
  pose proof (P 0%nat) as P0. pose proof (P 1%nat) as P1. pose proof (P 2%nat) as P2. revert P0 P1 P2 D G1 G2 G3. generalize (d 0%nat) (d 1%nat) (d 2%nat). intros x y z P0 P1 P2 D G1 G2 G3.
  assert (Qxy : 0 <= x * y) by (now apply Rmult_le_pos). assert (Qxz : 0 <= x * z) by (now apply Rmult_le_pos). assert (Qyz : 0 <= y * z) by (now apply Rmult_le_pos).
  assert (Qx : 0 <= x * x) by (now apply Rmult_le_pos). assert (Qy : 0 <= y * y) by (now apply Rmult_le_pos). assert (Qz : 0 <= z * z) by (now apply Rmult_le_pos).
  split; [lra|].
  assert (C1 : x * y + x * z + y * z <= (x + y + z) * (x + y + z)) by lra.
  assert (C2 : x * y * z <= (x + y + z) * (x + y + z) * (x + y + z)).
  { assert (0 <= x + y + z) by lra. apply Rmult_le_compat; [assumption|lra| |lra]. lra. }
  lra.
Qed.
Lemma det_N : det N <> RtoC 0.
Proof using H. destruct det_bounds as [B _]. intros E0. rewrite E0 in B. unfold sqn, RtoC in B. cbn [fst snd] in B. pose proof (norm2_pos E). lra. Qed.
Lemma gram_entry i j : (i < 3)%nat -> (j < 3)%nat -> Cmod (gram E i j) <= t.
Proof.
  intros Hi Hj. assert (T0 : 0 <= t) by (pose proof (norm2_pos E); lra). unfold Cmod. replace (fst (gram E i j) ^ 2 + snd (gram E i j) ^ 2) with (sqn (gram E i j)) by (unfold sqn; ring).
  rewrite <- (sqrt_square t T0). apply sqrt_le_1_alt. eapply Rle_trans; [apply gram_off|].
  assert (Q : forall k, (k < 3)%nat -> 0 <= rown E k / 4 <= t). { intros k Hk. rewrite norm2_rows. pose proof (rown_pos E 0). pose proof (rown_pos E 1). pose proof (rown_pos E 2). destruct k as [|[|[|]]]; try lia; lra. }
  destruct (Q i Hi), (Q j Hj). apply Rmult_le_compat; assumption.
Qed.
Lemma unit_close (f : C) (tau : R) : 0 <= tau <= / 10 -> t <= 6 * (tau * tau) -> (f * f * f * det N)%C = RtoC 1 ->
  det (mscale f N) = RtoC 1 /\ forall i j, (i < 3)%nat -> (j < 3)%nat -> Cmod (mmul (mscale f N) (dag (mscale f N)) i j - mid i j)%C <= 13 * (tau * tau).
Proof using H.
  intros Ht T Hf. split; [rewrite det_scale; exact Hf|].
  assert (T0 : 0 <= t) by (pose proof (norm2_pos E); lra).
  assert (S : sqn f * sqn f * sqn f * sqn (det N) = 1) by (rewrite <- !sqn_mult, Hf; unfold sqn, RtoC; cbn [fst snd]; ring).
  destruct det_bounds as [B1 B2]. set (phi := sqn f) in *. pose proof (sqn_pos f) as F0. fold phi in F0. set (de := sqn (det N)) in *.
  assert (T6 : t <= 6 / 100) by (assert (tau * tau <= / 100) by nra; lra).
  assert (F1 : phi <= 1). { destruct (Rle_lt_dec phi 1) as [|L]; [assumption|]. exfalso. assert (1 < phi * phi * phi) by nra. assert (1 < phi * phi * phi * de) by nra. lra. }
  assert (F2 : 1 - phi <= de - 1).
  { assert (phi * phi * phi <= phi) by nra. assert (1 <= phi * de) by nra. nra. }
  assert (F3 : de - 1 <= 1.08 * t). { assert (t * t <= 6 / 100 * t) by nra. assert (t * t * t <= 36 / 10000 * t) by nra. lra. }
  intros i j Hi Hj.
  assert (EQ : mmul (mscale f N) (dag (mscale f N)) i j = (RtoC phi * (mid i j + gram E i j))%C).
  { transitivity (RtoC phi * mmul N (dag N) i j)%C; [|rewrite (H i j Hi Hj); reflexivity]. unfold phi. rewrite <- mult_conj. unfold mmul, mscale, dag. cbn [csum]. rewrite !Cconj_mult. ring. }
  rewrite EQ. replace (RtoC phi * (mid i j + gram E i j) - mid i j)%C with (RtoC phi * gram E i j + RtoC (phi - 1) * mid i j)%C by (rewrite RtoC_minus; ring).
  eapply Rle_trans; [apply Cmod_triangle|]. rewrite !Cmod_mult, !Cmod_R. pose proof (gram_entry i j Hi Hj) as G. pose proof (Cmod_ge_0 (gram E i j)) as G0.
  assert (M : 0 <= Cmod (mid i j) <= 1) by (unfold mid; destruct (Nat.eqb i j); rewrite Cmod_R, Rabs_pos_eq; lra).
  rewrite (Rabs_pos_eq phi) by exact F0. replace (Rabs (phi - 1)) with (1 - phi) by (rewrite Rabs_minus_sym, Rabs_pos_eq; lra).
  assert (phi * Cmod (gram E i j) <= t) by nra. assert ((1 - phi) * Cmod (mid i j) <= 1 - phi) by nra. lra.
Qed.
End N.
