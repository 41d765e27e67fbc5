(** C87: the projection of a matrix on SU(3) by averaging it with its inverse. *)
From Coq Require Import Reals Lra Lia List.
From Coquelicot Require Import Coquelicot.
From Verif Require Import MatSpec MatAlg ExpSmall UnitSpec UnitModel UnitAlg UnitDet UnitProofs UnitMain UnitPolar.
Set Bullet Behavior "Strict Subproofs".
Open Scope R_scope.

(** The routine returns for every invertible matrix and every positive tolerance, with a single possible result. *)
Theorem C87_returns T J tol : inverse_of J T -> 0 < tol ->
  (exists n out, unitarize_explicitly_inverting T tol n out) /\
  (forall n out n' out', unitarize_explicitly_inverting T tol n out -> unitarize_explicitly_inverting T tol n' out' -> n = n' /\ meq out out').
Proof.
  intros HJ Ht. destruct (minv_unique T J HJ) as [D E]. split.
  - destruct (pow4_unbounded (5 * defect T / (16 * (tol * tol)))) as [k K]. destruct (terminates tol T k Ht D) as (n & N & V & _).
    + assert (0 < tol * tol) by nra. apply (Rmult_le_compat_r (16 * (tol * tol))) in K; [|lra]. replace (5 * defect T / (16 * (tol * tol)) * (16 * (tol * tol))) with (5 * defect T) in K by (field; lra). lra.
    + exists n. now apply (unit_out T n tol N).
  - intros n out n' out' U U'. destruct (unit_in _ _ _ _ D U) as (N & V & O). destruct (unit_in _ _ _ _ D U') as (N' & V' & O').
    destruct (vloop_det _ _ _ _ V _ _ V') as [-> ->]. split; [reflexivity|]. now rewrite O, O'.
Qed.
Print Assumptions C87_returns.
(** The iterations grow at most with the logarithm of the distance from the unitary matrices over the tolerance. *)
Theorem C87_iterations T J tol k n out : inverse_of J T -> 0 < tol ->
  5 * (norm2 T + norm2 J - 6) <= 16 * 4 ^ k * (tol * tol) -> unitarize_explicitly_inverting T tol n out -> (1 <= n <= k + 2)%nat.
Proof.
  intros HJ Ht K U. destruct (minv_unique T J HJ) as [D E]. destruct (terminates tol T k Ht D) as (n' & N' & V' & L).
  - unfold defect. now rewrite (norm2_proper _ _ E).
  - destruct (unit_in _ _ _ _ D U) as (N & V & O). destruct (vloop_det _ _ _ _ V _ _ V') as [-> ->]. split; [|lia]. inversion V'; lia.
Qed.
Print Assumptions C87_iterations.
(** The result is in SU(3): of determinant exactly 1, and unitary up to the square of the tolerance. *)
Theorem C87_special_unitary T J tol n out : inverse_of J T -> 0 < tol <= / 10 -> unitarize_explicitly_inverting T tol n out ->
  det out = RtoC 1 /\ near (13 * (tol * tol)) (mmul out (dag out)) mid.
Proof.
  intros HJ Ht U. destruct (minv_unique T J HJ) as [D E]. destruct (unit_in _ _ _ _ D U) as (N & V & O).
  destruct (left tol T n N ltac:(lra) V D) as [A B]. split; [now rewrite (det_proper _ _ O)|].
  intros i j Hi Hj. assert (Q : meq (mmul out (dag out)) (mmul (mscale (croot (det N)) N) (dag (mscale (croot (det N)) N)))) by (now rewrite O). rewrite (Q i j Hi Hj). now apply B.
Qed.
Print Assumptions C87_special_unitary.
(** It is the unitary factor of the matrix: of T=H W, with H hermitian and not negative and W unitary, the result is W brought to determinant 1 by a phase, which is 1 if W has
    determinant 1 already. *)
Theorem C87_polar T J H W tol n out : inverse_of J T -> 0 < tol <= / 10 -> psd H -> unitary W -> meq T (mmul H W) -> unitarize_explicitly_inverting T tol n out ->
  exists c, det (mscale c W) = RtoC 1 /\ (det W = RtoC 1 -> c = RtoC 1) /\ near (10 * (tol * tol)) out (mscale c W).
Proof.
  intros HJ Ht P UW ET U. destruct (minv_unique T J HJ) as [D E]. destruct (unit_in _ _ _ _ D U) as (N & V & O).
  destruct (polar tol T H W n N ltac:(lra) P UW ET D V) as (c & C1 & C2 & C3). exists c. split; [rewrite det_scale; exact C1|]. split; [exact C2|].
  intros i j Hi Hj. rewrite (O i j Hi Hj). exact (C3 i j Hi Hj).
Qed.
Print Assumptions C87_polar.
(** A matrix of SU(3) is returned as it is, by the first iteration. *)
Theorem C87_fixed_points T tol : special_unitary T -> 0 < tol -> exists out, unitarize_explicitly_inverting T tol 1 out /\ meq out T.
Proof.
  intros [U D1] Ht. destruct (unitary_step T U) as (D & S & R). assert (V : vloop tol T 1 (nstep T)) by (constructor; lra).
  destruct (unit_out T 1 tol (nstep T) D V) as [out UO]. exists out. split; [exact UO|]. destruct (unit_in _ _ _ _ D UO) as (N & V' & O). destruct (vloop_det _ _ _ _ V _ _ V') as [_ <-].
  rewrite O. intros i j Hi Hj. unfold mscale. rewrite (det_proper _ _ S), D1, croot_1, (S i j Hi Hj). ring.
Qed.
Print Assumptions C87_fixed_points.
(** A gauge rotation of the matrix rotates the result. *)
Theorem C87_covariant T J A B tol n out n' out' : inverse_of J T -> 0 < tol -> special_unitary A -> special_unitary B ->
  unitarize_explicitly_inverting T tol n out -> unitarize_explicitly_inverting (mmul (mmul A T) B) tol n' out' -> n' = n /\ meq out' (mmul (mmul A out) B).
Proof.
  intros HJ Ht [UA DA] [UB DB] U U'. destruct (minv_unique T J HJ) as [D E]. destruct (unit_in _ _ _ _ D U) as (N & V & O).
  destruct (rot_minv A B UA UB T D) as [D' _]. destruct (unit_in _ _ _ _ D' U') as (N' & V' & O').
  destruct (rot_loop A B UA UB tol T n N V D) as (N2 & V2 & E2). destruct (vloop_det _ _ _ _ V' _ _ V2) as [-> ->]. split; [reflexivity|].
  assert (DE : det N2 = det N) by (rewrite (det_proper _ _ E2), !det_mul, DA, DB; ring).
  rewrite O', O. rewrite mmul_scale_r, mmul_scale_l. intros i j Hi Hj. unfold mscale. now rewrite DE, (E2 i j Hi Hj).
Qed.
Print Assumptions C87_covariant.

(** *** Example: twice a rotation of the first two colours by a right angle *)
Definition ex_w : cmat := fun i j => match i, j with 0%nat, 1%nat => RtoC 1 | 1%nat, 0%nat => RtoC (-1) | 2%nat, 2%nat => RtoC 1 | _, _ => RtoC 0 end.
Definition ex_h : cmat := fun i j => match i, j with 0%nat, 0%nat => RtoC 2 | 1%nat, 1%nat => RtoC 3 | 2%nat, 2%nat => RtoC 1 | _, _ => RtoC 0 end.
Definition ex_hi : cmat := fun i j => match i, j with 0%nat, 0%nat => RtoC (/ 2) | 1%nat, 1%nat => RtoC (/ 3) | 2%nat, 2%nat => RtoC 1 | _, _ => RtoC 0 end.
Lemma ex_su : special_unitary ex_w.
Proof.
  split; [intros i j Hi Hj; destruct i as [|[|[|]]], j as [|[|[|]]]; try lia; unfold mmul, dag, ex_w, mid; cbn [csum Nat.eqb]; apply injective_projections; unfold Cplus, Cmult, Cconj, RtoC; cbn [fst snd]; ring|].
  unfold det, ex_w. apply injective_projections; unfold Cminus, Copp, Cplus, Cmult, Cconj, RtoC; cbn [fst snd]; ring.
Qed.
Lemma ex_psd : psd ex_h.
Proof.
  split; [intros i j Hi Hj; destruct i as [|[|[|]]], j as [|[|[|]]]; try lia; unfold dag, ex_h; apply injective_projections; unfold Cconj, RtoC; cbn [fst snd]; ring|].
  intros v. assert (E : quad ex_h v = 2 * sqn (v 0%nat) + 3 * sqn (v 1%nat) + sqn (v 2%nat)).
  { unfold quad, ex_h, sqn. cbn [csum]. unfold Cplus, Cmult, Cconj, RtoC. cbn [fst snd]. ring. }
  rewrite E. pose proof (sqn_pos (v 0%nat)). pose proof (sqn_pos (v 1%nat)). pose proof (sqn_pos (v 2%nat)). lra.
Qed.
Lemma ex_inv : inverse_of (mmul (dag ex_w) ex_hi) (mmul ex_h ex_w).
Proof.
  unfold inverse_of. rewrite mmul_assoc, <- (mmul_assoc ex_w). assert (U : meq (mmul ex_w (dag ex_w)) mid) by apply ex_su. rewrite U, mmul_1_l.
  intros i j Hi Hj; destruct i as [|[|[|]]], j as [|[|[|]]]; try lia; unfold mmul, ex_h, ex_hi, mid; cbn [csum Nat.eqb]; apply injective_projections; unfold Cplus, Cmult, RtoC; cbn [fst snd]; field.
Qed.
(** the matrix is brought back to the rotation, and in at most 25 iterations with a tolerance of 1e-6 *)
Example C87_example : exists n out, unitarize_explicitly_inverting (mmul ex_h ex_w) (/ 10 ^ 6) n out /\ near (/ 10 ^ 11) out ex_w /\ (n <= 25)%nat.
Proof.
  assert (T6 : 0 < / 10 ^ 6 <= / 10) by (split; [apply Rinv_0_lt_compat; apply pow_lt; lra|apply Rinv_le_contravar; lra]).
  destruct (C87_returns _ _ _ ex_inv (proj1 T6)) as [(n & out & U) _]. exists n, out. split; [exact U|]. split.
  - destruct ex_su as [UW DW]. destruct (C87_polar _ _ ex_h ex_w _ _ _ ex_inv T6 ex_psd UW (fun i j _ _ => eq_refl) U) as (c & _ & C & NR). intros i j Hi Hj. specialize (NR i j Hi Hj).
    rewrite (C DW) in NR. unfold mscale in NR. rewrite Cmult_1_l in NR. eapply Rle_trans; [exact NR|]. apply Req_le. field.
  - apply (C87_iterations _ _ _ 23 _ _ ex_inv (proj1 T6)) in U; [lia|].
    assert (A : norm2 (mmul ex_h ex_w) = 14) by (rewrite norm2_sqn; unfold mmul, ex_h, ex_w, sqn; cbn [csum]; unfold Cplus, Cmult, RtoC; cbn [fst snd]; ring).
    assert (B : norm2 (mmul (dag ex_w) ex_hi) = / 4 + / 9 + 1) by (rewrite norm2_sqn; unfold mmul, dag, ex_hi, ex_w, sqn; cbn [csum]; unfold Cplus, Cmult, Cconj, RtoC; cbn [fst snd]; field).
    rewrite A, B. apply Rle_trans with 100; [lra|]. replace (/ 10 ^ 6 * / 10 ^ 6) with (/ 10 ^ 12) by field. apply (Rmult_le_reg_r (10 ^ 12)); [apply pow_lt; lra|]. rewrite Rmult_assoc, Rinv_l by (apply pow_nonzero; lra). lra.
Qed.
