(** The unitary matrix the iterations tend to is the one of the polar decomposition. *)
From Coq Require Import Reals Lra Lia List Morphisms.
From Coquelicot Require Import Coquelicot.
From Verif Require Import CplxModel CplxSpec CplxProofs MatModel MatSpec UnitSpec MatProofs MatRun MatProofs2 MatProofs3 MatProofs4 MatInverse MatAlg GaugeModel GaugeProofs ExpSmall UnitModel UnitAlg UnitDet UnitProofs UnitMain.
Import ListNotations.
Set Bullet Behavior "Strict Subproofs".
Open Scope R_scope.

Lemma quad_proper x y v : meq x y -> quad x v = quad y v.
Proof. intros E. unfold quad. cbn [csum]. rewrite !(E _ _) by lia. reflexivity. Qed.
Lemma quad_conj H J v : quad (mmul (mmul (dag J) H) J) v = quad H (fun i => csum 3 (fun j => J i j * v j)%C).
Proof. unfold quad. f_equal. unfold mmul, dag. cbn [csum]. rewrite ?Cconj_plus, ?Cconj_mult, ?Cconj_R. ring. Qed.
Lemma quad_lin H K (al be : R) v : quad (madd (mscale (RtoC al) H) (mscale (RtoC be) K)) v = al * quad H v + be * quad K v.
Proof.
  unfold quad. transitivity (fst (RtoC al * csum 3 (fun i => csum 3 (fun j => Cconj (v i) * H i j * v j)) + RtoC be * csum 3 (fun i => csum 3 (fun j => Cconj (v i) * K i j * v j)))%C).
  - f_equal. unfold madd, mscale. cbn [csum]. ring.
  - generalize (csum 3 (fun i => csum 3 (fun j => Cconj (v i) * H i j * v j)%C)) (csum 3 (fun i => csum 3 (fun j => Cconj (v i) * K i j * v j)%C)). intros [p q] [p' q']. unfold Cplus, Cmult, RtoC. cbn [fst snd]. ring.
Qed.
Lemma psd_inv H : psd H -> det H <> RtoC 0 -> psd (minv H).
Proof.
  intros [Hh Hp] D. pose proof (minv_r H D) as R. assert (L : meq (mmul (minv H) H) mid) by (now apply inv_comm).
  assert (E : meq (dag (minv H)) (minv H)).
  { apply (inv_unique H); [|exact R]. rewrite <- Hh at 2. rewrite <- dag_mul, R. apply dag_1. }
  split; [exact E|]. intros v. assert (E2 : meq (minv H) (mmul (mmul (dag (minv H)) H) (minv H))) by (rewrite E, L, mmul_1_l; reflexivity).
  rewrite (quad_proper _ _ v E2), quad_conj. apply Hp.
Qed.
Lemma psd_step H : psd H -> det H <> RtoC 0 -> psd (nstep H).
Proof.
  intros P D. destruct (psd_inv H P D) as [Ih Ip]. destruct P as [Hh Hp]. destruct (gam_ok H D) as [G _]. unfold nstep. split.
  - intros i j Hi Hj. unfold avg. unfold dag at 1. unfold madd, mscale. rewrite Cconj_plus, !Cconj_mult, !Cconj_R.
    pose proof (Hh i j Hi Hj) as Q1. pose proof (Ih i j Hi Hj) as Q2. pose proof (Ih j i Hj Hi) as Q3. unfold dag in Q1, Q2, Q3. unfold dag. rewrite Q1, Cconj_conj, Q2. reflexivity.
  - intros v. unfold avg. rewrite quad_lin. rewrite (quad_proper _ _ v Ih). assert (0 < / (2 * gam H)) by (apply Rinv_0_lt_compat; lra).
    pose proof (Hp v). pose proof (Ip v). apply Rplus_le_le_0_compat; apply Rmult_le_pos; lra.
Qed.
Lemma psd_loop tol H n N : vloop tol H n N -> psd H -> det H <> RtoC 0 -> psd N.
Proof. induction 1 as [T R|T n N R _ IH]; intros P D; [now apply psd_step|]. apply IH; [now apply psd_step|now apply nstep_det]. Qed.

Lemma gram_norm E : norm2 (gram E) <= norm2 E / 4 * (norm2 E / 4).
Proof.
  rewrite (norm2_sqn (gram E)), (norm2_rows E). pose proof (gram_off E) as O.
  pose proof (O 0 0)%nat. pose proof (O 0 1)%nat. pose proof (O 0 2)%nat. pose proof (O 1 0)%nat. pose proof (O 1 1)%nat. pose proof (O 1 2)%nat. pose proof (O 2 0)%nat. pose proof (O 2 1)%nat. pose proof (O 2 2)%nat.
  lra.
Qed.
(** a nonnegative matrix whose square is near to 1 is near to 1 *)
Lemma sqrt_close H X : psd H -> meq (mmul H H) (madd mid X) -> norm2 (msub H mid) <= norm2 X.
Proof.
  intros [Hh Hp] E. set (K := msub H mid).
  assert (EX : meq X (madd (mscale (RtoC 1) K) (mscale (RtoC 1) (dag (mmul H K))))).
  { transitivity (msub (mmul H H) mid); [intros i j Hi Hj; unfold msub; rewrite (E i j Hi Hj); unfold madd; ring|].
    rewrite dag_mul. assert (KH : meq (dag K) K). { intros i j Hi Hj. pose proof (Hh i j Hi Hj) as Q. pose proof (dag_1 i j Hi Hj) as Q'. unfold dag in *. unfold K, msub. rewrite Cconj_minus, Q, Q'. reflexivity. }
    rewrite KH, Hh. intros i j Hi Hj. unfold madd, mscale, K, msub, mmul, mid. cbn [csum]. idx i; idx j; cbn [Nat.eqb]; ring. }
  rewrite (norm2_proper _ _ EX), norm2_lin.
  assert (Q : 0 <= fst (trace (mmul K (mmul H K)))).
  { assert (KH : meq (dag K) K). { intros i j Hi Hj. pose proof (Hh i j Hi Hj) as Q. pose proof (dag_1 i j Hi Hj) as Q'. unfold dag in *. unfold K, msub. rewrite Cconj_minus, Q, Q'. reflexivity. }
    assert (S : fst (trace (mmul K (mmul H K))) = quad H (fun i => K i 0%nat) + quad H (fun i => K i 1%nat) + quad H (fun i => K i 2%nat)).
    { transitivity (fst (trace (mmul (dag K) (mmul H K)))); [apply (f_equal fst), trace_proper; now rewrite KH|].
      unfold quad, trace, mmul, dag. cbn [csum]. unfold Cplus, Cmult, Cconj, RtoC. cbn [fst snd]. ring. }
    rewrite S. pose proof (Hp (fun i => K i 0%nat)). pose proof (Hp (fun i => K i 1%nat)). pose proof (Hp (fun i => K i 2%nat)). lra. }
  pose proof (norm2_pos (mmul H K)). lra.
Qed.
Lemma norm2_entry X i j (t : R) : (i < 3)%nat -> (j < 3)%nat -> 0 <= t -> norm2 X <= t * t -> Cmod (X i j) <= t.
Proof.
  intros Hi Hj T E. unfold Cmod. rewrite <- (sqrt_square t T). apply sqrt_le_1_alt. eapply Rle_trans; [|exact E]. rewrite norm2_sqn. replace (fst (X i j) ^ 2 + snd (X i j) ^ 2) with (sqn (X i j)) by (unfold sqn; ring).
  pose proof (sqn_pos (X 0 0)%nat). pose proof (sqn_pos (X 0 1)%nat). pose proof (sqn_pos (X 0 2)%nat). pose proof (sqn_pos (X 1 0)%nat). pose proof (sqn_pos (X 1 1)%nat). pose proof (sqn_pos (X 1 2)%nat). pose proof (sqn_pos (X 2 0)%nat). pose proof (sqn_pos (X 2 1)%nat). pose proof (sqn_pos (X 2 2)%nat).
  idx i; idx j; lra.
Qed.
Lemma Cmod_ge_re z : - fst z <= Cmod z.
Proof. pose proof (Rmax_Cmod z) as M. pose proof (Rmax_l (Rabs (fst z)) (Rabs (snd z))). pose proof (Rabs_maj2 (fst z)). lra. Qed.
Lemma det_pos K : (forall i j, (i < 3)%nat -> (j < 3)%nat -> Cmod (K i j) <= 6 / 100) -> 0 < fst (det (madd mid K)).
Proof.
  intros B. rewrite det_one_plus. set (z := (trace K + (K 0%nat 0%nat * K 1%nat 1%nat - K 0%nat 1%nat * K 1%nat 0%nat + (K 0%nat 0%nat * K 2%nat 2%nat - K 0%nat 2%nat * K 2%nat 0%nat)
  + (K 1%nat 1%nat * K 2%nat 2%nat - K 1%nat 2%nat * K 2%nat 1%nat)) + det K)%C).
  assert (Q : Cmod z <= 1 / 2).
  { set (k := 6 / 100) in *. assert (Bm : forall i j l m, (i < 3)%nat -> (j < 3)%nat -> (l < 3)%nat -> (m < 3)%nat -> Cmod (K i j * K l m)%C <= k * k).
    { intros. rewrite Cmod_mult. apply Rmult_le_compat; auto using Cmod_ge_0. }
    assert (Bt : forall i j l m p q, (i < 3)%nat -> (j < 3)%nat -> (l < 3)%nat -> (m < 3)%nat -> (p < 3)%nat -> (q < 3)%nat -> Cmod (K i j * K l m * K p q)%C <= k * k * k).
    { intros. rewrite Cmod_mult. apply Rmult_le_compat; auto using Cmod_ge_0. }
    assert (P : forall (a b : C) (x y : R), Cmod a <= x -> Cmod b <= y -> Cmod (a + b)%C <= x + y) by (intros; eapply Rle_trans; [apply Cmod_triangle|lra]).
    assert (M : forall (a b : C) (x y : R), Cmod a <= x -> Cmod b <= y -> Cmod (a - b)%C <= x + y) by (intros; unfold Cminus; apply P; [assumption|now rewrite Cmod_opp]).
    assert (Z0 : Cmod (RtoC 0) <= 0) by (rewrite Cmod_0; lra).
    unfold z, trace, det. cbn [csum].
    eapply Rle_trans; [repeat lazymatch goal with |- Cmod (Cplus _ _) <= _ => apply P | |- Cmod (Cminus _ _) <= _ => apply M | |- Cmod (Cmult (Cmult _ _) _) <= _ => apply Bt; lia | |- Cmod (Cmult _ _) <= _ => apply Bm; lia | |- Cmod (K _ _) <= _ => apply B; lia | |- Cmod (RtoC _) <= _ => exact Z0 end|]. unfold k. lra. }
  match goal with |- 0 < fst ?x => replace x with (RtoC 1 + z)%C by (unfold z; ring) end.
  pose proof (Cmod_ge_re z). unfold Cplus, RtoC. cbn [fst snd]. lra.
Qed.
Lemma croot_pos (h : R) : 0 < h -> exists r, 0 < r /\ croot (RtoC h) = RtoC r.
Proof.
  intros H. exists (Rpower (sqn (RtoC h)) (- 1 / INR 3 / 2)). split; [apply exp_pos|]. unfold croot, atan2. change (snd (RtoC h)) with 0. change (fst (RtoC h)) with h.
  destruct (Rlt_dec 0 h); [|lra]. replace (0 / h) with 0 by (field; lra). rewrite atan_0, !Rmult_0_l, cos_0, sin_0, Rmult_1_r, Rmult_0_r. reflexivity.
Qed.
Lemma hermitian_det H : meq (dag H) H -> det H = RtoC (fst (det H)).
Proof.
  intros E. pose proof (det_dag H) as D. rewrite (det_proper _ _ E) in D. destruct (det H) as [x y]. unfold Cconj in D. cbn [fst snd] in *. injection D as D. unfold RtoC. f_equal. lra.
Qed.
Lemma unitary_det W : unitary W -> Cmod (det W) = 1.
Proof.
  intros U. assert (E : (det W * Cconj (det W))%C = RtoC 1).
  { rewrite <- det_dag, <- det_mul. transitivity (det mid); [apply det_proper, U|unfold det, mid; cbn [Nat.eqb]; ring]. }
  rewrite mult_conj in E. apply (f_equal fst) in E. unfold RtoC in E. cbn [fst] in E. unfold Cmod. replace (fst (det W) ^ 2 + snd (det W) ^ 2) with (sqn (det W)) by (unfold sqn; ring). rewrite E. apply sqrt_1.
Qed.
Lemma polar_core H W E (tol : R) : 0 <= tol <= / 10 -> psd H -> unitary W -> meq (mmul H H) (madd mid (gram E)) -> norm2 E / 4 <= 6 * (tol * tol) ->
  exists c, (c * c * c * det W)%C = RtoC 1 /\ (det W = RtoC 1 -> c = RtoC 1) /\
  forall i j, (i < 3)%nat -> (j < 3)%nat -> Cmod (mscale (croot (det (mmul H W))) (mmul H W) i j - c * W i j)%C <= 10 * (tol * tol).
Proof.
  intros Ht P UW G Tm. set (t := norm2 E / 4) in *. assert (T0 : 0 <= t) by (unfold t; pose proof (norm2_pos E); lra).
  assert (T1 : t <= 6 / 100) by nra. set (K := msub H mid).
  assert (NK : norm2 K <= t * t) by (eapply Rle_trans; [exact (sqrt_close H (gram E) P G)|apply gram_norm]).
  assert (HK : meq H (madd mid K)) by (intros i j _ _; unfold madd, K, msub; ring).
  set (h := fst (det H)). assert (Hh : det H = RtoC h) by (apply hermitian_det, P).
  assert (h0 : 0 < h). { unfold h. rewrite (det_proper _ _ HK). apply det_pos. intros i j Hi Hj. eapply Rle_trans; [apply (norm2_entry K i j t Hi Hj T0 NK)|exact T1]. }
  assert (GH : meq (mmul H (dag H)) (madd mid (gram E))) by (destruct P as [P _]; rewrite P; exact G).
  pose proof (det_bounds H E GH) as [B1 B2]. fold t in B1, B2. rewrite Hh in B1, B2. unfold sqn, RtoC in B1, B2. cbn [fst snd] in B1, B2.
  assert (h1 : 1 <= h) by nra. assert (hs : h - 1 <= 11 / 20 * t) by nra.
  set (f := croot (det (mmul H W))). assert (DN : det (mmul H W) = (RtoC h * det W)%C) by (rewrite det_mul, Hh; reflexivity).
  assert (DW : Cmod (det W) = 1) by (now apply unitary_det).
  assert (D0 : det (mmul H W) <> RtoC 0).
  { rewrite DN. intros Z. apply (f_equal Cmod) in Z. rewrite Cmod_mult, DW, Cmod_R, Cmod_0, Rabs_pos_eq in Z by lra. lra. }
  pose proof (croot_ok _ D0) as F3. fold f in F3. set (rho := Cmod f). assert (r0 : 0 <= rho) by apply Cmod_ge_0.
  assert (R3 : rho * rho * rho * h = 1).
  { pose proof (f_equal Cmod F3) as Q. rewrite DN, !Cmod_mult, DW, !Cmod_R, !(Rabs_pos_eq) in Q by lra. fold rho in Q. lra. }
  assert (r1 : rho <= 1). { destruct (Rle_lt_dec rho 1); [assumption|]. exfalso. assert (1 < rho * rho) by nra. assert (1 < rho * rho * rho) by nra. nra. }
  assert (rp : 0 < rho). { destruct (Req_dec rho 0) as [Z|]; [rewrite Z in R3; lra|lra]. }
  assert (rb : 1 - rho <= h - 1). { assert (rho * rho * rho <= rho) by nra. assert (1 <= rho * h) by nra. nra. }
  exists (f * RtoC (/ rho))%C. split; [|split].
  - assert (N1 : (f * f * f * det W * RtoC h)%C = RtoC 1) by (rewrite <- F3, DN; ring).
    assert (I3 : (RtoC (/ rho) * RtoC (/ rho) * RtoC (/ rho))%C = RtoC h).
    { rewrite <- !RtoC_mult. f_equal. apply (Rmult_eq_reg_l (rho * rho * rho)); [rewrite R3; field; lra|]. intros Z. rewrite Z in R3. lra. }
    rewrite <- N1. transitivity (f * f * f * det W * (RtoC (/ rho) * RtoC (/ rho) * RtoC (/ rho)))%C; [ring|now rewrite I3].
  - intros W1. destruct (croot_pos h h0) as (r & Hr & Er). assert (Ef : f = RtoC r) by (unfold f; rewrite DN, W1, Cmult_1_r; exact Er).
    unfold rho. rewrite Ef, Cmod_R, Rabs_pos_eq by lra. rewrite <- RtoC_mult. f_equal. field. lra.
  - intros i j Hi Hj. assert (EQ : (mscale f (mmul H W) i j - f * RtoC (/ rho) * W i j)%C = (f * (mmul K W i j + RtoC (1 - / rho) * W i j))%C).
    { unfold mscale. rewrite (mmul_proper _ _ HK _ _ (reflexivity W) i j Hi Hj). rewrite (mmul_madd_l mid K W i j Hi Hj). unfold madd. rewrite (mmul_1_l W i j Hi Hj), RtoC_minus. ring. }
    fold f. rewrite EQ, Cmod_mult. fold rho. eapply Rle_trans; [apply Rmult_le_compat_l; [exact r0|apply Cmod_triangle]|].
    assert (Q1 : Cmod (mmul K W i j) <= t).
    { apply norm2_entry; auto. apply Rle_trans with (norm2 (mmul (mmul mid K) W)); [apply Req_le, norm2_proper; now rewrite mmul_1_l|]. rewrite rot_norm; [exact NK| |exact UW]. unfold unitary. rewrite dag_1. apply mmul_1_l. }
    assert (Q2 : Cmod (W i j) <= 1).
    { unfold Cmod. rewrite <- sqrt_1. apply sqrt_le_1_alt. replace (fst (W i j) ^ 2 + snd (W i j) ^ 2) with (sqn (W i j)) by (unfold sqn; ring).
      pose proof (UW i i Hi Hi) as U. apply (f_equal fst) in U. revert U. unfold mmul, dag, mid. rewrite Nat.eqb_refl. cbn [csum]. unfold Cplus, Cmult, Cconj, RtoC. cbn [fst snd]. unfold sqn. idx j; nra. }
    rewrite Cmod_mult, Cmod_R.
    assert (A : Rabs (1 - / rho) = / rho - 1) by (rewrite Rabs_left1; [ring|]; assert (1 <= / rho) by (rewrite <- Rinv_1; apply Rinv_le_contravar; lra); lra).
    rewrite A. rewrite Rmult_plus_distr_l. replace (rho * ((/ rho - 1) * Cmod (W i j))) with ((1 - rho) * Cmod (W i j)) by (field; lra).
    pose proof (Cmod_ge_0 (mmul K W i j)). pose proof (Cmod_ge_0 (W i j)).
    assert (rho * Cmod (mmul K W i j) <= t) by nra. assert ((1 - rho) * Cmod (W i j) <= 11 / 20 * t) by nra. lra.
Qed.
Lemma polar tol T H W n N : 0 <= tol <= / 10 -> psd H -> unitary W -> meq T (mmul H W) -> det T <> RtoC 0 -> vloop tol T n N ->
  exists c, (c * c * c * det W)%C = RtoC 1 /\ (det W = RtoC 1 -> c = RtoC 1) /\
  forall i j, (i < 3)%nat -> (j < 3)%nat -> Cmod (mscale (croot (det N)) N i j - c * W i j)%C <= 10 * (tol * tol).
Proof.
  intros Ht P UW ET D V. assert (UW' : meq (mmul W (dag W)) mid) by exact UW. pose proof (unitary_l W UW) as UL.
  assert (U1 : unitary mid) by (unfold unitary; rewrite dag_1; apply mmul_1_l).
  destruct (rot_loop mid (dag W) U1 (dag_unitary W UW) tol T n N V D) as (N' & V' & E').
  assert (EH : meq (mmul (mmul mid T) (dag W)) H) by (rewrite mmul_1_l, ET, mmul_assoc, UW'; apply mmul_1_r).
  destruct (vloop_proper _ _ _ _ V' _ EH) as (NH & VH & EN).
  assert (DH : det H <> RtoC 0) by (intros Z; apply D; rewrite (det_proper _ _ ET), det_mul, Z; ring).
  pose proof (psd_loop _ _ _ _ VH P DH) as PN.
  assert (NW : meq N (mmul NH W)) by (rewrite <- EN, E', mmul_1_l, mmul_assoc, UL, mmul_1_r; reflexivity).
  destruct (vloop_last _ _ _ _ VH DH) as (T' & D' & -> & R). destruct (gam_ok T' D') as [G1 G2].
  pose proof (dif_res T' (minv T') (minv_r T' D') (gam T') G1 G2) as Q. fold (nstep T') in Q.
  destruct (polar_core (nstep T') W (dif (gam T') T' (minv T')) tol Ht PN UW) as (c & C1 & C2 & C3).
  - destruct PN as [PN _]. rewrite <- PN at 2. exact (avg_gram T' D').
  - assert (vres T' * vres T' <= tol * tol) by (assert (0 <= vres T') by (apply sqrt_pos); nra).
    unfold vres in H0. rewrite sqrt_sqrt in H0 by apply norm2_pos. lra.
  - exists c. split; [exact C1|]. split; [exact C2|]. intros i j Hi Hj. specialize (C3 i j Hi Hj). unfold mscale in *. rewrite (det_proper _ _ NW), (NW i j Hi Hj). exact C3.
Qed.
