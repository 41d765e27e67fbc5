(** The series used by the exponential for small matrices. *)
From Coq Require Import Reals Lra Lia List Factorial Psatz.
From Coquelicot Require Import Complex.
From Verif Require Import CplxModel CplxSpec CplxProofs CplxStores MatModel MatSpec MatProofs MatRun MatProofs2 MatProofs3 MatProofs4 MatAlg ExpModel ExpSpec ExpProofs ExpAlg ExpVal ExpTrig ExpMain.
Open Scope R_scope.
Set Bullet Behavior "Strict Subproofs".

Definition sqn (z : C) : R := fst z * fst z + snd z * snd z.
Lemma norm2_sqn x : norm2 x = sqn (x 0%nat 0%nat) + sqn (x 0%nat 1%nat) + sqn (x 0%nat 2%nat) + sqn (x 1%nat 0%nat) + sqn (x 1%nat 1%nat) + sqn (x 1%nat 2%nat)
  + sqn (x 2%nat 0%nat) + sqn (x 2%nat 1%nat) + sqn (x 2%nat 2%nat).
Proof. unfold norm2, trace, mmul, dag, sqn. cbn [csum]. cbn. ring. Qed.
Lemma sqn_pos z : 0 <= sqn z. Proof. unfold sqn. nra. Qed.
Lemma cs3 (a0 a1 a2 b0 b1 b2 : C) : sqn (RtoC 0 + a0 * b0 + a1 * b1 + a2 * b2)%C <= (sqn a0 + sqn a1 + sqn a2) * (sqn b0 + sqn b1 + sqn b2).
Proof.
  assert (E : (sqn a0 + sqn a1 + sqn a2) * (sqn b0 + sqn b1 + sqn b2) - sqn (RtoC 0 + a0 * b0 + a1 * b1 + a2 * b2)%C =
     sqn (a0 * Cconj b1 - a1 * Cconj b0)%C + sqn (a0 * Cconj b2 - a2 * Cconj b0)%C + sqn (a1 * Cconj b2 - a2 * Cconj b1)%C).
  { destruct a0, a1, a2, b0, b1, b2. unfold sqn. cbn. ring. }
  pose proof (sqn_pos (a0 * Cconj b1 - a1 * Cconj b0)%C). pose proof (sqn_pos (a0 * Cconj b2 - a2 * Cconj b0)%C). pose proof (sqn_pos (a1 * Cconj b2 - a2 * Cconj b1)%C). lra.
Qed.
Lemma norm2_mul x y : norm2 (mmul x y) <= norm2 x * norm2 y.
Proof.
  rewrite !norm2_sqn. unfold mmul. cbn [csum].
  set (r i := sqn (x i 0%nat) + sqn (x i 1%nat) + sqn (x i 2%nat)). set (s j := sqn (y 0%nat j) + sqn (y 1%nat j) + sqn (y 2%nat j)).
  assert (B : forall i j, sqn (RtoC 0 + x i 0%nat * y 0%nat j + x i 1%nat * y 1%nat j + x i 2%nat * y 2%nat j)%C <= r i * s j) by (intros; apply cs3).
  pose proof (B 0%nat 0%nat). pose proof (B 0%nat 1%nat). pose proof (B 0%nat 2%nat). pose proof (B 1%nat 0%nat). pose proof (B 1%nat 1%nat). pose proof (B 1%nat 2%nat).
  pose proof (B 2%nat 0%nat). pose proof (B 2%nat 1%nat). pose proof (B 2%nat 2%nat).
  apply Rle_trans with ((r 0%nat + r 1%nat + r 2%nat) * (s 0%nat + s 1%nat + s 2%nat)); [lra|]. unfold r, s. lra.
Qed.
Lemma entry_norm x i j : (i < 3)%nat -> (j < 3)%nat -> sqn (x i j) <= norm2 x.
Proof.
  intros Hi Hj. rewrite norm2_sqn. assert (P : forall i j, 0 <= sqn (x i j)) by (intros; apply sqn_pos).
  pose proof (P 0%nat 0%nat). pose proof (P 0%nat 1%nat). pose proof (P 0%nat 2%nat). pose proof (P 1%nat 0%nat). pose proof (P 1%nat 1%nat). pose proof (P 1%nat 2%nat).
  pose proof (P 2%nat 0%nat). pose proof (P 2%nat 1%nat). pose proof (P 2%nat 2%nat). idx i; idx j; lra.
Qed.
Lemma norm2_pos x : 0 <= norm2 x.
Proof. pose proof (entry_norm x 0 0 ltac:(lia) ltac:(lia)). pose proof (sqn_pos (x 0%nat 0%nat)). lra. Qed.
Lemma norm2_proper x y : meq x y -> norm2 x = norm2 y.
Proof. intros H. rewrite !norm2_sqn, !H by lia. reflexivity. Qed.
Lemma mpow_norm x n : norm2 (mpow x (S n)) <= norm2 x ^ S n.
Proof.
  induction n as [|n IH].
  - cbn [mpow pow]. rewrite (norm2_proper _ _ (mmul_1_r x)). lra.
  - change (mpow x (S (S n))) with (mmul x (mpow x (S n))). eapply Rle_trans; [apply norm2_mul|]. change (norm2 x ^ S (S n)) with (norm2 x * norm2 x ^ S n).
    apply Rmult_le_compat_l; [apply norm2_pos|exact IH].
Qed.
Lemma sq_abs a b : 0 <= b -> a * a <= b * b -> Rabs a <= b.
Proof. intros Hb H. apply Rabs_le. split; nra. Qed.
Lemma sqn_abs z b : 0 <= b -> sqn z <= b * b -> Rabs (fst z) <= b /\ Rabs (snd z) <= b.
Proof. unfold sqn. intros Hb H. split; apply sq_abs; nra. Qed.
Lemma mpow_entry x r n i j : 0 <= r -> norm2 x <= r * r -> (i < 3)%nat -> (j < 3)%nat ->
  Rabs (fst (mpow x (S n) i j)) <= r ^ S n /\ Rabs (snd (mpow x (S n) i j)) <= r ^ S n.
Proof.
  intros Hr H Hi Hj. apply sqn_abs; [now apply pow_le|]. eapply Rle_trans; [apply entry_norm; assumption|]. eapply Rle_trans; [apply mpow_norm|].
  rewrite <- Rpow_mult_distr. apply pow_incr. split; [apply norm2_pos|exact H].
Qed.
(** what is left of the series *)
Lemma fS n : INR (fact (S n)) = INR (S n) * INR (fact n).
Proof. rewrite fact_simpl, mult_INR. reflexivity. Qed.
Lemma fact9 : INR (fact 9) = 362880.
Proof. rewrite !fS. change (fact 0) with 1%nat. cbn [INR]. ring. Qed.
Lemma inv_fact9 n : 0 < / INR (fact (9 + n)) <= / 362880.
Proof.
  rewrite <- fact9. assert (0 < INR (fact 9)) by (rewrite fact9; lra).
  assert (L : INR (fact 9) <= INR (fact (9 + n))) by (apply le_INR, fact_le; lia). split; [apply Rinv_0_lt_compat; lra|]. now apply Rinv_le_contravar.
Qed.
Lemma mexp_sum_S x n i j : mexp_sum x (S n) i j = (mexp_sum x n i j + RtoC (/ INR (fact (S n))) * mpow x (S n) i j)%C.
Proof. reflexivity. Qed.
Lemma add_fst (z p : C) (k : R) : fst (z + RtoC k * p)%C = fst z + k * fst p. Proof. cbn. ring. Qed.
Lemma add_snd (z p : C) (k : R) : snd (z + RtoC k * p)%C = snd z + k * snd p. Proof. cbn. ring. Qed.
Lemma Rplus_minus_swap (a b c : R) : a + b - c = (a - c) + b. Proof. ring. Qed.
Lemma tail_bound x r n i j : 0 <= r -> r <= / 10 -> norm2 x <= r * r -> (i < 3)%nat -> (j < 3)%nat ->
  let b := r ^ 9 / 362880 * (10 / 9) * (1 - (/ 10) ^ n) in
  Rabs (fst (mexp_sum x (8 + n) i j) - fst (mexp_sum x 8 i j)) <= b /\ Rabs (snd (mexp_sum x (8 + n) i j) - snd (mexp_sum x 8 i j)) <= b.
Proof.
  intros Hr Hr' H Hi Hj. cbv zeta.
  assert (T : forall n, r ^ (9 + n) <= r ^ 9 * (/ 10) ^ n).
  { intros k. rewrite pow_add. apply Rmult_le_compat_l; [now apply pow_le|]. apply pow_incr. lra. }
  induction n as [|n [IH1 IH2]].
  - rewrite Nat.add_0_r, !Rminus_diag_eq by reflexivity. rewrite Rabs_R0. cbn [pow]. lra.
  - replace (8 + S n)%nat with (S (8 + n)) by lia. rewrite !(mexp_sum_S x (8 + n)).
    destruct (mpow_entry x r (8 + n) i j Hr H Hi Hj) as [M1 M2]. replace (S (8 + n)) with (9 + n)%nat in * by lia.
    pose proof (inv_fact9 n) as [F0 F1]. set (k := / INR (fact (9 + n))) in *. clearbody k.
    set (p := mpow x (9 + n) i j) in *. clearbody p. pose proof (T n) as Tn. clear T.
    assert (R9 : 0 <= r ^ (9 + n)) by now apply pow_le. set (rn := r ^ (9 + n)) in *. clearbody rn.
    set (r9 := r ^ 9) in *. clearbody r9. set (tn := (/ 10) ^ n) in *. cbn [pow]. fold tn. clearbody tn.
    assert (S : forall u, Rabs u <= rn -> Rabs (k * u) <= / 362880 * (r9 * tn)).
    { intros u Hu. rewrite Rabs_mult, (Rabs_right k) by lra. eapply Rle_trans; [apply Rmult_le_compat; [lra|apply Rabs_pos|exact F1|exact Hu]|]. lra. }
    split.
    + rewrite add_fst, Rplus_minus_swap. eapply Rle_trans; [apply Rabs_triang|]. specialize (S _ M1). lra.
    + rewrite add_snd, Rplus_minus_swap. eapply Rle_trans; [apply Rabs_triang|]. specialize (S _ M2). lra.
Qed.
(** the first nine terms *)
Lemma gam8 (a b : R) : let c0 := RtoC a in let c1 := RtoC b in
  gam c0 c1 1 = ((0, 0), (0, 1), (0, 0)) /\ gam c0 c1 2 = ((0, 0), (0, 0), (-1, 0)) /\ gam c0 c1 3 = ((0, - a), (0, - b), (0, 0)) /\
  gam c0 c1 4 = ((0, 0), (a, 0), (b, 0)) /\ gam c0 c1 5 = ((0, a * b), (0, b * b), (0, a)) /\ gam c0 c1 6 = ((- (a * a), 0), (- (2 * a * b), 0), (- (b * b), 0)) /\
  gam c0 c1 7 = ((0, - (a * b * b)), (0, - (a * a + b * b * b)), (0, - (2 * a * b))) /\ gam c0 c1 8 = ((2 * a * a * b, 0), (3 * a * b * b, 0), (a * a + b * b * b, 0)).
Proof.
  intros c0 c1.
  assert (St : forall (u v w : R) (u' v' w' : R), gstep c0 c1 ((u, u'), (v, v'), (w, w')) = ((- (a * w'), a * w), (- (u' + b * w'), u + b * w), (- v', v)) :> C * C * C).
  { intros. unfold gstep, c0, c1. apply injective_projections; [apply injective_projections|]; apply injective_projections; cbn; ring. }
  assert (G0 : gam c0 c1 0 = ((1, 0), (0, 0), (0, 0))) by reflexivity.
  assert (Sg : forall n, gam c0 c1 (S n) = gstep c0 c1 (gam c0 c1 n)) by reflexivity.
  assert (T : forall (x y : C * C * C), fst (fst (fst x)) = fst (fst (fst y)) -> snd (fst (fst x)) = snd (fst (fst y)) -> fst (snd (fst x)) = fst (snd (fst y)) ->
     snd (snd (fst x)) = snd (snd (fst y)) -> fst (snd x) = fst (snd y) -> snd (snd x) = snd (snd y) -> x = y).
  { intros [[[? ?] [? ?]] [? ?]] [[[? ?] [? ?]] [? ?]]. cbn. intros. subst. reflexivity. }
  assert (G1 : gam c0 c1 1 = ((0, 0), (0, 1), (0, 0))) by (rewrite Sg, G0, St; apply T; cbn [fst snd]; ring).
  assert (G2 : gam c0 c1 2 = ((0, 0), (0, 0), (-1, 0))) by (rewrite Sg, G1, St; apply T; cbn [fst snd]; ring).
  assert (G3 : gam c0 c1 3 = ((0, - a), (0, - b), (0, 0))) by (rewrite Sg, G2, St; apply T; cbn [fst snd]; ring).
  assert (G4 : gam c0 c1 4 = ((0, 0), (a, 0), (b, 0))) by (rewrite Sg, G3, St; apply T; cbn [fst snd]; ring).
  assert (G5 : gam c0 c1 5 = ((0, a * b), (0, b * b), (0, a))) by (rewrite Sg, G4, St; apply T; cbn [fst snd]; ring).
  assert (G6 : gam c0 c1 6 = ((- (a * a), 0), (- (2 * a * b), 0), (- (b * b), 0))) by (rewrite Sg, G5, St; apply T; cbn [fst snd]; ring).
  assert (G7 : gam c0 c1 7 = ((0, - (a * b * b)), (0, - (a * a + b * b * b)), (0, - (2 * a * b)))) by (rewrite Sg, G6, St; apply T; cbn [fst snd]; ring).
  assert (G8 : gam c0 c1 8 = ((2 * a * a * b, 0), (3 * a * b * b, 0), (a * a + b * b * b, 0))) by (rewrite Sg, G7, St; apply T; cbn [fst snd]; ring).
  tauto.
Qed.
Lemma facts : INR (fact 1) = 1 /\ INR (fact 2) = 2 /\ INR (fact 3) = 6 /\ INR (fact 4) = 24 /\ INR (fact 5) = 120 /\ INR (fact 6) = 720 /\ INR (fact 7) = 5040 /\ INR (fact 8) = 40320.
Proof. rewrite !fS. change (fact 0) with 1%nat. cbn [INR]. repeat split; ring. Qed.
Lemma small_bet c0 c1 : small_f c0 c1 = cadd3 (bet (RtoC c0) (RtoC c1) 8) (RtoC (- (c0 * c0 * c1 / 20160)), RtoC 0, (0, c0 * c1 * c1 / 120960)).
Proof.
  assert (Sb : forall n, bet (RtoC c0) (RtoC c1) (S n) = cadd3 (bet (RtoC c0) (RtoC c1) n) (cscal3 (RtoC (/ INR (fact (S n)))) (gam (RtoC c0) (RtoC c1) (S n)))) by reflexivity.
  destruct (gam8 c0 c1) as (G1 & G2 & G3 & G4 & G5 & G6 & G7 & G8). destruct facts as (F1 & F2 & F3 & F4 & F5 & F6 & F7 & F8).
  assert (Ad : forall u u' v v' w w' k a a' b b' d d' : R, cadd3 ((u, u'), (v, v'), (w, w')) (cscal3 (RtoC k) ((a, a'), (b, b'), (d, d'))) =
     ((u + k * a, u' + k * a'), (v + k * b, v' + k * b'), (w + k * d, w' + k * d')) :> C * C * C).
  { intros. unfold cadd3, cscal3. apply injective_projections; [apply injective_projections|]; apply injective_projections; cbn; ring. }
  rewrite !Sb, G1, G2, G3, G4, G5, G6, G7, G8, F1, F2, F3, F4, F5, F6, F7, F8. change (bet (RtoC c0) (RtoC c1) 0) with (((1, 0), (0, 0), (0, 0)) : C * C * C).
  rewrite !Ad. unfold cadd3, small_f. apply injective_projections; [apply injective_projections|]; apply injective_projections; cbn [fst snd Cplus RtoC]; try replace 0.5 with (/ 2) by lra; field.
Qed.
Lemma c0_bound x r : 0 <= r -> hermitian x -> trace x = RtoC 0 -> exp_c1 x <= r * r / 2 -> norm2 x <= r * r -> Rabs (exp_c0 x) <= 1.5 * (r * r * r).
Proof.
  intros Hr Hh Ht H1 Hn. pose proof (cayley_hamilton x Ht 0%nat 0%nat ltac:(lia) ltac:(lia)) as E. unfold madd, mscale in E. unfold mid in E. cbn [Nat.eqb] in E.
  assert (T2 : (trace (mmul x x) * RtoC (/ 2))%C = RtoC (exp_c1 x)) by (rewrite (herm_real_trace2 x Hh), <- RtoC_mult; reflexivity).
  rewrite T2, (herm_real_det x Hh) in E. fold (exp_c0 x) in E. apply (f_equal fst) in E.
  assert (B3 : Rabs (fst (mmul x (mmul x x) 0%nat 0%nat)) <= r * r * r).
  { destruct (sqn_abs (mmul x (mmul x x) 0%nat 0%nat) (r * r * r)) as [B _]; [repeat apply Rmult_le_pos; assumption| |exact B].
    eapply Rle_trans; [apply entry_norm; lia|]. eapply Rle_trans; [apply norm2_mul|]. pose proof (norm2_mul x x). pose proof (norm2_pos x). pose proof (norm2_pos (mmul x x)).
    replace (r * r * r * (r * r * r)) with ((r * r) * ((r * r) * (r * r))) by ring. apply Rmult_le_compat; try assumption. eapply Rle_trans; [exact H|]. apply Rmult_le_compat; assumption. }
  assert (B1 : Rabs (fst (x 0%nat 0%nat)) <= r).
  { destruct (sqn_abs (x 0%nat 0%nat) r) as [B _]; [assumption| |exact B]. eapply Rle_trans; [apply entry_norm; lia|exact Hn]. }
  set (y := mmul x (mmul x x) 0%nat 0%nat) in *. set (z := x 0%nat 0%nat) in *. clearbody y z. cbn [fst snd Cplus Cmult RtoC] in E.
  assert (P : 0 <= exp_c1 x).
  { unfold exp_c1. assert (Q : norm2 x = fst (trace (mmul x x))) by (unfold norm2; f_equal; apply trace_proper, mmul_proper; [reflexivity|exact Hh]). rewrite <- Q. pose proof (norm2_pos x). lra. }
  replace (exp_c0 x) with (fst y - exp_c1 x * fst z) by lra. eapply Rle_trans; [apply Rabs_triang|]. rewrite Rabs_Ropp, Rabs_mult, (Rabs_right (exp_c1 x)) by lra.
  assert (exp_c1 x * Rabs (fst z) <= r * r / 2 * r) by (apply Rmult_le_compat; try assumption; apply Rabs_pos). lra.
Qed.
Lemma herm_norm2 x : hermitian x -> norm2 x = 2 * exp_c1 x.
Proof. intros H. unfold exp_c1. replace (norm2 x) with (fst (trace (mmul x x))); [field|]. unfold norm2. f_equal. apply trace_proper, mmul_proper; [reflexivity|]. symmetry. exact H. Qed.
Lemma norm2_i x : norm2 (mscale Ci x) = norm2 x.
Proof. rewrite !norm2_sqn. unfold mscale, sqn. cbn. ring. Qed.
Lemma small_bound x n i j : hermitian x -> trace x = RtoC 0 -> exp_c1 x < 4e-3 -> (8 <= n)%nat -> (i < 3)%nat -> (j < 3)%nat ->
  let e := poly2 x (small_f (exp_c0 x) (exp_c1 x)) i j in
  Rabs (fst (mexp_sum (mscale Ci x) n i j) - fst e) <= 1e-12 /\ Rabs (snd (mexp_sum (mscale Ci x) n i j) - snd e) <= 1e-12.
Proof.
  intros Hh Ht H1 Hn Hi Hj. cbv zeta.
  assert (T2 : (trace (mmul x x) * RtoC (/ 2))%C = RtoC (exp_c1 x)) by (rewrite (herm_real_trace2 x Hh), <- RtoC_mult; reflexivity).
  pose proof (cayley_hamilton x Ht) as CH. rewrite T2, (herm_real_det x Hh) in CH. fold (exp_c0 x) in CH.
  pose proof (mexp_bet x _ _ 8 CH i j Hi Hj) as E8.
  pose proof (herm_norm2 x Hh) as N. pose proof (norm2_pos x) as N0.
  assert (Hr : norm2 x <= 0.09 * 0.09) by lra.
  destruct (tail_bound (mscale Ci x) 0.09 (n - 8) i j ltac:(lra) ltac:(lra) ltac:(rewrite norm2_i; exact Hr) Hi Hj) as [B1 B2].
  replace (8 + (n - 8))%nat with n in * by lia.
  assert (Q : 0.09 ^ 9 / 362880 * (10 / 9) * (1 - (/ 10) ^ (n - 8)) <= 2e-15).
  { assert (0 <= (/ 10) ^ (n - 8)) by (apply pow_le; lra). set (t := (/ 10) ^ (n - 8)) in *. clearbody t.
    apply Rle_trans with (0.09 ^ 9 / 362880 * (10 / 9) * 1); [|lra]. apply Rmult_le_compat_l; lra. }
  rewrite small_bet, poly2_add. rewrite <- E8. rewrite poly2_cof. cbn [cof3].
  pose proof (c0_bound x 0.09 ltac:(lra) Hh Ht ltac:(lra) Hr) as C0.
  assert (M2 : Rabs (fst (mmul x x i j)) <= 0.0081 /\ Rabs (snd (mmul x x i j)) <= 0.0081).
  { apply sqn_abs; [lra|]. eapply Rle_trans; [apply entry_norm; assumption|]. eapply Rle_trans; [apply norm2_mul|]. apply Rmult_le_compat; lra. }
  destruct M2 as [M2 M2']. set (s := mmul x x i j) in *. clearbody s. set (z := mexp_sum (mscale Ci x) 8 i j) in *. clearbody z.
  set (w := mexp_sum (mscale Ci x) n i j) in *. clearbody w. set (c0 := exp_c0 x) in *. set (c1 := exp_c1 x) in *.
  assert (Md : mid i j = RtoC 1 \/ mid i j = RtoC 0) by (unfold mid; destruct (Nat.eqb i j); auto).
  assert (P1 : 0 <= c1) by lra. clearbody c0 c1. clear - B1 B2 Q C0 M2 M2' Md P1 H1.
  set (k2 := c0 * c1 * c1 / 120960). set (k0 := c0 * c0 * c1 / 20160).
  assert (K2 : Rabs k2 <= 1e-12).
  { unfold k2, Rdiv. rewrite !Rabs_mult, (Rabs_right c1), (Rabs_right (/ 120960)) by lra.
    assert (Rabs c0 * c1 <= 1.1e-3 * 4e-3) by (apply Rmult_le_compat; try lra; apply Rabs_pos).
    assert (Rabs c0 * c1 * c1 <= 1.1e-3 * 4e-3 * 4e-3) by (apply Rmult_le_compat; try lra; apply Rmult_le_pos; [apply Rabs_pos|lra]). lra. }
  assert (K0 : Rabs k0 <= 5e-13).
  { unfold k0, Rdiv. rewrite !Rabs_mult, (Rabs_right c1), (Rabs_right (/ 20160)) by lra.
    assert (Rabs c0 * Rabs c0 <= 1.1e-3 * 1.1e-3) by (apply Rmult_le_compat; try lra; apply Rabs_pos).
    assert (Rabs c0 * Rabs c0 * c1 <= 1.1e-3 * 1.1e-3 * 4e-3) by (apply Rmult_le_compat; try lra; apply Rmult_le_pos; apply Rabs_pos). lra. }
  clearbody k0 k2. 
  assert (S : forall u, Rabs u <= 0.0081 -> Rabs (k2 * u) <= 1e-14).
  { intros u Hu. rewrite Rabs_mult. eapply Rle_trans; [apply Rmult_le_compat; [apply Rabs_pos|apply Rabs_pos|exact K2|exact Hu]|]. lra. }
  pose proof (S _ M2) as S1. pose proof (S _ M2') as S2. clear S.
  assert (BB : forall u v, Rabs u <= v -> - v <= u <= v) by (intros u v Hu; destruct (Rcase_abs u) as [Neg|Pos]; [rewrite Rabs_left in Hu by lra|rewrite Rabs_right in Hu by lra]; lra).
  apply BB in B1, B2, S1, S2, K0.
  destruct Md as [-> | ->]; cbn [fst snd Cplus Cmult RtoC]; split; apply Rabs_le; split; lra.
Qed.
Lemma exponentiate_small out Q iQ iQ2 f m :
  out <> iQ -> out <> iQ2 -> iQ <> iQ2 -> Q <> iQ -> Q <> iQ2 -> (forall k, ~ in_mat out f@[k] /\ ~ in_mat iQ f@[k] /\ ~ in_mat iQ2 f@[k]) ->
  hermitian (mat m Q) -> trace (mat m Q) = RtoC 0 -> exp_c1 (mat m Q) < 4e-3 ->
  let m' := safe_hermitian_exact_i_exponentiate out Q iQ iQ2 f m in
  (forall n i j, (8 <= n)%nat -> (i < 3)%nat -> (j < 3)%nat ->
     Rabs (fst (mexp_sum (mscale Ci (mat m Q)) n i j) - fst (mat m' out i j)) <= 1e-12 /\
     Rabs (snd (mexp_sum (mscale Ci (mat m Q)) n i j) - snd (mat m' out i j)) <= 1e-12) /\
  forall p, ~ in_mat out p -> ~ in_mat iQ p -> ~ in_mat iQ2 p -> (forall k, p <> f@[k]) -> m' p = m p.
Proof.
  intros Ho Ho2 Hi HQ HQ2 Hf Hh Ht Z1. intros m'. subst m'.
  unfold safe_hermitian_exact_i_exponentiate. rewrite then_run. unfold prepareIngredients. cbv zeta.
  destruct (su3_copy_ok iQ Q iQ 0 0 m) as [A1 F1]. set (m1 := su3_copy iQ Q m) in *. cbv beta in A1.
  rewrite su3_real_det_ok.
  destruct (unsafe_su3_prod_su3_ok iQ2 iQ iQ (not_eq_sym Hi) (not_eq_sym Hi) m1) as [A2 F2]. set (m2 := unsafe_su3_prod_su3 _ _ _ _ m1) in *. cbv beta in A2.
  rewrite su3_real_trace_ok.
  assert (Apart : forall a b i j, a <> b -> ~ in_mat a b@[i]@[j]) by (intros a b i j Hb (k & l & _ & _ & E); apply Hb; injection E; congruence).
  set (x := mat m Q) in *.
  assert (Ed : det (mat m1 iQ) = det x) by (rewrite A1; reflexivity).
  assert (X2 : meq (mat m2 iQ2) (mmul x x)) by (rewrite A2, A1; reflexivity).
  assert (X1 : meq (mat m2 iQ) x). { intros i j Hi' Hj. rewrite <- (A1 i j Hi' Hj). unfold mat. apply F2; [now apply Apart, not_eq_sym|tauto]. }
  rewrite Ed, (trace_proper _ _ X2). fold (exp_c0 x) (exp_c1 x).
  destruct (Rlt_dec (exp_c1 x) 4e-3) as [_|L]; [|contradiction].
  pose proof (fun n i j => small_bound x n i j Hh Ht Z1) as SB.
  destruct (small_f (exp_c0 x) (exp_c1 x)) as [[f0 f1] f2].
  rewrite !then_run, !set_cplx_st.
  set (m3 := upd _ f@[2%nat] _).
  destruct (ing_ok out iQ iQ2 f m3 Ho Ho2 (fun k => proj1 (Hf k))) as [A4 F4].
  set (m4 := safe_hermitian_exact_i_exponentiate_ing _ _ _ _ m3) in *. cbv zeta in A4, F4.
  assert (F3 : forall p, (forall k, p <> f@[k]) -> m3 p = m2 p) by (intros p Hp; unfold m3; rewrite !upd_other by apply Hp; reflexivity).
  assert (Pf : forall b k i j, ~ in_mat b f@[k] -> (i < 3)%nat -> (j < 3)%nat -> b@[i]@[j] <> f@[k]) by (intros b k i j H Hi' Hj E; apply H; exists i, j; auto).
  assert (V : meq (mat m4 out) (poly2 x (f0, f1, f2))).
  { intros i j Hi' Hj. rewrite (A4 i j Hi' Hj), poly2_cof. unfold mat.
    rewrite !(F3 _ (fun k => Pf iQ k i j (proj1 (proj2 (Hf k))) Hi' Hj)), !(F3 _ (fun k => Pf iQ2 k i j (proj2 (proj2 (Hf k))) Hi' Hj)).
    fold (mat m2 iQ i j). fold (mat m2 iQ2 i j). rewrite (X1 i j Hi' Hj), (X2 i j Hi' Hj).
    unfold m3. rewrite upd_same, !(upd_other _ f@[2%nat]) by (intros E; injection E; congruence).
    rewrite upd_same, !(upd_other _ f@[1%nat]) by (intros E; injection E; congruence). rewrite upd_same. reflexivity. }
  split.
  - intros n i j Hn Hi' Hj. rewrite (V i j Hi' Hj). now apply SB.
  - intros p P1 P2 P3 P4. rewrite F4, F3, F2, F1 by tauto. reflexivity.
Qed.
