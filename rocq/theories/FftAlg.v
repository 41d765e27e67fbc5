(** Sums, roots of unity and the discrete Fourier transform *)
From Verif Require Import Base GeometryModel GeometrySpec FftModel FftSpec.
From Coq Require Import Reals Lra FunctionalExtensionality.
From Coquelicot Require Import Complex.
Set Bullet Behavior "Strict Subproofs".
Local Open Scope C_scope.

Lemma nsum_ext n f h : (forall k, (0 <= k < Z.of_nat n)%Z -> f k = h k) -> nsum n f = nsum n h.
Proof. induction n as [|n IH]; intros H; [reflexivity|]. cbn [nsum]. rewrite IH, H by (intros; try apply H; lia). reflexivity. Qed.
Lemma zsum_ext n f h : (forall k, (0 <= k < n)%Z -> f k = h k) -> zsum n f = zsum n h.
Proof. intros H. apply nsum_ext. intros k Hk. apply H. lia. Qed.
Lemma nsum_plus n f h : nsum n (fun k => f k + h k) = nsum n f + nsum n h.
Proof. induction n as [|n IH]; cbn [nsum]; [ring|]. rewrite IH. ring. Qed.
Lemma nsum_scal n a f : nsum n (fun k => a * f k) = a * nsum n f.
Proof. induction n as [|n IH]; cbn [nsum]; [ring|]. rewrite IH. ring. Qed.
Lemma zsum_scal n a f : zsum n (fun k => a * f k) = a * zsum n f.
Proof. apply nsum_scal. Qed.
Lemma zsum_scal_r n a f : zsum n (fun k => f k * a) = zsum n f * a.
Proof. rewrite Cmult_comm, <- zsum_scal. apply zsum_ext. intros. ring. Qed.
Lemma nsum_zero n : nsum n (fun _ => RtoC 0) = RtoC 0.
Proof. induction n as [|n IH]; cbn [nsum]; [reflexivity|]. rewrite IH. ring. Qed.
Lemma zsum_zero n f : (forall k, (0 <= k < n)%Z -> f k = RtoC 0) -> zsum n f = RtoC 0.
Proof. intros H. rewrite (zsum_ext n f (fun _ => RtoC 0) H). apply nsum_zero. Qed.
Lemma nsum_swap n m f : nsum n (fun i => nsum m (fun j => f i j)) = nsum m (fun j => nsum n (fun i => f i j)).
Proof. induction n as [|n IH]; cbn [nsum]; [symmetry; apply nsum_zero|]. rewrite IH, nsum_plus. reflexivity. Qed.
Lemma zsum_swap n m f : zsum n (fun i => zsum m (fun j => f i j)) = zsum m (fun j => zsum n (fun i => f i j)).
Proof. apply nsum_swap. Qed.
Lemma zsum_1 f : zsum 1 f = f 0%Z.
Proof. unfold zsum. change (Z.to_nat 1) with 1%nat. cbn [nsum]. change (Z.of_nat 0) with 0%Z. ring. Qed.
Lemma zsum_pick n f k : (0 <= k < n)%Z -> (forall j, (0 <= j < n)%Z -> j <> k -> f j = RtoC 0) -> zsum n f = f k.
Proof.
  intros Hk H. unfold zsum.
  assert (G : forall m, (Z.of_nat m <= n)%Z -> nsum m f = if (k <? Z.of_nat m)%Z then f k else RtoC 0).
  { induction m as [|m IH]; intros Hm; cbn [nsum].
    - destruct (Z.ltb_spec k (Z.of_nat 0)); [lia|reflexivity].
    - rewrite IH by lia. destruct (Z.eq_dec (Z.of_nat m) k) as [E|E].
      + rewrite E. replace (k <? k)%Z with false by lia. replace (k <? Z.of_nat (S m))%Z with true by lia. ring.
      + rewrite (H (Z.of_nat m)) by lia. replace (k <? Z.of_nat (S m))%Z with (k <? Z.of_nat m)%Z by lia. destruct (k <? Z.of_nat m)%Z; ring. }
  rewrite G by lia. replace (k <? Z.of_nat (Z.to_nat n))%Z with true by lia. reflexivity.
Qed.
Lemma zsum_const n a : (0 <= n)%Z -> zsum n (fun _ => a) = RtoC (IZR n) * a.
Proof.
  intros Hn. unfold zsum. rewrite <- (Z2Nat.id n Hn) at 2. generalize (Z.to_nat n). clear. intros m. induction m as [|m IH]; cbn [nsum]; [change (IZR (Z.of_nat 0)) with 0%R; ring|].
  rewrite IH, Nat2Z.inj_succ, succ_IZR. rewrite RtoC_plus. ring.
Qed.

(** ** e^(ix) *)
Lemma cis_plus a b : cis (a + b) = cis a * cis b.
Proof. unfold cis. rewrite cos_plus, sin_plus. apply injective_projections; cbn; ring. Qed.
Lemma cis_0 : cis 0 = RtoC 1.
Proof. unfold cis. rewrite cos_0, sin_0. reflexivity. Qed.
Lemma cis_2PI_nat k : cis (2 * PI * INR k) = RtoC 1.
Proof. replace (2 * PI * INR k)%R with (0 + 2 * INR k * PI)%R by ring. unfold cis. rewrite cos_period, sin_period, cos_0, sin_0. reflexivity. Qed.
Lemma cis_2PI z : cis (2 * PI * IZR z) = RtoC 1.
Proof.
  destruct (Z.le_ge_cases 0 z) as [H|H].
  - rewrite <- (Z2Nat.id z H), <- INR_IZR_INZ. apply cis_2PI_nat.
  - assert (E : cis (2 * PI * IZR z) * cis (2 * PI * IZR (- z)) = RtoC 1) by (rewrite <- cis_plus, opp_IZR; replace (2 * PI * IZR z + 2 * PI * - IZR z)%R with 0%R by ring; apply cis_0).
    rewrite <- (Z2Nat.id (- z)), <- INR_IZR_INZ, cis_2PI_nat in E by lia. rewrite <- E. ring.
Qed.
Lemma cis_not_1 n k : (0 < k < n)%Z -> cis (2 * PI * (IZR k / IZR n)) <> RtoC 1.
Proof.
  intros H E. apply (f_equal fst) in E. unfold cis, RtoC in E. cbn [fst] in E.
  assert (0 < IZR k)%R by (apply IZR_lt; lia). assert (IZR k < IZR n)%R by (apply IZR_lt; lia).
  set (y := (PI * (IZR k / IZR n))%R). replace (2 * PI * (IZR k / IZR n))%R with (2 * y)%R in E by (unfold y; ring).
  rewrite cos_2a_sin in E. pose proof PI_RGT_0.
  assert (0 < IZR k / IZR n)%R by (apply Rdiv_lt_0_compat; lra). assert (IZR k / IZR n < 1)%R by (apply Rmult_lt_reg_r with (IZR n); [lra|]; unfold Rdiv; rewrite Rmult_assoc, Rinv_l by lra; lra).
  assert (0 < sin y)%R by (apply sin_gt_0; unfold y; nra). nra.
Qed.
(** geometric sum *)
Fixpoint cpow (w : C) (k : nat) : C := match k with O => RtoC 1 | S k => w * cpow w k end.
Lemma geom (w : C) n : (w - RtoC 1) * nsum n (fun k => cpow w (Z.to_nat k)) = cpow w n - RtoC 1.
Proof.
  induction n as [|n IH]; cbn [nsum]; [cbn; ring|]. rewrite Cmult_plus_distr_l, IH, Nat2Z.id. cbn [cpow]. ring.
Qed.
Lemma cis_pow a k : cpow (cis a) k = cis (a * INR k).
Proof. induction k as [|k IH]; [cbn [cpow INR]; rewrite Rmult_0_r, cis_0; reflexivity|]. cbn [cpow]. rewrite IH, S_INR, <- cis_plus. f_equal. ring. Qed.
(** orthogonality of the characters *)
Lemma char_sum n d : (0 < n)%Z -> zsum n (fun k => cis (2 * PI * (IZR k * IZR d / IZR n))) = if Z.eqb (d mod n) 0 then RtoC (IZR n) else RtoC 0.
Proof.
  intros Hn. assert (Hn0 : IZR n <> 0%R) by (apply not_0_IZR; lia).
  set (e := (d mod n)%Z).
  assert (Ed : forall k, cis (2 * PI * (IZR k * IZR d / IZR n)) = cis (2 * PI * (IZR k * IZR e / IZR n))).
  { intros k. pose proof (Z.div_mod d n ltac:(lia)) as E. fold e in E.
    replace (2 * PI * (IZR k * IZR d / IZR n))%R with (2 * PI * (IZR k * IZR e / IZR n) + 2 * PI * IZR (k * (d / n)))%R; [rewrite cis_plus, cis_2PI; ring|].
    rewrite E at 2. rewrite plus_IZR, !mult_IZR. field. exact Hn0. }
  rewrite (zsum_ext n _ (fun k => cis (2 * PI * (IZR k * IZR e / IZR n))) (fun k _ => Ed k)).
  pose proof (Z.mod_pos_bound d n Hn) as He. fold e in He. clearbody e. clear d Ed.
  destruct (Z.eqb_spec e 0) as [->|Hne].
  - rewrite (zsum_ext n _ (fun _ => RtoC 1)). { rewrite zsum_const by lia. ring. }
    intros k _. replace (2 * PI * (IZR k * 0 / IZR n))%R with 0%R by (field; exact Hn0). apply cis_0.
  - set (w := cis (2 * PI * (IZR e / IZR n))).
    assert (W : w - RtoC 1 <> RtoC 0). { intros E. apply (cis_not_1 n e ltac:(lia)). fold w. replace w with (w - RtoC 1 + RtoC 1) by ring. rewrite E. ring. }
    assert (G := geom w (Z.to_nat n)). unfold w in G at 3. rewrite cis_pow in G.
    rewrite INR_IZR_INZ, Z2Nat.id in G by lia. replace (2 * PI * (IZR e / IZR n) * IZR n)%R with (2 * PI * IZR e)%R in G by (field; exact Hn0). rewrite cis_2PI in G.
    assert (Z : zsum n (fun k => cpow w (Z.to_nat k)) = RtoC 0).
    { unfold zsum. replace (nsum (Z.to_nat n) (fun k => cpow w (Z.to_nat k))) with (/ (w - RtoC 1) * ((w - RtoC 1) * nsum (Z.to_nat n) (fun k => cpow w (Z.to_nat k)))) by (field; exact W).
      rewrite G. ring. }
    rewrite <- Z. apply zsum_ext. intros k Hk. unfold w. rewrite cis_pow. f_equal. rewrite INR_IZR_INZ, Z2Nat.id by lia. field. exact Hn0.
Qed.
