(** The closed formulas of the code give the coefficients of the exponential. *)
From Coq Require Import Reals Lra Lia Factorial.
From Coquelicot Require Import Complex.
From Verif Require Import CplxModel MatModel MatSpec MatRun MatProofs4 MatAlg ExpModel ExpSpec ExpProofs ExpAlg ExpVal.
Open Scope R_scope.
Set Bullet Behavior "Strict Subproofs".

Definition qroots (u w : R) (k : nat) : R := match k with O => 2 * u | 1%nat => - u + w | _ => - u - w end.
(** the coefficients put by big_f for c0 >= 0 *)
Definition coef (u w xi : R) : C * C * C := let '(h0, h1, h2) := exp_h u w xi in
  let fact := 1 / (9 * u * u - w * w) in ((fst h0 * fact, snd h0 * fact), (fst h1 * fact, snd h1 * fact), (fst h2 * fact, snd h2 * fact)).
Lemma coef_ev u w xi k : 9 * u * u - w * w <> 0 -> sin w = w * xi -> (k < 3)%nat -> ev3 (RtoC (qroots u w k)) (coef u w xi) = eiq (qroots u w k).
Proof.
  intros D S Hk. unfold ev3, coef, exp_h, eiq, qroots. idx k; apply injective_projections; cbn [fst snd Cplus Cmult RtoC].
  - field; exact D.
  - field; exact D.
  - rewrite cos_plus, cos_neg, sin_neg, S. field; exact D.
  - rewrite sin_plus, cos_neg, sin_neg, S. field; exact D.
  - rewrite cos_minus, cos_neg, sin_neg, S. field; exact D.
  - rewrite sin_minus, cos_neg, sin_neg, S. field; exact D.
Qed.
Lemma qroots_ok u w : roots (qroots u w) (2 * u * (u * u - w * w)) (3 * u * u + w * w).
Proof. unfold roots, qroots. repeat split; ring. Qed.
Lemma qroots_distinct u w : w <> 0 -> 9 * u * u - w * w <> 0 -> distinct3 (qroots u w).
Proof.
  intros H D. unfold distinct3, qroots. repeat split; intros E.
  - apply D. replace w with (3 * u) by lra. ring.
  - apply D. replace w with (- (3 * u)) by lra. ring.
  - apply H. lra.
Qed.

Lemma cos_3 t : cos (3 * t) = 4 * cos t * cos t * cos t - 3 * cos t.
Proof.
  replace (3 * t) with (2 * t + t) by ring. rewrite cos_plus, cos_2a_cos, sin_2a.
  replace (2 * sin t * cos t * sin t) with (2 * cos t * (1 - cos t * cos t)); [ring|].
  pose proof (sin2_cos2 t) as H. unfold Rsqr in H. replace (1 - cos t * cos t) with (sin t * sin t) by lra. ring.
Qed.
(** where the exact formulas are used, for c0 >= 0 *)
Section Trig.
Variables (c0 c1 : R).
Hypothesis (Hc1 : 0 < c1).
Let c0_max := 2 * Rpower (c1 / 3) 1.5.
Lemma pow15 : Rpower (c1 / 3) 1.5 = sqrt (c1 / 3) * sqrt (c1 / 3) * sqrt (c1 / 3).
Proof.
  replace 1.5 with (1 + / 2) by lra. rewrite Rpower_plus, Rpower_1, Rpower_sqrt by lra. rewrite sqrt_sqrt by lra. reflexivity.
Qed.
Lemma c0_max_pos : 0 < c0_max.
Proof. unfold c0_max. rewrite pow15. assert (0 < sqrt (c1 / 3)) by (apply sqrt_lt_R0; lra). repeat apply Rmult_lt_0_compat; lra. Qed.
Hypothesis (Hc0 : 0 <= c0) (He : 1e-3 <= (c0_max - c0) / c0_max).
Let theta := exp_theta c0 c0_max.
Let u := sqrt (c1 / 3) * cos (theta / 3).
Let w := sqrt c1 * sin (theta / 3).
Lemma ratio_range : 0 <= c0 / c0_max < 1.
Proof.
  pose proof c0_max_pos as P. split; [apply Rmult_le_pos; [lra|apply Rlt_le, Rinv_0_lt_compat, P]|]. unfold Rdiv in He. rewrite Rmult_minus_distr_r, Rinv_r in He by lra. unfold Rdiv. lra.
Qed.
Lemma theta_acos : theta = acos (c0 / c0_max).
Proof. unfold theta, exp_theta. cbv zeta. destruct (Rlt_dec _ _) as [B|_]; [lra|]. destruct (Rlt_dec _ _) as [B|_]; [lra|]. reflexivity. Qed.
Lemma theta_range : 0 < theta <= PI / 2.
Proof.
  rewrite theta_acos. pose proof ratio_range as R. pose proof (acos_bound_lt (c0 / c0_max) ltac:(lra)) as [B1 B2]. split; [exact B1|].
  destruct (Rle_lt_dec (acos (c0 / c0_max)) (PI / 2)) as [L|L]; [exact L|]. exfalso.
  assert (N : cos (acos (c0 / c0_max)) < 0) by (apply cos_lt_0; lra). rewrite cos_acos in N; lra.
Qed.
Lemma third_cos : / 2 < cos (theta / 3).
Proof.
  pose proof theta_range as R. pose proof PI_RGT_0 as P. replace (/ 2) with (cos (PI / 3)) by (rewrite cos_PI3; lra).
  apply cos_decreasing_1; lra.
Qed.
Lemma third_sin : 0 < sin (theta / 3).
Proof. pose proof theta_range as R. pose proof PI_RGT_0 as P. apply sin_gt_0; lra. Qed.
Lemma w_pos : 0 < w.
Proof. unfold w. apply Rmult_lt_0_compat; [apply sqrt_lt_R0; lra|exact third_sin]. Qed.
Lemma cs2 : sin (theta / 3) * sin (theta / 3) = 1 - cos (theta / 3) * cos (theta / 3).
Proof. pose proof (sin2_cos2 (theta / 3)) as H. unfold Rsqr in H. lra. Qed.
Lemma uu : u * u = c1 / 3 * (cos (theta / 3) * cos (theta / 3)).
Proof. unfold u. replace (_ * _ * _) with (sqrt (c1 / 3) * sqrt (c1 / 3) * (cos (theta / 3) * cos (theta / 3))) by ring. rewrite sqrt_sqrt by lra. reflexivity. Qed.
Lemma ww : w * w = c1 * (1 - cos (theta / 3) * cos (theta / 3)).
Proof. unfold w. replace (_ * _ * _) with (sqrt c1 * sqrt c1 * (sin (theta / 3) * sin (theta / 3))) by ring. rewrite sqrt_sqrt, cs2 by lra. reflexivity. Qed.
Lemma denom_pos : 0 < 9 * u * u - w * w.
Proof.
  replace (9 * u * u) with (9 * (u * u)) by ring. rewrite uu, ww. replace (_ - _) with (c1 * (4 * (cos (theta / 3) * cos (theta / 3)) - 1)) by field.
  apply Rmult_lt_0_compat; [exact Hc1|]. pose proof third_cos. nra.
Qed.
Lemma uw_c1 : 3 * u * u + w * w = c1.
Proof. replace (3 * u * u) with (3 * (u * u)) by ring. rewrite uu, ww. field. Qed.
Lemma uw_c0 : 2 * u * (u * u - w * w) = c0.
Proof.
  rewrite uu, ww. pose proof ratio_range as R. pose proof c0_max_pos as P.
  assert (E : cos (3 * (theta / 3)) = c0 / c0_max) by (replace (3 * (theta / 3)) with theta by field; rewrite theta_acos; apply cos_acos; lra).
  rewrite cos_3 in E. assert (E' : c0 = c0_max * (4 * cos (theta / 3) * cos (theta / 3) * cos (theta / 3) - 3 * cos (theta / 3))) by (rewrite E; field; lra).
  rewrite E' at 1. unfold c0_max. rewrite pow15. unfold u. set (c := cos (theta / 3)).
  replace (c1 / 3 * (c * c) - c1 * (1 - c * c)) with (c1 / 3 * (4 * (c * c) - 3)) by field.
  set (s := sqrt (c1 / 3)). replace (c1 / 3) with (s * s) by (apply sqrt_sqrt; lra). ring.
Qed.
End Trig.
