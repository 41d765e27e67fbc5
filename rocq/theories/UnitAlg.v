(** Algebra of the average of a matrix with its inverse. *)
From Coq Require Import Reals Lra Lia List.
From Coquelicot Require Import Coquelicot.
From Verif Require Import CplxModel CplxProofs MatModel MatSpec MatProofs MatRun MatProofs2 MatProofs3 MatProofs4 MatAlg ExpSmall.
Set Bullet Behavior "Strict Subproofs".
Open Scope R_scope.

Lemma norm2_lin (T I : cmat) (al be : R) : norm2 (madd (mscale (RtoC al) T) (mscale (RtoC be) (dag I))) = al * al * norm2 T + be * be * norm2 I + 2 * al * be * fst (trace (mmul T I)).
Proof. rewrite !norm2_sqn. unfold madd, mscale, dag, trace, mmul, sqn. cbn [csum]. unfold Cplus, Cmult, Cconj, RtoC. cbn [fst snd]. ring. Qed.
Lemma norm2_mid : norm2 mid = 3.
Proof. rewrite norm2_sqn. unfold mid, sqn. cbn [Nat.eqb]. unfold RtoC. cbn [fst snd]. ring. Qed.
Lemma trace_mid : fst (trace mid) = 3.
Proof. unfold trace, mid. cbn [csum Nat.eqb]. unfold Cplus, RtoC. cbn [fst snd]. ring. Qed.

(** the average and the difference *)
Definition avg (ga : R) (T I : cmat) : cmat := madd (mscale (RtoC (ga / 2)) T) (mscale (RtoC (/ (2 * ga))) (dag I)).
Definition dif (ga : R) (T I : cmat) : cmat := madd (mscale (RtoC ga) T) (mscale (RtoC (- / ga)) (dag I)).

Section One.
Context (T I : cmat) (HTI : meq (mmul T I) mid) (ga : R) (Hga : ga > 0) (Hg2 : ga * ga * norm2 T = norm2 I).
Notation a := (norm2 T). Notation b := (norm2 I).
Lemma tr_TI : fst (trace (mmul T I)) = 3.
Proof using HTI. rewrite (trace_proper _ _ HTI). apply trace_mid. Qed.
Lemma ab9 : 0 < a /\ 0 < b /\ 9 <= a * b.
Proof using HTI.
  pose proof (norm2_pos T) as P1. pose proof (norm2_pos I) as P2. pose proof (norm2_mul T I) as M. rewrite (norm2_proper _ _ HTI), norm2_mid in M.
  assert (0 < a) by nra. assert (0 < b) by nra. split; [assumption|]. split; [assumption|].
  pose proof (norm2_pos (madd (mscale (RtoC b) T) (mscale (RtoC (-3)) (dag I)))) as Q. rewrite norm2_lin, tr_TI in Q. nra.
Qed.
Lemma avg_dif : meq (mmul (avg ga T I) (dag (avg ga T I))) (madd mid (mscale (RtoC (/ 4)) (mmul (dif ga T I) (dag (dif ga T I))))).
Proof using HTI Hga.
  assert (H2 : meq (mmul (dag I) (dag T)) mid) by (rewrite <- dag_mul, HTI; apply dag_1).
  assert (EX : forall (p q : R) i j, (i < 3)%nat -> (j < 3)%nat ->
    mmul (madd (mscale (RtoC p) T) (mscale (RtoC q) (dag I))) (dag (madd (mscale (RtoC p) T) (mscale (RtoC q) (dag I)))) i j =
    (RtoC (p * p) * mmul T (dag T) i j + RtoC (q * q) * mmul (dag I) I i j + RtoC (p * q) * (mmul T I i j + mmul (dag I) (dag T) i j))%C).
  { intros p q i j Hi Hj. unfold mmul, madd, mscale, dag. cbn [csum]. rewrite !Cconj_plus, !Cconj_mult, !Cconj_R, !Cconj_conj, !RtoC_mult. ring. }
  intros i j Hi Hj. transitivity (mid i j + RtoC (/ 4) * mmul (dif ga T I) (dag (dif ga T I)) i j)%C; [|reflexivity]. unfold avg, dif. rewrite !EX by assumption. rewrite (HTI i j Hi Hj), (H2 i j Hi Hj).
  generalize (mmul T (dag T) i j) (mmul (dag I) I i j) (mid i j). intros [x1 x2] [y1 y2] [z1 z2].
  apply injective_projections; unfold Cplus, Cmult, RtoC; cbn [fst snd]; field; lra.
Qed.
Lemma norm2_avg : norm2 (avg ga T I) = (a + b + 6) / 4.
Proof using HTI Hga Hg2.
  unfold avg. rewrite norm2_lin, tr_TI, <- Hg2. field. lra.
Qed.
Lemma norm2_dif : norm2 (dif ga T I) = a + b - 6.
Proof using HTI Hga Hg2. unfold dif. rewrite norm2_lin, tr_TI, <- Hg2. field. lra. Qed.
Lemma norm2_res : norm2 (msub (avg ga T I) T) = (a + b + 6) / 4 + a - (ga * a + 3 / ga).
Proof using HTI Hga Hg2.
  assert (E : meq (msub (avg ga T I) T) (madd (mscale (RtoC (ga / 2 - 1)) T) (mscale (RtoC (/ (2 * ga))) (dag I)))).
  { intros i j _ _. unfold avg, msub, madd, mscale. rewrite RtoC_minus. ring. }
  rewrite (norm2_proper _ _ E), norm2_lin, tr_TI, <- Hg2. field. lra.
Qed.
Lemma dif_res : norm2 (dif ga T I) <= 24 * norm2 (msub (avg ga T I) T).
Proof using HTI Hga Hg2.
  rewrite norm2_dif, norm2_res. destruct ab9 as (P1 & P2 & P9). set (r := / ga).
  assert (Hr : r > 0) by (apply Rinv_0_lt_compat; lra). assert (E1 : ga * r = 1) by (unfold r; field; lra).
  assert (Ea : a = r * r * b) by (rewrite <- Hg2; transitivity ((ga * r) * (ga * r) * a); [rewrite E1|]; ring).
  assert (E3 : 3 / ga = 3 * r) by (unfold r; field; lra). assert (E4 : ga * a = r * b) by (rewrite Ea; transitivity ((ga * r) * r * b); [|rewrite E1]; ring). rewrite E3, E4.
  revert Ea P9 P2 Hr. generalize b as s. intros s Ea P9 P2 Hr. rewrite Ea in *. assert (P3 : 3 <= r * s).
  { assert (H : 0 < r * s) by (apply Rmult_lt_0_compat; [exact Hr|exact P2]). destruct (Rle_lt_dec 3 (r * s)) as [|L]; [assumption|]. exfalso. assert (Q : (r * s) * (r * s) < 9) by (clear -H L; nra). replace ((r * s) * (r * s)) with (r * r * s * s) in Q by ring. lra. }
  assert (K : 0 <= r * (24 * ((r * r * s + s + 6) / 4 + r * r * s - (r * s + 3 * r)) - (r * r * s + s - 6))).
  { replace (r * (24 * ((r * r * s + s + 6) / 4 + r * r * s - (r * s + 3 * r)) - (r * r * s + s - 6))) with ((r * s - 3) * (29 * (r * r) - 24 * r + 5) + 15 * ((r - 1) * (r - 1))) by field.
    assert (Q1 : 0 <= 29 * (r * r) - 24 * r + 5). { replace (29 * (r * r) - 24 * r + 5) with (29 * ((r - 12 / 29) * (r - 12 / 29)) + 1 / 29) by field. pose proof (Rle_0_sqr (r - 12 / 29)) as Q. unfold Rsqr in Q. lra. }
    pose proof (Rle_0_sqr (r - 1)) as Q2. unfold Rsqr in Q2. assert (Q3 : 0 <= (r * s - 3) * (29 * (r * r) - 24 * r + 5)) by (apply Rmult_le_pos; lra). lra. }
  assert (0 <= 24 * ((r * r * s + s + 6) / 4 + r * r * s - (r * s + 3 * r)) - (r * r * s + s - 6)); [|lra].
  apply Rmult_le_reg_l with r; [exact Hr|]. rewrite Rmult_0_r. exact K.
Qed.
Lemma res_small : b <= 3 -> 3 <= a -> norm2 (msub (avg ga T I) T) <= 5 / 4 * (a - 3).
Proof using HTI Hga Hg2.
  intros Hb Ha. rewrite norm2_res. destruct ab9 as (P1 & P2 & P9).
  assert (G1 : ga <= 1). { destruct (Rle_lt_dec ga 1); [assumption|]. assert (1 < ga * ga) by nra. assert (a < ga * ga * a) by nra. lra. }
  assert (G2 : 3 <= ga * a). { destruct (Rle_lt_dec 3 (ga * a)); [assumption|]. assert (0 < ga * a) by nra. assert ((ga * a) * (ga * a) < 9) by nra. replace ((ga * a) * (ga * a)) with (a * (ga * ga * a)) in * by ring. rewrite Hg2 in *. lra. }
  assert (G3 : 3 <= 3 / ga). { unfold Rdiv. assert (1 <= / ga); [|lra]. rewrite <- Rinv_1 at 1. apply Rinv_le_contravar; lra. }
  lra.
Qed.
End One.

(** ** 1 + E E^dag / 4 *)
Definition gram (E : cmat) : cmat := mscale (RtoC (/ 4)) (mmul E (dag E)).
Lemma tr_gram E : fst (trace (gram E)) = norm2 E / 4.
Proof. unfold gram, norm2, trace, mscale. cbn [csum]. unfold Cplus, Cmult, RtoC. cbn [fst snd]. field. Qed.
Lemma norm2_one_plus N E : meq (mmul N (dag N)) (madd mid (gram E)) -> norm2 N = 3 + norm2 E / 4.
Proof. intros H. unfold norm2 at 1. rewrite (trace_proper _ _ H), <- tr_gram. unfold trace, madd. cbn [csum]. unfold mid. cbn [Nat.eqb]. unfold Cplus, RtoC. cbn [fst snd]. ring. Qed.
Lemma norm2_inv_le N E J : meq (mmul N (dag N)) (madd mid (gram E)) -> meq (mmul N J) mid -> norm2 J <= 3.
Proof.
  intros H HJ. apply inv_comm in HJ as HJ'.
  assert (E1 : meq mid (madd (mmul J (dag J)) (mscale (RtoC (/ 4)) (mmul (mmul J E) (dag (mmul J E)))))).
  { transitivity (mmul (mmul J (mmul N (dag N))) (dag J)).
    - rewrite <- mmul_assoc, HJ', mmul_1_l, <- dag_mul, HJ'. symmetry. apply dag_1.
    - rewrite H. rewrite dag_mul. intros i j _ _. unfold gram, mmul, madd, mscale, mid. cbn [csum]. destruct i as [|[|[|]]], j as [|[|[|]]]; cbn [Nat.eqb]; ring. }
  assert (T : fst (trace mid) = norm2 J + norm2 (mmul J E) / 4).
  { rewrite (trace_proper _ _ E1). unfold norm2, trace, madd, mscale. cbn [csum]. unfold Cplus, Cmult, RtoC. cbn [fst snd]. field. }
  rewrite trace_mid in T. pose proof (norm2_pos (mmul J E)). lra.
Qed.
