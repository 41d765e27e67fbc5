(** Proofs about UnitModel. *)
From Coq Require Import Reals Lra Lia List Ratan Morphisms.
From Coquelicot Require Import Coquelicot.
From Verif Require Import CplxModel CplxSpec CplxProofs MatModel MatSpec MatProofs MatRun MatProofs2 MatProofs3 MatProofs4 MatInverse MatAlg GaugeModel GaugeProofs ExpSmall UnitModel UnitAlg UnitDet.
Import ListNotations.
Set Bullet Behavior "Strict Subproofs".
Open Scope R_scope.

(** ** the third root *)
Lemma cos_sin_atan t : cos (atan t) * sqrt (1 + t * t) = 1 /\ sin (atan t) * sqrt (1 + t * t) = t.
Proof.
  assert (P : 0 < sqrt (1 + t * t)) by (apply sqrt_lt_R0; nra).
  rewrite cos_atan, sin_atan. unfold Rsqr. split; field; lra.
Qed.
Lemma atan2_polar x y : x * x + y * y <> 0 -> x = sqrt (x * x + y * y) * cos (atan2 y x) /\ y = sqrt (x * x + y * y) * sin (atan2 y x).
Proof.
  intros H. unfold atan2.
  assert (K : forall s : R, s * s = 1 -> 0 < s * x -> x = sqrt (x * x + y * y) * (s * cos (atan (y / x))) /\ y = sqrt (x * x + y * y) * (s * sin (atan (y / x)))).
  { intros s Hs Hx. assert (X0 : x <> 0) by (intros ->; lra). destruct (cos_sin_atan (y / x)) as [C S].
    assert (E : sqrt (x * x + y * y) = s * x * sqrt (1 + y / x * (y / x))).
    { replace (x * x + y * y) with ((s * x) * (s * x) * (1 + y / x * (y / x))) by (field_simplify; [|exact X0]; replace (s ^ 2) with 1 by (rewrite <- Hs; ring); ring).
      rewrite sqrt_mult_alt by nra. rewrite sqrt_square by lra. reflexivity. }
    rewrite E. split.
    - transitivity (s * s * x * (cos (atan (y / x)) * sqrt (1 + y / x * (y / x)))); [rewrite C, Hs; ring|ring].
    - transitivity (s * s * x * (sin (atan (y / x)) * sqrt (1 + y / x * (y / x)))); [rewrite S, Hs; field; exact X0|ring]. }
  destruct (Rlt_dec 0 x) as [Hx|Hx]; [destruct (K 1) as [E1 E2]; [lra|lra|]; rewrite !Rmult_1_l in *; now split|].
  destruct (Rlt_dec x 0) as [Hx'|Hx'].
  { destruct (K (-1)) as [E1 E2]; [lra|lra|].
    destruct (Rlt_dec y 0); [replace (atan (y / x) - PI) with (- (PI - atan (y / x))) by ring; rewrite cos_neg, sin_neg, Rtrigo_facts.cos_pi_minus, Rtrigo_facts.sin_pi_minus|rewrite neg_cos, neg_sin];
    (split; [transitivity (sqrt (x * x + y * y) * (-1 * cos (atan (y / x)))); [exact E1|ring]|transitivity (sqrt (x * x + y * y) * (-1 * sin (atan (y / x)))); [exact E2|ring]]). }
  assert (x = 0) by lra. subst x. replace (0 * 0 + y * y) with (y * y) by ring.
  destruct (Rlt_dec 0 y); [rewrite cos_PI2, sin_PI2, sqrt_square by lra; split; ring|].
  destruct (Rlt_dec y 0); [|exfalso; apply H; assert (y = 0) by lra; subst; ring].
  replace (y * y) with (- y * - y) by ring. rewrite cos_neg, sin_neg, cos_PI2, sin_PI2, sqrt_square by lra. split; ring.
Qed.
Lemma complex_pow_st res base e m : complex_pow res base e m = upd m res
  (Rpower (sqn (m base)) (e / 2) * cos (atan2 (snd (m base)) (fst (m base)) * e), Rpower (sqn (m base)) (e / 2) * sin (atan2 (snd (m base)) (fst (m base)) * e)).
Proof. unfold complex_pow. cbv zeta. rewrite set_im_st, set_re_st. rewrite upd_same, upd_upd. reflexivity. Qed.
Lemma cube_root (z f : C) : z <> RtoC 0 -> f = (Rpower (sqn z) (- 1 / INR 3 / 2) * cos (atan2 (snd z) (fst z) * (- 1 / INR 3)), Rpower (sqn z) (- 1 / INR 3 / 2) * sin (atan2 (snd z) (fst z) * (- 1 / INR 3))) ->
  (f * f * f * z)%C = RtoC 1.
Proof.
  intros Hz Hf. assert (S0 : 0 < sqn z).
  { pose proof (sqn_pos z) as P. destruct (Req_dec (sqn z) 0) as [E|N]; [|lra]. exfalso. apply Hz. unfold sqn in E. destruct z as [x y]. cbn [fst snd] in *. assert (x = 0 /\ y = 0) as [-> ->] by (split; nra). reflexivity. }
  destruct (atan2_polar (fst z) (snd z)) as [X Y]; [unfold sqn in S0; lra|]. fold (sqn z) in X, Y.
  set (th := atan2 (snd z) (fst z)) in *. set (rho := Rpower (sqn z) (- 1 / INR 3 / 2)) in *. set (ph := th * (- 1 / INR 3)) in *.
  assert (T3 : th = - (ph + ph + ph)) by (unfold ph; cbn [INR]; field).
  assert (R3 : rho * rho * rho * sqrt (sqn z) = 1).
  { unfold rho. rewrite <- !Rpower_plus. rewrite <- Rpower_sqrt by exact S0. rewrite <- Rpower_plus. transitivity (Rpower (sqn z) 0); [f_equal; cbn [INR]; field|apply Rpower_O, S0]. }
  assert (ff : (f * f * f)%C = (rho * rho * rho * cos (ph + ph + ph), rho * rho * rho * sin (ph + ph + ph))).
  { rewrite Hf. apply injective_projections; unfold Cmult; cbn [fst snd]; rewrite ?(cos_plus (ph + ph)), ?(sin_plus (ph + ph)), ?(cos_plus ph ph), ?(sin_plus ph ph); ring. }
  rewrite ff. rewrite (surjective_pairing z), X, Y, T3, cos_neg, sin_neg.
  set (c := cos (ph + ph + ph)). set (s := sin (ph + ph + ph)). assert (SC : s * s + c * c = 1) by (pose proof (sin2_cos2 (ph + ph + ph)) as Q; unfold Rsqr in Q; exact Q).
  apply injective_projections; unfold Cmult, RtoC; cbn [fst snd]; [|ring].
  transitivity ((rho * rho * rho * sqrt (sqn z)) * (s * s + c * c)); [ring|]. rewrite R3, SC. ring.
Qed.

(** ** the loop on the entries *)
Section Run.
Context (new tmp inv : path) (H1 : new <> tmp) (H2 : new <> inv).
Definition aval (ga : R) (m : mem) (e : nat * nat) : C :=
  (0.5 * (fst (m tmp@[fst e]@[snd e]) * ga + fst (m inv@[snd e]@[fst e]) / ga), 0.5 * (snd (m tmp@[fst e]@[snd e]) * ga - snd (m inv@[snd e]@[fst e]) / ga)).
Lemma other_cell a i j k l : new <> a -> a@[i]@[j] <> new@[k]@[l].
Proof. intros H E. apply H. unfold at_ in E. congruence. Qed.
Lemma avg_entry_st ga m r e : avg_entry new tmp inv ga (m, r) e = (upd m new@[fst e]@[snd e] (aval ga m e), r + sqn (aval ga m e - m tmp@[fst e]@[snd e])%C).
Proof using H1 H2.
  destruct e as [i j]. unfold avg_entry. cbv zeta. rewrite set_re_st, set_im_st. unfold re, im. rewrite !upd_same, upd_upd.
  rewrite !(upd_other _ new@[i]@[j]) by (now apply other_cell). cbn [fst snd]. apply injective_projections; cbn [fst snd]; [reflexivity|].
  unfold aval, sqn, Cminus, Cplus, Copp. cbn [fst snd]. unfold Rminus. ring.
Qed.
Lemma avg_fold ga l : NoDup l -> forall m r, let '(m', r') := fold_left (avg_entry new tmp inv ga) l (m, r) in
  (forall e, In e l -> m' new@[fst e]@[snd e] = aval ga m e) /\ (forall p, (forall e, In e l -> p <> new@[fst e]@[snd e]) -> m' p = m p) /\
  r' = r + fold_right Rplus 0 (map (fun e => sqn (aval ga m e - m tmp@[fst e]@[snd e])%C) l).
Proof using H1 H2.
  induction l as [|e l IH]; intros ND m r; [cbn; repeat split; [intros _ []|ring]|].
  apply NoDup_cons_iff in ND as [NI ND]. cbn [fold_left]. rewrite avg_entry_st. set (m1 := upd m _ _). specialize (IH ND m1 (r + sqn (aval ga m e - m tmp@[fst e]@[snd e])%C)).
  destruct (fold_left (avg_entry new tmp inv ga) l (m1, _)) as [m' r']. destruct IH as (A & B & C).
  assert (S : forall e', aval ga m1 e' = aval ga m e').
  { intros e'. unfold aval, m1. rewrite !(upd_other m) by (now apply other_cell). reflexivity. }
  split; [|split].
  - intros e' [<-|He'].
    + rewrite B; [unfold m1; apply upd_same|]. intros e' He' E. apply NI. unfold at_ in E. injection E as E1 E2. destruct e, e'. cbn [fst snd] in *. now subst.
    + rewrite A by exact He'. apply S.
  - intros p Hp. rewrite B by (intros; apply Hp; now right). unfold m1. apply upd_other. apply Hp. now left.
  - rewrite C. cbn [map fold_right]. rewrite Rplus_assoc. do 2 f_equal. f_equal. apply map_ext. intros e'. rewrite S. unfold m1. rewrite (upd_other m) by (now apply other_cell). reflexivity.
Qed.
End Run.

(** ** the body *)
Definition minv (T : cmat) : cmat := mscale (/ det T)%C (cofactors T).
Definition gam (T : cmat) : R := sqrt (norm2 (minv T) / norm2 T).
Definition nstep (T : cmat) : cmat := avg (gam T) T (minv T).
Lemma minv_r T : det T <> RtoC 0 -> meq (mmul T (minv T)) mid.
Proof. intros D. unfold minv. rewrite mmul_scale_r, cofactors_r, mscale_scale, Cinv_l by exact D. apply mscale_1. Qed.
Lemma cofactors_proper x y : meq x y -> meq (cofactors x) (cofactors y).
Proof. intros H i j Hi Hj. idx i; idx j; unfold cofactors; rewrite ?(H 0%nat 0%nat), ?(H 0%nat 1%nat), ?(H 0%nat 2%nat), ?(H 1%nat 0%nat), ?(H 1%nat 1%nat), ?(H 1%nat 2%nat), ?(H 2%nat 0%nat), ?(H 2%nat 1%nat), ?(H 2%nat 2%nat) by lia; reflexivity. Qed.
Lemma minv_proper x y : meq x y -> meq (minv x) (minv y).
Proof. intros H i j Hi Hj. unfold minv, mscale. now rewrite (det_proper _ _ H), (cofactors_proper _ _ H i j Hi Hj). Qed.
Lemma gam_proper x y : meq x y -> gam x = gam y.
Proof. intros H. unfold gam. now rewrite (norm2_proper _ _ (minv_proper _ _ H)), (norm2_proper _ _ H). Qed.
Lemma avg_proper ga x y x' y' : meq x y -> meq x' y' -> meq (avg ga x x') (avg ga y y').
Proof. intros H H' i j Hi Hj. unfold avg, madd, mscale, dag. now rewrite (H i j Hi Hj), (H' j i Hj Hi). Qed.
Lemma nstep_proper x y : meq x y -> meq (nstep x) (nstep y).
Proof. intros H. unfold nstep. rewrite (gam_proper _ _ H). apply avg_proper; [exact H|now apply minv_proper]. Qed.
Lemma gam_ok T : det T <> RtoC 0 -> gam T > 0 /\ gam T * gam T * norm2 T = norm2 (minv T).
Proof.
  intros D. destruct (ab9 T (minv T) (minv_r T D)) as (A & B & _). assert (0 < norm2 (minv T) / norm2 T) by (now apply Rdiv_lt_0_compat).
  unfold gam. split; [now apply sqrt_lt_R0|]. rewrite sqrt_sqrt by lra. field. lra.
Qed.

Section Body.
Context (new tmp inv dt rc a : path) (N1 : new <> tmp) (N2 : new <> inv) (N3 : inv <> tmp) (N4 : a <> dt) (N5 : a <> rc) (N6 : dt <> rc).
Context (L : forall b p, In b [new; tmp; inv] -> In p [a; dt; rc] -> ~ in_mat b p).
Lemma body_ok m : det (mat m tmp) <> RtoC 0 ->
  exists m' r, unit_body new tmp inv dt rc a m = (m', r) /\ meq (mat m' new) (nstep (mat m tmp)) /\ meq (mat m' tmp) (nstep (mat m tmp)) /\ r = sqrt (norm2 (msub (nstep (mat m tmp)) (mat m tmp))).
Proof using N1 N2 N3 N4 N5 N6 L.
  intros D. unfold unit_body. cbv zeta.
  destruct (unsafe_su3_explicit_inverse_ok inv tmp dt rc a m N3 N4 N5 N6) as [A1 F1]; try (apply L; cbn; tauto); [exact D|]. set (m1 := unsafe_su3_explicit_inverse _ _ _ _ _ m) in *.
  fold (minv (mat m tmp)) in A1.
  assert (A0 : meq (mat m1 tmp) (mat m tmp)).
  { intros i j Hi Hj. unfold mat. apply F1.
    - intros (k & l & _ & _ & E). apply N3. unfold at_ in E. congruence.
    - intros E. apply (L tmp a); cbn; [tauto|tauto|]. exists i, j. auto.
    - intros E. apply (L tmp dt); cbn; [tauto|tauto|]. exists i, j. auto.
    - intros E. apply (L tmp rc); cbn; [tauto|tauto|]. exists i, j. auto. }
  rewrite !su3_norm2_ok. rewrite (norm2_proper _ _ A1), (norm2_proper _ _ A0). fold (gam (mat m tmp)).
  set (l := [_; _; _; _; _; _; _; _; _]).
  assert (ND : NoDup l) by (unfold l; repeat constructor; cbn; intuition discriminate).
  pose proof (avg_fold new tmp inv N1 N2 (gam (mat m tmp)) l ND m1 0) as K. destruct (fold_left _ l (m1, 0)) as [m2 r]. destruct K as (K1 & K2 & K3).
  assert (V : forall i j, (i < 3)%nat -> (j < 3)%nat -> aval tmp inv (gam (mat m tmp)) m1 (i, j) = nstep (mat m tmp) i j).
  { intros i j Hi Hj. unfold aval, nstep, avg, madd, mscale, dag. cbn [fst snd]. fold (mat m1 tmp i j) (mat m1 inv j i). rewrite (A0 i j Hi Hj), (A1 j i Hj Hi).
    destruct (gam_ok (mat m tmp) D) as [G _]. generalize (mat m tmp i j) (minv (mat m tmp) j i). intros [x y] [z w]. apply injective_projections; unfold Cplus, Cmult, Cconj, RtoC; cbn [fst snd]; replace 0.5 with (/ 2) by lra; field; lra. }
  destruct (su3_copy_ok tmp new tmp 0 0 m2) as [A3 F3]. cbv beta in A3. set (m3 := su3_copy tmp new m2) in *.
  assert (M2 : meq (mat m2 new) (nstep (mat m tmp))).
  { intros i j Hi Hj. rewrite <- (V i j Hi Hj). unfold mat. apply (K1 (i, j)). unfold l. destruct i as [|[|[|]]], j as [|[|[|]]]; try lia; cbn; tauto. }
  exists m3, (sqrt r). split; [reflexivity|]. split; [|split].
  - rewrite <- M2. intros i j Hi Hj. unfold mat. apply F3; [|tauto]. intros (k & l' & _ & _ & E). apply N1. unfold at_ in E. congruence.
  - rewrite A3. exact M2.
  - rewrite K3. f_equal. rewrite norm2_sqn. unfold l. cbn [map fold_right fst snd].
    fold (mat m1 tmp 0 0)%nat (mat m1 tmp 0 1)%nat (mat m1 tmp 0 2)%nat (mat m1 tmp 1 0)%nat (mat m1 tmp 1 1)%nat (mat m1 tmp 1 2)%nat (mat m1 tmp 2 0)%nat (mat m1 tmp 2 1)%nat (mat m1 tmp 2 2)%nat.
    rewrite !V by lia. rewrite !(A0 _ _) by lia. unfold msub. ring.
Qed.
End Body.
