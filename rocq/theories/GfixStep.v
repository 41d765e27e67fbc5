(** The step of the exponentiating method, exp(-alpha D/2), near alpha = 0. *)
From Coq Require Import Reals Lra.
From Coquelicot Require Import Coquelicot.
From Verif Require Import Base GeometryModel GeometrySpec ChecksumSpec StapleSpec CplxModel CplxProofs MatModel MatSpec MatProofs MatRun MatProofs2 MatProofs3 MatProofs4 MatAlg GaugeModel GaugeSpec GaugeProofs GaugeAlg GaugeForce
  ExpModel ExpSpec ExpAlg ExpMain ExpSmall GfixModel GfixSpec GfixAlg.
Set Bullet Behavior "Strict Subproofs".
Open Scope R_scope.

Lemma exponentiate_small_val out Q iQ iQ2 f m :
  out <> iQ -> out <> iQ2 -> iQ <> iQ2 -> Q <> iQ -> Q <> iQ2 -> (forall k, ~ in_mat out f@[k] /\ ~ in_mat iQ f@[k] /\ ~ in_mat iQ2 f@[k]) ->
  exp_c1 (mat m Q) < 4e-3 ->
  meq (mat (safe_hermitian_exact_i_exponentiate out Q iQ iQ2 f m) out) (poly2 (mat m Q) (small_f (exp_c0 (mat m Q)) (exp_c1 (mat m Q)))).
Proof.
  intros Ho Ho2 Hi HQ HQ2 Hf Z1.
  unfold safe_hermitian_exact_i_exponentiate. rewrite then_run. unfold prepareIngredients. cbv zeta.
  destruct (su3_copy_ok iQ Q iQ 0 0 m) as [A1 F1]. set (m1 := su3_copy iQ Q m) in *. cbv beta in A1.
  rewrite su3_real_det_ok.
  destruct (unsafe_su3_prod_su3_ok iQ2 iQ iQ (not_eq_sym Hi) (not_eq_sym Hi) m1) as [A2 F2]. set (m2 := unsafe_su3_prod_su3 _ _ _ _ m1) in *. cbv beta in A2.
  rewrite su3_real_trace_ok.
  assert (Apart : forall a b i j, a <> b -> ~ in_mat a b@[i]@[j]) by (intros a b i j Hb (k & l & _ & _ & E); apply Hb; injection E; congruence).
  set (x := mat m Q) in *.
  assert (Ed : det (mat m1 iQ) = det x) by (rewrite A1; reflexivity).
  assert (X2 : meq (mat m2 iQ2) (mmul x x)) by (rewrite A2, A1; reflexivity).
  assert (X1 : meq (mat m2 iQ) x). { intros i j Hi' Hj. rewrite <- (A1 i j Hi' Hj). unfold mat. apply F2; [now apply Apart, not_eq_sym|tauto]. }
  rewrite Ed, (trace_proper _ _ X2). fold (exp_c0 x) (exp_c1 x).
  destruct (Rlt_dec (exp_c1 x) 4e-3) as [_|L]; [|contradiction].
  destruct (small_f (exp_c0 x) (exp_c1 x)) as [[f0 f1] f2].
  rewrite !then_run, !set_cplx_st.
  set (m3 := upd _ f@[2%nat] _).
  destruct (ing_ok out iQ iQ2 f m3 Ho Ho2 (fun k => proj1 (Hf k))) as [A4 F4].
  set (m4 := safe_hermitian_exact_i_exponentiate_ing _ _ _ _ m3) in *. cbv zeta in A4, F4.
  assert (F3 : forall p, (forall k, p <> f@[k]) -> m3 p = m2 p) by (intros p Hp; unfold m3; rewrite !upd_other by apply Hp; reflexivity).
  assert (Pf : forall b k i j, ~ in_mat b f@[k] -> (i < 3)%nat -> (j < 3)%nat -> b@[i]@[j] <> f@[k]) by (intros b k i j H Hi' Hj E; apply H; exists i, j; auto).
  intros i j Hi' Hj. rewrite (A4 i j Hi' Hj), poly2_cof. unfold mat.
  rewrite !(F3 _ (fun k => Pf iQ k i j (proj1 (proj2 (Hf k))) Hi' Hj)), !(F3 _ (fun k => Pf iQ2 k i j (proj2 (proj2 (Hf k))) Hi' Hj)).
  fold (mat m2 iQ i j). fold (mat m2 iQ2 i j). rewrite (X1 i j Hi' Hj), (X2 i j Hi' Hj).
  unfold m3. rewrite upd_same, !(upd_other _ f@[2%nat]) by (intros E; injection E; congruence).
  rewrite upd_same, !(upd_other _ f@[1%nat]) by (intros E; injection E; congruence). rewrite upd_same. reflexivity.
Qed.

(** the argument of the exponential is alpha y *)
Definition half_i (D : cmat) : cmat := mscale (0, / 2) D.
Lemma Q_arg D alpha : let m := su3_prod_idouble [3%nat] a_y (-1) (su3_prod_double a_y a_x (- 0.5 * alpha) (args mid D mid)) in
  meq (mat m [3%nat]) (mscale (RtoC alpha) (half_i D)).
Proof.
  intros m. subst m. set (m0 := su3_prod_double a_y a_x _ _).
  destruct (su3_prod_idouble_ok [3%nat] a_y [3%nat] (-1) 0 m0) as [A1 _]. cbv beta in A1. rewrite A1.
  destruct (su3_prod_double_ok a_y a_x a_y (-0.5 * alpha) 0 (args mid D mid)) as [A2 _]. cbv beta in A2. fold m0 in A2.
  intros i j Hi Hj. unfold mscale at 1. rewrite (A2 i j Hi Hj). unfold mscale, half_i. rewrite args_x. unfold mscale. destruct (D i j) as [a b]. apply injective_projections; unfold Ci, Cmult, RtoC; cbn [fst snd]; replace (-0.5) with (- / 2) by lra; field.
Qed.
Lemma c1_scale y alpha : exp_c1 (mscale (RtoC alpha) y) = alpha * alpha * exp_c1 y.
Proof. unfold exp_c1, trace, mmul, mscale. cbn [csum]. unfold Cplus, Cmult, RtoC. cbn [fst snd]. field. Qed.
Lemma c0_scale y alpha : exp_c0 (mscale (RtoC alpha) y) = alpha * alpha * alpha * exp_c0 y.
Proof. unfold exp_c0. transitivity (fst (RtoC (alpha * alpha * alpha) * det y)%C); [|cbn; ring]. f_equal. unfold det, mscale. rewrite !RtoC_mult. ring. Qed.
Lemma exp_c1_proper x y : meq x y -> exp_c1 x = exp_c1 y.
Proof. intros H. unfold exp_c1. now rewrite (trace_proper _ _ (mmul_proper _ _ H _ _ H)). Qed.
Lemma exp_c0_proper x y : meq x y -> exp_c0 x = exp_c0 y.
Proof. intros H. unfold exp_c0. now rewrite (det_proper _ _ H). Qed.
Lemma poly2_proper x y c : meq x y -> meq (poly2 x c) (poly2 y c).
Proof. intros H i j Hi Hj. rewrite !poly2_cof, (H i j Hi Hj), (mmul_proper _ _ H _ _ H i j Hi Hj). reflexivity. Qed.
Lemma exp_step_val D alpha : alpha * alpha * exp_c1 (half_i D) < 4e-3 ->
  meq (exp_der_alpha_half D alpha) (poly2 (mscale (RtoC alpha) (half_i D)) (small_f (alpha * alpha * alpha * exp_c0 (half_i D)) (alpha * alpha * exp_c1 (half_i D)))).
Proof.
  intros H. unfold exp_der_alpha_half. rewrite then_run. unfold safe_anti_hermitian_exact_exponentiate. rewrite then_run.
  pose proof (Q_arg D alpha) as E. cbv zeta in E. set (m := su3_prod_idouble _ _ _ _) in *.
  assert (NI : forall a k, a <> 6%nat -> ~ in_mat [a] [0; 6]%nat@[k]).
  { intros a k Ha (i & j & _ & _ & E'). unfold at_ in E'. injection E'. intros. now apply Ha. }
  rewrite exponentiate_small_val; try discriminate.
  - rewrite (exp_c0_proper _ _ E), (exp_c1_proper _ _ E), c0_scale, c1_scale. now apply poly2_proper.
  - intros k. repeat split; apply NI; discriminate.
  - rewrite (exp_c1_proper _ _ E), c1_scale. exact H.
Qed.

(** near 0 the entries are polynomials of alpha, with derivative -D/2 *)
Lemma zone_near b : locally (0 : R) (fun alpha : R => alpha * alpha * b < 4e-3).
Proof.
  assert (C : continuous (fun alpha : R => alpha * alpha * b) 0).
  { apply (ex_derive_continuous (K := R_AbsRing) (V := R_NormedModule)). auto_derive. exact I. }
  apply (C (fun v => v < 4e-3)). apply (open_lt (4e-3)). lra.
Qed.
Lemma exp_step_der D : mat_derive (fun alpha => exp_der_alpha_half D alpha) 0 (mscale (RtoC (- / 2)) D).
Proof.
  set (y := half_i D). set (a := exp_c0 y). set (b := exp_c1 y).
  assert (K : forall i j, (i < 3)%nat -> (j < 3)%nat -> locally (0 : R) (fun alpha : R => poly2 (mscale (RtoC alpha) y) (small_f (alpha * alpha * alpha * a) (alpha * alpha * b)) i j = exp_der_alpha_half D alpha i j)).
  { intros i j Hi Hj. generalize (zone_near b). apply filter_imp. intros alpha H. symmetry. exact (exp_step_val D alpha H i j Hi Hj). }
  intros i j Hi Hj. specialize (K i j Hi Hj).
  assert (E : forall alpha, poly2 (mscale (RtoC alpha) y) (small_f (alpha * alpha * alpha * a) (alpha * alpha * b)) i j
    = (cof3 0 (small_f (alpha * alpha * alpha * a) (alpha * alpha * b)) * mid i j + cof3 1 (small_f (alpha * alpha * alpha * a) (alpha * alpha * b)) * (RtoC alpha * y i j)
       + cof3 2 (small_f (alpha * alpha * alpha * a) (alpha * alpha * b)) * (RtoC (alpha * alpha) * mmul y y i j))%C).
  { intros alpha. rewrite poly2_cof. f_equal. f_equal. unfold mmul, mscale. cbn [csum]. rewrite RtoC_mult. ring. }
  assert (V : mscale (RtoC (- / 2)) D i j = (Ci * y i j)%C).
  { unfold y, half_i, mscale. apply injective_projections; unfold Ci, Cmult, RtoC; cbn [fst snd]; field. }
  rewrite V. revert E. generalize (mid i j) (mmul y y i j) (y i j). intros u w z E.
  split.
  - eapply (is_derive_ext_loc (fun alpha => fst (poly2 (mscale (RtoC alpha) y) (small_f (alpha * alpha * alpha * a) (alpha * alpha * b)) i j))).
    + generalize K. apply filter_imp. intros alpha ->. reflexivity.
    + eapply is_derive_ext; [intros alpha; rewrite E; reflexivity|]. unfold small_f, cof3, Ci, Cplus, Cmult, RtoC. cbn [fst snd]. auto_derive; [tauto|]. cbn [fst snd]. field.
  - eapply (is_derive_ext_loc (fun alpha => snd (poly2 (mscale (RtoC alpha) y) (small_f (alpha * alpha * alpha * a) (alpha * alpha * b)) i j))).
    + generalize K. apply filter_imp. intros alpha ->. reflexivity.
    + eapply is_derive_ext; [intros alpha; rewrite E; reflexivity|]. unfold small_f, cof3, Ci, Cplus, Cmult, RtoC. cbn [fst snd]. auto_derive; [tauto|]. cbn [fst snd]. field.
Qed.
Lemma exp_step_0 D : meq (exp_der_alpha_half D 0) mid.
Proof.
  rewrite exp_step_val by lra. intros i j _ _. rewrite poly2_cof. unfold small_f, cof3, mmul, mscale, mid. cbn [csum].
  apply injective_projections; unfold Cplus, Cmult, RtoC; cbn [fst snd]; field.
Qed.
