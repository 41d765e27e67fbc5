From Coq Require Import Reals Lra Lia List.
From Coquelicot Require Import Complex.
From Verif Require Import CplxModel CplxSpec CplxProofs CplxStores MatModel MatSpec MatProofs MatRun MatProofs2 MatProofs3 MatProofs4 MatAlg ExpModel ExpSpec ExpProofs ExpAlg ExpVal ExpTrig.
Open Scope R_scope.
Set Bullet Behavior "Strict Subproofs".

Definition neg3 (c : C * C * C) : C * C * C := let '(a, b, d) := c in (Cconj a, (- fst b, snd b), Cconj d).
(** the coefficients of big_f *)
Definition coefs (c0 c1 : R) : C * C * C :=
  let c0_max := 2 * Rpower (c1 / 3) 1.5 in let a0 := Rabs c0 in
  let u := sqrt (c1 / 3) * cos (exp_theta a0 c0_max / 3) in let w := sqrt c1 * sin (exp_theta a0 c0_max / 3) in
  let c := coef u w (exp_xi0 w) in if Rlt_dec c0 0 then neg3 c else c.
Ltac fneq := first [assumption | congruence | (intros ?E; injection E; intros; discriminate)].
Lemma set_cplx_st a z m : set_cplx a z m = upd m a z.
Proof. unfold set_cplx. rewrite then_run, set_im_st, set_re_st, upd_same, upd_upd. destruct z; reflexivity. Qed.
Lemma f_neq f i j : i <> j -> f@[i] <> f@[j].
Proof. intros H E. apply H. now injection E. Qed.
Lemma big_f_st c0 c1 f m : big_f c0 c1 f m = upd (upd (upd m f@[0%nat] (cof3 0 (coefs c0 c1))) f@[1%nat] (cof3 1 (coefs c0 c1))) f@[2%nat] (cof3 2 (coefs c0 c1)).
Proof.
  unfold big_f, coefs. cbv zeta. destruct (Rlt_dec c0 0) as [N|N].
  - rewrite (Rabs_left c0 N). set (u := sqrt (c1 / 3) * cos _). set (w := sqrt c1 * sin _). unfold coef, neg3. destruct (exp_h u w (exp_xi0 w)) as [[h0 h1] h2].
    cbn [cof3]. rewrite ?then_run. rewrite !set_cplx_st. unfold re, im. rewrite !set_re_st, !set_im_st.
    pose proof (f_neq f 0 1 ltac:(lia)) as N01. pose proof (f_neq f 0 2 ltac:(lia)) as N02. pose proof (f_neq f 1 2 ltac:(lia)) as N12.
    set (fact := 1 / _). 
    apply FunctionalExtensionality.functional_extensionality. intros p. unfold upd.
    repeat (match goal with |- context [path_dec ?a ?a] => destruct (path_dec a a) as [_|?]; [|congruence] | |- context [path_dec f@[?i] f@[?j]] => destruct (path_dec f@[i] f@[j]) as [?|_]; [congruence|] end; cbn [fst snd]).
    destruct (path_dec p f@[0%nat]) as [->|P0]; [|destruct (path_dec p f@[1%nat]) as [->|P1]; [|destruct (path_dec p f@[2%nat]) as [->|P2]]].
    all: repeat match goal with |- context [path_dec ?a ?a] => destruct (path_dec a a) as [_|?]; [|congruence] | |- context [path_dec ?a ?b] => destruct (path_dec a b) as [?|_]; [congruence|] end; cbn [fst snd Cconj].
    all: unfold Cconj; cbn [fst snd]; first [reflexivity | f_equal; ring].
  - rewrite (Rabs_right c0) by lra. set (u := sqrt (c1 / 3) * cos _). set (w := sqrt c1 * sin _). unfold coef. destruct (exp_h u w (exp_xi0 w)) as [[h0 h1] h2].
    cbn [cof3]. rewrite ?then_run. rewrite !set_cplx_st. reflexivity.
Qed.
(** the coefficients at the roots *)
Lemma neg3_ev q c : ev3 (RtoC (- q)) (neg3 c) = Cconj (ev3 (RtoC q) c).
Proof. destruct c as [[[? ?] [? ?]] [? ?]]. unfold ev3, neg3. apply injective_projections; cbn; ring. Qed.
Lemma eiq_neg q : eiq (- q) = Cconj (eiq q).
Proof. unfold eiq. rewrite cos_neg, sin_neg. reflexivity. Qed.
Lemma coefs_ok c0 c1 : let c0_max := 2 * Rpower (c1 / 3) 1.5 in 0 < c1 -> 1e-3 <= (c0_max - Rabs c0) / c0_max ->
  0.05 <= sqrt c1 * sin (acos (Rabs c0 / c0_max) / 3) ->
  exists q, distinct3 q /\ roots q c0 c1 /\ forall k, (k < 3)%nat -> ev3 (RtoC (q k)) (coefs c0 c1) = eiq (q k).
Proof.
  intros c0_max H1 H2 H3. set (a0 := Rabs c0) in *. assert (Ha : 0 <= a0) by apply Rabs_pos.
  pose proof (theta_acos a0 c1 H2) as Hth. fold c0_max in Hth. rewrite <- Hth in H3.
  set (u := sqrt (c1 / 3) * cos (exp_theta a0 c0_max / 3)). set (w := sqrt c1 * sin (exp_theta a0 c0_max / 3)) in *.
  assert (Hd : 9 * u * u - w * w <> 0) by (pose proof (denom_pos a0 c1 H1 Ha H2); fold c0_max u w in H; lra).
  assert (Hw : sin w = w * exp_xi0 w).
  { unfold exp_xi0. destruct (Rlt_dec _ _) as [L|_]; [rewrite Rabs_right in L by lra; lra|]. field. lra. }
  assert (E1 : 3 * u * u + w * w = c1) by exact (uw_c1 a0 c1 H1). 
  assert (E0 : 2 * u * (u * u - w * w) = a0) by exact (uw_c0 a0 c1 H1 Ha H2).
  pose proof (qroots_ok u w) as Rt. rewrite E1, E0 in Rt. pose proof (qroots_distinct u w ltac:(lra) Hd) as Ds.
  unfold coefs. cbv zeta. fold a0 c0_max u w. destruct (Rlt_dec c0 0) as [N|N].
  - exists (fun k => - qroots u w k). assert (Ea : c0 = - a0) by (unfold a0; rewrite Rabs_left; lra). split; [|split].
    + destruct Ds as (D1 & D2 & D3). unfold distinct3. repeat split; lra.
    + destruct Rt as (R1 & R2 & R3). rewrite Ea, R3. unfold roots. repeat split; [lra|rewrite R2; ring|ring].
    + intros k Hk. rewrite neg3_ev, eiq_neg. f_equal. now apply coef_ev.
  - exists (qroots u w). assert (Ea : c0 = a0) by (unfold a0; rewrite Rabs_right; lra). split; [exact Ds|]. split; [rewrite Ea; exact Rt|].
    intros k Hk. now apply coef_ev.
Qed.
(** ** the routine *)
Lemma herm_real_trace2 x : hermitian x -> trace (mmul x x) = RtoC (fst (trace (mmul x x))).
Proof.
  intros H. assert (E : Cconj (trace (mmul x x)) = trace (mmul x x)) by (rewrite <- trace_dag, dag_mul; unfold hermitian in H; rewrite H; reflexivity).
  apply (f_equal snd) in E. cbn [Cconj snd] in E. apply injective_projections; cbn [fst snd RtoC]; [reflexivity|lra].
Qed.
Lemma herm_real_det x : hermitian x -> det x = RtoC (fst (det x)).
Proof.
  intros H. assert (E : Cconj (det x) = det x) by (rewrite <- det_dag; unfold hermitian in H; rewrite H; reflexivity).
  apply (f_equal snd) in E. cbn [Cconj snd] in E. apply injective_projections; cbn [fst snd RtoC]; [reflexivity|lra].
Qed.
Global Instance mpow_proper n : Morphisms.Proper (Morphisms.respectful meq meq) (fun x => mpow x n).
Proof. intros x y H. induction n as [|n IH]; cbn [mpow]; [reflexivity|]. rewrite IH, H. reflexivity. Qed.
Lemma mexp_sum_proper x y n : meq x y -> meq (mexp_sum x n) (mexp_sum y n).
Proof. intros H. induction n as [|n IH]; cbn [mexp_sum]; [reflexivity|]. rewrite IH, (mpow_proper (S n) x y H). reflexivity. Qed.
Lemma is_mexp_proper x y e e' : meq x y -> meq e e' -> is_mexp x e -> is_mexp y e'.
Proof.
  intros H H' M i j Hi Hj. destruct (M i j Hi Hj) as [A B]. rewrite <- (H' i j Hi Hj).
  split; (eapply Lim_seq.is_lim_seq_ext; [intros n; rewrite <- (mexp_sum_proper x y n H i j Hi Hj); reflexivity|assumption]).
Qed.
(** out is given the polynomial *)
Lemma ing_ok out iQ iQ2 f m : out <> iQ -> out <> iQ2 -> (forall k, ~ in_mat out f@[k]) ->
  let m' := safe_hermitian_exact_i_exponentiate_ing out iQ iQ2 f m in
  meq (mat m' out) (fun i j => m f@[0%nat] * mid i j + m f@[1%nat] * mat m iQ i j + m f@[2%nat] * mat m iQ2 i j)%C /\
  forall p, ~ in_mat out p -> m' p = m p.
Proof.
  intros H1 H2 Hf m'. subst m'. unfold safe_hermitian_exact_i_exponentiate_ing. rewrite !then_run.
  destruct (su3_put_to_diag_complex_ok out f@[0%nat] (Hf 0%nat) m) as [A1 F1]. set (m1 := su3_put_to_diag_complex _ _ m) in *.
  destruct (su3_summ_the_prod_complex_ok out iQ f@[1%nat] 0 0 (Hf 1%nat) m1) as [A2 F2]. set (m2 := su3_summ_the_prod_complex _ _ _ m1) in *.
  destruct (su3_summ_the_prod_complex_ok out iQ2 f@[2%nat] 0 0 (Hf 2%nat) m2) as [A3 F3]. set (m3 := su3_summ_the_prod_complex _ _ _ m2) in *.
  assert (G1 : forall p, ~ in_mat out p -> m1 p = m p) by (intros p Hp; apply F1; tauto).
  assert (G2 : forall p, ~ in_mat out p -> m2 p = m p) by (intros p Hp; rewrite F2 by tauto; now apply G1).
  assert (G3 : forall p, ~ in_mat out p -> m3 p = m p) by (intros p Hp; rewrite F3 by tauto; now apply G2).
  clear F1 F2 F3.
  assert (Apart : forall b i j, out <> b -> ~ in_mat out b@[i]@[j]) by (intros b i j Hb (k & l & _ & _ & E); apply Hb; injection E; congruence).
  split; [|exact G3]. intros i j Hi Hj. rewrite (A3 i j Hi Hj). unfold madd, mscale. rewrite (A2 i j Hi Hj). unfold madd, mscale. rewrite (A1 i j Hi Hj). unfold mscale.
  unfold mat. rewrite ?(G2 _ (Hf 2%nat)), ?(G2 _ (Apart iQ2 i j H2)), ?(G1 _ (Hf 1%nat)), ?(G1 _ (Apart iQ i j H1)). reflexivity.
Qed.
Lemma exponentiate_ok out Q iQ iQ2 f m :
  out <> iQ -> out <> iQ2 -> iQ <> iQ2 -> Q <> iQ -> Q <> iQ2 -> (forall k, ~ in_mat out f@[k] /\ ~ in_mat iQ f@[k] /\ ~ in_mat iQ2 f@[k]) ->
  hermitian (mat m Q) -> trace (mat m Q) = RtoC 0 -> exact_zone (mat m Q) ->
  let m' := safe_hermitian_exact_i_exponentiate out Q iQ iQ2 f m in
  is_mexp (mscale Ci (mat m Q)) (mat m' out) /\ special_unitary (mat m' out) /\
  forall p, ~ in_mat out p -> ~ in_mat iQ p -> ~ in_mat iQ2 p -> (forall k, p <> f@[k]) -> m' p = m p.
Proof.
  intros Ho Ho2 Hi HQ HQ2 Hf Hh Ht (Z1 & Z2 & Z3). intros m'. subst m'.
  unfold safe_hermitian_exact_i_exponentiate. rewrite then_run. unfold prepareIngredients. cbv zeta.
  destruct (su3_copy_ok iQ Q iQ 0 0 m) as [A1 F1]. set (m1 := su3_copy iQ Q m) in *. cbv beta in A1.
  rewrite su3_real_det_ok.
  destruct (unsafe_su3_prod_su3_ok iQ2 iQ iQ (not_eq_sym Hi) (not_eq_sym Hi) m1) as [A2 F2]. set (m2 := unsafe_su3_prod_su3 _ _ _ _ m1) in *. cbv beta in A2.
  rewrite su3_real_trace_ok.
  assert (Apart : forall a b i j, a <> b -> ~ in_mat a b@[i]@[j]) by (intros a b i j Hb (k & l & _ & _ & E); apply Hb; injection E; congruence).
  set (x := mat m Q) in *.
  assert (Ed : det (mat m1 iQ) = det x) by (rewrite A1; reflexivity).
  assert (X2 : meq (mat m2 iQ2) (mmul x x)) by (rewrite A2, A1; reflexivity).
  assert (X1 : meq (mat m2 iQ) x). { intros i j Hi' Hj. rewrite <- (A1 i j Hi' Hj). unfold mat. apply F2; [now apply Apart, not_eq_sym|tauto]. }
  rewrite Ed, (trace_proper _ _ X2). fold (exp_c0 x) (exp_c1 x).
  destruct (Rlt_dec (exp_c1 x) 4e-3) as [L|_]; [lra|].
  rewrite big_f_st.
  set (m3 := upd _ f@[2%nat] _).
  destruct (ing_ok out iQ iQ2 f m3 Ho Ho2 (fun k => proj1 (Hf k))) as [A4 F4].
  set (m4 := safe_hermitian_exact_i_exponentiate_ing _ _ _ _ m3) in *. cbv zeta in A4, F4.
  assert (F3 : forall p, (forall k, p <> f@[k]) -> m3 p = m2 p) by (intros p Hp; unfold m3; rewrite !upd_other by apply Hp; reflexivity).
  assert (Pf : forall b k i j, ~ in_mat b f@[k] -> (i < 3)%nat -> (j < 3)%nat -> b@[i]@[j] <> f@[k]) by (intros b k i j H Hi' Hj E; apply H; exists i, j; auto).
  set (F := coefs (exp_c0 x) (exp_c1 x)) in *.
  assert (V : meq (mat m4 out) (poly2 x F)).
  { intros i j Hi' Hj. rewrite (A4 i j Hi' Hj), poly2_cof. unfold mat.
    rewrite !(F3 _ (fun k => Pf iQ k i j (proj1 (proj2 (Hf k))) Hi' Hj)), !(F3 _ (fun k => Pf iQ2 k i j (proj2 (proj2 (Hf k))) Hi' Hj)).
    fold (mat m2 iQ i j). fold (mat m2 iQ2 i j). rewrite (X1 i j Hi' Hj), (X2 i j Hi' Hj).
    unfold m3. rewrite upd_same, !(upd_other _ f@[2%nat]) by (intros E; injection E; congruence).
    rewrite upd_same, !(upd_other _ f@[1%nat]) by (intros E; injection E; congruence). rewrite upd_same. reflexivity. }
  destruct (coefs_ok (exp_c0 x) (exp_c1 x) ltac:(lra) Z2 Z3) as (q & Dq & Rq & Vq). fold F in Vq.
  assert (T2 : (trace (mmul x x) * RtoC (/ 2))%C = RtoC (exp_c1 x)) by (rewrite (herm_real_trace2 x Hh), <- RtoC_mult; reflexivity).
  assert (D0 : det x = RtoC (exp_c0 x)) by exact (herm_real_det x Hh).
  split; [|split].
  - apply (is_mexp_proper (mscale Ci x) _ (poly2 x F) _ ltac:(reflexivity) (RelationClasses.symmetry V)). exact (exp_is x _ _ q F Dq Rq Vq Ht T2 D0).
  - rewrite V. split; [exact (exp_unitary x _ _ q F Dq Rq Vq Hh Ht T2 D0)|exact (exp_det x _ _ q F Rq Vq Ht T2 D0)].
  - intros p P1 P2 P3 P4. rewrite F4, F3, F2, F1 by tauto. reflexivity.
Qed.
(** anti-hermitian argument: Q = -i A *)
Lemma exact_zone_proper x y : meq x y -> exact_zone x -> exact_zone y.
Proof.
  intros H. unfold exact_zone, exp_c0_max, exp_c1, exp_c0. rewrite (trace_proper _ _ (mmul_proper _ _ H _ _ H)), (det_proper _ _ H). exact (fun h => h).
Qed.
Lemma anti_exponentiate_ok out inp Q iQ iQ2 f m :
  out <> iQ -> out <> iQ2 -> iQ <> iQ2 -> Q <> iQ -> Q <> iQ2 -> (forall k, ~ in_mat out f@[k] /\ ~ in_mat iQ f@[k] /\ ~ in_mat iQ2 f@[k]) ->
  anti_hermitian (mat m inp) -> trace (mat m inp) = RtoC 0 -> exact_zone (mscale (- Ci)%C (mat m inp)) ->
  let m' := safe_anti_hermitian_exact_exponentiate out inp Q iQ iQ2 f m in
  is_mexp (mat m inp) (mat m' out) /\ special_unitary (mat m' out) /\
  forall p, ~ in_mat out p -> ~ in_mat Q p -> ~ in_mat iQ p -> ~ in_mat iQ2 p -> (forall k, p <> f@[k]) -> m' p = m p.
Proof.
  intros Ho Ho2 Hi HQ HQ2 Hf Ha Ht Hz m'. subst m'. unfold safe_anti_hermitian_exact_exponentiate. rewrite then_run.
  destruct (su3_prod_idouble_ok Q inp Q (-1) 0 m) as [A1 F1]. set (m1 := su3_prod_idouble Q inp (-1) m) in *. cbv beta in A1.
  assert (E1 : meq (mat m1 Q) (mscale (- Ci)%C (mat m inp))).
  { rewrite A1. intros i j _ _. unfold mscale. generalize (mat m inp i j). intros z. ceq. }
  assert (Hh : hermitian (mat m1 Q)).
  { unfold hermitian. rewrite E1. intros i j Hi' Hj. specialize (Ha i j Hi' Hj). unfold dag, mscale in *. rewrite Cconj_mult, Ha. generalize (mat m inp i j). intros z. ceq. }
  assert (Htr : trace (mat m1 Q) = RtoC 0).
  { rewrite (trace_proper _ _ E1). transitivity ((- Ci)%C * trace (mat m inp))%C; [unfold trace, mscale; cbn [csum]; ring|]. rewrite Ht. ring. }
  destruct (exponentiate_ok out Q iQ iQ2 f m1 Ho Ho2 Hi HQ HQ2 Hf Hh Htr (exact_zone_proper _ _ (RelationClasses.symmetry E1) Hz)) as (B1 & B2 & B3). split; [|split; [exact B2|]].
  - refine (is_mexp_proper _ _ _ _ _ _ B1); [|reflexivity]. rewrite E1, mscale_scale. intros i j _ _. unfold mscale. generalize (mat m inp i j). intros z. ceq.
  - intros p P1 P2 P3 P4 P5. rewrite B3, F1 by tauto. reflexivity.
Qed.
(** the zero matrix *)
Lemma exponentiate_0 out Q iQ iQ2 f m :
  out <> iQ -> out <> iQ2 -> iQ <> iQ2 -> Q <> iQ -> Q <> iQ2 -> (forall k, ~ in_mat out f@[k] /\ ~ in_mat iQ f@[k] /\ ~ in_mat iQ2 f@[k]) ->
  meq (mat m Q) (fun _ _ => RtoC 0) -> meq (mat (safe_hermitian_exact_i_exponentiate out Q iQ iQ2 f m) out) mid.
Proof.
  intros Ho Ho2 Hi HQ HQ2 Hf H0.
  unfold safe_hermitian_exact_i_exponentiate. rewrite then_run. unfold prepareIngredients. cbv zeta.
  destruct (su3_copy_ok iQ Q iQ 0 0 m) as [A1 F1]. set (m1 := su3_copy iQ Q m) in *. cbv beta in A1.
  rewrite su3_real_det_ok.
  destruct (unsafe_su3_prod_su3_ok iQ2 iQ iQ (not_eq_sym Hi) (not_eq_sym Hi) m1) as [A2 F2]. set (m2 := unsafe_su3_prod_su3 _ _ _ _ m1) in *. cbv beta in A2.
  rewrite su3_real_trace_ok.
  assert (Apart : forall a b i j, a <> b -> ~ in_mat a b@[i]@[j]) by (intros a b i j Hb (k & l & _ & _ & E); apply Hb; injection E; congruence).
  rewrite H0 in A1.
  assert (Ed : det (mat m1 iQ) = RtoC 0) by (rewrite (det_proper _ _ A1); unfold det; ring).
  assert (X2 : meq (mat m2 iQ2) (fun _ _ => RtoC 0)) by (rewrite A2, A1; intros i j _ _; unfold mmul; cbn [csum]; ring).
  assert (Et : trace (mat m2 iQ2) = RtoC 0) by (rewrite (trace_proper _ _ X2); unfold trace; cbn [csum]; ring).
  assert (X1 : meq (mat m2 iQ) (fun _ _ => RtoC 0)). { intros i j Hi' Hj. rewrite <- (A1 i j Hi' Hj). unfold mat. apply F2; [now apply Apart, not_eq_sym|tauto]. }
  rewrite Ed, Et. cbn [fst RtoC]. destruct (Rlt_dec (0 / 2) 4e-3) as [_|L]; [|lra]. unfold small_f. rewrite !then_run, !set_cplx_st.
  set (m3 := upd _ f@[2%nat] _).
  destruct (ing_ok out iQ iQ2 f m3 Ho Ho2 (fun k => proj1 (Hf k))) as [A4 F4].
  set (m4 := safe_hermitian_exact_i_exponentiate_ing _ _ _ _ m3) in *. cbv zeta in A4, F4.
  assert (F3 : forall p, (forall k, p <> f@[k]) -> m3 p = m2 p) by (intros p Hp; unfold m3; rewrite !upd_other by apply Hp; reflexivity).
  assert (Pf : forall b k i j, ~ in_mat b f@[k] -> (i < 3)%nat -> (j < 3)%nat -> b@[i]@[j] <> f@[k]) by (intros b k i j H Hi' Hj E; apply H; exists i, j; auto).
  intros i j Hi' Hj. rewrite (A4 i j Hi' Hj). unfold mat.
  rewrite !(F3 _ (fun k => Pf iQ k i j (proj1 (proj2 (Hf k))) Hi' Hj)), !(F3 _ (fun k => Pf iQ2 k i j (proj2 (proj2 (Hf k))) Hi' Hj)).
  fold (mat m2 iQ i j). fold (mat m2 iQ2 i j). rewrite (X1 i j Hi' Hj), (X2 i j Hi' Hj).
  unfold m3. rewrite !(upd_other _ f@[2%nat] _ f@[0%nat]) by (intros E; injection E; congruence).
  rewrite !(upd_other _ f@[1%nat] _ f@[0%nat]) by (intros E; injection E; congruence). rewrite upd_same.
  unfold mid. destruct (Nat.eqb i j); ceq.
Qed.
(** the series used for sin(w)/w at small w *)
Lemma xi0_error w : Rabs (w * exp_xi0 w - sin w) <= Rabs w ^ 9 / 362880.
Proof.
  destruct (Rlt_dec (Rabs w) 0.05) as [L|L].
  - assert (P : forall a, 0 <= a -> a < 0.05 -> Rabs (a * (1 - a * a / 6 * (1 - a * a / 20 * (1 - a * a / 42))) - sin a) <= a ^ 9 / 362880).
    { intros a Ha La. pose proof (PI2_3_2) as Pi. assert (PI_4 : a <= PI) by lra.
      pose proof (sin_bound a 1 Ha PI_4) as [B1 B2]. unfold sin_approx, sin_term in B1, B2.
      cbn [sum_f_R0 Nat.mul Nat.add] in B1, B2.
      assert (fS : forall n, INR (fact (S n)) = INR (S n) * INR (fact n)) by (intros n; rewrite fact_simpl, mult_INR; reflexivity).
      rewrite !fS in B1, B2. cbn [INR pow] in B2. rewrite ?fS in B2. change (fact 0) with 1%nat in *. cbn [INR pow] in B1, B2. cbn [pow].
      assert (I : forall z t, z = t -> z <> 0 -> / z = / t) by (intros; subst; reflexivity).
      match type of B1 with ?l <= _ => replace l with (a - a * a * a / 6 + a * a * a * a * a / 120 - a * a * a * a * a * a * a / 5040) in B1 by field end.
      match type of B2 with _ <= ?l => replace l with (a - a * a * a / 6 + a * a * a * a * a / 120 - a * a * a * a * a * a * a / 5040 + a * a * a * a * a * a * a * a * a / 362880) in B2 by field end.
      replace (a * (1 - a * a / 6 * (1 - a * a / 20 * (1 - a * a / 42)))) with (a - a * a * a / 6 + a * a * a * a * a / 120 - a * a * a * a * a * a * a / 5040) by field.
      apply Rabs_le. split; lra. }
    unfold exp_xi0. destruct (Rlt_dec _ _) as [_|?]; [|contradiction]. cbv zeta.
    destruct (Rle_lt_dec 0 w) as [S|S].
    + rewrite (Rabs_right w) in * by lra. now apply P.
    + rewrite (Rabs_left w) in * by lra. specialize (P (- w) ltac:(lra) L). rewrite sin_neg in P. rewrite <- Rabs_Ropp.
      replace (- (w * _ - sin w)) with (- w * (1 - - w * - w / 6 * (1 - - w * - w / 20 * (1 - - w * - w / 42))) - - sin w) by field. exact P.
  - unfold exp_xi0. destruct (Rlt_dec _ _) as [?|_]; [contradiction|]. assert (w <> 0) by (intros ->; rewrite Rabs_R0 in L; lra).
    replace (w * (sin w / w) - sin w) with 0 by (field; assumption). rewrite Rabs_R0. apply Rmult_le_pos; [apply pow_le, Rabs_pos|lra].
Qed.
