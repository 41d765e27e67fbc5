(** Statements on the routines, from the lemmas of the previous files. *)
From Coq Require Import Reals Lra Lia List Morphisms.
From Coquelicot Require Import Complex.
From Verif Require Import CplxModel CplxSpec CplxProofs CplxStores MatModel MatSpec MatProofs MatRun MatProofs2 MatProofs3 MatProofs4 MatInverse MatAlg MatUnit MatUnit2 MatAlgoModel MatCool3.
Open Scope C_scope.
Set Bullet Behavior "Strict Subproofs".

Lemma vnorm2_0 v : ~ (exists k, (k < 3)%nat /\ v k <> RtoC 0) \/ (0 < vnorm2 v)%R.
Proof.
  assert (dec : (exists k, (k < 3)%nat /\ v k <> RtoC 0) \/ ~ (exists k, (k < 3)%nat /\ v k <> RtoC 0)).
  { destruct (Ceq_dec (v 0%nat) (RtoC 0)); [|left; exists 0%nat; split; [lia|assumption]].
    destruct (Ceq_dec (v 1%nat) (RtoC 0)); [|left; exists 1%nat; split; [lia|assumption]].
    destruct (Ceq_dec (v 2%nat) (RtoC 0)); [|left; exists 2%nat; split; [lia|assumption]].
    right. intros (k & Hk & N). idx k; contradiction. }
  destruct dec; [right; now apply vnorm2_pos|now left].
Qed.
Lemma orthonormalise o i sp f m : sp <> f -> ~ in_mat o sp -> ~ in_mat o f -> ~ in_mat i sp -> ~ in_mat i f ->
  (exists k, (k < 3)%nat /\ mat m i 0%nat k <> RtoC 0) -> (forall c, exists k, (k < 3)%nat /\ mat m i 1%nat k <> c * mat m i 0%nat k) ->
  let m' := su3_unitarize_orthonormalizing o i sp f m in
  special_unitary (mat m' o) /\
  (exists a : R, (0 < a)%R /\ forall k, (k < 3)%nat -> mat m' o 0%nat k = RtoC a * mat m i 0%nat k) /\
  (exists (b : R) (c : C), (0 < b)%R /\ forall k, (k < 3)%nat -> mat m' o 1%nat k = RtoC b * (mat m i 1%nat k - c * mat m i 0%nat k)) /\
  forall p, ~ in_mat o p -> p <> sp -> p <> f -> m' p = m p.
Proof.
  intros H1 H2 H3 H4 H5 R0 R1 m'. subst m'. destruct (su3_unitarize_orthonormalizing_ok o i sp f H1 H2 H3 H4 H5 m) as [A F].
  set (m' := su3_unitarize_orthonormalizing o i sp f m) in *. set (x := mat m i) in *.
  assert (P0 : (0 < vnorm2 (x 0%nat))%R) by (apply vnorm2_pos; exact R0).
  assert (P1 : (0 < vnorm2 (gs_1 x))%R).
  { apply vnorm2_pos. destruct (R1 (gs_f x)) as (k & Hk & N). exists k. split; [exact Hk|]. intros E. apply N.
    transitivity (gs_1 x k + gs_f x * x 0%nat k); [unfold gs_1; ring|]. rewrite E. ring. }
  assert (Q : forall n, (0 < n)%R -> (0 < 1 / sqrt n)%R) by (intros n Hn; apply Rmult_lt_0_compat; [lra|apply Rinv_0_lt_compat, sqrt_lt_R0, Hn]).
  split; [rewrite A; now apply gs_su|]. split; [|split].
  - exists (1 / sqrt (vnorm2 (x 0%nat)))%R. split; [now apply Q|]. intros k Hk. rewrite (A 0%nat k) by lia. reflexivity.
  - exists (1 / sqrt (vnorm2 (gs_1 x)))%R, (gs_f x). split; [now apply Q|]. intros k Hk. rewrite (A 1%nat k) by lia. reflexivity.
  - intros p P Ps Pf. apply F; [exact P|]. tauto.
Qed.
Lemma orthonormalise_fixed o i sp f m : sp <> f -> ~ in_mat o sp -> ~ in_mat o f -> ~ in_mat i sp -> ~ in_mat i f ->
  special_unitary (mat m i) -> meq (mat (su3_unitarize_orthonormalizing o i sp f m) o) (mat m i).
Proof.
  intros H1 H2 H3 H4 H5 S. destruct (su3_unitarize_orthonormalizing_ok o i sp f H1 H2 H3 H4 H5 m) as [A _]. rewrite A. now apply gs_fixed.
Qed.
Lemma inverse_ends inv u dt rc a m : inv <> u -> a <> dt -> a <> rc -> dt <> rc ->
  ~ in_mat u a -> ~ in_mat u dt -> ~ in_mat u rc -> ~ in_mat inv a -> ~ in_mat inv dt -> ~ in_mat inv rc ->
  det (mat m u) <> RtoC 0 ->
  let m' := unsafe_su3_explicit_inverse inv u dt rc a m in
  meq (mmul (mat m' inv) (mat m u)) mid /\ meq (mmul (mat m u) (mat m' inv)) mid /\
  (forall p, ~ in_mat inv p -> p <> a -> p <> dt -> p <> rc -> m' p = m p).
Proof.
  intros H1 H2 H3 H4 A1 A2 A3 B1 B2 B3 D m'. destruct (unsafe_su3_explicit_inverse_ok inv u dt rc a m H1 H2 H3 H4 A1 A2 A3 B1 B2 B3 D) as [E F].
  cbv zeta in E, F. fold m' in E, F. clearbody m'. split; [|split; [|exact F]]; rewrite E.
  - rewrite mmul_scale_l, cofactors_l, mscale_scale, Cinv_l by exact D. apply mscale_1.
  - rewrite mmul_scale_r, cofactors_r, mscale_scale, Cinv_l by exact D. apply mscale_1.
Qed.
(** what the parts are *)
Lemma herm_part_herm x : hermitian (herm_part x).
Proof. intros i j _ _. unfold herm_part, dag, mscale, madd. rewrite Cconj_mult, Cconj_plus, Cconj_conj, Cconj_R. ring. Qed.
Lemma anti_part_anti x : anti_hermitian (anti_herm_part x).
Proof. intros i j _ _. unfold anti_herm_part, dag, mscale, msub. rewrite Cconj_mult, Cconj_minus, Cconj_conj, Cconj_R. ceq. Qed.
Lemma traceless_trace x : trace (traceless_part x) = RtoC 0.
Proof.
  unfold traceless_part, trace, msub, mscale, mid. cbn [csum Nat.eqb].
  set (t := 0%R + x 0%nat 0%nat + x 1%nat 1%nat + x 2%nat 2%nat). transitivity (t - t * RtoC (/ 3) * RtoC 3).
  - unfold t. replace (RtoC 3) with (RtoC 1 + RtoC 1 + RtoC 1) by (rewrite <- !RtoC_plus; f_equal; ring). ring.
  - rewrite <- Cmult_assoc, <- RtoC_mult. replace (/ 3 * 3)%R with 1%R by field. ring.
Qed.
Lemma conj_trace_R x : hermitian x -> Cconj (trace x) = trace x.
Proof. intros H. rewrite <- trace_dag. unfold hermitian in H. now rewrite (trace_proper _ _ H). Qed.
Lemma conj_trace_A x : anti_hermitian x -> Cconj (trace x) = - trace x.
Proof.
  intros H. rewrite <- trace_dag. unfold anti_hermitian in H. rewrite (trace_proper _ _ H). unfold trace, mscale. cbn [csum].
  replace (RtoC (-1)) with (- RtoC 1) by (rewrite <- RtoC_opp; reflexivity). ring.
Qed.
Lemma traceless_herm x : hermitian x -> hermitian (traceless_part x).
Proof.
  intros H i j Hi Hj. unfold traceless_part, dag, msub, mscale. rewrite Cconj_minus, !Cconj_mult, Cconj_R, (conj_trace_R x H). f_equal; [exact (H i j Hi Hj)|].
  f_equal. f_equal. unfold mid. rewrite Nat.eqb_sym. destruct (Nat.eqb i j); apply Cconj_R.
Qed.
Lemma traceless_anti x : anti_hermitian x -> anti_hermitian (traceless_part x).
Proof.
  intros H i j Hi Hj. unfold traceless_part, dag, msub, mscale. rewrite Cconj_minus, !Cconj_mult, Cconj_R, (conj_trace_A x H).
  pose proof (H i j Hi Hj) as E. unfold dag, mscale in E. rewrite E.
  replace (Cconj (mid j i)) with (mid i j) by (unfold mid; rewrite Nat.eqb_sym; destruct (Nat.eqb j i); rewrite Cconj_R; reflexivity).
  replace (RtoC (-1)) with (- RtoC 1) by (rewrite <- RtoC_opp; reflexivity). ring.
Qed.
(** the projections do nothing on what is already of the right kind *)
Lemma traceless_anti_fixed x : anti_hermitian x -> trace x = RtoC 0 -> meq (traceless_part (anti_herm_part x)) x.
Proof.
  intros H T.
  assert (E : meq (anti_herm_part x) x).
  { intros i j Hi Hj. pose proof (H i j Hi Hj) as E. unfold anti_herm_part, mscale, msub. rewrite E. unfold mscale. generalize (x i j). intros z. ceq. }
  intros i j Hi Hj. unfold traceless_part, msub, mscale. rewrite (trace_proper _ _ E), T, (E i j Hi Hj). ring.
Qed.
(** rows given to unsafe_su3_dag_prod_su3: the internal sum stops with the rows *)
Definition e0 : path := 0%nat :: nil. Definition e1 : path := 1%nat :: nil. Definition e2 : path := 2%nat :: nil.
Lemma dag_prod_rows_wrong : exists m, mat (unsafe_su3_dag_prod_su3 e0 e1 e1 2 m) e0 0%nat 0%nat <> mmul (dag (mat m e1)) (mat m e1) 0%nat 0%nat.
Proof.
  exists (fun p => match p with (0 :: 2 :: 1 :: nil)%nat => RtoC 1 | _ => RtoC 0 end).
  intros H. apply (f_equal fst) in H. cbn in H. lra.
Qed.
Lemma third_row_recovers o m x : special_unitary x -> (forall i j, (i < 2)%nat -> (j < 3)%nat -> mat m o i j = x i j) -> meq (mat (su3_build_third_row o m) o) x.
Proof.
  intros S H. destruct (su3_build_third_row_ok o m) as [A _]. rewrite A, <- (su_third_row x S). intros i j Hi Hj.
  idx i; idx j; unfold third_row; rewrite !H by lia; reflexivity.
Qed.
