(* Property C54: symmetrisation of gathered vectors on T x L^3 lattices, T and L even (exact arithmetic). *)
From Coq Require Import Reals Lra.
From Verif Require Import Base GeometryModel GeometryProofs GatherModel GatherSpec GatherProofs.
Open Scope Z_scope.

Lemma lx_at4 T L v t x y z id : v (lxOfCoord [t; x; y; z] (lat T L)) id = at4 L v t x y z id.
Proof. unfold at4, lxOfCoord, lat. cbn. f_equal. Qed.
Lemma mir_refl n x : 0 <= x < n -> mir n x = refl n x.
Proof.
  intros H. unfold refl. rewrite mir_eq by auto. destruct (Z.eqb_spec x 0) as [->|N].
  - symmetry. apply Z.mod_small. lia.
  - apply (Z.mod_unique_pos _ _ (-1)); lia.
Qed.

(* Where the last coordinate is at most L/2: the average over the reflections of the first three coordinates; elsewhere the
   vector is left as it was. *)
Theorem C54_mirrorize :
  forall T L v dps, 0 < T -> 0 < L -> Z.rem T 2 = 0 -> Z.rem L 2 = 0 ->
  exists v', gathered_vector_mirrorize [T; L; L; L] v dps = Some v' /\
  forall t x y z id, 0 <= t < T -> 0 <= x < L -> 0 <= y < L -> 0 <= z < L -> 0 <= id < dps ->
  at4 L v' t x y z id =
    if z <=? L / 2 then average_reflections T L (fun t x y => at4 L v t x y z id) t x y else at4 L v t x y z id.
Proof.
  intros T L v dps HT HL ET EL.
  destruct (Z_lt_le_dec 0 dps) as [P|P].
  - destruct (mirrorize_ok T L v dps 0 0 0 0 0 HT HL ET EL) as (v' & E & _); try lia. exists v'. split; auto.
    intros t x y z id Ht Hx Hy Hz Hid.
    destruct (mirrorize_ok T L v dps t x y z id HT HL ET EL) as (w & E2 & H); auto.
    change [T; L; L; L] with (lat T L) in E. rewrite E in E2. injection E2 as <-. rewrite lx_at4 in H. rewrite H.
    destruct (z <=? L / 2); [|apply lx_at4]. unfold mirror_average, average_reflections. rewrite !lx_at4, !mir_refl by auto. reflexivity.
  - unfold gathered_vector_mirrorize. cbn [nth]. rewrite ET, EL. cbn [Z.eqb negb orb]. eexists. split; [reflexivity|]. intros; lia.
Qed.
Print Assumptions C54_mirrorize.

(* So the result is invariant under reflecting any of the first three coordinates. *)
Theorem C54_mirror_invariant :
  forall T L v dps v', 0 < T -> 0 < L -> Z.rem T 2 = 0 -> Z.rem L 2 = 0 ->
  gathered_vector_mirrorize [T; L; L; L] v dps = Some v' ->
  forall t x y z id, 0 <= t < T -> 0 <= x < L -> 0 <= y < L -> 0 <= z <= L / 2 -> 0 <= id < dps ->
  at4 L v' (refl T t) x y z id = at4 L v' t x y z id /\
  at4 L v' t (refl L x) y z id = at4 L v' t x y z id /\
  at4 L v' t x (refl L y) z id = at4 L v' t x y z id.
Proof.
  intros T L v dps v' HT HL ET EL E t x y z id Ht Hx Hy Hz Hid.
  destruct (C54_mirrorize T L v dps HT HL ET EL) as (w & E2 & H). rewrite E in E2. injection E2 as <-.
  pose proof (half_lt L EL HL).
  assert (R : forall n a, 0 <= a < n -> 0 <= refl n a < n /\ refl n (refl n a) = a).
  { intros n a Ha. pose proof (mir_range n a Ha). rewrite <- (mir_refl n a) by auto. rewrite <- mir_refl by auto. split; auto. now apply mir_mir. }
  destruct (R T t Ht) as [R1 R2], (R L x Hx) as [R3 R4], (R L y Hy) as [R5 R6].
  rewrite !H by (auto; lia). replace (z <=? L / 2) with true by lia.
  unfold average_reflections. rewrite ?R2, ?R4, ?R6. split; [|split]; f_equal; lra.
Qed.
Print Assumptions C54_mirror_invariant.

(* It is not invariant under reflecting the last coordinate. *)
Theorem C54_mirror_last_refuted :
  exists v v', gathered_vector_mirrorize [4; 4; 4; 4] v 1 = Some v' /\ at4 4 v' 0 0 0 (refl 4 1) 0 <> at4 4 v' 0 0 0 1 0.
Proof.
  exists (fun s _ => if s =? 3 then 1%R else 0%R).
  destruct (C54_mirrorize 4 4 (fun s _ => if s =? 3 then 1%R else 0%R) 1) as (v' & E & H); try reflexivity.
  exists v'. split; auto. change (refl 4 1) with 3. rewrite !H by lia. change (3 <=? 4 / 2) with false. change (1 <=? 4 / 2) with true.
  cbv iota. unfold average_reflections, at4. change (refl 4 0) with 0. cbn. lra.
Qed.
Print Assumptions C54_mirror_last_refuted.

(* Odd extents in the first two directions are refused. *)
Theorem C54_odd : forall sz v dps, Z.rem sz.[0] 2 <> 0 \/ Z.rem sz.[1] 2 <> 0 ->
  gathered_vector_mirrorize sz v dps = None /\ gathered_vector_cubic_symmetrize sz v dps = None.
Proof.
  intros sz v dps H. unfold gathered_vector_mirrorize, gathered_vector_cubic_symmetrize.
  destruct (Z.eqb_spec (Z.rem sz.[0] 2) 0), (Z.eqb_spec (Z.rem sz.[1] 2) 0); cbn; auto. tauto.
Qed.
Print Assumptions C54_odd.

(* Where the time is at most T/2 and the other coordinates at most L/2: the average over the permutations of the last three
   coordinates; elsewhere the vector is left as it was. *)
Theorem C54_cubic :
  forall T L v dps, 0 < T -> 0 < L -> Z.rem T 2 = 0 -> Z.rem L 2 = 0 ->
  exists v', gathered_vector_cubic_symmetrize [T; L; L; L] v dps = Some v' /\
  forall t x y z id, 0 <= t < T -> 0 <= x < L -> 0 <= y < L -> 0 <= z < L -> 0 <= id < dps ->
  at4 L v' t x y z id =
    if (t <=? T / 2) && (x <=? L / 2) && (y <=? L / 2) && (z <=? L / 2)
    then average_permutations (fun x y z => at4 L v t x y z id) x y z else at4 L v t x y z id.
Proof.
  intros T L v dps HT HL ET EL.
  destruct (Z_lt_le_dec 0 dps) as [P|P].
  - destruct (cubic_ok T L v dps 0 0 0 0 0 HT HL ET EL) as (v' & E & _); try lia. exists v'. split; auto.
    intros t x y z id Ht Hx Hy Hz Hid.
    destruct (cubic_ok T L v dps t x y z id HT HL ET EL) as (w & E2 & H); auto.
    change [T; L; L; L] with (lat T L) in E. rewrite E in E2. injection E2 as <-. rewrite lx_at4 in H. rewrite H.
    destruct (_ && _); [|apply lx_at4]. unfold perm_average, average_permutations. rewrite !lx_at4. f_equal. lra.
  - unfold gathered_vector_cubic_symmetrize. cbn [nth]. rewrite ET, EL. cbn [Z.eqb negb orb]. eexists. split; [reflexivity|]. intros; lia.
Qed.
Print Assumptions C54_cubic.

Theorem C54_cubic_invariant :
  forall T L v dps v', 0 < T -> 0 < L -> Z.rem T 2 = 0 -> Z.rem L 2 = 0 ->
  gathered_vector_cubic_symmetrize [T; L; L; L] v dps = Some v' ->
  forall t x y z id, 0 <= t <= T / 2 -> 0 <= x <= L / 2 -> 0 <= y <= L / 2 -> 0 <= z <= L / 2 -> 0 <= id < dps ->
  at4 L v' t y x z id = at4 L v' t x y z id /\ at4 L v' t x z y id = at4 L v' t x y z id /\
  at4 L v' t z y x id = at4 L v' t x y z id.
Proof.
  intros T L v dps v' HT HL ET EL E t x y z id Ht Hx Hy Hz Hid.
  destruct (C54_cubic T L v dps HT HL ET EL) as (w & E2 & H). rewrite E in E2. injection E2 as <-.
  pose proof (half_lt L EL HL). pose proof (half_lt T ET HT).
  rewrite !H by (auto; lia).
  replace ((t <=? T / 2) && (x <=? L / 2) && (y <=? L / 2) && (z <=? L / 2)) with true by lia.
  replace ((t <=? T / 2) && (y <=? L / 2) && (x <=? L / 2) && (z <=? L / 2)) with true by lia.
  replace ((t <=? T / 2) && (x <=? L / 2) && (z <=? L / 2) && (y <=? L / 2)) with true by lia.
  replace ((t <=? T / 2) && (z <=? L / 2) && (y <=? L / 2) && (x <=? L / 2)) with true by lia.
  unfold average_permutations. split; [|split]; f_equal; lra.
Qed.
Print Assumptions C54_cubic_invariant.

(* Beyond the half lattice nothing is symmetrised. *)
Theorem C54_cubic_refuted :
  exists v v', gathered_vector_cubic_symmetrize [4; 4; 4; 4] v 1 = Some v' /\ at4 4 v' 0 0 3 0 0 <> at4 4 v' 0 0 0 3 0.
Proof.
  exists (fun s _ => if s =? 3 then 1%R else 0%R).
  destruct (C54_cubic 4 4 (fun s _ => if s =? 3 then 1%R else 0%R) 1) as (v' & E & H); try reflexivity.
  exists v'. split; auto. rewrite !H by lia. cbn. lra.
Qed.
Print Assumptions C54_cubic_refuted.
