(* Property C52: the history dependent (metadynamics) potential, in exact arithmetic. *)
From Coq Require Import Reals ZArith List Lra Lia.
From Verif Require Import MetaModel MetaSpec MetaProofs.
Import ListNotations.
Open Scope R_scope.

(* With an even number 2h of intervals covering exactly [-barr,barr], after init and any history of updates the potential in
   every grid point is the sum of the triangular hills dropped at the charges of the history, for the sweeps that count. *)
Theorem C52_hills :
  forall (m0 : meta) (hist : list (Z * R)) (h i : Z),
  0 < width m0 -> (each m0 <> 0)%Z -> (0 <= h)%Z -> 2 * barr m0 = IZR (2 * h) * width m0 ->
  (0 <= i <= 2 * h)%Z ->
  compute_pot (run (init m0) hist) (- barr m0 + IZR i * width m0) =
  hills (after m0) (each m0) (coeff m0) (width m0) hist (- barr m0 + IZR i * width m0).
Proof.
  intros m0 hist h i W E H B Hi. pose proof (init_ngrid m0 (2 * h) W B ltac:(lia)) as N.
  destruct (run_params (init m0) hist) as (P1 & P2 & P3 & P4 & P5 & P6 & P7).
  cbn [init width barr after each coeff] in *.
  pose proof (pot_at_points (run (init m0) hist) i) as Q. unfold pos in Q. rewrite P4, P5, P7, N in Q.
  rewrite Q by (auto; lia). rewrite (run_grid hist (init m0) h i); auto; try (rewrite N; auto).
  cbn [init grid width barr after each coeff]. lra.
Qed.
Print Assumptions C52_hills.

(* Between two grid points it is the linear interpolation. *)
Theorem C52_interpolation :
  forall (m0 : meta) (hist : list (Z * R)) (n i : Z) (t : R),
  0 < width m0 -> 2 * barr m0 = IZR n * width m0 -> (0 <= i < n)%Z -> 0 <= t <= 1 ->
  let V := compute_pot (run (init m0) hist) in
  let x := fun k => - barr m0 + IZR k * width m0 in
  V (x i + t * width m0) = (1 - t) * V (x i) + t * V (x (i + 1)%Z).
Proof.
  intros m0 hist n i t W B Hi Ht V x. unfold V, x. pose proof (init_ngrid m0 n W B ltac:(lia)) as N.
  destruct (run_params (init m0) hist) as (P1 & P2 & P3 & P4 & P5 & P6 & P7).
  cbn [init width barr after each coeff] in *.
  pose proof (pot_interpolates (run (init m0) hist) i t) as Q.
  pose proof (pot_at_points (run (init m0) hist) i) as Q1.
  pose proof (pot_at_points (run (init m0) hist) (i + 1)) as Q2.
  unfold pos in Q, Q1, Q2. rewrite P4, P5, P7, N in Q, Q1, Q2. rewrite Q, Q1, Q2; auto; lia.
Qed.
Print Assumptions C52_interpolation.

(* The potential is continuous everywhere, through the barriers too, if the grid covers [-barr,barr] exactly. *)
Theorem C52_continuous :
  forall (m0 : meta) (hist : list (Z * R)) (n : Z),
  0 < width m0 -> (0 <= n)%Z -> 2 * barr m0 = IZR n * width m0 ->
  continuity (compute_pot (run (init m0) hist)).
Proof.
  intros m0 hist n W N0 B. pose proof (init_ngrid m0 n W B N0) as N.
  destruct (run_params (init m0) hist) as (P1 & P2 & P3 & P4 & P5 & P6 & P7).
  apply pot_continuous; rewrite ?P4, ?P5, ?P7, ?N; auto.
Qed.
Print Assumptions C52_continuous.

(* The force is the derivative of the potential in every point that is not a grid point, outside the barriers too. *)
Theorem C52_derivative :
  forall (m0 : meta) (hist : list (Z * R)) (x : R),
  0 < width m0 -> (forall i, x <> - barr m0 + IZR i * width m0) ->
  derivable_pt_lim (compute_pot (run (init m0) hist)) x (compute_pot_der (run (init m0) hist) x).
Proof.
  intros m0 hist x W H.
  destruct (run_params (init m0) hist) as (P1 & P2 & P3 & P4 & P5 & P6 & P7).
  apply pot_derivable; [now rewrite P4|]. intros i. unfold pos. rewrite P4, P5. apply H.
Qed.
Print Assumptions C52_derivative.

(* A case: width 1, barriers at 2, hills of height 1 every second sweep from the third on. *)
Definition example_meta := Meta 2 2 1 1 2 100 0 (fun _ => 0).
Example C52_meets : 0 < width example_meta /\ (each example_meta <> 0)%Z /\ 2 * barr example_meta = IZR (2 * 2) * width example_meta.
Proof. cbn. split; [lra|]. split; [lia|]. lra. Qed.
Example C52_meets_value :
  compute_pot (run (init example_meta) [(1%Z, 1/2); (2%Z, 1/4); (3%Z, 0); (4%Z, 1)]) 1 = 5/4.
Proof.
  pose proof (C52_hills example_meta [(1%Z, 1/2); (2%Z, 1/4); (3%Z, 0); (4%Z, 1)] 2 3) as H. cbn [example_meta width barr after each coeff] in H.
  replace (- (2) + 3 * 1) with 1 in H by lra. rewrite H; [|lra|lia|lia|cbn; lra|lia]. cbn [hills].
  change (counted 2 2 1) with false. change (counted 2 2 2) with true. change (counted 2 2 3) with false. change (counted 2 2 4) with true.
  cbv iota. rewrite (hat_left ((1/4 - 1) / 1)) by lra. rewrite (hat_right ((1 - 1) / 1)) by lra. lra.
Qed.

(* With an odd number of intervals the hill is misplaced by half a cell: a hill dropped in the centre raises the left barrier
   by its full height and the right one by nothing. *)
Theorem C52_odd_refuted :
  let m0 := Meta 0 1 1 1 (1/2) 100 0 (fun _ => 0) in
  2 * barr m0 = IZR 1 * width m0 /\
  compute_pot (run (init m0) [(0%Z, 0)]) (- (1/2)) = 1 /\ compute_pot (run (init m0) [(0%Z, 0)]) (1/2) = 0 /\
  hills 0 1 1 1 [(0%Z, 0)] (- (1/2)) = 1/2 /\ hills 0 1 1 1 [(0%Z, 0)] (1/2) = 1/2.
Proof.
  intros m0. assert (B : 2 * barr m0 = IZR 1 * width m0) by (cbn; lra). split; auto.
  assert (W : 0 < width m0) by (cbn; lra).
  pose proof (init_ngrid m0 1 W B ltac:(lia)) as N.
  destruct (run_params (init m0) [(0%Z, 0)]) as (P1 & P2 & P3 & P4 & P5 & P6 & P7).
  assert (G : forall i, grid (run (init m0) [(0%Z, 0)]) i = if (i =? 0)%Z then 1 else 0).
  { intros i. cbn [run fold_left fst snd]. unfold update. cbn [init after each coeff width barr]. rewrite N.
    change (((0 <=? 0) && (Z.rem (0 - 0) 1 =? 0))%bool%Z) with true. cbv iota.
    assert (F : floorZ (0 / 1) = 0%Z) by (apply floor_unique; lra).
    cbn [m0 after each coeff width barr]. change (((0 <=? 0) && (Z.rem (0 - 0) 1 =? 0))%bool%Z) with true. cbv iota.
    rewrite F. assert (T : to_int (0 + 1 / 2) = 0%Z).
    { unfold to_int. destruct (Rle_dec 0 (0 + 1 / 2)); [|lra]. change (Int_part (0 + 1 / 2)) with (floorZ (0 + 1 / 2)). apply floor_unique. lra. }
    rewrite T. cbn. unfold add_at. destruct (Z.eqb_spec i 1), (Z.eqb_spec i 0); subst; try lia; lra. }
  pose proof (pot_at_points (run (init m0) [(0%Z, 0)])) as Q. unfold pos in Q. rewrite P4, P5, P7, N in Q. cbn [init width barr m0] in Q.
  split; [|split].
  - specialize (Q 0%Z). replace (- (1/2) + 0 * 1) with (- (1/2)) in Q by lra. rewrite Q, G by (try lra; lia). reflexivity.
  - specialize (Q 1%Z). replace (- (1/2) + 1 * 1) with (1/2) in Q by lra. rewrite Q, G by (try lra; lia). reflexivity.
  - cbn [hills]. change (counted 0 1 0) with true. cbv iota. rewrite hat_right by lra. rewrite hat_left by lra. lra.
Qed.
Print Assumptions C52_odd_refuted.

(* If the width does not divide 2*barr the potential jumps where the grid ends: here by 8 at x=4/5, with an empty grid. *)
Theorem C52_jump_refuted :
  let m := init (Meta 0 1 1 1 (6/5) 100 0 (fun _ => 0)) in
  (forall x, -1/5 <= x < 4/5 -> compute_pot m x = 0) /\ compute_pot m (4/5) = 8.
Proof.
  intros m. assert (N : ngrid m = 2%Z).
  { cbn. unfold to_int. destruct (Rle_dec _ _) as [L|L]; [|elim L; lra].
    match goal with |- Int_part ?r = _ => change (Int_part r) with (floorZ r) end. apply floor_unique. lra. }
  split.
  - intros x Hx. unfold compute_pot. rewrite N. cbn [m init barr width].
    replace (floorZ ((x + 6 / 5) / 1)) with 1%Z by (symmetry; apply floor_unique; lra). cbn. lra.
  - unfold compute_pot. rewrite N. cbn [m init barr width].
    replace (floorZ ((4 / 5 + 6 / 5) / 1)) with 2%Z by (symmetry; apply floor_unique; lra). cbn. unfold Rsqr. lra.
Qed.
Print Assumptions C52_jump_refuted.

(* load takes a line if and only if the coordinate in it is within half a cell of the expected one. *)
Theorem C52_load_check :
  forall (m : meta) (i : Z) (x : R), 0 < width m ->
  (load_accepts m i x = true <->
   - barr m + IZR i * width m - width m / 2 <= x < - barr m + IZR i * width m + width m / 2).
Proof. intros. now apply load_check. Qed.
Print Assumptions C52_load_check.
(* The file written by save has the coordinate with six digits only: for barr=1000001, width=1 the first one is printed as
   -1e+06, and load rejects the library's own file. *)
Theorem C52_load_refuted : load_accepts (init (Meta 0 1 1 1 1000001 100 0 (fun _ => 0))) 0 (-1000000) = false.
Proof.
  destruct (load_accepts _ 0 (-1000000)) eqn:E; auto. apply load_check in E; [|cbn; lra]. unfold pos in E. cbn in E. lra.
Qed.
Print Assumptions C52_load_refuted.
