From Coq Require Import Reals ZArith List Lia Lra Bool.
From Verif Require Import MetaModel MetaSpec.
Open Scope R_scope.

Lemma floor_bounds r : IZR (floorZ r) <= r < IZR (floorZ r) + 1.
Proof. unfold floorZ. destruct (base_Int_part r). lra. Qed.
Lemma floor_unique r k : IZR k <= r < IZR k + 1 -> floorZ r = k.
Proof.
  intros H. pose proof (floor_bounds r) as B.
  assert (IZR (floorZ r) < IZR (k + 1)) by (rewrite plus_IZR; lra).
  assert (IZR k < IZR (floorZ r + 1)) by (rewrite plus_IZR; lra).
  apply lt_IZR in H0, H1. lia.
Qed.
Lemma floor_IZR k : floorZ (IZR k) = k.
Proof. apply floor_unique. lra. Qed.
Lemma to_int_IZR k : to_int (IZR k) = k.
Proof.
  unfold to_int. destruct (Rle_dec 0 (IZR k)); [apply floor_IZR|]. rewrite <- opp_IZR.
  change (Int_part (IZR (- k))) with (floorZ (IZR (- k))). rewrite floor_IZR. lia.
Qed.

Lemma hat_far y : 1 <= Rabs y -> hat y = 0.
Proof. intros H. unfold hat. rewrite Rmax_left; lra. Qed.
Lemma hat_right y : 0 <= y <= 1 -> hat y = 1 - y.
Proof. intros H. unfold hat. rewrite Rabs_pos_eq by lra. rewrite Rmax_right; lra. Qed.
Lemma hat_left y : -1 <= y <= 0 -> hat y = 1 + y.
Proof. intros H. unfold hat. rewrite Rabs_left1 by lra. rewrite Rmax_right; lra. Qed.

(* the two grid points get the hat *)
Lemma hat_point (q : R) (i : Z) :
  hat (q - IZR i) = (if (i =? floorZ q)%Z then 1 - (q - IZR (floorZ q)) else 0) +
                    (if (i =? floorZ q + 1)%Z then q - IZR (floorZ q) else 0).
Proof.
  pose proof (floor_bounds q) as B. set (k := floorZ q) in *.
  destruct (Z.eqb_spec i k) as [->|N].
  - replace (k =? k + 1)%Z with false by (symmetry; apply Z.eqb_neq; lia). rewrite hat_right; lra.
  - destruct (Z.eqb_spec i (k + 1)) as [->|N2].
    + rewrite plus_IZR. rewrite hat_left; lra.
    + rewrite hat_far; [lra|]. destruct (Z_lt_le_dec i k).
      * assert (IZR i <= IZR k - 1) by (rewrite <- minus_IZR; apply IZR_le; lia). rewrite Rabs_pos_eq; lra.
      * assert (IZR k + 2 <= IZR i) by (rewrite <- plus_IZR; apply IZR_le; lia). rewrite Rabs_left1; lra.
Qed.

Lemma rem_mod0 a b : b <> 0%Z -> (Z.rem a b =? 0)%Z = (a mod b =? 0)%Z.
Proof.
  intros N. destruct (Z.eqb_spec (Z.rem a b) 0) as [H|H].
  - apply Z.rem_divide in H; auto. symmetry. apply Z.eqb_eq. now apply Z.mod_divide.
  - symmetry. apply Z.eqb_neq. intros E. apply H. apply Z.rem_divide; auto. now apply Z.mod_divide.
Qed.

Lemma update_params m s Q : after (update m s Q) = after m /\ each (update m s Q) = each m /\ coeff (update m s Q) = coeff m /\
  width (update m s Q) = width m /\ barr (update m s Q) = barr m /\ force_out (update m s Q) = force_out m /\ ngrid (update m s Q) = ngrid m.
Proof. unfold update. destruct (_ && _)%bool; cbn; auto 10. Qed.

Lemma update_grid m s Q h i : ngrid m = (2 * h)%Z -> each m <> 0%Z -> (0 <= i <= ngrid m)%Z ->
  grid (update m s Q) i = grid m i +
    (if counted (after m) (each m) s then coeff m * hat (Q / width m - (IZR i - IZR h)) else 0).
Proof.
  intros E Ne Hi. unfold update, counted. rewrite rem_mod0 by auto. destruct (_ && _)%bool; [|cbn; lra].
  set (q := Q / width m). replace (IZR (floorZ q) + IZR (ngrid m) / 2) with (IZR (floorZ q + h)).
  2: { rewrite E, plus_IZR, mult_IZR. lra. }
  rewrite to_int_IZR. rewrite <- minus_IZR. rewrite hat_point. cbn [set_grid grid].
  set (k := floorZ q). set (a := q - IZR k).
  replace (i - h =? k)%Z with (i =? k + h)%Z by (apply eq_true_iff_eq; rewrite !Z.eqb_eq; lia).
  replace (i - h =? k + 1)%Z with (i =? k + h + 1)%Z by (apply eq_true_iff_eq; rewrite !Z.eqb_eq; lia).
  set (g0 := grid m).
  destruct ((0 <=? k + h) && (k + h <=? ngrid m))%bool%Z eqn:B1;
  destruct ((0 <=? k + h + 1) && (k + h + 1 <=? ngrid m))%bool%Z eqn:B2; unfold add_at;
  destruct (Z.eqb_spec i (k + h)); destruct (Z.eqb_spec i (k + h + 1)); try lia; try lra;
  exfalso; subst i; rewrite ?andb_false_iff, ?Z.leb_gt in *; lia.
Qed.

Lemma run_params m h : after (run m h) = after m /\ each (run m h) = each m /\ coeff (run m h) = coeff m /\
  width (run m h) = width m /\ barr (run m h) = barr m /\ force_out (run m h) = force_out m /\ ngrid (run m h) = ngrid m.
Proof.
  revert m; induction h as [|[s Q] h IH]; intros m; [cbn; auto 10|]. cbn [run fold_left fst snd].
  destruct (IH (update m s Q)) as (A1 & A2 & A3 & A4 & A5 & A6 & A7). destruct (update_params m s Q) as (B1 & B2 & B3 & B4 & B5 & B6 & B7).
  unfold run in *. rewrite A1, A2, A3, A4, A5, A6, A7. auto 10.
Qed.

Lemma run_grid hs : forall m h i, 0 < width m -> ngrid m = (2 * h)%Z -> 2 * barr m = IZR (ngrid m) * width m -> each m <> 0%Z ->
  (0 <= i <= ngrid m)%Z ->
  grid (run m hs) i = grid m i + hills (after m) (each m) (coeff m) (width m) hs (- barr m + IZR i * width m).
Proof.
  induction hs as [|[s Q] hs IH]; intros m h i W E B Ne Hi; cbn [run fold_left fst snd hills]; [lra|].
  destruct (update_params m s Q) as (B1 & B2 & B3 & B4 & B5 & B6 & B7). change (fold_left _ hs (update m s Q)) with (run (update m s Q) hs).
  rewrite (IH (update m s Q) h i); try (rewrite ?B2, ?B4, ?B5, ?B7; auto; fail).
  rewrite B1, B2, B3, B4, B5, (update_grid m s Q h i) by auto.
  replace (Q / width m - (IZR i - IZR h)) with ((Q - (- barr m + IZR i * width m)) / width m); [lra|].
  rewrite E, mult_IZR in B. assert (barr m = IZR h * width m) by lra. rewrite H. field. lra.
Qed.

(* the pieces of the potential *)
Definition piece (m : meta) (i : Z) (x : R) : R :=
  if ((0 <=? i) && (i <? ngrid m))%bool%Z then
    grid m i - (grid m (i + 1)%Z - grid m i) / width m * (IZR i * width m - barr m) + (grid m (i + 1)%Z - grid m i) / width m * x
  else if (i <? 0)%Z then force_out m * Rsqr (- x - barr m) / 2 + grid m 0%Z
  else force_out m * Rsqr (x - barr m) / 2 + grid m (ngrid m).
Definition piece_der (m : meta) (i : Z) (x : R) : R :=
  if ((0 <=? i) && (i <? ngrid m))%bool%Z then (grid m (i + 1)%Z - grid m i) / width m
  else if (i <? 0)%Z then - force_out m * (- x - barr m) else force_out m * (x - barr m).
Definition pos (m : meta) (i : Z) : R := - barr m + IZR i * width m.

Lemma pot_piece m x : compute_pot m x = piece m (floorZ ((x + barr m) / width m)) x.
Proof. reflexivity. Qed.
Lemma pot_der_piece m x : compute_pot_der m x = piece_der m (floorZ ((x + barr m) / width m)) x.
Proof. reflexivity. Qed.

Lemma floor_cell m i x : 0 < width m -> pos m i <= x < pos m (i + 1) -> floorZ ((x + barr m) / width m) = i.
Proof.
  unfold pos. intros W H. rewrite plus_IZR in H. apply floor_unique.
  split; [apply Rmult_le_reg_r with (width m)|apply Rmult_lt_reg_r with (width m)]; auto;
    (replace ((x + barr m) / width m * width m) with (x + barr m) by (field; lra)); lra.
Qed.
Lemma cell_of m x : 0 < width m -> let i := floorZ ((x + barr m) / width m) in pos m i <= x < pos m (i + 1).
Proof.
  intros W i. pose proof (floor_bounds ((x + barr m) / width m)) as B. fold i in B. unfold pos. rewrite plus_IZR.
  assert (E : (x + barr m) / width m * width m = x + barr m) by (field; lra).
  destruct B as [B1 B2]. apply (Rmult_le_compat_r (width m)) in B1; [|lra]. apply (Rmult_lt_compat_r (width m)) in B2; [|lra]. lra.
Qed.

Lemma piece_agree m i : 0 < width m -> (0 <= ngrid m)%Z -> 2 * barr m = IZR (ngrid m) * width m ->
  piece m i (pos m (i + 1)) = piece m (i + 1) (pos m (i + 1)).
Proof.
  intros W N B. unfold piece, pos. rewrite plus_IZR.
  destruct (Z.leb_spec 0 i), (Z.ltb_spec i (ngrid m)), (Z.leb_spec 0 (i + 1)), (Z.ltb_spec (i + 1) (ngrid m)),
    (Z.ltb_spec i 0), (Z.ltb_spec (i + 1) 0); cbn [andb]; try lia; try lra.
  - field. lra.
  - assert (E : (i + 1 = ngrid m)%Z) by lia. rewrite <- E in B |- *. rewrite plus_IZR in B.
    replace (- barr m + (IZR i + 1) * width m - barr m) with 0 by lra. rewrite Rsqr_0. field. lra.
  - assert (E : (i = -1)%Z) by lia. subst i. cbn [Z.add Z.opp Z.pos_sub]. replace (- (- barr m + (-1 + 1) * width m) - barr m) with 0 by lra.
    rewrite Rsqr_0. field. lra.
  - assert (E : (i = -1)%Z) by lia. subst i. assert (E : (ngrid m = 0)%Z) by lia. rewrite E in B |- *.
    replace (- (- barr m + (-1 + 1) * width m) - barr m) with 0 by lra.
    replace (- barr m + (-1 + 1) * width m - barr m) with 0 by lra. reflexivity.
Qed.

Lemma pot_closed_cell m i x : 0 < width m -> (0 <= ngrid m)%Z -> 2 * barr m = IZR (ngrid m) * width m ->
  pos m i <= x <= pos m (i + 1) -> compute_pot m x = piece m i x.
Proof.
  intros W N B [H1 H2]. destruct (Rle_lt_or_eq_dec _ _ H2) as [L| ->].
  - rewrite pot_piece, (floor_cell m i); auto.
  - rewrite pot_piece, (floor_cell m (i + 1)); auto; [symmetry; now apply piece_agree|].
    unfold pos. rewrite !plus_IZR. lra.
Qed.

Lemma piece_deriv m i x : derivable_pt_lim (piece m i) x (piece_der m i x).
Proof.
  unfold piece, piece_der. destruct (_ && _)%bool.
  - set (s := (grid m (i + 1)%Z - grid m i) / width m). set (c := grid m i - s * _).
    cut (derivable_pt_lim (fun x => c + s * x) x (0 + s * 1)); [rewrite Rplus_0_l, Rmult_1_r; auto|].
    apply (derivable_pt_lim_plus (fun _ => c) (fun x => s * x)); [apply derivable_pt_lim_const|].
    apply (derivable_pt_lim_scal id s). apply derivable_pt_lim_id.
  - destruct (i <? 0)%Z.
    + set (f := force_out m). set (b := barr m). set (g := grid m 0%Z).
      intros eps He. assert (HX : derivable_pt_lim (fun y => f / 2 * (y * y) + (f * b * y + (f / 2 * b * b + g))) x
        (f / 2 * (1 * x + x * 1) + (f * b * 1 + 0))).
      { apply (derivable_pt_lim_plus (fun y => f / 2 * (y * y)) (fun y => f * b * y + (f / 2 * b * b + g))).
        - apply (derivable_pt_lim_scal (fun y => y * y)). apply (derivable_pt_lim_mult id id); apply derivable_pt_lim_id.
        - apply (derivable_pt_lim_plus (fun y => f * b * y) (fun _ => f / 2 * b * b + g)); [|apply derivable_pt_lim_const].
          apply (derivable_pt_lim_scal id (f * b)). apply derivable_pt_lim_id. }
      destruct (HX eps He) as [d D]. exists d. intros h Hh Hd. specialize (D h Hh Hd).
      unfold Rsqr. replace (_ / h - _) with
        ((f / 2 * ((x + h) * (x + h)) + (f * b * (x + h) + (f / 2 * b * b + g)) -
         (f / 2 * (x * x) + (f * b * x + (f / 2 * b * b + g)))) / h - (f / 2 * (1 * x + x * 1) + (f * b * 1 + 0))); auto. field. auto.
    + set (f := force_out m). set (b := barr m). set (g := grid m (ngrid m)).
      intros eps He. assert (HX : derivable_pt_lim (fun y => f / 2 * (y * y) + (- f * b * y + (f / 2 * b * b + g))) x
        (f / 2 * (1 * x + x * 1) + (- f * b * 1 + 0))).
      { apply (derivable_pt_lim_plus (fun y => f / 2 * (y * y)) (fun y => - f * b * y + (f / 2 * b * b + g))).
        - apply (derivable_pt_lim_scal (fun y => y * y)). apply (derivable_pt_lim_mult id id); apply derivable_pt_lim_id.
        - apply (derivable_pt_lim_plus (fun y => - f * b * y) (fun _ => f / 2 * b * b + g)); [|apply derivable_pt_lim_const].
          apply (derivable_pt_lim_scal id (- f * b)). apply derivable_pt_lim_id. }
      destruct (HX eps He) as [d D]. exists d. intros h Hh Hd. specialize (D h Hh Hd).
      unfold Rsqr. replace (_ / h - _) with
        ((f / 2 * ((x + h) * (x + h)) + (- f * b * (x + h) + (f / 2 * b * b + g)) -
         (f / 2 * (x * x) + (- f * b * x + (f / 2 * b * b + g)))) / h - (f / 2 * (1 * x + x * 1) + (- f * b * 1 + 0))); auto. field. auto.
Qed.

Lemma piece_cont m i x : continuity_pt (piece m i) x.
Proof. apply derivable_continuous_pt. exists (piece_der m i x). apply piece_deriv. Qed.

Lemma glue (f g1 g2 : R -> R) x d : 0 < d -> (forall y, x - d < y <= x -> f y = g1 y) -> (forall y, x <= y < x + d -> f y = g2 y) ->
  continuity_pt g1 x -> continuity_pt g2 x -> continuity_pt f x.
Proof.
  intros D H1 H2 C1 C2 eps He. destruct (C1 eps He) as (d1 & D1 & K1). destruct (C2 eps He) as (d2 & D2 & K2).
  exists (Rmin d (Rmin d1 d2)). split; [apply Rmin_pos; auto; apply Rmin_pos; auto|].
  intros y [Hy Ny]. cbn in *. unfold R_dist in *.
  assert (Rmin d (Rmin d1 d2) <= d) by apply Rmin_l. assert (Rmin d (Rmin d1 d2) <= Rmin d1 d2) by apply Rmin_r.
  assert (Rmin d1 d2 <= d1) by apply Rmin_l. assert (Rmin d1 d2 <= d2) by apply Rmin_r.
  apply Rabs_def2 in Ny. destruct (Rle_dec y x).
  - rewrite (H1 y), (H1 x) by lra. apply K1. split; auto. apply Rabs_def1; lra.
  - rewrite (H2 y), (H2 x) by lra. apply K2. split; auto. apply Rabs_def1; lra.
Qed.

Lemma pos_S m i : pos m (i + 1) = pos m i + width m.
Proof. unfold pos. rewrite plus_IZR. lra. Qed.

Lemma pot_continuous m : 0 < width m -> (0 <= ngrid m)%Z -> 2 * barr m = IZR (ngrid m) * width m -> continuity (compute_pot m).
Proof.
  intros W N B x. destruct (cell_of m x W) as [H1 H2]. set (i := floorZ ((x + barr m) / width m)) in *.
  destruct (Rle_lt_or_eq_dec _ _ H1) as [L|E].
  - set (d := Rmin (x - pos m i) (pos m (i + 1) - x)).
    assert (d <= x - pos m i) by apply Rmin_l. assert (d <= pos m (i + 1) - x) by apply Rmin_r.
    apply (glue _ (piece m i) (piece m i) x d); try apply piece_cont.
    + apply Rmin_pos; lra.
    + intros y Hy. apply pot_closed_cell; auto. lra.
    + intros y Hy. apply pot_closed_cell; auto. lra.
  - apply (glue _ (piece m (i - 1)) (piece m i) x (width m)); try apply piece_cont; auto.
    + intros y Hy. apply pot_closed_cell; auto. pose proof (pos_S m (i - 1)) as P. replace (i - 1 + 1)%Z with i in * by lia. lra.
    + intros y Hy. apply pot_closed_cell; auto. rewrite pos_S. lra.
Qed.

Lemma pot_derivable m x : 0 < width m -> (forall i, x <> pos m i) -> derivable_pt_lim (compute_pot m) x (compute_pot_der m x).
Proof.
  intros W Np. destruct (cell_of m x W) as [H1 H2]. rewrite pot_der_piece. set (i := floorZ ((x + barr m) / width m)) in *.
  assert (pos m i < x) by (specialize (Np i); lra).
  intros eps He. destruct (piece_deriv m i x eps He) as [d D].
  assert (P : 0 < Rmin d (Rmin (x - pos m i) (pos m (i + 1) - x))).
  { apply Rmin_pos; [apply cond_pos|]. apply Rmin_pos; lra. }
  exists (mkposreal _ P). intros h Hh Hd. cbn in Hd.
  assert (Rmin d (Rmin (x - pos m i) (pos m (i + 1) - x)) <= d) by apply Rmin_l.
  assert (Rmin d (Rmin (x - pos m i) (pos m (i + 1) - x)) <= Rmin (x - pos m i) (pos m (i + 1) - x)) by apply Rmin_r.
  assert (Rmin (x - pos m i) (pos m (i + 1) - x) <= x - pos m i) by apply Rmin_l.
  assert (Rmin (x - pos m i) (pos m (i + 1) - x) <= pos m (i + 1) - x) by apply Rmin_r.
  rewrite !pot_piece, (floor_cell m i (x + h)), (floor_cell m i x); auto; [apply D; auto; lra|].
  apply Rabs_def2 in Hd. lra.
Qed.

Lemma pot_interpolates m i t : 0 < width m -> (0 <= ngrid m)%Z -> 2 * barr m = IZR (ngrid m) * width m ->
  (0 <= i < ngrid m)%Z -> 0 <= t <= 1 ->
  compute_pot m (pos m i + t * width m) = (1 - t) * grid m i + t * grid m (i + 1)%Z.
Proof.
  intros W N B Hi Ht. rewrite (pot_closed_cell m i); auto.
  - unfold piece, pos. replace ((0 <=? i) && (i <? ngrid m))%bool%Z with true by (symmetry; apply andb_true_iff; rewrite Z.leb_le, Z.ltb_lt; lia).
    field. lra.
  - rewrite pos_S. nra.
Qed.

Lemma pot_at_points m i : 0 < width m -> (0 <= ngrid m)%Z -> 2 * barr m = IZR (ngrid m) * width m ->
  (0 <= i <= ngrid m)%Z -> compute_pot m (pos m i) = grid m i.
Proof.
  intros W N B Hi. destruct (Z.eq_dec i (ngrid m)) as [->|Ne].
  - rewrite (pot_closed_cell m (ngrid m)); auto; [|rewrite pos_S; lra]. unfold piece.
    replace ((0 <=? ngrid m) && (ngrid m <? ngrid m))%bool%Z with false by (rewrite Z.ltb_irrefl; symmetry; apply andb_false_r).
    replace (ngrid m <? 0)%Z with false by (symmetry; apply Z.ltb_ge; lia). unfold pos.
    replace (- barr m + IZR (ngrid m) * width m - barr m) with 0 by lra. rewrite Rsqr_0. lra.
  - pose proof (pot_interpolates m i 0 W N B ltac:(lia) ltac:(lra)) as P. rewrite Rmult_0_l, Rplus_0_r in P. rewrite P. lra.
Qed.

Lemma init_ngrid m n : 0 < width m -> 2 * barr m = IZR n * width m -> (0 <= n)%Z -> ngrid (init m) = n.
Proof.
  intros W B N. cbn [init ngrid]. rewrite B. replace ((IZR n * width m + width m / 2) / width m) with (IZR n + / 2) by (field; lra).
  apply IZR_le in N. unfold to_int. destruct (Rle_dec 0 (IZR n + / 2)); [|lra].
  change (Int_part (IZR n + / 2)) with (floorZ (IZR n + / 2)). apply floor_unique. lra.
Qed.

Lemma load_check m i x : 0 < width m ->
  load_accepts m i x = true <-> pos m i - width m / 2 <= x < pos m i + width m / 2.
Proof.
  intros W. unfold load_accepts. rewrite Z.eqb_eq.
  assert (E : (x + barr m + width m / 2) / width m * width m = x + barr m + width m / 2) by (field; lra).
  split.
  - intros ->. pose proof (floor_bounds ((x + barr m + width m / 2) / width m)) as [B1 B2]. unfold pos.
    apply (Rmult_le_compat_r (width m)) in B1; [|lra]. apply (Rmult_lt_compat_r (width m)) in B2; [|lra]. lra.
  - unfold pos. intros H. symmetry. apply floor_unique.
    split; [apply Rmult_le_reg_r with (width m)|apply Rmult_lt_reg_r with (width m)]; auto; lra.
Qed.
