From Verif Require Import Base GeometryModel GeometrySpec GeometryProofs OwnerProofs HaloProofs IldgModel IldgProofs BytesModel BytesSpec BytesProofs
  ParModel ParSpec ParProofs ReduceModel ReduceSpec ReduceProofs ReduceMain ChecksumModel ChecksumSpec.
From Coq Require Import Permutation.

(** ---- the CRC ---- *)
Lemma odd_lxor a b : Z.odd (Z.lxor a b) = xorb (Z.odd a) (Z.odd b).
Proof. rewrite <- !Z.bit0_odd. apply Z.lxor_spec. Qed.

Lemma crc_step_lxor a b : crc_step (Z.lxor a b) = Z.lxor (crc_step a) (crc_step b).
Proof.
  unfold crc_step. rewrite odd_lxor, Z.shiftr_lxor. generalize poly. intros p.
  destruct (Z.odd a), (Z.odd b); cbn [xorb]; apply Z.bits_inj'; intros i Hi; rewrite !Z.lxor_spec;
  destruct (Z.testbit p i), (Z.testbit (Z.shiftr a 1) i), (Z.testbit (Z.shiftr b 1) i); reflexivity.
Qed.
Lemma iter_lxor n a b : Nat.iter n crc_step (Z.lxor a b) = Z.lxor (Nat.iter n crc_step a) (Nat.iter n crc_step b).
Proof.
  unfold Nat.iter. induction n as [|n IH]; cbn [nat_rect]; auto. now rewrite IH, crc_step_lxor.
Qed.
Lemma crc_step_double h : crc_step (2 * h) = h.
Proof.
  unfold crc_step. rewrite Z.odd_mul. cbn [Z.odd andb]. rewrite Z.shiftr_div_pow2 by lia. change (2 ^ 1) with 2.
  rewrite Z.mul_comm. apply Z.div_mul. lia.
Qed.
Lemma iter_shift n : forall h, Nat.iter n crc_step (2 ^ Z.of_nat n * h) = h.
Proof.
  induction n as [|n IH]; intros h; [change (2 ^ Z.of_nat 0) with 1; unfold Nat.iter; cbn [nat_rect]; lia|].
  rewrite Nat2Z.inj_succ, Z.pow_succ_r by lia.
  replace (2 * 2 ^ Z.of_nat n * h) with (2 ^ Z.of_nat n * (2 * h)) by ring.
  change (Nat.iter (S n) crc_step (2 ^ Z.of_nat n * (2 * h))) with (crc_step (Nat.iter n crc_step (2 ^ Z.of_nat n * (2 * h)))).
  rewrite IH. apply crc_step_double.
Qed.

Lemma split_byte c : c = Z.lxor (Z.land c 255) (2 ^ Z.of_nat 8 * Z.shiftr c 8).
Proof.
  apply Z.bits_inj'. intros i Hi. rewrite Z.lxor_spec, Z.land_spec. change 255 with (Z.ones 8).
  rewrite Z.mul_comm. change (Z.of_nat 8) with 8. rewrite <- Z.shiftl_mul_pow2 by lia.
  rewrite Z.testbit_ones_nonneg by lia. rewrite Z.shiftl_spec by lia.
  destruct (Z.ltb_spec i 8).
  - rewrite (Z.testbit_neg_r _ (i - 8)) by lia. now rewrite andb_true_r, xorb_false_r.
  - rewrite Z.shiftr_spec by lia. rewrite andb_false_r. rewrite xorb_false_l. f_equal. lia.
Qed.

(** the byte update is eight single steps on crc^byte *)
Lemma crc_byte_iter c b : 0 <= b < 256 -> crc_byte c b = Nat.iter 8 crc_step (Z.lxor c b).
Proof.
  intros Hb. rewrite (split_byte (Z.lxor c b)) at 1. rewrite iter_lxor, iter_shift. unfold crc_byte, crcValue. f_equal.
  rewrite Z.shiftr_lxor. rewrite (Z.shiftr_div_pow2 b) by lia. change (2 ^ 8) with 256. rewrite (Z.div_small b) by lia.
  symmetry. apply Z.lxor_0_r.
Qed.

Lemma crc_bit_step c b : crc_step (Z.lxor c b) = Z.lxor (crc32_bit c (Z.odd b)) (b / 2).
Proof.
  unfold crc_step, crc32_bit. rewrite odd_lxor, Z.shiftr_lxor, !Z.shiftr_div_pow2 by lia. change (2 ^ 1) with 2.
  change 0xedb88320 with poly. destruct (xorb (Z.odd c) (Z.odd b)); auto. now rewrite Z.lxor_assoc.
Qed.

Lemma bits_iter n : forall c b,
  Nat.iter n crc_step (Z.lxor c b) =
  Z.lxor (fold_left crc32_bit (map (fun i => Z.odd (b / 2 ^ i)) (seqZ (Z.of_nat n))) c) (b / 2 ^ Z.of_nat n).
Proof.
  induction n as [|n IH]; intros c b.
  - cbn. now rewrite Z.div_1_r.
  - change (Nat.iter (S n) crc_step (Z.lxor c b)) with (crc_step (Nat.iter n crc_step (Z.lxor c b))). rewrite IH, crc_bit_step.
    rewrite Nat2Z.inj_succ. rewrite Z.div_div, Z.mul_comm, <- Z.pow_succ_r by (try apply Z.pow_pos_nonneg; lia). f_equal.
    replace (Z.succ (Z.of_nat n)) with (Z.of_nat n + 1) by lia. rewrite seqZ_succ by lia.
    rewrite map_app, fold_left_app. reflexivity.
Qed.

Lemma crc_byte_spec c b : 0 <= b < 256 -> crc_byte c b = fold_left crc32_bit (byte_bits b) c.
Proof.
  intros Hb. rewrite crc_byte_iter by auto. rewrite bits_iter. change (2 ^ Z.of_nat 8) with 256.
  rewrite Z.div_small by lia. rewrite Z.lxor_0_r. reflexivity.
Qed.

Lemma crc_bytes l : Forall (fun b => 0 <= b < 256) l -> forall c,
  fold_left crc_byte l c = fold_left crc32_bit (flat_map byte_bits l) c.
Proof.
  induction 1 as [|b l Hb Hl IH]; intros c; [reflexivity|]. cbn [fold_left flat_map]. rewrite fold_left_app, <- crc_byte_spec by auto. apply IH.
Qed.

Definition ok_bytes (degs : list (list Z)) := Forall (Forall (fun b => 0 <= b < 256)) degs.

Lemma site_crc_spec native degs : ok_bytes degs ->
  site_crc native degs = crc32 (concat (map (fixEndianness BigEndian native) degs)).
Proof.
  intros H. unfold site_crc, crc32. f_equal. generalize 0xffffffff.
  induction H as [|t degs Ht Hd IH]; intros c; [reflexivity|].
  cbn [fold_left map concat]. rewrite flat_map_app, fold_left_app. rewrite IH. f_equal.
  rewrite <- crc_bytes.
  - rewrite <- mask_list. clear. generalize (seq 0 (length t)) as l. intros l. revert c.
    induction l as [|x l IH]; intros c; cbn [map fold_left]; auto.
  - unfold fixEndianness. destruct (end_eqb BigEndian native); auto. rewrite byteSwap_rev. apply Forall_rev. auto.
Qed.

(** ---- ranges and rotation ---- *)
Lemma lxor_range n a b : 0 <= n -> 0 <= a < 2 ^ n -> 0 <= b < 2 ^ n -> 0 <= Z.lxor a b < 2 ^ n.
Proof.
  intros Hn Ha Hb. assert (H0 : 0 <= Z.lxor a b) by (apply Z.lxor_nonneg; lia). split; auto.
  destruct (Z.eq_dec (Z.lxor a b) 0) as [E|E]; [rewrite E; apply Z.pow_pos_nonneg; lia|].
  apply Z.log2_lt_pow2; [lia|]. destruct (Z.eq_dec n 0) as [->|Hn0].
  { change (2 ^ 0) with 1 in *. assert (a = 0) by lia. assert (b = 0) by lia. subst. cbn in E. lia. }
  eapply Z.le_lt_trans; [apply Z.log2_lxor; lia|].
  apply Z.max_lub_lt.
  - destruct (Z.eq_dec a 0); [subst; cbn; lia|]. apply Z.log2_lt_pow2; lia.
  - destruct (Z.eq_dec b 0); [subst; cbn; lia|]. apply Z.log2_lt_pow2; lia.
Qed.
Lemma crc32_bit_range c b : 0 <= c < 2 ^ 32 -> 0 <= crc32_bit c b < 2 ^ 32.
Proof.
  intros Hc. unfold crc32_bit. assert (0 <= c / 2 < 2 ^ 32).
  { split; [apply Z.div_pos; lia|apply Z.div_lt_upper_bound; lia]. }
  destruct (xorb (Z.odd c) b); auto. apply lxor_range; lia.
Qed.
Lemma crc32_range l : 0 <= crc32 l < 2 ^ 32.
Proof.
  unfold crc32. apply lxor_range; try lia.
  assert (G : forall l c, 0 <= c < 2 ^ 32 -> 0 <= fold_left crc32_bit l c < 2 ^ 32).
  { clear. induction l as [|b l IH]; intros c Hc; cbn [fold_left]; auto. apply IH, crc32_bit_range, Hc. }
  apply G. lia.
Qed.

Lemma lor_disjoint k a b : 0 <= k -> 0 <= b < 2 ^ k -> Z.lor (a * 2 ^ k) b = a * 2 ^ k + b.
Proof.
  intros Hk Hb.
  assert (Hl : Z.land (a * 2 ^ k) b = 0).
  { apply Z.bits_inj'. intros i Hi. rewrite Z.land_spec, Z.bits_0. destruct (Z.ltb_spec i k) as [Hik|Hik].
    - rewrite Z.mul_pow2_bits_low by lia. reflexivity.
    - destruct (Z.eq_dec b 0) as [->|Hb0]; [rewrite Z.bits_0; apply andb_false_r|].
      rewrite (Z.bits_above_log2 b i); [apply andb_false_r|lia|].
      apply Z.log2_lt_pow2; [lia|]. eapply Z.lt_le_trans; [apply Hb|apply Z.pow_le_mono_r; lia]. }
  rewrite Z.add_nocarry_lxor by auto. symmetry. apply Z.lxor_lor. auto.
Qed.

Lemma rotate_spec shr32 c r : 0 <= c < 2 ^ 32 -> 0 <= r < 32 -> (shr32 c = 0 \/ shr32 c = c) ->
  rotate shr32 c r = rotl32 c r.
Proof.
  intros Hc Hr Hs. unfold rotate, rotl32, two32. destruct (Z.eqb_spec r 0) as [->|Hn].
  - rewrite Z.shiftl_0_r. change (4294967296) with (2 ^ 32). rewrite Z.sub_0_r, Z.mul_1_r.
    rewrite Z.mod_small by lia. rewrite Z.div_small by lia.
    destruct Hs as [->| ->]; [now rewrite Z.lor_0_r, Z.add_0_r|rewrite Z.lor_diag; lia].
  - rewrite Z.shiftl_mul_pow2, Z.shiftr_div_pow2 by lia.
    change 4294967296 with (2 ^ 32). replace (2 ^ 32) with (2 ^ (32 - r) * 2 ^ r) by (rewrite <- Z.pow_add_r by lia; f_equal; lia).
    rewrite Z.mul_mod_distr_r by (apply Z.pow_nonzero; lia).
    apply lor_disjoint; [lia|]. split; [apply Z.div_pos; [lia|apply Z.pow_pos_nonneg; lia]|].
    apply Z.div_lt_upper_bound; [apply Z.pow_pos_nonneg; lia|]. rewrite <- Z.pow_add_r by lia. replace (32 - r + r) with 32 by lia. lia.
Qed.

(** ---- the site number ---- *)
Lemma ildg_ivol_spec g x : valid_grid g = true -> in_box x (glbSize g) -> prodZ (glbSize g) <= two32 ->
  ildg_ivol g x = ildg_position (glbSize g) x.
Proof.
  intros Hv Hx Hf. unfold ildg_ivol. cbn [fold_left].
  assert (S : forall a s y, ((a mod two32) * s + y) mod two32 = (a * s + y) mod two32).
  { intros a n y. rewrite <- Z.add_mod_idemp_l by discriminate. rewrite Z.mul_mod_idemp_l by discriminate. apply Z.add_mod_idemp_l. discriminate. }
  rewrite (S x.[0]), (S (x.[0] * (glbSize g).[3] + x.[3])), S.
  pose proof (ildg_pos_bounds g Hv x Hx) as Hb. rewrite (ildg_pos_eq g x Hx) in Hb.
  rewrite <- (proj1 (glbVol_split g Hv)) in Hb. unfold ildg_position. apply Z.mod_small. lia.
Qed.
