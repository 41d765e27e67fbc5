From Verif Require Import Base MathModel.
Open Scope Z_scope.

Lemma land_bit x i : 0 <= i -> negb (Z.land x (Z.shiftl 1 i) =? 0) = Z.testbit x i.
Proof.
  intros Hi. destruct (Z.testbit x i) eqn:E.
  - apply negb_true_iff, Z.eqb_neq. intros H. assert (T : Z.testbit (Z.land x (Z.shiftl 1 i)) i = false) by now rewrite H, Z.bits_0.
    rewrite Z.land_spec, E, Z.shiftl_spec, Z.sub_diag in T by lia. cbn in T. discriminate.
  - apply negb_false_iff, Z.eqb_eq. apply Z.bits_inj'. intros k Hk. rewrite Z.land_spec, Z.bits_0.
    destruct (Z.eq_dec k i) as [->|N]; [now rewrite E|].
    rewrite Z.shiftl_spec by lia. 
    assert (T : Z.testbit 1 (k - i) = false).
    { destruct (Z.ltb_spec k i); [apply Z.testbit_neg_r; lia|]. 
      replace 1 with (2 ^ 0) by reflexivity. apply Z.pow2_bits_false. lia. }
    rewrite T. apply andb_false_r.
Qed.

(** one more bit above a number which is below *)
Lemma add_bit out p k : 0 <= k -> 0 <= p -> (forall j, 0 <= j -> j <= p -> Z.testbit out j = false) ->
  Z.testbit (out + Z.shiftl 1 p) k = (Z.testbit out k || (k =? p)).
Proof.
  intros Hk Hp H. rewrite Z.shiftl_1_l.
  assert (E : out + 2 ^ p = Z.lor out (2 ^ p)).
  { rewrite <- Z.lxor_lor; [apply Z.add_nocarry_lxor|];
      (apply Z.bits_inj'; intros j Hj; rewrite Z.land_spec, Z.bits_0, Z.pow2_bits_eqb by lia;
       destruct (Z.eqb_spec p j) as [->|]; [rewrite H by lia; reflexivity|apply andb_false_r]). }
  rewrite E, Z.lor_spec, Z.pow2_bits_eqb by lia. now rewrite (Z.eqb_sym p k).
Qed.

Lemma bitrev_loop_ok inp l2n : forall n i out, 0 <= i -> Z.of_nat n = l2n - i ->
  (forall k, 0 <= k -> Z.testbit out k = (l2n - i <=? k) && (k <? l2n) && Z.testbit inp (l2n - 1 - k)) ->
  forall k, 0 <= k -> Z.testbit (bitrev_loop n i inp l2n out) k = (k <? l2n) && Z.testbit inp (l2n - 1 - k).
Proof.
  induction n as [|n IH]; intros i out Hi En H k Hk; cbn [bitrev_loop].
  - rewrite H by auto. replace (l2n - i) with 0 by lia. replace (0 <=? k) with true by lia. reflexivity.
  - apply (IH (i + 1)); auto; try lia. clear k Hk. intros k Hk. rewrite land_bit by lia.
    assert (L : forall j, 0 <= j -> j <= l2n - i - 1 -> Z.testbit out j = false).
    { intros j Hj Hj2. rewrite H by lia. replace (l2n - i <=? j) with false by lia. reflexivity. }
    destruct (Z.eq_dec k (l2n - i - 1)) as [->|N].
    + replace (l2n - 1 - (l2n - i - 1)) with i by lia.
      replace (l2n - (i + 1) <=? l2n - i - 1) with true by lia. replace (l2n - i - 1 <? l2n) with true by lia. cbn [andb].
      destruct (Z.testbit inp i); [|apply L; lia].
      rewrite add_bit by (auto; lia). rewrite Z.eqb_refl. apply orb_true_r.
    + assert (E : Z.testbit (if Z.testbit inp i then out + Z.shiftl 1 (l2n - i - 1) else out) k = Z.testbit out k).
      { destruct (Z.testbit inp i); auto. rewrite add_bit by (auto; lia). replace (k =? l2n - i - 1) with false by lia.
        apply orb_false_r. }
      rewrite E, H by auto. f_equal. f_equal. lia.
Qed.

Lemma bitrev_bits inp l2n k : 0 <= l2n -> 0 <= k ->
  Z.testbit (bitrev inp l2n) k = (k <? l2n) && Z.testbit inp (l2n - 1 - k).
Proof.
  intros Hl Hk. unfold bitrev. apply bitrev_loop_ok; auto; try lia. intros j Hj. rewrite Z.bits_0.
  destruct (Z.leb_spec (l2n - 0) j), (Z.ltb_spec j l2n); auto; lia.
Qed.

Lemma bitrev_loop_nonneg n : forall i inp l2n out, 0 <= out -> 0 <= bitrev_loop n i inp l2n out.
Proof.
  induction n as [|n IH]; intros i inp l2n out H; cbn [bitrev_loop]; auto. apply IH.
  destruct (negb _); auto. assert (0 <= Z.shiftl 1 (l2n - i - 1)) by (apply Z.shiftl_nonneg; lia). lia.
Qed.
Lemma below_pow2 x l : 0 <= l -> 0 <= x -> (forall k, l <= k -> Z.testbit x k = false) -> x < 2 ^ l.
Proof.
  intros Hl Hx H. assert (E : x = x mod 2 ^ l).
  { apply Z.bits_inj'. intros k Hk. rewrite Z.testbit_mod_pow2 by lia. destruct (Z.ltb_spec k l); auto. }
  rewrite E. apply Z.mod_pos_bound. apply Z.pow_pos_nonneg; lia.
Qed.
Lemma bitrev_range inp l2n : 0 <= l2n -> 0 <= bitrev inp l2n < 2 ^ l2n.
Proof.
  intros Hl. assert (N : 0 <= bitrev inp l2n) by (apply bitrev_loop_nonneg; lia). split; auto.
  apply below_pow2; auto. intros k Hk. rewrite bitrev_bits by lia. now replace (k <? l2n) with false by lia.
Qed.
Lemma bitrev_twice x l2n : 0 <= l2n -> bitrev (bitrev x l2n) l2n = x mod 2 ^ l2n.
Proof.
  intros Hl. apply Z.bits_inj'. intros k Hk. rewrite bitrev_bits, Z.testbit_mod_pow2 by lia.
  destruct (Z.ltb_spec k l2n); auto. cbn [andb]. rewrite bitrev_bits by lia.
  replace (l2n - 1 - k <? l2n) with true by lia. cbn [andb]. f_equal. lia.
Qed.

Lemma land1 a : Z.land a 1 = a mod 2.
Proof. change 1 with (Z.ones 1). rewrite Z.land_ones by lia. reflexivity. Qed.

Lemma find_pow2_ok : forall k fuel nl b, (k < fuel)%nat -> b mod 2 = 1 ->
  find_max_pow2 fuel nl (b * 2 ^ Z.of_nat k) = Some (nl + Z.of_nat k).
Proof.
  induction k as [|k IH]; intros fuel nl b F O; (destruct fuel as [|fuel]; [lia|]); cbn [find_max_pow2].
  - change (2 ^ Z.of_nat 0) with 1. rewrite Z.mul_1_r, land1, O. cbn. f_equal. lia.
  - assert (E : b * 2 ^ Z.of_nat (S k) = 2 * (b * 2 ^ Z.of_nat k)).
    { rewrite Nat2Z.inj_succ, Z.pow_succ_r by lia. ring. }
    rewrite E, land1, Z.mul_comm, Z.mod_mul by lia. cbn [Z.eqb].
    rewrite Z.shiftr_div_pow2 by lia. change (2 ^ 1) with 2. rewrite Z.div_mul by lia.
    rewrite IH by (auto; lia). f_equal. lia.
Qed.

(** every number which is not zero is odd times a power of two *)
Lemma odd_part : forall n a, (Z.abs_nat a <= n)%nat -> a <> 0 -> exists k b, b mod 2 = 1 /\ a = b * 2 ^ Z.of_nat k.
Proof.
  induction n as [|n IH]; intros a L N; [lia|].
  destruct (Z.eq_dec (a mod 2) 1) as [O|O].
  - exists 0%nat, a. split; auto. change (2 ^ Z.of_nat 0) with 1. lia.
  - assert (E : a = 2 * (a / 2)) by (pose proof (Z.mod_pos_bound a 2); pose proof (Z.div_mod a 2); lia).
    destruct (IH (a / 2)) as (k & b & B & K); [lia|lia|].
    exists (S k), b. split; auto. rewrite Nat2Z.inj_succ, Z.pow_succ_r by lia. lia.
Qed.

Lemma find_pow2_int a : a <> 0 -> - 2 ^ 31 <= a < 2 ^ 31 ->
  exists n, find_max_pow2 32 0 a = Some n /\ 0 <= n < 32 /\ (2 ^ n | a) /\ ~ (2 ^ (n + 1) | a).
Proof.
  intros N B. destruct (odd_part (Z.abs_nat a) a (Nat.le_refl _) N) as (k & b & O & E).
  assert (P : 0 < 2 ^ Z.of_nat k) by (apply Z.pow_pos_nonneg; lia).
  assert (K : (k < 32)%nat).
  { destruct (Nat.ltb_spec k 32); auto. exfalso.
    assert (2 ^ 32 <= 2 ^ Z.of_nat k) by (apply Z.pow_le_mono_r; lia).
    assert (b <> 0) by (intros ->; discriminate). change (2 ^ 31) with 2147483648 in B. change (2 ^ 32) with 4294967296 in *. nia. }
  exists (Z.of_nat k). split; [rewrite E at 1; rewrite find_pow2_ok by auto; reflexivity|].
  split; [lia|]. split; [exists b; lia|].
  intros (c & C). rewrite Z.pow_add_r in C by lia. change (2 ^ 1) with 2 in C. rewrite E in C.
  assert (b = 2 * c) by nia. subst b. rewrite Z.mul_comm, Z.mod_mul in O by lia. discriminate.
Qed.

Lemma find_pow2_zero fuel : forall nl, find_max_pow2 fuel nl 0 = None.
Proof. induction fuel as [|fuel IH]; intros nl; cbn; auto. Qed.

Lemma log2N_ok : forall fuel l N, 0 <= l -> (forall j, 1 <= j -> j <= l -> 2 ^ (j + 1) < N) -> N <= 2 ^ 30 -> 30 - l <= Z.of_nat fuel ->
  l < 30 -> exists r, log2N_loop fuel l N = Some r /\ l < r /\ N <= 2 ^ (r + 1) /\ (forall j, 1 <= j -> j < r -> 2 ^ (j + 1) < N).
Proof.
  induction fuel as [|fuel IH]; intros l N Hl H HN F L; [lia|]. cbn [log2N_loop].
  assert (S2 : Z.shiftl 2 (l + 1) = 2 ^ (l + 1 + 1)).
  { rewrite Z.shiftl_mul_pow2 by lia. rewrite (Z.pow_add_r 2 (l + 1) 1) by lia. ring. }
  rewrite S2.
  destruct (Z.eq_dec l 29) as [->|NL].
  - exfalso. assert (X : 2 ^ (29 + 1) < N) by (apply H; lia). change (29 + 1) with 30 in X. lia.
  - assert (Q : 2 ^ (l + 1 + 1) <= 2 ^ 30) by (apply Z.pow_le_mono_r; lia).
    assert (2 ^ 30 <= 2147483647) by (compute; discriminate).
    replace (2 ^ (l + 1 + 1) <=? 2147483647) with true by (symmetry; apply Z.leb_le; lia). cbn [negb].
    destruct (Z.ltb_spec (2 ^ (l + 1 + 1)) N) as [LT|GE].
    + destruct (IH (l + 1) N) as (r & R & A & B & C); try lia.
      * intros j J1 J2. destruct (Z.eq_dec j (l + 1)) as [->|]; auto. apply H; lia.
      * exists r. repeat split; auto; lia.
    + exists (l + 1). split; auto. split; [lia|]. split; auto. intros j J1 J2. apply H; lia.
Qed.

Lemma get_bit_ok i b : 0 <= b -> get_bit i b = Z.testbit i b.
Proof.
  intros Hb. unfold get_bit. rewrite <- (Z.shiftl_0_r 1) at 1. rewrite land_bit by lia. rewrite Z.shiftr_spec by lia. reflexivity.
Qed.
