(* Property C47: bitrev, find_max_pow2, log2N, get_bit. *)
From Coq Require Import ZArith Lia Bool.
From Verif Require Import MathModel MathProofs.
Open Scope Z_scope.

(* Bit k of the result is bit l2n-1-k of the input, for k below l2n, and there is nothing above; every intermediate int stays
   in range for l2n up to 31. *)
Theorem C47_bitrev :
  forall inp l2n, 0 <= l2n <= 31 ->
  (forall k, 0 <= k < l2n -> Z.testbit (bitrev inp l2n) k = Z.testbit inp (l2n - 1 - k)) /\
  0 <= bitrev inp l2n < 2 ^ l2n /\ bitrev inp l2n < 2 ^ 31.
Proof.
  intros inp l2n H. split; [|split].
  - intros k Hk. rewrite bitrev_bits by lia. now replace (k <? l2n) with true by lia.
  - apply bitrev_range; lia.
  - apply Z.lt_le_trans with (2 ^ l2n); [apply bitrev_range; lia|]. apply Z.pow_le_mono_r; lia.
Qed.
Print Assumptions C47_bitrev.

(* On the numbers of l2n bits it is its own inverse. *)
Theorem C47_bitrev_involution :
  forall x l2n, 0 <= l2n <= 31 -> 0 <= x < 2 ^ l2n -> bitrev (bitrev x l2n) l2n = x.
Proof. intros x l2n H B. rewrite bitrev_twice by lia. now apply Z.mod_small. Qed.
Print Assumptions C47_bitrev_involution.

Example C47_bitrev_meets : bitrev 11 5 = 26 /\ bitrev 26 5 = 11.
Proof. split; reflexivity. Qed.

(* The exponent of the largest power of two dividing a, for every non-zero int, negative ones too. *)
Theorem C47_find_max_pow2 :
  forall a, a <> 0 -> - 2 ^ 31 <= a < 2 ^ 31 ->
  exists n, find_max_pow2 32 0 a = Some n /\ 0 <= n < 32 /\ (2 ^ n | a) /\ ~ (2 ^ (n + 1) | a).
Proof. exact find_pow2_int. Qed.
Print Assumptions C47_find_max_pow2.

Example C47_find_meets : find_max_pow2 32 0 (-48) = Some 4.
Proof. reflexivity. Qed.

(* For zero the loop never ends. *)
Theorem C47_find_max_pow2_zero_refuted : forall turns, find_max_pow2 turns 0 0 = None.
Proof. intros. apply find_pow2_zero. Qed.
Print Assumptions C47_find_max_pow2_zero_refuted.

(* What log2N returns: the smallest r, at least 1, with N at most 2^(r+1). *)
Theorem C47_log2N :
  forall N, N <= 2 ^ 30 ->
  exists r, log2N N = Some r /\ 1 <= r /\ N <= 2 ^ (r + 1) /\ (forall j, 1 <= j -> j < r -> 2 ^ (j + 1) < N).
Proof.
  intros N H. destruct (log2N_ok 32 0 N) as (r & E & L & A & B); try lia.
  exists r. split; [exact E|]. split; [lia|]. split; auto.
Qed.
Print Assumptions C47_log2N.

(* This is not the logarithm, rounded up or down, of any power of two above 2: *)
Theorem C47_log2N_refuted : forall k, 2 <= k <= 30 -> log2N (2 ^ k) = Some (k - 1).
Proof.
  intros k H. assert (Hp : 2 ^ k <= 2 ^ 30) by (apply Z.pow_le_mono_r; lia).
  destruct (C47_log2N (2 ^ k) Hp) as (r & E & L & A & B). rewrite E. f_equal.
  apply Z.pow_le_mono_r_iff in A; [|lia..].
  destruct (Z.eq_dec r (k - 1)); auto. exfalso.
  specialize (B (k - 1)). replace (k - 1 + 1) with k in B by lia. lia.
Qed.
Print Assumptions C47_log2N_refuted.

Theorem C47_get_bit : forall i b, 0 <= b -> get_bit i b = Z.testbit i b.
Proof. exact get_bit_ok. Qed.
Print Assumptions C47_get_bit.
