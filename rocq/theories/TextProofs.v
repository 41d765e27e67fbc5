From Verif Require Import Base TextModel.
Open Scope Z_scope.

(* number of positions of s where sub is found *)
Fixpoint occurrences (s sub : cstring) : Z :=
  (if starts sub s then 1 else 0) + match s with [] => 0 | _ :: s' => occurrences s' sub end.

Lemma strstr_none s sub : strstr s sub = None -> occurrences s sub = 0.
Proof.
  induction s as [|a s IH]; cbn [strstr occurrences]; (destruct (starts sub _); [discriminate|]); auto.
Qed.
Lemma strstr_some s sub r : strstr s sub = Some r ->
  (length r <= length s)%nat /\ starts sub r = true /\ occurrences s sub = occurrences r sub.
Proof.
  induction s as [|a s IH]; cbn [strstr occurrences].
  - destruct (starts sub []) eqn:E; [|discriminate]. intros [= <-]. split; auto. split; auto. cbn [occurrences]. now rewrite E.
  - destruct (starts sub (a :: s)) eqn:E.
    + intros [= <-]. split; auto. split; auto. cbn [occurrences]. now rewrite E.
    + intros H. destruct (IH H) as (A & B & C). split; [cbn; lia|]. split; auto.
Qed.
Lemma count_loop_ok sub : sub <> [] -> forall fuel s rc, (length s < fuel)%nat ->
  count_loop fuel (strstr s sub) sub rc = Some (rc + occurrences s sub).
Proof.
  intros N. induction fuel as [|f IH]; intros s rc L; [lia|]. cbn [count_loop].
  destruct (strstr s sub) as [r|] eqn:E.
  - destruct (strstr_some _ _ _ E) as (A & B & C). destruct r as [|a r]; [destruct sub; [congruence|discriminate]|].
    rewrite IH by (cbn in A; lia). f_equal. rewrite C. cbn [occurrences]. rewrite B. ring.
  - rewrite (strstr_none _ _ E). f_equal. ring.
Qed.
Lemma count_substrings_ok s sub : sub <> [] -> count_substrings (Some s) sub = Some (occurrences s sub).
Proof. intros N. unfold count_substrings. rewrite count_loop_ok by (auto; lia). f_equal. Qed.
Lemma occurrences_filter s sub : sub <> [] ->
  occurrences s sub = Z.of_nat (length (filter (fun p => starts sub (skipn p s)) (seq 0 (length s)))).
Proof.
  intros N. induction s as [|a s IH].
  - cbn. destruct sub; [congruence|reflexivity].
  - cbn [occurrences length seq filter]. rewrite IH. rewrite <- seq_shift.
    assert (E : forall l, length (filter (fun p => starts sub (skipn p (a :: s))) (map S l)) =
                  length (filter (fun p => starts sub (skipn p s)) l)).
    { induction l as [|x l IHl]; auto. cbn [map filter skipn]. destruct (starts sub (skipn x s)); cbn; auto. }
    cbn [skipn]. destruct (starts sub (a :: s)); cbn [length]; rewrite E; lia.
Qed.

Lemma starts_app sub s : starts sub s = true <-> exists r, s = sub ++ r.
Proof.
  revert s; induction sub as [|a sub IH]; intros s; cbn.
  - split; [exists s; auto|auto].
  - destruct s as [|b s]; [split; [discriminate|intros [r H]; discriminate]|].
    rewrite andb_true_iff, Z.eqb_eq, IH. split.
    + intros [-> [r ->]]. exists r. reflexivity.
    + intros [r H]. injection H as -> ->. split; auto. now exists r.
Qed.

(* rounding *)
Lemma dne_le q u k : 0 < u -> q <= k * u -> div_near_even q u <= k.
Proof.
  intros U H. unfold div_near_even. pose proof (Z.div_mod q u) as D. pose proof (Z.mod_pos_bound q u U) as M.
  set (d := q / u) in *. set (r := q mod u) in *. assert (d <= k) by nia.
  destruct (2 * r <? u) eqn:E1; auto. assert (d < k) by (destruct (Z.eq_dec d k); [nia|lia]).
  destruct (2 * r =? u); [destruct (Z.even d)|]; lia.
Qed.
Lemma dne_ge q u k : 0 < u -> k * u <= q -> k <= div_near_even q u.
Proof.
  intros U H. unfold div_near_even. pose proof (Z.div_mod q u) as D. pose proof (Z.mod_pos_bound q u U) as M.
  set (d := q / u) in *. set (r := q mod u) in *. assert (k <= d) by nia.
  destruct (2 * r <? u); auto. destruct (2 * r =? u); [destruct (Z.even d)|]; lia.
Qed.
Lemma to_double_le q k : 0 <= q -> 0 <= k -> q <= 2 ^ k -> to_double q <= 2 ^ k.
Proof.
  intros Q K H. unfold to_double. set (e := Z.max 0 (Z.log2 q - 52)).
  assert (P : 0 < 2 ^ e) by (apply Z.pow_pos_nonneg; lia).
  assert (L : Z.log2 q <= k) by (apply Z.log2_le_mono in H; rewrite Z.log2_pow2 in H; lia).
  replace (2 ^ k) with (2 ^ (k - e) * 2 ^ e) by (rewrite <- Z.pow_add_r by lia; f_equal; lia).
  apply Z.mul_le_mono_nonneg_r; [lia|]. apply dne_le; auto. rewrite <- Z.pow_add_r by lia. now replace (k - e + e) with k by lia.
Qed.
Lemma to_double_ge q k : 0 <= k -> 2 ^ k <= q -> 2 ^ k <= to_double q.
Proof.
  intros K H. unfold to_double. set (e := Z.max 0 (Z.log2 q - 52)).
  assert (P : 0 < 2 ^ e) by (apply Z.pow_pos_nonneg; lia).
  assert (K0 : 0 < 2 ^ k) by (apply Z.pow_pos_nonneg; lia).
  assert (G : 2 ^ Z.log2 q <= q) by (apply Z.log2_spec; lia).
  assert (L : k <= Z.log2 q) by (apply Z.log2_le_mono in H; rewrite Z.log2_pow2 in H; lia).
  apply Z.le_trans with (2 ^ Z.log2 q); [apply Z.pow_le_mono_r; lia|].
  pose proof (Z.log2_nonneg q).
  replace (2 ^ Z.log2 q) with (2 ^ (Z.log2 q - e) * 2 ^ e) by (rewrite <- Z.pow_add_r by lia; f_equal; lia).
  apply Z.mul_le_mono_nonneg_r; [lia|]. apply dne_ge; auto. rewrite <- Z.pow_add_r by lia.
  now replace (Z.log2 q - e + e) with (Z.log2 q) by lia.
Qed.
Lemma to_double_small q : 0 <= q < 2 ^ 53 -> to_double q = q.
Proof.
  intros H. unfold to_double. assert (Z.log2 q <= 52).
  { destruct (Z.eq_dec q 0) as [->|]; [cbn; lia|]. assert (Z.log2 q < 53) by (apply Z.log2_lt_pow2; lia). lia. }
  replace (Z.max 0 (Z.log2 q - 52)) with 0 by lia. change (2 ^ 0) with 1. unfold div_near_even. rewrite Z.div_1_r, Z.mod_1_r. cbn. lia.
Qed.

(* the loop *)
Lemma friendly_loop_ok num : forall fuel iord, 0 <= iord -> num <= 1024 ^ (iord + Z.of_nat fuel) -> (0 < fuel)%nat ->
  (1 <= iord -> 1024 ^ iord < num) ->
  exists i, friendly_loop fuel num (1024 ^ iord) 1024 iord = Some (num, 1024 ^ i, i) /\ iord <= i /\
    num <= 1024 ^ (i + 1) /\ (1 <= i -> 1024 ^ i < num).
Proof.
  induction fuel as [|f IH]; intros iord I H F B; [lia|]. cbn [friendly_loop].
  assert (E : 1024 * 1024 ^ iord = 1024 ^ (iord + 1)) by (rewrite Z.pow_add_r by lia; ring).
  rewrite E. destruct (Z.ltb_spec (1024 ^ (iord + 1)) num) as [L|L].
  - rewrite (Z.mul_comm (1024 ^ iord) 1024), E. destruct (IH (iord + 1)) as (i & A & C & D & G); try lia.
    + replace (iord + 1 + Z.of_nat f) with (iord + Z.of_nat (S f)) by lia. auto.
    + destruct f; [|lia]. exfalso. replace (iord + Z.of_nat 1) with (iord + 1) in H by lia. lia.
    + exists i. split; auto. split; [lia|]. auto.
  - exists iord. split; auto. split; [lia|]. auto.
Qed.

Lemma pow1024 k : 0 <= k -> 1024 ^ k = 2 ^ (10 * k).
Proof. intros H. change 1024 with (2 ^ 10). now rewrite Z.pow_mul_r by lia. Qed.

Lemma friendly_ok q : 0 <= q < 2 ^ 64 ->
  exists i, friendly_loop 7 (to_double q) 1 1024 0 = Some (to_double q, 1024 ^ i, i) /\ 0 <= i <= 6 /\
    to_double q <= 1024 ^ (i + 1) /\ (1 <= i -> 1024 ^ i < to_double q).
Proof.
  intros H. change 1 with (1024 ^ 0).
  destruct (friendly_loop_ok (to_double q) 7 0) as (i & A & B & C & D); try lia.
  - rewrite pow1024 by lia. apply to_double_le; try lia.
  - exists i. split; auto. split; [|auto]. split; auto. destruct (Z_le_gt_dec i 6); auto. exfalso.
    assert (T : to_double q <= 2 ^ 64) by (apply to_double_le; lia).
    assert (2 ^ 64 <= 1024 ^ i) by (rewrite pow1024 by lia; apply Z.pow_le_mono_r; lia). lia.
Qed.

Lemma friendly_small q : 0 <= q <= 2 ^ 60 -> forall i, (1 <= i -> 1024 ^ i < to_double q) -> i < 6.
Proof.
  intros H i B. destruct (Z_lt_ge_dec i 6); auto. exfalso. assert (T : to_double q <= 2 ^ 60) by (apply to_double_le; lia).
  assert (2 ^ 60 <= 1024 ^ i) by (rewrite pow1024 by lia; apply Z.pow_le_mono_r; lia). lia.
Qed.

Lemma never_ends : forall fuel iord, friendly_loop fuel 2 1 1 iord = None.
Proof. induction fuel as [|f IH]; intros iord; cbn [friendly_loop]; auto. apply IH. Qed.
