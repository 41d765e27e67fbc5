(** Proofs about the ran2 generator. *)
From Coq Require Import Reals Lra.
From Flocq Require Import Core Relative.
From Verif Require Import Base GeometryModel GeometrySpec GeometryProofs OwnerProofs LabelProofs GeoMiscProofs Ran2Model.
Open Scope Z_scope.

Lemma ck_some z : int_min <= z <= int_max -> ck z = Some z.
Proof. intros H. unfold ck, in_int. now replace ((int_min <=? z) && (z <=? int_max)) with true by lia. Qed.

(** Schrage's decomposition computes a*x mod m without overflow *)
Lemma schrage_ok a q r m x : m = a * q + r -> 0 <= r -> 0 < a -> 0 < q -> m <= int_max -> a * (q - 1) <= int_max ->
  int_max / q * r < m -> 0 <= x <= int_max ->
  a * (q - 1) < m ->
  schrage a q r m x = Some ((a * x) mod m) /\ 0 <= (a * x) mod m < m.
Proof.
  intros Hm Hr Ha Hq Hmi Haq Hk Hx Hlt. unfold int_max in *.
  assert (Hm0 : 0 < m) by nia. split; [|now apply Z.mod_pos_bound].
  unfold schrage. cbv zeta. rewrite Z.quot_div_nonneg by lia.
  pose proof (Z.div_mod x q ltac:(lia)) as E. pose proof (Z.mod_pos_bound x q Hq) as B.
  set (k := x / q) in *. set (d := x mod q) in *.
  assert (Hk0 : 0 <= k) by (apply Z.div_pos; lia).
  assert (Hk1 : k <= 2147483647 / q) by (apply Z.div_le_mono; lia).
  assert (Hkq : 0 <= k * q <= 2147483647) by nia.
  rewrite ck_some by (unfold int_min, int_max; nia).
  replace (x - k * q) with d by lia.
  rewrite ck_some by (unfold int_min, int_max; nia).
  assert (Had : 0 <= a * d < m) by nia.
  assert (Hkr : 0 <= k * r < m) by nia.
  rewrite (ck_some (a * d)) by (unfold int_min, int_max; lia).
  rewrite (ck_some (k * r)) by (unfold int_min, int_max; lia).
  rewrite (ck_some (a * d - k * r)) by (unfold int_min, int_max; lia).
  assert (Ea : a * x = (a * d - k * r) + k * m) by (rewrite E, Hm; ring).
  rewrite Ea, Z.mod_add by lia. destruct (Z.ltb_spec (a * d - k * r) 0).
  - rewrite ck_some by (unfold int_min, int_max; lia). f_equal.
    rewrite <- (Z.mod_add _ 1) by lia. rewrite Z.mod_small; lia.
  - f_equal. rewrite Z.mod_small; lia.
Qed.

Lemma step1_ok x : 0 <= x <= int_max ->
  schrage ia1 iq1 ir1 im1 x = Some ((ia1 * x) mod im1) /\ 0 <= (ia1 * x) mod im1 < im1.
Proof. intros H. apply schrage_ok; try reflexivity; try assumption; vm_compute; congruence || reflexivity || intuition discriminate. Qed.
Lemma step2_ok x : 0 <= x <= int_max ->
  schrage ia2 iq2 ir2 im2 x = Some ((ia2 * x) mod im2) /\ 0 <= (ia2 * x) mod im2 < im2.
Proof. intros H. apply schrage_ok; try reflexivity; try assumption; vm_compute; congruence || reflexivity || intuition discriminate. Qed.

Lemma mul_mod_pow a m x k : 0 < m -> (a * ((a ^ Z.of_nat k * x) mod m)) mod m = (a ^ Z.of_nat (S k) * x) mod m.
Proof.
  intros Hm. rewrite Z.mul_mod_idemp_r by lia. f_equal. rewrite Nat2Z.inj_succ, Z.pow_succ_r by lia. ring.
Qed.

(** seeding *)
Definition lcg1 (k s : Z) : Z := (ia1 ^ k * s) mod im1.
Lemma start_loop_ok s : 0 <= s <= int_max -> forall j k x t, length t = 32%nat ->
  0 <= x <= int_max -> (forall y, (y < 32)%nat -> (j <= y)%nat -> t.[y] = lcg1 (40 - Z.of_nat y) s) ->
  (j + k = 40)%nat -> (k = O -> x = s) -> (k <> O -> x = lcg1 (Z.of_nat k) s) ->
  exists t', start_loop j x t = Some ((if Nat.eqb j 0 then x else lcg1 40 s), t') /\
    length t' = 32%nat /\ forall y, (y < 32)%nat -> t'.[y] = lcg1 (40 - Z.of_nat y) s.
Proof.
  intros Hs. induction j as [|j IH]; intros k x t Ht Hx Hy Hk H0 H1.
  - cbn [start_loop]. exists t. split; [reflexivity|split; [assumption|intros; apply Hy; lia]].
  - cbn [start_loop]. destruct (step1_ok x Hx) as [E B]. rewrite E.
    assert (Ex' : (ia1 * x) mod im1 = lcg1 (Z.of_nat (S k)) s).
    { destruct k.
      - rewrite (H0 eq_refl). reflexivity.
      - rewrite (H1 ltac:(discriminate)). apply mul_mod_pow. reflexivity. }
    rewrite Ex' in *. clear E Ex' H0 H1. set (x' := lcg1 (Z.of_nat (S k)) s) in *.
    destruct (IH (S k) x' (if (j <? RAN2_NTAB)%nat then upd t j x' else t)) as (t' & E' & L' & V').
    + destruct (j <? RAN2_NTAB)%nat; [rewrite upd_length|]; assumption.
    + unfold im1, int_max in *. clear -B. lia.
    + intros y Y1 Y2. unfold RAN2_NTAB. destruct (Nat.ltb_spec j 32).
      * destruct (Nat.eq_dec y j) as [->|Hn].
        -- rewrite nth_upd_eq by lia. unfold x'. f_equal. lia.
        -- rewrite nth_upd_neq by lia. apply Hy; lia.
      * apply Hy; lia.
    + lia.
    + lia.
    + intros _. reflexivity.
    + exists t'. rewrite E'. split; [|split; assumption].
      cbn [Nat.eqb]. destruct (Nat.eqb_spec j 0) as [Hj0|Hjn]; [|reflexivity].
      unfold x'. replace k with 39%nat by lia. reflexivity.
Qed.

Lemma start_ok garbage seed : length garbage = 32%nat -> int_min <= seed < int_max ->
  exists t, start_rnd_gen garbage seed =
    Some (mkGen (lcg1 40 (Z.max (seed + 1) 1)) (Z.max (seed + 1) 1) t (lcg1 40 (Z.max (seed + 1) 1))) /\
    length t = 32%nat /\ forall y, (y < 32)%nat -> t.[y] = lcg1 (40 - Z.of_nat y) (Z.max (seed + 1) 1).
Proof.
  intros Hg Hs. unfold start_rnd_gen. rewrite ck_some by (unfold int_min, int_max in *; lia).
  set (s := Z.max (seed + 1) 1). assert (Hs' : 0 <= s <= int_max) by (unfold s, int_max in *; lia).
  destruct (start_loop_ok s Hs' 40 0 s garbage) as (t & E & L & V); try assumption; try lia.
  replace (RAN2_NTAB + 8)%nat with 40%nat by reflexivity. rewrite E.
  exists t. split; [|split; assumption].
  do 2 f_equal. rewrite (V 0%nat) by lia. reflexivity.
Qed.

(** state ranges *)
Definition gen_ok (g : rnd_gen) : Prop :=
  0 <= idum g < im1 /\ 0 <= idum2 g <= int_max /\ length (iv g) = 32%nat /\
  (forall j, (j < 32)%nat -> 0 <= (iv g).[j] < im1) /\ 0 <= iy g < im1.

Lemma start_gen_ok garbage seed g : length garbage = 32%nat -> int_min <= seed < int_max ->
  start_rnd_gen garbage seed = Some g -> gen_ok g.
Proof.
  intros Hg Hs E. destruct (start_ok garbage seed Hg Hs) as (t & E' & L & V). rewrite E in E'. injection E' as ->.
  assert (H : 0 < im1) by reflexivity.
  assert (P : forall k s, 0 <= lcg1 k s < im1) by (intros; now apply Z.mod_pos_bound).
  split; [apply P|]. split; [cbn [idum2]; unfold int_max, int_min in *; lia|]. split; [assumption|].
  split; [|apply P]. intros j Hj. cbn [iv]. rewrite V by assumption. apply P.
Qed.

Lemma step_ok g : gen_ok g ->
  let j := Z.quot (iy g) ndiv in
  let x := (ia1 * idum g) mod im1 in
  let x2 := (ia2 * idum2 g) mod im2 in
  let d := (iv g).[Z.to_nat j] - x2 in
  0 <= j < 32 /\
  rnd_step g = Some (mkGen x x2 (upd (iv g) (Z.to_nat j) x) (if d <? 0 then d + imm1 else d)) /\
  gen_ok (mkGen x x2 (upd (iv g) (Z.to_nat j) x) (if d <? 0 then d + imm1 else d)) /\ 0 <= x2 < im2.
Proof.
  intros (H1 & H2 & H3 & H4 & H5). cbv zeta.
  assert (Hj : 0 <= Z.quot (iy g) ndiv < 32).
  { unfold im1 in *. change ndiv with 67108862. rewrite Z.quot_div_nonneg by lia. split; [apply Z.div_pos; lia|]. apply Z.div_lt_upper_bound; lia. }
  split; [assumption|].
  destruct (step1_ok (idum g)) as [E1 B1]. { unfold im1, int_max in *. lia. }
  destruct (step2_ok (idum2 g) H2) as [E2 B2].
  set (x := (ia1 * idum g) mod im1) in *. set (x2 := (ia2 * idum2 g) mod im2) in *.
  set (j := Z.to_nat (Z.quot (iy g) ndiv)) in *.
  assert (Hjn : (j < 32)%nat) by (unfold j; lia).
  specialize (H4 j Hjn) as H4j. set (v := (iv g).[j]) in *.
  assert (Hd : - im2 < v - x2 < im1) by lia.
  assert (Hy : 0 <= (if v - x2 <? 0 then v - x2 + imm1 else v - x2) < im1).
  { destruct (Z.ltb_spec (v - x2) 0); unfold imm1, im1, im2 in *; lia. }
  split; [|split; [|assumption]].
  - unfold rnd_step. rewrite E1, E2. fold x. fold x2. fold j.
    replace (_ && _) with true by (unfold RAN2_NTAB; lia).
    rewrite (nth_error_nth' (iv g) 0) by lia. fold v.
    rewrite ck_some by (unfold im1, im2, int_min, int_max in *; lia).
    destruct (Z.ltb_spec (v - x2) 0); [|reflexivity].
    rewrite ck_some by (unfold imm1, im1, im2, int_min, int_max in *; lia). reflexivity.
  - repeat split; cbn [idum idum2 iv iy]; try assumption; try (unfold im2, int_max in *; lia).
    + now rewrite upd_length.
    + destruct (Nat.eq_dec j0 j) as [->|Hn]; [rewrite nth_upd_eq by lia; lia|rewrite nth_upd_neq by lia; apply H4; lia].
    + destruct (Nat.eq_dec j0 j) as [->|Hn]; [rewrite nth_upd_eq by lia; lia|rewrite nth_upd_neq by lia; apply H4; lia].
Qed.

Lemma draws_ok n : forall g, gen_ok g -> exists g', draws n g = Some g' /\ gen_ok g' /\
  idum g' = (ia1 ^ Z.of_nat n * idum g) mod im1 /\ (n <> O -> idum2 g' = (ia2 ^ Z.of_nat n * idum2 g) mod im2).
Proof.
  induction n as [|n IH]; intros g Hg.
  - exists g. split; [reflexivity|]. split; [assumption|]. split; [|congruence].
    change (Z.of_nat 0) with 0. rewrite Z.pow_0_r, Z.mul_1_l. symmetry. apply Z.mod_small. apply Hg.
  - cbn [draws]. destruct (step_ok g Hg) as (_ & E & Hg' & _). rewrite E.
    destruct (IH _ Hg') as (g' & E' & G' & I1 & I2). exists g'. split; [assumption|]. split; [assumption|].
    cbn [idum idum2] in *. split.
    + rewrite I1. rewrite Z.mul_mod_idemp_r by (vm_compute; congruence). f_equal.
      rewrite Nat2Z.inj_succ, Z.pow_succ_r by lia. ring.
    + intros _. destruct n.
      * cbn [draws] in E'. injection E' as <-. cbn [idum2]. f_equal.
      * rewrite I2 by lia. rewrite Z.mul_mod_idemp_r by (vm_compute; congruence). f_equal.
        rewrite (Nat2Z.inj_succ (S n)), Z.pow_succ_r by lia. ring.
Qed.

Lemma draws_S n : forall g, draws (S n) g = match draws n g with Some g' => rnd_step g' | None => None end.
Proof.
  induction n as [|n IH]; intros g; cbn [draws].
  - destruct (rnd_step g); reflexivity.
  - destruct (rnd_step g) as [g'|]; [|reflexivity]. rewrite <- IH. reflexivity.
Qed.

(** distinct seeds never reach the same state *)
Lemma cancel_pow a b m x y k : 0 < m -> (a * b) mod m = 1 mod m ->
  (a ^ Z.of_nat k * x) mod m = (a ^ Z.of_nat k * y) mod m -> x mod m = y mod m.
Proof.
  intros Hm Hi. induction k as [|k IH]; intros H.
  - change (Z.of_nat 0) with 0 in H. rewrite Z.pow_0_r, !Z.mul_1_l in H. exact H.
  - apply IH. rewrite Nat2Z.inj_succ, Z.pow_succ_r in H by lia.
    assert (K : (b * ((a * a ^ Z.of_nat k * x) mod m)) mod m = (b * ((a * a ^ Z.of_nat k * y) mod m)) mod m) by now rewrite H.
    rewrite !Z.mul_mod_idemp_r in K by lia.
    replace (b * (a * a ^ Z.of_nat k * x)) with ((a * b) * (a ^ Z.of_nat k * x)) in K by ring.
    replace (b * (a * a ^ Z.of_nat k * y)) with ((a * b) * (a ^ Z.of_nat k * y)) in K by ring.
    rewrite <- (Z.mul_mod_idemp_l (a * b)), <- (Z.mul_mod_idemp_l (a * b) (_ * y)), Hi in K by lia.
    rewrite !Z.mul_mod_idemp_l in K by lia. rewrite !Z.mul_1_l in K. exact K.
Qed.

Lemma mod_eq_diff x y m : 0 < m -> x mod m = y mod m -> exists q, x - y = q * m.
Proof.
  intros Hm H. exists (x / m - y / m). pose proof (Z.div_mod x m ltac:(lia)). pose proof (Z.div_mod y m ltac:(lia)). lia.
Qed.

Lemma some_eq {A} (a b : A) : Some a = Some b -> b = a.
Proof. congruence. Qed.

Lemma seeds_distinct n gb1 gb2 s1 s2 g1 g2 h1 h2 :
  length gb1 = 32%nat -> length gb2 = 32%nat -> 0 <= s1 < int_max -> 0 <= s2 < int_max ->
  start_rnd_gen gb1 s1 = Some g1 -> start_rnd_gen gb2 s2 = Some g2 ->
  draws n g1 = Some h1 -> draws n g2 = Some h2 ->
  idum h1 = idum h2 -> idum2 h1 = idum2 h2 -> s1 = s2.
Proof.
  intros L1 L2 B1 B2 E1 E2 D1 D2 I1 I2. pose proof I2 as I2'. unfold int_max in *.
  assert (G1 : gen_ok g1) by (eapply start_gen_ok; [exact L1| |exact E1]; unfold int_min, int_max; lia).
  assert (G2 : gen_ok g2) by (eapply start_gen_ok; [exact L2| |exact E2]; unfold int_min, int_max; lia).
  destruct (draws_ok n g1 G1) as (h & Eh & _ & J1 & K1). rewrite D1 in Eh. injection Eh as <-.
  destruct (draws_ok n g2 G2) as (h & Eh & _ & J2 & K2). rewrite D2 in Eh. injection Eh as <-.
  destruct (start_ok gb1 s1 L1) as (t1 & S1 & _). { unfold int_min, int_max; lia. }
  destruct (start_ok gb2 s2 L2) as (t2 & S2 & _). { unfold int_min, int_max; lia. }
  rewrite E1 in S1. rewrite E2 in S2. injection S1 as ->. injection S2 as ->. cbn [idum idum2] in *.
  rewrite !Z.max_l in * by lia.
  unfold lcg1 in *. rewrite I1 in J1. rewrite J1 in J2. rewrite !Z.mul_mod_idemp_r in J2 by (vm_compute; congruence).
  rewrite !Z.mul_assoc in J2.
  replace (ia1 ^ Z.of_nat n * ia1 ^ 40) with (ia1 ^ Z.of_nat (n + 40)) in J2
    by (rewrite Nat2Z.inj_add, Z.pow_add_r by lia; reflexivity).
  assert (M1 : (s1 + 1) mod im1 = (s2 + 1) mod im1).
  { eapply (cancel_pow ia1 2082061899 im1); [reflexivity|vm_compute; reflexivity|exact J2]. }
  apply mod_eq_diff in M1 as [q Hq]; [|reflexivity].
  destruct n as [|n].
  - cbn [draws] in D1, D2. rewrite (some_eq _ _ D1), (some_eq _ _ D2) in I2'. cbn [idum2] in I2'. clear -I2'. lia.
  - specialize (K1 ltac:(discriminate)). specialize (K2 ltac:(discriminate)). rewrite I2 in K1. rewrite K1 in K2.
    assert (M2 : (s1 + 1) mod im2 = (s2 + 1) mod im2).
    { eapply (cancel_pow ia2 1481316021 im2); [reflexivity|vm_compute; reflexivity|exact K2]. }
    apply mod_eq_diff in M2 as [q' Hq']; [|reflexivity].
    unfold im1, im2 in *. clear -Hq Hq' B1 B2. assert (-2 < q < 2) by nia. assert (-2 < q' < 2) by nia. nia.
Qed.

(** double precision *)
Global Instance prec53 : Prec_gt_0 53. Proof. reflexivity. Qed.
Lemma b64_le x y : (x <= y)%R -> (b64 x <= b64 y)%R.
Proof. apply round_le; typeclasses eauto. Qed.
Lemma b64_fmt m e : Z.abs m < 2 ^ 53 -> -1074 <= e -> b64 (IZR m * bpow radix2 e) = (IZR m * bpow radix2 e)%R.
Proof.
  intros Hm He. unfold b64. apply round_generic; [typeclasses eauto|]. apply generic_format_FLT.
  exists (Float radix2 m e); [reflexivity|exact Hm|exact He].
Qed.
Lemma b64_int m : Z.abs m < 2 ^ 53 -> b64 (IZR m) = IZR m.
Proof. intros H. pose proof (b64_fmt m 0 H ltac:(lia)) as K. rewrite Rmult_1_r in K. exact K. Qed.
Lemma b64_0 : b64 0 = 0%R. Proof. apply (b64_int 0). reflexivity. Qed.
Lemma b64_pos x : (0 <= x)%R -> (0 <= b64 x)%R.
Proof. intros H. rewrite <- b64_0. now apply b64_le. Qed.

Lemma am_pos : (/ 4294967296 <= am)%R.
Proof.
  unfold am. pose proof (b64_fmt 1 (-32) ltac:(reflexivity) ltac:(lia)) as K.
  change (bpow radix2 (-32)) with (/ 4294967296)%R in K. rewrite Rmult_1_l in K. rewrite <- K. apply b64_le.
  unfold im1. lra.
Qed.
Lemma rnmx_bound : (1/2 <= rnmx <= 1 - / 16777216)%R.
Proof.
  assert (E : (/ 16777216 <= eps <= 1/2)%R).
  { unfold eps. pose proof (b64_fmt 1 (-24) ltac:(reflexivity) ltac:(lia)) as K.
    change (bpow radix2 (-24)) with (/ 16777216)%R in K. rewrite Rmult_1_l in K.
    pose proof (b64_fmt 1 (-1) ltac:(reflexivity) ltac:(lia)) as K'.
    change (bpow radix2 (-1)) with (/ 2)%R in K'.
    split; [rewrite <- K; apply b64_le; lra|]. replace (1/2)%R with (1 * /2)%R by lra. rewrite <- K'. apply b64_le. lra. }
  unfold rnmx. pose proof (b64_fmt 16777215 (-24) ltac:(reflexivity) ltac:(lia)) as K.
  change (bpow radix2 (-24)) with (/ 16777216)%R in K.
  pose proof (b64_fmt 1 (-1) ltac:(reflexivity) ltac:(lia)) as K'.
  change (bpow radix2 (-1)) with (/ 2)%R in K'. split.
  - replace (1/2)%R with (1 * /2)%R by lra. rewrite <- K'. apply b64_le. lra.
  - replace (1 - / 16777216)%R with (16777215 * / 16777216)%R by lra. rewrite <- K. apply b64_le. lra.
Qed.

Lemma unif01_range y : 0 <= y -> (0 <= unif01 y <= 1 - / 16777216)%R.
Proof.
  intros Hy. pose proof am_pos. pose proof rnmx_bound. unfold unif01. split.
  - apply Rmin_glb; [|lra]. apply b64_pos. apply Rmult_le_pos; [lra|]. now apply IZR_le.
  - eapply Rle_trans; [apply Rmin_r|]. lra.
Qed.
Lemma unif01_zero y : 0 <= y -> (unif01 y = 0%R <-> y = 0).
Proof.
  intros Hy. pose proof am_pos. pose proof rnmx_bound. split.
  - intros E. destruct (Z.eq_dec y 0) as [|Hn]; [assumption|exfalso].
    assert (1 <= IZR y)%R by (apply IZR_le; lia).
    assert (/ 4294967296 <= b64 (am * IZR y))%R.
    { pose proof (b64_fmt 1 (-32) ltac:(reflexivity) ltac:(lia)) as K.
      change (bpow radix2 (-32)) with (/ 4294967296)%R in K. rewrite Rmult_1_l in K. rewrite <- K. apply b64_le. nra. }
    unfold unif01 in E. unfold Rmin in E. destruct (Rle_dec (b64 (am * IZR y)) rnmx); lra.
  - intros ->. unfold unif01. rewrite Rmult_0_r, b64_0. apply Rmin_left. lra.
Qed.

(** product with a positive integer stays strictly below it *)
Lemma b64_below u L : 0 < L < 2 ^ 53 -> (0 <= u <= 1 - / 16777216)%R -> (0 <= b64 (u * IZR L) < IZR L)%R.
Proof.
  intros HL Hu. assert (HL1 : (1 <= IZR L)%R) by (apply IZR_le; lia).
  assert (Hp : (0 <= u * IZR L)%R) by nra. split; [now apply b64_pos|].
  destruct (Rle_dec (u * IZR L) (1/2)) as [H|H].
  - apply Rle_lt_trans with (1/2)%R; [|lra].
    pose proof (b64_fmt 1 (-1) ltac:(reflexivity) ltac:(lia)) as K'.
    change (bpow radix2 (-1)) with (/ 2)%R in K'. replace (1/2)%R with (1 * /2)%R by lra. rewrite <- K'. apply b64_le. lra.
  - assert (K : (Rabs (b64 (u * IZR L) - u * IZR L) <= / 2 * bpow radix2 (-53 + 1) * Rabs (u * IZR L))%R).
    { apply (relative_error_N_FLT radix2 (-1074) 53 ltac:(reflexivity)).
      rewrite (Rabs_pos_eq _ Hp). apply Rle_trans with (bpow radix2 (-1)); [apply bpow_le; lia|].
      change (bpow radix2 (-1)) with (/2)%R. lra. }
    rewrite (Rabs_pos_eq _ Hp) in K.
    assert (Bp : (bpow radix2 (-53 + 1) <= / 33554432)%R).
    { change (/ 33554432)%R with (bpow radix2 (-25)). apply bpow_le. lia. }
    assert (Bp0 : (0 < bpow radix2 (-53 + 1))%R) by apply bpow_gt_0.
    assert (b64 (u * IZR L) - u * IZR L <= / 2 * / 33554432 * (u * IZR L))%R.
    { eapply Rle_trans; [apply Rle_abs|]. eapply Rle_trans; [exact K|]. apply Rmult_le_compat_r; lra. }
    assert (u * IZR L <= (1 - / 16777216) * IZR L)%R by nra. lra.
Qed.

Lemma unif_value_int y L : 0 <= y -> 0 < L < 2 ^ 53 ->
  (0 <= unif_value y 0 (IZR L) < IZR L)%R /\ 0 <= Ztrunc (unif_value y 0 (IZR L)) < L.
Proof.
  intros Hy HL.
  assert (A : (0 <= unif_value y 0 (IZR L) < IZR L)%R).
  { unfold unif_value. rewrite Rminus_0_r, b64_int, Rplus_0_r by lia.
    replace (b64 (b64 (unif01 y * IZR L))) with (b64 (unif01 y * IZR L)).
    - apply b64_below; [assumption|]. now apply unif01_range.
    - symmetry. unfold b64. apply round_generic; [typeclasses eauto|]. apply generic_format_round; typeclasses eauto. }
  split; [assumption|]. rewrite Ztrunc_floor by apply A. split.
  - apply Zfloor_lub. apply A.
  - apply lt_IZR. apply Rle_lt_trans with (unif_value y 0 (IZR L)); [apply Zfloor_lb|apply A].
Qed.

Lemma unif_value_01 y : 0 <= y -> unif_value y 0 1 = unif01 y.
Proof.
  intros Hy. unfold unif_value. rewrite Rminus_0_r, (b64_int 1), Rmult_1_r, Rplus_0_r by reflexivity.
  assert (F : b64 (unif01 y) = unif01 y).
  { unfold unif01, Rmin. destruct (Rle_dec (b64 (am * IZR y)) rnmx); unfold rnmx, b64;
    (apply round_generic; [typeclasses eauto|apply generic_format_round; typeclasses eauto]). }
  now rewrite F, F.
Qed.

Lemma random_coords_ok sizes : forall g, gen_ok g -> Forall (fun L => 0 < L < 2 ^ 53) sizes ->
  exists c g', random_coords g sizes = Some (c, g') /\ gen_ok g' /\ in_box c sizes.
Proof.
  induction sizes as [|L r IH]; intros g Hg Hs; inversion Hs as [|? ? HL Hr]; subst; cbn [random_coords].
  - exists [], g. split; [reflexivity|]. split; [assumption|constructor].
  - destruct (step_ok g Hg) as (_ & E & G' & _). unfold rnd_get_unif. rewrite E.
    destruct (IH _ G' Hr) as (c & g'' & E'' & G'' & B). rewrite E''.
    eexists _, g''. split; [reflexivity|]. split; [assumption|]. constructor; [|assumption].
    apply unif_value_int; [apply G'|assumption].
Qed.

(** the local generators *)
Lemma internal_seed_ok V gg : gen_ok gg -> 0 < V < RAND_MAX ->
  exists s g', internal_seed V gg = Some (s, g') /\ 0 <= s < RAND_MAX - V.
Proof.
  intros Hg HV. destruct (step_ok gg Hg) as (_ & E & G' & _). unfold internal_seed, rnd_get_unif. rewrite E.
  unfold RAND_MAX in *. rewrite b64_int by lia.
  match type of G' with gen_ok ?h => destruct (unif_value_int (iy h) (2147483647 - V)) as [_ B]; [apply G'|lia|] end.
  rewrite ck_some by (unfold int_min, int_max; lia). eexists _, _. split; [reflexivity|exact B].
Qed.

Lemma site_gen_ok V s gl garbage : length garbage = 32%nat -> 0 <= s < RAND_MAX - V -> 0 <= gl < V ->
  exists g, site_gen s gl garbage = Some g /\ gen_ok g /\ start_rnd_gen garbage (s + gl) = Some g.
Proof.
  intros Hl Hs Hg. unfold RAND_MAX in *. unfold site_gen. replace (s + gl <? 0) with false by lia.
  rewrite wrap32_id by (unfold in_int, int_min, int_max; lia).
  destruct (start_ok garbage (s + gl) Hl) as (t & E & _). { unfold int_min, int_max; lia. }
  eexists. rewrite E. split; [reflexivity|]. split; [|reflexivity].
  eapply start_gen_ok; [exact Hl| |exact E]. unfold int_min, int_max; lia.
Qed.

(** the content of the structure before does not matter *)
Lemma start_garbage g1 g2 seed : length g1 = 32%nat -> length g2 = 32%nat -> int_min <= seed < int_max ->
  start_rnd_gen g1 seed = start_rnd_gen g2 seed.
Proof.
  intros L1 L2 Hs. destruct (start_ok g1 seed L1 Hs) as (t1 & -> & M1 & V1).
  destruct (start_ok g2 seed L2 Hs) as (t2 & -> & M2 & V2). do 2 f_equal.
  apply nth_ext with (d := 0) (d' := 0); [congruence|]. intros n Hn. rewrite V1, V2 by congruence. reflexivity.
Qed.
