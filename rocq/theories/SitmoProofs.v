From Coq Require Import Reals Lra.
From Flocq Require Import Core.
From Verif Require Import Base GeometryModel GeometryProofs OwnerProofs Ran2Model Ran2Proofs Ran2Main SitmoModel.
Open Scope Z_scope.

Definition word64 (a : Z) : Prop := 0 <= a < two64.
Definition block (x : list Z) : Prop := length x = 4%nat /\ Forall word64 x.
Lemma two64_pos : 0 < two64. Proof. reflexivity. Qed.

Lemma word_bits a : 0 <= a -> (word64 a <-> forall i, 64 <= i -> Z.testbit a i = false).
Proof.
  intros Ha. unfold word64, two64. split.
  - intros [_ H] i Hi. destruct (Z.eq_dec a 0) as [->|Hn]; [apply Z.bits_0|].
    apply Z.bits_above_log2; [lia|]. apply Z.lt_le_trans with 64; [|lia]. apply Z.log2_lt_pow2; lia.
  - intros H. split; [assumption|]. destruct (Z.eq_dec a 0) as [->|Hn]; [lia|].
    apply Z.log2_lt_pow2; [lia|]. destruct (Z.lt_ge_cases (Z.log2 a) 64) as [|Hge]; [assumption|].
    specialize (H _ Hge). rewrite Z.bit_log2 in H by lia. discriminate.
Qed.

Lemma xor_word a b : word64 a -> word64 b -> word64 (Z.lxor a b).
Proof.
  intros Ha Hb. assert (0 <= Z.lxor a b) by (apply Z.lxor_nonneg; unfold word64 in *; lia).
  apply word_bits; [assumption|]. intros i Hi. rewrite Z.lxor_spec.
  rewrite (proj1 (word_bits a ltac:(apply Ha)) Ha i Hi), (proj1 (word_bits b ltac:(apply Hb)) Hb i Hi). reflexivity.
Qed.
Lemma xor_xor a b : Z.lxor (Z.lxor a b) b = a.
Proof. rewrite Z.lxor_assoc, Z.lxor_nilpotent, Z.lxor_0_r. reflexivity. Qed.

Lemma rot_bit x r i : word64 x -> 0 < r < 64 -> 0 <= i ->
  Z.testbit (rotl64 x r) i = if i <? 64 then (if i <? r then Z.testbit x (i + 64 - r) else Z.testbit x (i - r)) else false.
Proof.
  intros Hx Hr Hi. unfold rotl64, two64. rewrite Z.lor_spec.
  rewrite Z.shiftr_spec by lia.
  assert (Hhigh : forall k, 64 <= k -> Z.testbit x k = false) by (apply word_bits; [apply Hx|assumption]).
  destruct (Z.ltb_spec i 64).
  - rewrite Z.mod_pow2_bits_low by lia. rewrite Z.shiftl_spec by lia. destruct (Z.ltb_spec i r).
    + rewrite (Z.testbit_neg_r x (i - r)) by lia. rewrite orb_false_l. f_equal. lia.
    + rewrite (Hhigh (i + (64 - r))) by lia. apply orb_false_r.
  - rewrite Z.mod_pow2_bits_high by lia. rewrite orb_false_l. apply Hhigh. lia.
Qed.
Lemma rot_word x r : word64 x -> 0 < r < 64 -> word64 (rotl64 x r).
Proof.
  intros Hx Hr. assert (0 <= rotl64 x r).
  { unfold rotl64. apply Z.lor_nonneg. split; [apply Z.mod_pos_bound; reflexivity|apply Z.shiftr_nonneg; apply Hx]. }
  apply word_bits; [assumption|]. intros i Hi. rewrite rot_bit by (assumption || lia).
  replace (i <? 64) with false by lia. reflexivity.
Qed.
Lemma rot_rot x r : word64 x -> 0 < r < 64 -> rotl64 (rotl64 x r) (64 - r) = x.
Proof.
  intros Hx Hr. apply Z.bits_inj'. intros i Hi. rewrite rot_bit by (try apply rot_word; assumption || lia).
  assert (Hhigh : forall k, 64 <= k -> Z.testbit x k = false) by (apply word_bits; [apply Hx|assumption]).
  destruct (Z.ltb_spec i 64); [|symmetry; apply Hhigh; lia].
  destruct (Z.ltb_spec i (64 - r)); rewrite rot_bit by (assumption || lia).
  - replace (i + 64 - (64 - r) <? 64) with true by lia. replace (i + 64 - (64 - r) <? r) with false by lia. f_equal. lia.
  - replace (i - (64 - r) <? 64) with true by lia. replace (i - (64 - r) <? r) with true by lia. f_equal. lia.
Qed.

Lemma add_word a b : word64 (add64 a b). Proof. apply Z.mod_pos_bound. reflexivity. Qed.
Lemma add_sub a b : word64 a -> add64 (add64 a b) (- b) = a.
Proof. intros H. unfold add64. rewrite Z.add_mod_idemp_l by (vm_compute; discriminate). replace (a + b + - b) with a by ring. now apply Z.mod_small. Qed.
Lemma sub_add a b : word64 a -> add64 (add64 a (- b)) b = a.
Proof. intros H. unfold add64. rewrite Z.add_mod_idemp_l by (vm_compute; discriminate). replace (a + - b + b) with a by ring. now apply Z.mod_small. Qed.

(** elementary reversible operations *)
Inductive op := AddC (i : nat) (c : Z) | AddX (i k : nat) (c : Z) | Rot (i : nat) (r : Z) | Xor (i k : nat).
Definition run (x : list Z) (o : op) : list Z :=
  match o with
  | AddC i c => upd x i (add64 x.[i] c)
  | AddX i k c => upd x i (add64 x.[i] (add64 x.[k] c))
  | Rot i r => upd x i (rotl64 x.[i] r)
  | Xor i k => upd x i (Z.lxor x.[i] x.[k])
  end.
Definition undo (x : list Z) (o : op) : list Z :=
  match o with
  | AddC i c => upd x i (add64 x.[i] (- c))
  | AddX i k c => upd x i (add64 x.[i] (- add64 x.[k] c))
  | Rot i r => upd x i (rotl64 x.[i] (64 - r))
  | Xor i k => upd x i (Z.lxor x.[i] x.[k])
  end.
Definition op_ok (o : op) : Prop :=
  match o with
  | AddC i _ => (i < 4)%nat
  | AddX i k _ => (i < 4)%nat /\ (k < 4)%nat /\ i <> k
  | Rot i r => (i < 4)%nat /\ 0 < r < 64
  | Xor i k => (i < 4)%nat /\ (k < 4)%nat /\ i <> k
  end.

Lemma block_nth x i : block x -> (i < 4)%nat -> word64 x.[i].
Proof. intros [Hl Hf] Hi. rewrite Forall_forall in Hf. apply Hf. apply nth_In. lia. Qed.
Lemma block_upd x i v : block x -> word64 v -> block (upd x i v).
Proof.
  intros [Hl Hf] Hv. split; [now rewrite upd_length|]. clear Hl. revert i. induction Hf as [|a l Ha Hf IH]; intros [|i]; cbn [upd]; constructor; auto.
Qed.
Lemma upd_twice x i v w : upd (upd x i v) i w = upd x i w.
Proof. revert i; induction x as [|a x IH]; intros [|i]; cbn; congruence. Qed.
Lemma upd_self x i : upd x i x.[i] = x.
Proof. revert i; induction x as [|a x IH]; intros [|i]; cbn; try reflexivity. f_equal. apply IH. Qed.

Lemma run_block x o : block x -> op_ok o -> block (run x o).
Proof.
  intros Hx Ho. destruct o as [i c|i k c|i r|i k]; cbn [run op_ok] in *; apply block_upd; try assumption; try apply add_word.
  - apply rot_word; [|tauto]. apply block_nth; tauto.
  - apply xor_word; apply block_nth; tauto.
Qed.
Lemma undo_block x o : block x -> op_ok o -> block (undo x o).
Proof.
  intros Hx Ho. destruct o as [i c|i k c|i r|i k]; cbn [undo op_ok] in *; apply block_upd; try assumption; try apply add_word.
  - apply rot_word; [|lia]. apply block_nth; tauto.
  - apply xor_word; apply block_nth; tauto.
Qed.
Lemma undo_run x o : block x -> op_ok o -> undo (run x o) o = x.
Proof.
  intros Hx Ho. pose proof (proj1 Hx) as Hl. destruct o as [i c|i k c|i r|i k]; cbn [run undo op_ok] in *;
    rewrite upd_twice, ?nth_upd_eq by lia.
  - rewrite add_sub by (apply block_nth; assumption). apply upd_self.
  - rewrite nth_upd_neq by tauto. rewrite add_sub by (apply block_nth; tauto). apply upd_self.
  - rewrite rot_rot by (try apply block_nth; tauto). apply upd_self.
  - rewrite nth_upd_neq by tauto. rewrite xor_xor. apply upd_self.
Qed.
Lemma run_undo x o : block x -> op_ok o -> run (undo x o) o = x.
Proof.
  intros Hx Ho. pose proof (proj1 Hx) as Hl. destruct o as [i c|i k c|i r|i k]; cbn [run undo op_ok] in *;
    rewrite upd_twice, ?nth_upd_eq by lia.
  - rewrite sub_add by (apply block_nth; assumption). apply upd_self.
  - rewrite nth_upd_neq by tauto. rewrite sub_add by (apply block_nth; tauto). apply upd_self.
  - replace (rotl64 (rotl64 x.[i] (64 - r)) r) with (rotl64 (rotl64 x.[i] (64 - r)) (64 - (64 - r))) by (f_equal; lia).
    rewrite rot_rot by (try apply block_nth; tauto || lia). apply upd_self.
  - rewrite nth_upd_neq by tauto. rewrite xor_xor. apply upd_self.
Qed.

Lemma ops_bij l : Forall op_ok l ->
  (forall x, block x -> block (fold_left run l x) /\ fold_left undo (rev l) (fold_left run l x) = x) /\
  (forall y, block y -> block (fold_left undo (rev l) y) /\ fold_left run l (fold_left undo (rev l) y) = y).
Proof.
  induction 1 as [|o l Ho Hl [IH1 IH2]]; cbn [fold_left rev].
  - split; auto.
  - split.
    + intros x Hx. destruct (IH1 (run x o) (run_block x o Hx Ho)) as [B E]. split; [assumption|].
      rewrite fold_left_app, E. cbn [fold_left]. now apply undo_run.
    + intros y Hy. rewrite fold_left_app. cbn [fold_left]. destruct (IH2 y Hy) as [B E]. split; [now apply undo_block|].
      rewrite run_undo by assumption. exact E.
Qed.

(** encrypt is a sequence of such operations *)
Definition key_ops (key : list Z) (j i : nat) : list op :=
  let i0 := (2 * i)%nat in let i1 := ((2 * i + 1) mod 4)%nat in
  [AddC i1 (add64 key.[(2 * i + 1 + j) mod 5] (if (i =? 1)%nat then Z.of_nat j else 0));
   AddX i0 i1 key.[(2 * i + j) mod 5]; Rot i1 (mk j i); Xor i1 i0].
Definition mix_ops (j : nat) (li : nat * nat) : list op :=
  let '(l, i) := li in
  let i0 := (2 * i)%nat in let i1 := ((2 * i + (if (l mod 2 =? 0)%nat then 3 else 1)) mod 4)%nat in
  [AddX i0 i1 0; Rot i1 (m j l i); Xor i1 i0].
Definition round_ops (key : list Z) (j : nat) : list op :=
  flat_map (key_ops key j) [0;1]%nat ++ flat_map (mix_ops j) [(0,0);(0,1);(1,0);(1,1);(2,0);(2,1)]%nat.
Definition all_ops (key : list Z) : list op := flat_map (round_ops key) (seq 0 5) ++ [AddC 3 5].

Lemma add_add_0 a b : add64 a (add64 b 0) = add64 a b.
Proof. unfold add64. rewrite Z.add_0_r, Z.add_mod_idemp_r by (vm_compute; discriminate). reflexivity. Qed.
Lemma key_step_ops key j x i : key_step key j x i = fold_left run (key_ops key j i) x.
Proof. reflexivity. Qed.
Lemma mix_step_ops j x li : mix_step j x li = fold_left run (mix_ops j li) x.
Proof. destruct li as [l i]. unfold mix_step, mix_ops. cbn [fold_left run]. cbv zeta. rewrite add_add_0. reflexivity. Qed.
Lemma fold_ops {A} (step : list Z -> A -> list Z) (ops : A -> list op) l : (forall x a, step x a = fold_left run (ops a) x) ->
  forall x, fold_left step l x = fold_left run (flat_map ops l) x.
Proof. intros H. induction l as [|a l IH]; intros x; cbn [fold_left flat_map]; [reflexivity|]. rewrite fold_left_app, H. apply IH. Qed.
Lemma round_step_ops key x j : encrypt_round key x j = fold_left run (round_ops key j) x.
Proof.
  unfold encrypt_round, round_ops. rewrite fold_left_app.
  rewrite (fold_ops (mix_step j) (mix_ops j)) by (intros; apply mix_step_ops).
  f_equal.
Qed.
Lemma encrypt_ops key x : encrypt key x = fold_left run (all_ops key) x.
Proof.
  unfold encrypt, all_ops. rewrite fold_left_app. cbn [fold_left run]. cbv zeta.
  rewrite (fold_ops (encrypt_round key) (round_ops key)) by (intros; apply round_step_ops). reflexivity.
Qed.
Lemma all_ops_ok key : Forall op_ok (all_ops key).
Proof.
  unfold all_ops, round_ops, key_ops, mix_ops. cbn [flat_map seq app].
  repeat (constructor; [cbn; repeat split; try discriminate; try lia; try reflexivity|]). constructor.
Qed.

Theorem encrypt_bijective key :
  (forall x, block x -> block (encrypt key x)) /\
  (forall x y, block x -> block y -> encrypt key x = encrypt key y -> x = y) /\
  (forall y, block y -> exists x, block x /\ encrypt key x = y).
Proof.
  destruct (ops_bij _ (all_ops_ok key)) as [H1 H2]. split; [|split].
  - intros x Hx. rewrite encrypt_ops. now apply H1.
  - intros x y Hx Hy E. rewrite !encrypt_ops in E. destruct (H1 x Hx) as [_ Ex]. destruct (H1 y Hy) as [_ Ey].
    rewrite <- Ex, <- Ey, E. reflexivity.
  - intros y Hy. destruct (H2 y Hy) as [B E]. eexists. rewrite encrypt_ops. split; [exact B|exact E].
Qed.

(** the counter *)
Ltac blk := split; [reflexivity|]; repeat (apply Forall_cons; [assumption || (unfold word64, two64 in *; lia)|]); apply Forall_nil.
Definition value256 (s : list Z) : Z := s.[0] + two64 * (s.[1] + two64 * (s.[2] + two64 * s.[3])).
Lemma block4 s : block s -> exists a b c d, s = [a;b;c;d] /\ word64 a /\ word64 b /\ word64 c /\ word64 d.
Proof.
  intros [Hl Hf]. destruct s as [|a [|b [|c [|d [|e s]]]]]; try discriminate Hl. exists a, b, c, d.
  repeat (let H := fresh in inversion Hf as [|? ? H Hf']; subst; clear Hf; rename Hf' into Hf). auto.
Qed.
Lemma add64_cases a b : word64 a -> word64 b -> (a + b < two64 /\ add64 a b = a + b) \/ (two64 <= a + b /\ add64 a b = a + b - two64).
Proof.
  intros Ha Hb. unfold word64 in *. unfold add64. destruct (Z.lt_ge_cases (a + b) two64).
  - left. split; [assumption|]. apply Z.mod_small. lia.
  - right. split; [assumption|]. rewrite <- (Z.mod_add _ (-1)) by lia. rewrite Z.mod_small; lia.
Qed.
Lemma inc_cases a : word64 a -> (a + 1 < two64 /\ add64 a 1 = a + 1) \/ (a = two64 - 1 /\ add64 a 1 = 0).
Proof.
  intros Ha. destruct (add64_cases a 1 Ha) as [[H1 H2]|[H1 H2]]; [split; reflexivity || (vm_compute; discriminate)| |]; [now left|right].
  unfold word64 in *. split; lia.
Qed.

Lemma value_range s : block s -> 0 <= value256 s < two64 ^ 4.
Proof.
  intros H. destruct (block4 s H) as (a & b & c & d & -> & Ha & Hb & Hc & Hd). unfold value256. cbn [nth].
  replace (two64 ^ 4) with (two64 * (two64 * (two64 * two64))) by (vm_compute; reflexivity).
  assert (K : forall a h M, word64 a -> 0 <= h < M -> 0 <= a + two64 * h < two64 * M).
  { intros a' h M [H1 H2] H3. set (T := two64) in *. clearbody T. split; nia. }
  do 2 (apply K; [assumption|]). apply K; [assumption|]. exact Hd.
Qed.
Lemma mod_cases v t M : 0 <= v < M -> 0 <= t < M -> (v + t) mod M = v + t \/ (v + t) mod M = v + t - M.
Proof.
  intros Hv Ht. destruct (Z.lt_ge_cases (v + t) M); [left; apply Z.mod_small; lia|right].
  rewrite <- (Z.mod_add _ (-1)) by lia. rewrite Z.mod_small; lia.
Qed.

(** the carry chain adds 2^64 *)
Lemma carry_value a b c d : word64 a -> word64 b -> word64 c -> word64 d ->
  block (carry 4 1 [a;b;c;d]) /\ value256 (carry 4 1 [a;b;c;d]) = (value256 [a;b;c;d] + two64) mod two64 ^ 4.
Proof.
  intros Ha Hb Hc Hd.
  assert (B : block [a;b;c;d]) by blk.
  assert (Z0 : word64 0) by (split; [lia|reflexivity]).
  cbn [carry upd nth]. destruct (inc_cases b Hb) as [[L1 E1]|[L1 E1]]; rewrite E1.
  - replace (b + 1 =? 0) with false by (unfold word64 in *; lia). cbn [andb].
    assert (B' : block [a; b + 1; c; d]) by blk.
    split; [assumption|]. rewrite Z.mod_small; [unfold value256; cbn [nth]; ring|].
    pose proof (value_range _ B'). pose proof (value_range _ B). unfold value256 in *. cbn [nth] in *. pose proof two64_pos. lia.
  - change (0 =? 0) with true. change (2 <? 4)%nat with true. cbn [andb carry upd nth].
    destruct (inc_cases c Hc) as [[L2 E2]|[L2 E2]]; rewrite E2.
    + replace (c + 1 =? 0) with false by (unfold word64 in *; lia). cbn [andb].
      assert (B' : block [a; 0; c + 1; d]) by blk.
      split; [assumption|]. assert (Ev : value256 [a;b;c;d] + two64 = value256 [a;0;c+1;d]) by (unfold value256; cbn [nth]; rewrite L1; ring).
      rewrite Ev. symmetry. apply Z.mod_small. now apply value_range.
    + change (0 =? 0) with true. change (3 <? 4)%nat with true. cbn [andb carry upd nth].
      destruct (inc_cases d Hd) as [[L3 E3]|[L3 E3]]; rewrite E3.
      * replace (d + 1 =? 0) with false by (unfold word64 in *; lia). cbn [andb].
        assert (B' : block [a; 0; 0; d + 1]) by blk.
        split; [assumption|]. assert (Ev : value256 [a;b;c;d] + two64 = value256 [a;0;0;d+1]) by (unfold value256; cbn [nth]; rewrite L1, L2; ring).
        rewrite Ev. symmetry. apply Z.mod_small. now apply value_range.
      * change (0 =? 0) with true. change (4 <? 4)%nat with false. cbn [andb].
        assert (B' : block [a; 0; 0; 0]) by blk.
        split; [assumption|]. assert (Ev : value256 [a;b;c;d] + two64 = value256 [a;0;0;0] + 1 * two64 ^ 4).
        { unfold value256; cbn [nth]. rewrite L1, L2, L3. ring. }
        rewrite Ev, Z.mod_add by (vm_compute; discriminate). symmetry. apply Z.mod_small. now apply value_range.
Qed.

Lemma state_add_value s z : block s -> word64 z ->
  block (state_add s z) /\
  value256 (state_add s z) = (value256 s + (if z =? 0 then two64 else z)) mod two64 ^ 4.
Proof.
  intros Hs Hz. destruct (block4 s Hs) as (a & b & c & d & -> & Ha & Hb & Hc & Hd).
  unfold state_add. cbn [nth upd]. cbv zeta. cbn [nth].
  pose proof (add_word a z) as Hw.
  destruct (add64_cases a z Ha Hz) as [[L E]|[L E]].
  - destruct (Z.eqb_spec z 0) as [->|Hn].
    + rewrite E, Z.add_0_r. replace (a <=? a) with true by lia. now apply carry_value.
    + replace (add64 a z <=? a) with false by (unfold word64 in *; lia).
      assert (B : block [add64 a z; b; c; d]) by blk.
      split; [assumption|]. assert (Ev : value256 [a;b;c;d] + z = value256 [add64 a z;b;c;d]) by (unfold value256; cbn [nth]; rewrite E; ring).
      rewrite Ev. symmetry. apply Z.mod_small. now apply value_range.
  - assert (Hzn : z <> 0) by (unfold word64 in *; lia).
    replace (z =? 0) with false by lia. replace (add64 a z <=? a) with true by (unfold word64 in *; lia).
    destruct (carry_value (add64 a z) b c d Hw Hb Hc Hd) as [B V]. split; [assumption|]. rewrite V. f_equal.
    unfold value256; cbn [nth]. rewrite E. ring.
Qed.
