From Coq Require Import Reals Lra.
From Flocq Require Import Core.
From Verif Require Import Base GeometryModel GeometryProofs OwnerProofs Ran2Model Ran2Proofs Ran2Main SitmoModel SitmoProofs.
Open Scope Z_scope.

(** offsets are the prefix sums *)
Lemma offsets_nth l : forall n0 k, Forall (fun n => 0 <= n) l -> 0 <= n0 -> n0 + sumZ l < two64 -> (k < length l)%nat ->
  (offsets n0 l).[k] = n0 + sumZ (firstn k l).
Proof.
  induction l as [|n r IH]; intros n0 k Hl H0 Hs Hk; [cbn in Hk; lia|].
  inversion Hl as [|? ? Hn Hr]; subst. cbn [sumZ fold_right] in Hs. fold (sumZ r) in Hs.
  assert (Hr0 : 0 <= sumZ r). { clear -Hr. induction Hr; cbn; [lia|]. fold (sumZ l). lia. }
  destruct k as [|k]; cbn [offsets nth firstn].
  - cbn. lia.
  - rewrite Z.mod_small by lia. rewrite IH by (assumption || (cbn in Hk; lia)). cbn [sumZ fold_right]. fold (sumZ (firstn k r)). lia.
Qed.
Lemma sum_nonneg l : Forall (fun n => 0 <= n) l -> 0 <= sumZ l.
Proof. induction 1; cbn; [lia|]. fold (sumZ l). lia. Qed.
Lemma Forall_firstn {A} (P : A -> Prop) k l : Forall P l -> Forall P (firstn k l).
Proof. revert k. induction l as [|a l IH]; intros [|k] H; cbn; auto. inversion H; subst. constructor; auto. Qed.
Lemma prefix_step l k : (k < length l)%nat -> sumZ (firstn (S k) l) = sumZ (firstn k l) + l.[k].
Proof.
  revert k. induction l as [|a l IH]; intros k Hk; [cbn in Hk; lia|]. destruct k as [|k]; [cbn; lia|].
  change (firstn (S (S k)) (a :: l)) with (a :: firstn (S k) l). change (firstn (S k) (a :: l)) with (a :: firstn k l).
  cbn [sumZ fold_right nth]. fold (sumZ (firstn (S k) l)). fold (sumZ (firstn k l)). rewrite IH by (cbn in Hk; lia). lia.
Qed.
Lemma prefix_mono l k1 k2 : Forall (fun n => 0 <= n) l -> (k1 <= k2)%nat -> sumZ (firstn k1 l) <= sumZ (firstn k2 l).
Proof.
  intros Hl. revert k1 k2. induction Hl as [|a l Ha Hl IH]; intros k1 k2 H; [rewrite !firstn_nil; lia|].
  destruct k1 as [|k1]; [cbn [firstn]; change (sumZ []) with 0; apply sum_nonneg; apply Forall_firstn; now constructor|].
  destruct k2 as [|k2]; [lia|]. cbn [firstn sumZ fold_right]. fold (sumZ (firstn k1 l)). fold (sumZ (firstn k2 l)).
  specialize (IH k1 k2 ltac:(lia)). lia.
Qed.
Lemma prefix_all l k : Forall (fun n => 0 <= n) l -> (k < length l)%nat -> sumZ (firstn k l) + l.[k] <= sumZ l.
Proof.
  intros Hl Hk. rewrite <- prefix_step by assumption. rewrite <- (firstn_all l) at 2. apply prefix_mono; [assumption|lia].
Qed.
Lemma prefix_unique l k1 k2 d1 d2 : Forall (fun n => 0 <= n) l -> (k1 < length l)%nat -> (k2 < length l)%nat ->
  0 <= d1 < l.[k1] -> 0 <= d2 < l.[k2] -> sumZ (firstn k1 l) + d1 = sumZ (firstn k2 l) + d2 -> k1 = k2 /\ d1 = d2.
Proof.
  intros Hl H1 H2 D1 D2 E. destruct (lt_eq_lt_dec k1 k2) as [[H|H]|H].
  - exfalso. pose proof (prefix_mono l (S k1) k2 Hl H). rewrite prefix_step in * by assumption. lia.
  - subst. split; [reflexivity|lia].
  - exfalso. pose proof (prefix_mono l (S k2) k1 Hl H). rewrite prefix_step in * by assumption. lia.
Qed.

(** the position in the stream of words *)
Lemma position_exact V o gl d N : 0 < V <= 2 ^ 31 -> 0 <= gl < V -> 0 <= o -> 0 <= d -> o + d < N -> 2 * (N * V) <= two64 ->
  stream_position V o gl d = 2 * ((o + d) * V + gl) /\ 2 * ((o + d) * V + gl) + 1 < two64.
Proof.
  intros HV Hg Ho Hd HN HT. unfold stream_position. cbv zeta.
  rewrite wrap32_id by (unfold in_int, int_min, int_max; lia).
  replace (o * V + gl + V * d) with ((o + d) * V + gl) by ring.
  assert (0 <= (o + d) * V + gl < N * V) by nia.
  rewrite (Z.mod_small ((o + d) * V + gl)) by lia. rewrite Z.mod_small by lia. lia.
Qed.

Lemma no_reuse_main V l k1 k2 d1 d2 g1 g2 w1 w2 : 0 < V <= 2 ^ 31 -> Forall (fun n => 0 <= n) l -> 2 * (sumZ l * V) <= two64 ->
  (k1 < length l)%nat -> (k2 < length l)%nat -> 0 <= d1 < l.[k1] -> 0 <= d2 < l.[k2] -> 0 <= g1 < V -> 0 <= g2 < V ->
  0 <= w1 < 2 -> 0 <= w2 < 2 ->
  (stream_position V (offsets 0 l).[k1] g1 d1 + w1) mod two64 = (stream_position V (offsets 0 l).[k2] g2 d2 + w2) mod two64 ->
  k1 = k2 /\ d1 = d2 /\ g1 = g2 /\ w1 = w2.
Proof.
  intros HV Hl HT K1 K2 D1 D2 G1 G2 W1 W2 E.
  pose proof (prefix_all l k1 Hl K1) as P1. pose proof (prefix_all l k2 Hl K2) as P2.
  pose proof (sum_nonneg _ (Forall_firstn _ k1 l Hl)) as N1. pose proof (sum_nonneg _ (Forall_firstn _ k2 l Hl)) as N2.
  assert (Hs : 0 + sumZ l < two64) by (unfold two64 in *; nia).
  rewrite !offsets_nth in E by (assumption || lia). rewrite !Z.add_0_l in E.
  destruct (position_exact V (sumZ (firstn k1 l)) g1 d1 (sumZ l)) as [E1 B1]; try assumption; try lia.
  destruct (position_exact V (sumZ (firstn k2 l)) g2 d2 (sumZ l)) as [E2 B2]; try assumption; try lia.
  set (a := sumZ (firstn k1 l)) in *. set (b := sumZ (firstn k2 l)) in *.
  rewrite E1, E2 in E. rewrite !Z.mod_small in E by nia.
  assert (Ew : (a + d1) * V + g1 = (b + d2) * V + g2 /\ w1 = w2) by lia. destruct Ew as [Ew ->].
  assert (Eo : a + d1 = b + d2) by (clear -Ew G1 G2; nia).
  destruct (prefix_unique l k1 k2 d1 d2) as [-> ->]; try assumption. repeat split. unfold a, b in *. nia.
Qed.

Lemma counter_distinct z1 z2 : word64 z1 -> word64 z2 -> state_add zero_state z1 = state_add zero_state z2 -> z1 = z2.
Proof.
  intros H1 H2 E. assert (B : block zero_state) by (split; [reflexivity|]; repeat (apply Forall_cons; [split; [lia|reflexivity]|]); apply Forall_nil).
  destruct (state_add_value zero_state z1 B H1) as [_ V1]. destruct (state_add_value zero_state z2 B H2) as [_ V2].
  rewrite E in V1. rewrite V1 in V2. change (value256 zero_state) with 0 in V2. rewrite !Z.add_0_l in V2.
  assert (T : two64 < two64 ^ 4) by reflexivity. unfold word64 in *.
  assert (F : forall z, 0 <= z < two64 -> (if z =? 0 then two64 else z) mod two64 ^ 4 = if z =? 0 then two64 else z).
  { intros z Hz. apply Z.mod_small. destruct (Z.eqb_spec z 0); lia. }
  rewrite !F in V2 by assumption.
  destruct (Z.eqb_spec z1 0), (Z.eqb_spec z2 0); lia.
Qed.
Lemma nth_block_eq key z : nth_block key z = encrypt key (state_add zero_state z).
Proof. reflexivity. Qed.
Lemma blocks_distinct key z1 z2 : word64 z1 -> word64 z2 -> nth_block key z1 = nth_block key z2 -> z1 = z2.
Proof.
  intros H1 H2 E. apply counter_distinct; try assumption.
  assert (B : block zero_state) by (split; [reflexivity|]; repeat (apply Forall_cons; [split; [lia|reflexivity]|]); apply Forall_nil).
  rewrite !nth_block_eq in E. destruct (encrypt_bijective key) as (_ & Inj & _).
  exact (Inj _ _ (proj1 (state_add_value _ _ B H1)) (proj1 (state_add_value _ _ B H2)) E).
Qed.

(** value in [0,1) *)
Lemma last_double : (b64 (999999999999999889 / 1000000000000000000) < 1)%R /\ (0 <= b64 (999999999999999889 / 1000000000000000000))%R.
Proof.
  set (x := (999999999999999889 / 1000000000000000000)%R). assert (Hx : (/2 <= x < 1)%R) by (unfold x; lra).
  split; [|apply b64_pos; lra].
  assert (K : (Rabs (b64 x - x) <= / 2 * ulp radix2 (FLT_exp (-1074) 53) x)%R) by (apply error_le_half_ulp; typeclasses eauto).
  assert (U : ulp radix2 (FLT_exp (-1074) 53) x = bpow radix2 (-53)).
  { rewrite ulp_neq_0 by lra. unfold cexp. f_equal.
    assert (Hm : mag radix2 x = 0 :> Z).
    { apply mag_unique. rewrite Rabs_pos_eq by lra. change (bpow radix2 (0 - 1)) with (/2)%R. change (bpow radix2 0) with 1%R. lra. }
    rewrite Hm. reflexivity. }
  rewrite U in K. change (bpow radix2 (-53)) with (/ 9007199254740992)%R in K.
  pose proof (Rle_abs (b64 x - x)). unfold x in *. lra.
Qed.
Lemma uniform_range a b : 0 <= a < 2 ^ 32 -> 0 <= b < 2 ^ 32 -> (0 <= uniform_of a b < 1)%R.
Proof.
  intros Ha Hb. unfold uniform_of. cbv zeta. destruct last_double as [L1 L2].
  destruct (Rle_dec 1 _) as [H|H]; [lra|]. split; [|lra].
  apply b64_pos. apply Rmult_le_pos; [|lra]. apply b64_pos.
  assert (0 <= IZR b)%R by (apply IZR_le; lia). assert (0 <= b64 (IZR a / 4294967296))%R; [|lra].
  apply b64_pos. assert (0 <= IZR a)%R by (apply IZR_le; lia). lra.
Qed.
Lemma gen_range key p : 0 <= generateNth key p < 2 ^ 32.
Proof. apply Z.mod_pos_bound. reflexivity. Qed.
Lemma draw_range sw key p : (0 <= getUniformDistributed sw key p < 1)%R.
Proof. unfold getUniformDistributed. cbv zeta. destruct sw; apply uniform_range; apply gen_range. Qed.

(** grid independence *)
Lemma field_value sw key g o x r i d : valid_grid g = true -> in_box x (glbSize g) -> getLoclxAndRankOfCoords g x = (r, i) ->
  fillField sw key g o r i d = Some (getUniformDistributed sw key (stream_position (glbVol g) o (glblxOfCoord g x) d)).
Proof.
  intros Hv Hx E. destruct (owner_fwd g x Hv Hx _ _ E) as (Hr & Hi & _).
  destruct (site_labels g r i Hv Hr Hi) as (x' & Hx' & E' & _ & L).
  assert (x' = x) by (apply (owner_inj g); congruence). subst x'. unfold fillField. now rewrite L.
Qed.

Lemma double_exact x : b64 x = x -> b64 (x * 2) = (x * 2)%R.
Proof.
  intros H. unfold b64 in *. apply round_generic; [typeclasses eauto|].
  assert (F : generic_format radix2 (FLT_exp (-1074) 53) x) by (rewrite <- H; apply generic_format_round; typeclasses eauto).
  apply FLT_format_generic in F; [|typeclasses eauto]. destruct F as [[mm e] E Hm He]. apply generic_format_FLT.
  exists (Float radix2 mm (e + 1)); [|exact Hm|cbn [Fexp] in *; lia].
  rewrite E. unfold F2R. cbn [Fnum Fexp]. rewrite bpow_plus. change (bpow radix2 1) with 2%R. ring.
Qed.
Lemma sign_main x : b64 x = x -> (0 <= x < 1)%R ->
  ((x < 1/2)%R -> remapUniformToSign x = -1) /\ ((1/2 <= x)%R -> remapUniformToSign x = 1).
Proof.
  intros F H. unfold remapUniformToSign. rewrite double_exact by assumption. rewrite Ztrunc_floor by lra. split; intros K.
  - rewrite (Zfloor_imp 0); [reflexivity|]. cbn. lra.
  - rewrite (Zfloor_imp 1); [reflexivity|]. cbn. lra.
Qed.
Lemma uniform_format a b : b64 (uniform_of a b) = uniform_of a b.
Proof.
  unfold uniform_of. cbv zeta. destruct (Rle_dec 1 _); unfold b64; (apply round_generic; [typeclasses eauto|apply generic_format_round; typeclasses eauto]).
Qed.
