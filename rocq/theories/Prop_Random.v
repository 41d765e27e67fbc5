(** Property theorems C34-C39, C61: random numbers. *)
From Coq Require Import Reals Lra.
From Flocq Require Import Core.
From Verif Require Import Base GeometryModel GeometrySpec OwnerProofs Ran2Model Ran2Proofs Ran2Main IldgFileModel ChecksumTextModel Ran2TextModel Ran2TextProofs
  SitmoModel SitmoProofs SitmoMain.
Open Scope Z_scope.

(** C34: from any seed below INT_MAX, after any number of draws, no int operation overflows (the model returns a state),
    both components follow x -> a x mod m exactly, all the table entries and the last output stay in range, the next
    table access is inside the table and the returned double lies in [0,1) *)
Theorem C34_ran2 :
  forall garbage seed, length garbage = 32%nat -> -2147483648 <= seed < 2147483647 ->
  exists g, start_rnd_gen garbage seed = Some g /\
  forall n, exists g', draws n g = Some g' /\
    idum g' = (40014 ^ (40 + Z.of_nat n) * Z.max (seed + 1) 1) mod 2147483563 /\
    (n <> O -> idum2 g' = (40692 ^ Z.of_nat n * Z.max (seed + 1) 1) mod 2147483399) /\
    (forall j, (j < 32)%nat -> 0 <= (iv g').[j] < 2147483563) /\
    0 <= iy g' < 2147483563 /\ 0 <= Z.quot (iy g') ndiv < 32 /\
    (0 <= unif_value (iy g') 0 1 < 1)%R.
Proof.
  intros garbage seed Hl Hs. destruct (start_ok garbage seed Hl Hs) as (t & E & _).
  assert (G : gen_ok (mkGen (lcg1 40 (Z.max (seed + 1) 1)) (Z.max (seed + 1) 1) t (lcg1 40 (Z.max (seed + 1) 1)))).
  { eapply start_gen_ok; [exact Hl|exact Hs|exact E]. }
  eexists. split; [exact E|]. intros n. destruct (draws_ok n _ G) as (g' & D & G' & I1 & I2). cbn [idum idum2] in *.
  exists g'. split; [assumption|]. split.
  { rewrite I1. unfold lcg1. rewrite Z.mul_mod_idemp_r by (vm_compute; congruence).
    rewrite (Z.pow_add_r 40014 40) by lia. rewrite Z.mul_assoc, (Z.mul_comm (40014 ^ 40)). reflexivity. }
  split; [exact I2|]. split; [intros j Hj; now apply G'|]. split; [apply G'|].
  split; [apply (step_ok g' G')|]. rewrite unif_value_01 by apply G'.
  destruct (unif01_range (iy g') ltac:(apply G')). lra.
Qed.
Print Assumptions C34_ran2.

(** a random position is a site of the lattice, for any lattice *)
Theorem C34_random_position :
  forall garbage seed g n g' sizes, length garbage = 32%nat -> -2147483648 <= seed < 2147483647 ->
  start_rnd_gen garbage seed = Some g -> draws n g = Some g' -> Forall (fun L => 0 < L <= 2147483647) sizes ->
  exists c g'', random_coords g' sizes = Some (c, g'') /\ in_box c sizes.
Proof.
  intros garbage seed g n g' sizes Hl Hs E D Hz. pose proof (start_gen_ok garbage seed g Hl Hs E) as G.
  destruct (draws_ok n g G) as (h & D' & G' & _). rewrite D in D'. injection D' as <-.
  destruct (random_coords_ok sizes g' G') as (c & g'' & R & _ & B); [|eauto].
  eapply Forall_impl; [|exact Hz]. cbn. intros a Ha. lia.
Qed.
Print Assumptions C34_random_position.

(** the output is not confined to (0,1): with seed 1927279561 the second draw is exactly 0 *)
Theorem C34_zero_refuted :
  exists g g', start_rnd_gen (repeat 0 32) 1927279561 = Some g /\ draws 2 g = Some g' /\ unif_value (iy g') 0 1 = 0%R.
Proof.
  destruct (start_rnd_gen (repeat 0 32) 1927279561) as [g|] eqn:E; [|vm_compute in E; discriminate].
  destruct (draws 2 g) as [g'|] eqn:D.
  - exists g, g'. split; [reflexivity|]. split; [assumption|].
    assert (Y : iy g' = 0). { vm_compute in E. apply some_eq in E. subst g. vm_compute in D. apply some_eq in D. now subst g'. }
    rewrite Y, unif_value_01 by lia. apply unif01_zero; lia.
  - vm_compute in E. apply some_eq in E. subst g. vm_compute in D. discriminate.
Qed.
Print Assumptions C34_zero_refuted.
(** seed INT_MAX overflows *)
Theorem C34_seed_max_refuted : forall garbage, start_rnd_gen garbage 2147483647 = None.
Proof. intros. reflexivity. Qed.
(** with seed 2147483562 the first component is stuck at zero for ever *)
Theorem C34_dead_component_refuted :
  forall garbage n, length garbage = 32%nat -> exists g g', start_rnd_gen garbage 2147483562 = Some g /\ draws n g = Some g' /\ idum g' = 0.
Proof.
  intros garbage n Hl. destruct (C34_ran2 garbage 2147483562 Hl ltac:(lia)) as (g & E & H). destruct (H n) as (g' & D & I & _).
  exists g, g'. split; [assumption|]. split; [assumption|]. rewrite I.
  replace (Z.max (2147483562 + 1) 1) with 2147483563 by reflexivity. apply Z.mod_mul. discriminate.
Qed.
Print Assumptions C34_dead_component_refuted.

(** C35: saving and restoring gives back the generator, after any number of draws, for any buffer of at least 421 bytes *)
Theorem C35_save_restore :
  forall garbage seed g n g' size, length garbage = 32%nat -> -2147483648 <= seed < 2147483647 ->
  start_rnd_gen garbage seed = Some g -> draws n g = Some g' -> 421 <= size ->
  exists text, convert_rnd_gen_to_text size g' = Some text /\ Z.of_nat (length text) < size /\ convert_text_to_rnd_gen text = Some g'.
Proof.
  intros garbage seed g n g' size Hl Hs E D Hz. pose proof (start_gen_ok garbage seed g Hl Hs E) as G.
  destruct (draws_ok n g G) as (h & D' & G' & _). rewrite D in D'. injection D' as <-.
  destruct G' as (A & B & C & F & Y). apply text_round_trip; [assumption| |assumption].
  unfold gen_ints, in_int, int_min, int_max, im1 in *. repeat (apply Forall_cons; [lia|]).
  apply Forall_app. split; [|apply Forall_cons; [lia|apply Forall_nil]].
  apply Forall_forall. intros z Hz'. destruct (In_nth _ _ 0 Hz') as (k & Hk & <-). specialize (F k ltac:(lia)). lia.
Qed.
Print Assumptions C35_save_restore.
(** more generally for any content of the structure *)
Theorem C35_any_content :
  forall g size, length (iv g) = 32%nat -> Forall (fun z => -2147483648 <= z <= 2147483647) (gen_ints g) -> 421 <= size ->
  exists text, convert_rnd_gen_to_text size g = Some text /\ convert_text_to_rnd_gen text = Some g.
Proof.
  intros g size Hl Hi Hs. destruct (text_round_trip g size Hl) as (t & A & _ & B); [|assumption|eauto].
  eapply Forall_impl; [|exact Hi]. unfold in_int, int_min, int_max. intros a Ha. cbn beta in Ha. lia.
Qed.
Print Assumptions C35_any_content.
(** the size passed is not respected: with 64 bytes the text is written outside the buffer *)
Theorem C35_small_buffer_refuted :
  exists g, start_rnd_gen (repeat 0 32) 1 = Some g /\ convert_rnd_gen_to_text 64 g = None.
Proof.
  destruct (start_rnd_gen (repeat 0 32) 1) as [g|] eqn:E; [|vm_compute in E; discriminate].
  exists g. split; [reflexivity|]. vm_compute in E. apply some_eq in E. subst g. vm_compute. reflexivity.
Qed.

(** C36: the generator of a site is the same for every process grid, is well defined, different sites have generators
    that are never in the same state, and what a source generator puts on a site does not depend on the grid.
    gb: content of the freshly allocated memory *)
Theorem C36_site_generators :
  forall seed garbage gg0 n gg g1 g2 gb1 gb2,
  length garbage = 32%nat -> -2147483648 <= seed < 2147483647 -> start_rnd_gen garbage seed = Some gg0 -> draws n gg0 = Some gg ->
  valid_grid g1 = true -> valid_grid g2 = true -> glbSize g1 = glbSize g2 -> glbVol g1 < 2147483647 ->
  (forall j, length (gb1 j) = 32%nat) -> (forall j, length (gb2 j) = 32%nat) ->
  (forall x r1 i1 r2 i2, in_box x (glbSize g1) -> getLoclxAndRankOfCoords g1 x = (r1, i1) -> getLoclxAndRankOfCoords g2 x = (r2, i2) ->
     exists gen, loc_rnd_gen g1 gg gb1 r1 i1 = Some gen /\ loc_rnd_gen g2 gg gb2 r2 i2 = Some gen /\
     forall A (draw : rnd_gen -> option (A * rnd_gen)) dir twall,
       generate_source g1 draw dir twall r1 (loc_rnd_gen g1 gg gb1 r1) i1 = generate_source g2 draw dir twall r2 (loc_rnd_gen g2 gg gb2 r2) i2 /\
       generate_source g1 draw dir twall r1 (loc_rnd_gen g1 gg gb1 r1) i1 =
         if (x.[dir] =? twall) || (twall <? 0) then option_map (fun p => (Some (fst p), snd p)) (draw gen) else Some (None, gen)) /\
  (forall x y rx ix ry iy k gx gy h, in_box x (glbSize g1) -> in_box y (glbSize g1) ->
     getLoclxAndRankOfCoords g1 x = (rx, ix) -> getLoclxAndRankOfCoords g1 y = (ry, iy) ->
     loc_rnd_gen g1 gg gb1 rx ix = Some gx -> loc_rnd_gen g1 gg gb1 ry iy = Some gy ->
     draws k gx = Some h -> draws k gy = Some h -> x = y).
Proof.
  intros seed garbage gg0 n gg g1 g2 gb1 gb2 Hl Hs E D V1 V2 HG HV B1 B2.
  pose proof (start_gen_ok garbage seed gg0 Hl Hs E) as G0.
  destruct (draws_ok n gg0 G0) as (h & D' & G & _). rewrite D in D'. injection D' as <-. split.
  - intros x r1 i1 r2 i2 Hx E1 E2. destruct (grid_independent g1 g2 gg gb1 gb2 x r1 i1 r2 i2) as (gen & L1 & L2 & _); try assumption.
    exists gen. split; [assumption|]. split; [assumption|]. intros A draw dir twall.
    destruct (source_grid_independent A g1 g2 (loc_rnd_gen g1 gg gb1 r1) (loc_rnd_gen g2 gg gb2 r2) draw dir twall x r1 i1 r2 i2) as [S1 S2]; try assumption.
    + congruence.
    + split; [exact S1|]. apply S2. assumption.
  - intros x y rx ix ry iy_ k gx gy h Hx Hy Ex Ey Lx Ly Dx Dy.
    eapply (site_gens_distinct g1 gg gb1 x y rx ix ry iy_ k gx gy h h); eauto.
Qed.
Print Assumptions C36_site_generators.
Example C36_ex : valid_grid (mkGrid [8;4;4;4] [2;1;1;1]) = true /\ valid_grid (mkGrid [8;4;4;4] [1;2;2;1]) = true /\
  glbVol (mkGrid [8;4;4;4] [1;2;2;1]) < 2147483647.
Proof. vm_compute. repeat split; reflexivity. Qed.

(** C37: for each key the encryption is a permutation of the 256 bit blocks *)
Theorem C37_permutation :
  forall key,
  (forall x, block x -> block (encrypt key x)) /\
  (forall x y, block x -> block y -> encrypt key x = encrypt key y -> x = y) /\
  (forall y, block y -> exists x, block x /\ encrypt key x = y).
Proof. exact encrypt_bijective. Qed.
Print Assumptions C37_permutation.
Example C37_ex : block [1; 2; 3; two64 - 1].
Proof. unfold two64. blk. Qed.

(** C38: adding a non zero offset to the counter, seen as a 256 bit number, adds it modulo 2^256 *)
Theorem C38_counter :
  forall s z, block s -> 0 < z < 2 ^ 64 -> block (state_add s z) /\ value256 (state_add s z) = (value256 s + z) mod 2 ^ 256.
Proof.
  intros s z Hs Hz. destruct (state_add_value s z Hs) as [B V]. { unfold word64, two64. lia. }
  split; [assumption|]. rewrite V. replace (z =? 0) with false by lia. reflexivity.
Qed.
Print Assumptions C38_counter.
(** adding zero adds 2^64 *)
Theorem C38_zero_refuted : forall s, block s -> value256 (state_add s 0) = (value256 s + 2 ^ 64) mod 2 ^ 256.
Proof. intros s Hs. destruct (state_add_value s 0 Hs) as [_ V]; [split; [lia|reflexivity]|]. exact V. Qed.
Example C38_ex : state_add [two64 - 1; two64 - 1; 7; 9] 5 = [4; 0; 8; 9]. Proof. vm_compute. reflexivity. Qed.

(** C39: fields are drawn one after the other, the k-th taking l.[k] reals per site; every real takes two words (w=0,1) of the
    stream.  As long as the stream is not exhausted and the lattice has at most 2^31 sites no two words come from the same
    position, nor from the same encrypted block *)
Theorem C39_no_reuse :
  forall V l key k1 k2 d1 d2 g1 g2 w1 w2,
  0 < V <= 2 ^ 31 -> Forall (fun n => 0 <= n) l -> 2 * (sumZ l * V) <= 2 ^ 64 ->
  (k1 < length l)%nat -> (k2 < length l)%nat -> 0 <= d1 < l.[k1] -> 0 <= d2 < l.[k2] ->
  0 <= g1 < V -> 0 <= g2 < V -> 0 <= w1 < 2 -> 0 <= w2 < 2 ->
  let p1 := (stream_position V (offsets 0 l).[k1] g1 d1 + w1) mod 2 ^ 64 in
  let p2 := (stream_position V (offsets 0 l).[k2] g2 d2 + w2) mod 2 ^ 64 in
  (k1, d1, g1, w1) <> (k2, d2, g2, w2) -> p1 <> p2 /\ nth_block key p1 <> nth_block key p2.
Proof.
  intros V l key k1 k2 d1 d2 g1 g2 w1 w2 HV Hl HT K1 K2 D1 D2 G1 G2 W1 W2. cbv zeta. intros Hne.
  assert (Hp : (stream_position V (offsets 0 l).[k1] g1 d1 + w1) mod 2 ^ 64 <> (stream_position V (offsets 0 l).[k2] g2 d2 + w2) mod 2 ^ 64).
  { intros E. apply Hne. destruct (no_reuse_main V l k1 k2 d1 d2 g1 g2 w1 w2) as (-> & -> & -> & ->); try assumption. reflexivity. }
  split; [assumption|]. intros E. apply Hp. eapply blocks_distinct; [| |exact E]; apply Z.mod_pos_bound; reflexivity.
Qed.
Print Assumptions C39_no_reuse.
Example C39_ex : let l := [24; 1; 8] in 2 * (sumZ l * (2 ^ 31)) <= 2 ^ 64 /\ offsets 0 l = [0; 24; 25].
Proof. vm_compute. split; [discriminate|reflexivity]. Qed.

(** the numbers are in [0,1) and, for every process grid, the one given to a site depends only on its global coordinates;
    swapped: the order of the two calls chosen by the compiler *)
Theorem C39_layout_independent :
  forall swapped key g1 g2 o x d r1 i1 r2 i2,
  valid_grid g1 = true -> valid_grid g2 = true -> glbSize g1 = glbSize g2 -> in_box x (glbSize g1) ->
  getLoclxAndRankOfCoords g1 x = (r1, i1) -> getLoclxAndRankOfCoords g2 x = (r2, i2) ->
  exists v, fillField swapped key g1 o r1 i1 d = Some v /\ fillField swapped key g2 o r2 i2 d = Some v /\ (0 <= v < 1)%R /\
    ((v < 1/2)%R -> remapUniformToSign v = -1) /\ ((1/2 <= v)%R -> remapUniformToSign v = 1).
Proof.
  intros sw key g1 g2 o x d r1 i1 r2 i2 V1 V2 HG Hx E1 E2.
  pose proof (field_value sw key g1 o x r1 i1 d V1 Hx E1) as F1.
  rewrite HG in Hx. pose proof (field_value sw key g2 o x r2 i2 d V2 Hx E2) as F2.
  replace (glbVol g2) with (glbVol g1) in F2 by (unfold glbVol; now rewrite HG).
  replace (glblxOfCoord g2 x) with (glblxOfCoord g1 x) in F2 by (unfold glblxOfCoord; now rewrite HG).
  eexists. split; [exact F1|]. split; [exact F2|]. split; [apply draw_range|]. apply sign_main; [|apply draw_range].
  unfold getUniformDistributed. cbv zeta. destruct sw; apply uniform_format.
Qed.
Print Assumptions C39_layout_independent.

(** above 2^31 sites numbers are reused: on a 192x256x256x256 lattice two different sites get the same numbers within one draw *)
Theorem C39_large_lattice_refuted :
  exists V g1 d1 g2 d2, V = prodZ [192; 256; 256; 256] /\ 0 <= g1 < V /\ 0 <= g2 < V /\ g1 <> g2 /\ 0 <= d1 < 2 /\ 0 <= d2 < 2 /\
    stream_position V 0 g1 d1 = stream_position V 0 g2 d2.
Proof.
  exists 3221225472, (2 ^ 31), 1, (2 ^ 30), 0. repeat split; try (vm_compute; congruence).
Qed.

(** a drawer is usable only once *)
Theorem C39_single_usage : enforce_single_usage false = Some true /\ enforce_single_usage true = None.
Proof. split; reflexivity. Qed.

(** C61: the delta source is set on exactly one site of the whole lattice, the requested one *)
Theorem C61_delta_source :
  forall g x, valid_grid g = true -> in_box x (glbSize g) ->
  exists r0 i0, 0 <= r0 < nranks g /\ 0 <= i0 < locVol g /\ getLoclxAndRankOfCoords g x = (r0, i0) /\
  forall r, 0 <= r < nranks g -> delta_site g x r = if r =? r0 then Some i0 else None.
Proof.
  intros g x Hv Hx. destruct (getLoclxAndRankOfCoords g x) as [r0 i0] eqn:E. exists r0, i0.
  destruct (owner_fwd g x Hv Hx _ _ E) as (Hr & Hi & _). split; [assumption|]. split; [assumption|]. split; [reflexivity|].
  intros r Hr'. rewrite (delta_owner g x r Hv Hx Hr'), E. reflexivity.
Qed.
Print Assumptions C61_delta_source.
