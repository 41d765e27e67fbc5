(** The local generators and the sources do not depend on the process grid. *)
From Coq Require Import Reals.
From Verif Require Import Base GeometryModel GeometrySpec GeometryProofs OwnerProofs LabelProofs GeoMiscProofs IldgModel IldgProofs Ran2Model Ran2Proofs.
Open Scope Z_scope.

Lemma site_labels g r i : valid_grid g = true -> 0 <= r < nranks g -> 0 <= i < locVol g ->
  exists x, in_box x (glbSize g) /\ getLoclxAndRankOfCoords g x = (r, i) /\
    glbCoordOfLoclx (label_all_sites g (coordOfRank g r)) i = Some x /\
    glblxOfLoclx (label_all_sites g (coordOfRank g r)) i = Some (glblxOfCoord g x).
Proof.
  intros Hv Hr Hi. destruct (owner_onto g r i Hv Hr Hi) as (x & Hx & E). exists x. split; [assumption|]. split; [assumption|].
  destruct (owner_fwd g x Hv Hx _ _ E) as (_ & _ & Ex).
  assert (Hrc : in_box (coordOfRank g r) (nRanksDir g)).
  { unfold coordOfRank. apply coordOfLx_in_box; [now apply nRanks_pos|]. rewrite <- nranks_prod. assumption. }
  destruct (loc_true_glb g Hv _ i Hrc Hi) as (H1 & _ & He & Hn & Ei).
  rewrite <- Ex in H1. split; [assumption|].
  destruct (label_spec g Hv _ _ Hrc He ltac:(lia)) as (H1' & H2 & _). cbv zeta in *. rewrite Ei in *.
  destruct (H2 ltac:(lia)) as [_ H2b]. rewrite H2b. rewrite H1 in H1'. injection H1' as <-. reflexivity.
Qed.

(** the generator of a site is the one started from internal seed + global index, whatever the grid *)
Lemma loc_gen_spec g gg garbage x r i : valid_grid g = true -> gen_ok gg -> glbVol g < RAND_MAX ->
  (forall j, length (garbage j) = 32%nat) -> in_box x (glbSize g) -> getLoclxAndRankOfCoords g x = (r, i) ->
  exists s g' gen, internal_seed (glbVol g) gg = Some (s, g') /\ 0 <= s < RAND_MAX - glbVol g /\
    loc_rnd_gen g gg garbage r i = Some gen /\ gen_ok gen /\
    start_rnd_gen (repeat 0 32) (s + glblxOfCoord g x) = Some gen.
Proof.
  intros Hv Hg HV Hgb Hx E. destruct (owner_fwd g x Hv Hx _ _ E) as (Hr & Hi & Ex).
  destruct (site_labels g r i Hv Hr Hi) as (x' & Hx' & E' & L1 & L2).
  assert (x' = x) by (apply (owner_inj g); congruence). subst x'.
  assert (Hgl : 0 <= glblxOfCoord g x < glbVol g).
  { unfold glblxOfCoord, glbVol. rewrite volOfLx_prodZ. now apply lxOfCoord_bounds. }
  destruct (internal_seed_ok (glbVol g) gg Hg ltac:(lia)) as (s & g' & Es & Bs).
  destruct (site_gen_ok (glbVol g) s (glblxOfCoord g x) (garbage i) (Hgb i) Bs Hgl) as (gen & Eg & Gg & Sg).
  exists s, g', gen. split; [assumption|]. split; [assumption|]. split.
  - unfold loc_rnd_gen. rewrite Es, L2, Eg. reflexivity.
  - split; [assumption|]. rewrite <- Sg. apply start_garbage; [reflexivity|apply Hgb|].
    unfold RAND_MAX, int_min, int_max in *. lia.
Qed.

Lemma grid_independent g1 g2 gg gb1 gb2 x r1 i1 r2 i2 : valid_grid g1 = true -> valid_grid g2 = true ->
  glbSize g1 = glbSize g2 -> gen_ok gg -> glbVol g1 < RAND_MAX ->
  (forall j, length (gb1 j) = 32%nat) -> (forall j, length (gb2 j) = 32%nat) -> in_box x (glbSize g1) ->
  getLoclxAndRankOfCoords g1 x = (r1, i1) -> getLoclxAndRankOfCoords g2 x = (r2, i2) ->
  exists gen, loc_rnd_gen g1 gg gb1 r1 i1 = Some gen /\ loc_rnd_gen g2 gg gb2 r2 i2 = Some gen /\ gen_ok gen.
Proof.
  intros V1 V2 HG Hg HV B1 B2 Hx E1 E2.
  assert (Ev : glbVol g2 = glbVol g1) by (unfold glbVol; now rewrite HG).
  destruct (loc_gen_spec g1 gg gb1 x r1 i1) as (s & g' & gen & S1 & _ & L1 & G1 & T1); try assumption.
  destruct (loc_gen_spec g2 gg gb2 x r2 i2) as (s2 & g2' & gen2 & S2 & _ & L2 & G2 & T2); try assumption; try (rewrite ?Ev, <- ?HG; assumption).
  rewrite Ev, S1 in S2. injection S2 as <- <-.
  assert (Eg : glblxOfCoord g2 x = glblxOfCoord g1 x) by (unfold glblxOfCoord; now rewrite HG).
  rewrite Eg, T1 in T2. injection T2 as <-. exists gen. auto.
Qed.

(** distinct sites: generators never in the same state *)
Lemma site_gens_distinct g gg gb x y rx ix ry iy_ n gx gy hx hy : valid_grid g = true -> gen_ok gg -> glbVol g < RAND_MAX ->
  (forall j, length (gb j) = 32%nat) -> in_box x (glbSize g) -> in_box y (glbSize g) ->
  getLoclxAndRankOfCoords g x = (rx, ix) -> getLoclxAndRankOfCoords g y = (ry, iy_) ->
  loc_rnd_gen g gg gb rx ix = Some gx -> loc_rnd_gen g gg gb ry iy_ = Some gy ->
  draws n gx = Some hx -> draws n gy = Some hy -> hx = hy -> x = y.
Proof.
  intros Hv Hg HV Hgb Hx Hy Ex Ey Lx Ly Dx Dy Eh.
  destruct (loc_gen_spec g gg gb x rx ix) as (s & g' & gen & S1 & Bs & L1 & G1 & T1); try assumption.
  destruct (loc_gen_spec g gg gb y ry iy_) as (s2 & g2' & gen2 & S2 & _ & L2 & G2 & T2); try assumption.
  rewrite S1 in S2. injection S2 as <- <-. rewrite Lx in L1. injection L1 as <-. rewrite Ly in L2. injection L2 as <-.
  assert (Hb : forall z, in_box z (glbSize g) -> 0 <= glblxOfCoord g z < glbVol g).
  { intros z Hz. unfold glblxOfCoord, glbVol. rewrite volOfLx_prodZ. now apply lxOfCoord_bounds. }
  assert (E : s + glblxOfCoord g x = s + glblxOfCoord g y).
  { pose proof (Hb x Hx). pose proof (Hb y Hy).
    apply (seeds_distinct n (repeat 0 32) (repeat 0 32) _ _ gx gy hx hy); try reflexivity; try assumption;
      try (unfold RAND_MAX, int_max in *; lia); now rewrite Eh. }
  assert (E' : glblxOfCoord g x = glblxOfCoord g y) by lia. unfold glblxOfCoord in E'.
  rewrite <- (coordOfLx_lxOfCoord x (glbSize g)), <- (coordOfLx_lxOfCoord y (glbSize g)) by (try apply glbSize_pos; assumption).
  now rewrite E'.
Qed.

Lemma source_grid_independent A g1 g2 gens1 gens2 (draw : rnd_gen -> option (A * rnd_gen)) dir twall x r1 i1 r2 i2 :
  valid_grid g1 = true -> valid_grid g2 = true -> glbSize g1 = glbSize g2 -> in_box x (glbSize g1) ->
  getLoclxAndRankOfCoords g1 x = (r1, i1) -> getLoclxAndRankOfCoords g2 x = (r2, i2) ->
  gens1 i1 = gens2 i2 ->
  generate_source g1 draw dir twall r1 gens1 i1 = generate_source g2 draw dir twall r2 gens2 i2 /\
  (forall gen, gens1 i1 = Some gen ->
   generate_source g1 draw dir twall r1 gens1 i1 =
     if (x.[dir] =? twall) || (twall <? 0) then option_map (fun p => (Some (fst p), snd p)) (draw gen) else Some (None, gen)).
Proof.
  intros V1 V2 HG Hx E1 E2 Eg.
  assert (L : forall g r i, valid_grid g = true -> in_box x (glbSize g) -> getLoclxAndRankOfCoords g x = (r, i) ->
     glbCoordOfLoclx (label_all_sites g (coordOfRank g r)) i = Some x).
  { intros g r i Hv Hb E. destruct (owner_fwd g x Hv Hb _ _ E) as (Hr & Hi & _).
    destruct (site_labels g r i Hv Hr Hi) as (x' & Hx' & E' & L1 & _).
    assert (x' = x) by (apply (owner_inj g); congruence). now subst x'. }
  unfold generate_source. rewrite (L g1 r1 i1) by assumption. rewrite (L g2 r2 i2) by (try rewrite <- HG; assumption).
  rewrite Eg. split; [reflexivity|]. intros gen ->.
  destruct ((x.[dir] =? twall) || (twall <? 0)); [|reflexivity]. destruct (draw gen) as [[a g']|]; reflexivity.
Qed.

(** the delta source is put on the owner and nowhere else *)
Lemma delta_owner g x r : valid_grid g = true -> in_box x (glbSize g) -> 0 <= r < nranks g ->
  delta_site g x r = if r =? fst (getLoclxAndRankOfCoords g x) then Some (snd (getLoclxAndRankOfCoords g x)) else None.
Proof.
  intros Hv Hx Hr.
  assert (Hrc : in_box (coordOfRank g r) (nRanksDir g)).
  { unfold coordOfRank. apply coordOfLx_in_box; [now apply nRanks_pos|]. rewrite <- nranks_prod. assumption. }
  pose proof (loc_len g Hv) as Hll. pose proof (IldgProofs.glb_len g Hv) as Hgl.
  assert (Hxl : length x = 4%nat) by (apply in_box_nth in Hx as [H _]; congruence).
  assert (Hnl : length (nRanksDir g) = 4%nat) by (now apply (LabelProofs.nr_len)).
  assert (Hcl : length (coordOfRank g r) = 4%nat) by (apply in_box_nth in Hrc as [H _]; congruence).
  unfold delta_site. cbv zeta. set (lx := map (fun mu => x.[mu] - (coordOfRank g r).[mu] * (locSize g).[mu]) dirs).
  assert (Hlx : length lx = 4%nat) by reflexivity.
  assert (Hn : forall mu, (mu < 4)%nat -> lx.[mu] = x.[mu] - (coordOfRank g r).[mu] * (locSize g).[mu]).
  { intros mu Hmu. unfold lx. now rewrite nth_map_dirs. }
  destruct (forallb _ dirs) eqn:Ef.
  - assert (Hb : in_box lx (locSize g)).
    { apply in_box_nth. split; [congruence|]. intros m Hm. rewrite Hll in Hm.
      pose proof (proj1 (forallb_forall _ _) Ef m) as K. cbn beta in K.
      assert (In m dirs) by (unfold dirs; cbn; lia). specialize (K H). lia. }
    assert (Ej : x = join_coords g (coordOfRank g r) lx).
    { destruct (join_split g (coordOfRank g r) lx Hv Hrc Hb) as (Hj & _ & _). apply in_box_nth in Hj as [Hjl _].
      apply list4_ext; [assumption|congruence|]. intros mu Hmu. unfold join_coords.
      rewrite !nth_map2 by (try assumption; rewrite map2_length; congruence). rewrite (Hn mu Hmu). lia. }
    pose proof (owner_bwd g _ _ Hv Hrc Hb) as O. rewrite <- Ej in O. rewrite O. cbn [fst snd].
    assert (Er : rankOfCoords g (coordOfRank g r) = r).
    { unfold rankOfCoords, coordOfRank. apply lxOfCoord_coordOfLx; [now apply nRanks_pos|]. rewrite <- nranks_prod. assumption. }
    rewrite Er, Z.eqb_refl. reflexivity.
  - destruct (getLoclxAndRankOfCoords g x) as [r' i'] eqn:E. cbn [fst snd]. destruct (Z.eqb_spec r r') as [->|]; [|reflexivity].
    exfalso. destruct (owner_fwd g x Hv Hx _ _ E) as (_ & Hi & Ex).
    rewrite (locVol_prod g Hv) in Hi. pose proof (coordOfLx_in_box i' _ (locSize_pos g Hv) Hi) as Hb.
    assert (Et : forallb (fun mu => (0 <=? lx.[mu]) && (lx.[mu] <? (locSize g).[mu])) dirs = true); [|congruence].
    apply forallb_forall. intros mu Hmu. assert (Hmu' : (mu < 4)%nat) by (unfold dirs in Hmu; cbn in Hmu; lia).
    apply in_box_nth in Hb as [Hbl Hbb]. rewrite Hll in *. specialize (Hbb mu Hmu').
    assert (Em : x.[mu] = (coordOfRank g r').[mu] * (locSize g).[mu] + (coordOfLx i' (locSize g)).[mu]).
    { rewrite Ex at 1. unfold join_coords. rewrite !nth_map2 by (try assumption; rewrite map2_length; congruence). reflexivity. }
    rewrite (Hn mu Hmu'). lia.
Qed.
