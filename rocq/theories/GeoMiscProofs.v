From Verif Require Import Base GeometryModel GeometrySpec GeometryProofs OwnerProofs FullLxProofs FullLxMain LabelProofs NeighProofs GeoMiscModel.

Lemma Some_inj {A} (a b : A) : Some a = Some b -> a = b.
Proof. congruence. Qed.

(** *** counting in a box *)
Definition countZ (f : Z -> bool) (n : Z) : Z := Z.of_nat (length (filter f (seqZ n))).

Lemma seqZ_0 n : n <= 0 -> seqZ n = [].
Proof. intros H. unfold seqZ. replace (Z.to_nat n) with O by lia. reflexivity. Qed.

Lemma seqZ_succ n : 0 <= n -> seqZ (n + 1) = seqZ n ++ [n].
Proof.
  intros H. unfold seqZ. replace (Z.to_nat (n+1)) with (S (Z.to_nat n)) by lia.
  rewrite seq_S, map_app. cbn [map]. do 2 f_equal. cbn [Nat.add]. lia.
Qed.

Lemma seqZ_add a b : 0 <= a -> 0 <= b -> seqZ (a + b) = seqZ a ++ map (fun r => a + r) (seqZ b).
Proof.
  intros Ha Hb. unfold seqZ. rewrite Z2Nat.inj_add by lia. rewrite seq_app, map_app. f_equal.
  rewrite map_map.
  assert (E : forall m k, map Z.of_nat (seq (Z.to_nat a + k) m) = map (fun x => a + Z.of_nat x) (seq k m)).
  { induction m as [|m IH]; intros k; cbn [seq map]; [reflexivity|]. f_equal; [lia|].
    rewrite <- Nat.add_succ_r. apply IH. }
  specialize (E (Z.to_nat b) O). rewrite Nat.add_0_r in E. exact E.
Qed.

Lemma seqZ_mul P n : 0 <= P -> 0 <= n -> seqZ (P * n) = flat_map (fun q => map (fun r => q * n + r) (seqZ n)) (seqZ P).
Proof.
  intros HP Hn. revert P HP. apply natlike_ind.
  - reflexivity.
  - intros P HP IH. replace (Z.succ P * n) with (P * n + n) by ring. rewrite seqZ_add by nia.
    replace (Z.succ P) with (P + 1) by lia. rewrite seqZ_succ by assumption.
    rewrite flat_map_app, IH. f_equal. cbn [flat_map]. now rewrite app_nil_r.
Qed.

Lemma filter_length_map {A} (f : Z -> bool) (h : A -> Z) l : length (filter f (map h l)) = length (filter (fun a => f (h a)) l).
Proof. induction l as [|a l IH]; cbn; [reflexivity|]. destruct (f (h a)); cbn; lia. Qed.

Lemma filter_length_ext {A} (f h : A -> bool) l : (forall a, In a l -> f a = h a) -> length (filter f l) = length (filter h l).
Proof.
  induction l as [|a l IH]; intros H; cbn; [reflexivity|]. rewrite (H a) by now left.
  assert (E := IH (fun b Hb => H b (or_intror Hb))). destruct (h a); cbn; lia.
Qed.

Lemma count_flat_map (f : Z -> bool) (p : Z -> bool) (k : nat) (h : Z -> list Z) l :
  (forall q, In q l -> length (filter f (h q)) = if p q then k else O) ->
  length (filter f (flat_map h l)) = (length (filter p l) * k)%nat.
Proof.
  induction l as [|q l IH]; intros H; cbn [flat_map filter length]; [reflexivity|].
  rewrite filter_app, app_length. rewrite (H q) by now left. rewrite IH by (intros r Hr; apply H; now right).
  destruct (p q); cbn [length]; lia.
Qed.

(** all the coordinates satisfy their condition *)
Fixpoint all_ok (fs : list (Z -> bool)) (x : list Z) : bool :=
  match fs, x with f :: fs', c :: x' => f c && all_ok fs' x' | [], [] => true | _, _ => false end.

Lemma all_ok_snoc fs x f c : length fs = length x -> all_ok (fs ++ [f]) (x ++ [c]) = all_ok fs x && f c.
Proof.
  revert x; induction fs as [|h fs IH]; intros [|d x] Hl; try discriminate; cbn [app all_ok].
  - now rewrite andb_true_r.
  - rewrite IH by (injection Hl; auto). now rewrite andb_assoc.
Qed.

Lemma count_box s fs : Forall (fun n => 0 < n) s -> length fs = length s ->
  countZ (fun i => all_ok fs (coordOfLx i s)) (prodZ s) = prodZ (map (fun p => countZ (fst p) (snd p)) (combine fs s)).
Proof.
  revert fs. induction s as [|n s IH] using rev_ind; intros fs Hp Hl.
  - destruct fs; [reflexivity|discriminate].
  - apply Forall_app in Hp as [Hs Hn]. inversion Hn as [|? ? Hn' _]; subst.
    destruct fs as [|f fs _] using rev_ind; [rewrite app_length in Hl; cbn in Hl; lia|].
    rewrite !app_length in Hl. cbn [length] in Hl. assert (Hl' : length fs = length s) by lia.
    assert (Ecomb : combine (fs ++ [f]) (s ++ [n]) = combine fs s ++ [(f, n)]).
    { clear -Hl'. revert s Hl'. induction fs as [|h fs IH]; intros [|m s] H; try discriminate; [reflexivity|].
      cbn [app combine]. rewrite IH by (injection H; auto). reflexivity. }
    rewrite Ecomb, map_app, !prodZ_app. change (map (fun p : (Z -> bool) * Z => countZ (fst p) (snd p)) [(f, n)]) with [countZ f n].
    rewrite <- (IH fs Hs Hl'). unfold prodZ at 2 4. cbn [fold_right]. rewrite !Z.mul_1_r.
    pose proof (prodZ_pos s Hs) as HP.
    unfold countZ at 1. rewrite seqZ_mul by lia.
    rewrite (count_flat_map _ (fun q => all_ok fs (coordOfLx q s)) (length (filter f (seqZ n)))).
    + unfold countZ. now rewrite Nat2Z.inj_mul.
    + intros q Hq. apply in_seqZ in Hq. rewrite filter_length_map.
      rewrite (filter_length_ext _ (fun r => all_ok fs (coordOfLx q s) && f r)).
      * destruct (all_ok fs (coordOfLx q s)); cbn [andb]; [reflexivity|].
        clear. induction (seqZ n); auto.
      * intros r Hr. apply in_seqZ in Hr. rewrite coordOfLx_snoc.
        rewrite Z.quot_div_nonneg, Z.rem_mod_nonneg by nia.
        replace (q * n + r) with (r + q * n) by ring. rewrite Z.div_add, Z.mod_add by lia.
        rewrite Z.div_small, Z.mod_small, Z.add_0_l by lia.
        rewrite all_ok_snoc; [reflexivity|]. now rewrite coordOfLx_length.
Qed.

Lemma count_all n f : 0 <= n -> (forall c, 0 <= c < n -> f c = true) -> countZ f n = n.
Proof.
  intros Hn H. unfold countZ. rewrite (filter_length_ext f (fun _ => true)) by (intros a Ha; apply in_seqZ in Ha; auto).
  assert (E : forall l : list Z, filter (fun _ => true) l = l) by (induction l; cbn; congruence).
  rewrite E, seqZ_length. lia.
Qed.

Lemma countZ_succ n f : 0 <= n -> countZ f (n + 1) = countZ f n + (if f n then 1 else 0).
Proof.
  intros H. unfold countZ. rewrite seqZ_succ by assumption. rewrite filter_app, app_length. cbn [filter].
  destruct (f n); cbn [length]; lia.
Qed.

Lemma count_but_last n f : 1 <= n -> (forall c, 0 <= c < n - 1 -> f c = true) -> f (n - 1) = false -> countZ f n = n - 1.
Proof.
  intros Hn H Hf. replace n with (n - 1 + 1) at 1 by ring. rewrite countZ_succ, Hf, count_all by (auto; lia). ring.
Qed.

Lemma countZ_shift n f : 0 <= n -> countZ f (n + 1) = (if f 0 then 1 else 0) + countZ (fun c => f (c + 1)) n.
Proof.
  revert n. apply natlike_ind.
  - rewrite countZ_succ by lia. cbn. ring.
  - intros n Hn IH. replace (Z.succ n) with (n + 1) by lia. rewrite (countZ_succ (n+1)) by lia. rewrite IH. rewrite (countZ_succ n) by lia. ring.
Qed.

Lemma count_but_first n f : 1 <= n -> (forall c, 1 <= c < n -> f c = true) -> f 0 = false -> countZ f n = n - 1.
Proof.
  intros Hn H Hf. replace n with (n - 1 + 1) at 1 by ring. rewrite countZ_shift, Hf, count_all; [ring|lia|..].
  - intros c Hc. apply H. lia.
  - lia.
Qed.

Lemma count_but_ends n f : 2 <= n -> (forall c, 1 <= c < n - 1 -> f c = true) -> f 0 = false -> f (n - 1) = false -> countZ f n = n - 2.
Proof.
  intros Hn H Hf Hf'. replace n with (n - 1 + 1) at 1 by ring. rewrite countZ_succ, Hf' by lia.
  rewrite count_but_first; [ring|lia| |assumption]. intros c Hc. apply H. lia.
Qed.

Lemma filter_split_length {A} (f : A -> bool) l : (length (filter f l) + length (filter (fun a => negb (f a)) l) = length l)%nat.
Proof. induction l as [|a l IH]; cbn; [reflexivity|]. destruct (f a); cbn; lia. Qed.

Section G.
Context (g : grid) (Hv : valid_grid g = true).

(** *** C05 *)
Lemma comb_eq t b wb c wc gb gc : glbCoordOfLoclx t b = Some gb -> glbCoordOfLoclx t c = Some gc ->
  glblxOfComb g t b wb c wc =
  Some (glblxOfCoord g (map (fun mu => (gb.[mu] * wb + gc.[mu] * wc) mod (glbSize g).[mu]) dirs)).
Proof. intros H1 H2. unfold glblxOfComb. now rewrite H1, H2. Qed.

(** global coordinates of a local index *)
Lemma loc_true_glb rc i : in_box rc (nRanksDir g) -> 0 <= i < locVol g ->
  glbCoordOfLoclx (label_all_sites g rc) i = Some (join_coords g rc (coordOfLx i (locSize g))) /\
  locCoordOfLoclx (label_all_sites g rc) i = Some (coordOfLx i (locSize g)) /\
  ext_site g (coordOfLx i (locSize g)) /\ n_out g (coordOfLx i (locSize g)) = 0%nat /\
  fullLxOfCoords g (coordOfLx i (locSize g)) = i.
Proof.
  intros Hrc Hi. set (y := coordOfLx i (locSize g)).
  rewrite (locVol_prod g Hv) in Hi.
  pose proof (coordOfLx_in_box i _ (locSize_pos g Hv) Hi) as Hb. fold y in Hb.
  pose proof (loc_len g Hv) as Hll.
  pose proof Hb as Hb'. apply in_box_nth in Hb' as [Hyl Hyb]. rewrite Hll in *.
  assert (Hy : ext_site g y).
  { split; [congruence|]. intros mu Hmu. specialize (Hyb mu Hmu). destruct (1 <? _); lia. }
  assert (Hn : n_out g y = 0%nat) by (apply (n_out_0 g Hv); assumption).
  assert (Ei : fullLxOfCoords g y = i).
  { unfold fullLxOfCoords.
    assert (Em : map2 Z.modulo y (glbSize g) = y).
    { apply list4_ext; [pose proof (glb_len g Hv); len4|congruence|].
      intros mu Hmu. rewrite nth_map2 by (pose proof (glb_len g Hv); congruence || assumption).
      destruct (dir_facts g Hv mu Hmu) as (A & B & C). specialize (Hyb mu Hmu). apply Z.mod_small. nia. }
    rewrite Em.
    assert (Ef : forallb (fun mu => (0 <=? y.[mu]) && (y.[mu] <? (locSize g).[mu])) dirs = true).
    { apply forallb_forall. intros mu Hmu. unfold dirs in Hmu. cbn in Hmu.
      specialize (Hyb mu ltac:(lia)). lia. }
    rewrite Ef. unfold loclxOfCoord, y. apply lxOfCoord_coordOfLx; [now apply locSize_pos|assumption]. }
  destruct (label_spec g Hv rc y Hrc Hy ltac:(lia)) as (H1 & H2 & _). rewrite Ei in *.
  rewrite (locVol_prod g Hv) in H2. destruct (H2 ltac:(lia)) as [H2a _].
  repeat split; auto; try apply Hy.
  - rewrite H1. f_equal. destruct (join_split g rc y Hv Hrc Hb) as (Hj & _ & _).
    unfold true_glb. fold (join_coords g rc y). pose proof (glb_len g Hv) as HG.
    apply in_box_nth in Hj as [Hjl Hjb]. rewrite HG in *.
    apply list4_ext; [len4|congruence|]. intros mu Hmu. rewrite nth_map2 by congruence || assumption.
    apply Z.mod_small. auto.
Qed.

(** a stored index has a coordinate in the box *)
Lemma stored_coord rc i : in_box rc (nRanksDir g) -> 0 <= i < locVol g + bordVol g + edgeVol g ->
  exists gc, glbCoordOfLoclx (label_all_sites g rc) i = Some gc /\ in_box gc (glbSize g).
Proof.
  intros Hrc Hi. destruct (fullLx_onto g Hv i Hi) as (y & Hy & Hn & <-).
  destruct (label_spec g Hv rc y Hrc Hy Hn) as (H & _). exists (true_glb g rc y). split; [assumption|].
  apply true_glb_box; auto. apply Hy.
Qed.

Lemma mod_len (f : nat -> Z) : length (map f dirs) = 4%nat. Proof. reflexivity. Qed.

(** sum is commutative, difference undoes it *)
Lemma sum_comm t b c gb gc : glbCoordOfLoclx t b = Some gb -> glbCoordOfLoclx t c = Some gc ->
  glblxOfSum g t b c = glblxOfSum g t c b.
Proof.
  intros H1 H2. unfold glblxOfSum. rewrite (comb_eq t b 1 c 1 gb gc), (comb_eq t c 1 b 1 gc gb) by assumption.
  do 2 f_equal. apply map_ext. intros mu. f_equal. ring.
Qed.

Lemma diff_sum t b c s gb gc gs : glbCoordOfLoclx t b = Some gb -> glbCoordOfLoclx t c = Some gc -> glbCoordOfLoclx t s = Some gs ->
  in_box gb (glbSize g) -> in_box gs (glbSize g) ->
  glblxOfSum g t b c = Some (glblxOfCoord g gs) -> glblxOfDiff g t s c = Some (glblxOfCoord g gb).
Proof.
  intros H1 H2 H3 Hb Hs. unfold glblxOfSum, glblxOfDiff.
  rewrite (comb_eq t b 1 c 1 gb gc), (comb_eq t s 1 c (-1) gs gc) by assumption.
  intros E. apply Some_inj in E. do 2 f_equal.
  pose proof (glb_len g Hv) as HG. pose proof (in_box_length _ _ Hb) as Hbl. pose proof (in_box_length _ _ Hs) as Hsl.
  assert (Hin : in_box (map (fun mu => (gb.[mu] * 1 + gc.[mu] * 1) mod (glbSize g).[mu]) dirs) (glbSize g)).
  { apply in_box_nth. rewrite HG. split; [reflexivity|]. intros mu Hmu. rewrite nth_map_dirs by assumption.
    apply Z.mod_pos_bound. destruct (dir_facts g Hv mu Hmu) as (A & B & C). nia. }
  apply lxOfCoord_inj in E; [|assumption..]. subst gs.
  apply list4_ext; [reflexivity|congruence|]. intros mu Hmu. rewrite !nth_map_dirs by assumption.
  rewrite (Z.mul_1_r (_ mod _)). rewrite Zplus_mod_idemp_l. replace (gb.[mu] * 1 + gc.[mu] * 1 + gc.[mu] * -1) with gb.[mu] by ring.
  apply in_box_nth in Hb as [_ Hb]. apply Z.mod_small. apply Hb. congruence.
Qed.

(** *** C09 *)
Definition bulk_at (mu : nat) (c : Z) : bool := negb (isDirParallel g mu && ((c =? (locSize g).[mu] - 1) || (c =? 0))).
Definition nfw_at (mu : nat) (c : Z) : bool := negb (isDirParallel g mu && (c =? (locSize g).[mu] - 1)).
Definition nbw_at (mu : nat) (c : Z) : bool := negb (isDirParallel g mu && (c =? 0)).

Lemma all_ok_forallb f x : length x = 4%nat -> all_ok (map f dirs) x = forallb (fun mu => f mu x.[mu]) dirs.
Proof. intros Hl. destruct (length4 x Hl) as (a&b&c&d&->). reflexivity. Qed.

Lemma surf_flags_eq x : length x = 4%nat -> surf_flags g x =
  (all_ok (map bulk_at dirs) x, all_ok (map nfw_at dirs) x, all_ok (map nbw_at dirs) x).
Proof.
  intros Hl. rewrite !all_ok_forallb by assumption. unfold surf_flags.
  assert (K : forall L b f w, fold_left (fun '(bulk, nfw, nbw) mu =>
    if isDirParallel g mu then
      let '(bulk, nfw) := if x.[mu] =? (locSize g).[mu] - 1 then (false, false) else (bulk, nfw) in
      let '(bulk, nbw) := if x.[mu] =? 0 then (false, false) else (bulk, nbw) in
      (bulk, nfw, nbw)
    else (bulk, nfw, nbw)) L (b, f, w) =
    (b && forallb (fun mu => bulk_at mu x.[mu]) L, f && forallb (fun mu => nfw_at mu x.[mu]) L,
     w && forallb (fun mu => nbw_at mu x.[mu]) L)).
  { induction L as [|mu L IH]; intros b f w; cbn [fold_left forallb]; [now rewrite !andb_true_r|].
    unfold bulk_at at 1, nfw_at at 1, nbw_at at 1.
    destruct (isDirParallel g mu); [destruct (x.[mu] =? (locSize g).[mu] - 1), (x.[mu] =? 0)|]; rewrite IH; cbn [andb orb negb];
      rewrite ?andb_false_r; reflexivity. }
  rewrite K. reflexivity.
Qed.

Definition ok_at (f : nat -> Z -> bool) (i : Z) : bool := all_ok (map f dirs) (coordOfLx i (locSize g)).

Lemma mark_all rc L : in_box rc (nRanksDir g) -> (forall i, In i L -> 0 <= i < locVol g) -> forall a b c d e f,
  fold_left (mark_site g (label_all_sites g rc)) L (Some (mkSurf a b c d e f)) =
  Some (mkSurf (a ++ filter (ok_at bulk_at) L) (b ++ filter (fun i => negb (ok_at bulk_at i)) L)
               (c ++ filter (ok_at nfw_at) L) (d ++ filter (fun i => negb (ok_at nfw_at i)) L)
               (e ++ filter (ok_at nbw_at) L) (f ++ filter (fun i => negb (ok_at nbw_at i)) L)).
Proof.
  intros Hrc. induction L as [|i L IH]; intros HL a b c d e f; cbn [fold_left].
  - cbn [filter]. now rewrite !app_nil_r.
  - unfold mark_site at 2. destruct (loc_true_glb rc i Hrc (HL i (or_introl eq_refl))) as (_ & -> & _).
    rewrite surf_flags_eq by (rewrite coordOfLx_length; now apply loc_len).
    cbn [loclxOfBulklx loclxOfSurflx loclxOfNonFwSurflx loclxOfFwSurflx loclxOfNonBwSurflx loclxOfBwSurflx].
    rewrite IH by (intros j Hj; apply HL; now right). cbn [filter].
    fold (ok_at bulk_at i) (ok_at nfw_at i) (ok_at nbw_at i).
    destruct (ok_at bulk_at i), (ok_at nfw_at i), (ok_at nbw_at i); cbn [negb]; rewrite <- ?app_assoc; reflexivity.
Qed.

Lemma count_ok f : countZ (ok_at f) (locVol g) = prodZ (map (fun mu => countZ (f mu) (locSize g).[mu]) dirs).
Proof.
  unfold ok_at. rewrite (locVol_prod g Hv). rewrite count_box; [|now apply locSize_pos|symmetry; now apply loc_len].
  destruct (length4 _ (loc_len g Hv)) as (a&b&c&d&->). reflexivity.
Qed.

Lemma count_bulk_at mu : (mu < 4)%nat -> countZ (bulk_at mu) (locSize g).[mu] =
  if isDirParallel g mu then (locSize g).[mu] - 2 else (locSize g).[mu].
Proof.
  intros Hmu. destruct (dir_facts g Hv mu Hmu) as (H2 & _ & _). unfold bulk_at.
  destruct (isDirParallel g mu); cbn [andb].
  - apply count_but_ends; [assumption| | |]; [intros c Hc|..]; lia.
  - apply count_all; [lia|reflexivity].
Qed.
Lemma count_nfw_at mu : (mu < 4)%nat -> countZ (nfw_at mu) (locSize g).[mu] =
  if isDirParallel g mu then (locSize g).[mu] - 1 else (locSize g).[mu].
Proof.
  intros Hmu. destruct (dir_facts g Hv mu Hmu) as (H2 & _ & _). unfold nfw_at.
  destruct (isDirParallel g mu); cbn [andb].
  - apply count_but_last; [lia| |]; [intros c Hc|..]; lia.
  - apply count_all; [lia|reflexivity].
Qed.
Lemma count_nbw_at mu : (mu < 4)%nat -> countZ (nbw_at mu) (locSize g).[mu] =
  if isDirParallel g mu then (locSize g).[mu] - 1 else (locSize g).[mu].
Proof.
  intros Hmu. destruct (dir_facts g Hv mu Hmu) as (H2 & _ & _). unfold nbw_at.
  destruct (isDirParallel g mu); cbn [andb].
  - apply count_but_first; [lia| |]; [intros c Hc|..]; lia.
  - apply count_all; [lia|reflexivity].
Qed.

Lemma find_bulk_eq rc : in_box rc (nRanksDir g) ->
  let L := seqZ (locVol g) in
  find_bulk_sites g (label_all_sites g rc) =
  Some (mkSurf (filter (ok_at bulk_at) L) (filter (fun i => negb (ok_at bulk_at i)) L)
               (filter (ok_at nfw_at) L) (filter (fun i => negb (ok_at nfw_at i)) L)
               (filter (ok_at nbw_at) L) (filter (fun i => negb (ok_at nbw_at i)) L)).
Proof.
  intros Hrc. cbn zeta. unfold find_bulk_sites.
  rewrite mark_all by (auto; intros i Hi; now apply in_seqZ in Hi).
  cbn [loclxOfBulklx loclxOfSurflx loclxOfNonFwSurflx loclxOfFwSurflx loclxOfNonBwSurflx loclxOfBwSurflx app].
  assert (HV : 0 <= locVol g) by (rewrite (locVol_prod g Hv); pose proof (prodZ_pos _ (locSize_pos g Hv)); lia).
  assert (K : forall p v, countZ p (locVol g) = v ->
    Z.of_nat (length (filter p (seqZ (locVol g)))) = v /\
    Z.of_nat (length (filter (fun i => negb (p i)) (seqZ (locVol g)))) = locVol g - v).
  { intros p v <-. unfold countZ. pose proof (filter_split_length p (seqZ (locVol g))) as H. rewrite seqZ_length in H. lia. }
  assert (Eb : countZ (ok_at bulk_at) (locVol g) = bulkVol g).
  { rewrite count_ok. unfold bulkVol, dirs. cbn [map prodZ fold_right fold_left]. rewrite !count_bulk_at by lia. ring. }
  assert (Ef : countZ (ok_at nfw_at) (locVol g) = nonFwSurfVol g).
  { rewrite count_ok. unfold nonFwSurfVol, nonBwSurfVol, dirs. cbn [map prodZ fold_right fold_left]. rewrite !count_nfw_at by lia. ring. }
  assert (Ew : countZ (ok_at nbw_at) (locVol g) = nonBwSurfVol g).
  { rewrite count_ok. unfold nonBwSurfVol, dirs. cbn [map prodZ fold_right fold_left]. rewrite !count_nbw_at by lia. ring. }
  destruct (K _ _ Eb) as [-> ->]. destruct (K _ _ Ef) as [-> ->]. destruct (K _ _ Ew) as [-> ->].
  unfold surfVol, fwSurfVol, bwSurfVol. change (nonFwSurfVol g) with (nonBwSurfVol g). now rewrite !Z.eqb_refl.
Qed.

(** a step from a local site stays local iff the coordinate does not sit on that face *)
Lemma local_step rc i mu up j : in_box rc (nRanksDir g) -> 0 <= i < locVol g -> (mu < 4)%nat ->
  loclxNeigh g rc (label_all_sites g rc) up i mu = Some j ->
  (j < locVol g <-> (if up then nfw_at else nbw_at) mu (coordOfLx i (locSize g)).[mu] = true).
Proof.
  intros Hrc Hi Hmu Hj. destruct (loc_true_glb rc i Hrc Hi) as (_ & _ & Hy & Hn & Ei).
  set (y := coordOfLx i (locSize g)) in *. rewrite <- Ei in Hj. rewrite (neigh_eq g Hv) in Hj by (auto; lia).
  injection Hj as <-. pose proof Hn as Hn0. rewrite (n_out_0 g Hv) in Hn0. pose proof (Hn0 mu Hmu) as Hc.
  destruct (dir_facts g Hv mu Hmu) as (H2 & Hnn & HG).
  assert (Hd : dsgn up = 1 \/ dsgn up = -1) by (destruct up; auto).
  unfold nfw_at, nbw_at, isDirParallel.
  destruct (1 <? (nRanksDir g).[mu]) eqn:Ep; cbn [andb negb].
  - assert (Hm : ext_site g (move y mu (dsgn up))).
    { apply ext_upd; [assumption..|]. rewrite Ep. lia. }
    pose proof (n_out_move_le g Hv y mu (dsgn up) (proj1 Hy) Hmu) as Hle.
    destruct (fullLx_region g Hv _ Hm ltac:(lia)) as [[Hz Hr]|[[Hz Hr]|[Hz Hr]]]; [| |lia].
    + rewrite (n_out_0 g Hv) in Hz. specialize (Hz mu Hmu). unfold move in Hz. rewrite nth_upd_eq in Hz by (rewrite (proj1 Hy); assumption).
      split; [intros _|intros _; lia]. destruct up; cbn [dsgn] in *; lia.
    + split; [lia|]. intros Hf. exfalso.
      assert (n_out g (move y mu (dsgn up)) = 0%nat); [|lia].
      apply (n_out_0 g Hv). intros nu Hnu. unfold move. destruct (Nat.eq_dec mu nu) as [->|Hne].
      * rewrite nth_upd_eq by (rewrite (proj1 Hy); assumption). destruct up; cbn [dsgn] in *; lia.
      * rewrite nth_upd_neq by assumption. auto.
  - apply Z.ltb_ge in Ep. assert (En : (nRanksDir g).[mu] = 1) by lia. rewrite En, Z.mul_1_l in HG.
    set (w := upd y mu ((y.[mu] + dsgn up) mod (glbSize g).[mu])).
    pose proof (Z.mod_pos_bound (y.[mu] + dsgn up) (glbSize g).[mu] ltac:(lia)) as Hmb.
    assert (Hw : ext_site g w).
    { apply ext_upd; [assumption..|]. destruct (Z.ltb_spec 1 (nRanksDir g).[mu]); lia. }
    assert (Hwn : (n_out g w <= n_out g y)%nat) by (apply (n_out_upd_in g Hv); [apply Hy|assumption|lia]).
    rewrite (fullLx_periodic g (move y mu (dsgn up)) w).
    2:{ apply mod_upd; [assumption|apply Hy|assumption|]. now rewrite Zmod_mod. }
    destruct (fullLx_region g Hv w Hw ltac:(lia)) as [H|[H|H]]; [|lia..].
    split; [intros _; destruct up; rewrite En; reflexivity|lia].
Qed.

Lemma all_ok_dirs f x : length x = 4%nat -> (all_ok (map f dirs) x = true <-> forall mu, (mu < 4)%nat -> f mu x.[mu] = true).
Proof.
  intros Hl. destruct (length4 x Hl) as (a&b&c&d&->). unfold dirs. cbn [map all_ok].
  rewrite !andb_true_iff. split.
  - intros (A & B & C & D & _) mu Hmu. destruct mu as [|[|[|[|]]]]; try lia; assumption.
  - intros H. repeat split; [apply (H 0%nat)|apply (H 1%nat)|apply (H 2%nat)|apply (H 3%nat)]; lia.
Qed.

Lemma neigh_some rc i mu up : in_box rc (nRanksDir g) -> 0 <= i < locVol g -> (mu < 4)%nat ->
  exists j, loclxNeigh g rc (label_all_sites g rc) up i mu = Some j.
Proof. intros Hrc Hi Hmu. destruct (neigh_inverse g Hv rc i mu up Hrc Hi Hmu) as (j & H & _). eauto. Qed.

(** i stays on the rank for all steps of the given orientations *)
Definition stays (rc : list Z) (up : bool) (i : Z) : Prop :=
  forall mu j, (mu < 4)%nat -> loclxNeigh g rc (label_all_sites g rc) up i mu = Some j -> j < locVol g.

Lemma stays_ok rc (up : bool) i : in_box rc (nRanksDir g) -> 0 <= i < locVol g ->
  (ok_at (if up then nfw_at else nbw_at) i = true <-> stays rc up i).
Proof.
  intros Hrc Hi. unfold ok_at. rewrite all_ok_dirs by (rewrite coordOfLx_length; now apply loc_len). split.
  - intros H mu j Hmu Hj. apply (local_step rc i mu up j Hrc Hi Hmu Hj). destruct up; now apply H.
  - intros H mu Hmu. destruct (neigh_some rc i mu up Hrc Hi Hmu) as [j Hj].
    pose proof (proj1 (local_step rc i mu up j Hrc Hi Hmu Hj) (H mu j Hmu Hj)) as K. destruct up; exact K.
Qed.

Lemma bulk_both i : ok_at bulk_at i = ok_at nfw_at i && ok_at nbw_at i.
Proof.
  unfold ok_at. assert (Hl : length (coordOfLx i (locSize g)) = 4%nat) by (rewrite coordOfLx_length; now apply loc_len).
  rewrite !all_ok_forallb by assumption. set (x := coordOfLx i (locSize g)).
  induction dirs as [|mu L IH]; cbn [forallb]; [reflexivity|]. rewrite IH. unfold bulk_at, nfw_at, nbw_at.
  destruct (isDirParallel g mu), (x.[mu] =? (locSize g).[mu] - 1), (x.[mu] =? 0); cbn [andb orb negb]; rewrite ?andb_false_r; reflexivity.
Qed.

(** *** C18 *)
Lemma box_cases ibox : 0 <= ibox < 16 -> in_box (boxCoord ibox) nboxes /\ lxOfCoord (boxCoord ibox) nboxes = ibox.
Proof.
  intros H. assert (Hp : Forall (fun n => 0 < n) nboxes) by (repeat constructor; lia).
  split; [apply coordOfLx_in_box; auto|apply lxOfCoord_coordOfLx; auto].
Qed.

(** side of the box with coordinate k along mu *)
Definition box_side (mu : nat) (k : Z) : Z :=
  if k =? 0 then (locSize g).[mu] / 2 else (locSize g).[mu] - (locSize g).[mu] / 2.

Lemma boxSize0_nth mu : (mu < 4)%nat -> (boxSize0 g).[mu] = (locSize g).[mu] / 2.
Proof.
  intros Hmu. unfold boxSize0. destruct (dir_facts g Hv mu Hmu) as (A & _). 
  rewrite <- Z.quot_div_nonneg by lia. destruct (length4 _ (loc_len g Hv)) as (a&b&c&d&->).
  destruct mu as [|[|[|[|]]]]; try lia; reflexivity.
Qed.

Lemma boxSize_nth ibox mu : 0 <= ibox < 16 -> (mu < 4)%nat -> (boxSize g ibox).[mu] = box_side mu (boxCoord ibox).[mu].
Proof.
  intros Hi Hmu. unfold boxSize, box_side. destruct (Z.eqb_spec ibox 0) as [->|Hne].
  - rewrite boxSize0_nth by assumption. destruct mu as [|[|[|[|]]]]; try lia; reflexivity.
  - rewrite nth_map_dirs by assumption. rewrite boxSize0_nth by assumption. reflexivity.
Qed.
Lemma boxSize_len ibox : length (boxSize g ibox) = 4%nat.
Proof.
  unfold boxSize. destruct (ibox =? 0); [|reflexivity]. unfold boxSize0. rewrite map_length. now apply loc_len.
Qed.

Lemma nsite_prod ibox : nsite_per_box g ibox = prodZ (boxSize g ibox).
Proof.
  unfold nsite_per_box, dirs. destruct (length4 _ (boxSize_len ibox)) as (a&b&c&d&->).
  cbn [fold_left nth prodZ fold_right]. ring.
Qed.

Lemma boxSize_pos ibox : 0 <= ibox < 16 -> Forall (fun n => 0 < n) (boxSize g ibox).
Proof.
  intros Hi. rewrite Forall_forall. intros n Hn. destruct (In_nth _ _ 0 Hn) as (mu & Hmu & <-).
  rewrite boxSize_len in Hmu. rewrite boxSize_nth by assumption. unfold box_side.
  destruct (dir_facts g Hv mu Hmu) as (A & _). pose proof (Z.div_mod (locSize g).[mu] 2 ltac:(lia)).
  pose proof (Z.mod_pos_bound (locSize g).[mu] 2 ltac:(lia)). destruct (_ =? 0); lia.
Qed.

Definition box_coords (ibox isub : Z) : list Z :=
  map (fun mu => (boxSize0 g).[mu] * (boxCoord ibox).[mu] + (coordOfLx isub (boxSize g ibox)).[mu]) dirs.

Lemma box_coords_in ibox isub : 0 <= ibox < 16 -> 0 <= isub < nsite_per_box g ibox ->
  in_box (box_coords ibox isub) (locSize g).
Proof.
  intros Hi Hs. rewrite nsite_prod in Hs.
  pose proof (coordOfLx_in_box isub _ (boxSize_pos ibox Hi) Hs) as Hb. apply in_box_nth in Hb as [_ Hb].
  rewrite boxSize_len in Hb. apply in_box_nth. rewrite (loc_len g Hv). split; [reflexivity|].
  intros mu Hmu. unfold box_coords. rewrite nth_map_dirs, boxSize0_nth by assumption.
  specialize (Hb mu Hmu). rewrite boxSize_nth in Hb by assumption. unfold box_side in Hb.
  destruct (box_cases ibox Hi) as [Hc _]. apply in_box_nth in Hc as [_ Hc]. specialize (Hc mu Hmu).
  assert (Hn : nboxes.[mu] = 2) by (destruct mu as [|[|[|[|]]]]; try lia; reflexivity). rewrite Hn in Hc.
  destruct (dir_facts g Hv mu Hmu) as (A & _). pose proof (Z.div_mod (locSize g).[mu] 2 ltac:(lia)).
  pose proof (Z.mod_pos_bound (locSize g).[mu] 2 ltac:(lia)).
  destruct (Z.eqb_spec (boxCoord ibox).[mu] 0) as [->|]; [lia|].
  assert (E1 : (boxCoord ibox).[mu] = 1) by lia. rewrite E1. lia.
Qed.

Lemma box_unique ibox isub jbox jsub : 0 <= ibox < 16 -> 0 <= isub < nsite_per_box g ibox ->
  0 <= jbox < 16 -> 0 <= jsub < nsite_per_box g jbox ->
  box_site g ibox isub = box_site g jbox jsub -> ibox = jbox /\ isub = jsub.
Proof.
  intros Hi Hs Hj Ht E. unfold box_site in E. fold (box_coords ibox isub) (box_coords jbox jsub) in E.
  unfold loclxOfCoord in E. apply lxOfCoord_inj in E; try (apply box_coords_in; assumption).
  pose proof Hs as Hs'. pose proof Ht as Ht'. rewrite nsite_prod in Hs', Ht'.
  pose proof (coordOfLx_in_box isub _ (boxSize_pos ibox Hi) Hs') as Hb. pose proof Hb as Hb0. apply in_box_nth in Hb as [Hbl Hb].
  pose proof (coordOfLx_in_box jsub _ (boxSize_pos jbox Hj) Ht') as Hc. pose proof Hc as Hc0. apply in_box_nth in Hc as [Hcl Hc].
  rewrite boxSize_len in *.
  destruct (box_cases ibox Hi) as [Bi Ei]. destruct (box_cases jbox Hj) as [Bj Ej].
  assert (K : forall mu, (mu < 4)%nat -> (boxCoord ibox).[mu] = (boxCoord jbox).[mu] /\
     (coordOfLx isub (boxSize g ibox)).[mu] = (coordOfLx jsub (boxSize g jbox)).[mu]).
  { intros mu Hmu. pose proof (f_equal (fun l => l.[mu]) E) as Em. unfold box_coords in Em.
    rewrite !nth_map_dirs, boxSize0_nth in Em by assumption.
    specialize (Hb mu Hmu). specialize (Hc mu Hmu). rewrite boxSize_nth in Hb, Hc by assumption. unfold box_side in Hb, Hc.
    apply in_box_nth in Bi as [_ Bi]. apply in_box_nth in Bj as [_ Bj]. specialize (Bi mu Hmu). specialize (Bj mu Hmu).
    assert (Hn : nboxes.[mu] = 2) by (destruct mu as [|[|[|[|]]]]; try lia; reflexivity). rewrite Hn in *.
    destruct (dir_facts g Hv mu Hmu) as (A & _). pose proof (Z.div_mod (locSize g).[mu] 2 ltac:(lia)).
    pose proof (Z.mod_pos_bound (locSize g).[mu] 2 ltac:(lia)).
    set (h := (locSize g).[mu] / 2) in *.
    assert (C1 : (boxCoord ibox).[mu] = 0 \/ (boxCoord ibox).[mu] = 1) by lia.
    assert (C2 : (boxCoord jbox).[mu] = 0 \/ (boxCoord jbox).[mu] = 1) by lia.
    destruct C1 as [C1|C1], C2 as [C2|C2]; rewrite C1, C2 in *; cbn [Z.eqb] in *; lia. }
  assert (Eb : boxCoord ibox = boxCoord jbox).
  { apply list4_ext; [apply (in_box_length _ _ Bi)|apply (in_box_length _ _ Bj)|]. intros mu Hmu. now apply K. }
  assert (ibox = jbox) by congruence. subst jbox. split; [reflexivity|].
  assert (Ec : coordOfLx isub (boxSize g ibox) = coordOfLx jsub (boxSize g ibox)).
  { apply list4_ext; [assumption..|]. intros mu Hmu. now apply K. }
  rewrite <- (lxOfCoord_coordOfLx isub (boxSize g ibox)), Ec by (auto using boxSize_pos).
  apply lxOfCoord_coordOfLx; auto using boxSize_pos.
Qed.

Lemma box_onto i : 0 <= i < locVol g ->
  exists ibox isub, 0 <= ibox < 16 /\ 0 <= isub < nsite_per_box g ibox /\ box_site g ibox isub = i.
Proof.
  intros Hi. rewrite (locVol_prod g Hv) in Hi.
  pose proof (coordOfLx_in_box i _ (locSize_pos g Hv) Hi) as Hy. set (y := coordOfLx i (locSize g)) in *.
  pose proof Hy as Hy'. apply in_box_nth in Hy' as [Hyl Hyb]. rewrite (loc_len g Hv) in *.
  set (k := map (fun mu => if y.[mu] <? (locSize g).[mu] / 2 then 0 else 1) dirs).
  assert (Hk : in_box k nboxes).
  { apply in_box_nth. split; [reflexivity|]. intros mu Hmu. change (length nboxes) with 4%nat in Hmu.
    unfold k. rewrite nth_map_dirs by assumption. 
    assert (Hn : nboxes.[mu] = 2) by (destruct mu as [|[|[|[|]]]]; try lia; reflexivity). rewrite Hn. destruct (_ <? _); lia. }
  set (ibox := lxOfCoord k nboxes).
  assert (Hib : 0 <= ibox < 16) by exact (lxOfCoord_bounds _ _ Hk).
  assert (Eb : boxCoord ibox = k) by (apply coordOfLx_lxOfCoord; assumption).
  set (c := map (fun mu => y.[mu] - (locSize g).[mu] / 2 * k.[mu]) dirs).
  assert (Hc : in_box c (boxSize g ibox)).
  { apply in_box_nth. rewrite boxSize_len. split; [reflexivity|]. intros mu Hmu. rewrite boxSize_nth by assumption.
    rewrite Eb. unfold c. rewrite nth_map_dirs by assumption. unfold box_side. specialize (Hyb mu Hmu).
    assert (Ek : k.[mu] = if y.[mu] <? (locSize g).[mu] / 2 then 0 else 1) by (unfold k; now rewrite nth_map_dirs).
    rewrite Ek. pose proof (Z.div_mod (locSize g).[mu] 2 ltac:(lia)).
    pose proof (Z.mod_pos_bound (locSize g).[mu] 2 ltac:(lia)).
    destruct (Z.ltb_spec y.[mu] ((locSize g).[mu] / 2)); cbn [Z.eqb]; lia. }
  exists ibox, (lxOfCoord c (boxSize g ibox)). split; [assumption|]. split.
  - rewrite nsite_prod. now apply lxOfCoord_bounds.
  - unfold box_site. rewrite coordOfLx_lxOfCoord by assumption. rewrite Eb.
    replace (map _ dirs) with y.
    + unfold loclxOfCoord, y. apply lxOfCoord_coordOfLx; [now apply locSize_pos|assumption].
    + apply list4_ext; [assumption|reflexivity|]. intros mu Hmu. rewrite nth_map_dirs, boxSize0_nth by assumption.
      unfold c. rewrite nth_map_dirs by assumption. ring.
Qed.

(** *** C19 *)
Lemma mirror_nth c imir mu : (mu < 4)%nat -> 0 <= c.[mu] < (glbSize g).[mu] ->
  (get_mirrorized_site_coords g c imir).[mu] =
  if Z.testbit imir (Z.of_nat mu) then (- c.[mu]) mod (glbSize g).[mu] else c.[mu].
Proof.
  intros Hmu Hc. unfold get_mirrorized_site_coords. rewrite nth_map_dirs by assumption.
  unfold get_mirrorized_site_coord. destruct (Z.testbit imir (Z.of_nat mu)).
  - rewrite Z.rem_mod_nonneg by lia. replace ((glbSize g).[mu] + (1 - 2*1) * c.[mu]) with (- c.[mu] + 1 * (glbSize g).[mu]) by ring.
    now rewrite Z.mod_add by lia.
  - rewrite Z.rem_mod_nonneg by lia. replace ((glbSize g).[mu] + (1 - 2*0) * c.[mu]) with (c.[mu] + 1 * (glbSize g).[mu]) by ring.
    rewrite Z.mod_add by lia. now apply Z.mod_small.
Qed.

Lemma mirror_box c imir : in_box c (glbSize g) -> in_box (get_mirrorized_site_coords g c imir) (glbSize g).
Proof.
  intros Hc. apply in_box_nth in Hc as [Hl Hc]. pose proof (glb_len g Hv) as HG. rewrite HG in *.
  apply in_box_nth. rewrite HG. split; [reflexivity|]. intros mu Hmu. specialize (Hc mu Hmu).
  rewrite mirror_nth by assumption. destruct (Z.testbit _ _); [|assumption]. apply Z.mod_pos_bound. lia.
Qed.

Lemma mirror_xor c i j : in_box c (glbSize g) ->
  get_mirrorized_site_coords g (get_mirrorized_site_coords g c i) j = get_mirrorized_site_coords g c (Z.lxor i j).
Proof.
  intros Hc. pose proof (mirror_box c i Hc) as Hm. pose proof (glb_len g Hv) as HG.
  apply in_box_nth in Hc as [Hl Hc]. apply in_box_nth in Hm as [_ Hm]. rewrite HG in *.
  apply list4_ext; [reflexivity..|]. intros mu Hmu. rewrite mirror_nth by auto. rewrite !mirror_nth by auto.
  rewrite Z.lxor_spec. specialize (Hc mu Hmu).
  destruct (Z.testbit i (Z.of_nat mu)), (Z.testbit j (Z.of_nat mu)); cbn [xorb]; try reflexivity.
  rewrite <- (Z.sub_0_l ((- c.[mu]) mod _)). rewrite Zminus_mod_idemp_r. replace (0 - - c.[mu]) with c.[mu] by ring. now apply Z.mod_small.
Qed.
End G.

(** *** C20 *)
Definition sgn (n : Z) : Z := if Z.even n then 1 else -1.

Lemma sgn_rem n : 0 <= n -> 1 - 2 * Z.rem n 2 = sgn n.
Proof.
  intros H. unfold sgn. rewrite Z.rem_mod_nonneg by lia. rewrite Zmod_even. destruct (Z.even n); reflexivity.
Qed.

Lemma sgn_add a b : sgn (a + b) = sgn a * sgn b.
Proof. unfold sgn. rewrite Z.even_add. destruct (Z.even a), (Z.even b); reflexivity. Qed.

Lemma sgn_sq a : sgn a * sgn a = 1.
Proof. unfold sgn. destruct (Z.even a); reflexivity. Qed.

Lemma stagphase_spec x mu : (mu <= 3)%nat -> (forall nu, (nu < mu)%nat -> 0 <= x.[nu]) ->
  getStagphase x mu = sgn (sumZ (firstn mu (map (fun nu => x.[nu]) [0;1;2;3]%nat))).
Proof.
  intros Hmu Hx. unfold getStagphase. destruct mu as [|[|[|[|]]]]; try lia; cbn [seq fold_left Nat.sub map firstn sumZ fold_right].
  - reflexivity.
  - rewrite (sgn_rem x.[0]) by (apply Hx; lia). rewrite Z.add_0_r. ring.
  - rewrite (sgn_rem x.[0]), (sgn_rem x.[1]) by (apply Hx; lia). rewrite !sgn_add. change (sgn 0) with 1. ring.
  - rewrite (sgn_rem x.[0]), (sgn_rem x.[1]), (sgn_rem x.[2]) by (apply Hx; lia). rewrite !sgn_add. change (sgn 0) with 1. ring.
Qed.

Lemma stagphases_agree x mu : (mu <= 3)%nat -> (getStagphases x).[mu] = getStagphase x mu.
Proof. intros H. destruct mu as [|[|[|[|]]]]; try lia; reflexivity. Qed.

Lemma sgn_mod a n : 0 < n -> Z.even n = true -> sgn (a mod n) = sgn a.
Proof.
  intros Hn He. rewrite (Z.div_mod a n) at 2 by lia. rewrite sgn_add.
  unfold sgn at 2. rewrite Z.even_mul, He. cbn [orb]. ring.
Qed.

(** the product of the phases around a plaquette is -1 *)
Lemma stag_plaq G x mu nu : in_box x G -> length G = 4%nat -> (forall k, (k < 4)%nat -> Z.even G.[k] = true) ->
  (mu < 4)%nat -> (nu < 4)%nat -> mu <> nu ->
  getStagphase x mu * getStagphase (periodic_shift G x mu 1) nu *
  getStagphase (periodic_shift G x nu 1) mu * getStagphase x nu = -1.
Proof.
  intros Hx HG He Hmu Hnu Hne.
  assert (Hpos : forall z, in_box z G -> forall k, (k < 4)%nat -> 0 <= z.[k]).
  { intros z Hz k Hk. apply in_box_nth in Hz as [_ Hz]. apply Hz. congruence. }
  assert (Hxl : length x = 4%nat) by (rewrite (in_box_length _ _ Hx); assumption).
  pose proof (shift_in_box G x mu 1 Hx ltac:(congruence)) as H1.
  pose proof (shift_in_box G x nu 1 Hx ltac:(congruence)) as H2.
  assert (Hs : forall k, (k < 4)%nat -> sgn (x.[k] + 1) = - sgn x.[k]).
  { intros k Hk. rewrite sgn_add. change (sgn 1) with (-1). ring. }
  assert (Hgp : forall k, (k < 4)%nat -> 0 < G.[k]).
  { intros k Hk. apply in_box_nth in Hx as [_ Hx]. specialize (Hx k ltac:(congruence)). lia. }
  rewrite !stagphase_spec by (try lia; intros k Hk; eapply Hpos; eauto; lia).
  unfold periodic_shift. 
  assert (K : forall k m v, (k < 4)%nat -> (m < 4)%nat -> (upd x m v).[k] = if (m =? k)%nat then v else x.[k]).
  { intros k m v Hk Hm. destruct (Nat.eqb_spec m k) as [->|]; [apply nth_upd_eq; congruence|now apply nth_upd_neq]. }
  pose proof (sgn_sq x.[0]) as Q0. pose proof (sgn_sq x.[1]) as Q1.
  pose proof (sgn_sq x.[2]) as Q2. pose proof (sgn_sq x.[3]) as Q3.
  destruct mu as [|[|[|[|]]]]; try lia; destruct nu as [|[|[|[|]]]]; try lia;
  cbn [map firstn sumZ fold_right]; rewrite ?K by lia; cbn [Nat.eqb]; rewrite ?sgn_add;
  rewrite ?sgn_mod by (auto; apply Hgp || apply He; lia); rewrite ?Hs by lia; change (sgn 0) with 1;
  clear -Q0 Q1 Q2 Q3; unfold sgn in *; destruct (Z.even x.[0]), (Z.even x.[1]), (Z.even x.[2]), (Z.even x.[3]); reflexivity.
Qed.
