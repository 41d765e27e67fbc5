From Verif Require Import Base GeometryModel GeometrySpec GeometryProofs OwnerProofs LabelProofs HaloProofs Geometry_final
  AllToAllModel AllToAllSpec AllToAllMain AllToAllSetup AllToAllRemap IldgModel IldgProofs.

Lemma going_ext n f f' r q : (forall i, 0 <= i < n -> f r i = f' r i) -> going n f r q = going n f' r q.
Proof.
  intros H. unfold going. do 2 f_equal. apply filter_ext_in. intros i Hi. apply in_seqZ in Hi. now rewrite H.
Qed.

Lemma count_block P K b : 0 < K -> 0 <= P ->
  Z.of_nat (length (filter (fun i => i / K =? b) (seqZ (P * K)))) = if (0 <=? b) && (b <? P) then K else 0.
Proof.
  intros HK HP. destruct ((0 <=? b) && (b <? P)) eqn:Eb.
  - transitivity (Z.of_nat (length (seqZ K))); [|rewrite seqZ_length; lia]. f_equal. rewrite <- (map_length (fun i => i - b * K)).
    apply Nat.le_antisymm; apply NoDup_incl_length.
    + apply (NoDup_map_inj _ (fun i => i)); [rewrite map_id; apply NoDup_filter, NoDup_seqZ|intros; lia].
    + intros k Hk. apply in_map_iff in Hk as (i & <- & Hi). apply filter_In in Hi as [Hi Ei]. apply in_seqZ in Hi. apply in_seqZ.
      pose proof (Z.div_mod i K). pose proof (Z.mod_pos_bound i K HK). assert (i / K = b) by lia. nia.
    + apply NoDup_seqZ.
    + intros k Hk. apply in_seqZ in Hk. apply in_map_iff. exists (k + b * K). split; [lia|]. apply filter_In. split.
      * apply in_seqZ. nia.
      * rewrite Z.div_add, Z.div_small by lia. lia.
  - replace (filter _ _) with (@nil Z); [reflexivity|]. symmetry. 
    destruct (filter (fun i => i / K =? b) (seqZ (P * K))) as [|i l] eqn:E; [reflexivity|exfalso].
    assert (Hi : In i (filter (fun i => i / K =? b) (seqZ (P * K)))) by (rewrite E; now left).
    apply filter_In in Hi as [Hi Ei]. apply in_seqZ in Hi. 
    assert (0 <= i / K < P) by (split; [apply Z.div_pos; lia|apply Z.div_lt_upper_bound; lia]). lia.
Qed.

(** an index map giving to rank q the q-th slab of times *)
Lemma slab_sym g (f : Z -> Z -> Z * Z) r q : valid_grid g = true -> Z.rem (glbSize g).[0] (nranks g) = 0 ->
  (forall r i x, 0 <= r < nranks g -> 0 <= i < locVol g -> glb_coords g r i = Some x -> fst (f r i) = x.[0] / Z.quot (glbSize g).[0] (nranks g)) ->
  0 <= r < nranks g -> 0 <= q < nranks g -> going (locVol g) f r q = going (locVol g) f q r.
Proof.
  intros Hv Hdiv Hf. 
  destruct (valid_grid_inv g Hv) as (n0&n1&n2&n3&l0&l1&l2&l3&Hg&Hl&Hn&Hll).
  set (P := n1*n2*n3). set (V3 := l1*l2*l3).
  assert (HP : 0 < P) by (unfold P; assert (0 < n1*n2) by nia; nia).
  assert (HV : 0 < V3) by (unfold V3; assert (0 < l1*l2) by nia; nia).
  assert (EN : nranks g = n0 * P) by (rewrite nranks_prod, Hg; cbn [nRanksDir]; rewrite prodZ4; unfold P; ring).
  assert (EV : locVol g = l0 * V3) by (rewrite locVol_prod, Hl, prodZ4 by assumption; unfold V3; ring).
  assert (EG : (glbSize g).[0] = n0 * l0) by (rewrite Hg; reflexivity).
  set (Tb := Z.quot (glbSize g).[0] (nranks g)).
  assert (ET : n0 * l0 = n0 * P * Tb).
  { unfold Tb. pose proof (Z.quot_rem' (glbSize g).[0] (nranks g)) as H. rewrite Hdiv in H. rewrite EG, EN in *. lia. }
  assert (ET' : l0 = P * Tb) by nia. assert (HT : 0 < Tb) by nia.
  assert (Key : forall r q, 0 <= r < nranks g -> 0 <= q < nranks g -> going (locVol g) f r q = if r / P =? q / P then V3 * Tb else 0).
  { clear r q. intros r q Hr Hq.
    assert (E1 : going (locVol g) f r q = Z.of_nat (length (filter (fun i => i / (V3 * Tb) =? q - r / P * P) (seqZ (P * (V3 * Tb)))))).
    { unfold going. do 2 f_equal. rewrite EV, ET'. replace (P * Tb * V3) with (P * (V3 * Tb)) by ring. apply filter_ext_in. intros i Hi. apply in_seqZ in Hi.
      assert (Hi' : 0 <= i < locVol g) by (rewrite EV, ET'; lia).
      destruct (site_coords g r i Hv Hr Hi') as (x & Hc & Hb & Ho).
      rewrite (Hf r i x Hr Hi' Hc). fold Tb. destruct (owner_fwd g x Hv Hb r i Ho) as (_ & _ & Ex).
      assert (Ex0 : x.[0] = r / P * l0 + i / V3).
      { rewrite Ex. unfold join_coords, coordOfRank, coordOfLx. rewrite Hl. replace (nRanksDir g) with [n0;n1;n2;n3] by (rewrite Hg; reflexivity).
        cbn [rev app coordOfLx_rev map2 nth].
        rewrite !Z.quot_div_nonneg by (repeat apply Z.quot_pos; lia). rewrite !Z.div_div by nia.
        rewrite !Z.rem_mod_nonneg by (try apply Z.div_pos; lia).
        rewrite !Z.mod_small.
        - unfold P, V3. replace (n3*(n2*n1)) with (n1*n2*n3) by ring. replace (l3*(l2*l1)) with (l1*l2*l3) by ring. reflexivity.
        - replace (l3*(l2*l1)) with V3 by (unfold V3; ring). split; [apply Z.div_pos; lia|]. apply Z.div_lt_upper_bound; lia.
        - replace (n3*(n2*n1)) with P by (unfold P; ring). split; [apply Z.div_pos; lia|]. apply Z.div_lt_upper_bound; lia. }
      rewrite Ex0, ET'. replace (r / P * (P * Tb) + i / V3) with ((r / P * P) * Tb + i / V3) by ring.
      rewrite Z.div_add_l by lia. rewrite Z.div_div by lia. lia. }
    rewrite E1, count_block by nia.
    pose proof (Z.div_mod q P). pose proof (Z.mod_pos_bound q P HP). 
    destruct (Z.eqb_spec (r / P) (q / P)) as [->|Hne].
    - replace ((0 <=? q - q / P * P) && (q - q / P * P <? P)) with true by lia. reflexivity.
    - replace ((0 <=? q - r / P * P) && (q - r / P * P <? P)) with false; [reflexivity|]. symmetry. apply Bool.not_true_iff_false. intros H1.
      apply Hne. apply (Z.div_unique q P (r / P) (q - r / P * P)); lia. }
  intros Hr Hq. rewrite !Key by assumption. rewrite (Z.eqb_sym (q / P)). reflexivity.
Qed.

Section Ildg.
Context (g : grid) (Hv : valid_grid g = true) (Hf : glb_fits_int g).
Let N := nranks g. Let n := locVol g.
Let fto := total_index (index_to_ILDG g).
Let ffrom := index_from_ILDG g.

Lemma to_inv r i : 0 <= r < N -> 0 <= i < n -> let '(q, j) := fto r i in 0 <= q < N /\ 0 <= j < n /\ ffrom q j = (r, i).
Proof.
  intros Hr Hi. destruct (ildg_main g Hv Hf) as [H _]. destruct (H r i Hr Hi) as (x & q & j & Hc & E & Hq & Hj & _ & Hfr).
  unfold fto, total_index. rewrite E. repeat split; try assumption; lia.
Qed.
Lemma from_inv q j : 0 <= q < N -> 0 <= j < n -> let '(r, i) := ffrom q j in 0 <= r < N /\ 0 <= i < n /\ fto r i = (q, j).
Proof.
  intros Hr Hi. destruct (ildg_main g Hv Hf) as [_ H]. destruct (H q j Hr Hi) as (r & i & E & Hq & Hj & Hfr).
  unfold ffrom. rewrite E. unfold fto, total_index. rewrite Hfr. repeat split; try assumption; lia.
Qed.
Lemma fit : N * n <= int_max + 1.
Proof. pose proof (glbVol_split g Hv) as (E & _). unfold N, n, glb_fits_int in *. lia. Qed.

Lemma bij_hyps (f h : Z -> Z -> Z * Z) :
  (forall r i, 0 <= r < N -> 0 <= i < n -> let '(q, j) := f r i in 0 <= q < N /\ 0 <= j < n /\ h q j = (r, i)) ->
  (forall r i, 0 <= r < N -> 0 <= i < n -> 0 <= fst (f r i) < N /\ 0 <= snd (f r i) < n) /\
  (forall r i r' i', 0 <= r < N -> 0 <= i < n -> 0 <= r' < N -> 0 <= i' < n -> f r i = f r' i' -> r = r' /\ i = i').
Proof.
  intros H. split.
  - intros r i Hr Hi. specialize (H r i Hr Hi). destruct (f r i). cbn [fst snd]. tauto.
  - intros r i r' i' Hr Hi Hr' Hi' E. pose proof (H r i Hr Hi) as H1. pose proof (H r' i' Hr' Hi') as H2. rewrite E in H1. destruct (f r' i') as [q j].
    destruct H1 as (_ & _ & H1), H2 as (_ & _ & H2). split; congruence.
Qed.

Lemma to_sym : Z.rem (glbSize g).[0] N = 0 -> forall r q, 0 <= r < N -> 0 <= q < N -> going n fto r q = going n fto q r.
Proof.
  intros Hd r q Hr Hq. apply slab_sym; try assumption. intros a i x Ha Hi Hc. unfold fto, total_index.
  destruct (site_coords g a i Hv Ha Hi) as (x' & Hc' & Hb & Ho). assert (x' = x) by congruence. subst x'.
  rewrite (to_spec g Hv Hf a i x Hc Hb). cbn [fst]. fold N. rewrite ildg_pos_eq by assumption.
  pose proof (glbVol_split g Hv) as (Evol & HN & Hn). fold N n in Evol, HN, Hn.
  pose proof (in_box_nth x (glbSize g)) as Hbn. apply Hbn in Hb as [_ Hb]. rewrite (glb_len g Hv) in Hb.
  pose proof (Hb 0%nat ltac:(lia)) as B0. pose proof (Hb 1%nat ltac:(lia)) as B1. pose proof (Hb 2%nat ltac:(lia)) as B2. pose proof (Hb 3%nat ltac:(lia)) as B3.
  clear Hb Hbn. 
  destruct (length4 _ (glb_len g Hv)) as (G0 & G1 & G2 & G3 & EG). rewrite EG in *. cbn [nth] in *. rewrite prodZ4 in Evol.
  pose proof (Z.quot_rem' G0 N) as Hq0. rewrite Hd in Hq0. set (Tb := Z.quot G0 N) in *.
  assert (En : n = Tb * (G1 * G2 * G3)) by nia. assert (0 < G1 * G2) by nia. assert (0 < G1 * G2 * G3) by nia. assert (0 < Tb) by nia.
  fold n. rewrite En. rewrite (Z.mul_comm Tb). rewrite <- Z.div_div by lia. f_equal.
  symmetry. apply (Z.div_unique _ _ _ ((x.[3] * G2 + x.[2]) * G1 + x.[1])); [left|ring].
  assert (0 <= x.[3] * G2 + x.[2] < G3 * G2) by nia. nia.
Qed.
Lemma from_sym : Z.rem (glbSize g).[0] N = 0 -> forall r q, 0 <= r < N -> 0 <= q < N -> going n ffrom r q = going n ffrom q r.
Proof.
  intros Hd r q Hr Hq. rewrite (going_inv N n ffrom fto r q Hr Hq from_inv to_inv), (going_inv N n ffrom fto q r Hq Hr from_inv to_inv).
  now apply to_sym.
Qed.

Theorem ildg_remap_main : Z.rem (glbSize g).[0] (nranks g) = 0 ->
  forall (A : Type) (sched : Z -> list Z) (input : Z -> table A) (out : table A),
  (forall m i, In i (sched m) <-> 0 <= i < m) -> forall r, 0 <= r < nranks g ->
  (exists out', ildg_write_remap g sched input out r = Some out' /\
     forall q i j, 0 <= q < nranks g -> 0 <= i < locVol g -> index_to_ILDG g q i = Some (r, j) -> out' j = input q i) /\
  (exists out', ildg_read_remap g sched input out r = Some out' /\
     forall q i j, 0 <= q < nranks g -> 0 <= i < locVol g -> index_from_ILDG g q i = (r, j) -> out' j = input q i).
Proof.
  intros Hd A sched input out Hs r Hr. pose proof (glbVol_split g Hv) as (_ & HN & Hn). split.
  - destruct (bij_hyps fto ffrom to_inv) as [H1 H2].
    destruct (@remap_main N n HN (Z.lt_le_incl _ _ Hn) fto H1 H2 fit A (fun _ => n) sched input out) with (r := r) as (out' & E & Ho & _); try assumption.
    + reflexivity.
    + intros a Ha. apply local_right_sym; [assumption|]. intros b Hb. now apply to_sym.
    + exists out'. split; [exact E|]. intros q i j Hq Hi Ei. specialize (Ho q i Hq Hi). unfold fto, total_index in Ho. rewrite Ei in Ho. now apply Ho.
  - destruct (bij_hyps ffrom fto from_inv) as [H1 H2].
    destruct (@remap_main N n HN (Z.lt_le_incl _ _ Hn) ffrom H1 H2 fit A (fun _ => n) sched input out) with (r := r) as (out' & E & Ho & _); try assumption.
    + reflexivity.
    + intros a Ha. apply local_right_sym; [assumption|]. intros b Hb. now apply from_sym.
    + exists out'. split; [exact E|]. intros q i j Hq Hi Ei. specialize (Ho q i Hq Hi). unfold ffrom in Ho. rewrite Ei in Ho. now apply Ho.
Qed.
End Ildg.
