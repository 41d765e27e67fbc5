From Coq Require Import Permutation.
From Verif Require Import Base GeometryModel GeometrySpec GeometryProofs HaloModel HaloProofs Prop_Geometry Prop_Halo FieldModel FieldSpec.
Open Scope Z_scope.

Lemma to_int_id z : -2147483648 <= z < 2147483648 -> to_int z = z.
Proof. intros H. unfold to_int. rewrite Z.mod_small; lia. Qed.

Section Ix.
Context (l : layout) (n ext : Z) (Hn : 0 < n) (He : 0 < ext < 2147483648).
Lemma index_range s d : 0 <= s < ext -> 0 <= d < n -> 0 <= index l n ext s d < ext * n.
Proof. intros Hs Hd. unfold index. destruct l; [nia|]. rewrite to_int_id by lia. nia. Qed.
Lemma index_inj s d s' d' : 0 <= s < ext -> 0 <= d < n -> 0 <= s' < ext -> 0 <= d' < n ->
  index l n ext s d = index l n ext s' d' -> s = s' /\ d = d'.
Proof.
  intros Hs Hd Hs' Hd'. unfold index. destruct l.
  - intros E. assert (s = s') by nia. subst. split; lia.
  - rewrite to_int_id by lia. intros E. assert (d = d') by nia. subst. split; lia.
Qed.
Lemma index_surj k : 0 <= k < ext * n -> exists s d, 0 <= s < ext /\ 0 <= d < n /\ index l n ext s d = k.
Proof.
  intros Hk. unfold index. destruct l.
  - exists (k / n), (k mod n). pose proof (Z.div_mod k n). pose proof (Z.mod_pos_bound k n Hn).
    assert (0 <= k / n < ext) by (split; [apply Z.div_pos; lia|apply Z.div_lt_upper_bound; lia]). lia.
  - exists (k mod ext), (k / ext). rewrite to_int_id by lia. pose proof (Z.div_mod k ext). pose proof (Z.mod_pos_bound k ext ltac:(lia)).
    assert (0 <= k / ext < n) by (split; [apply Z.div_pos; lia|apply Z.div_lt_upper_bound; nia]). lia.
Qed.
End Ix.

(** subscriptions *)
Lemma sizeof_prod sz exts : sizeof sz exts = sz * prodZ exts.
Proof. induction exts as [|m r IH]; cbn [sizeof]; [unfold prodZ; cbn; lia|]. rewrite IH, prodZ_cons. ring. Qed.
Lemma nDegs_prod exts : nDegs exts = prodZ exts.
Proof. unfold nDegs. rewrite sizeof_prod. ring. Qed.
Lemma rm_cons m r i t : row_major (i :: t) (m :: r) = i * prodZ r + row_major t r.
Proof. reflexivity. Qed.

Lemma c_array_ok sz exts : 0 < sz -> forall idx k, in_box idx exts -> c_array sz exts (sz * k) idx = Some (k + row_major idx exts).
Proof.
  intros Hs. induction exts as [|m r IH]; intros idx k B; inversion B as [|i m' t r' Hi Ht]; subst; cbn [c_array].
  - f_equal. rewrite Z.mul_comm, Z.quot_mul by lia. cbn. lia.
  - rewrite sizeof_prod. replace (sz * k + i * (sz * prodZ r)) with (sz * (k + i * prodZ r)) by ring. rewrite IH by auto. f_equal.
    rewrite rm_cons. ring.
Qed.
Lemma rm_bounds idx exts : in_box idx exts -> 0 <= row_major idx exts < prodZ exts.
Proof. intros B. rewrite <- lxOfCoord_row_major by (apply in_box_length; auto). now apply lxOfCoord_bounds. Qed.
Lemma subscribe_ok sz r : 0 < sz -> forall m idx k, in_box idx (m :: r) -> 0 <= k -> sz * (k + prodZ (m :: r)) < 2147483648 ->
  subscribe sz r (sz * k) idx = Some (k + row_major idx (m :: r)).
Proof.
  intros Hs. induction r as [|m2 r IH]; intros m idx k B Hk Lim; inversion B as [|i m' t r' Hi Ht]; subst.
  - inversion Ht; subst. cbn [subscribe]. f_equal. unfold prodZ in Lim. cbn [fold_right] in Lim. rewrite to_int_id by nia.
    replace (sz * k + sz * i) with ((k + i) * sz) by ring. rewrite Z.quot_mul by lia. cbn. lia.
  - assert (Hr : 0 < prodZ (m2 :: r)).
    { apply prodZ_pos. clear -Ht. unfold in_box in Ht. revert Ht. generalize (m2 :: r). intros s H. induction H; constructor; auto. lia. }
    cbn [subscribe]. rewrite sizeof_prod.
    replace (sz * k + i * (sz * prodZ (m2 :: r))) with (sz * (k + i * prodZ (m2 :: r))) by ring.
    rewrite (IH m2) by (auto; rewrite ?(prodZ_cons m) in Lim; nia). f_equal. rewrite (rm_cons m). ring.
Qed.
Lemma element_ok l sz exts ext site idx : 0 < sz -> sz * prodZ exts < 2147483648 -> in_box idx exts ->
  element l sz exts ext site idx = Some (index l (nDegs exts) ext site (row_major idx exts)).
Proof.
  intros Hs Lim B. unfold element. destruct exts as [|m r].
  - inversion B; subst. reflexivity.
  - destruct l.
    + replace (site * sizeof sz (m :: r)) with (sz * (site * prodZ (m :: r))) by (rewrite sizeof_prod; ring).
      rewrite c_array_ok by auto. f_equal. unfold index. rewrite nDegs_prod. ring.
    + replace 0 with (sz * 0) by ring. rewrite (subscribe_ok sz r Hs m) by (auto; try lia). cbn [option_map]. f_equal.
Qed.

(** the exchange *)
Section Words.
Context {V : Type} (l : layout) (n ext : Z) (Hn : 0 < n) (w : Z -> table V).
Definition rd (o : option (Z * Z)) (d : Z) : option V := match o with Some (q, j) => w q (index l n ext j d) | None => None end.
Definition sim (b : table (Z * Z)) (bw : table V) : Prop := forall i d, 0 <= d < n -> bw (d + n * i) = rd (b i) d.
Definition labdata (q : Z) : table (Z * Z) := fun i => Some (q, i).

Lemma sim_send q surf : sim (fill_send surf (labdata q)) (fill_send_words l n ext surf (w q)).
Proof.
  intros i d Hd. unfold fill_send_words, fill_send, labdata.
  replace ((d + n * i) / n) with i by (rewrite Z.mul_comm, Z.div_add, Z.div_small by lia; lia).
  replace ((d + n * i) mod n) with d by (rewrite Z.mul_comm, Z.mod_add, Z.mod_small by lia; lia).
  destruct (surf i); reflexivity.
Qed.
Lemma filter_scale r m (s : list msg) : filter (fun x => (peer x =? r) && (tag x =? tag m)) (map (scale n) s)
  = map (scale n) (filter (fun x => (peer x =? r) && (tag x =? tag m)) s).
Proof.
  induction s as [|x s IH]; cbn [map filter]; auto. cbn [scale peer tag]. destruct (_ && _); cbn [map]; rewrite IH; reflexivity.
Qed.
Definition osim (b : option (table (Z * Z))) (bw : option (table V)) : Prop :=
  match b, bw with Some b, Some bw => sim b bw | None, None => True | _, _ => False end.
Lemma sim_recv sends sb sbw r b bw m : (forall q, sim (sb q) (sbw q)) -> osim b bw ->
  osim (recv_one sends sb r b m) (recv_one (fun q => map (scale n) (sends q)) sbw r bw (scale n m)).
Proof.
  intros Hs Hb. unfold recv_one. change (peer (scale n m)) with (peer m). change (tag (scale n m)) with (tag m). rewrite filter_scale. destruct b as [b|], bw as [bw|]; try contradiction; try exact I.
  destruct (filter _ _) as [|s [|]]; cbn [map]; try exact I. cbn [scale len off].
  destruct (Z.eqb_spec (len s) (len m)) as [E|E].
  2: { destruct (Z.eqb_spec (len s * n) (len m * n)); [nia|exact I]. }
  rewrite E, Z.eqb_refl. intros i d Hd.
  assert (Q : (off m * n <=? d + n * i) && (d + n * i <? off m * n + len m * n) = (off m <=? i) && (i <? off m + len m)).
  { apply eq_true_iff_eq. rewrite !andb_true_iff, !Z.leb_le, !Z.ltb_lt. split; intros; split; nia. }
  rewrite Q. clear Q. destruct (_ && _); [|apply Hb; auto].
  replace (off s * n + (d + n * i - off m * n)) with (d + n * (off s + (i - off m))) by ring. now apply Hs.
Qed.
Lemma sim_recv_all sends sb sbw r recvs : (forall q, sim (sb q) (sbw q)) ->
  osim (recv_all sends sb r recvs) (recv_all (fun q => map (scale n) (sends q)) sbw r (map (scale n) recvs)).
Proof.
  intros Hs. unfold recv_all.
  assert (K : forall recvs b bw, osim b bw -> osim (fold_left (recv_one sends sb r) recvs b)
     (fold_left (recv_one (fun q => map (scale n) (sends q)) sbw r) (map (scale n) recvs) bw)).
  { induction recvs0 as [|m t IH]; intros b bw H; cbn [fold_left map]; auto. apply IH. now apply sim_recv. }
  apply K. intros i d Hd. reflexivity.
Qed.
End Words.

(** writing the halo *)
Lemma fill_words_ok {V} l n ext offset sites (rb w : table V) : 0 < n -> 0 < ext < 2147483648 ->
  (forall i, In i sites -> 0 <= offset + i < ext) ->
  forall s d, 0 <= s < ext -> 0 <= d < n ->
  fill_from_recv_words l n ext offset sites rb w (index l n ext s d) =
    if existsb (fun i => offset + i =? s) sites then rb (d + n * (s - offset)) else w (index l n ext s d).
Proof.
  intros Hn He Hs s d Rs Rd. unfold fill_from_recv_words.
  assert (K : forall L w, (forall p, In p L -> 0 <= offset + fst p < ext /\ 0 <= snd p < n) ->
     fold_left (fun (w : table V) (p : Z * Z) => let '(i, d) := p in
       fun a => if a =? index l n ext (offset + i) d then rb (d + n * i) else w a) L w (index l n ext s d)
     = if existsb (fun p => (offset + fst p =? s) && (snd p =? d)) L then rb (d + n * (s - offset)) else w (index l n ext s d)).
  { induction L as [|[i e] L IH] using rev_ind; intros w0 R; [reflexivity|]. rewrite fold_left_app, existsb_app. cbn [fold_left existsb fst snd].
    destruct (R (i, e)) as [R1 R2]; [apply in_or_app; right; now left|]. cbn [fst snd] in R1, R2. rewrite orb_false_r.
    destruct (Z.eqb_spec (index l n ext s d) (index l n ext (offset + i) e)) as [E|E].
    - apply index_inj in E; auto. destruct E as [-> ->]. rewrite !Z.eqb_refl, orb_true_r.
      now replace (offset + i - offset) with i by lia.
    - replace ((offset + i =? s) && (e =? d)) with false.
      + rewrite orb_false_r. apply IH. intros p Hp. apply R. apply in_or_app. now left.
      + symmetry. apply not_true_is_false. rewrite andb_true_iff, !Z.eqb_eq. intros [<- <-]. now apply E. }
  rewrite K.
  2: { intros [i e] Hp. apply in_prod_iff in Hp. destruct Hp as [H1 H2]. apply in_seqZ in H2. split; cbn; auto. }
  replace (existsb _ (list_prod sites (seqZ n))) with (existsb (fun i => offset + i =? s) sites); [reflexivity|].
  apply eq_true_iff_eq. rewrite !existsb_exists. split.
  - intros (i & H1 & H2). exists (i, d). split; [apply in_prod_iff; split; auto; now apply in_seqZ|]. cbn. rewrite H2, Z.eqb_refl. reflexivity.
  - intros ([i e] & H1 & H2). apply in_prod_iff in H1. cbn in H2. apply andb_true_iff in H2. exists i. tauto.
Qed.

Lemma words_main V g l n ext (sched : Z -> list Z) order (w : Z -> table V) : valid_grid g = true -> 0 < n ->
  locVol g + bordVol g <= ext < 2147483648 -> good_sched g sched -> Permutation order (seqZ (bordVol g)) ->
  forall r, 0 <= r < nranks g -> exists w', updateHaloWords g l n ext sched order w r = Some w' /\
  (forall i d, locVol g <= i < locVol g + bordVol g -> 0 <= d < n ->
     exists gc r' i', glbCoordOfLoclx (rank_labels g r) i = Some gc /\ getLoclxAndRankOfCoords g gc = (r', i') /\
       0 <= r' < nranks g /\ 0 <= i' < locVol g /\ w' (index l n ext i d) = w r' (index l n ext i' d)) /\
  (forall i d, 0 <= i < ext -> ~ (locVol g <= i < locVol g + bordVol g) -> 0 <= d < n -> w' (index l n ext i d) = w r (index l n ext i d)).
Proof.
  intros Hv Hn He Hs Ho r Hr. pose proof (vols_nonneg g Hv) as VN.
  destruct (C10_halo (Z * Z) g Hv sched labdata Hs r Hr) as (d' & E & _ & F).
  unfold updateHalo in E.
  set (rcs := fun q => coordOfRank g q) in *.
  set (sb := fun q => fill_send (findSurfOfBord g (rcs q) (rank_labels g q) (sched q)) (labdata q)) in *.
  set (sbw := fun q => fill_send_words l n ext (findSurfOfBord g (rcs q) (rank_labels g q) (sched q)) (w q)).
  pose proof (sim_recv_all l n ext Hn w (fun q => halo_sends g (rcs q) 1) sb sbw r (halo_recvs g (rcs r) 1)
     (fun q => sim_send l n ext Hn w q _)) as S.
  change (recv_all (fun q => halo_sends g (coordOfRank g q) 1) sb r (halo_recvs g (coordOfRank g r) 1)) with
    (recv_all (fun q => halo_sends g (rcs q) 1) sb r (halo_recvs g (rcs r) 1)) in E.
  destruct (recv_all (fun q => halo_sends g (rcs q) 1) sb r (halo_recvs g (rcs r) 1)) as [rb|]; [|discriminate].
  cbn [osim] in S.
  destruct (recv_all (fun q => map (scale n) (halo_sends g (rcs q) 1)) sbw r (map (scale n) (halo_recvs g (rcs r) 1))) as [rbw|] eqn:EW; [|contradiction].
  cbn [option_map] in E. injection E as <-. exists (fill_from_recv_words l n ext (locVol g) order rbw (w r)).
  split; [unfold updateHaloWords; cbv zeta; unfold sbw, rcs in EW; cbv beta in EW; rewrite EW; reflexivity|].
  assert (Oi : forall i, In i order <-> 0 <= i < bordVol g).
  { intros i. rewrite <- in_seqZ. split; apply Permutation_in; auto. now apply Permutation_sym. }
  split.
  - intros i d Hi Hd. destruct (F i Hi) as (gc & r' & i' & G1 & G2 & G3 & G4 & G5). exists gc, r', i'.
    split; auto. split; auto. split; auto. split; auto.
    rewrite fill_words_ok; auto; try lia; [|intros j Hj; apply Oi in Hj; lia].
    replace (existsb _ order) with true.
    2: { symmetry. apply existsb_exists. exists (i - locVol g). split; [apply Oi; lia|lia]. }
    rewrite S by auto. unfold fill_from_recv in G5. replace (_ && _) with true in G5 by lia. rewrite G5. reflexivity.
  - intros i d Hi Hn' Hd. rewrite fill_words_ok; auto; try lia; [|intros j Hj; apply Oi in Hj; lia].
    replace (existsb _ order) with false; auto. symmetry. apply not_true_is_false. rewrite existsb_exists. intros (j & Hj & Ej).
    apply Oi in Hj. lia.
Qed.
