From Verif Require Import Base GeometryModel GeometrySpec GeometryProofs OwnerProofs AllToAllModel IldgModel IldgProofs RemapMain
  ParProofs BytesModel BytesSpec BytesProofs IldgFileModel IldgFileSpec IldgFileProofs VectorFileModel VectorFileSpec VectorFileProofs
  ChecksumSpec.
From Coq Require Import Permutation.

Lemma site_at_pos L x : length L = 4%nat -> in_box x L -> site_at L (ildg_position L x) = x.
Proof.
  intros HL Hx. destruct L as [|n0 [|n1 [|n2 [|n3 [|]]]]]; try discriminate HL.
  inversion Hx as [|x0 ? ? ? H0 Hx1]; subst. inversion Hx1 as [|x1 ? ? ? H1 Hx2]; subst.
  inversion Hx2 as [|x2 ? ? ? H2 Hx3]; subst. inversion Hx3 as [|x3 ? ? ? H3 Hx4]; subst. inversion Hx4; subst.
  unfold site_at, ildg_position. cbn [nth].
  assert (E1 : (((x0 * n3 + x3) * n2 + x2) * n1 + x1) / n1 = (x0 * n3 + x3) * n2 + x2) by (rewrite Z.div_add_l, (Z.div_small x1) by lia; lia).
  assert (E2 : ((x0 * n3 + x3) * n2 + x2) / n2 = x0 * n3 + x3) by (rewrite Z.div_add_l, (Z.div_small x2) by lia; lia).
  assert (E3 : (x0 * n3 + x3) / n3 = x0) by (rewrite Z.div_add_l, (Z.div_small x3) by lia; lia).
  assert (P12 : 0 < n1 * n2) by (clear - H1 H2; nia).
  rewrite <- (Z.div_div _ (n1 * n2) n3) by (clear - P12 H3; lia). rewrite <- (Z.div_div _ n1 n2) by (clear - H1 H2; lia). rewrite E1, E2, E3.
  f_equal; f_equal; [|f_equal; [|f_equal]].
  - rewrite Z.add_comm, Z.mod_add, Z.mod_small; lia.
  - rewrite Z.add_comm, Z.mod_add, Z.mod_small; lia.
  - rewrite Z.add_comm, Z.mod_add, Z.mod_small; lia.
Qed.

Lemma all_cells_map {A} (t : table A) l (f : Z -> A) : (forall i, In i l -> t i = Some (f i)) -> all_cells t l = Some (map f l).
Proof. induction l as [|i l IH]; intros H; cbn [all_cells map]; auto. rewrite (H i (or_introl eq_refl)), IH; auto. intros; apply H; right; auto. Qed.
Lemma omap_map {A B} (f : A -> outcome B) (h : A -> B) l : (forall a, In a l -> f a = Ok (h a)) -> omap f l = Ok (map h l).
Proof. induction l as [|a l IH]; intros H; cbn [omap map]; auto. rewrite (H a (or_introl eq_refl)). cbn [bind]. rewrite IH; auto. intros; apply H; right; auto. Qed.
Lemma omap_forall2 {A B} (f : A -> outcome B) (P : A -> B -> Prop) l : (forall a, In a l -> exists b, f a = Ok b /\ P a b) ->
  exists bs, omap f l = Ok bs /\ Forall2 P l bs.
Proof.
  induction l as [|a l IH]; intros H; cbn [omap]; [exists []; auto|]. destruct (H a (or_introl eq_refl)) as (b & E & Hb). rewrite E. cbn [bind].
  destruct IH as (bs & E' & Hbs); [intros; apply H; right; auto|]. rewrite E'. cbn [bind]. exists (b :: bs). split; auto.
Qed.

Lemma nth_map_seqZ {A} (f : Z -> A) n k d : (k < Z.to_nat n)%nat -> nth k (map f (seqZ n)) d = f (Z.of_nat k).
Proof.
  intros H. rewrite (nth_indep _ d (f (Z.of_nat 0))) by (rewrite map_length, seqZ_length; lia). rewrite map_nth. unfold seqZ.
  rewrite map_nth, seq_nth by lia. reflexivity.
Qed.

Section Vec.
Variables (native : endianness) (g : grid) (sched : Z -> list Z) (sz ndeg : Z) (field : list Z -> site).
Hypotheses (Hv : valid_grid g = true) (Hfit : glb_fits_int g) (Hdiv : Z.rem (glbSize g).[0] (nranks g) = 0).
Hypothesis Hsched : forall m i, In i (sched m) <-> 0 <= i < m.
Hypotheses (Hsz : 0 < sz) (Hnd : 0 < ndeg).
Hypothesis Hshape : forall x, in_box x (glbSize g) -> shaped sz ndeg (field x).
Let N := nranks g. Let n := locVol g. Let L := glbSize g.
Let b := ndeg * sz.
Let f_at (k : Z) : list Z := be_site native (field (site_at L k)).

Lemma fix_length t : length (fixFromNative native BigEndian t) = length t.
Proof. unfold fixFromNative, fixEndianness. destruct (end_eqb BigEndian native); auto. now rewrite byteSwap_rev, rev_length. Qed.
Lemma shaped_len s : shaped sz ndeg s -> Z.of_nat (length (be_site native s)) = b.
Proof.
  intros [H1 H2]. unfold b. rewrite <- H1. clear H1. unfold be_site. induction H2 as [|t s [Ht _] H IH]; cbn [map concat length]; [lia|].
  rewrite app_length, fix_length. lia.
Qed.
Lemma site_of_k k : 0 <= k < prodZ L -> exists x, in_box x L /\ ildg_position L x = k /\ site_at L k = x.
Proof.
  intros Hk. destruct (glbVol_split g Hv) as (E & HN & HV). fold L in E.
  destruct (pos_onto g Hv k) as (x & Hx & Ex); [lia|].
  exists x. assert (Ek : ildg_position L x = k) by (rewrite <- Ex; symmetry; apply ildg_pos_eq; auto).
  split; auto. split; auto. rewrite <- Ek. apply site_at_pos; auto. now apply glb_len.
Qed.
Lemma f_at_len k : 0 <= k < prodZ L -> Z.of_nat (length (f_at k)) = b.
Proof. intros Hk. destruct (site_of_k k Hk) as (x & Hx & _ & Es). unfold f_at. rewrite Es. apply shaped_len, Hshape, Hx. Qed.

(** where a rank finds its sites *)
Lemma place r j : 0 <= r < N -> 0 <= j < n ->
  exists q i x, index_from_ILDG g r j = (q, i) /\ index_to_ILDG g q i = Some (r, j) /\ 0 <= q < N /\ 0 <= i < n /\ in_box x L /\
    getLoclxAndRankOfCoords g x = (q, i) /\ site_at L (r * n + j) = x.
Proof.
  intros Hr Hj. destruct (ildg_main g Hv Hfit) as [I1 I2]. destruct (I2 r j Hr Hj) as (q & i & E1 & Hq & Hi & E2).
  destruct (I1 q i Hq Hi) as (x & r' & j' & C & E3 & _ & _ & P & _). rewrite E2 in E3. injection E3 as <- <-.
  destruct (site_coords g q i Hv Hq Hi) as (x' & C' & Hb & Ho). rewrite C in C'. injection C' as <-.
  exists q, i, x. repeat (split; auto; try lia). rewrite <- (site_at_pos L x); [|now apply glb_len|exact Hb]. f_equal. exact P.
Qed.
Lemma place_from r j : 0 <= r < N -> 0 <= j < n ->
  exists q i x, index_from_ILDG g q i = (r, j) /\ 0 <= q < N /\ 0 <= i < n /\ in_box x L /\
    getLoclxAndRankOfCoords g x = (r, j) /\ site_at L (q * n + i) = x.
Proof.
  intros Hr Hj. destruct (ildg_main g Hv Hfit) as [I1 I2]. destruct (I1 r j Hr Hj) as (x & q & i & C & _ & Hq & Hi & P & E).
  destruct (site_coords g r j Hv Hr Hj) as (x' & C' & Hb & Ho). rewrite C in C'. injection C' as <-.
  exists q, i, x. repeat (split; auto; try lia). rewrite <- (site_at_pos L x); [|now apply glb_len|exact Hb]. f_equal. exact P.
Qed.

Lemma vol_eq : glbVol g = prodZ L /\ prodZ L = N * n /\ 0 < N /\ 0 < n.
Proof.
  destruct (glbVol_split g Hv) as (E & HN & HV). split; [|auto].
  unfold glbVol, L. apply volOfLx_prodZ.
Qed.

Lemma payload_length : Z.of_nat (length (payload native L field)) = prodZ L * b.
Proof. unfold payload. apply (flat_len f_at b (prodZ L)); [intros; now apply f_at_len|]. destruct vol_eq as (_ & E & HN & Hn). nia. Qed.
Section Write.
Variables (data : Z -> Z -> site) (garbage : table site).
Hypothesis Hd : forall x r i, in_box x L -> getLoclxAndRankOfCoords g x = (r, i) -> data r i = field x.
Lemma write_chunk_main r : 0 <= r < N -> write_chunk native g sched data garbage (n * b) r = Ok (flat_map (fun j => f_at (r * n + j)) (seqZ n)).
Proof.
  intros Hr. destruct vol_eq as (_ & Evol & HN & Hn).
  destruct (ildg_remap_main g Hv Hfit Hdiv site sched (fun q i => Some (data q i)) garbage Hsched r Hr) as [(out' & E & H) _].
  unfold write_chunk. rewrite E.
  rewrite (all_cells_map out' (seqZ (locVol g)) (fun j => field (site_at L (r * n + j)))).
  2:{ intros j Hj. apply in_seqZ in Hj. destruct (place r j Hr Hj) as (q & i & x & _ & E2 & Hq & Hi & Hb & Ho & Es).
      rewrite (H q i j Hq Hi E2), Es. f_equal. now apply Hd. }
  assert (EF : concat (map (fun s : site => concat (map (fixFromNative native BigEndian) s)) (map (fun j => field (site_at L (r * n + j))) (seqZ (locVol g))))
            = flat_map (fun j => f_at (r * n + j)) (seqZ n)).
  { rewrite map_map, <- flat_map_concat_map. reflexivity. }
  f_equal. etransitivity; [apply (f_equal (firstn _)); exact EF|]. apply firstn_all2.
  pose proof (flat_len (fun j => f_at (r * n + j)) b n) as FL. cbv beta in FL.
  assert (Z.of_nat (length (flat_map (fun j => f_at (r * n + j)) (seqZ n))) = n * b); [|lia].
  apply FL; [|lia]. intros j Hj. apply f_at_len. rewrite Evol. nia.
Qed.

(** the writes of all the ranks *)
Lemma fold_write_step chunk chunk' ori nb l f : (forall r, In r l -> chunk r = Ok (chunk' r)) -> (forall r, In r l -> 0 <= ori + r * nb) ->
  fold_left (write_step chunk ori nb) l (Ok f) = Ok (fold_left (fun f r => fwrite (mkFile (content f) (ori + r * nb)) (chunk' r)) l f).
Proof.
  revert f. induction l as [|r l IH]; intros f H1 H2; cbn [fold_left]; auto.
  unfold write_step at 2. cbn [bind]. rewrite (H1 r (or_introl eq_refl)). cbn [bind]. unfold fseek.
  destruct (Z.ltb_spec (ori + r * nb) 0) as [H|H]; [specialize (H2 r (or_introl eq_refl)); lia|]. cbn [bind].
  apply IH; intros; [apply H1|apply H2]; right; auto.
Qed.

Definition data_head (name : list Z) : list Z :=
  bytes_of BigEndian 4 0x456789ab ++ [0; 1] ++ [0; 0] ++ bytes_of BigEndian 8 (prodZ L * b) ++ name ++ repeat 0 (128 - length name).
Lemma data_head_length name : good_name name -> length (data_head name) = 144%nat.
Proof. intros [H _]. unfold data_head. rewrite !app_length, !bytes_of_length, repeat_length. cbn [length]. lia. Qed.
Lemma write_header_main f name len : at_end f -> good_name name ->
  write_record_header native f (build_record_header 0 0 name len) =
  mkFile (content f ++ bytes_of BigEndian 4 0x456789ab ++ [0; 1] ++ [0; 0] ++ bytes_of BigEndian 8 len ++ name ++ repeat 0 (128 - length name)) (fsize f + 144).
Proof.
  intros [Hp H8] Hn. unfold write_record_header, master_write, header_bytes, build_record_header. cbn [magic_no version mbme_flag data_length type].
  rewrite !fix_from_native, type_field_good by auto. change (0 * 128 + 0 * 64) with 0. rewrite mbme0. change (bytes_of BigEndian 2 1) with [0;1].
  rewrite fwrite_end by auto. f_equal. rewrite !app_length, !bytes_of_length, repeat_length. destruct Hn as [Hn _]. cbn [length]. lia.
Qed.


Lemma write_data_main order f name : Permutation order (seqZ N) -> at_end f -> good_name name -> (prodZ L * b) mod 8 = 0 ->
  write_ildg_data_all native g sched order sz ndeg f data garbage name =
  Ok (mkFile (content f ++ data_head name ++ payload native L field) (fsize f + 144 + prodZ L * b)).
Proof.
  intros HP Hf Hn H8. destruct vol_eq as (Egl & Evol & HN & HnV).
  assert (Hb : 0 < b) by (unfold b; nia).
  unfold write_ildg_data_all. cbv zeta. rewrite (write_header_main f name) by auto. cbn [pos].
  replace (ndeg * sz * glbVol g) with (prodZ L * b) by (rewrite Egl; unfold b; ring).
  replace (Z.quot (prodZ L * b) (nranks g)) with (n * b).
  2:{ rewrite Evol. fold N. replace (N * n * b) with (n * b * N) by ring. rewrite Z.quot_mul; lia. }
  fold (data_head name). set (c1 := content f ++ data_head name).
  assert (Ec1 : Z.of_nat (length c1) = fsize f + 144) by (unfold c1; rewrite app_length, (data_head_length name Hn); unfold fsize; lia).
  rewrite (fold_write_step _ (fun r => flat_map (fun j => f_at (r * n + j)) (seqZ n))).
  2:{ intros r Hr. apply write_chunk_main. apply in_seqZ. now apply (Permutation_in _ HP). }
  2:{ intros r Hr. apply (Permutation_in _ HP), in_seqZ in Hr. nia. }
  cbn [bind].
  assert (EC : forall p, content (fold_left (fun f0 r => fwrite (mkFile (content f0) (fsize f + 144 + r * (n * b))) (flat_map (fun j => f_at (r * n + j)) (seqZ n))) order (mkFile c1 p)) = c1 ++ payload native L field).
  { intros p. rewrite <- Ec1.
    pose proof (writes_main c1 (fun r => flat_map (fun j => f_at (r * n + j)) (seqZ n)) (n * b) N) as W.
    rewrite W; auto; try lia.
    - unfold payload. rewrite Evol. rewrite (flat_two (fun k => be_site native (field (site_at L k))) N n) by lia. reflexivity.
    - intros r Hr. apply (flat_len (fun j => f_at (r * n + j)) b n); [|lia]. intros j Hj. apply f_at_len. rewrite Evol. nia. }
  unfold fseek. rewrite ceil8 by nia. replace (- (prodZ L * b) mod 8) with 0 by (Z.div_mod_to_equations; lia). rewrite Z.add_0_r.
  assert (0 <= fsize f) by (unfold fsize; lia).
  destruct (Z.ltb_spec (fsize f + 144 + prodZ L * b) 0) as [H1|H1]; [nia|]. cbn [bind].
  rewrite Z.rem_mod_nonneg, H8 by nia. cbn [Z.eqb negb]. rewrite EC. unfold c1. now rewrite <- app_assoc.
Qed.
End Write.

Section Read.
Variables (c1 c2 : list Z) (garbage : table (list Z)).
Let f0 := mkFile (c1 ++ payload native L field ++ c2) (Z.of_nat (length c1)).

Lemma read_chunk_main r : 0 <= r < N -> read_chunk f0 (Z.of_nat (length c1)) (n * b) r = Ok (flat_map (fun j => f_at (r * n + j)) (seqZ n)).
Proof.
  intros Hr. destruct vol_eq as (Egl & Evol & HN & Hn). assert (Hb : 0 < b) by (unfold b; nia).
  unfold read_chunk, fseek. destruct (Z.ltb_spec (Z.of_nat (length c1) + r * (n * b)) 0) as [H|H]; [nia|]. cbn [bind]. unfold fread. cbn [content pos f0].
  set (ch := fun r => flat_map (fun j => f_at (r * n + j)) (seqZ n)).
  assert (Hch : forall i, 0 <= i < N -> Z.of_nat (length (ch i)) = n * b).
  { intros i Hi. apply (flat_len (fun j => f_at (i * n + j)) b n); [|lia]. intros j Hj. apply f_at_len. rewrite Evol. nia. }
  assert (EP : payload native L field = flat_map ch (seqZ N)).
  { unfold payload. rewrite Evol. apply (flat_two (fun k => be_site native (field (site_at L k))) N n); lia. }
  rewrite EP. replace (Z.to_nat (Z.of_nat (length c1) + r * (n * b))) with (length c1 + Z.to_nat (r * (n * b)))%nat by lia.
  rewrite (sub_flat ch (n * b) N Hch r c1 c2 Hr). rewrite (Hch r Hr), Z.eqb_refl. reflexivity.
Qed.

Lemma split_site s : shaped sz ndeg s -> map (fixToNative native BigEndian) (split_degs sz ndeg (be_site native s)) = s.
Proof.
  intros [H1 H2]. unfold split_degs. set (h := fun k => fixFromNative native BigEndian (nth (Z.to_nat k) s [])).
  assert (E : be_site native s = flat_map h (seqZ ndeg)).
  { unfold be_site. rewrite flat_map_concat_map. f_equal. apply nth_ext with (d := []) (d' := []).
    - rewrite !map_length, seqZ_length. lia.
    - intros k Hk. rewrite map_length in Hk. rewrite nth_map_seqZ by lia. unfold h. rewrite Nat2Z.id.
      rewrite (nth_indep _ [] (fixFromNative native BigEndian [])) by now rewrite map_length. now rewrite map_nth. }
  rewrite E, map_map. apply nth_ext with (d := []) (d' := []).
  { rewrite map_length, seqZ_length. lia. }
  intros k Hk. rewrite map_length, seqZ_length in Hk. rewrite nth_map_seqZ by lia.
  rewrite (cut_flat h sz ndeg).
  - unfold h. rewrite Nat2Z.id. unfold fixToNative, fixFromNative, fixEndianness. destruct native; cbn [end_eqb]; auto using byteSwap_invol.
  - intros i Hi. unfold h. rewrite fix_length. rewrite Forall_forall in H2. apply H2. apply nth_In. lia.
  - lia.
Qed.

Lemma read_rank_main r : 0 <= r < N -> exists out, 
  read_rank native g sched sz ndeg b (map (fun r => flat_map (fun j => f_at (r * n + j)) (seqZ n)) (seqZ N)) garbage r = Ok out /\
  forall x i, in_box x L -> getLoclxAndRankOfCoords g x = (r, i) -> out i = Some (field x).
Proof.
  intros Hr. destruct vol_eq as (Egl & Evol & HN & Hn). assert (Hb : 0 < b) by (unfold b; nia).
  set (ch := fun r => flat_map (fun j => f_at (r * n + j)) (seqZ n)).
  set (inp := fun q i : Z => if (0 <=? i) && (i <? locVol g) then Some (cut b (nth (Z.to_nat q) (map ch (seqZ N)) []) i) else None).
  destruct (ildg_remap_main g Hv Hfit Hdiv (list Z) sched inp garbage Hsched r Hr) as [_ (out' & E & H)].
  assert (HC : forall q i, 0 <= q < N -> 0 <= i < n -> inp q i = Some (f_at (q * n + i))).
  { intros q i Hq Hi. unfold inp. replace ((0 <=? i) && (i <? locVol g)) with true by (symmetry; apply andb_true_intro; split; [apply Z.leb_le|apply Z.ltb_lt]; unfold n in *; lia).
    f_equal. rewrite nth_map_seqZ, Z2Nat.id by lia.
    unfold ch. apply (cut_flat (fun j => f_at (q * n + j)) b n); auto. intros j Hj. apply f_at_len. rewrite Evol. nia. }
  assert (HO : forall j, 0 <= j < n -> exists x, in_box x L /\ getLoclxAndRankOfCoords g x = (r, j) /\ out' j = Some (be_site native (field x))).
  { intros j Hj. destruct (place_from r j Hr Hj) as (q & i & x & Ei & Hq & Hi & Hbx & Ho & Es).
    exists x. split; auto. split; auto. rewrite (H q i j Hq Hi Ei), HC by auto. unfold f_at. now rewrite Es. }
  unfold read_rank. fold ch. fold inp. rewrite E.
  set (h := fun j => match out' j with Some s => s | None => [] end).
  assert (Hh : forall j, 0 <= j < n -> out' j = Some (h j)) by (intros j Hj; unfold h; destruct (HO j Hj) as (x & _ & _ & ->); reflexivity).
  rewrite (all_cells_map out' (seqZ (locVol g)) h) by (intros j Hj; apply Hh; now apply in_seqZ).
  eexists. split; [reflexivity|]. intros x j Hx Ho.
  assert (Hj : 0 <= j < n) by apply (owner_fwd g x Hv Hx r j Ho).
  rewrite <- flat_map_concat_map. unfold view_field. fold b. fold n.
  assert (HL : forall i, 0 <= i < n -> Z.of_nat (length (h i)) = b).
  { intros i Hi. destruct (HO i Hi) as (y & Hy & _ & Ey). unfold h. rewrite Ey. apply shaped_len, Hshape, Hy. }
  rewrite (flat_len h b n HL n) by lia.
  replace ((0 <=? j) && ((j + 1) * b <=? n * b)) with true by (symmetry; apply andb_true_intro; split; apply Z.leb_le; nia).
  rewrite (cut_flat h b n j HL Hj). f_equal.
  destruct (HO j Hj) as (y & Hy & Oy & Ey). unfold h. rewrite Ey.
  assert (y = x) as -> by (eapply owner_inj; eauto; congruence). apply split_site, Hshape, Hx.
Qed.

Lemma read_data_main h : data_length h = prodZ L * b -> (prodZ L * b) mod 8 = 0 ->
  exists outs, read_ildg_data_all native g sched sz ndeg garbage f0 h =
     Ok (outs, mkFile (content f0) (Z.of_nat (length c1) + prodZ L * b)) /\
  Forall2 (fun r out => forall x i, in_box x L -> getLoclxAndRankOfCoords g x = (r, i) -> out i = Some (field x)) (seqZ N) outs.
Proof.
  intros Eh H8. destruct vol_eq as (Egl & Evol & HN & Hn). assert (Hb : 0 < b) by (unfold b; nia).
  unfold read_ildg_data_all. cbv zeta. rewrite Eh. fold N. cbn [pos f0].
  replace (Z.quot (prodZ L * b) N) with (n * b) by (rewrite Evol; replace (N * n * b) with (n * b * N) by ring; rewrite Z.quot_mul; lia).
  replace (Z.quot (prodZ L * b) (glbVol g)) with b by (rewrite Egl, Z.mul_comm, Z.quot_mul; nia).
  rewrite (omap_map _ (fun r => flat_map (fun j => f_at (r * n + j)) (seqZ n))) by (intros r Hr; apply read_chunk_main; now apply in_seqZ).
  cbn [bind]. unfold fseek. rewrite ceil8 by nia. replace (- (prodZ L * b) mod 8) with 0 by (Z.div_mod_to_equations; lia). rewrite Z.add_0_r.
  destruct (Z.ltb_spec (Z.of_nat (length c1) + prodZ L * b) 0) as [H|H]; [nia|]. cbn [bind].
  destruct (omap_forall2 (read_rank native g sched sz ndeg b (map (fun r => flat_map (fun j => f_at (r * n + j)) (seqZ n)) (seqZ N)) garbage)
     (fun r out => forall x i, in_box x L -> getLoclxAndRankOfCoords g x = (r, i) -> out i = Some (field x)) (seqZ N)) as (outs & E & HF).
  { intros r Hr. apply read_rank_main. now apply in_seqZ. }
  exists outs. rewrite E. cbn [bind]. auto.
Qed.
End Read.
End Vec.
