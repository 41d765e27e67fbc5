(** The remapping that makes the time local *)
From Verif Require Import Base GeometryModel GeometrySpec GeometryProofs OwnerProofs LabelProofs HaloProofs Geometry_final
  AllToAllModel AllToAllSpec AllToAllMain AllToAllSetup AllToAllRemap IldgModel IldgProofs RemapMain LocdMain.

Lemma filter_map_len {A B} (f : A -> B) p l : length (filter p (map f l)) = length (filter (fun x => p (f x)) l).
Proof. induction l as [|a l IH]; [reflexivity|]. cbn [map filter]. destruct (p (f a)); cbn [length]; now rewrite IH. Qed.
Lemma count_period a m (p : Z -> bool) : 0 <= a -> 0 < m ->
  Z.of_nat (length (filter (fun i => p (i mod m)) (seqZ (a * m)))) = a * Z.of_nat (length (filter p (seqZ m))).
Proof.
  intros Ha Hm. pattern a. apply natlike_ind; [reflexivity| |exact Ha]. clear a Ha. intros a Ha IH.
  replace (Z.succ a * m) with (a * m + m) by lia. rewrite seqZ_app by nia. rewrite filter_app, app_length, Nat2Z.inj_add, IH, filter_map_len.
  rewrite (filter_ext_in (fun x => p ((a * m + x) mod m)) p).
  - lia.
  - intros i Hi. apply in_seqZ in Hi. f_equal. rewrite Z.add_comm, Z.mod_add, Z.mod_small by lia. reflexivity.
Qed.

Lemma slab1_const g (f : Z -> Z -> Z * Z) : valid_grid g = true -> Z.rem (glbSize g).[1] (nranks g) = 0 ->
  (forall r i x, 0 <= r < nranks g -> 0 <= i < locVol g -> glb_coords g r i = Some x -> fst (f r i) = x.[1] / Z.quot (glbSize g).[1] (nranks g)) ->
  exists c, forall r q, 0 <= r < nranks g -> 0 <= q < nranks g -> going (locVol g) f r q = 0 \/ going (locVol g) f r q = c.
Proof.
  intros Hv Hdiv Hf.
  destruct (valid_grid_inv g Hv) as (n0&n1&n2&n3&l0&l1&l2&l3&Hg&Hl&Hn&Hll).
  set (P := n0*(n2*n3)). set (V2 := l2*l3).
  assert (HP : 0 < P) by (unfold P; repeat apply Z.mul_pos_pos; lia).
  assert (HV : 0 < V2) by (unfold V2; nia).
  assert (EN : nranks g = n1 * P) by (rewrite nranks_prod, Hg; cbn [nRanksDir]; rewrite prodZ4; unfold P; ring).
  assert (EV : locVol g = l0 * (l1 * V2)) by (rewrite locVol_prod, Hl, prodZ4 by assumption; unfold V2; ring).
  assert (EG : (glbSize g).[1] = n1 * l1) by (rewrite Hg; reflexivity).
  set (Tb := Z.quot (glbSize g).[1] (nranks g)) in *.
  assert (ET : n1 * l1 = n1 * P * Tb).
  { unfold Tb. pose proof (Z.quot_rem' (glbSize g).[1] (nranks g)) as H. rewrite Hdiv in H. rewrite EG, EN in *. lia. }
  clearbody P Tb.
  assert (ET' : l1 = P * Tb) by (apply (Z.mul_reg_l _ _ n1); [lia|]; rewrite ET; ring).
  assert (HT : 0 < Tb) by (clear -HP ET' Hll; nia).
  exists (l0 * (V2 * Tb)). intros r q Hr Hq. set (r1 := (r / (n2 * n3)) mod n1).
  assert (E1 : going (locVol g) f r q = Z.of_nat (length (filter (fun i => (fun k => k / (V2 * Tb) =? q - r1 * P) (i mod (P * (V2 * Tb)))) (seqZ (l0 * (P * (V2 * Tb))))))).
  { unfold going. do 2 f_equal. rewrite EV, ET'. replace (P * Tb * V2) with (P * (V2 * Tb)) by ring. apply filter_ext_in. intros i Hi. apply in_seqZ in Hi.
    assert (Hi' : 0 <= i < locVol g) by (rewrite EV, ET'; lia).
    destruct (site_coords g r i Hv Hr Hi') as (x & Hc & Hb & Ho).
    rewrite (Hf r i x Hr Hi' Hc). destruct (owner_fwd g x Hv Hb r i Ho) as (_ & _ & Ex).
    assert (Ex1 : x.[1] = r1 * l1 + (i / V2) mod l1).
    { rewrite Ex. unfold join_coords, coordOfRank, coordOfLx. rewrite Hl. replace (nRanksDir g) with [n0;n1;n2;n3] by (rewrite Hg; reflexivity).
      cbn [rev app coordOfLx_rev map2 nth].
      rewrite !Z.quot_div_nonneg by (repeat apply Z.quot_pos; lia). rewrite !Z.div_div by (clear -Hn Hll; nia).
      rewrite !Z.rem_mod_nonneg by (try apply Z.div_pos; clear -Hn Hll Hr Hi; nia).
      unfold r1, V2. replace (n3*n2) with (n2*n3) by ring. replace (l3*l2) with (l2*l3) by ring. reflexivity. }
    assert (Ei : (i mod (P * (V2 * Tb))) / (V2 * Tb) = ((i / V2) mod l1) / Tb).
    { assert (HPT : 0 < P * Tb) by (apply Z.mul_pos_pos; assumption). rewrite ET'. replace (P * (V2 * Tb)) with (V2 * (P * Tb)) by ring. rewrite (Z.rem_mul_r i V2 (P * Tb)) by (clear -HV HPT; lia).
      rewrite <- (Z.div_div _ V2 Tb) by lia. f_equal. rewrite Z.add_comm, Z.mul_comm, Z.div_add_l by lia. rewrite (Z.div_small (i mod V2)); [lia|apply Z.mod_pos_bound; lia]. }
    rewrite Ei, Ex1. set (y := (i / V2) mod l1). rewrite ET'. replace (r1 * (P * Tb) + y) with ((r1 * P) * Tb + y) by ring.
    rewrite Z.div_add_l by (clear -HT; lia). generalize (y / Tb), (r1 * P). clear. intros z w. destruct (Z.eqb_spec (w + z) q), (Z.eqb_spec z (q - w)); lia || reflexivity. }
  assert (0 < V2 * Tb) by (apply Z.mul_pos_pos; assumption). assert (0 < P * (V2 * Tb)) by (apply Z.mul_pos_pos; assumption). rewrite E1.
  rewrite (count_period l0 (P * (V2 * Tb)) (fun k => k / (V2 * Tb) =? q - r1 * P)) by lia. rewrite count_block by lia.
  destruct ((0 <=? q - r1 * P) && (q - r1 * P <? P)); [right|left]; ring.
Qed.

Section Time.
Context (g : grid) (Hv : valid_grid g = true) (Hf : glb_fits_int g) (Hd : Z.rem (glbSize g).[1] (nranks g) = 0).
Lemma locd_remap_time : locd_delivers g 0.
Proof.
  assert (H4 : (0 < 4)%nat) by lia.
  pose proof (glbVol_split g Hv) as (E & HN & Hn). pose proof (M_spec g Hv Hf 0%nat H4) as (HM & HM1 & HM2).
  destruct (length4 _ (glb_len g Hv)) as (a & b & c & d & EG).
  pose proof (glbSize_pos g Hv) as GP. rewrite EG in GP. inversion GP as [|? ? Pa GP1]. inversion GP1 as [|? ? Pb GP2]. inversion GP2 as [|? ? Pc GP3]. inversion GP3 as [|? ? Pd _]. subst.
  rewrite EG in Hd. cbn [nth] in Hd.
  assert (EP : perp_vol g 0 = b * (c * d)) by (rewrite (proj1 (perp_vol_eq g Hv Hf 0%nat H4)), EG; cbn [others dirs filter negb Nat.eqb sel_dirs map nth prodZ fold_right]; ring).
  pose proof (Z.quot_rem' b (nranks g)) as Hq0. rewrite Hd in Hq0. set (Tb := Z.quot b (nranks g)) in *.
  assert (Hpd : Z.rem (perp_vol g 0) (nranks g) = 0).
  { rewrite EP, Hq0. replace ((nranks g * Tb + 0) * (c * d)) with ((Tb * (c * d)) * nranks g) by ring. apply Z.rem_mul. lia. }
  assert (HTb : 0 < Tb) by nia. assert (EM : max_locd_perp_size g 0 = Tb * (c * d)).
  { rewrite EP in HM1, HM2. set (M := max_locd_perp_size g 0) in *. set (R := c * d) in *. assert (0 < R) by (unfold R; nia).
    assert (b * R = nranks g * (Tb * R)) by (rewrite Hq0; ring). nia. }
  apply (locd_remap_const g Hv Hf 0 H4 Hpd).
  assert (Hslab : forall r i x, 0 <= r < nranks g -> 0 <= i < locVol g -> glb_coords g r i = Some x -> fst (total_index (locd_make g 0) r i) = x.[1] / Z.quot (glbSize g).[1] (nranks g)).
  2:{ apply slab1_const; try assumption. rewrite EG. exact Hd. }
  intros e i x He Hi Hx. unfold total_index.
  destruct (site_coords g e i Hv He Hi) as (x' & Hc' & Hbx & Ho). assert (x' = x) by congruence. subst x'.
  rewrite (make_spec g Hv Hf 0 H4 e i x Hx Hbx). cbn [fst]. rewrite EM, EG. cbn [nth]. fold Tb.
  clear Hx Ho Hc'. unfold perp_pos. rewrite EG in Hbx |- *. clearbody Tb. clear Hq0 HM1 HM2 EM EP Hd Hpd EG E. unfold in_box in Hbx. inversion Hbx as [|x0 ? x' ? B0 Hb1]. subst. inversion Hb1 as [|x1 ? x'' ? B1 Hb2]. subst.
  inversion Hb2 as [|x2 ? x''' ? B2 Hb3]. subst. inversion Hb3 as [|x3 ? ? ? B3 Hb4]. subst. inversion Hb4. subst.
  cbn [others dirs filter negb Nat.eqb sel_dirs map nth row_major prodZ fold_right].
  replace (x1 * (c * (d * 1)) + (x2 * (d * 1) + (x3 * 1 + 0))) with (x1 * (c * d) + (x2 * d + x3)) by ring.
  rewrite (Z.mul_comm Tb), <- Z.div_div by nia. rewrite Z.div_add_l, (Z.div_small (x2 * d + x3)) by nia. f_equal. lia.
Qed.
End Time.
